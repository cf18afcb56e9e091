(** C126: errors of the terrain are not amplified by filling.
    C127: edits of the terrain act on the cells behind them only; the ground of a filled depression
    does not matter. *)
From Coq Require Import String QArith Qabs Lqa.
From Verif Require Import Py Spec MHeap MFill LFill LEdge LFill2 LFill3 LFill4 LRat Grids PropsFill PropsPerm PropsLeast.
Set Implicit Arguments.
Unset Strict Implicit.
Local Open Scope nat_scope.
Local Open Scope list_scope.
Local Notation length := List.length.

(** [W x y]: "x is not much above y"; a lower x or a higher y keeps it so *)
Definition tolerance {T} (E : elev T) (ok : T -> Prop) (W : T -> T -> Prop) : Prop :=
  (forall x y, W x y \/ ~ W x y) /\
  forall x a b y, ok x -> ok a -> ok b -> ok y ->
    e_le E x a = true -> W a b -> e_le E b y = true -> W x y.

Section Stable.
  Context {T : Type} (E : elev T) (ok : T -> Prop) (rk : T -> Z).
  Notation le x y := (e_le E x y = true).

  (** C126, the general form (the case W = "lower or equal" is C111) *)
  Theorem C126_complete_within iverts nb (dem1 dem2 : list T) eps method fuel W :
    lower method = "complete"%string ->
    elev_laws E ok rk (e_zero E) -> eps_null E ok (e_zero E) -> Forall ok dem1 -> Forall ok dem2 ->
    grid_of iverts nb (length dem1) -> length dem1 <= fuel ->
    tolerance E ok W -> Forall2 W dem1 dem2 ->
    exists out1 out2,
      fill_sinks E fuel iverts nb dem1 eps None method = Ok out1 /\
      fill_sinks E fuel iverts nb dem2 eps None method = Ok out2 /\
      Forall2 W out1 out2.
  Proof.
    intros Em L NU O1 O2 G U [DW CW] H. assert (Ln := Forall2_len H). assert (G2 := G). rewrite Ln in G2.
    assert (U2 := U). rewrite Ln in U2.
    assert (F : flood_method method None) by (right; now left).
    assert (Ee : step_eps E method eps = e_zero E) by (unfold step_eps; now rewrite Em).
    rewrite <- Ee in L, NU.
    destruct (flood_facts eps L O1 G (mask := None) I F U) as [o1 [R1 [L1 [K1 [_ [N1 [_ [_ [_ [_ S1]]]]]]]]]].
    destruct (flood_facts eps L O2 G2 (mask := None) I F U2) as [o2 [R2 [L2 [K2 [_ [N2 [_ [_ [_ [_ S2]]]]]]]]]].
    exists o1, o2. split; auto. split; auto. apply Forall2_nth; [congruence|].
    intros n x y X Y.
    assert (Hn : n < length dem1) by (rewrite <- L1; apply nth_error_Some; congruence).
    assert (PW : forall m a b, nth_error dem1 m = Some a -> nth_error dem2 m = Some b -> W a b).
    { clear - H. induction H as [|a b l1 l2 Hab H IH]; intros [|m] x y Hx Hy; cbn in *; try discriminate; eauto. congruence. }
    assert (Ox : ok x) by (eapply at_in; eauto). assert (Oy : ok y) by (eapply at_in; eauto).
    destruct (DW x y) as [|V]; auto. exfalso.
    apply (@both_ways (reachable (link nb (length dem1)) (source iverts None) n)); [intros RE|intros NR]; apply V; clear V.
    - assert (A := S1 eq_refl NU n x Hn RE X). rewrite Ln in RE. assert (Hn2 := Hn). rewrite Ln in Hn2.
      assert (B := S2 eq_refl NU n y Hn2 RE Y). destruct A as [_ A]. destruct B as [[s [l [Hs [Hp Hall]]]] _].
      rewrite Ln in A. destruct (A s l Hs Hp) as [m [a [Hm [Ha Hle]]]].
      assert (Hb : exists b, nth_error dem2 m = Some b).
      { destruct (nth_error dem2 m) as [b|] eqn:Eb; eauto. apply nth_error_None in Eb.
        assert (m < length dem1) by (apply nth_error_Some; congruence). lia. }
      destruct Hb as [b Hb]. assert (P1 := PW _ _ _ Ha Hb). assert (P2 := Hall m b Hm Hb).
      assert (Oa : ok a) by (eapply at_in; eauto). assert (Ob : ok b) by (eapply at_in; eauto). eauto.
    - rewrite N1 in X by auto. rewrite Ln in NR. rewrite N2 in Y by (auto; lia). eapply PW; eauto.
  Qed.

  (** *** C127 *)
  Section Edit.
    Variables (iverts nb : list (list nat)) (dem1 dem2 : list T) (eps : T) (method : string) (fuel : nat).
    Notation N := (length dem1).
    Hypothesis Em : lower method = "complete"%string.
    Hypothesis L : elev_laws E ok rk (e_zero E).
    Hypothesis NU : eps_null E ok (e_zero E).
    Hypothesis O1 : Forall ok dem1.
    Hypothesis O2 : Forall ok dem2.
    Hypothesis Ln : length dem2 = N.
    Hypothesis G : grid_of iverts nb N.
    Hypothesis U : N <= fuel.
    Notation LK := (link nb N).
    Notation RIM := (boundary_cell iverts).

    (** cell [n] drains over unedited cells: a chain of cells from the rim to [n] on which the
        terrain is the same in both DEMs and nowhere above [v] *)
    Definition unedited_way (n : nat) (v : T) : Prop :=
      exists s l, RIM s /\ gpath LK s n l /\
        forall m, In m l -> exists x, nth_error dem1 m = Some x /\ nth_error dem2 m = Some x /\ le x v.

    Lemma both_runs : exists out1 out2,
      fill_sinks E fuel iverts nb dem1 eps None method = Ok out1 /\
      fill_sinks E fuel iverts nb dem2 eps None method = Ok out2 /\
      length out1 = N /\ length out2 = N /\ Forall ok out1 /\ Forall ok out2 /\
      (forall n, n < N -> ~ reachable LK RIM n -> nth_error out1 n = nth_error dem1 n /\ nth_error out2 n = nth_error dem2 n) /\
      (forall n y, n < N -> reachable LK RIM n -> nth_error out1 n = Some y -> is_spill (e_le E) LK RIM dem1 n y) /\
      (forall n y, n < N -> reachable LK RIM n -> nth_error out2 n = Some y -> is_spill (e_le E) LK RIM dem2 n y).
    Proof.
      assert (F : flood_method method None) by (right; now left).
      assert (Ee : step_eps E method eps = e_zero E) by (unfold step_eps; now rewrite Em).
      assert (LW := L). assert (NU' := NU). rewrite <- Ee in LW, NU'.
      assert (G2 := G). rewrite <- Ln in G2. assert (U2 := U). rewrite <- Ln in U2.
      destruct (flood_facts eps LW O1 G (mask := None) I F U) as [o1 [R1 [L1 [K1 [_ [N1 [_ [_ [_ [_ S1]]]]]]]]]].
      destruct (flood_facts eps LW O2 G2 (mask := None) I F U2) as [o2 [R2 [L2 [K2 [_ [N2 [_ [_ [_ [_ S2]]]]]]]]]].
      exists o1, o2. rewrite Ln in *. do 6 (split; [assumption|]). split; [|split].
      - intros n Hn NR. split; [now apply N1|now apply N2].
      - intros n y Hn RE Y. exact (S1 eq_refl NU' n y Hn RE Y).
      - intros n y Hn RE Y. exact (S2 eq_refl NU' n y Hn RE Y).
    Qed.

    (** C127: a cell that drains over unedited cells cannot be filled higher after the edit, and is
        filled to the same elevation if it drains over unedited cells after the edit too *)
    Theorem C127_edits_act_behind :
      exists out1 out2,
        fill_sinks E fuel iverts nb dem1 eps None method = Ok out1 /\
        fill_sinks E fuel iverts nb dem2 eps None method = Ok out2 /\
        forall n x y, nth_error out1 n = Some x -> nth_error out2 n = Some y ->
          (unedited_way n x -> le y x) /\ (unedited_way n x -> unedited_way n y -> e_eq E x y = true).
    Proof.
      destruct both_runs as [o1 [o2 [R1 [R2 [L1 [L2 [K1 [K2 [_ [S1 S2]]]]]]]]]].
      exists o1, o2. split; auto. split; auto. intros n x y X Y.
      assert (Hn : n < N) by (rewrite <- L1; apply nth_error_Some; congruence).
      assert (Ox : ok x) by (eapply at_in; eauto). assert (Oy : ok y) by (eapply at_in; eauto).
      assert (A : unedited_way n x -> (rk y <= rk x)%Z).
      { intros [s [l [Hs [Hp Hall]]]]. assert (RE : reachable LK RIM n) by (exists s, l; auto).
        destruct (S2 n y Hn RE Y) as [_ B]. destruct (B s l Hs Hp) as [m [b [Hm [Hb Hle]]]].
        destruct (Hall m Hm) as [c [Hc1 [Hc2 Hc3]]]. assert (c = b) by congruence. subst c.
        assert (Ob : ok b) by (eapply at_in; eauto).
        rewrite (l_le L) in * by auto. apply Z.leb_le in Hle, Hc3. lia. }
      assert (B : unedited_way n y -> (rk x <= rk y)%Z).
      { intros [s [l [Hs [Hp Hall]]]]. assert (RE : reachable LK RIM n) by (exists s, l; auto).
        destruct (S1 n x Hn RE X) as [_ B]. destruct (B s l Hs Hp) as [m [b [Hm [Hb Hle]]]].
        destruct (Hall m Hm) as [c [Hc1 [Hc2 Hc3]]]. assert (c = b) by congruence. subst c.
        assert (Ob : ok b) by (eapply at_in; eauto).
        rewrite (l_le L) in * by auto. apply Z.leb_le in Hle, Hc3. lia. }
      split.
      - intros W. rewrite (l_le L) by auto. apply Z.leb_le. auto.
      - intros W1 W2. rewrite (l_eq L) by auto. apply Z.eqb_eq. specialize (A W1). specialize (B W2). lia.
    Qed.

    (** C127: the ground of a filled depression does not matter: whatever is done to the terrain
        below the filled surface, at cells that the fill has raised, the filled surface stays *)
    Theorem C127_ground_of_depressions :
      exists out1 out2,
        fill_sinks E fuel iverts nb dem1 eps None method = Ok out1 /\
        fill_sinks E fuel iverts nb dem2 eps None method = Ok out2 /\
        ((forall n x z z', nth_error out1 n = Some x -> nth_error dem1 n = Some z -> nth_error dem2 n = Some z' ->
            z = z' \/ (e_lt E z x = true /\ le z' x)) ->
         Forall2 (fun x y => e_eq E x y = true) out1 out2).
    Proof.
      destruct both_runs as [o1 [o2 [R1 [R2 [L1 [L2 [K1 [K2 [UN [S1 S2]]]]]]]]]].
      exists o1, o2. split; auto. split; auto. intros H. apply Forall2_nth; [congruence|]. intros n x y X Y.
      assert (Hn : n < N) by (rewrite <- L1; apply nth_error_Some; congruence).
      assert (Ox : ok x) by (eapply at_in; eauto). assert (Oy : ok y) by (eapply at_in; eauto).
      assert (LT : forall m, m < N -> exists a b c, nth_error o1 m = Some a /\ nth_error dem1 m = Some b /\ nth_error dem2 m = Some c).
      { intros m Hm.
        destruct (nth_error o1 m) as [a|] eqn:E1; [|apply nth_error_None in E1; lia].
        destruct (nth_error dem1 m) as [b|] eqn:E2; [|apply nth_error_None in E2; lia].
        destruct (nth_error dem2 m) as [c|] eqn:E3; [|apply nth_error_None in E3; lia]. eauto 8. }
      assert (PIN : forall s k l, RIM s -> gpath LK s k l -> k < N /\ forall m, In m l -> m < N).
      { intros s k l Hs Hp. induction Hp as [|c k l Hp IH HE].
        - assert (s < N). { apply boundary_lt in Hs. destruct G as [<- _]. auto. }
          split; auto. intros m [<-|[]]. auto.
        - destruct HE as [_ HE]. split; auto. intros m [<-|Hm]; auto. now apply IH. }
      destruct (e_eq E x y) eqn:V; auto. exfalso.
      apply (@both_ways (reachable LK RIM n)); [intros RE|intros NR].
      - assert (V' : rk x <> rk y) by (rewrite (l_eq L) in V by auto; now apply Z.eqb_neq).
        destruct (S2 n y Hn RE Y) as [[s2 [l2 [Hs2 [Hp2 Ha2]]]] B2].
        destruct (S1 n x Hn RE X) as [[s1 [l1 [Hs1 [Hp1 Ha1]]]] B1].
        (* out2 <= out1 : along the filled surface out1, dem2 is nowhere above *)
        assert (P1 : (rk y <= rk x)%Z).
        { destruct (B2 s1 l1 Hs1 Hp1) as [m [b [Hm [Hb Hle]]]].
          destruct (LT m (proj2 (PIN _ _ _ Hs1 Hp1) m Hm)) as [a [z [z' [Ea [Ez Ez']]]]].
          assert (z' = b) by congruence. subst z'.
          assert (Oa : ok a) by (eapply at_in; eauto). assert (Ob : ok b) by (eapply at_in; eauto).
          assert (Oz : ok z) by (eapply at_in; eauto).
          (* filled elevations along a path are at most its highest terrain *)
          assert (PA : forall k l, gpath LK s1 k l -> (forall j w, In j l -> nth_error dem1 j = Some w -> le w x) ->
                     forall j w, In j l -> nth_error o1 j = Some w -> (rk w <= rk x)%Z).
          { clear - O1 K1 L L1 S1 Hs1 G Ox PIN. intros k l Hp. induction Hp as [|c k l Hp IH HE]; intros Hall j w Hj Hw.
            - destruct Hj as [<-|[]].
              assert (Hl : s1 < N) by (apply boundary_lt in Hs1; destruct G as [<- _]; auto).
              destruct (S1 s1 w Hl) as [_ B]; auto. { exists s1, [s1]. split; auto. constructor. }
              destruct (B s1 [s1] Hs1 (gp_start _ _)) as [m [v [[<-|[]] [Hv Hle]]]].
              assert (Q := Hall s1 v (or_introl eq_refl) Hv).
              assert (Ov : ok v) by (eapply at_in; eauto). assert (Ow : ok w) by (eapply at_in; eauto).
              rewrite (l_le L) in * by auto. apply Z.leb_le in Hle, Q. lia.
            - destruct Hj as [<-|Hj]; [|eapply IH; eauto; intros; eapply Hall; eauto; now right].
              assert (Hp' : gpath LK s1 k (k :: l)) by (eapply gp_step; eauto).
              assert (Hl := proj1 (PIN _ _ _ Hs1 Hp')).
              destruct (S1 k w Hl) as [_ B]; auto. { exists s1, (k :: l). auto. }
              destruct (B s1 _ Hs1 Hp') as [m [v [Hm [Hv Hle]]]]. assert (Q := Hall m v Hm Hv).
              assert (Ov : ok v) by (eapply at_in; eauto). assert (Ow : ok w) by (eapply at_in; eauto).
              rewrite (l_le L) in * by auto. apply Z.leb_le in Hle, Q. lia. }
          assert (Qa := PA n l1 Hp1 Ha1 m a Hm Ea).
          destruct (H m a z b Ea Ez Ez') as [->|[_ Hz']].
          - assert (Q := Ha1 m b Hm Ez). rewrite (l_le L) in * by auto. apply Z.leb_le in Hle, Q. lia.
          - rewrite (l_le L) in * by auto. apply Z.leb_le in Hle, Hz'. lia. }
        (* out1 <= out2 : cell by cell along the spill path of dem2 *)
        assert (P2 : (rk x <= rk y)%Z).
        { assert (PB : forall k l, gpath LK s2 k l -> (forall j w, In j l -> nth_error dem2 j = Some w -> le w y) ->
                     forall w, nth_error o1 k = Some w -> (rk w <= rk y)%Z).
          { intros k l Hp. induction Hp as [|c k l Hp IH HE]; intros Hall w Hw.
            - assert (Hl := proj1 (PIN _ _ _ Hs2 (gp_start LK s2))).
              destruct (S1 s2 w Hl) as [_ B]; auto. { exists s2, [s2]. split; auto. constructor. }
              destruct (B s2 [s2] Hs2 (gp_start _ _)) as [m [v [[<-|[]] [Hv Hle]]]].
              destruct (LT s2 Hl) as [a [z [z' [Ea [Ez Ez']]]]]. assert (a = w) by congruence. assert (z = v) by congruence. subst a z.
              assert (Ov : ok v) by (eapply at_in; eauto). assert (Ow : ok w) by (eapply at_in; eauto).
              rewrite (l_le L) in Hle by auto. apply Z.leb_le in Hle.
              destruct (H s2 w v z' Hw Hv Ez') as [<-|[Hz _]].
              + assert (Q := Hall s2 v (or_introl eq_refl) Ez'). rewrite (l_le L) in Q by auto. apply Z.leb_le in Q. lia.
              + rewrite (l_lt L) in Hz by auto. apply Z.ltb_lt in Hz. lia.
            - assert (Hp' : gpath LK s2 k (k :: l)) by (eapply gp_step; eauto).
              assert (Hl := proj1 (PIN _ _ _ Hs2 Hp')). assert (Hc := proj1 (PIN _ _ _ Hs2 Hp)).
              destruct (LT c Hc) as [ac [_ [_ [Eac _]]]].
              assert (Qc : (rk ac <= rk y)%Z) by (apply IH; auto; intros j u Hj Hu; apply (Hall j u); auto; now right).
              assert (REc : reachable LK RIM c) by (exists s2, l; auto).
              destruct (S1 c ac Hc REc Eac) as [[sc [lc [Hsc [Hpc Hac]]]] _].
              assert (Hpk : gpath LK sc k (k :: lc)) by (eapply gp_step; eauto).
              destruct (S1 k w Hl) as [_ B]; auto. { exists s2, (k :: l). auto. }
              destruct (B sc _ Hsc Hpk) as [m [v [Hm [Hv Hle]]]].
              assert (Ov : ok v) by (eapply at_in; eauto). assert (Ow : ok w) by (eapply at_in; eauto).
              assert (Oac : ok ac) by (eapply at_in; eauto).
              rewrite (l_le L) in Hle by auto. apply Z.leb_le in Hle.
              destruct Hm as [<-|Hm].
              + destruct (LT k Hl) as [a [z [z' [Ea [Ez Ez']]]]]. assert (a = w) by congruence. assert (z = v) by congruence. subst a z.
                destruct (H k w v z' Hw Hv Ez') as [<-|[Hz _]].
                * assert (Q := Hall k v (or_introl eq_refl) Ez'). rewrite (l_le L) in Q by auto. apply Z.leb_le in Q. lia.
                * rewrite (l_lt L) in Hz by auto. apply Z.ltb_lt in Hz. lia.
              + assert (Q := Hac m v Hm Hv). rewrite (l_le L) in Q by auto. apply Z.leb_le in Q. lia. }
          exact (PB n l2 Hp2 Ha2 x X). }
        lia.
      - destruct (UN n Hn NR) as [U1 U2]. rewrite U1 in X. rewrite U2 in Y.
        destruct (LT n Hn) as [a [z [z' [Ea [Ez Ez']]]]]. rewrite U1 in Ea. assert (a = x) by congruence. assert (z = x) by congruence.
        assert (z' = y) by congruence. subst a z z'.
        destruct (H n x x y) as [->|[Hz _]]; auto; [now rewrite U1| |].
        + rewrite (l_eq L), Z.eqb_refl in V by auto. discriminate.
        + rewrite (l_lt L), Z.ltb_irrefl in Hz by auto. discriminate.
    Qed.
  End Edit.
End Stable.

(** ** Exact elevations *)
Definition close (d x y : Q) : Prop := (x <= y + d)%Q /\ (y <= x + d)%Q.

Lemma close_abs d x y : close d x y <-> (Qabs (x - y) <= d)%Q.
Proof. unfold close. rewrite Qabs_Qle_condition. split; intros [A B]; split; lra. Qed.

Lemma close_tolerance d D : tolerance Qelev (on_grid D) (fun x y => (x <= y + d)%Q).
Proof.
  split; [intros x y; destruct (Qlt_le_dec (y + d) x) as [H|H]; [right; lra|now left]|].
  intros x a b y _ _ _ _ H1 H2 H3. cbn in H1, H3. apply Qle_bool_iff in H1, H3. lra.
Qed.

Lemma Forall2_both {A B} (P R : A -> B -> Prop) l m :
  Forall2 (fun x y => P x y /\ R x y) l m <-> Forall2 P l m /\ Forall2 R l m.
Proof.
  split.
  - intros H. induction H as [|x y l m [X Y] H [I1 I2]]; split; constructor; auto.
  - intros [H1 H2]. revert H2. induction H1; intros H2; inversion H2; subst; constructor; auto.
Qed.
Lemma Forall2_turn {A B} (P : A -> B -> Prop) l m : Forall2 P l m -> Forall2 (fun y x => P x y) m l.
Proof. induction 1; constructor; auto. Qed.
Lemma Forall2_at2 {A B} (P : A -> B -> Prop) l m n x y : Forall2 P l m ->
  nth_error l n = Some x -> nth_error m n = Some y -> P x y.
Proof. intros H. revert n. induction H; intros [|n]; cbn; try congruence; intros; eauto; congruence. Qed.

(** C126: complete fill *)
Theorem C126_complete_not_amplified : forall iverts nb (dem1 dem2 : list Q) eps method fuel d,
  lower method = "complete"%string -> grid_of iverts nb (length dem1) -> length dem1 <= fuel ->
  Forall2 (close d) dem1 dem2 ->
  exists out1 out2,
    fill_sinks Qelev fuel iverts nb dem1 eps None method = Ok out1 /\
    fill_sinks Qelev fuel iverts nb dem2 eps None method = Ok out2 /\
    Forall2 (close d) out1 out2.
Proof.
  intros iverts nb dem1 dem2 eps method fuel d Em G U H.
  destruct (common_grid (dem1 ++ dem2)) as [D HD]. apply Forall_app in HD. destruct HD as [H1 H2].
  assert (LW : elev_laws Qelev (on_grid D) (qrank D) (e_zero Qelev)).
  { apply Qelev_laws; [exists 0%Z; reflexivity|apply Qle_refl]. }
  assert (Ln := Forall2_len H). apply Forall2_both in H. destruct H as [A B]. apply Forall2_turn in B.
  destruct (C126_complete_within eps Em LW (@Qelev_null D) H1 H2 G U (close_tolerance d D) A) as [o1 [o2 [R1 [R2 C1]]]].
  assert (G2 := G). rewrite Ln in G2. assert (U2 := U). rewrite Ln in U2.
  destruct (C126_complete_within eps Em LW (@Qelev_null D) H2 H1 G2 U2 (close_tolerance d D) B) as [o2' [o1' [R2' [R1' C2]]]].
  assert (o1' = o1) by congruence. assert (o2' = o2) by congruence. subst.
  exists o1, o2. split; auto. split; auto. apply Forall2_both. split; auto. now apply Forall2_turn in C2.
Qed.

Lemma Qadd_times eps k x : (add_times Qelev eps k x == x + inject_Z (Z.of_nat k) * eps)%Q.
Proof.
  induction k; cbn [add_times].
  - cbn. ring.
  - cbn [Qelev e_add]. rewrite IHk, Nat2Z.inj_succ. unfold Z.succ. rewrite inject_Z_plus. ring.
Qed.

(** C126: priority fill: up to the amount by which it may over-fill (C05) *)
Theorem C126_priority_not_amplified : forall iverts nb (dem1 dem2 : list Q) eps method fuel d,
  flood_method method None -> (0 <= eps)%Q -> (0 <= d)%Q ->
  grid_of iverts nb (length dem1) -> length dem1 <= fuel ->
  Forall2 (close d) dem1 dem2 ->
  exists out1 out2,
    fill_sinks Qelev fuel iverts nb dem1 eps None method = Ok out1 /\
    fill_sinks Qelev fuel iverts nb dem2 eps None method = Ok out2 /\
    Forall2 (close (d + inject_Z (Z.of_nat (length dem1)) * eps)) out1 out2.
Proof.
  intros iverts nb dem1 dem2 eps method fuel d FM He Hd G U H.
  destruct (common_grid (eps :: dem1 ++ dem2)) as [D HD]. inversion HD as [|? ? HE HD']; subst.
  apply Forall_app in HD'. destruct HD' as [H1 H2].
  assert (LZ : elev_laws Qelev (on_grid D) (qrank D) (e_zero Qelev)).
  { apply Qelev_laws; [exists 0%Z; reflexivity|apply Qle_refl]. }
  assert (SE : (0 <= step_eps Qelev method eps <= eps)%Q).
  { unfold step_eps. destruct (String.eqb _ _); cbn; split; lra. }
  assert (LW : elev_laws Qelev (on_grid D) (qrank D) (step_eps Qelev method eps)).
  { unfold step_eps. destruct (String.eqb _ _); auto. now apply Qelev_laws. }
  assert (Ln := Forall2_len H). assert (G2 := G). rewrite Ln in G2. assert (U2 := U). rewrite Ln in U2.
  destruct (C126_complete_not_amplified eps (method := "complete") eq_refl G U H) as [c1 [c2 [RC1 [RC2 CC]]]].
  assert (OKC : forall dem c, Forall (on_grid D) dem -> grid_of iverts nb (length dem) -> length dem <= fuel ->
     fill_sinks Qelev fuel iverts nb dem eps None "complete" = Ok c -> Forall (on_grid D) c /\ length c = length dem /\
     forall n y, reachable (link nb (length dem)) (boundary_cell iverts) n -> nth_error c n = Some y ->
        is_spill (e_le Qelev) (link nb (length dem)) (boundary_cell iverts) dem n y).
  { intros dem c Od Gd Ud Rc. assert (F : flood_method "complete" None) by (right; now left).
    assert (LZ' : elev_laws Qelev (on_grid D) (qrank D) (step_eps Qelev "complete" eps)) by exact LZ.
    destruct (flood_facts eps LZ' Od Gd (mask := None) Logic.I F Ud) as [o [R [Lo [Ko _]]]].
    assert (o = c) by congruence. subst o. split; auto. split; auto.
    destruct (@C04_complete_is_spill Q Qelev (on_grid D) (qrank D) iverts nb dem eps "complete" fuel eq_refl LZ (@Qelev_null D) Od Gd Ud) as [o [R' [_ S]]].
    assert (o = c) by congruence. subst o. exact S. }
  destruct (OKC dem1 c1 H1 G U RC1) as [Kc1 [Lc1 Sp1]]. destruct (OKC dem2 c2 H2 G2 U2 RC2) as [Kc2 [Lc2 Sp2]].
  destruct (C05_overfill_bounded eps LW H1 G FM U) as [o1 [R1 B1]].
  destruct (C05_overfill_bounded eps LW H2 G2 FM U2) as [o2 [R2 B2]].
  destruct (flood_facts eps LW H1 G (mask := None) Logic.I FM U) as [o [R [L1 [_ [_ [N1 _]]]]]].
  assert (o = o1) by congruence. subst o. clear R.
  destruct (flood_facts eps LW H2 G2 (mask := None) Logic.I FM U2) as [o [R [L2 [_ [_ [N2 _]]]]]].
  assert (o = o2) by congruence. subst o. clear R.
  exists o1, o2. split; auto. split; auto. apply Forall2_nth; [congruence|]. intros n x y X Y.
  assert (Hn : n < length dem1) by (rewrite <- L1; apply nth_error_Some; congruence).
  assert (NE : (0 <= inject_Z (Z.of_nat (length dem1)) * eps)%Q).
  { apply Qmult_le_0_compat; auto. change 0%Q with (inject_Z 0). rewrite <- Zle_Qle. lia. }
  assert (DEC : forall a b c : Q, close c a b \/ ~ close c a b).
  { intros a b c. unfold close. destruct (Qlt_le_dec (b + c) a); [right; lra|]. destruct (Qlt_le_dec (a + c) b); [right; lra|]. now left. }
  destruct (DEC x y (d + inject_Z (Z.of_nat (length dem1)) * eps)%Q) as [|V]; auto. exfalso.
  apply (@both_ways (reachable (link nb (length dem1)) (boundary_cell iverts) n)); [intros RE|intros NR]; apply V; clear V.
  - destruct (nth_error c1 n) as [v1|] eqn:E1; [|apply nth_error_None in E1; lia].
    destruct (nth_error c2 n) as [v2|] eqn:E2; [|apply nth_error_None in E2; lia].
    assert (CV := Forall2_at2 CC E1 E2). assert (RE2 := RE). rewrite Ln in RE2.
    destruct (B1 n v1 x RE (at_in E1 Kc1) (Sp1 n v1 RE E1) X) as [Q1 Q2].
    destruct (B2 n v2 y RE2 (at_in E2 Kc2) (Sp2 n v2 RE2 E2) Y) as [Q3 Q4].
    cbn [Qelev e_le] in *. apply Qle_bool_iff in Q1, Q2, Q3, Q4. rewrite Qadd_times in Q2, Q4. rewrite <- Ln in Q4.
    assert (Q5 : (inject_Z (Z.of_nat (length dem1)) * step_eps Qelev method eps <= inject_Z (Z.of_nat (length dem1)) * eps)%Q).
    { rewrite !(Qmult_comm (inject_Z _)). apply Qmult_le_compat_r; [tauto|]. change 0%Q with (inject_Z 0). rewrite <- Zle_Qle. lia. }
    destruct CV as [CV1 CV2]. split; lra.
  - rewrite N1 in X by auto. rewrite Ln in NR. rewrite N2 in Y by (auto; lia).
    destruct (Forall2_at2 H X Y) as [A B]. split; lra.
Qed.

(** C126: drain fill, at the cells that are not left at the flood level 1e10 *)
Theorem C126_drain_not_amplified : forall iverts nb (dem1 dem2 : list Q) eps method d,
  ~ flood_method method None -> (0 <= eps)%Q -> (0 <= d)%Q ->
  grid_of iverts nb (length dem1) -> neighbours_in nb (length dem1) ->
  Forall (fun z => z <= 10000000000)%Q dem1 -> Forall (fun z => z <= 10000000000)%Q dem2 ->
  Forall2 (close d) dem1 dem2 ->
  exists f0 out1 out2,
    (forall fuel, f0 <= fuel -> fill_sinks Qelev fuel iverts nb dem1 eps None method = Ok out1) /\
    (forall fuel, f0 <= fuel -> fill_sinks Qelev fuel iverts nb dem2 eps None method = Ok out2) /\
    forall n x y, nth_error out1 n = Some x -> nth_error out2 n = Some y ->
      ((y < 10000000000)%Q -> (x <= y + d)%Q) /\ ((x < 10000000000)%Q -> (y <= x + d)%Q).
Proof.
  intros iverts nb dem1 dem2 eps method d FM He Hd G NI B1 B2 H.
  destruct (common_grid (eps :: d :: dem1 ++ dem2)) as [D HD]. inversion HD as [|? ? HE HD']; subst.
  inversion HD' as [|? ? HDd HD'']; subst. apply Forall_app in HD''. destruct HD'' as [H1 H2].
  assert (LW : elev_laws Qelev (on_grid D) (qrank D) eps) by now apply Qelev_laws.
  assert (Ln := Forall2_len H). assert (G2 := G). rewrite Ln in G2. assert (NI2 := NI). rewrite Ln in NI2.
  assert (BB : forall l, Forall (fun z => z <= 10000000000)%Q l -> Forall (fun x => e_le Qelev x (e_big Qelev) = true) l).
  { intros l. apply Forall_impl. intros a Ha. cbn. now apply Qle_bool_iff. }
  apply Forall2_both in H. destruct H as [CA CB]. apply Forall2_turn in CB.
  assert (KEY : forall da db, Forall (on_grid D) da -> Forall (on_grid D) db -> length da = length db ->
     grid_of iverts nb (length da) -> neighbours_in nb (length da) ->
     Forall (fun z => z <= 10000000000)%Q da -> Forall (fun z => z <= 10000000000)%Q db ->
     Forall2 (fun x y => x <= y + d)%Q da db ->
     exists f0 oa ob, (forall fuel, f0 <= fuel -> fill_sinks Qelev fuel iverts nb da eps None method = Ok oa) /\
       (forall fuel, f0 <= fuel -> fill_sinks Qelev fuel iverts nb db eps None method = Ok ob) /\
       forall n x y, nth_error oa n = Some x -> nth_error ob n = Some y -> (y < 10000000000)%Q -> (x <= y + d)%Q).
  { intros da db Ka Kb Lab Ga NIa Ba Bb C. assert (Gb := Ga). rewrite Lab in Gb. assert (NIb := NIa). rewrite Lab in NIb.
    destruct (C116_drain_is_least FM LW Ka Ga NIa (BB _ Ba)) as [fa [oa [Ra [_ [_ [_ [_ [_ La]]]]]]]].
    destruct (C116_drain_is_least FM LW Kb Gb NIb (BB _ Bb)) as [fb [ob [Rb [Kob [_ [Ab [_ [Db _]]]]]]]].
    exists (fa + fb), oa, ob. split; [intros; apply Ra; lia|]. split; [intros; apply Rb; lia|].
    intros n x y X Y Hy. set (u := map (fun z => z + d)%Q ob).
    assert (Ku : Forall (on_grid D) u).
    { unfold u. apply Forall_map. revert Kob. apply Forall_impl. intros z [k Hk]. destruct HDd as [k' Hk'].
      exists (k + k')%Z. rewrite Hk, Hk'. apply grid_add. }
    assert (Au : Forall2 (fun x y => e_le Qelev x y = true) da u).
    { apply Forall2_nth; [unfold u; rewrite map_length, <- (Forall2_len Ab); auto|]. intros m a b Ea Eb. unfold u in Eb.
      rewrite nth_error_map in Eb. destruct (nth_error ob m) as [b'|] eqn:Eb'; cbn in Eb; [|discriminate]. inversion Eb; subst b.
      assert (m < length db) by (rewrite <- Lab; apply nth_error_Some; congruence).
      destruct (nth_error db m) as [z|] eqn:Ez; [|apply nth_error_None in Ez; lia].
      assert (Q1 := Forall2_at2 C Ea Ez). assert (Q2 := Forall2_at2 Ab Ez Eb'). cbn in Q1, Q2. cbn. apply Qle_bool_iff in Q2. apply Qle_bool_iff. lra. }
    destruct (Db n y Y) as [DR|Bg]; [|cbn in Bg; apply Qeq_bool_iff in Bg; exfalso; lra].
    assert (DU : drains_by Qelev eps iverts nb u n).
    { clear -DR. unfold drains_by in *. induction DR as [s Hs|c n x y DR IH Ha Hc Hn Hle]; [now apply dr_seed|].
      apply (@dr_down Q _ _ _ u c n (x + d)%Q (y + d)%Q IH Ha).
      - unfold u. now rewrite nth_error_map, Hc. - unfold u. now rewrite nth_error_map, Hn.
      - cbn in *. apply Qle_bool_iff in Hle. apply Qle_bool_iff. lra. }
    assert (Yu : nth_error u n = Some (y + d)%Q) by (unfold u; now rewrite nth_error_map, Y).
    assert (Q := La u Ku Au n x (y + d)%Q DU X Yu). cbn in Q. now apply Qle_bool_iff in Q. }
  destruct (KEY dem1 dem2 H1 H2 Ln G NI B1 B2 CA) as [fa [o1 [o2 [R1 [R2 K1]]]]].
  destruct (KEY dem2 dem1 H2 H1 (eq_sym Ln) G2 NI2 B2 B1 CB) as [fb [o2' [o1' [R2' [R1' K2]]]]].
  assert (o1' = o1). { assert (A := R1 (fa + fb) ltac:(lia)). rewrite R1' in A by lia. congruence. }
  assert (o2' = o2). { assert (A := R2 (fa + fb) ltac:(lia)). rewrite R2' in A by lia. congruence. }
  subst o1' o2'. exists (fa + fb), o1, o2. split; [intros; apply R1; lia|]. split; [intros; apply R2; lia|].
  intros n x y X Y. split; intros; eauto.
Qed.

(** ** Examples: the 4 x 4 grid of squares; the pit in the middle is filled to 5 *)
Module ExS.
  Definition dem1 : list Z := [9; 9; 9; 9;  9; 1; 2; 5;  9; 3; 9; 9;  9; 9; 9; 9]%Z.
  Definition dem2 : list Z := [9; 9; 9; 9;  9; 4; 0; 5;  9; 5; 9; 9;  9; 9; 9; 9]%Z.
  Definition fill d := fill_sinks Zelev 16 (quad_iverts 4 4) (rook 4 4) d 0%Z None "complete".
  (* the ground of the depression is different, the filled terrain is the same *)
  Example run1 : fill dem1 = Ok [9; 9; 9; 9;  9; 5; 5; 5;  9; 5; 9; 9;  9; 9; 9; 9]%Z. Proof. vm_compute. reflexivity. Qed.
  Example run2 : fill dem2 = fill dem1. Proof. vm_compute. reflexivity. Qed.
  (* raising the outlet (cell 7) by 2 raises the lake by 2, not more *)
  Example run3 : fill [9; 9; 9; 9;  9; 1; 2; 7;  9; 3; 9; 9;  9; 9; 9; 9]%Z
     = Ok [9; 9; 9; 9;  9; 7; 7; 7;  9; 7; 9; 9;  9; 9; 9; 9]%Z. Proof. vm_compute. reflexivity. Qed.
End ExS.
