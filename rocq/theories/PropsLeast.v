(** C116: drain fill returns the least surface above the terrain in which every cell drains to the
    rim in steps of at least eps; hence it is monotone in the terrain, leaves its own result
    unchanged, and does not depend on the cell numbering, on the datum or on the vertical units --
    also for eps > 0, where priority fill does (C112).
    C117: how the three methods compare. *)
From Coq Require Import String Permutation.
From Verif Require Import Py Spec MHeap LHeap MFill LFill LDrain LEdge LFill2 LFill3 LFill4 LPerm Grids PropsFill PropsPerm.
Set Implicit Arguments.
Unset Strict Implicit.
Local Open Scope nat_scope.
Local Open Scope list_scope.
Local Notation length := List.length.

(** in the surface [u], cell [n] has a chain of neighbours to the rim that rises by at least eps
    at each step (the chain is followed from a cell to one of the neighbours it lists) *)
Definition drains_by {T} (E : elev T) (eps : T) (iverts nb : list (list nat)) (u : list T) : nat -> Prop :=
  drains (fun x y => e_le E (e_add E x eps) y) (fun w n => adjacent nb n w) (boundary_cell iverts) u.

Lemma at_in {T} (ok : T -> Prop) l n x : nth_error l n = Some x -> Forall ok l -> ok x.
Proof. intros X H. apply (proj1 (Forall_forall _ _) H). eapply nth_error_In; eauto. Qed.

(** what [drain_facts] says of one run, by rank *)
Section Core.
  Context {T1 T2 : Type} (E1 : elev T1) (ok1 : T1 -> Prop) (rk1 : T1 -> Z) (eps1 : T1)
          (E2 : elev T2) (ok2 : T2 -> Prop) (rk2 : T2 -> Z) (eps2 : T2).
  Variables (iv1 nb1 iv2 nb2 : list (list nat)) (dem1 out1 : list T1) (u : list T2).
  Variables (p : nat -> nat) (conv : T2 -> T1).
  Hypothesis L1 : elev_laws E1 ok1 rk1 eps1.
  Hypothesis L2 : elev_laws E2 ok2 rk2 eps2.
  Hypothesis okdem : Forall ok1 dem1.
  Hypothesis okout : Forall ok1 out1.
  Hypothesis okconv : forall x, ok2 x -> ok1 (conv x).
  Hypothesis mono : forall x y, ok2 x -> ok2 y -> (rk2 x <= rk2 y)%Z -> (rk1 (conv x) <= rk1 (conv y))%Z.
  Hypothesis step : forall x, ok2 x -> (rk1 (e_add E1 (conv x) eps1) <= rk1 (conv (e_add E2 x eps2)))%Z.
  Hypothesis oku : Forall ok2 u.
  Hypothesis len1 : length out1 = length dem1.
  Hypothesis len2 : length u = length dem1.
  Hypothesis pN : forall n, n < length dem1 -> p n < length dem1.
  Hypothesis prim : forall n, boundary_cell iv2 n -> boundary_cell iv1 (p n).
  Hypothesis pnb : forall a b, a < length dem1 -> b < length dem1 -> adjacent nb2 a b -> adjacent nb1 (p a) (p b).
  Hypothesis blt : forall n, boundary_cell iv2 n -> n < length dem1.
  Hypothesis rimkept : forall n, boundary_cell iv1 n -> nth_error out1 n = nth_error dem1 n.
  Hypothesis above : forall n x y, nth_error dem1 (p n) = Some x -> nth_error u n = Some y -> (rk1 x <= rk1 (conv y))%Z.
  Hypothesis settled : forall c w x y y', nth_error dem1 c = Some x -> nth_error out1 c = Some y -> adjacent nb1 c w ->
        nth_error out1 w = Some y' -> e_le E1 y x = true \/ e_le E1 y (e_add E1 y' eps1) = true.

  Lemma least_core n : drains_by E2 eps2 iv2 nb2 u n ->
    n < length dem1 /\ forall x y, nth_error out1 (p n) = Some x -> nth_error u n = Some y -> (rk1 x <= rk1 (conv y))%Z.
  Proof.
    intros H. induction H as [s Hs|c n x y H [IH1 IH2] Ha Hc Hn Hle].
    - split; auto. intros x y X Y. rewrite rimkept in X by auto. eapply above; eauto.
    - assert (Hl : n < length dem1) by (rewrite <- len2; apply nth_error_Some; congruence).
      split; auto. intros a b A B. assert (b = y) by congruence. subst b. clear B.
      assert (Ox : ok2 x) by (eapply at_in; eauto). assert (Oy : ok2 y) by (eapply at_in; eauto).
      assert (Oa : ok1 a) by (eapply at_in; eauto).
      rewrite (l_le L2) in Hle by (auto; apply (l_ok L2); auto). apply Z.leb_le in Hle.
      destruct (nth_error out1 (p c)) as [a'|] eqn:A'.
      2:{ apply nth_error_None in A'. assert (Q := pN IH1). lia. }
      destruct (nth_error dem1 (p n)) as [d|] eqn:D.
      2:{ apply nth_error_None in D. assert (Q := pN Hl). lia. }
      assert (Oa' : ok1 a') by (eapply at_in; eauto). assert (Od : ok1 d) by (eapply at_in; eauto).
      assert (IH := IH2 a' x eq_refl Hc).
      destruct (settled D A (pnb Hl IH1 Ha) A') as [S|S].
      + rewrite (l_le L1) in S by auto. apply Z.leb_le in S. assert (Q := above D Hn). lia.
      + rewrite (l_le L1) in S by (auto; apply (l_ok L1); auto). apply Z.leb_le in S.
        assert (Q := l_mono L1 _ _ Oa' (okconv Ox) IH). assert (R := step Ox).
        assert (W := mono (l_ok L2 _ Ox) Oy Hle). lia.
  Qed.
End Core.

Lemma rk_le {T} (E : elev T) ok rk eps (L : elev_laws E ok rk eps) x y :
  ok x -> ok y -> (rk x <= rk y)%Z -> e_le E x y = true.
Proof. intros A B C. rewrite (l_le L) by auto. now apply Z.leb_le. Qed.
Lemma le_rk {T} (E : elev T) ok rk eps (L : elev_laws E ok rk eps) x y :
  ok x -> ok y -> e_le E x y = true -> (rk x <= rk y)%Z.
Proof. intros A B C. rewrite (l_le L) in C by auto. now apply Z.leb_le. Qed.

Lemma Forall2_rk {T} (E : elev T) ok rk eps (L : elev_laws E ok rk eps) (a b : list T) :
  Forall ok a -> Forall ok b -> Forall2 (fun x y => e_le E x y = true) a b ->
  forall n x y, nth_error a n = Some x -> nth_error b n = Some y -> (rk x <= rk y)%Z.
Proof.
  intros A B H. induction H as [|x y a b Hxy H IH]; intros [|n] u v U V; cbn in *; try discriminate.
  - injection U as <-. injection V as <-. inversion_clear A. inversion_clear B. eapply le_rk; eauto.
  - inversion_clear A. inversion_clear B. eauto.
Qed.

Section C116.
  Context {T : Type} (E : elev T) (ok : T -> Prop) (rk : T -> Z).
  Notation le x y := (e_le E x y = true).
  Notation below dem := (Forall (fun x => le x (e_big E)) dem).

  (** C116: the result lies on or above the terrain, keeps the rim, every cell below the flood level
      drains to the rim in steps of at least eps, and any other surface on or above the terrain is
      at least as high at each cell it drains *)
  Theorem C116_drain_is_least iverts nb (dem : list T) eps method :
    ~ flood_method method None -> elev_laws E ok rk eps -> Forall ok dem ->
    grid_of iverts nb (length dem) -> neighbours_in nb (length dem) -> below dem ->
    exists f0 out, (forall fuel, f0 <= fuel -> fill_sinks E fuel iverts nb dem eps None method = Ok out) /\
      Forall ok out /\ below out /\ Forall2 (fun x y => le x y) dem out /\
      (forall n, boundary_cell iverts n -> nth_error out n = nth_error dem n) /\
      (forall n y, nth_error out n = Some y -> drains_by E eps iverts nb out n \/ e_eq E y (e_big E) = true) /\
      (forall u, Forall ok u -> Forall2 (fun x y => le x y) dem u ->
         forall n x y, drains_by E eps iverts nb u n -> nth_error out n = Some x -> nth_error u n = Some y -> le x y).
  Proof.
    intros F L O G NI B. destruct (drain_facts L O G NI F) as [f0 [out [H1 [H2 [H3 [H4 [H5 [H6 [H7 H8]]]]]]]]].
    specialize (H4 B).
    assert (BO : below out).
    { apply Forall_forall. intros y Hy. apply In_nth_error in Hy. destruct Hy as [n Hy].
      destruct (e_le E y (e_big E)) eqn:W; auto. exfalso.
      apply (@both_ways (boundary_cell iverts n)); [intros R|intros R].
      - rewrite H5 in Hy by auto.
        rewrite (proj1 (Forall_forall _ _) B y (nth_error_In _ _ Hy)) in W. discriminate.
      - rewrite (H7 _ _ R Hy) in W. discriminate. }
    exists f0, out. do 5 (split; auto). split.
    - intros n y Hy. assert (Oy : ok y) by (eapply at_in; eauto).
      destruct (e_lt E y (e_big E)) eqn:Lt; [left; eapply H6; eauto|right].
      rewrite (l_lt L) in Lt by (auto; apply (l_big L)). apply Z.ltb_ge in Lt.
      rewrite (l_eq L) by (auto; apply (l_big L)). apply Z.eqb_eq.
      assert (Q : (rk y <= rk (e_big E))%Z); [|lia].
      assert (W := proj1 (Forall_forall _ _) BO y (nth_error_In _ _ Hy)).
      apply (le_rk L); auto. apply (l_big L).
    - intros u Ou Hu n x y D X Y.
      assert (Ox : ok x) by (eapply at_in; eauto). assert (Oy : ok y) by (eapply at_in; eauto).
      assert (BL : forall s, boundary_cell iverts s -> s < length dem).
      { intros s Hs. apply boundary_lt in Hs. destruct G as [<- _]. auto. }
      apply (rk_le L); auto.
      refine (proj2 (@least_core _ _ E ok rk eps E ok rk eps iverts nb iverts nb dem out u (fun n => n) (fun x => x)
               L L O H3 _ _ _ Ou H2 _ _ _ _ BL H5 _ H8 n D) x y X Y); auto.
      + intros. lia.
      + rewrite <- (Forall2_len Hu). reflexivity.
      + intros m a b A C. eapply (Forall2_rk L O Ou Hu); eauto.
  Qed.

  Lemma le_refl_ok eps (L : elev_laws E ok rk eps) l : Forall ok l -> Forall2 (fun x y => le x y) l l.
  Proof. induction 1; constructor; auto. apply (rk_le L); auto; lia. Qed.

  (** raising the terrain anywhere never lowers the filled surface, also for eps > 0 *)
  Theorem C116_drain_monotone iverts nb (dem1 dem2 : list T) eps method :
    ~ flood_method method None -> elev_laws E ok rk eps -> Forall ok dem1 -> Forall ok dem2 ->
    grid_of iverts nb (length dem1) -> neighbours_in nb (length dem1) -> below dem1 -> below dem2 ->
    Forall2 (fun x y => le x y) dem1 dem2 ->
    exists f0 out1 out2,
      (forall fuel, f0 <= fuel -> fill_sinks E fuel iverts nb dem1 eps None method = Ok out1) /\
      (forall fuel, f0 <= fuel -> fill_sinks E fuel iverts nb dem2 eps None method = Ok out2) /\
      Forall2 (fun x y => le x y) out1 out2.
  Proof.
    intros F L O1 O2 G NI B1 B2 H. assert (Ln := Forall2_len H).
    destruct (C116_drain_is_least F L O1 G NI B1) as [f1 [o1 [R1 [K1 [W1 [A1 [M1 [D1 S1]]]]]]]].
    rewrite Ln in G, NI.
    destruct (C116_drain_is_least F L O2 G NI B2) as [f2 [o2 [R2 [K2 [W2 [A2 [M2 [D2 S2]]]]]]]].
    exists (Nat.max f1 f2), o1, o2. split; [intros; apply R1; lia|]. split; [intros; apply R2; lia|].
    assert (L1 := Forall2_len A1). assert (L2 := Forall2_len A2).
    apply Forall2_nth; [lia|]. intros n x y X Y.
    assert (Ox := at_in X K1). assert (Oy := at_in Y K2).
    destruct (D2 _ _ Y) as [D|D].
    - eapply S1; eauto. apply Forall2_nth; [lia|]. intros m a b A B.
      assert (Oa := at_in A O1). assert (Ob := at_in B K2). apply (rk_le L); auto.
      destruct (nth_error dem2 m) as [c|] eqn:C.
      2:{ apply nth_error_None in C. assert (m < length o2) by (apply nth_error_Some; congruence). lia. }
      assert (Q1 := Forall2_rk L O1 O2 H A C). assert (Q2 := Forall2_rk L O2 K2 A2 C B). lia.
    - assert (Q := proj1 (Forall_forall _ _) W1 x (nth_error_In _ _ X)).
      apply (rk_le L); auto. rewrite (l_eq L) in D by (auto; apply (l_big L)). apply Z.eqb_eq in D.
      apply (le_rk L) in Q; auto; [lia|apply (l_big L)].
  Qed.

  (** a terrain in which every cell drains in steps of at least eps is returned unchanged *)
  Theorem C116_drained_unchanged iverts nb (dem : list T) eps method :
    ~ flood_method method None -> elev_laws E ok rk eps -> Forall ok dem ->
    grid_of iverts nb (length dem) -> neighbours_in nb (length dem) -> below dem ->
    (forall n y, nth_error dem n = Some y -> drains_by E eps iverts nb dem n \/ e_eq E y (e_big E) = true) ->
    exists f0 out, (forall fuel, f0 <= fuel -> fill_sinks E fuel iverts nb dem eps None method = Ok out) /\
      Forall2 (fun x y => e_eq E x y = true) dem out.
  Proof.
    intros F L O G NI B D.
    destruct (C116_drain_is_least F L O G NI B) as [f1 [o1 [R1 [K1 [W1 [A1 [M1 [D1 S1]]]]]]]].
    exists f1, o1. split; auto. assert (L1 := Forall2_len A1). apply Forall2_nth; auto.
    intros n x y X Y. assert (Ox := at_in X O). assert (Oy := at_in Y K1).
    assert (Q1 := Forall2_rk L O K1 A1 X Y). rewrite (l_eq L) by auto. apply Z.eqb_eq.
    destruct (D _ _ X) as [D0|D0].
    - assert (Q2 := S1 dem O (le_refl_ok L O) n y x D0 Y X). apply (le_rk L) in Q2; auto. lia.
    - assert (Q := proj1 (Forall_forall _ _) W1 y (nth_error_In _ _ Y)).
      rewrite (l_eq L) in D0 by (auto; apply (l_big L)). apply Z.eqb_eq in D0.
      apply (le_rk L) in Q; auto; [lia|apply (l_big L)].
  Qed.

  (** filling the filled surface again changes nothing *)
  Theorem C116_drain_twice iverts nb (dem : list T) eps method :
    ~ flood_method method None -> elev_laws E ok rk eps -> Forall ok dem ->
    grid_of iverts nb (length dem) -> neighbours_in nb (length dem) -> below dem ->
    exists f0 out out', (forall fuel, f0 <= fuel -> fill_sinks E fuel iverts nb dem eps None method = Ok out) /\
      (forall fuel, f0 <= fuel -> fill_sinks E fuel iverts nb out eps None method = Ok out') /\
      Forall2 (fun x y => e_eq E x y = true) out out'.
  Proof.
    intros F L O G NI B.
    destruct (C116_drain_is_least F L O G NI B) as [f1 [o1 [R1 [K1 [W1 [A1 [M1 [D1 S1]]]]]]]].
    assert (L1 := Forall2_len A1). rewrite L1 in G, NI.
    destruct (C116_drained_unchanged F L K1 G NI W1 D1) as [f2 [o2 [R2 Q]]].
    exists (Nat.max f1 f2), o1, o2. split; [intros; apply R1; lia|]. split; auto. intros; apply R2; lia.
  Qed.

  (** the filled surface does not depend on how the cells are numbered *)
  Theorem C116_drain_any_numbering p q iv1 nb1 (dem1 : list T) iv2 nb2 dem2 eps method :
    ~ flood_method method None -> elev_laws E ok rk eps -> Forall ok dem1 -> Forall ok dem2 ->
    grid_of iv1 nb1 (length dem1) -> grid_of iv2 nb2 (length dem2) ->
    neighbours_in nb1 (length dem1) -> neighbours_in nb2 (length dem2) -> below dem1 ->
    renumbered p q iv1 nb1 dem1 iv2 nb2 dem2 ->
    exists f0 out1 out2,
      (forall fuel, f0 <= fuel -> fill_sinks E fuel iv1 nb1 dem1 eps None method = Ok out1) /\
      (forall fuel, f0 <= fuel -> fill_sinks E fuel iv2 nb2 dem2 eps None method = Ok out2) /\
      forall n x y, nth_error out1 n = Some x -> nth_error out2 (p n) = Some y -> e_eq E x y = true.
  Proof.
    intros F L O1 O2 G1 G2 N1 N2 B1 R. assert (Ln := rn_size R). assert (R' := renumbered_sym R).
    assert (B2 : below dem2).
    { apply Forall_forall. intros y Hy. apply In_nth_error in Hy. destruct Hy as [n Hy].
      assert (Hn : n < length dem1) by (rewrite Ln; apply nth_error_Some; congruence).
      destruct (rn_q R Hn) as [Q1 Q2]. rewrite <- Q2 in Hy. rewrite (rn_dem R Q1) in Hy.
      apply (proj1 (Forall_forall _ _) B1). eapply nth_error_In; eauto. }
    destruct (drain_facts L O1 G1 N1 F) as [f1 [o1 [R1 [L1 [K1 [A1 [M1 [D1 [_ S1]]]]]]]]]. specialize (A1 B1).
    destruct (drain_facts L O2 G2 N2 F) as [f2 [o2 [R2 [L2 [K2 [A2 [M2 [D2 [_ S2]]]]]]]]]. specialize (A2 B2).
    destruct (C116_drain_is_least F L O1 G1 N1 B1) as [f1' [o1' [R1' [_ [W1 _]]]]].
    assert (o1' = o1). { assert (X := R1 (Nat.max f1 f1') ltac:(lia)). rewrite R1' in X by lia. congruence. }
    subst o1'.
    destruct (C116_drain_is_least F L O2 G2 N2 B2) as [f2' [o2' [R2' [_ [W2 _]]]]].
    assert (o2' = o2). { assert (X := R2 (Nat.max f2 f2') ltac:(lia)). rewrite R2' in X by lia. congruence. }
    subst o2'.
    exists (Nat.max f1 f2), o1, o2. split; [intros; apply R1; lia|]. split; [intros; apply R2; lia|].
    intros n x y X Y. assert (Ox := at_in X K1). assert (Oy := at_in Y K2).
    assert (Hn : n < length dem1) by (rewrite <- L1; apply nth_error_Some; congruence).
    assert (Qx := proj1 (Forall_forall _ _) W1 x (nth_error_In _ _ X)).
    assert (Qy := proj1 (Forall_forall _ _) W2 y (nth_error_In _ _ Y)).
    apply (le_rk L) in Qx; auto; [|apply (l_big L)]. apply (le_rk L) in Qy; auto; [|apply (l_big L)].
    assert (BL1 : forall s, boundary_cell iv1 s -> s < length dem1).
    { intros s Hs. apply boundary_lt in Hs. destruct G1 as [<- _]. auto. }
    assert (BL2 : forall s, boundary_cell iv2 s -> s < length dem2).
    { intros s Hs. apply boundary_lt in Hs. destruct G2 as [<- _]. auto. }
    assert (HLE : (rk y <= rk x)%Z).
    { destruct (e_lt E x (e_big E)) eqn:Lt.
      - assert (D := D1 _ _ X Lt).
        refine (proj2 (@least_core _ _ E ok rk eps E ok rk eps iv2 nb2 iv1 nb1 dem2 o2 o1 p (fun x => x)
               L L O2 K2 _ _ _ K1 L2 _ _ _ _ _ M2 _ S2 n D) y x Y X); auto; try lia.
        + rewrite <- Ln. intros m Hm. now apply (rn_p R).
        + intros m Hm. eapply (rn_boundary R); eauto; [apply G1|apply G2].
        + rewrite <- Ln. intros a b Ha Hb. now apply (rn_nb R).
        + rewrite <- Ln. auto.
        + intros m a b A C. assert (Hm : m < length dem1) by (rewrite <- L1; apply nth_error_Some; congruence).
          rewrite (rn_dem R) in A by auto. eapply (Forall2_rk L O1 K1 A1); eauto.
      - rewrite (l_lt L) in Lt by (auto; apply (l_big L)). apply Z.ltb_ge in Lt. lia. }
    assert (HGE : (rk x <= rk y)%Z).
    { destruct (rn_p R Hn) as [P1 P2]. destruct (e_lt E y (e_big E)) eqn:Lt.
      - assert (D := D2 _ _ Y Lt). rewrite <- P2 in X.
        refine (proj2 (@least_core _ _ E ok rk eps E ok rk eps iv1 nb1 iv2 nb2 dem1 o1 o2 q (fun x => x)
               L L O1 K1 _ _ _ K2 L1 _ _ _ _ _ M1 _ S1 (p n) D) x y X Y); auto; try lia.
        + intros m Hm. now apply (rn_q R).
        + intros m Hm. eapply (rn_boundary R'); eauto; [apply G2|apply G1].
        + rewrite Ln. intros a b Ha Hb. now apply (rn_nb R').
        + rewrite Ln. auto.
        + intros m a b A C. assert (Hm : m < length dem2) by (rewrite <- L2; apply nth_error_Some; congruence).
          rewrite (rn_dem R') in A by auto. eapply (Forall2_rk L O2 K2 A2); eauto.
      - rewrite (l_lt L) in Lt by (auto; apply (l_big L)). apply Z.ltb_ge in Lt. lia. }
    rewrite (l_eq L) by auto. apply Z.eqb_eq. lia.
  Qed.

  (** a change of datum or vertical units, with eps converted accordingly, converts the filled
      surface (at the cells that end below the flood level in both models) *)
  Theorem C116_drain_any_units iverts nb (dem : list T) eps eps' method (conv : T -> T) :
    ~ flood_method method None -> elev_laws E ok rk eps -> elev_laws E ok rk eps' -> Forall ok dem ->
    grid_of iverts nb (length dem) -> neighbours_in nb (length dem) -> below dem -> below (map conv dem) ->
    (forall x, ok x -> ok (conv x)) -> (forall x y, ok x -> ok y -> le x y -> le (conv x) (conv y)) ->
    (forall x, ok x -> e_eq E (conv (e_add E x eps)) (e_add E (conv x) eps') = true) ->
    exists f0 out1 out2,
      (forall fuel, f0 <= fuel -> fill_sinks E fuel iverts nb dem eps None method = Ok out1) /\
      (forall fuel, f0 <= fuel -> fill_sinks E fuel iverts nb (map conv dem) eps' None method = Ok out2) /\
      forall n x y, nth_error out1 n = Some x -> nth_error out2 n = Some y ->
        e_lt E x (e_big E) = true -> e_lt E y (e_big E) = true -> e_eq E (conv x) y = true.
  Proof.
    intros F L L' O G NI B B' CO CM CA.
    assert (O' : Forall ok (map conv dem)).
    { apply Forall_forall. intros y Hy. apply in_map_iff in Hy. destruct Hy as [x [<- Hx]].
      apply CO. now apply (proj1 (Forall_forall _ _) O). }
    assert (CR : forall x y, ok x -> ok y -> (rk x <= rk y)%Z -> (rk (conv x) <= rk (conv y))%Z).
    { intros x y Ox Oy H. apply (le_rk L); auto. apply CM; auto. apply (rk_le L); auto. }
    assert (CE : forall x, ok x -> rk (conv (e_add E x eps)) = rk (e_add E (conv x) eps')).
    { intros x Ox. specialize (CA x Ox). rewrite (l_eq L) in CA; [now apply Z.eqb_eq|apply CO, (l_ok L); auto|].
      apply (l_ok L'); auto. }
    destruct (drain_facts L O G NI F) as [f1 [o1 [R1 [L1 [K1 [A1 [M1 [D1 [_ S1]]]]]]]]]. specialize (A1 B).
    assert (G' := G). assert (NI' := NI). rewrite <- (map_length conv dem) in G', NI'.
    destruct (drain_facts L' O' G' NI' F) as [f2 [o2 [R2 [L2 [K2 [A2 [M2 [D2 [_ S2]]]]]]]]]. specialize (A2 B').
    exists (Nat.max f1 f2), o1, o2. split; [intros; apply R1; lia|]. split; [intros; apply R2; lia|].
    intros n x y X Y Lx Ly. assert (Ox := at_in X K1). assert (Oy := at_in Y K2).
    assert (BL : forall s, boundary_cell iverts s -> s < length (map conv dem)).
    { intros s Hs. apply boundary_lt in Hs. rewrite map_length. destruct G as [<- _]. auto. }
    assert (Q1 : (rk y <= rk (conv x))%Z).
    { refine (proj2 (@least_core _ _ E ok rk eps' E ok rk eps iverts nb iverts nb (map conv dem) o2 o1 (fun n => n) conv
               L' L O' K2 CO CR _ K1 L2 _ _ _ _ BL M2 _ S2 n (D1 _ _ X Lx)) y x Y X); auto.
      - intros a Oa. rewrite (CE _ Oa). lia.
      - now rewrite map_length.
      - intros m a b Ha Hb. rewrite nth_error_map in Ha. destruct (nth_error dem m) as [d|] eqn:Hd; [|discriminate].
        cbn in Ha. injection Ha as <-. apply CR; [exact (at_in Hd O)|exact (at_in Hb K1)|].
        exact (Forall2_rk L O K1 A1 Hd Hb). }
    assert (Q2 : (rk (conv x) <= rk y)%Z).
    { assert (KC : Forall ok (map conv o1)).
      { apply Forall_forall. intros z Hz. apply in_map_iff in Hz. destruct Hz as [w [<- Hw]].
        apply CO. now apply (proj1 (Forall_forall _ _) K1). }
      assert (XC : nth_error (map conv o1) n = Some (conv x)) by (rewrite nth_error_map, X; reflexivity).
      refine (proj2 (@least_core _ _ E ok rk eps' E ok rk eps' iverts nb iverts nb (map conv dem) (map conv o1) o2
               (fun n => n) (fun x => x)
               L' L' O' KC _ _ _ K2 _ L2 _ _ _ BL _ _ _ n (D2 _ _ Y Ly)) (conv x) y XC Y); auto.
      - intros. lia.
      - now rewrite !map_length.
      - intros m Hm. rewrite !nth_error_map. now rewrite M1.
      - intros m a b Ha Hb. exact (Forall2_rk L' O' K2 A2 Ha Hb).
      - intros c w a b b' Ha Hb Hadj Hb'. rewrite nth_error_map in Ha, Hb, Hb'.
        destruct (nth_error dem c) as [d|] eqn:Hd; [|discriminate].
        destruct (nth_error o1 c) as [e|] eqn:He; [|discriminate].
        destruct (nth_error o1 w) as [e'|] eqn:He'; [|discriminate].
        cbn in Ha, Hb, Hb'. injection Ha as <-. injection Hb as <-. injection Hb' as <-.
        assert (Od := at_in Hd O). assert (Oe := at_in He K1). assert (Oe' := at_in He' K1).
        destruct (S1 _ _ _ _ _ Hd He Hadj He') as [S|S]; [left; auto|right].
        apply (rk_le L); auto; [apply (l_ok L'); auto|]. rewrite <- CE by auto.
        apply (le_rk L) in S; auto; [|apply (l_ok L); auto]. apply CR; auto. apply (l_ok L); auto. }
    rewrite (l_eq L) by auto. apply Z.eqb_eq. lia.
  Qed.
End C116.

(** ** C117 *)
Lemma gpath_suffix (E : nat -> nat -> Prop) s n l m : gpath E s n l -> In m l ->
  exists l1 l2, l = l1 ++ l2 /\ gpath E s m l2.
Proof.
  intros H. induction H as [|c n l H IH Hl]; intros Hm.
  - destruct Hm as [<-|[]]. exists [], [s]. split; auto. constructor.
  - destruct Hm as [<-|Hm].
    + exists [], (n :: l). split; auto. econstructor; eauto.
    + destruct (IH Hm) as [l1 [l2 [-> P]]]. exists (n :: l1), l2. auto.
Qed.

Lemma gpath_simple (E : nat -> nat -> Prop) s n l : gpath E s n l ->
  exists l', gpath E s n l' /\ NoDup l' /\ incl l' l.
Proof.
  intros H. induction H as [|c n l H [l' [P [ND I]]] Hl].
  - exists [s]. split; [constructor|]. split; [constructor; auto; constructor|apply incl_refl].
  - destruct (in_dec Nat.eq_dec n l') as [Hn|Hn].
    + destruct (gpath_suffix P Hn) as [l1 [l2 [-> P2]]]. exists l2. split; auto. split.
      * clear -ND. induction l1 as [|a l1 IH]; cbn in *; auto. inversion_clear ND. auto.
      * intros m Hm. right. apply I. apply in_or_app. auto.
    + exists (n :: l'). split; [econstructor; eauto|]. split; [constructor; auto|].
      intros m [<-|Hm]; [now left|right; auto].
Qed.

Lemma gpath_bound (E : nat -> nat -> Prop) N s n l : s < N -> (forall a b, E a b -> b < N) -> gpath E s n l ->
  forall m, In m l -> m < N.
Proof.
  intros Hs HE H. induction H as [|c n l H IH Hl]; intros m [<-|Hm]; auto; try contradiction. eapply HE; eauto.
Qed.

(** steps between different elevations are never smaller than eps, e.g. integers with eps = 1 *)
Definition steps_at_least {T} (E : elev T) (ok : T -> Prop) (eps : T) : Prop :=
  forall x y, ok x -> ok y -> e_lt E x y = true -> e_le E (e_add E x eps) y = true.

Section C117.
  Context {T : Type} (E : elev T) (ok : T -> Prop) (rk : T -> Z).
  Variables (iverts nb : list (list nat)) (dem : list T) (eps : T).
  Notation le x y := (e_le E x y = true).
  Notation N := (length dem).
  Notation below dem := (Forall (fun x => le x (e_big E)) dem).

  (** C117: draining never fills less than 'complete', and at the cells that can be reached from the
      rim it fills at most N*eps more *)
  Theorem C117_complete_below_drain method cmethod fuel :
    ~ flood_method method None -> lower cmethod = "complete"%string ->
    elev_laws E ok rk eps -> elev_laws E ok rk (e_zero E) -> eps_null E ok (e_zero E) -> Forall ok dem ->
    grid_of iverts nb N -> neighbours_in nb N -> symmetric_grid nb -> N <= fuel -> below dem ->
    exists f0 cout out,
      fill_sinks E fuel iverts nb dem eps None cmethod = Ok cout /\
      (forall fuel, f0 <= fuel -> fill_sinks E fuel iverts nb dem eps None method = Ok out) /\
      Forall2 (fun x y => le x y) cout out /\
      forall n x y, reachable (link nb N) (boundary_cell iverts) n ->
        nth_error cout n = Some x -> nth_error out n = Some y -> le y (add_times E eps N x).
  Proof.
    intros F Em L Lz NU O G NI SY U B.
    destruct (drain_facts L O G NI F) as [f0 [out [H1 [H2 [H3 [H4 [H5 [H6 [H7 H8]]]]]]]]]. specialize (H4 B).
    destruct (C04_complete_is_spill (iverts := iverts) (nb := nb) eps _ Em Lz NU O G U) as [cout [R [Hlc Hsp]]].
    assert (Fc : flood_method cmethod None) by (right; now left).
    assert (Lc : elev_laws E ok rk (step_eps E cmethod eps)) by (unfold step_eps; rewrite Em; exact Lz).
    destruct (flood_facts eps Lc O G (mask := None) I Fc U) as [c' [R' [_ [CK [_ [CN _]]]]]].
    assert (c' = cout) by congruence. subst c'. clear R'.
    assert (Hbl : forall s, boundary_cell iverts s -> s < N).
    { intros s Hs. apply boundary_lt in Hs. destruct G as [<- _]. auto. }
    assert (Hfwd : forall a b, link nb N a b -> adjacent nb b a /\ b < N).
    { intros a b [Ha Hb]. split; auto. }
    assert (Hbwd : forall a b, adjacent nb b a /\ b < N -> link nb N a b).
    { intros a b [Ha Hb]. split; auto. }
    exists f0, cout, out. split; auto. split; auto. split.
    - apply Forall2_nth; [lia|]. intros n x y X Y. assert (Ox := at_in X CK). assert (Oy := at_in Y H3).
      assert (Hn : n < N) by (rewrite <- H2; apply nth_error_Some; congruence).
      destruct (e_le E x y) eqn:V; auto. exfalso. apply not_true_iff_false in V.
      apply (@both_ways (reachable (link nb N) (boundary_cell iverts) n)); [intros RE|intros NR]; apply V; clear V.
      + destruct (Hsp n x RE X) as [[s [l [Hs [Hp Hall]]]] Hmin]. apply (rk_le L); auto.
        destruct (e_lt E y (e_big E)) eqn:Lt.
        * assert (D := H6 n y Y Lt).
          destruct (drain_path L O H3 H2 H4 Hbl D) as [_ [s' [l' [Hs' [Hp' Hx]]]]].
          destruct (Hmin s' l' Hs' (gpath_sub _ Hbwd Hp')) as [m [d [Hm [Hd Hle]]]].
          assert (Od := at_in Hd O). apply (le_rk L) in Hle; auto. assert (Q := Hx m d y Hm Hd Y). lia.
        * rewrite (l_lt L) in Lt by (auto; apply (l_big L)). apply Z.ltb_ge in Lt.
          destruct (Hmin s l Hs Hp) as [m [d [Hm [Hd Hle]]]].
          assert (Od := at_in Hd O). apply (le_rk L) in Hle; auto.
          assert (Q := proj1 (Forall_forall _ _) B d (nth_error_In _ _ Hd)).
          apply (le_rk L) in Q; auto; [lia|apply (l_big L)].
      + rewrite CN in X by auto. apply (rk_le L); auto. exact (Forall2_rk L O H3 H4 X Y).
    - intros n x y RE X Y. assert (Ox := at_in X CK). assert (Oy := at_in Y H3).
      destruct (Hsp n x RE X) as [[s [l [Hs [Hp Hall]]]] _].
      destruct (gpath_simple (gpath_sub _ Hfwd Hp)) as [l' [Hp' [ND Inc]]].
      assert (Len : length l' <= N).
      { rewrite <- (seq_length N 0). apply NoDup_incl_length; auto. intros m Hm. apply in_seq.
        assert (m < N); [|lia]. eapply (@gpath_bound _ N); [|  |exact Hp'|exact Hm]; auto. intros a b [_ Q]; auto. }
      assert (Hall' : forall m z, In m l' -> nth_error dem m = Some z -> le z x) by (intros; eapply Hall; eauto).
      destruct (drain_upper (boundary_cell iverts) L O H3 H2 H5 H8 _ Ox Hs (Hbl _ Hs) Hp' Hall') as [_ Q].
      specialize (Q y Y).
      assert (W : forall k j, j <= k -> (rk (add_times E eps j x) <= rk (add_times E eps k x))%Z /\ ok (add_times E eps k x)).
      { clear -L Ox. intros k. induction k as [|k IH]; intros j Hj.
        - replace j with 0 by lia. cbn. split; [lia|auto].
        - destruct (IH (Nat.min j k) ltac:(lia)) as [A C]. cbn [add_times]. assert (Z := l_up L _ C).
          split; [|apply (l_ok L); auto]. destruct (Nat.eq_dec j (S k)) as [->|Hd]; [cbn [add_times]; lia|].
          replace (Nat.min j k) with j in A by lia. lia. }
      destruct (W N _ Len) as [W1 W2]. apply (rk_le L); auto. lia.
  Qed.

  (** when no two elevations are closer than eps, draining fills no more than 'priority' *)
  Theorem C117_drain_below_priority method pmethod fuel :
    ~ flood_method method None -> lower pmethod = "priority"%string ->
    elev_laws E ok rk eps -> steps_at_least E ok eps -> Forall ok dem ->
    grid_of iverts nb N -> neighbours_in nb N -> symmetric_grid nb -> N <= fuel -> below dem ->
    exists f0 pout out,
      fill_sinks E fuel iverts nb dem eps None pmethod = Ok pout /\
      (forall fuel, f0 <= fuel -> fill_sinks E fuel iverts nb dem eps None method = Ok out) /\
      forall n x y, reachable (link nb N) (boundary_cell iverts) n ->
        nth_error out n = Some x -> nth_error pout n = Some y -> le x y.
  Proof.
    intros F Em L ST O G NI SY U B.
    destruct (C116_drain_is_least F L O G NI B) as [f0 [out [R1 [K1 [W1 [A1 [M1 [D1 S1]]]]]]]].
    assert (Fp : flood_method pmethod None) by (now left).
    assert (Ee : step_eps E pmethod eps = eps) by (unfold step_eps; now rewrite Em).
    assert (Lp : elev_laws E ok rk (step_eps E pmethod eps)) by (now rewrite Ee).
    destruct (flood_facts eps Lp O G (mask := None) I Fp U) as [pout [R [PL [PK [PA [PN [PR _]]]]]]].
    exists f0, pout, out. split; auto. split; auto. intros n x y RE X Y.
    assert (Hn : n < N) by (rewrite <- PL; apply nth_error_Some; congruence).
    apply (S1 pout PK PA n x y); auto. rewrite Ee in PR.
    assert (D : drains (fun x y => e_le E (e_add E x eps) y) (link nb N) (source iverts None) pout n).
    { apply PR; auto. intros a b Ha Hb [->|Hab].
      - assert (Oa := proj1 (Forall_forall _ _) PK a Ha).
        apply (rk_le L); [apply (l_ok L); auto..|lia].
      - apply ST; auto; apply (proj1 (Forall_forall _ _) PK); auto. }
    clear -D SY. unfold drains_by. induction D as [s Hs|c m a b D IH [Ha Hb] Hc Hm Hle].
    - apply dr_seed. exact Hs.
    - eapply dr_down; eauto.
  Qed.
End C117.

(** the two orders of 'drain' and 'priority' both occur.  An elevation within eps of a lower
    neighbour is left by 'priority' but raised by 'drain'; two floods meeting in a pit are ordered by
    cell number by 'priority' only *)
Theorem C117_drain_below_priority_refuted : exists iverts nb (dem : list Z) eps pout out,
  grid_of iverts nb (length dem) /\
  fill_sinks Zelev 9 iverts nb dem eps None "priority" = Ok pout /\
  fill_sinks Zelev 9 iverts nb dem eps None "drain" = Ok out /\
  nth 4 pout 0%Z = 1%Z /\ nth 4 out 0%Z = 2%Z.
Proof.
  exists (quad_iverts 3 3), (rook 3 3), [0; 0; 0;  0; 1; 0;  0; 0; 0]%Z, 2%Z.
  do 2 eexists. split; [|split; [vm_compute; reflexivity|split; [vm_compute; reflexivity|split; vm_compute; reflexivity]]].
  split; [reflexivity|]. split; [|vm_compute; lia]. repeat (constructor; [discriminate|]). constructor.
Qed.

Theorem C117_priority_below_drain_refuted : exists iverts nb (dem : list Z) pout out,
  grid_of iverts nb (length dem) /\
  fill_sinks Zelev 12 iverts nb dem 1%Z None "priority" = Ok pout /\
  fill_sinks Zelev 12 iverts nb dem 1%Z None "drain" = Ok out /\
  nth 6 pout 0%Z = 7%Z /\ nth 6 out 0%Z = 6%Z.
Proof.
  exists (quad_iverts 3 4), (rook 3 4), [5; 5; 9; 9;  5; 0; 0; 5;  5; 9; 9; 9]%Z.
  do 2 eexists. split; [|split; [vm_compute; reflexivity|split; [vm_compute; reflexivity|split; vm_compute; reflexivity]]].
  split; [reflexivity|]. split; [|vm_compute; lia]. repeat (constructor; [discriminate|]). constructor.
Qed.

(** the hypotheses are met: integers with eps = 1, 3 x 4 cells with a pit of two cells *)
Example C116_ex :
  fill_sinks Zelev 12 (quad_iverts 3 4) (rook 3 4) [5; 5; 9; 9;  5; 0; 0; 5;  5; 9; 9; 9]%Z 1%Z None "drain"
    = Ok [5; 5; 9; 9;  5; 6; 6; 5;  5; 9; 9; 9]%Z /\
  fill_sinks Zelev 12 (quad_iverts 3 4) (rook 3 4) [5; 6; 9; 9;  6; 0; 0; 5;  5; 9; 9; 9]%Z 1%Z None "drain"
    = Ok [5; 6; 9; 9;  6; 7; 6; 5;  5; 9; 9; 9]%Z /\
  fill_sinks Zelev 12 (quad_iverts 3 4) (rook 3 4) [5; 5; 9; 9;  5; 0; 0; 5;  5; 9; 9; 9]%Z 1%Z None "complete"
    = Ok [5; 5; 9; 9;  5; 5; 5; 5;  5; 9; 9; 9]%Z.
Proof. split; [|split]; vm_compute; reflexivity. Qed.
Example C117_ex : steps_at_least Zelev (fun _ => True) 1%Z.
Proof. intros x y _ _ H. cbn in *. apply Z.ltb_lt in H. apply Z.leb_le. lia. Qed.
