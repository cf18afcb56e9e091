(** C110: filling does not depend on the order in which the neighbours of a cell are listed.
    C111: complete fill is monotone in the terrain, commutes with a change of vertical units,
    and does not depend on how the cells are numbered.
    C112: priority fill with eps > 0 has neither property, but deviates by at most N*eps. *)
From Coq Require Import String Permutation.
From Verif Require Import Py Spec MHeap LHeap MFill LFill LDrain LEdge LFill2 LFill3 LPerm Grids PropsFill.
Set Implicit Arguments.
Unset Strict Implicit.
Local Open Scope nat_scope.
Local Open Scope list_scope.
Local Notation length := List.length.

(** the two tables list the same neighbours for every cell, in any order *)
Definition same_neighbours (size : nat) (nb1 nb2 : list (list nat)) : Prop :=
  forall c, c < size -> Permutation (nth c nb1 []) (nth c nb2 []).

(** [<=]-equal elevations are identical (true of integers; of floats without -0.0) *)
Definition equal_is_identical {T} (ok : T -> Prop) (rk : T -> Z) : Prop :=
  forall x y, ok x -> ok y -> rk x = rk y -> x = y.

Lemma Forall2_len {A B} (R : A -> B -> Prop) l1 l2 : Forall2 R l1 l2 -> length l1 = length l2.
Proof. induction 1; cbn; auto. Qed.
Lemma both_ways (P : Prop) : (P -> False) -> (~ P -> False) -> False.
Proof. tauto. Qed.

Section C110.
  Context {T : Type} (E : elev T) (ok : T -> Prop) (rk : T -> Z).
  Variables (iverts nb1 nb2 : list (list nat)) (dem : list T) (eps : T).
  Notation N := (length dem).

  Lemma init_Inv seed (e : T) : elev_laws E ok rk e -> Forall ok dem -> N <= length nb1 -> NoDup seed ->
    (forall s, In s seed -> s < N) -> exists s, pf_init E dem seed = Ok s /\ @Inv T E ok N seed s /\ pf_pit s = [].
  Proof.
    intros L O G ND B.
    destruct (@initA _ E ok rk e L nb1 dem seed O G ND B) as [s [Ei [I [_ [Ed [Ep [Hc Po]]]]]]].
    exists s. split; auto. split; auto.
    unfold pf_init in Ei.
    destruct (@init_open _ E ok rk e L nb1 dem O G seed [] B) as [h [E1 [P1 H1]]].
    { constructor. } { intros i d Hi Hl. cbn in Hl. lia. }
    rewrite E1 in Ei. cbn [bind] in Ei.
    destruct (foldM _ seed (repeat false N)) as [cs|] eqn:E2; [|discriminate]. cbn [bind] in Ei.
    injection Ei as <-. cbn [pf_dem pf_closed pf_open pf_pit] in *.
    assert (OP : Forall (fun p => ok (fst p)) h).
    { rewrite P1, app_nil_r. apply Forall_forall. intros x Hx. apply in_map_iff in Hx.
      destruct Hx as [n [<- Hn]]. cbn. apply (proj1 (Forall_forall _ _) O). apply nth_In. auto. }
    constructor; cbn [pf_dem pf_closed pf_open pf_pit]; auto.
    - assert (X : forall l (c r : list bool), foldM (fun c n => set c n true) l c = Ok r -> length r = length c).
      { induction l as [|n l IH]; intros c r Hr; cbn in Hr; [congruence|].
        destruct (set c n true) as [c'|] eqn:Es; cbn in Hr; [|discriminate].
        apply set_ok in Es. destruct Es as [_ ->]. rewrite (IH _ _ Hr). apply upd_length. }
      rewrite (X _ _ _ E2). apply repeat_length.
    - apply (Permutation_NoDup (Permutation_sym Po)). exact ND.
    - intros e' c H. apply Hc. apply (Permutation_in _ Po). apply in_map_iff. now exists (e', c).
    - intros c [].
    - intros c H. now apply Hc.
  Qed.

  Lemma flood_dispatch_nb mask method :
    grid_of iverts nb1 N -> mask_fits mask N -> flood_method method mask ->
    exists seed, (forall fuel nb, fill_sinks E fuel iverts nb dem eps mask method =
        priority_flood E fuel nb dem (step_eps E method eps) seed
          (match mask with None => false | Some _ => true end)) /\
      NoDup seed /\ (forall s, In s seed -> s < N).
  Proof.
    intros [G1 [G2 G3]] Hm Hfl. destruct (identify_edge_nodes_spec G2) as [rim [Er [Hs Hb]]].
    destruct mask as [m|].
    - exists (where_ (fun v => (0 <? v)%Z) m). split; [|split].
      + intros fuel nb. unfold fill_sinks. rewrite Er. cbn [bind]. unfold step_eps.
        destruct (String.eqb (lower method) "priority") eqn:E1; cbn [orb].
        * rewrite E1. cbn [orb]. reflexivity.
        * destruct (String.eqb (lower method) "complete") eqn:E2.
          -- rewrite E1, E2. reflexivity.
          -- reflexivity.
      + apply where_nodup.
      + intros s H. apply in_where in H. destruct H as [x [H _]]. simpl in Hm. rewrite <- Hm.
        apply nth_error_Some. congruence.
    - exists rim. split; [|split].
      + intros fuel nb. unfold fill_sinks. rewrite Er. cbn [bind]. unfold step_eps.
        destruct (String.eqb_spec (lower method) "priority") as [E1|E1]; cbn [orb]; auto.
        destruct (String.eqb_spec (lower method) "complete") as [E2|E2]; auto.
        destruct Hfl as [|[|]]; congruence.
      + now apply sorted_lt_nodup.
      + intros s H. apply Hb in H. apply boundary_lt in H. congruence.
  Qed.

  (** priority flooding.  Without a stream mask for every elevation arithmetic, IEEE binary64
      included; with a mask when equal elevations are identical. *)
  Theorem C110_flood_any_neighbour_order mask method fuel :
    elev_laws E ok rk (step_eps E method eps) -> Forall ok dem ->
    grid_of iverts nb1 N -> grid_of iverts nb2 N -> same_neighbours N nb1 nb2 ->
    mask_fits mask N -> flood_method method mask -> N <= fuel ->
    (mask <> None -> equal_is_identical ok rk) ->
    exists out, fill_sinks E fuel iverts nb1 dem eps mask method = Ok out /\
                fill_sinks E fuel iverts nb2 dem eps mask method = Ok out.
  Proof.
    intros L O G1 G2 S M F U J.
    destruct (flood_facts eps L O G1 M F U) as [o1 [R1 _]].
    destruct (flood_facts eps L O G2 M F U) as [o2 [R2 _]].
    exists o1. split; auto. rewrite R2. f_equal. symmetry.
    destruct (flood_dispatch_nb G1 M F) as [seed [D [ND B]]].
    rewrite D in R1, R2.
    destruct G1 as [_ [_ G1]]. destruct G2 as [_ [_ G2]].
    destruct (init_Inv L O G1 ND B) as [s [Ei [Is Ep]]].
    unfold priority_flood in R1, R2. rewrite Ei in R1, R2. cbn [bind] in R1, R2.
    destruct (pf_loop E fuel nb1 _ _ _ _) as [r1|] eqn:P1; [|discriminate].
    destruct (pf_loop E fuel nb2 _ _ _ _) as [r2|] eqn:P2; [|discriminate].
    cbn [bind] in R1, R2. injection R1 as <-. injection R2 as <-.
    assert (Hz : ok (e_big E)) by apply (l_big L).
    assert (J' : (match mask with None => false | Some _ => true end) = true ->
                 forall a b, ok a -> ok b -> rk a = rk b -> a = b).
    { destruct mask; [|discriminate]. intros _. apply J. discriminate. }
    refine (@loop_sim _ E ok rk (step_eps E method eps) L nb1 nb2 N seed _ G1 G2 S J' B (Datatypes.S fuel) fuel fuel
              s s r1 r2 (e_big E) (le_n _) Is Is (sim_refl s) Hz _ P1 P2).
    intros c Hc. rewrite Ep in Hc. destruct Hc.
  Qed.

  Lemma amax_in (x : T) l : In (amax E x l) (x :: l).
  Proof.
    unfold amax. revert x. induction l as [|y l IH]; intros x; cbn [fold_left]; [now left|].
    destruct (e_lt E x y); [right; apply IH|]. destruct (IH x) as [H|H]; [now left|right; now right].
  Qed.
  Lemma amax_ge (e : T) (L : elev_laws E ok rk e) l : forall x y, (forall y, In y (x :: l) -> ok y) -> In y (x :: l) ->
    (rk y <= rk (amax E x l))%Z.
  Proof.
    unfold amax. induction l as [|w l IH]; intros x y O H; cbn [fold_left].
    - destruct H as [->|[]]. lia.
    - assert (Ox : ok x) by (apply O; now left). assert (Ow : ok w) by (apply O; right; now left).
      assert (Om : ok (if e_lt E x w then w else x)) by now destruct (e_lt E x w).
      assert (O' : forall v, In v ((if e_lt E x w then w else x) :: l) -> ok v).
      { intros v [<-|V]; auto. apply O. right; now right. }
      assert (M := IH _ _ O' (or_introl eq_refl)).
      assert (B : (rk x <= rk (if e_lt E x w then w else x) /\ rk w <= rk (if e_lt E x w then w else x))%Z).
      { rewrite (l_lt L) by auto. destruct (Z.ltb_spec (rk x) (rk w)); lia. }
      destruct H as [<-|[<-|H]]; [lia|lia|]. apply IH; auto. now right.
  Qed.

  Lemma filter_perm {A} (f : A -> bool) l1 l2 : Permutation l1 l2 -> Permutation (filter f l1) (filter f l2).
  Proof.
    intros H; induction H; cbn; auto.
    - destruct (f x); auto.
    - destruct (f x), (f y); auto; try constructor.
    - etransitivity; eauto.
  Qed.
  Lemma existsb_perm {A} (f : A -> bool) l1 l2 : Permutation l1 l2 -> existsb f l1 = existsb f l2.
  Proof.
    intros H; induction H; cbn; auto.
    - now rewrite IHPermutation.
    - destruct (f x), (f y); auto.
    - congruence.
  Qed.

  Lemma drain_cell_perm m wf c : elev_laws E ok rk eps -> equal_is_identical ok rk -> Forall ok dem ->
    N <= length nb1 -> N <= length nb2 -> neighbours_in nb1 N -> same_neighbours N nb1 nb2 ->
    c < N -> length wf = N -> Forall ok wf ->
    drain_cell E nb1 dem eps (m, wf) c = drain_cell E nb2 dem eps (m, wf) c /\
    forall p, drain_cell E nb1 dem eps (m, wf) c = Ok p -> length (snd p) = N /\ Forall ok (snd p).
  Proof.
    intros L J O G1 G2 NI S Hc Lw Ow. unfold drain_cell.
    rewrite (nth_error_nth' nb1 []), (nth_error_nth' nb2 []) by lia. cbn [bind].
    set (z := e_zero E).
    rewrite (get_nth wf z), (get_nth dem z) by lia. cbn [bind].
    destruct (e_lt E (nth c dem z) (nth c wf z)).
    2:{ split; auto. intros p Hp. injection Hp as <-. auto. }
    assert (NB : forall n, In n (nth c nb1 []) -> n < N).
    { intros n Hn. apply (NI c n Hc). exists (nth c nb1 []). split; auto. apply nth_error_nth'. lia. }
    rewrite (@mapM_ok _ _ (get wf) (fun n => nth n wf z) (nth c nb1 [])) by (intros n Hn; apply get_nth; rewrite Lw; auto).
    rewrite (@mapM_ok _ _ (get wf) (fun n => nth n wf z) (nth c nb2 [])).
    2:{ intros n Hn. apply get_nth. rewrite Lw. apply NB. apply (Permutation_in _ (Permutation_sym (S c Hc)) Hn). }
    cbn [bind].
    assert (Q := Permutation_map (fun n => nth n wf z) (S c Hc)).
    assert (OK1 : forall a, In a (map (fun n => nth n wf z) (nth c nb1 [])) -> ok a).
    { intros a Ha. apply in_map_iff in Ha. destruct Ha as [n [<- Hn]].
      apply (proj1 (Forall_forall _ _) Ow). apply nth_In. rewrite Lw. auto. }
    revert Q OK1. generalize (map (fun n => nth n wf z) (nth c nb1 [])).
    generalize (map (fun n => nth n wf z) (nth c nb2 [])). intros w2 w1 Q OK1.
    rewrite (existsb_perm _ Q). destruct (existsb _ w2).
    - split; auto. intros p Hp. rewrite set_lt in Hp by lia. cbn [bind] in Hp. injection Hp as <-. cbn [snd].
      rewrite upd_length. split; auto. apply Forall_forall. intros a Ha.
      apply In_nth with (d := z) in Ha. destruct Ha as [k [K <-]]. rewrite upd_length in K.
      rewrite nth_upd by lia. destruct (Nat.eq_dec c k).
      + apply (proj1 (Forall_forall _ _) O). now apply nth_In.
      + apply (proj1 (Forall_forall _ _) Ow). now apply nth_In.
    - assert (F := filter_perm (fun w => e_lt E (e_add E w eps) (nth c wf z)) Q).
      assert (OF : forall a, In a (filter (fun w => e_lt E (e_add E w eps) (nth c wf z)) w1) -> ok a).
      { intros a Ha. apply filter_In in Ha. now apply OK1. }
      revert F OF. generalize (filter (fun w => e_lt E (e_add E w eps) (nth c wf z)) w1).
      generalize (filter (fun w => e_lt E (e_add E w eps) (nth c wf z)) w2). intros f2 f1 F OF.
      assert (Le := Permutation_length F).
      destruct f1 as [|a f1], f2 as [|b f2]; cbn in Le; try lia.
      + split; auto. intros p Hp. injection Hp as <-. auto.
      + assert (EQ : amax E a f1 = amax E b f2).
        { assert (OF2 : forall x, In x (b :: f2) -> ok x).
          { intros x Hx. apply OF. apply (Permutation_in _ (Permutation_sym F) Hx). }
          assert (A := amax_in a f1). assert (B := amax_in b f2). apply J; auto.
          assert (A1 := amax_ge L OF (Permutation_in _ (Permutation_sym F) B)).
          assert (A2 := amax_ge L OF2 (Permutation_in _ F A)). lia. }
        rewrite EQ. split; auto. intros p Hp. rewrite set_lt in Hp by lia. cbn [bind] in Hp. injection Hp as <-.
        cbn [snd]. rewrite upd_length. split; auto. apply Forall_forall. intros x Hx.
        apply In_nth with (d := z) in Hx. destruct Hx as [k [K <-]]. rewrite upd_length in K.
        rewrite nth_upd by lia. destruct (Nat.eq_dec c k).
        * apply (l_ok L). rewrite <- EQ. apply OF. apply amax_in.
        * apply (proj1 (Forall_forall _ _) Ow). now apply nth_In.
  Qed.

  (** the drain method *)
  Theorem C110_drain_any_neighbour_order method :
    elev_laws E ok rk eps -> equal_is_identical ok rk -> Forall ok dem ->
    grid_of iverts nb1 N -> grid_of iverts nb2 N -> neighbours_in nb1 N -> same_neighbours N nb1 nb2 ->
    ~ flood_method method None ->
    exists f0 out, forall fuel, f0 <= fuel ->
      fill_sinks E fuel iverts nb1 dem eps None method = Ok out /\
      fill_sinks E fuel iverts nb2 dem eps None method = Ok out.
  Proof.
    intros L J O G1 G2 NI S F.
    destruct (drain_facts L O G1 NI F) as [f0 [out [R _]]].
    exists f0, out. intros fuel U. split; auto. rewrite <- (R fuel U).
    unfold fill_sinks. destruct G1 as [_ [NE G1]]. destruct G2 as [_ [_ G2]].
    destruct (identify_edge_nodes_spec NE) as [rim [Er [_ Hb]]]. rewrite Er. cbn [bind].
    destruct (String.eqb_spec (lower method) "priority") as [E1|E1]. { exfalso. apply F. now left. }
    destruct (String.eqb_spec (lower method) "complete") as [E2|E2]. { exfalso. apply F. right. now left. }
    cbn [orb]. unfold flood_and_drain.
    destruct (drain_init E dem rim) as [wf|] eqn:Ei; auto. cbn [bind].
    assert (W : length wf = N /\ Forall ok wf).
    { unfold drain_init in Ei.
      assert (X : forall l (a r : list T), length a = N -> Forall ok a ->
        foldM (fun wf n => e <- get dem n ;; set wf n e) l a = Ok r -> length r = N /\ Forall ok r).
      { induction l as [|n l IH]; intros a r La Oa Hr; cbn in Hr; [injection Hr as <-; auto|].
        destruct (get dem n) as [e|] eqn:Eg; cbn in Hr; [|discriminate].
        destruct (set a n e) as [a'|] eqn:Es; cbn in Hr; [|discriminate].
        apply set_ok in Es. destruct Es as [Hn ->]. apply (IH _ _) in Hr; auto.
        - now rewrite upd_length.
        - apply get_ok in Eg. apply nth_error_In in Eg. apply Forall_forall. intros x Hx.
          apply In_nth with (d := e) in Hx. destruct Hx as [k [K <-]]. rewrite upd_length in K.
          rewrite nth_upd by auto. destruct (Nat.eq_dec n k); [now apply (proj1 (Forall_forall _ _) O)|].
          apply (proj1 (Forall_forall _ _) Oa). now apply nth_In. }
      apply (X _ _ _ (repeat_length _ _)) in Ei; auto. apply Forall_forall. intros x Hx.
      apply repeat_spec in Hx. subst x. apply (l_big L). }
    destruct W as [Lw Ow]. clear R U Ei. revert wf Lw Ow. induction fuel as [|f IH]; intros wf Lw Ow; cbn [drain_loop]; auto.
    assert (PS : drain_pass E nb1 dem eps wf = drain_pass E nb2 dem eps wf /\
      forall p, drain_pass E nb1 dem eps wf = Ok p -> length (snd p) = N /\ Forall ok (snd p)).
    { unfold drain_pass.
      assert (X : forall l m w, (forall c, In c l -> c < N) -> length w = N -> Forall ok w ->
        foldM (drain_cell E nb1 dem eps) l (m, w) = foldM (drain_cell E nb2 dem eps) l (m, w) /\
        forall p, foldM (drain_cell E nb1 dem eps) l (m, w) = Ok p -> length (snd p) = N /\ Forall ok (snd p)).
      { induction l as [|c l IHl]; intros m w B Lw' Ow'; cbn [foldM].
        - split; auto. intros p Hp. injection Hp as <-. auto.
        - destruct (drain_cell_perm m (wf := w) (c := c) L J O G1 G2 NI S) as [D1 D2]; auto. { apply B; now left. }
          rewrite <- D1. destruct (drain_cell E nb1 dem eps (m, w) c) as [[m' w']|] eqn:D; cbn [bind].
          + destruct (D2 _ eq_refl) as [D3 D4]. apply IHl; auto. intros; apply B; now right.
          + split; [reflexivity|discriminate]. }
      apply X; auto. intros c Hc. apply in_seq in Hc. lia. }
    destruct PS as [P1 P2]. rewrite <- P1. destruct (drain_pass E nb1 dem eps wf) as [[m w]|] eqn:D; cbn [bind fst snd]; auto.
    destruct (P2 _ eq_refl) as [P3 P4]. destruct m; auto.
  Qed.
End C110.

(** ** C111 *)
Section C111.
  Context {T : Type} (E : elev T) (ok : T -> Prop) (rk : T -> Z).
  Notation le x y := (e_le E x y = true).

  (** raising the terrain anywhere never lowers the filled surface *)
  Theorem C111_complete_monotone iverts nb (dem1 dem2 : list T) eps method fuel :
    lower method = "complete"%string ->
    elev_laws E ok rk (e_zero E) -> eps_null E ok (e_zero E) -> Forall ok dem1 -> Forall ok dem2 ->
    grid_of iverts nb (length dem1) -> length dem1 <= fuel ->
    Forall2 (fun x y => le x y) dem1 dem2 ->
    exists out1 out2,
      fill_sinks E fuel iverts nb dem1 eps None method = Ok out1 /\
      fill_sinks E fuel iverts nb dem2 eps None method = Ok out2 /\
      Forall2 (fun x y => le x y) out1 out2.
  Proof.
    intros Em L NU O1 O2 G U H. assert (Ln := Forall2_len H). assert (G2 := G). rewrite Ln in G2.
    assert (U2 := U). rewrite Ln in U2.
    assert (F : flood_method method None) by (right; now left).
    assert (Ee : step_eps E method eps = e_zero E) by (unfold step_eps; now rewrite Em).
    rewrite <- Ee in L, NU.
    destruct (flood_facts eps L O1 G (mask := None) I F U) as [o1 [R1 [L1 [K1 [_ [N1 [_ [_ [_ [_ S1]]]]]]]]]].
    destruct (flood_facts eps L O2 G2 (mask := None) I F U2) as [o2 [R2 [L2 [K2 [_ [N2 [_ [_ [_ [_ S2]]]]]]]]]].
    exists o1, o2. split; auto. split; auto. apply Forall2_nth; [congruence|].
    intros n x y X Y.
    assert (Hn : n < length dem1) by (rewrite <- L1; apply nth_error_Some; congruence).
    assert (PW : forall m a b, nth_error dem1 m = Some a -> nth_error dem2 m = Some b -> le a b).
    { clear - H. induction H as [|a b l1 l2 Hab H IH]; intros [|m] x y Hx Hy; cbn in *; try discriminate; eauto. congruence. }
    assert (Ox : ok x) by (apply (proj1 (Forall_forall _ _) K1); eapply nth_error_In; eauto).
    assert (Oy : ok y) by (apply (proj1 (Forall_forall _ _) K2); eapply nth_error_In; eauto).
    destruct (e_le E x y) eqn:V; auto. exfalso.
    apply (@both_ways (reachable (link nb (length dem1)) (source iverts None) n)); [intros RE|intros NR]; apply not_true_iff_false in V; apply V; clear V.
    - assert (A := S1 eq_refl NU n x Hn RE X). rewrite Ln in RE. assert (Hn2 := Hn). rewrite Ln in Hn2.
      assert (B := S2 eq_refl NU n y Hn2 RE Y). destruct A as [_ A]. destruct B as [[s [l [Hs [Hp Hall]]]] _].
      rewrite Ln in A. destruct (A s l Hs Hp) as [m [a [Hm [Ha Hle]]]].
      assert (Hb : exists b, nth_error dem2 m = Some b).
      { destruct (nth_error dem2 m) as [b|] eqn:Eb; eauto. apply nth_error_None in Eb.
        assert (m < length dem1) by (apply nth_error_Some; congruence). lia. }
      destruct Hb as [b Hb]. assert (P1 := PW _ _ _ Ha Hb). assert (P2 := Hall m b Hm Hb).
      assert (Oa : ok a) by (apply (proj1 (Forall_forall _ _) O1); eapply nth_error_In; eauto).
      assert (Ob : ok b) by (apply (proj1 (Forall_forall _ _) O2); eapply nth_error_In; eauto).
      rewrite (l_le L) in * by auto. apply Z.leb_le in Hle, P1, P2. apply Z.leb_le. lia.
    - rewrite N1 in X by auto. rewrite Ln in NR. rewrite N2 in Y by (auto; lia). eapply PW; eauto.
  Qed.

  (** changing the vertical units (any order-preserving conversion) and filling commute *)
  Theorem C111_complete_any_units iverts nb (dem : list T) eps method fuel (conv : T -> T) :
    lower method = "complete"%string ->
    elev_laws E ok rk (e_zero E) -> eps_null E ok (e_zero E) -> Forall ok dem ->
    (forall x, ok x -> ok (conv x)) ->
    (forall x y, ok x -> ok y -> le x y -> le (conv x) (conv y)) ->
    grid_of iverts nb (length dem) -> length dem <= fuel ->
    exists out out',
      fill_sinks E fuel iverts nb dem eps None method = Ok out /\
      fill_sinks E fuel iverts nb (map conv dem) eps None method = Ok out' /\
      Forall2 (fun x y => e_eq E x y = true) (map conv out) out'.
  Proof.
    intros Em L NU O1 CO CM G U. assert (Ln := map_length conv dem). assert (G2 := G). rewrite <- Ln in G2.
    assert (U2 := U). rewrite <- Ln in U2.
    assert (O2 : Forall ok (map conv dem)).
    { apply Forall_forall. intros a Ha. apply in_map_iff in Ha. destruct Ha as [b [<- Hb]]. apply CO.
      now apply (proj1 (Forall_forall _ _) O1). }
    assert (F : flood_method method None) by (right; now left).
    assert (Ee : step_eps E method eps = e_zero E) by (unfold step_eps; now rewrite Em).
    rewrite <- Ee in L, NU.
    destruct (flood_facts eps L O1 G (mask := None) I F U) as [o1 [R1 [L1 [K1 [_ [N1 [_ [_ [_ [_ S1]]]]]]]]]].
    destruct (flood_facts eps L O2 G2 (mask := None) I F U2) as [o2 [R2 [L2 [K2 [_ [N2 [_ [_ [_ [_ S2]]]]]]]]]].
    exists o1, o2. split; auto. split; auto. apply Forall2_nth; [rewrite map_length; congruence|].
    intros n x' y X' Y. rewrite nth_error_map in X'. destruct (nth_error o1 n) as [x|] eqn:X; [|discriminate].
    cbn in X'. injection X' as <-.
    assert (Hn : n < length dem) by (rewrite <- L1; apply nth_error_Some; congruence).
    assert (Ox : ok x) by (apply (proj1 (Forall_forall _ _) K1); eapply nth_error_In; eauto).
    assert (Oy : ok y) by (apply (proj1 (Forall_forall _ _) K2); eapply nth_error_In; eauto).
    destruct (e_eq E (conv x) y) eqn:V; auto. exfalso.
    apply (@both_ways (reachable (link nb (length dem)) (source iverts None) n)); [intros RE|intros NR]; apply not_true_iff_false in V; apply V; clear V.
    - assert (A := S1 eq_refl NU n x Hn RE X). assert (Hn2 := Hn). rewrite <- Ln in RE, Hn2.
      assert (B := S2 eq_refl NU n y Hn2 RE Y). rewrite Ln in B.
      apply (spill_unique L O2 (CO _ Ox) Oy) in B; auto.
      assert (OD : forall m a, nth_error dem m = Some a -> ok a).
      { intros m a Ha. apply (proj1 (Forall_forall _ _) O1). eapply nth_error_In; eauto. }
      destruct A as [[s [l [Hs [Hp Hall]]]] A]. split.
      + exists s, l. split; auto. split; auto. intros m a Hm Ha. rewrite nth_error_map in Ha.
        destruct (nth_error dem m) as [b|] eqn:Eb; [|discriminate]. cbn in Ha. injection Ha as <-.
        apply CM; eauto.
      + intros s' l' Hs' Hp'. destruct (A s' l' Hs' Hp') as [m [a [Hm [Ha Hle]]]].
        exists m, (conv a). split; auto. split; [now rewrite nth_error_map, Ha|]. apply CM; eauto.
    - rewrite N1 in X by auto. rewrite <- Ln in NR. rewrite N2 in Y by (auto; lia).
      rewrite nth_error_map, X in Y. cbn in Y. injection Y as <-.
      rewrite (l_eq L) by auto. apply Z.eqb_refl.
  Qed.

  (** the same grid and terrain with the cells numbered differently: cell [n] is cell [p n] of
      the second model, [q] goes back *)
  Record renumbered (p q : nat -> nat) (iv1 nb1 : list (list nat)) (dem1 : list T)
         (iv2 nb2 : list (list nat)) (dem2 : list T) : Prop := {
    rn_size : length dem1 = length dem2;
    rn_p : forall n, n < length dem1 -> p n < length dem1 /\ q (p n) = n;
    rn_q : forall n, n < length dem1 -> q n < length dem1 /\ p (q n) = n;
    rn_iv : forall n, n < length dem1 -> nth_error iv2 (p n) = nth_error iv1 n;
    rn_dem : forall n, n < length dem1 -> nth_error dem2 (p n) = nth_error dem1 n;
    rn_nb : forall a b, a < length dem1 -> b < length dem1 -> (adjacent nb1 a b <-> adjacent nb2 (p a) (p b))
  }.

  Lemma renumbered_sym p q iv1 nb1 dem1 iv2 nb2 dem2 :
    renumbered p q iv1 nb1 dem1 iv2 nb2 dem2 -> renumbered q p iv2 nb2 dem2 iv1 nb1 dem1.
  Proof.
    intros [A B C D F G]. constructor; rewrite <- ?A; auto.
    - intros n Hn. destruct (C n Hn) as [C1 C2]. rewrite <- (D (q n)) by auto. now rewrite C2.
    - intros n Hn. destruct (C n Hn) as [C1 C2]. rewrite <- (F (q n)) by auto. now rewrite C2.
    - intros a b Ha Hb. destruct (C a Ha) as [C1 C2]. destruct (C b Hb) as [C3 C4].
      rewrite (G (q a) (q b)) by auto. now rewrite C2, C4.
  Qed.

  Lemma rn_boundary p q iv1 nb1 dem1 iv2 nb2 dem2 n :
    renumbered p q iv1 nb1 dem1 iv2 nb2 dem2 -> length iv1 = length dem1 -> length iv2 = length dem2 ->
    n < length dem1 -> boundary_cell iv1 n -> boundary_cell iv2 (p n).
  Proof.
    intros R L1 L2 Hn [pl [a [b [Hp [Sd Hu]]]]]. exists pl, a, b.
    split; [now rewrite (rn_iv R)|]. split; auto. intros m w Hm Sw.
    assert (Hm2 : m < length dem1) by (rewrite (rn_size R), <- L2; apply nth_error_Some; congruence).
    destruct (rn_q R Hm2) as [Q1 Q2]. rewrite <- Q2 in Hm. rewrite (rn_iv R) in Hm by auto.
    rewrite <- (Hu _ _ Hm Sw). now symmetry.
  Qed.

  Lemma rn_path p q iv1 nb1 dem1 iv2 nb2 dem2 s n l :
    renumbered p q iv1 nb1 dem1 iv2 nb2 dem2 -> s < length dem1 ->
    gpath (link nb1 (length dem1)) s n l ->
    n < length dem1 /\ gpath (link nb2 (length dem2)) (p s) (p n) (map p l) /\ (forall m, In m l -> m < length dem1).
  Proof.
    intros R Hs H. induction H as [|c n l H [IH1 [IH2 IH3]] [A B]].
    - split; auto. split; [constructor|]. intros m [<-|[]]. auto.
    - split; auto. split; [|intros m [<-|Hm]; auto]. cbn [map]. econstructor; eauto. split.
      + now apply (rn_nb R).
      + rewrite <- (rn_size R). now apply (rn_p R).
  Qed.

  Lemma rn_spill p q iv1 nb1 dem1 iv2 nb2 dem2 n v :
    renumbered p q iv1 nb1 dem1 iv2 nb2 dem2 -> length iv1 = length dem1 -> length iv2 = length dem2 ->
    n < length dem1 ->
    is_spill (e_le E) (link nb1 (length dem1)) (boundary_cell iv1) dem1 n v ->
    is_spill (e_le E) (link nb2 (length dem2)) (boundary_cell iv2) dem2 (p n) v.
  Proof.
    intros R L1 L2 Hn [[s [l [Hs [Hp Hall]]]] A].
    assert (BL : forall m, boundary_cell iv1 m -> m < length dem1).
    { intros m Hm. apply boundary_lt in Hm. congruence. }
    split.
    - destruct (rn_path R (BL _ Hs) Hp) as [_ [P1 P2]]. exists (p s), (map p l).
      split; [eapply rn_boundary; eauto|]. split; auto. intros m x Hm Hx. apply in_map_iff in Hm.
      destruct Hm as [k [<- Hk]]. rewrite (rn_dem R) in Hx by auto. eauto.
    - intros s' l' Hs' Hp'. assert (R' := renumbered_sym R).
      assert (Hl : s' < length dem2). { apply boundary_lt in Hs'. congruence. }
      destruct (rn_path R' Hl Hp') as [_ [P1 P2]].
      assert (Bs : boundary_cell iv1 (q s')) by (eapply rn_boundary; eauto).
      rewrite (proj2 (rn_p R Hn)) in P1.
      destruct (A _ _ Bs P1) as [m [x [Hm [Hx Hle]]]]. apply in_map_iff in Hm. destruct Hm as [k [<- Hk]].
      exists k, x. split; auto. split; auto. rewrite <- (rn_dem R'); auto.
  Qed.

  Lemma rn_reach p q iv1 nb1 dem1 iv2 nb2 dem2 n :
    renumbered p q iv1 nb1 dem1 iv2 nb2 dem2 -> length iv1 = length dem1 -> length iv2 = length dem2 ->
    reachable (link nb1 (length dem1)) (boundary_cell iv1) n ->
    reachable (link nb2 (length dem2)) (boundary_cell iv2) (p n).
  Proof.
    intros R L1 L2 [s [l [Hs Hp]]].
    assert (BL : s < length dem1). { apply boundary_lt in Hs. congruence. }
    destruct (rn_path R BL Hp) as [_ [P1 _]]. exists (p s), (map p l). split; auto. eapply rn_boundary; eauto.
  Qed.

  (** the filled surface does not depend on how the cells are numbered *)
  Theorem C111_complete_any_numbering p q iv1 nb1 dem1 iv2 nb2 dem2 eps method fuel :
    lower method = "complete"%string ->
    elev_laws E ok rk (e_zero E) -> eps_null E ok (e_zero E) -> Forall ok dem1 -> Forall ok dem2 ->
    grid_of iv1 nb1 (length dem1) -> grid_of iv2 nb2 (length dem2) -> length dem1 <= fuel ->
    renumbered p q iv1 nb1 dem1 iv2 nb2 dem2 ->
    exists out1 out2,
      fill_sinks E fuel iv1 nb1 dem1 eps None method = Ok out1 /\
      fill_sinks E fuel iv2 nb2 dem2 eps None method = Ok out2 /\
      forall n x y, nth_error out1 n = Some x -> nth_error out2 (p n) = Some y -> e_eq E x y = true.
  Proof.
    intros Em L NU O1 O2 G1 G2 U R. assert (Ln := rn_size R). assert (U2 := U). rewrite Ln in U2.
    assert (F : flood_method method None) by (right; now left).
    assert (Ee : step_eps E method eps = e_zero E) by (unfold step_eps; now rewrite Em).
    rewrite <- Ee in L, NU.
    destruct (flood_facts eps L O1 G1 (mask := None) I F U) as [o1 [R1 [L1 [K1 [_ [N1 [_ [_ [_ [_ S1]]]]]]]]]].
    destruct (flood_facts eps L O2 G2 (mask := None) I F U2) as [o2 [R2 [L2 [K2 [_ [N2 [_ [_ [_ [_ S2]]]]]]]]]].
    exists o1, o2. split; auto. split; auto. intros n x y X Y.
    assert (Hn : n < length dem1) by (rewrite <- L1; apply nth_error_Some; congruence).
    assert (Hpn : p n < length dem2) by (rewrite <- Ln; now apply (rn_p R)).
    assert (Ox : ok x) by (apply (proj1 (Forall_forall _ _) K1); eapply nth_error_In; eauto).
    assert (Oy : ok y) by (apply (proj1 (Forall_forall _ _) K2); eapply nth_error_In; eauto).
    destruct G1 as [G1 _]. destruct G2 as [G2 _].
    destruct (e_eq E x y) eqn:V; auto. exfalso.
    apply (@both_ways (reachable (link nb1 (length dem1)) (source iv1 None) n)); [intros RE|intros NR];
      apply not_true_iff_false in V; apply V; clear V.
    - assert (A := S1 eq_refl NU n x Hn RE X).
      assert (RE2 := rn_reach R G1 G2 RE). assert (B := S2 eq_refl NU (p n) y Hpn RE2 Y).
      apply (rn_spill R G1 G2 Hn) in A. apply (spill_unique L O2 Ox Oy A B).
    - rewrite N1 in X by auto.
      assert (NR2 : ~ reachable (link nb2 (length dem2)) (source iv2 None) (p n)).
      { intros Q. apply NR. apply (rn_reach (renumbered_sym R) G2 G1) in Q. now rewrite (proj2 (rn_p R Hn)) in Q. }
      rewrite N2 in Y by auto. rewrite (rn_dem R Hn) in Y. replace y with x by congruence.
      rewrite (l_eq L) by auto. apply Z.eqb_refl.
  Qed.
End C111.

(** ** With eps > 0 (method 'priority') neither monotonicity nor independence of the numbering
    holds: ties between rim cells are broken by cell number.  3 x 4 cells, rook neighbours. *)
Definition rook (nrow ncol : nat) : list (list nat) :=
  map (fun n => filter (fun m => (Nat.eqb (n / ncol) (m / ncol) && negb (Nat.eqb n m) && near n m)
                                 || Nat.eqb (n + ncol) m || Nat.eqb (m + ncol) n)
                       (seq 0 (nrow * ncol))) (seq 0 (nrow * ncol)).

(** the same pit, entered from the left rim first: 5 gets 6 and 6 gets 7; raising the left rim by 1
    lowers the filled elevation of cell 6 from 7 to 6 *)
Theorem C112_priority_monotone_refuted : exists iverts nb (dem1 dem2 : list Z) out1 out2,
  grid_of iverts nb (length dem1) /\ symmetric_grid nb /\
  Forall2 (fun x y => (x <= y)%Z) dem1 dem2 /\
  fill_sinks Zelev 12 iverts nb dem1 1%Z None "priority" = Ok out1 /\
  fill_sinks Zelev 12 iverts nb dem2 1%Z None "priority" = Ok out2 /\
  nth 6 out1 0%Z = 7%Z /\ nth 6 out2 0%Z = 6%Z.
Proof.
  exists (quad_iverts 3 4), (rook 3 4),
    [5; 5; 9; 9;  5; 0; 0; 5;  5; 9; 9; 9]%Z, [5; 6; 9; 9;  6; 0; 0; 5;  5; 9; 9; 9]%Z.
  do 2 eexists. split; [|split; [|split; [|split; [vm_compute; reflexivity|split; [vm_compute; reflexivity|split; vm_compute; reflexivity]]]]].
  - split; [reflexivity|]. split; [|vm_compute; lia]. repeat (constructor; [discriminate|]). constructor.
  - assert (X : forall c n, adjacent (rook 3 4) c n <-> c < 12 /\ memn n (nth c (rook 3 4) []) = true).
    { intros c n. rewrite memn_spec. split.
      - intros [l [Hl Hn]]. split; [apply (nth_error_Some (rook 3 4)); congruence|].
        now rewrite (nth_error_nth _ _ [] Hl).
      - intros [Hc Hn]. exists (nth c (rook 3 4) []). split; auto. apply nth_error_nth'. exact Hc. }
    assert (B : forallb (fun c => forallb (fun n => Nat.ltb n 12 && memn c (nth n (rook 3 4) [])) (nth c (rook 3 4) [])) (seq 0 12) = true)
      by (vm_compute; reflexivity).
    intros c n H. apply X in H. destruct H as [Hc Hn]. apply X.
    rewrite forallb_forall in B. assert (B1 := B c). rewrite in_seq in B1. specialize (B1 ltac:(lia)).
    rewrite forallb_forall in B1. apply memn_spec in Hn. specialize (B1 n Hn). apply andb_true_iff in B1.
    destruct B1 as [B1 B2]. apply Nat.ltb_lt in B1. auto.
  - repeat constructor; lia.
Qed.

(** turning the map by 180 degrees (cell n becomes cell 11 - n) changes the fill *)
Theorem C112_priority_numbering_refuted : exists iverts1 nb1 (dem1 : list Z) iverts2 nb2 dem2 out1 out2,
  grid_of iverts1 nb1 (length dem1) /\ grid_of iverts2 nb2 (length dem2) /\
  renumbered (fun n => 11 - n) (fun n => 11 - n) iverts1 nb1 dem1 iverts2 nb2 dem2 /\
  fill_sinks Zelev 12 iverts1 nb1 dem1 1%Z None "priority" = Ok out1 /\
  fill_sinks Zelev 12 iverts2 nb2 dem2 1%Z None "priority" = Ok out2 /\
  nth 5 out1 0%Z = 6%Z /\ nth (11 - 5) out2 0%Z = 7%Z.
Proof.
  exists (quad_iverts 3 4), (rook 3 4), [5; 5; 5; 5;  5; 0; 0; 5;  5; 5; 5; 5]%Z,
         (rev (quad_iverts 3 4)), (rook 3 4), [5; 5; 5; 5;  5; 0; 0; 5;  5; 5; 5; 5]%Z.
  do 2 eexists. split; [|split; [|split; [|split; [vm_compute; reflexivity|split; [vm_compute; reflexivity|split; vm_compute; reflexivity]]]]].
  - split; [reflexivity|]. split; [|vm_compute; lia]. repeat (constructor; [discriminate|]). constructor.
  - split; [reflexivity|]. split; [|vm_compute; lia]. repeat (constructor; [discriminate|]). constructor.
  - constructor; auto.
    + cbn [length]. intros n Hn. lia.
    + cbn [length]. intros n Hn. lia.
    + cbn [length]. intros n Hn. do 12 (destruct n as [|n]; [reflexivity|]). lia.
    + cbn [length]. intros n Hn. do 12 (destruct n as [|n]; [reflexivity|]). lia.
    + cbn [length]. intros a b Ha Hb.
      assert (X : forall c n, c < 12 -> adjacent (rook 3 4) c n <-> memn n (nth c (rook 3 4) []) = true).
      { intros c n Hc. rewrite memn_spec. split.
        - intros [l [Hl Hn]]. now rewrite (nth_error_nth _ _ [] Hl).
        - intros Hn. exists (nth c (rook 3 4) []). split; auto. apply nth_error_nth'. exact Hc. }
      rewrite !X by lia.
      assert (B : forallb (fun c => forallb (fun n => Bool.eqb (memn n (nth c (rook 3 4) []))
          (memn (11 - n) (nth (11 - c) (rook 3 4) []))) (seq 0 12)) (seq 0 12) = true) by (vm_compute; reflexivity).
      rewrite forallb_forall in B. assert (B1 := B a). rewrite in_seq in B1. specialize (B1 ltac:(lia)).
      rewrite forallb_forall in B1. assert (B2 := B1 b). rewrite in_seq in B2. specialize (B2 ltac:(lia)).
      apply Bool.eqb_prop in B2. now rewrite B2.
Qed.

(** concrete cases: neighbours listed in the opposite order; a pit filled with eps = 2 *)
Example C110_ex :
  same_neighbours 12 (rook 3 4) (map (@rev nat) (rook 3 4)) /\
  fill_sinks Zelev 12 (quad_iverts 3 4) (rook 3 4) [5; 5; 9; 9;  5; 0; 0; 5;  5; 9; 9; 9]%Z 2%Z None "priority"
    = Ok [5; 5; 9; 9;  5; 7; 9; 5;  5; 9; 9; 9]%Z /\
  fill_sinks Zelev 12 (quad_iverts 3 4) (map (@rev nat) (rook 3 4)) [5; 5; 9; 9;  5; 0; 0; 5;  5; 9; 9; 9]%Z 2%Z None "priority"
    = Ok [5; 5; 9; 9;  5; 7; 9; 5;  5; 9; 9; 9]%Z.
Proof.
  split; [|split; vm_compute; reflexivity].
  intros c Hc. change (nth c (map (@rev nat) (rook 3 4)) []) with (nth c (map (@rev nat) (rook 3 4)) (rev [])).
  rewrite map_nth. apply Permutation_rev.
Qed.

Example C111_ex :
  fill_sinks Zelev 12 (quad_iverts 3 4) (rook 3 4) [5; 7; 9; 9;  5; 0; 0; 6;  8; 9; 9; 9]%Z 2%Z None "complete"
    = Ok [5; 7; 9; 9;  5; 5; 5; 6;  8; 9; 9; 9]%Z /\
  fill_sinks Zelev 12 (quad_iverts 3 4) (rook 3 4) [15; 21; 27; 27;  15; 0; 0; 18;  24; 27; 27; 27]%Z 2%Z None "complete"
    = Ok [15; 21; 27; 27;  15; 15; 15; 18;  24; 27; 27; 27]%Z.
Proof. split; vm_compute; reflexivity. Qed.

(** ** C112: with eps > 0 both hold up to N*eps *)
Section C112.
  Context {T : Type} (E : elev T) (ok : T -> Prop) (rk : T -> Z).
  Notation le x y := (e_le E x y = true).

  Lemma add_times_mono (e : T) (L : elev_laws E ok rk e) k x y : ok x -> ok y -> (rk x <= rk y)%Z ->
    ok (add_times E e k x) /\ ok (add_times E e k y) /\ (rk (add_times E e k x) <= rk (add_times E e k y))%Z.
  Proof.
    intros Ox Oy H. induction k as [|k [A [B C]]]; cbn [add_times]; auto.
    split; [now apply (l_ok L)|]. split; [now apply (l_ok L)|]. now apply (l_mono L).
  Qed.
  Lemma add_times_up (e : T) (L : elev_laws E ok rk e) k x : ok x -> (rk x <= rk (add_times E e k x))%Z.
  Proof.
    intros Ox. induction k as [|k IH]; cbn [add_times]; [lia|].
    assert (A := l_up L _ (proj1 (add_times_mono L k Ox Ox (Z.le_refl _)))). lia.
  Qed.

  (** raising the terrain lowers the filled surface by at most N*eps *)
  Theorem C112_priority_monotone_within iverts nb (dem1 dem2 : list T) eps method fuel :
    flood_method method None ->
    elev_laws E ok rk (step_eps E method eps) -> elev_laws E ok rk (e_zero E) -> eps_null E ok (e_zero E) ->
    Forall ok dem1 -> Forall ok dem2 ->
    grid_of iverts nb (length dem1) -> length dem1 <= fuel ->
    Forall2 (fun x y => le x y) dem1 dem2 ->
    exists out1 out2,
      fill_sinks E fuel iverts nb dem1 eps None method = Ok out1 /\
      fill_sinks E fuel iverts nb dem2 eps None method = Ok out2 /\
      Forall2 (fun x y => le x (add_times E (step_eps E method eps) (length dem1) y)) out1 out2.
  Proof.
    intros F L Lz NU O1 O2 G U H. assert (Ln := Forall2_len H). assert (G2 := G). rewrite Ln in G2.
    assert (U2 := U). rewrite Ln in U2.
    destruct (C111_complete_monotone eps (method := "complete"%string) eq_refl Lz NU O1 O2 G U H) as [c1 [c2 [CR1 [CR2 CM]]]].
    destruct (C04_complete_is_spill eps "complete" eq_refl Lz NU O1 G U) as [c1' [CR1' [CL1 CS1]]].
    destruct (C04_complete_is_spill eps "complete" eq_refl Lz NU O2 G2 U2) as [c2' [CR2' [CL2 CS2]]].
    assert (c1' = c1) by congruence. assert (c2' = c2) by congruence. subst c1' c2'. clear CR1' CR2'.
    assert (Fc : flood_method "complete" None) by (right; now left).
    assert (Lc : elev_laws E ok rk (step_eps E "complete" eps)) by exact Lz.
    destruct (flood_facts eps Lc O1 G (mask := None) I Fc U) as [c1' [CR1' [_ [CK1 _]]]].
    destruct (flood_facts eps Lc O2 G2 (mask := None) I Fc U2) as [c2' [CR2' [_ [CK2 _]]]].
    assert (c1' = c1) by congruence. assert (c2' = c2) by congruence. subst c1' c2'. clear CR1' CR2'.
    destruct (flood_facts eps L O1 G (mask := None) I F U) as [o1 [R1 [L1 [K1 [_ [N1 [_ [_ [_ [B1 _]]]]]]]]]].
    destruct (flood_facts eps L O2 G2 (mask := None) I F U2) as [o2 [R2 [L2 [K2 [_ [N2 [_ [_ [A2 _]]]]]]]]].
    exists o1, o2. split; auto. split; auto. apply Forall2_nth; [congruence|].
    intros n x y X Y.
    assert (Hn : n < length dem1) by (rewrite <- L1; apply nth_error_Some; congruence).
    assert (Hn2 : n < length dem2) by lia.
    assert (PW : forall (l1 l2 : list T), Forall2 (fun x y => le x y) l1 l2 -> forall m a b, nth_error l1 m = Some a -> nth_error l2 m = Some b -> le a b).
    { clear. intros l1 l2 H. induction H as [|a b l1 l2 Hab H IH]; intros [|m] x y Hx Hy; cbn in *; try discriminate; eauto. congruence. }
    assert (Ox : ok x) by (apply (proj1 (Forall_forall _ _) K1); eapply nth_error_In; eauto).
    assert (Oy : ok y) by (apply (proj1 (Forall_forall _ _) K2); eapply nth_error_In; eauto).
    destruct (add_times_mono L (length dem1) Oy Oy (Z.le_refl _)) as [Oay _].
    destruct (e_le E x _) eqn:V; auto. exfalso.
    apply (@both_ways (reachable (link nb (length dem1)) (source iverts None) n)); [intros RE|intros NR];
      apply not_true_iff_false in V; apply V; clear V.
    - destruct (nth_error c1 n) as [v1|] eqn:V1.
      2:{ apply nth_error_None in V1. lia. }
      destruct (nth_error c2 n) as [v2|] eqn:V2.
      2:{ apply nth_error_None in V2. lia. }
      assert (Ov1 : ok v1) by (apply (proj1 (Forall_forall _ _) CK1); eapply nth_error_In; eauto).
      assert (Ov2 : ok v2) by (apply (proj1 (Forall_forall _ _) CK2); eapply nth_error_In; eauto).
      assert (RE2 := RE). rewrite Ln in RE2.
      assert (S1 := CS1 n v1 RE V1). assert (S2 := CS2 n v2 RE2 V2).
      assert (Q1 := B1 eq_refl n v1 x Hn RE Ov1 S1 X). assert (Q2 := A2 n v2 y Hn2 RE2 Ov2 S2 Y).
      assert (Q3 := PW _ _ CM n v1 v2 V1 V2).
      rewrite (l_le L) in Q2, Q3 by auto. apply Z.leb_le in Q2, Q3.
      destruct (@add_times_mono _ L (length dem1) v1 y Ov1 Oy ltac:(lia)) as [M1 [M2 M3]].
      rewrite (l_le L) in Q1 by auto. apply Z.leb_le in Q1.
      rewrite (l_le L) by auto. apply Z.leb_le. lia.
    - rewrite N1 in X by auto. rewrite Ln in NR. rewrite N2 in Y by auto.
      assert (Q := PW _ _ H n x y X Y). rewrite (l_le L) in Q by auto. apply Z.leb_le in Q.
      assert (A := @add_times_up _ L (length dem1) y Oy). rewrite (l_le L) by auto. apply Z.leb_le. lia.
  Qed.

  (** renumbering the cells changes the filled elevations by at most N*eps *)
  Theorem C112_priority_numbering_within p q iv1 nb1 (dem1 : list T) iv2 nb2 dem2 eps method fuel :
    flood_method method None ->
    elev_laws E ok rk (step_eps E method eps) -> elev_laws E ok rk (e_zero E) -> eps_null E ok (e_zero E) ->
    Forall ok dem1 -> Forall ok dem2 ->
    grid_of iv1 nb1 (length dem1) -> grid_of iv2 nb2 (length dem2) -> length dem1 <= fuel ->
    renumbered p q iv1 nb1 dem1 iv2 nb2 dem2 ->
    exists out1 out2,
      fill_sinks E fuel iv1 nb1 dem1 eps None method = Ok out1 /\
      fill_sinks E fuel iv2 nb2 dem2 eps None method = Ok out2 /\
      forall n x y, nth_error out1 n = Some x -> nth_error out2 (p n) = Some y ->
        le x (add_times E (step_eps E method eps) (length dem1) y) /\
        le y (add_times E (step_eps E method eps) (length dem1) x).
  Proof.
    intros F L Lz NU O1 O2 G1 G2 U R. assert (Ln := rn_size R). assert (U2 := U). rewrite Ln in U2.
    destruct (C04_complete_is_spill eps "complete" eq_refl Lz NU O1 G1 U) as [c1 [CR1 [CL1 CS1]]].
    assert (Fc : flood_method "complete" None) by (right; now left).
    assert (Lc : elev_laws E ok rk (step_eps E "complete" eps)) by exact Lz.
    destruct (flood_facts eps Lc O1 G1 (mask := None) I Fc U) as [c1' [CR1' [_ [CK1 _]]]].
    assert (c1' = c1) by congruence. subst c1'. clear CR1'.
    destruct (flood_facts eps L O1 G1 (mask := None) I F U) as [o1 [R1 [L1 [K1 [_ [N1 [_ [_ [A1 [B1 _]]]]]]]]]].
    destruct (flood_facts eps L O2 G2 (mask := None) I F U2) as [o2 [R2 [L2 [K2 [_ [N2 [_ [_ [A2 [B2 _]]]]]]]]]].
    exists o1, o2. split; auto. split; auto. intros n x y X Y.
    assert (Hn : n < length dem1) by (rewrite <- L1; apply nth_error_Some; congruence).
    assert (Hpn : p n < length dem2) by (rewrite <- Ln; now apply (rn_p R)).
    assert (Ox : ok x) by (apply (proj1 (Forall_forall _ _) K1); eapply nth_error_In; eauto).
    assert (Oy : ok y) by (apply (proj1 (Forall_forall _ _) K2); eapply nth_error_In; eauto).
    destruct (add_times_mono L (length dem1) Oy Oy (Z.le_refl _)) as [Oay _].
    destruct (add_times_mono L (length dem1) Ox Ox (Z.le_refl _)) as [Oax _].
    destruct G1 as [G1 _]. destruct G2 as [G2 _].
    assert (W : ~ ~ (le x (add_times E (step_eps E method eps) (length dem1) y) /\
        le y (add_times E (step_eps E method eps) (length dem1) x))).
    { intros NG. apply (@both_ways (reachable (link nb1 (length dem1)) (source iv1 None) n)); [intros RE|intros NR]; apply NG; clear NG.
      - destruct (nth_error c1 n) as [v|] eqn:V.
        2:{ apply nth_error_None in V. lia. }
        assert (Ov : ok v) by (apply (proj1 (Forall_forall _ _) CK1); eapply nth_error_In; eauto).
        assert (RE2 := rn_reach R G1 G2 RE).
        assert (S1 := CS1 n v RE V). assert (S2 := rn_spill R G1 G2 Hn S1).
        assert (Q1 := A1 n v x Hn RE Ov S1 X). assert (Q2 := B1 eq_refl n v x Hn RE Ov S1 X).
        assert (Q3 := A2 (p n) v y Hpn RE2 Ov S2 Y). assert (Q4 := B2 eq_refl (p n) v y Hpn RE2 Ov S2 Y).
        rewrite <- Ln in Q4.
        rewrite (l_le L) in Q1, Q3 by auto. apply Z.leb_le in Q1, Q3.
        destruct (@add_times_mono _ L (length dem1) v y Ov Oy Q3) as [M1 [_ M3]].
        destruct (@add_times_mono _ L (length dem1) v x Ov Ox Q1) as [_ [_ M6]].
        rewrite (l_le L) in Q2, Q4 by auto. apply Z.leb_le in Q2, Q4.
        rewrite !(l_le L) by auto. split; apply Z.leb_le; lia.
      - rewrite N1 in X by auto.
        assert (NR2 : ~ reachable (link nb2 (length dem2)) (source iv2 None) (p n)).
        { intros Q. apply NR. apply (rn_reach (renumbered_sym R) G2 G1) in Q. now rewrite (proj2 (rn_p R Hn)) in Q. }
        rewrite N2 in Y by auto. rewrite (rn_dem R Hn) in Y. assert (y = x) by congruence. subst y.
        assert (A := @add_times_up _ L (length dem1) x Ox). rewrite (l_le L) by auto. split; apply Z.leb_le; lia. }
    destruct (e_le E x _), (e_le E y _); auto; exfalso; apply W; intros [Q1 Q2]; discriminate.
  Qed.
End C112.

(** the 3 x 4 example again: the two fills differ by 1 = eps at cell 6, within 12*eps *)
Example C112_ex :
  fill_sinks Zelev 12 (quad_iverts 3 4) (rook 3 4) [5; 5; 9; 9;  5; 0; 0; 5;  5; 9; 9; 9]%Z 1%Z None "priority"
    = Ok [5; 5; 9; 9;  5; 6; 7; 5;  5; 9; 9; 9]%Z /\
  fill_sinks Zelev 12 (quad_iverts 3 4) (rook 3 4) [5; 6; 9; 9;  6; 0; 0; 5;  5; 9; 9; 9]%Z 1%Z None "priority"
    = Ok [5; 6; 9; 9;  6; 7; 6; 5;  5; 9; 9; 9]%Z.
Proof. split; vm_compute; reflexivity. Qed.
