(** C114: flow directions depend on the elevations only through the comparisons of slopes and
    elevations: any datum and any units give the same directions, and a cell with one steepest
    neighbour looks at nothing but its own neighbours. *)
From Coq Require Import QArith String.
From Verif Require Import Py Spec MFlow MDir Grids LRat LGraph LDir LDir2 LDir3 LDir4 PropsDir.
Set Implicit Arguments.
Unset Strict Implicit.
Local Open Scope nat_scope.
Local Open Scope list_scope.
Local Notation length := List.length.

(** values related by [R] compare in the same way *)
Definition preserves_cmp {T1 T2} (O1 : slope_ops T1) (O2 : slope_ops T2) (R : T1 -> T2 -> Prop) : Prop :=
  forall a b, R a b -> forall a' b', R a' b' -> o_lt O1 a a' = o_lt O2 b b' /\ o_eq O1 a a' = o_eq O2 b b'.

Definition same_opt {T1 T2} (R : T1 -> T2 -> Prop) (x : option T1) (y : option T2) : Prop :=
  match x, y with Some a, Some b => R a b | None, None => True | _, _ => False end.

Section Gen.
  Context {T1 T2 : Type} (O1 : slope_ops T1) (O2 : slope_ops T2).
  Variable R : T1 -> T2 -> Prop.
  Hypothesis PR : preserves_cmp O1 O2 R.

  Lemma fmin2_same m1 m2 x1 x2 : same_opt R m1 m2 -> same_opt R x1 x2 ->
    same_opt R (fmin2 (o_lt O1) m1 x1) (fmin2 (o_lt O2) m2 x2).
  Proof.
    destruct m1 as [a|], m2 as [b|], x1 as [a'|], x2 as [b'|]; cbn; try tauto.
    intros H1 H2. rewrite (proj1 (PR H2 H1)). now destruct (o_lt O2 b' b).
  Qed.

  Lemma nanmin_same r1 r2 : Forall2 (same_opt R) r1 r2 ->
    (r1 = [] /\ r2 = []) \/
    exists m1 m2, nanmin (o_lt O1) r1 = Ok m1 /\ nanmin (o_lt O2) r2 = Ok m2 /\ same_opt R m1 m2.
  Proof.
    intros F. assert (G : forall m1 m2, same_opt R m1 m2 ->
      same_opt R (fold_left (fmin2 (o_lt O1)) r1 m1) (fold_left (fmin2 (o_lt O2)) r2 m2)).
    { induction F as [|x y r1 r2 H F IH]; cbn; auto. intros m1 m2 Hm. apply IH. now apply fmin2_same. }
    destruct F as [|x y r1 r2 H F]; auto. right. eexists _, _. split; [reflexivity|]. split; [reflexivity|].
    apply (G None None). exact I.
  Qed.

  Lemma where_same (p1 : option T1 -> bool) (p2 : option T2 -> bool) r1 r2 :
    Forall2 (fun x y => p1 x = p2 y) r1 r2 -> where_ p1 r1 = where_ p2 r2.
  Proof.
    unfold where_. generalize 0. intros n F. revert n. induction F as [|x y r1 r2 H F IH]; intros n; cbn; auto.
    rewrite H. specialize (IH (S n)). destruct (p2 y); cbn; now rewrite IH.
  Qed.

  Lemma eq_to_same m1 m2 r1 r2 : same_opt R m1 m2 -> Forall2 (same_opt R) r1 r2 ->
    where_ (eq_to (o_eq O1) m1) r1 = where_ (eq_to (o_eq O2) m2) r2.
  Proof.
    intros Hm F. apply where_same. induction F as [|x y r1 r2 H F IH]; constructor; auto.
    destruct m1, m2, x, y; cbn in *; try tauto. now apply PR.
  Qed.

  Lemma mins_same d1 d2 : Forall2 (same_opt R) d1 d2 -> R (o_big O1) (o_big O2) ->
    min_cells (o_lt O1) (o_eq O1) (o_big O1) d1 = min_cells (o_lt O2) (o_eq O2) (o_big O2) d2.
  Proof.
    intros F B. assert (F' : Forall2 (same_opt R) (d1 ++ [Some (o_big O1)]) (d2 ++ [Some (o_big O2)])).
    { apply Forall2_app; auto. }
    unfold min_cells. destruct (nanmin_same F') as [[E _]|[m1 [m2 [E1 [E2 Hm]]]]].
    - destruct d1; discriminate.
    - rewrite E1, E2. cbn [bind]. f_equal. now apply eq_to_same.
  Qed.

  Lemma fcells_same s1 s2 : Forall2 (Forall2 (same_opt R)) s1 s2 ->
    fcells_of (o_lt O1) (o_eq O1) s1 = fcells_of (o_lt O2) (o_eq O2) s2.
  Proof.
    unfold fcells_of. induction 1 as [|r1 r2 s1 s2 H F IH]; auto. cbn [mapM].
    destruct (nanmin_same H) as [[-> ->]|[m1 [m2 [E1 [E2 Hm]]]]]; [reflexivity|].
    rewrite E1, E2. cbn [bind]. rewrite (eq_to_same Hm H), IH. reflexivity.
  Qed.
End Gen.

Lemma forall2_map {A B C} (P : B -> C -> Prop) (f : A -> B) (g : A -> C) l :
  (forall a, In a l -> P (f a) (g a)) -> Forall2 P (map f l) (map g l).
Proof. induction l as [|a l IH]; cbn; intros H; constructor; auto. Qed.

(** ** C114, the general form *)
Theorem C114_directions_depend_on_comparisons :
  forall T1 T2 (O1 : slope_ops T1) (O2 : slope_ops T2) (ER SR : T1 -> T2 -> Prop)
         fuel dist1 dist2 dem1 dem2 nb thr1 thr2 terminals,
    preserves_cmp O1 O2 ER -> preserves_cmp O1 O2 SR ->
    (* the elevations correspond (NaN to NaN), and so do the slopes between neighbours *)
    Forall2 (same_opt ER) dem1 dem2 -> ER (o_big O1) (o_big O2) -> SR (o_big O1) (o_big O2) ->
    (forall c n s1 s2, adjacent nb c n -> slope_to O1 thr1 dist1 dem1 c n s1 -> slope_to O2 thr2 dist2 dem2 c n s2 -> SR s1 s2) ->
    run O1 fuel dist1 dem1 nb thr1 terminals = run O2 fuel dist2 dem2 nb thr2 terminals.
Proof.
  intros T1 T2 O1 O2 ER SR fuel dist1 dist2 dem1 dem2 nb thr1 thr2 terminals PE PS FD BE BS HS.
  assert (LN : length dem1 = length dem2) by (clear -FD; induction FD; cbn; auto).
  assert (NTH : forall c, same_opt ER (nth c dem1 None) (nth c dem2 None)).
  { clear -FD. induction FD as [|x y d1 d2 H F IH]; intros [|c]; cbn; auto. }
  unfold run, flow_directions. rewrite <- LN. rewrite (mins_same PE FD BE).
  destruct (min_cells (o_lt O2) (o_eq O2) (o_big O2) dem2) as [mins|]; cbn [bind]; auto.
  destruct (start_fdir (length dem1) mins terminals) as [fdir|]; cbn [bind]; auto.
  set (fnb := pad_neighbors (length dem1) nb).
  assert (FC : fcells_of (o_lt O1) (o_eq O1) (calculate_slopes (o_sub O1) (o_div O1) (o_lt O1) (o_zero O1) (o_big O1) (length dem1) thr1 dist1 dem1 fnb) =
               fcells_of (o_lt O2) (o_eq O2) (calculate_slopes (o_sub O2) (o_div O2) (o_lt O2) (o_zero O2) (o_big O2) (length dem1) thr2 dist2 dem2 fnb)).
  { apply (fcells_same PS). unfold calculate_slopes. apply forall2_map. intros [c row] Hin. cbn [fst snd].
    apply forall2_map. intros n Hn. unfold slope. destruct (Nat.eqb_spec n (length dem1)) as [->|NE]; [exact BS|].
    assert (A : adjacent nb c n).
    { assert (Er : nth_error fnb c = Some row).
      { clear -Hin. assert (G : forall k l, In (c, row) (combine (seq k (length l)) l) -> k <= c /\ nth_error l (c - k) = Some row).
        { intros k l. revert k. induction l as [|x l IH]; intros k H; [destruct H|]. cbn in H. destruct H as [H|H].
          - inversion H; subst. rewrite Nat.sub_diag. auto.
          - apply IH in H. destruct H as [H1 H2]. split; [lia|]. replace (c - k) with (S (c - S k)) by lia. exact H2. }
        apply G in Hin. now rewrite Nat.sub_0_r in Hin. }
      unfold fnb, pad_neighbors in Er. rewrite nth_error_map in Er. destruct (nth_error nb c) as [l|] eqn:El; [|discriminate].
      cbn in Er. inversion Er; subst row. apply in_app_iff in Hn. destruct Hn as [Hn|Hn]; [exists l; auto|].
      apply repeat_spec in Hn. congruence. }
    assert (NE2 := LN). assert (Xc := NTH c). assert (Xn := NTH n).
    destruct (nth n dem1 None) as [zn1|] eqn:E1, (nth n dem2 None) as [zn2|] eqn:E2; cbn in Xn; try contradiction; [|exact I].
    destruct (nth c dem1 None) as [zc1|] eqn:E3, (nth c dem2 None) as [zc2|] eqn:E4; cbn in Xc; try contradiction; cbn; auto.
    assert (NN : forall T (d : list (option T)) i x, nth i d None = Some x -> nth_error d i = Some (Some x)).
    { intros T d i x H. destruct (nth_error d i) as [y|] eqn:E.
      - rewrite (nth_error_nth _ _ None E) in H. congruence.
      - apply nth_error_None in E. rewrite nth_overflow in H by auto. discriminate. }
    apply (HS c n); auto; [exists zc1, zn1|exists zc2, zn2]; repeat split; auto. }
  rewrite FC. destruct (fcells_of (o_lt O2) (o_eq O2) _) as [fcells|]; cbn [bind]; auto.
  assert (EX : forall nan1 nan2, (forall c, nan1 c = nan2 c) -> calculate_flowcell fuel nan1 fnb fcells fdir = calculate_flowcell fuel nan2 fnb fcells fdir).
  { intros n1 n2 H. unfold calculate_flowcell. generalize (seq 0 (length fdir)) as l. generalize (fdir, fcells) as st.
    intros st l. assert (F : foldM (flow_cell fuel n1 fnb) l st = foldM (flow_cell fuel n2 fnb) l st).
    { revert st. induction l as [|x l IH]; intros st; auto. cbn [foldM].
      assert (Ef : flow_cell fuel n1 fnb st x = flow_cell fuel n2 fnb st x) by (unfold flow_cell; destruct st; now rewrite H).
      rewrite Ef. destruct (flow_cell fuel n2 fnb st x); cbn [bind]; auto. }
    now rewrite F. }
  rewrite (EX _ (fun c => match nth c dem2 None with Some _ => false | None => true end)); auto.
  intros c. specialize (NTH c). destruct (nth c dem1 None), (nth c dem2 None); cbn in NTH; tauto.
Qed.

(** ** rational elevations *)
Lemma q_lt_eq a b a' b' : (a == b)%Q -> (a' == b')%Q -> q_lt a a' = q_lt b b'.
Proof. intros H1 H2. unfold q_lt. now rewrite H1, H2. Qed.
Lemma q_eqb_eq a b a' b' : (a == b)%Q -> (a' == b')%Q -> Qeq_bool a a' = Qeq_bool b b'.
Proof. intros H1 H2. now rewrite H1, H2. Qed.
Lemma bool_ext (x y : bool) : (x = true <-> y = true) -> x = y.
Proof. destruct x, y; intuition congruence. Qed.

Notation big := (o_big Qops).

(** related by an increasing map below the sentinel 1e+10, or the sentinel itself *)
Definition below_big (f : Q -> Q) (a b : Q) : Prop :=
  ((b == f a)%Q /\ (a < big)%Q /\ (b < big)%Q) \/ (a = big /\ b = big).

Lemma below_big_cmp f : (forall x y, (x < y)%Q <-> (f x < f y)%Q) -> (forall x y, (x == y)%Q <-> (f x == f y)%Q) ->
  preserves_cmp Qops Qops (below_big f).
Proof.
  intros HL HE a b H a' b' H'. cbn [Qops o_lt o_eq].
  assert (LT : forall x y, (x < y)%Q -> q_lt x y = true /\ q_lt y x = false /\ Qeq_bool x y = false /\ Qeq_bool y x = false).
  { intros x y L. split; [now apply q_lt_spec|]. split; [|split].
    - destruct (q_lt y x) eqn:E; auto. apply q_lt_spec in E. exfalso. apply (Qlt_irrefl x). eapply Qlt_trans; eauto.
    - destruct (Qeq_bool x y) eqn:E; auto. apply Qeq_bool_iff in E. rewrite E in L. exfalso. apply (Qlt_irrefl y). auto.
    - destruct (Qeq_bool y x) eqn:E; auto. apply Qeq_bool_iff in E. rewrite E in L. exfalso. apply (Qlt_irrefl x). auto. }
  destruct H as [[E [A B]]|[-> ->]], H' as [[E' [A' B']]|[-> ->]].
  - rewrite (q_lt_eq E E'), (q_eqb_eq E E'). split; apply bool_ext.
    + rewrite !q_lt_spec. apply HL.
    + rewrite !Qeq_bool_iff. apply HE.
  - destruct (LT _ _ A) as [X1 [X2 [X3 X4]]], (LT _ _ B) as [Y1 [Y2 [Y3 Y4]]]. split; congruence.
  - destruct (LT _ _ A') as [X1 [X2 [X3 X4]]], (LT _ _ B') as [Y1 [Y2 [Y3 Y4]]]. split; congruence.
  - auto.
Qed.

Lemma same_map (ER : Q -> Q -> Prop) f dem : (forall c z, nth_error dem c = Some (Some z) -> ER z (f z)) ->
  Forall2 (same_opt ER) dem (map (option_map f) dem).
Proof.
  intros H. rewrite <- (map_id dem) at 1. apply forall2_map. intros x Hx. apply In_nth_error in Hx. destruct Hx as [c Hc].
  destruct x as [z|]; cbn; auto. eapply H; eauto.
Qed.

(** [f] shifts or scales the elevations *)
Lemma slope_map (f : Q -> Q) thr dist dem c n s : slope_to Qops thr dist (map (option_map f) dem) c n s ->
  exists zc zn, nth_error dem c = Some (Some zc) /\ nth_error dem n = Some (Some zn) /\
    s = o_div Qops (if o_lt Qops (f zn - f zc)%Q thr && o_lt Qops 0%Q (f zn - f zc)%Q then 0%Q else (f zn - f zc)%Q) (dist c n).
Proof.
  intros [zc [zn [Hc [Hn E]]]]. rewrite nth_error_map in Hc, Hn.
  destruct (nth_error dem c) as [[a|]|]; cbn in Hc; try discriminate. destruct (nth_error dem n) as [[b|]|]; cbn in Hn; try discriminate.
  inversion Hc; inversion Hn; subst. exists a, b. repeat split; auto.
Qed.

(** C114: raising or lowering the whole terrain does not change the flow directions *)
Theorem C114_any_datum :
  forall (k : Q) fuel dist dem nb thr terminals,
    (forall c z, nth_error dem c = Some (Some z) -> (z < 10000000000)%Q /\ (z + k < 10000000000)%Q) ->
    run Qops fuel dist (map (option_map (fun z => (z + k)%Q)) dem) nb thr terminals = run Qops fuel dist dem nb thr terminals.
Proof.
  intros k fuel dist dem nb thr terminals H. symmetry.
  apply C114_directions_depend_on_comparisons with (ER := below_big (fun z => (z + k)%Q)) (SR := Qeq).
  - apply below_big_cmp.
    + intros x y. split; intros L.
      * now apply Qplus_lt_l.
      * now apply Qplus_lt_l in L.
    + intros x y. split; intros E; [now rewrite E|]. now apply Qplus_inj_r in E.
  - intros a b E a' b' E'. cbn. split; [now apply q_lt_eq|now apply q_eqb_eq].
  - apply same_map. intros c z Hz. left. destruct (H c z Hz). split; [reflexivity|]. split; auto.
  - right. auto.
  - reflexivity.
  - intros c n s1 s2 _ [zc [zn [Hc [Hn E1]]]] S2. apply slope_map in S2.
    destruct S2 as [zc' [zn' [Hc' [Hn' E2]]]]. rewrite Hc in Hc'. rewrite Hn in Hn'. inversion Hc'; inversion Hn'; subst zc' zn'. cbv zeta in E1. rewrite E1, E2. clear E1 E2.
    cbn [Qops o_lt o_sub o_div o_zero]. assert (D : (zn + k - (zc + k) == zn - zc)%Q) by ring.
    rewrite (q_lt_eq D (Qeq_refl thr)), (q_lt_eq (Qeq_refl 0) D).
    destruct (q_lt (zn - zc)%Q thr && q_lt 0 (zn - zc)%Q); [reflexivity|]. now rewrite D.
Qed.

(** C114: other units: elevations and threshold times [a], distances times [b] *)
Theorem C114_any_units :
  forall (a b : Q) fuel dist dem nb thr terminals, (0 < a)%Q -> (0 < b)%Q ->
    (forall c z, nth_error dem c = Some (Some z) -> (z < 10000000000)%Q /\ (z * a < 10000000000)%Q) ->
    (forall c n s, adjacent nb c n -> slope_to Qops thr dist dem c n s -> (s < 10000000000)%Q /\ (s * (a / b) < 10000000000)%Q) ->
    run Qops fuel (fun c n => dist c n * b)%Q (map (option_map (fun z => (z * a)%Q)) dem) nb (thr * a)%Q terminals =
    run Qops fuel dist dem nb thr terminals.
Proof.
  intros a b fuel dist dem nb thr terminals Ha Hb H HS. symmetry.
  assert (Hab : (0 < a / b)%Q) by (apply Qlt_shift_div_l; auto; now rewrite Qmult_0_l).
  assert (M : forall k, (0 < k)%Q -> (forall x y, (x < y)%Q <-> (x * k < y * k)%Q) /\ (forall x y, (x == y)%Q <-> (x * k == y * k)%Q)).
  { intros k Hk. split; intros x y; split; intros L.
    - now apply Qmult_lt_r.
    - now apply Qmult_lt_r in L.
    - now rewrite L.
    - apply Qmult_inj_r in L; auto. intros Z. rewrite Z in Hk. now apply Qlt_irrefl in Hk. }
  apply C114_directions_depend_on_comparisons with (ER := below_big (fun z => (z * a)%Q)) (SR := below_big (fun z => (z * (a / b))%Q)).
  - destruct (M a Ha). now apply below_big_cmp.
  - destruct (M _ Hab). now apply below_big_cmp.
  - apply same_map. intros c z Hz. left. destruct (H c z Hz). split; [reflexivity|]. split; auto.
  - right. auto.
  - right. auto.
  - intros c n s1 s2 A S1 S2. destruct (HS c n s1 A S1) as [B1 B2]. destruct S1 as [zc [zn [Hc [Hn E1]]]]. apply slope_map in S2.
    destruct S2 as [zc' [zn' [Hc' [Hn' E2]]]]. rewrite Hc in Hc'. rewrite Hn in Hn'. inversion Hc'; inversion Hn'; subst zc' zn'.
    assert (EQ : (s2 == s1 * (a / b))%Q).
    { cbv zeta in E1. rewrite E1, E2. clear E1 E2. cbn [Qops o_lt o_sub o_div o_zero]. assert (D : (zn * a - zc * a == (zn - zc) * a)%Q) by ring.
      assert (L1 : q_lt (zn * a - zc * a)%Q (thr * a)%Q = q_lt (zn - zc)%Q thr).
      { rewrite (q_lt_eq D (Qeq_refl _)). apply bool_ext. rewrite !q_lt_spec. symmetry. apply (M a Ha). }
      assert (L2 : q_lt 0%Q (zn * a - zc * a)%Q = q_lt 0%Q (zn - zc)%Q).
      { rewrite (q_lt_eq (Qeq_sym _ _ (Qmult_0_l a)) D). apply bool_ext. rewrite !q_lt_spec. symmetry. apply (M a Ha). }
      rewrite L1, L2. destruct (q_lt (zn - zc)%Q thr && q_lt 0 (zn - zc)%Q); unfold Qdiv; rewrite Qinv_mult_distr.
      - ring.
      - rewrite D. ring. }
    left. split; auto. split; auto. now rewrite EQ.
Qed.

(** ** C114: a cell with one steepest neighbour looks at its neighbours only *)
Theorem C114_local :
  forall {T} (O : slope_ops T) ok thr dist dem1 dem2 nb terminals1 terminals2 fuel fdir1 fdir2 nb1 nb2,
    order_laws O ok ->
    terrain_ok O ok thr dist dem1 nb terminals1 -> terrain_ok O ok thr dist dem2 nb terminals2 ->
    enough_steps nb fuel -> (forall l, In l nb -> NoDup l) ->
    run O fuel dist dem1 nb thr terminals1 = Ok (fdir1, nb1) -> run O fuel dist dem2 nb thr terminals2 = Ok (fdir2, nb2) ->
    forall c n, is_valid dem1 c ->
      (* the two DEMs agree on [c] and its neighbours *)
      nth_error dem2 c = nth_error dem1 c -> (forall m, adjacent nb c m -> nth_error dem2 m = nth_error dem1 m) ->
      ~ start_cell O dem1 terminals1 c -> ~ start_cell O dem2 terminals2 c ->
      steepest O thr dist dem1 nb c n -> (forall n', steepest O thr dist dem1 nb c n' -> n' = n) ->
      nth_error fdir1 c = Some (Z.of_nat n) /\ nth_error fdir2 c = Some (Z.of_nat n).
Proof.
  intros T O ok thr dist dem1 dem2 nb t1 t2 fuel fdir1 fdir2 nb1 nb2 OL TR1 TR2 FU ND E1 E2 c n V Ec En S1 S2 Hn U.
  split; [exact (C60_unique_steepest_wins OL TR1 FU E1 ND V S1 Hn U)|].
  assert (SL : forall m s, adjacent nb c m -> (slope_to O thr dist dem2 c m s <-> slope_to O thr dist dem1 c m s)).
  { intros m s A. unfold slope_to. rewrite Ec, (En m A). reflexivity. }
  assert (ST : forall m, steepest O thr dist dem2 nb c m <-> steepest O thr dist dem1 nb c m).
  { intros m. split; intros [A [s [Hs H]]]; split; auto; exists s; (split; [now apply SL|]); intros n' s' A' Hs'; apply (H n' s' A'); now apply SL. }
  apply (C60_unique_steepest_wins OL TR2 FU E2 ND); auto.
  - destruct V as [x Hx]. exists x. congruence.
  - now apply ST.
  - intros n' H'. apply U. now apply ST.
Qed.

(** ** concrete cases *)
Module Ex.
  Import PropsDir.Ex.
  (** a 3x3 grid with a flat, raised by 100 *)
  Example C114_datum_case :
    exists nb', run Qops 103 one (map (option_map (fun z => (z + 100)%Q)) dem33) nb33 thr [] = Ok ([4; 4; 4; 4; 8; 8; 4; 8; 8]%Z, nb').
  Proof.
    destruct run33 as [nb' E]. exists nb'. rewrite <- E. apply C114_any_datum. intros c w H.
    do 9 (destruct c as [|c]; [inversion H; split; reflexivity|]). destruct c; discriminate.
  Qed.
  (** feet instead of metres, and a grid in miles *)
  Example C114_units_case :
    exists nb', run Qops 103 (fun c n => one c n * (5 # 8))%Q (map (option_map (fun z => (z * (3281 # 1000))%Q)) dem33) nb33 (thr * (3281 # 1000))%Q []
      = Ok ([4; 4; 4; 4; 8; 8; 4; 8; 8]%Z, nb').
  Proof.
    destruct run33 as [nb' E]. exists nb'. rewrite <- E. apply C114_any_units; try reflexivity.
    - intros c w H. do 9 (destruct c as [|c]; [inversion H; split; reflexivity|]). destruct c; discriminate.
    - intros c n s _ [zc [zn [Hc [Hn Es]]]].
      assert (Lc : c < 9) by (change 9 with (length dem33); apply nth_error_Some; congruence).
      assert (Ln : n < 9) by (change 9 with (length dem33); apply nth_error_Some; congruence).
      cbv zeta in Es. rewrite Es. clear Es. do 9 (destruct c as [|c]; [injection Hc as <-; do 9 (destruct n as [|n]; [injection Hn as <-; split; vm_compute; reflexivity|]); lia|]). lia.
  Qed.

  (** cell 0 raised from 9 to 20: cell 5, which is not next to it, flows to 8 as before *)
  Definition dem33b : list (option Q) := z [20; 9; 9; 9; 5; 5; 9; 5; 1]%Z.
  Example C114_local_case : forall fdir nb', run Qops 103 one dem33b nb33 thr [] = Ok (fdir, nb') -> nth_error fdir 5 = Some 8%Z.
  Proof.
    intros fdir nb' E2. destruct run33 as [nb1 E1].
    assert (TR2 : terrain_ok Qops (fun _ => True) thr one dem33b nb33 []) by (apply terrain_checked; vm_compute; reflexivity).
    assert (NS : forall c, ~ start_cell Qops dem33b [] c \/ c = 8).
    { intros c. destruct (Nat.eq_dec c 8) as [|N8]; auto. left. intros [H|[]].
      rewrite <- (proj1 (proj2 (mins_spec Qlaws TR2))) in H. vm_compute in H. lia. }
    refine (proj2 (C114_local (c := 5) (n := 8) Qlaws terrain33 TR2 steps33 nodup33 E1 E2 _ _ _ _ _ _ _)).
      - eexists. vm_compute. reflexivity.
      - reflexivity.
      - intros m [l [El Hm]]. vm_compute in El. inversion El; subst l. cbn in Hm. repeat (destruct Hm as [<-|Hm]; [reflexivity|]). destruct Hm.
      - intros [H|[]]. apply low33 in H. discriminate.
      - destruct (NS 5); auto. lia.
      - apply steep33. now left.
      - intros n' H. apply steep33 in H. destruct H as [<-|[]]; auto.
  Qed.
End Ex.
