(** C121: priority fill (and complete fill, with and without a stream mask) in any vertical datum
    and any vertical units, for every eps; the flow directions derived from the filled terrain are
    the same.  Stated with a relation between elevations, so that exact and rounded arithmetic are
    covered alike. *)
From Coq Require Import String QArith.
From Verif Require Import Py Spec MHeap MFill MDir LRat LDir Grids PropsFill PropsDir PropsDirInv.
Set Implicit Arguments.
Unset Strict Implicit.
Local Open Scope nat_scope.
Local Open Scope list_scope.
Local Notation length := List.length.

(** two results that correspond: both values, corresponding, or the same exception *)
Definition same_res {A B} (P : A -> B -> Prop) (x : res A) (y : res B) : Prop :=
  match x, y with Ok a, Ok b => P a b | Err e, Err e' => e = e' | _, _ => False end.

(** the elevations related by [R] compare in the same way *)
Definition same_order {T1 T2} (E1 : elev T1) (E2 : elev T2) (R : T1 -> T2 -> Prop) : Prop :=
  forall a b, R a b -> forall a' b', R a' b' ->
    e_le E1 a a' = e_le E2 b b' /\ e_lt E1 a a' = e_lt E2 b b' /\ e_eq E1 a a' = e_eq E2 b b'.
(** and correspond after adding eps *)
Definition same_step {T1 T2} (E1 : elev T1) (E2 : elev T2) (R : T1 -> T2 -> Prop) (eps1 : T1) (eps2 : T2) : Prop :=
  forall a b, R a b -> R (e_add E1 a eps1) (e_add E2 b eps2).

Section Res.
  Context {A B : Type} (P : A -> B -> Prop).
  Lemma bind_same {A' B'} (Q : A' -> B' -> Prop) x y f g :
    same_res P x y -> (forall a b, P a b -> same_res Q (f a) (g b)) -> same_res Q (x <- x ;; f x) (y <- y ;; g y).
  Proof. destruct x, y; cbn; intros H HF; try contradiction; auto. Qed.
  Lemma get_same l1 l2 n : Forall2 P l1 l2 -> same_res P (get l1 n) (get l2 n).
  Proof.
    unfold get. intros F. revert n. induction F as [|x y l1 l2 H F IH]; intros [|n]; cbn; auto.
  Qed.
  Lemma upd_same l1 l2 n x y : Forall2 P l1 l2 -> P x y -> Forall2 P (upd l1 n x) (upd l2 n y).
  Proof. intros F H. revert n. induction F as [|a b l1 l2 Hab F IH]; intros [|n]; cbn; auto. Qed.
  Lemma len_same l1 l2 : Forall2 P l1 l2 -> length l1 = length l2.
  Proof. induction 1; cbn; auto. Qed.
  Lemma set_same l1 l2 n x y : Forall2 P l1 l2 -> P x y -> same_res (Forall2 P) (set l1 n x) (set l2 n y).
  Proof. intros F H. unfold set. rewrite (len_same F). destruct (n <? length l2); cbn; auto. now apply upd_same. Qed.
  Lemma nth_same l1 l2 n x y : Forall2 P l1 l2 -> P x y -> P (nth n l1 x) (nth n l2 y).
  Proof. intros F H. revert n. induction F as [|a b l1 l2 Hab F IH]; intros [|n]; cbn; auto. Qed.
  Lemma foldM_same {X} (f : A -> X -> res A) (g : B -> X -> res B) l :
    (forall a b x, In x l -> P a b -> same_res P (f a x) (g b x)) ->
    forall a b, P a b -> same_res P (foldM f l a) (foldM g l b).
  Proof.
    induction l as [|x l IH]; intros H a b Hab; cbn; auto.
    apply bind_same.
    - apply H; simpl; auto.
    - intros a' b' Hp. apply IH; auto. intros. apply H; simpl; auto.
  Qed.
  Lemma mapM_same {X} (f : X -> res A) (g : X -> res B) l :
    (forall x, same_res P (f x) (g x)) -> same_res (Forall2 P) (mapM f l) (mapM g l).
  Proof.
    intros H. induction l as [|x l IH]; cbn; [constructor|].
    specialize (H x). destruct (f x), (g x); cbn in *; try contradiction; auto.
    destruct (mapM f l), (mapM g l); cbn in *; try contradiction; auto.
  Qed.
  Lemma last_same l1 l2 x y : Forall2 P l1 l2 -> P x y -> P (last l1 x) (last l2 y).
  Proof.
    intros F. revert x y. induction F as [|a b l1 l2 Hab F IH]; intros x y H; auto.
    cbn [last]. destruct F; auto.
  Qed.
  Lemma removelast_same l1 l2 : Forall2 P l1 l2 -> Forall2 P (removelast l1) (removelast l2).
  Proof. induction 1 as [|a b l1 l2 Hab F IH]; cbn; auto. destruct F; auto. Qed.
End Res.

(** the heap moves related entries in the same way *)
Section Heap.
  Context {A B : Type} (lt1 : A -> A -> bool) (lt2 : B -> B -> bool) (P : A -> B -> Prop).
  Hypothesis LT : forall a b, P a b -> forall a' b', P a' b' -> lt1 a a' = lt2 b b'.

  Lemma siftdown_same fuel : forall h1 h2 pos x y, Forall2 P h1 h2 -> P x y ->
    Forall2 P (siftdown lt1 fuel h1 pos x) (siftdown lt2 fuel h2 pos y).
  Proof.
    induction fuel as [|fuel IH]; intros h1 h2 pos x y F H; cbn [siftdown]; [now apply upd_same|].
    destruct (0 <? pos); [|now apply upd_same].
    assert (N := nth_same ((pos - 1) / 2) F H). rewrite (LT H N).
    destruct (lt2 _ _); [|now apply upd_same]. apply IH; auto. now apply upd_same.
  Qed.
  Lemma heappush_same h1 h2 x y : Forall2 P h1 h2 -> P x y -> Forall2 P (heappush lt1 h1 x) (heappush lt2 h2 y).
  Proof.
    intros F H. unfold heappush. rewrite (len_same F). apply siftdown_same; auto. apply Forall2_app; auto.
  Qed.
  Lemma siftup_same fuel : forall h1 h2 pos x y, Forall2 P h1 h2 -> P x y ->
    Forall2 P (siftup lt1 fuel h1 pos x) (siftup lt2 fuel h2 pos y).
  Proof.
    induction fuel as [|fuel IH]; intros h1 h2 pos x y F H; cbn [siftup]; [now apply siftdown_same|].
    rewrite (len_same F). destruct (2 * pos + 1 <? length h2); [|now apply siftdown_same].
    rewrite (LT (nth_same (2 * pos + 1) F H) (nth_same (2 * pos + 1 + 1) F H)).
    apply IH; auto. apply upd_same; auto. apply nth_same; auto.
  Qed.
  Lemma heappop_same h1 h2 : Forall2 P h1 h2 ->
    match heappop lt1 h1, heappop lt2 h2 with
    | None, None => True
    | Some (x, h1'), Some (y, h2') => P x y /\ Forall2 P h1' h2'
    | _, _ => False
    end.
  Proof.
    intros F. unfold heappop. destruct F as [|x y h1 h2 H F]; auto.
    assert (F' : Forall2 P (x :: h1) (y :: h2)) by auto.
    assert (L := last_same F' H). assert (RL := removelast_same F').
    destruct RL as [|a b r1 r2 Hab RL]; [split; auto|]. split; auto.
    assert (G : Forall2 P (last (x :: h1) x :: r1) (last (y :: h2) y :: r2)) by auto.
    rewrite (len_same G). now apply siftup_same.
  Qed.
End Heap.

Section Fill.
  Context {T1 T2 : Type} (E1 : elev T1) (E2 : elev T2) (R : T1 -> T2 -> Prop).
  Hypothesis SO : same_order E1 E2 R.

  Let P (a : T1 * nat) (b : T2 * nat) : Prop := R (fst a) (fst b) /\ snd a = snd b.

  Lemma entry_same : forall a b, P a b -> forall a' b', P a' b' -> entry_lt E1 a a' = entry_lt E2 b b'.
  Proof.
    intros a b [H1 H2] a' b' [H3 H4]. unfold entry_lt. destruct (SO H1 H3) as [_ [-> ->]]. now rewrite H2, H4.
  Qed.

  Definition same_pf (s1 : pf (T := T1)) (s2 : pf (T := T2)) : Prop :=
    Forall2 R (pf_dem s1) (pf_dem s2) /\ pf_closed s1 = pf_closed s2 /\ Forall2 P (pf_open s1) (pf_open s2) /\ pf_pit s1 = pf_pit s2.

  Lemma amin_same l1 l2 x y : Forall2 R l1 l2 -> R x y -> R (amin E1 x l1) (amin E2 y l2).
  Proof.
    unfold amin. intros F. revert x y. induction F as [|a b l1 l2 Hab F IH]; intros x y H; cbn; auto.
    destruct (SO H H) as [_ [_ ->]]. destruct (SO Hab Hab) as [_ [_ ->]]. destruct (SO Hab H) as [_ [-> _]].
    destruct (negb (e_eq E2 y y)); auto. destruct (negb (e_eq E2 b b) || e_lt E2 b y); auto.
  Qed.

  Section Step.
    Variables (eps1 : T1) (eps2 : T2).
    Hypothesis ST : same_step E1 E2 R eps1 eps2.

    Lemma visit_same streams seed c s1 s2 n : same_pf s1 s2 ->
      same_res same_pf (pf_visit E1 eps1 streams seed c s1 n) (pf_visit E2 eps2 streams seed c s2 n).
    Proof.
      intros [D [C [O I]]]. unfold pf_visit. rewrite (len_same D), <- C, <- I.
      destruct (length (pf_dem s2) <=? n); [repeat split; auto|].
      destruct (get (pf_closed s1) n) as [cl|]; cbn [bind]; [|reflexivity].
      destruct cl; [repeat split; auto|].
      destruct (set (pf_closed s1) n true) as [closed'|]; cbn [bind]; [|reflexivity].
      apply (@bind_same _ _ R); [now apply get_same|]. intros en en' Hn.
      apply (@bind_same _ _ R); [now apply get_same|]. intros ec ec' Hc.
      assert (FI : same_res same_pf
        (dem' <- set (pf_dem s1) n (e_add E1 ec eps1) ;; Ok (PF dem' closed' (pf_open s1) (pf_pit s1 ++ [n])))
        (dem' <- set (pf_dem s2) n (e_add E2 ec' eps2) ;; Ok (PF dem' closed' (pf_open s2) (pf_pit s1 ++ [n])))).
      { apply (@bind_same _ _ (Forall2 R)); [apply set_same; auto|]. intros d1 d2 HD. repeat split; auto. }
      destruct (SO Hn Hc) as [-> _]. destruct (e_le E2 en' ec').
      - destruct streams; auto. destruct (negb (memn c seed) && negb (memn n seed)); auto.
        destruct (memn c seed); auto. repeat split; auto.
      - repeat split; auto. cbn. apply heappush_same; auto using entry_same. split; auto.
    Qed.

    Lemma burn_same seed c neighs d1 d2 : Forall2 R d1 d2 ->
      same_res (Forall2 R) (pf_burn E1 eps1 seed c neighs d1) (pf_burn E2 eps2 seed c neighs d2).
    Proof.
      intros D. unfold pf_burn. destruct (memn c seed); [|exact D].
      apply (@bind_same _ _ (Forall2 R)); [apply mapM_same; intros; now apply get_same|].
      intros l1 l2 L. destruct L as [|x y l1 l2 Hx L]; [exact D|]. destruct L as [|x' y' l1 l2 Hx' L]; [exact D|].
      assert (M : R (amin E1 x (x' :: l1)) (amin E2 y (y' :: l2))) by (apply amin_same; auto).
      apply (@bind_same _ _ R); [now apply get_same|]. intros ec ec' Hc.
      destruct (SO Hc M) as [_ [-> _]]. destruct (e_lt E2 ec' _); [|exact D]. apply set_same; auto.
    Qed.

    Lemma step_same nb streams seed c s1 s2 : same_pf s1 s2 ->
      same_res same_pf (pf_step E1 nb eps1 streams seed c s1) (pf_step E2 nb eps2 streams seed c s2).
    Proof.
      intros [D [C [O I]]]. unfold pf_step. destruct (nth_error nb c) as [l|]; cbn [bind]; [|reflexivity].
      apply (@bind_same _ _ (Forall2 R)); [destruct streams; [now apply burn_same|exact D]|].
      intros d1 d2 HD. apply foldM_same; [intros; now apply visit_same|]. rewrite C, I. repeat split; auto.
    Qed.

    Lemma loop_same fuel nb streams seed : forall s1 s2, same_pf s1 s2 ->
      same_res same_pf (pf_loop E1 fuel nb eps1 streams seed s1) (pf_loop E2 fuel nb eps2 streams seed s2).
    Proof.
      induction fuel as [|fuel IH]; intros s1 s2 [D [C [O I]]]; cbn [pf_loop]; rewrite <- I.
      - destruct (pf_pit s1) eqn:EI; [|reflexivity].
        assert (H := heappop_same entry_same O).
        destruct (heappop (entry_lt E1) (pf_open s1)) as [[[e1 c1] h1]|], (heappop (entry_lt E2) (pf_open s2)) as [[[e2 c2] h2]|]; try contradiction.
        + reflexivity.
        + repeat split; auto. congruence.
      - destruct (pf_pit s1) as [|c pit] eqn:EI.
        + assert (H := heappop_same entry_same O).
          destruct (heappop (entry_lt E1) (pf_open s1)) as [[[e1 c1] h1]|], (heappop (entry_lt E2) (pf_open s2)) as [[[e2 c2] h2]|]; try contradiction.
          * destruct H as [[_ Hc] Hh]. cbn in Hc. subst c2.
            apply (@bind_same _ _ same_pf); [apply step_same; rewrite C; repeat split; auto|auto].
          * repeat split; auto. congruence.
        + apply (@bind_same _ _ same_pf); [apply step_same; rewrite C; repeat split; auto|auto].
    Qed.

    Lemma flood_same fuel nb d1 d2 seed streams : Forall2 R d1 d2 ->
      same_res (Forall2 R) (priority_flood E1 fuel nb d1 eps1 seed streams) (priority_flood E2 fuel nb d2 eps2 seed streams).
    Proof.
      intros D. unfold priority_flood. apply (@bind_same _ _ same_pf).
      - unfold pf_init. apply (@bind_same _ _ (Forall2 P)).
        + apply foldM_same; [|constructor]. intros h1 h2 n _ H. apply (@bind_same _ _ R); [now apply get_same|].
          intros e1 e2 He. cbn. apply heappush_same; auto using entry_same. split; auto.
        + intros o1 o2 Ho. rewrite (len_same D).
          destruct (foldM (fun cl n => set cl n true) seed (repeat false (length d2))); cbn; [|reflexivity]. repeat split; auto.
      - intros s1 s2 H. apply (@bind_same _ _ same_pf); [now apply loop_same|]. intros s1' s2' [D' _]. exact D'.
    Qed.
  End Step.

  (** C121: corresponding terrains are filled to corresponding terrains (or refused alike), by
      priority and complete fill, with or without a stream mask, for every number of cells *)
  Theorem C121_flood_corresponds fuel iverts nb dem1 dem2 eps1 eps2 mask method :
    flood_method method mask -> Forall2 R dem1 dem2 ->
    same_step E1 E2 R eps1 eps2 -> same_step E1 E2 R (e_zero E1) (e_zero E2) ->
    same_res (Forall2 R) (fill_sinks E1 fuel iverts nb dem1 eps1 mask method) (fill_sinks E2 fuel iverts nb dem2 eps2 mask method).
  Proof.
    intros FM D S S0. unfold fill_sinks. destruct (identify_edge_nodes iverts) as [edges|]; cbn [bind]; [|reflexivity].
    assert (K : forall m seed streams, same_res (Forall2 R)
      (priority_flood E1 fuel nb dem1 (if String.eqb (lower m) "complete" then e_zero E1 else eps1) seed streams)
      (priority_flood E2 fuel nb dem2 (if String.eqb (lower m) "complete" then e_zero E2 else eps2) seed streams)).
    { intros m seed streams. destruct (String.eqb (lower m) "complete"); now apply flood_same. }
    destruct mask as [mask|].
    - set (m := if _ : bool then method else _).
      assert (M : String.eqb (lower m) "priority" || String.eqb (lower m) "complete" = true).
      { unfold m. destruct (String.eqb (lower method) "priority" || String.eqb (lower method) "complete") eqn:Q; auto. }
      rewrite M. apply K.
    - destruct (String.eqb (lower method) "priority" || String.eqb (lower method) "complete") eqn:Q; [apply K|].
      exfalso. apply orb_false_iff in Q. destruct Q as [Q1 Q2]. apply String.eqb_neq in Q1, Q2.
      unfold flood_method in FM. intuition congruence.
  Qed.
End Fill.

(** ** exact elevations: any datum, any vertical units *)
Definition converted (a k : Q) (x y : Q) : Prop := (y == x * a + k)%Q.

Lemma conv_lt a k x y : (0 < a)%Q -> (x * a + k < y * a + k)%Q <-> (x < y)%Q.
Proof. intros H. rewrite Qplus_lt_l. now apply Qmult_lt_r. Qed.
Lemma conv_le a k x y : (0 < a)%Q -> (x * a + k <= y * a + k)%Q <-> (x <= y)%Q.
Proof. intros H. rewrite Qplus_le_l. now apply Qmult_le_r. Qed.
Lemma conv_eq a k x y : (0 < a)%Q -> (x * a + k == y * a + k)%Q <-> (x == y)%Q.
Proof.
  intros H. rewrite Qplus_inj_r. apply Qmult_inj_r. intros Z. rewrite Z in H. now apply Qlt_irrefl in H.
Qed.

Lemma converted_order a k : (0 < a)%Q -> same_order Qelev Qelev (converted a k).
Proof.
  intros H x y E x' y' E'. unfold converted in *. cbn [Qelev e_le e_lt e_eq].
  split; [|split]; apply bool_ext.
  - rewrite !Qle_bool_iff, E, E'. symmetry. now apply conv_le.
  - rewrite !q_lt_spec, E, E'. symmetry. now apply conv_lt.
  - rewrite !Qeq_bool_iff, E, E'. symmetry. now apply conv_eq.
Qed.
Lemma converted_step a k eps : same_step Qelev Qelev (converted a k) eps (eps * a)%Q.
Proof. intros x y E. unfold converted in *. cbn [Qelev e_add]. rewrite E. ring. Qed.
Lemma converted_zero a k : same_step Qelev Qelev (converted a k) 0%Q 0%Q.
Proof. intros x y E. unfold converted in *. cbn [Qelev e_add]. rewrite E. ring. Qed.

(** C121: filling the converted terrain is converting the filled terrain *)
Theorem C121_flood_any_units :
  forall (a k : Q) fuel iverts nb (dem : list Q) eps mask method,
    (0 < a)%Q -> flood_method method mask ->
    same_res (Forall2 (converted a k))
      (fill_sinks Qelev fuel iverts nb dem eps mask method)
      (fill_sinks Qelev fuel iverts nb (map (fun z => z * a + k)%Q dem) (eps * a)%Q mask method).
Proof.
  intros a k fuel iverts nb dem eps mask method Ha FM.
  apply C121_flood_corresponds; auto using converted_order, converted_step, converted_zero.
  induction dem as [|x dem IH]; cbn; constructor; auto. unfold converted. reflexivity.
Qed.

(** C121: and the flow directions of the filled terrain are the same, with horizontal distances in
    other units as well *)
Theorem C121_directions_of_filled_any_units :
  forall (a b k : Q) fuel ffuel iverts nb (dem out out' : list Q) eps mask method dist thr terminals,
    (0 < a)%Q -> (0 < b)%Q -> flood_method method mask ->
    fill_sinks Qelev ffuel iverts nb dem eps mask method = Ok out ->
    fill_sinks Qelev ffuel iverts nb (map (fun z => z * a + k)%Q dem) (eps * a)%Q mask method = Ok out' ->
    (forall c z, nth_error out c = Some z -> (z < 10000000000)%Q /\ (z * a + k < 10000000000)%Q) ->
    (forall c n s, adjacent nb c n -> slope_to Qops thr dist (map Some out) c n s ->
       (s < 10000000000)%Q /\ (s * (a / b) < 10000000000)%Q) ->
    run Qops fuel (fun c n => dist c n * b)%Q (map Some out') nb (thr * a)%Q terminals =
    run Qops fuel dist (map Some out) nb thr terminals.
Proof.
  intros a b k fuel ffuel iverts nb dem out out' eps mask method dist thr terminals Ha Hb FM E1 E2 H HS. symmetry.
  assert (F := @C121_flood_any_units a k ffuel iverts nb dem eps mask method Ha FM). rewrite E1, E2 in F. cbn in F.
  assert (Hab : (0 < a / b)%Q) by (apply Qlt_shift_div_l; auto; now rewrite Qmult_0_l).
  assert (M : forall q, (0 < q)%Q -> (forall x y, (x < y)%Q <-> (x * q < y * q)%Q) /\ (forall x y, (x == y)%Q <-> (x * q == y * q)%Q)).
  { intros q Hq. split; intros x y; split; intros L.
    - now apply Qmult_lt_r.
    - now apply Qmult_lt_r in L.
    - now rewrite L.
    - apply Qmult_inj_r in L; auto. intros Z. rewrite Z in Hq. now apply Qlt_irrefl in Hq. }
  assert (NE : forall n x, nth_error (map Some out') n = Some (Some x) -> exists z, nth_error (map Some out) n = Some (Some z) /\ converted a k z x).
  { clear -F. induction F as [|u v o o' Huv F IH]; intros [|n] x Hx; cbn in *; try discriminate; eauto.
    inversion Hx; subst. eauto. }
  apply C114_directions_depend_on_comparisons with (ER := below_big (fun z => (z * a + k)%Q)) (SR := below_big (fun z => (z * (a / b))%Q)).
  - apply below_big_cmp; intros x y; symmetry; [now apply conv_lt|now apply conv_eq].
  - destruct (M _ Hab). now apply below_big_cmp.
  - clear -F H. induction F as [|x y o o' Hxy F IH]; cbn; constructor.
    + cbn. left. destruct (H 0 x eq_refl) as [A B]. split; [exact Hxy|]. split; auto.
      unfold converted in Hxy. now rewrite Hxy.
    + apply IH. intros c z Hz. exact (H (S c) z Hz).
  - right. auto.
  - right. auto.
  - intros c n s1 s2 A S1 S2. destruct (HS c n s1 A S1) as [B1 B2]. destruct S1 as [zc [zn [Hc [Hn Q1]]]].
    destruct S2 as [zc2 [zn2 [Hc2 [Hn2 Q2]]]].
    destruct (NE _ _ Hc2) as [zc' [Hc' Kc]]. destruct (NE _ _ Hn2) as [zn' [Hn' Kn]].
    rewrite Hc in Hc'. rewrite Hn in Hn'. inversion Hc'; inversion Hn'; subst zc' zn'. unfold converted in Kc, Kn.
    assert (EQ : (s2 == s1 * (a / b))%Q).
    { cbv zeta in Q1, Q2. rewrite Q1, Q2. clear Q1 Q2. cbn [Qops o_lt o_sub o_div o_zero].
      assert (D : (zn2 - zc2 == (zn - zc) * a)%Q) by (rewrite Kc, Kn; ring).
      assert (L1 : q_lt (zn2 - zc2)%Q (thr * a)%Q = q_lt (zn - zc)%Q thr).
      { rewrite (q_lt_eq D (Qeq_refl _)). apply bool_ext. rewrite !q_lt_spec. symmetry. apply (M a Ha). }
      assert (L2 : q_lt 0%Q (zn2 - zc2)%Q = q_lt 0%Q (zn - zc)%Q).
      { rewrite (q_lt_eq (Qeq_sym _ _ (Qmult_0_l a)) D). apply bool_ext. rewrite !q_lt_spec. symmetry. apply (M a Ha). }
      rewrite L1, L2. destruct (q_lt (zn - zc)%Q thr && q_lt 0 (zn - zc)%Q); unfold Qdiv; rewrite Qinv_mult_distr.
      - ring.
      - rewrite D. ring. }
    left. split; auto. split; auto. now rewrite EQ.
Qed.

(** a pit in a 3 x 3 grid, filled with eps = 1/2; the same terrain in units of a third, datum 100
    lower; with a stream mask, too *)
Module ExU.
  Definition dem : list Q := [9; 9; 9; 9; 1; 8; 9; 9; 9]%Q.
  Example filled : exists out, fill_sinks Qelev 9 (quad_iverts 3 3) (queen 3 3) dem (1 # 2)%Q None "priority" = Ok out /\
    Forall2 Qeq out [9; 9; 9; 9; 17 # 2; 8; 9; 9; 9]%Q.
  Proof. eexists. split; [vm_compute; reflexivity|]. repeat constructor. Qed.
  Example filled' : exists out, fill_sinks Qelev 9 (quad_iverts 3 3) (queen 3 3) (map (fun z => z * 3 + 100)%Q dem) ((1 # 2) * 3)%Q None "priority" = Ok out /\
    Forall2 Qeq out [127; 127; 127; 127; 251 # 2; 124; 127; 127; 127]%Q.
  Proof. eexists. split; [vm_compute; reflexivity|]. repeat constructor. Qed.
  Example masked : exists out, fill_sinks Qelev 9 (quad_iverts 3 3) (queen 3 3) dem (1 # 2)%Q (Some [0; 0; 0; 1; 1; 0; 0; 0; 0]%Z) "drain" = Ok out.
  Proof. eexists. vm_compute. reflexivity. Qed.
End ExU.
