(** C123: flow accumulation as a function of the cell areas.  The walk never looks at an area, so
    areas that correspond are accumulated to areas that correspond; hence larger areas give larger
    accumulations, areas in another unit give accumulations in that unit, areas that add up give
    accumulations that add up, and cells of one size give the number of cells times that size. *)
From Coq Require Import ZArith Reals Lra Lia.
From Flocq Require Import Core.Core IEEE754.BinarySingleNaN.
From Verif Require Import Py Spec MFlow LGraph LAcc PropsAcc MStream PropsStream PropsAcc2 LFloat PropsAccF PropsCascF PropsUnits.
Set Implicit Arguments.
Unset Strict Implicit.
Local Open Scope nat_scope.
Local Open Scope list_scope.
Local Notation length := List.length.

Section NpSame.
  Context {A B : Type} (P : A -> B -> Prop).
  Lemma npget_same l1 l2 i : Forall2 P l1 l2 -> same_res P (npget l1 i) (npget l2 i).
  Proof. intros F. unfold npget. rewrite (len_same F). destruct (npidx (length l2) i); [now apply get_same|reflexivity]. Qed.
  Lemma npset_same l1 l2 i x y : Forall2 P l1 l2 -> P x y -> same_res (Forall2 P) (npset l1 i x) (npset l2 i y).
  Proof. intros F H. unfold npset. rewrite (len_same F). destruct (npidx (length l2) i); cbn; [now apply upd_same|reflexivity]. Qed.
End NpSame.

Lemma same_refl {A} (x : res A) : same_res eq x x.
Proof. destruct x; reflexivity. Qed.

Section Rel.
  Context {W1 W2 : Type} (add1 : W1 -> W1 -> W1) (zero1 : W1) (add2 : W2 -> W2 -> W2) (zero2 : W2).
  Variable R : W1 -> W2 -> Prop.
  Hypothesis R0 : R zero1 zero2.
  Hypothesis RA : forall a b, R a b -> forall a' b', R a' b' -> R (add1 a a') (add2 b b').

  Definition same_acc (s1 : acc (W := W1)) (s2 : acc (W := W2)) : Prop :=
    a_cnt s1 = a_cnt s2 /\ a_nidp s1 = a_nidp s2 /\ Forall2 R (a_area s1) (a_area s2).

  Lemma walk_same fuel fdir : forall s1 s2 n k x y, same_acc s1 s2 -> R x y ->
    same_res same_acc (acc_walk add1 fuel fdir s1 n k x) (acc_walk add2 fuel fdir s2 n k y).
  Proof using RA.
    induction fuel as [|fuel IH]; intros s1 s2 n k x y [HC [HN HA]] H; [reflexivity|]. cbn [acc_walk].
    rewrite HC, HN.
    apply (bind_same (same_refl _)). intros c ? <-.
    apply (bind_same (same_refl _)). intros cnt ? <-.
    apply (bind_same (npget_same n HA)). intros w1 w2 HW.
    apply (bind_same (npset_same n HA (RA HW H))). intros ar1 ar2 HR.
    apply (bind_same (same_refl _)). intros nac ? <-.
    apply (bind_same (npget_same n HR)). intros x' y' HX.
    apply (bind_same (same_refl _)). intros d ? <-.
    destruct (2 <=? d)%Z.
    - apply (bind_same (same_refl _)). intros nd ? <-. cbn. repeat split; auto.
    - apply (bind_same (same_refl _)). intros n' ? <-. apply IH; auto. repeat split; auto.
  Qed.

  Lemma run_same fuel fdir area1 area2 : Forall2 R area1 area2 ->
    same_res same_acc (acc_run add1 zero1 fuel fdir area1) (acc_run add2 zero2 fuel fdir area2).
  Proof using R0 RA.
    intros H. unfold acc_run. apply (bind_same (same_refl _)). intros nidp ? <-.
    apply foldM_same; [|now repeat split].
    intros s1 s2 ix _ S. destruct S as [HC [HN HA]]. rewrite HN.
    apply (bind_same (same_refl _)). intros v ? <-.
    destruct (negb (v =? 0)%Z); [now repeat split|]. apply walk_same; [now repeat split|apply R0].
  Qed.

  (** C123: areas that correspond, cell by cell, are accumulated to areas that correspond, on any
      flow-direction array (with cycles, with entries out of range) *)
  Theorem C123_areas_correspond fuel fdir area1 area2 : Forall2 R area1 area2 ->
    same_res (Forall2 R) (flow_accumulation_area add1 zero1 fuel fdir area1) (flow_accumulation_area add2 zero2 fuel fdir area2).
  Proof using R0 RA.
    intros H. apply (bind_same (run_same fuel fdir H)). intros s1 s2 [_ [_ HA]]. exact HA.
  Qed.
End Rel.

Lemma same_ok {A B} (P : A -> B -> Prop) x y a b : same_res P x y -> x = Ok a -> y = Ok b -> P a b.
Proof. intros H -> ->. exact H. Qed.
Lemma same_ok_l {A B} (P : A -> B -> Prop) x y a : same_res P x y -> x = Ok a -> exists b, y = Ok b /\ P a b.
Proof. intros H ->. destruct y as [b|]; [exists b; auto|contradiction]. Qed.

Lemma Forall2_map_r {A B} (f : A -> B) (l : list A) : Forall2 (fun x y => y = f x) l (map f l).
Proof. induction l; cbn; auto. Qed.
Lemma Forall2_eq_map {A B} (f : A -> B) l l' : Forall2 (fun x y => y = f x) l l' -> l' = map f l.
Proof. induction 1; cbn; congruence. Qed.

(** C123, conversion of units: a conversion that respects sums can be applied before or after *)
Theorem C123_any_unit :
  forall (W1 W2 : Type) (add1 : W1 -> W1 -> W1) zero1 (add2 : W2 -> W2 -> W2) zero2 (conv : W1 -> W2) fuel fdir area,
    conv zero1 = zero2 -> (forall a b, conv (add1 a b) = add2 (conv a) (conv b)) ->
    flow_accumulation_area add2 zero2 fuel fdir (map conv area) =
    (acc <- flow_accumulation_area add1 zero1 fuel fdir area ;; Ok (map conv acc)).
Proof.
  intros W1 W2 add1 zero1 add2 zero2 conv fuel fdir area H0 HA.
  assert (S := @C123_areas_correspond W1 W2 add1 zero1 add2 zero2 (fun x y => y = conv x) (eq_sym H0)
    (fun a b H a' b' H' => eq_trans (f_equal2 add2 H H') (eq_sym (HA a a'))) fuel fdir area _ (Forall2_map_r conv area)).
  destruct (flow_accumulation_area add1 zero1 fuel fdir area) as [o1|e1], (flow_accumulation_area add2 zero2 fuel fdir (map conv area)) as [o2|e2];
    cbn in *; try contradiction; [f_equal; now apply Forall2_eq_map|congruence].
Qed.

(** C123, streams in any unit of area: areas and threshold in another unit give the same streams *)
Theorem C123_streams_any_unit :
  forall (W1 W2 : Type) (add1 : W1 -> W1 -> W1) zero1 ge1 (add2 : W2 -> W2 -> W2) zero2 ge2 (conv : W1 -> W2)
         fuel fdir area acc1 acc2 thr basin,
    conv zero1 = zero2 -> (forall a b, conv (add1 a b) = add2 (conv a) (conv b)) ->
    (forall a b, ge2 (conv a) (conv b) = ge1 a b) ->
    flow_accumulation_area add1 zero1 fuel fdir area = Ok acc1 ->
    flow_accumulation_area add2 zero2 fuel fdir (map conv area) = Ok acc2 ->
    delineate_streams ge2 acc2 (Scalar (conv thr)) basin = delineate_streams ge1 acc1 (Scalar thr) basin.
Proof.
  intros W1 W2 add1 zero1 ge1 add2 zero2 ge2 conv fuel fdir area acc1 acc2 thr basin H0 HA HG E1 E2.
  rewrite (C123_any_unit fuel fdir area H0 HA), E1 in E2. cbn in E2. injection E2 as <-.
  unfold delineate_streams, above. cbn [bind]. rewrite map_map.
  assert (EQ : map (fun x => if ge2 (conv x) (conv thr) then 1%Z else 0%Z) acc1 = map (fun a => if ge1 a thr then 1%Z else 0%Z) acc1).
  { apply map_ext. intros a. now rewrite HG. }
  now rewrite EQ.
Qed.

(** C123, superposition: areas that are sums of two contributions (two sources, wet and dry parts)
    are accumulated to the sums of the two accumulations *)
Theorem C123_contributions_add_up :
  forall (W : Type) (wadd : W -> W -> W) wzero fuel fdir (area1 area2 area acc1 acc2 acc : list W),
    exact_sum wadd wzero -> length area1 = length area2 ->
    area = map (fun p => wadd (fst p) (snd p)) (combine area1 area2) ->
    flow_accumulation_area wadd wzero fuel fdir area1 = Ok acc1 ->
    flow_accumulation_area wadd wzero fuel fdir area2 = Ok acc2 ->
    flow_accumulation_area wadd wzero fuel fdir area = Ok acc ->
    length acc1 = length area /\ length acc2 = length area /\
    acc = map (fun p => wadd (fst p) (snd p)) (combine acc1 acc2).
Proof.
  intros W wadd wzero fuel fdir area1 area2 area acc1 acc2 acc [HC [HA HZ]] L -> E1 E2 E3.
  set (padd := fun p q : W * W => (wadd (fst p) (fst q), wadd (snd p) (snd q))).
  set (pzero := (wzero, wzero)).
  assert (P1 := @C123_any_unit (W * W) W padd pzero wadd wzero fst fuel fdir (combine area1 area2) eq_refl (fun _ _ => eq_refl)).
  assert (P2 := @C123_any_unit (W * W) W padd pzero wadd wzero snd fuel fdir (combine area1 area2) eq_refl (fun _ _ => eq_refl)).
  assert (P3 := @C123_any_unit (W * W) W padd pzero wadd wzero (fun p => wadd (fst p) (snd p)) fuel fdir (combine area1 area2)).
  cbn beta in P3. rewrite E3 in P3.
  assert (F1 : map fst (combine area1 area2) = area1 /\ map snd (combine area1 area2) = area2).
  { clear -L. revert area2 L. induction area1 as [|x l IH]; intros [|y l'] L; cbn in *; try discriminate; auto.
    destruct (IH l') as [-> ->]; auto. }
  destruct F1 as [F1 F2]. rewrite F1, E1 in P1. rewrite F2, E2 in P2.
  assert (LP : forall o, flow_accumulation_area padd pzero fuel fdir (combine area1 area2) = Ok o -> length o = length (combine area1 area2)).
  { intros o Eo.
    assert (Q := @C123_areas_correspond (W * W) (W * W) padd pzero padd pzero (fun _ _ => True) I (fun _ _ _ _ _ _ => I) fuel fdir
      (combine area1 area2) (combine area1 area2)).
    revert Eo. unfold flow_accumulation_area, acc_run. destruct (get_nidp fdir) as [nidp|]; [|discriminate]. cbn [bind].
    assert (K : forall l s s', foldM (fun s ix => nidp_val <- get (a_nidp s) ix ;;
        if negb (nidp_val =? 0)%Z then Ok s else acc_walk padd fuel fdir s (Z.of_nat ix) 0 pzero) l s = Ok s' -> length (a_area s') = length (a_area s)).
    { assert (KW : forall f s n k x s', acc_walk padd f fdir s n k x = Ok s' -> length (a_area s') = length (a_area s)).
      { induction f as [|f IH]; intros s n k x s' H; [discriminate|]. cbn [acc_walk] in H.
        destruct (npget (a_cnt s) n) as [c|]; [cbn [bind] in H|discriminate].
        destruct (npset (a_cnt s) n (c + k)%Z) as [cnt|]; [cbn [bind] in H|discriminate].
        destruct (npget (a_area s) n) as [w|]; [cbn [bind] in H|discriminate].
        destruct (npset (a_area s) n (padd w x)) as [ar|] eqn:Ea; [cbn [bind] in H|discriminate].
        assert (LA : length ar = length (a_area s)).
        { unfold npset in Ea. destruct (npidx _ n); [|discriminate]. injection Ea as <-. now rewrite upd_length. }
        destruct (npget cnt n) as [c'|]; [cbn [bind] in H|discriminate].
        destruct (npget ar n) as [w'|]; [cbn [bind] in H|discriminate].
        destruct (npget (a_nidp s) n) as [d|]; [cbn [bind] in H|discriminate].
        destruct (2 <=? d)%Z.
        - destruct (npset (a_nidp s) n (d - 1)%Z); [|discriminate]. injection H as <-. exact LA.
        - destruct (npget fdir n) as [n'|]; [cbn [bind] in H|discriminate]. apply IH in H. cbn in H. congruence. }
      induction l as [|ix l IH]; intros s s' H; cbn in H; [now injection H as <-|].
      destruct (get (a_nidp s) ix) as [v|]; [cbn [bind] in H|discriminate].
      destruct (negb (v =? 0)%Z); [cbn [bind] in H; now apply IH|].
      destruct (acc_walk padd fuel fdir s (Z.of_nat ix) 0 pzero) as [s1|] eqn:Ew; [cbn [bind] in H|discriminate].
      apply IH in H. apply KW in Ew. congruence. }
    destruct (foldM _ _ _) as [s'|] eqn:Ef; [|discriminate]. cbn [bind]. intros Eo. injection Eo as <-.
    apply K in Ef. exact Ef. }
  destruct (flow_accumulation_area padd pzero fuel fdir (combine area1 area2)) as [o|]; cbn in P1, P2; [|discriminate].
  injection P1 as ->. injection P2 as ->. rewrite !map_length, (LP o) by reflexivity.
  split; auto. split; auto.
  assert (P4 : Ok acc = Ok (map (fun p : W * W => wadd (fst p) (snd p)) o)).
  { apply P3; cbn; [apply HZ|]. intros [a b] [a' b']. cbn.
    rewrite <- (HA a a'), (HA a' b), (HC a' b), <- (HA b a'), (HA a b). reflexivity. }
  injection P4 as ->. clear. induction o as [|x o IH]; cbn; auto. now rewrite IH at 1.
Qed.

(** ** Cells of one size *)
(** a count and an area accumulated together: with every area 1 they are the same number *)
Lemma count_is_area fuel fdir n :
  same_res (fun c a => c = a) (flow_accumulation_cells Z.add 0%Z fuel fdir (repeat 1%Z n))
    (if Nat.eqb n (length fdir) then flow_accumulation_area Z.add 0%Z fuel fdir (repeat 1%Z n)
     else flow_accumulation_cells Z.add 0%Z fuel fdir (repeat 1%Z n)).
Proof.
  destruct (Nat.eqb_spec n (length fdir)) as [->|]; [|apply same_refl].
  unfold flow_accumulation_cells, flow_accumulation_area, acc_run.
  destruct (get_nidp fdir) as [nidp|]; [|reflexivity]. cbn [bind].
  assert (KW : forall f s n k s', a_cnt s = a_area s -> acc_walk Z.add f fdir s n k k = Ok s' -> a_cnt s' = a_area s').
  { induction f as [|f IH]; intros s n k s' HS H; [discriminate|]. cbn [acc_walk] in H. rewrite <- HS in H.
    destruct (npget (a_cnt s) n) as [c|] eqn:Ec; [cbn [bind] in H|discriminate].
    destruct (npset (a_cnt s) n (c + k)%Z) as [cnt|] eqn:Es; [cbn [bind] in H|discriminate].
    try rewrite Ec in H; cbn [bind] in H; try rewrite Es in H; cbn [bind] in H.
    destruct (npget cnt n) as [c'|] eqn:Ec'; [cbn [bind] in H|discriminate]. try rewrite Ec' in H; cbn [bind] in H.
    destruct (npget (a_nidp s) n) as [d|]; [cbn [bind] in H|discriminate].
    destruct (2 <=? d)%Z.
    - destruct (npset (a_nidp s) n (d - 1)%Z); [|discriminate]. injection H as <-. reflexivity.
    - destruct (npget fdir n) as [n'|]; [cbn [bind] in H|discriminate]. apply IH in H; auto. }
  assert (K : forall l s s', a_cnt s = a_area s -> foldM (fun s ix => nidp_val <- get (a_nidp s) ix ;;
      if negb (nidp_val =? 0)%Z then Ok s else acc_walk Z.add fuel fdir s (Z.of_nat ix) 0 0%Z) l s = Ok s' -> a_cnt s' = a_area s').
  { induction l as [|ix l IH]; intros s s' HS H; cbn in H; [now injection H as <-|].
    destruct (get (a_nidp s) ix) as [v|]; [cbn [bind] in H|discriminate].
    destruct (negb (v =? 0)%Z); [cbn [bind] in H; now apply (IH s)|].
    destruct (acc_walk Z.add fuel fdir s (Z.of_nat ix) 0 0%Z) as [s1|] eqn:Ew; [cbn [bind] in H|discriminate].
    apply (IH s1); auto. now apply KW in Ew. }
  destruct (foldM _ _ _) as [s'|] eqn:Ef; [|reflexivity]. cbn. now apply K in Ef.
Qed.

(** [k] copies of [a] added up *)
Fixpoint times {W} (wadd : W -> W -> W) (wzero : W) (k : nat) (a : W) : W :=
  match k with O => wzero | S k' => wadd (times wadd wzero k' a) a end.

(** C123: when all cells have area [a], the accumulated area of a cell is its accumulated number of
    cells times [a] *)
Theorem C123_cells_of_one_size :
  forall (W : Type) (wadd : W -> W -> W) wzero fuel fdir (a : W) cells areas,
    exact_sum wadd wzero ->
    flow_accumulation_cells wadd wzero fuel fdir (repeat a (length fdir)) = Ok cells ->
    flow_accumulation_area wadd wzero fuel fdir (repeat a (length fdir)) = Ok areas ->
    areas = map (fun k => times wadd wzero (Z.to_nat k) a) cells /\ Forall (fun k => (0 <= k)%Z) cells.
Proof.
  intros W wadd wzero fuel fdir a cells areas [HC [HA HZ]] E1 E2.
  set (R := fun (k : Z) (w : W) => (0 <= k)%Z /\ w = times wadd wzero (Z.to_nat k) a).
  assert (TA : forall i j, times wadd wzero (i + j) a = wadd (times wadd wzero i a) (times wadd wzero j a)).
  { intros i j. rewrite Nat.add_comm. induction j as [|j IH]; cbn; [now rewrite HZ|]. now rewrite IH, HA. }
  assert (F : Forall2 R (repeat 1%Z (length fdir)) (repeat a (length fdir))).
  { generalize (length fdir). induction n as [|n IH]; cbn; constructor; auto. split; [lia|]. change (Z.to_nat 1) with 1. cbn [times]. now rewrite HC, HZ. }
  assert (S := @run_same Z W Z.add 0%Z wadd wzero R).
  assert (S' := S (conj (Z.le_refl 0) eq_refl)). clear S.
  assert (RA : forall k w, R k w -> forall k' w', R k' w' -> R (k + k')%Z (wadd w w')).
  { intros k w [Hk ->] k' w' [Hk' ->]. split; [lia|]. rewrite Z2Nat.inj_add by lia. now rewrite TA. }
  specialize (S' RA fuel fdir _ _ F).
  assert (CA := count_is_area fuel fdir (length fdir)). rewrite Nat.eqb_refl in CA.
  unfold flow_accumulation_cells, flow_accumulation_area in *.
  destruct (acc_run wadd wzero fuel fdir (repeat a (length fdir))) as [s|]; cbn in *; [|discriminate].
  injection E1 as <-. injection E2 as <-.
  destruct (acc_run Z.add 0%Z fuel fdir (repeat 1%Z (length fdir))) as [z|]; cbn in *; [|contradiction].
  destruct S' as [S1 [_ S3]]. rewrite <- S1, CA. clear -S3.
  induction S3 as [|k w l l' [Hk ->] F IH]; cbn; auto. destruct IH as [-> IH]. auto.
Qed.

(** ** Larger areas, larger accumulations *)
Theorem C123_larger_areas :
  forall (W : Type) (wadd : W -> W -> W) wzero (le : W -> W -> Prop) fuel fdir area1 area2,
    le wzero wzero -> (forall a b a' b', le a b -> le a' b' -> le (wadd a a') (wadd b b')) ->
    Forall2 le area1 area2 ->
    same_res (Forall2 le) (flow_accumulation_area wadd wzero fuel fdir area1) (flow_accumulation_area wadd wzero fuel fdir area2).
Proof. intros W wadd wzero le fuel fdir area1 area2 H0 HA F. apply C123_areas_correspond; auto. Qed.

(** and streams only grow *)
Theorem C123_larger_areas_keep_streams :
  forall (W : Type) (wadd : W -> W -> W) wzero (ok : W -> Prop) (ge : W -> W -> bool) fuel fdir area1 area2 acc1 acc2 thr out1 out2,
    ok wzero -> ge wzero wzero = true -> (forall a b, ok a -> ok b -> ok (wadd a b)) ->
    (forall a b a' b', ok a -> ok b -> ok a' -> ok b' -> ge b a = true -> ge b' a' = true -> ge (wadd b b') (wadd a a') = true) ->
    (forall a b, ok a -> ok b -> ge b a = true -> ge a thr = true -> ge b thr = true) ->
    Forall2 (fun a b => ok a /\ ok b /\ ge b a = true) area1 area2 ->
    flow_accumulation_area wadd wzero fuel fdir area1 = Ok acc1 ->
    flow_accumulation_area wadd wzero fuel fdir area2 = Ok acc2 ->
    delineate_streams ge acc1 (Scalar thr) None = Ok out1 ->
    delineate_streams ge acc2 (Scalar thr) None = Ok out2 ->
    forall c, nth_error out1 c = Some 1%Z -> nth_error out2 c = Some 1%Z.
Proof.
  intros W wadd wzero ok ge fuel fdir area1 area2 acc1 acc2 thr out1 out2 K0 G0 KA GA TR F E1 E2 D1 D2.
  assert (S := @C123_areas_correspond W W wadd wzero wadd wzero (fun a b => ok a /\ ok b /\ ge b a = true)).
  assert (F2 : Forall2 (fun a b => ok a /\ ok b /\ ge b a = true) acc1 acc2).
  { eapply same_ok; [apply S|exact E1|exact E2]; auto.
    intros a b [Ha [Hb Hg]] a' b' [Ha' [Hb' Hg']]. auto 10. }
  cbn in D1, D2. injection D1 as <-. injection D2 as <-. clear -F2 TR.
  intros c. revert c. induction F2 as [|a b l l' [Ha [Hb Hg]] F IH]; intros [|c]; cbn; auto.
  destruct (ge a thr) eqn:Q; [|discriminate]. now rewrite (TR a b).
Qed.

(** binary64: rounded addition of non-negative areas is monotone *)
Lemma f_add_mono_nonneg a b a' b' : nonneg a -> nonneg b -> nonneg a' -> nonneg b' ->
  f_ge b a = true -> f_ge b' a' = true -> f_ge (f_add b b') (f_add a a') = true.
Proof.
  intros Na Nb Na' Nb' H H'. assert (G := b64_growing).
  assert (N1 : nonneg (f_add a a')) by now apply (g_ok G). assert (N2 : nonneg (f_add b b')) by now apply (g_ok G).
  assert (GE : forall x y, nonneg x -> nonneg y -> f_ge x y = true <-> (rank y <= rank x)%Z).
  { intros x y [Hx _] [Hy _]. unfold f_ge. rewrite le_rank by auto. apply Z.leb_le. }
  assert (INF : forall x, nonneg x -> f_ge (B754_infinity false) x = true).
  { intros x Hx. apply GE; auto; [split; [reflexivity|cbn; assert (T := top_pos); lia]|].
    destruct (nonneg_cases Hx) as [F|E].
    - assert (Q := rank_bound F). cbn [rank]. lia.
    - rewrite E. apply Z.le_refl. }
  assert (TOP : forall x, nonneg x -> f_ge x (B754_infinity false) = true -> x = B754_infinity false).
  { intros x Hx Q. destruct (nonneg_cases Hx) as [F|E]; auto. apply GE in Q; auto.
    - assert (B := rank_bound F). cbn [rank] in Q. lia.
    - split; [reflexivity|cbn; assert (T := top_pos); lia]. }
  destruct (nonneg_cases N2) as [F2|E2]; [|rewrite E2; auto].
  assert (Fb : finite b) by (eapply below_finite; [exact Nb|exact N2|exact F2|now apply (g_left G)]).
  assert (Fb' : finite b') by (eapply below_finite; [exact Nb'|exact N2|exact F2|now apply (g_right G)]).
  assert (Fa : finite a) by (eapply below_finite; [exact Na|exact Nb|exact Fb|auto]).
  assert (Fa' : finite a') by (eapply below_finite; [exact Na'|exact Nb'|exact Fb'|auto]).
  assert (LE : forall x y, finite x -> finite y -> (rank x <= rank y)%Z -> (val x <= val y)%R).
  { intros x y Fx Fy Q. apply Rnot_lt_le. intros Q'. apply val_rank_lt in Q'; auto. lia. }
  assert (V : (val a <= val b)%R) by (apply LE; auto; now apply GE).
  assert (V' : (val a' <= val b')%R) by (apply LE; auto; now apply GE).
  assert (P' := nonneg_val Na' Fa'). assert (Q' := nonneg_val Nb' Fb').
  assert (X : (rnd (val a + val a') <= rnd (val b + val b'))%R) by (apply rnd_le; lra).
  destruct (add_cases Fb Fb' Q') as [[_ [VB BB]]|[EB _]]; [|rewrite EB in F2; discriminate].
  destruct (add_cases Fa Fa' P') as [[FA [VA _]]|[_ B]]; [|lra].
  apply GE; auto. apply Z.nlt_ge. intros L. apply val_rank_lt in L; auto. rewrite VA, VB in L. lra.
Qed.

(** C123 for doubles: larger areas give accumulations at least as large, and keep every stream cell *)
Theorem C123_larger_areas_binary64 :
  forall fuel fdir (area1 area2 acc1 acc2 : list b64) thr out1 out2,
    Forall2 (fun a b => area_ok a /\ area_ok b /\ f_le a b = true) area1 area2 ->
    flow_accumulation_area f_add f_zero fuel fdir area1 = Ok acc1 ->
    flow_accumulation_area f_add f_zero fuel fdir area2 = Ok acc2 ->
    not_nan thr ->
    delineate_streams f_ge acc1 (Scalar thr) None = Ok out1 ->
    delineate_streams f_ge acc2 (Scalar thr) None = Ok out2 ->
    Forall2 (fun a b => f_le a b = true) acc1 acc2 /\
    forall c, nth_error out1 c = Some 1%Z -> nth_error out2 c = Some 1%Z.
Proof.
  intros fuel fdir area1 area2 acc1 acc2 thr out1 out2 F E1 E2 NT D1 D2.
  assert (Z0 : nonneg f_zero) by (split; [reflexivity|cbn; lia]).
  assert (G0 : f_ge f_zero f_zero = true) by reflexivity.
  assert (F' : Forall2 (fun a b => nonneg a /\ nonneg b /\ f_ge b a = true) area1 area2).
  { clear -F. induction F as [|a b l l' [Ha [Hb H]] F IH]; constructor; auto. auto using area_nonneg. }
  split.
  - assert (S := @C123_areas_correspond b64 b64 f_add f_zero f_add f_zero (fun a b => nonneg a /\ nonneg b /\ f_ge b a = true)).
    assert (Q : Forall2 (fun a b => nonneg a /\ nonneg b /\ f_ge b a = true) acc1 acc2).
    { eapply same_ok; [apply S|exact E1|exact E2]; auto.
      intros a b [Ha [Hb H]] a' b' [Ha' [Hb' H']]. split; [now apply (g_ok b64_growing)|]. split; [now apply (g_ok b64_growing)|].
      now apply f_add_mono_nonneg. }
    clear -Q. induction Q as [|a b l l' [_ [_ H]] Q IH]; constructor; auto.
  - eapply C123_larger_areas_keep_streams with (ok := nonneg); [exact Z0|exact G0| | | |exact F'|exact E1|exact E2|exact D1|exact D2].
    + intros a b Ha Hb. now apply (g_ok b64_growing).
    + intros a b a' b' Ha Hb Ha' Hb'. now apply f_add_mono_nonneg.
    + intros a b [Ha _] [Hb _]. unfold f_ge. rewrite !le_rank by auto. rewrite !Z.leb_le. lia.
Qed.

(** ** Examples *)
Module ExL.
  (* cell 0 and 1 flow to 2, 2 to 3, 3 is terminal *)
  Definition fdir : list Z := [2; 2; 3; 3]%Z.
  Definition acc_of (area : list Z) := flow_accumulation_area Z.add 0%Z 10 fdir area.
  Example sums : acc_of [1; 2; 3; 4]%Z = Ok [1; 2; 6; 10]%Z. Proof. vm_compute. reflexivity. Qed.
  Example other : acc_of [5; 0; 1; 1]%Z = Ok [5; 0; 6; 7]%Z. Proof. vm_compute. reflexivity. Qed.
  Example added : acc_of [6; 2; 4; 5]%Z = Ok [6; 2; 12; 17]%Z. Proof. vm_compute. reflexivity. Qed.
  Example superposition : [6; 2; 12; 17]%Z = map (fun p => fst p + snd p)%Z (combine [1; 2; 6; 10]%Z [5; 0; 6; 7]%Z).
  Proof.
    assert (E : exact_sum Z.add 0%Z) by (repeat split; intros; lia).
    exact (proj2 (proj2 (@C123_contributions_add_up Z Z.add 0%Z 10 fdir [1; 2; 3; 4]%Z [5; 0; 1; 1]%Z [6; 2; 4; 5]%Z _ _ _
      E eq_refl eq_refl sums other added))).
  Qed.
  Example one_size : acc_of [7; 7; 7; 7]%Z = Ok [7; 7; 21; 28]%Z. Proof. vm_compute. reflexivity. Qed.
  Example scaled : acc_of (map (fun x => 100 * x)%Z [1; 2; 3; 4]%Z) = Ok [100; 200; 600; 1000]%Z.
  Proof.
    unfold acc_of. rewrite (@C123_any_unit Z Z Z.add 0%Z Z.add 0%Z (fun x => 100 * x)%Z) by (intros; lia).
    change (flow_accumulation_area Z.add 0%Z 10 fdir [1; 2; 3; 4]%Z) with (acc_of [1; 2; 3; 4]%Z). rewrite sums. reflexivity.
  Qed.
End ExL.
