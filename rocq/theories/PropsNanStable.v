(** C128: fill_nan_values as a function of the valid elevations: monotone, independent of the unit
    and the datum, errors not amplified. *)
From Coq Require Import String QArith Lqa Permutation Sorting.
From Verif Require Import Py Spec MFill MNanQ PropsUnits.
Set Implicit Arguments.
Unset Strict Implicit.
Local Open Scope nat_scope.
Local Open Scope list_scope.
Local Notation length := List.length.

(** the same cells are NaN, the valid elevations are related by [R] *)
Definition valid_related (R : Q -> Q -> Prop) : option Q -> option Q -> Prop :=
  fun x y => match x, y with Some a, Some b => R a b | None, None => True | _, _ => False end.
Definition same_nans (R : Q -> Q -> Prop) : list (option Q) -> list (option Q) -> Prop := Forall2 (valid_related R).

(** *** the general fact: [y] lies on or above the conversion of [x] *)
Section Above.
  Variables a k : Q.
  Hypothesis Ha : (0 < a)%Q.
  Definition above_conv (x y : Q) : Prop := (x * a + k <= y)%Q.
  Notation W := above_conv.

  Lemma W_mono x x' y' y : (x <= x')%Q -> W x' y' -> (y' <= y)%Q -> W x y.
  Proof.
    unfold above_conv. intros H1 H2 H3. assert (M := Qmult_le_compat_r _ _ a H1 (Qlt_le_weak _ _ Ha)). lra.
  Qed.

  Lemma somes_rel : forall l m, same_nans W l m -> Forall2 W (somes l) (somes m).
  Proof. induction 1 as [|[x|] [y|] l m H F IH]; cbn in *; try contradiction; auto. Qed.

  Lemma mean_rel x y l m : W x y -> Forall2 W l m -> W (q_mean x l) (q_mean y m).
  Proof.
    intros H F. unfold q_mean.
    assert (SM : forall l m, Forall2 W l m -> forall x y (j : nat), (x * a + inject_Z (Z.of_nat j) * k <= y)%Q ->
      (fold_left Qplus l x * a + inject_Z (Z.of_nat (j + length l)) * k <= fold_left Qplus m y)%Q).
    { clear. induction 1 as [|u v l m Huv F IH]; intros x y j Hj; cbn [fold_left length].
      - now rewrite Nat.add_0_r.
      - rewrite <- Nat.add_succ_comm. apply IH. unfold above_conv in Huv. rewrite Nat2Z.inj_succ. unfold Z.succ.
        rewrite inject_Z_plus. change (inject_Z 1) with 1%Q. lra. }
    assert (Ln := len_same F). rewrite <- Ln.
    assert (P : (0 < inject_Z (Z.of_nat (S (length l))))%Q) by (change 0%Q with (inject_Z 0); rewrite <- Zlt_Qlt; lia).
    specialize (SM l m F x y 1). change (inject_Z (Z.of_nat 1)) with 1%Q in SM. change (1 + length l) with (S (length l)) in SM.
    set (c := inject_Z (Z.of_nat (S (length l)))) in *.
    assert (S' : (fold_left Qplus l x * a + c * k <= fold_left Qplus m y)%Q) by (apply SM; unfold above_conv in H; lra).
    unfold above_conv. apply Qle_shift_div_l; auto.
    setoid_replace ((fold_left Qplus l x / c * a + k) * c)%Q with (fold_left Qplus l x * a + c * k)%Q; auto.
    field. intros Z. rewrite Z in P. now apply Qlt_irrefl in P.
  Qed.

  Lemma min_rel l m : Forall2 W l m -> forall x y, W x y -> W (q_min x l) (q_min y m).
  Proof.
    unfold q_min. induction 1 as [|u v l m H F IH]; intros x y Hxy; cbn [fold_left]; auto. apply IH.
    destruct (Qle_bool x u) eqn:E1, (Qle_bool y v) eqn:E2; auto.
    - apply Qle_bool_iff in E1. apply (@W_mono x u v v); auto. apply Qle_refl.
    - assert (u < x)%Q by (apply Qnot_le_lt; intros Q; apply Qle_bool_iff in Q; congruence).
      apply (@W_mono u x y y); auto; [now apply Qlt_le_weak|apply Qle_refl].
  Qed.

  Lemma max_rel l m : Forall2 W l m -> forall x y, W x y -> W (q_max x l) (q_max y m).
  Proof.
    unfold q_max. induction 1 as [|u v l m H F IH]; intros x y Hxy; cbn [fold_left]; auto. apply IH.
    destruct (Qle_bool x u) eqn:E1, (Qle_bool y v) eqn:E2; auto.
    - assert (v < y)%Q by (apply Qnot_le_lt; intros Q; apply Qle_bool_iff in Q; congruence).
      apply (@W_mono u u v y); auto; [apply Qle_refl|now apply Qlt_le_weak].
    - apply Qle_bool_iff in E2. apply (@W_mono x x y v); auto. apply Qle_refl.
  Qed.

  Lemma insert_front x l : StronglySorted Qle (x :: l) -> insert Qle_bool x l = x :: l.
  Proof.
    intros H. destruct l as [|y l]; auto. cbn. inversion H as [|? ? _ F]; subst. inversion F; subst.
    apply Qle_bool_iff in H2. now rewrite H2.
  Qed.

  Lemma insert_rel l m : Forall2 W l m -> StronglySorted Qle l -> StronglySorted Qle m ->
    forall x y, W x y -> Forall2 W (insert Qle_bool x l) (insert Qle_bool y m).
  Proof.
    induction 1 as [|u v l m H F IH]; intros Sl Sm x y Hxy; cbn [insert]; auto.
    inversion Sl as [|? ? Sl' _]; subst. inversion Sm as [|? ? Sm' _]; subst.
    destruct (Qle_bool x u) eqn:E1, (Qle_bool y v) eqn:E2; auto.
    - assert (v < y)%Q by (apply Qnot_le_lt; intros Q; apply Qle_bool_iff in Q; congruence). apply Qle_bool_iff in E1.
      constructor; [apply (@W_mono x u v v); auto; apply Qle_refl|].
      rewrite <- (insert_front Sl). apply IH; auto. apply (@W_mono u u v y); auto; [apply Qle_refl|now apply Qlt_le_weak].
    - assert (u < x)%Q by (apply Qnot_le_lt; intros Q; apply Qle_bool_iff in Q; congruence). apply Qle_bool_iff in E2.
      constructor; [apply (@W_mono u x y y); auto; [now apply Qlt_le_weak|apply Qle_refl]|].
      rewrite <- (insert_front Sm). apply IH; auto. apply (@W_mono x x y v); auto. apply Qle_refl.
  Qed.

  Lemma q_sorted l : StronglySorted Qle (isort Qle_bool l).
  Proof.
    apply isort_sorted with (R := Qle).
    - intros x y H. now apply Qle_bool_iff.
    - intros x y H. apply Qlt_le_weak, Qnot_le_lt. intros Q. apply Qle_bool_iff in Q. congruence.
    - intros x y z. apply Qle_trans.
  Qed.

  Lemma isort_rel l m : Forall2 W l m -> Forall2 W (isort Qle_bool l) (isort Qle_bool m).
  Proof. induction 1; cbn [isort]; auto. apply insert_rel; auto using q_sorted. Qed.

  Lemma median_rel x y l m : W x y -> Forall2 W l m -> W (q_median x l) (q_median y m).
  Proof.
    intros H F. unfold q_median. assert (R : Forall2 W (isort Qle_bool (x :: l)) (isort Qle_bool (y :: m))) by (apply isort_rel; auto).
    set (s := isort Qle_bool (x :: l)) in *. set (t := isort Qle_bool (y :: m)) in *. rewrite (len_same R).
    assert (A := fun i => @nth_same _ _ W s t i x y R H).
    destruct (Nat.even (length t)); auto.
    assert (A1 := A (length t / 2 - 1)). assert (A2 := A (length t / 2)). unfold above_conv in *.
    set (p := nth (length t / 2 - 1) s x) in *. set (q := nth (length t / 2) s x) in *.
    apply Qle_shift_div_l; [reflexivity|].
    setoid_replace (((p + q) / 2 * a + k) * 2)%Q with ((p * a + k) + (q * a + k))%Q by field. lra.
  Qed.

  Lemma nan_agg_rel method :
    match nan_agg Qaggs method with
    | Some (g, _) => forall x y l m, W x y -> Forall2 W l m -> W (g x l) (g y m)
    | None => True
    end.
  Proof.
    unfold nan_agg. destruct (String.eqb _ _); [intros; now apply mean_rel|].
    destruct (String.eqb _ _); [intros; now apply median_rel|].
    destruct (String.eqb _ _); [intros; now apply min_rel|].
    destruct (String.eqb _ _); [intros; now apply max_rel|auto].
  Qed.

  Lemma where_nan dem1 dem2 : same_nans W dem1 dem2 -> where_ isnan dem1 = where_ isnan dem2.
  Proof.
    unfold where_. intros F. rewrite <- (len_same F). generalize 0. clear -F.
    induction F as [|[x|] [y|] l m H F IH]; intros i; cbn in *; try contradiction; auto. now rewrite IH.
  Qed.

  Lemma nan_loop_rel nb method : forall fuel stack dem1 dem2, same_nans W dem1 dem2 ->
    same_res (same_nans W) (nan_loop fuel nb (nan_agg Qaggs method) stack dem1) (nan_loop fuel nb (nan_agg Qaggs method) stack dem2).
  Proof.
    induction fuel as [|fuel IH]; intros [|n stack] dem1 dem2 F; cbn [nan_loop]; auto; [reflexivity|].
    destruct (nth_error nb n) as [nn|]; cbn [bind]; [|reflexivity].
    apply (@bind_same _ _ (same_nans W)); [apply mapM_same; intros j; now apply get_same|]. intros e1 e2 FE.
    assert (G := nan_agg_rel method). destruct (nan_agg Qaggs method) as [[g strict]|] eqn:EA; [|reflexivity].
    assert (SF := somes_rel FE). destruct SF as [|x y l m Hxy SF].
    - destruct FE as [|x y e1 e2 _ _]; [destruct strict; [reflexivity|]|]; now apply (IH (n :: stack)).
    - apply (@bind_same _ _ (same_nans W)); [apply set_same; auto; cbn; now apply G|]. intros d1 d2 FD. now apply IH.
  Qed.
End Above.

(** C128, general form: if every valid elevation of the second terrain lies on or above the
    conversion of that of the first, so does every elevation of the filled terrain *)
Theorem C128_above : forall (a k : Q) fuel nb method (dem1 dem2 : list (option Q)),
  (0 < a)%Q -> same_nans (fun x y => x * a + k <= y)%Q dem1 dem2 ->
  same_res (same_nans (fun x y => x * a + k <= y)%Q)
    (fill_nan fuel nb Qaggs method dem1) (fill_nan fuel nb Qaggs method dem2).
Proof.
  intros a k fuel nb method dem1 dem2 Ha F. unfold fill_nan. rewrite (@where_nan a k dem1 dem2 F). now apply nan_loop_rel.
Qed.

(** C128: raising valid elevations never lowers a filled one *)
Theorem C128_monotone : forall fuel nb method (dem1 dem2 : list (option Q)),
  same_nans Qle dem1 dem2 ->
  same_res (same_nans Qle) (fill_nan fuel nb Qaggs method dem1) (fill_nan fuel nb Qaggs method dem2).
Proof.
  intros fuel nb method dem1 dem2 F.
  assert (IFF : forall l m, same_nans Qle l m <-> same_nans (fun x y => x * 1 + 0 <= y)%Q l m).
  { intros l m. split; intros H; induction H as [|[x|] [y|] l m Hxy H IH]; constructor; auto; cbn in *; try contradiction; auto; lra. }
  apply IFF in F. assert (R := C128_above fuel nb method (a := 1) (k := 0) eq_refl F).
  destruct (fill_nan fuel nb Qaggs method dem1), (fill_nan fuel nb Qaggs method dem2); cbn in *; auto. now apply IFF.
Qed.

Lemma same_nans_and (P R : Q -> Q -> Prop) l m :
  same_nans (fun x y => P x y /\ R x y) l m <-> same_nans P l m /\ same_nans R l m.
Proof.
  split.
  - intros H. induction H as [|[x|] [y|] l m Hxy H [I1 I2]]; cbn in *; try contradiction; split; constructor; cbn; tauto.
  - intros [H1 H2]. revert H2. induction H1 as [|[x|] [y|] l m Hxy H IH]; intros H2; inversion H2; subst; cbn in *; try contradiction; constructor; cbn; auto. now apply IH. now apply IH.
Qed.
Lemma same_nans_turn (P : Q -> Q -> Prop) l m : same_nans P l m -> same_nans (fun y x => P x y) m l.
Proof. intros H. induction H as [|[x|] [y|] l m Hxy H IH]; cbn in *; try contradiction; constructor; auto. Qed.
Lemma same_nans_imp (P R : Q -> Q -> Prop) l m : (forall x y, P x y -> R x y) -> same_nans P l m -> same_nans R l m.
Proof. intros I H. induction H as [|[x|] [y|] l m Hxy H IH]; cbn in *; try contradiction; constructor; cbn; auto. Qed.

(** C128: another unit and datum of the elevations *)
Theorem C128_any_units : forall (a k : Q) fuel nb method (dem1 dem2 : list (option Q)),
  (0 < a)%Q -> same_nans (fun x y => y == x * a + k)%Q dem1 dem2 ->
  same_res (same_nans (fun x y => y == x * a + k)%Q)
    (fill_nan fuel nb Qaggs method dem1) (fill_nan fuel nb Qaggs method dem2).
Proof.
  intros a k fuel nb method dem1 dem2 Ha F.
  assert (F1 : same_nans (fun x y => x * a + k <= y)%Q dem1 dem2).
  { revert F. apply same_nans_imp. intros x y ->. apply Qle_refl. }
  assert (NZ : ~ (a == 0)%Q) by (intros Z; rewrite Z in Ha; now apply Qlt_irrefl in Ha).
  assert (Hi : (0 < / a)%Q) by now apply Qinv_lt_0_compat.
  assert (F2 : same_nans (fun y x => y * / a + (- k * / a) <= x)%Q dem2 dem1).
  { apply same_nans_turn. revert F. apply same_nans_imp. intros x y ->.
    setoid_replace ((x * a + k) * / a + - k * / a)%Q with x by (field; auto). apply Qle_refl. }
  assert (R1 := C128_above fuel nb method Ha F1). assert (R2 := C128_above fuel nb method Hi F2).
  destruct (fill_nan fuel nb Qaggs method dem1) as [o1|], (fill_nan fuel nb Qaggs method dem2) as [o2|]; cbn in *; auto.
  apply same_nans_turn in R2. assert (B := proj2 (same_nans_and _ _ o1 o2) (conj R1 R2)). revert B. apply same_nans_imp.
  intros x y [B1 B2]. apply Qle_antisym; auto.
  assert (M := Qmult_le_compat_r _ _ a B2 (Qlt_le_weak _ _ Ha)).
  setoid_replace ((y * / a + - k * / a) * a)%Q with (y - k)%Q in M by (field; auto). lra.
Qed.

(** C128: errors of the valid elevations are not amplified *)
Theorem C128_not_amplified : forall (d : Q) fuel nb method (dem1 dem2 : list (option Q)),
  same_nans (fun x y => x <= y + d /\ y <= x + d)%Q dem1 dem2 ->
  same_res (same_nans (fun x y => x <= y + d /\ y <= x + d)%Q)
    (fill_nan fuel nb Qaggs method dem1) (fill_nan fuel nb Qaggs method dem2).
Proof.
  intros d fuel nb method dem1 dem2 F.
  assert (F1 : same_nans (fun x y => x * 1 + - d <= y)%Q dem1 dem2).
  { revert F. apply same_nans_imp. intros x y [A B]. lra. }
  assert (F2 : same_nans (fun y x => y * 1 + - d <= x)%Q dem2 dem1).
  { apply same_nans_turn. revert F. apply same_nans_imp. intros x y [A B]. lra. }
  assert (R1 := C128_above fuel nb method (a := 1) eq_refl F1). assert (R2 := C128_above fuel nb method (a := 1) eq_refl F2).
  destruct (fill_nan fuel nb Qaggs method dem1) as [o1|], (fill_nan fuel nb Qaggs method dem2) as [o2|]; cbn in *; auto.
  apply same_nans_turn in R2. assert (B := proj2 (same_nans_and _ _ o1 o2) (conj R1 R2)). revert B. apply same_nans_imp.
  intros x y [B1 B2]. split; lra.
Qed.

(** ** Example: feet and metres, a cell without a value *)
Module ExNan.
  Local Open Scope Q_scope.
  Definition nb : list (list nat) := [[1]; [0; 2]; [1; 3]; [2]]%nat.
  Definition dem1 : list (option Q) := [Some 10; None; Some 20; Some 7].
  Definition dem2 : list (option Q) := [Some 31; None; Some 61; Some 22].
  Example related : same_nans (fun x y => y == x * 3 + 1) dem1 dem2.
  Proof. repeat constructor. Qed.
  Example run1 : fill_nan 5 nb Qaggs "Mean" dem1 = Ok [Some 10; Some (30 # 2); Some 20; Some 7].
  Proof. vm_compute. reflexivity. Qed.
  Example run2 : fill_nan 5 nb Qaggs "Mean" dem2 = Ok [Some 31; Some (92 # 2); Some 61; Some 22].
  Proof. vm_compute. reflexivity. Qed.
End ExNan.
