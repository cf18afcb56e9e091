(** The four aggregations of fill_nan_values in exact (rational) arithmetic. *)
From Coq Require Import String QArith.
From Verif Require Import Py Spec MFill.
Set Implicit Arguments.
Local Open Scope nat_scope.
Local Open Scope list_scope.
Local Notation length := List.length.

(** np.nanmean: sum / count (dem_conditioning.py 294) *)
Definition q_mean (x : Q) (l : list Q) : Q :=
  (fold_left Qplus l x / inject_Z (Z.of_nat (S (length l))))%Q.

(** np.nanmedian: middle of the sorted values, mean of the two middle ones if their
    number is even (dem_conditioning.py 296) *)
Definition q_median (x : Q) (l : list Q) : Q :=
  let s := isort Qle_bool (x :: l) in
  let n := length s in
  if Nat.even n then ((nth (n / 2 - 1) s x + nth (n / 2) s x) / 2)%Q else nth (n / 2) s x.

(** np.nanmin, np.nanmax (dem_conditioning.py 298, 300) *)
Definition q_min (x : Q) (l : list Q) : Q := fold_left (fun m y => if Qle_bool m y then m else y) l x.
(* np.nanmax, dem_conditioning.py 300 *)
Definition q_max (x : Q) (l : list Q) : Q := fold_left (fun m y => if Qle_bool m y then y else m) l x.

(* dem_conditioning.py 293-300 *)
Definition Qaggs : aggs Q := Aggs q_mean q_median q_min q_max.

(** ** every aggregation stays within the bounds of its arguments *)
Section Bounds.
  Variables lo hi : Q.
  (* specification, not code *)
  Definition within (x : Q) : Prop := (lo <= x)%Q /\ (x <= hi)%Q.

  Lemma sum_within l : forall x k, Forall within l ->
    (inject_Z (Z.of_nat k) * lo <= x)%Q -> (x <= inject_Z (Z.of_nat k) * hi)%Q ->
    (inject_Z (Z.of_nat (k + length l)) * lo <= fold_left Qplus l x)%Q /\
    (fold_left Qplus l x <= inject_Z (Z.of_nat (k + length l)) * hi)%Q.
  Proof.
    induction l as [|y l IH]; intros x k Hl H1 H2; simpl.
    - rewrite Nat.add_0_r. auto.
    - inversion Hl as [|? ? [Hy1 Hy2] Hl']; subst. rewrite <- Nat.add_succ_comm. apply IH; auto.
      + rewrite Nat2Z.inj_succ. unfold Z.succ. rewrite inject_Z_plus, Qmult_plus_distr_l.
        apply Qplus_le_compat; auto. change (inject_Z 1) with 1%Q. now rewrite Qmult_1_l.
      + rewrite Nat2Z.inj_succ. unfold Z.succ. rewrite inject_Z_plus, Qmult_plus_distr_l.
        apply Qplus_le_compat; auto. change (inject_Z 1) with 1%Q. now rewrite Qmult_1_l.
  Qed.

  Lemma mean_within x l : within x -> Forall within l -> within (q_mean x l).
  Proof.
    intros [H1 H2] Hl. unfold q_mean.
    destruct (@sum_within l x 1 Hl) as [A B].
    { change (inject_Z (Z.of_nat 1)) with 1%Q. now rewrite Qmult_1_l. }
    { change (inject_Z (Z.of_nat 1)) with 1%Q. now rewrite Qmult_1_l. }
    change (1 + length l)%nat with (S (length l)) in *.
    assert (Hp : (0 < inject_Z (Z.of_nat (S (length l))))%Q).
    { change 0%Q with (inject_Z 0). rewrite <- Zlt_Qlt. lia. }
    split.
    - apply Qle_shift_div_l; auto. rewrite Qmult_comm. exact A.
    - apply Qle_shift_div_r; auto. rewrite Qmult_comm. exact B.
  Qed.

  Lemma min_within l : forall x, within x -> Forall within l -> within (q_min x l).
  Proof. induction l as [|y l IH]; intros x Hx Hl; unfold q_min in *; simpl; auto.
    inversion Hl; subst. apply IH; auto. destruct (Qle_bool x y); auto. Qed.

  Lemma max_within l : forall x, within x -> Forall within l -> within (q_max x l).
  Proof. induction l as [|y l IH]; intros x Hx Hl; unfold q_max in *; simpl; auto.
    inversion Hl; subst. apply IH; auto. destruct (Qle_bool x y); auto. Qed.

  Lemma median_within x l : within x -> Forall within l -> within (q_median x l).
  Proof.
    intros Hx Hl. unfold q_median.
    assert (Hs : Forall within (isort Qle_bool (x :: l))).
    { apply (Permutation_Forall (isort_perm Qle_bool (x :: l))). now constructor. }
    set (s := isort Qle_bool (x :: l)) in *.
    assert (Hn : forall i, within (nth i s x)).
    { intros i. destruct (nth_in_or_default i s x) as [Hi| ->]; auto.
      rewrite Forall_forall in Hs. auto. }
    destruct (Nat.even (length s)); auto.
    destruct (Hn (length s / 2 - 1)%nat) as [A1 A2], (Hn (length s / 2)%nat) as [B1 B2].
    split.
    - apply Qle_shift_div_l; [reflexivity|].
      setoid_replace (lo * 2)%Q with (lo + lo)%Q by ring. now apply Qplus_le_compat.
    - apply Qle_shift_div_r; [reflexivity|].
      setoid_replace (hi * 2)%Q with (hi + hi)%Q by ring. now apply Qplus_le_compat.
  Qed.
End Bounds.

(** what the aggregations compute *)
(* specification of dem_conditioning.py 293-300 *)
Definition stat_ok (method : string) (xs : list Q) (y : Q) : Prop :=
  (lower method = "mean"%string -> (y * inject_Z (Z.of_nat (length xs)) == fold_right Qplus 0 xs)%Q) /\
  (lower method = "median"%string -> exists s, Permutation s xs /\ StronglySorted Qle s /\
     (Nat.odd (length xs) = true -> nth_error s (length xs / 2) = Some y) /\
     (Nat.even (length xs) = true -> exists a b, nth_error s (length xs / 2 - 1) = Some a /\
        nth_error s (length xs / 2) = Some b /\ (2 * y == a + b)%Q)) /\
  (lower method = "min"%string -> In y xs /\ Forall (fun x => y <= x)%Q xs) /\
  (lower method = "max"%string -> In y xs /\ Forall (fun x => x <= y)%Q xs).

Lemma fold_left_Qplus l : forall x, (fold_left Qplus l x == x + fold_right Qplus 0 l)%Q.
Proof. induction l as [|y l IH]; intros x; simpl; [ring|]. rewrite IH. ring. Qed.

Lemma q_mean_ok x l : (q_mean x l * inject_Z (Z.of_nat (length (x :: l))) == fold_right Qplus 0 (x :: l))%Q.
Proof. unfold q_mean. rewrite fold_left_Qplus. simpl List.length. simpl fold_right. field.
  unfold Qeq. simpl. lia. Qed.

Lemma q_min_ok l : forall x, In (q_min x l) (x :: l) /\ Forall (fun y => q_min x l <= y)%Q (x :: l).
Proof.
  induction l as [|y l IH]; intros x; unfold q_min in *; simpl fold_left.
  - split; [now left|]. repeat constructor. apply Qle_refl.
  - destruct (Qle_bool x y) eqn:E.
    + destruct (IH x) as [H1 H2]. inversion H2; subst. split; [destruct H1; simpl; auto|].
      constructor; auto. constructor; auto. apply Qle_bool_iff in E. eapply Qle_trans; eauto.
    + destruct (IH y) as [H1 H2]. inversion H2; subst. split; [destruct H1; simpl; auto|].
      constructor; auto. assert (~ (x <= y)%Q) by (rewrite <- Qle_bool_iff; congruence).
      apply Qnot_le_lt in H. apply Qlt_le_weak in H. eapply Qle_trans; eauto.
Qed.

Lemma q_max_ok l : forall x, In (q_max x l) (x :: l) /\ Forall (fun y => y <= q_max x l)%Q (x :: l).
Proof.
  induction l as [|y l IH]; intros x; unfold q_max in *; simpl fold_left.
  - split; [now left|]. repeat constructor. apply Qle_refl.
  - destruct (Qle_bool x y) eqn:E.
    + destruct (IH y) as [H1 H2]. inversion H2; subst. split; [destruct H1; simpl; auto|].
      constructor; auto. apply Qle_bool_iff in E. eapply Qle_trans; eauto.
    + destruct (IH x) as [H1 H2]. inversion H2; subst. split; [destruct H1; simpl; auto|].
      constructor; auto. constructor; auto. assert (~ (x <= y)%Q) by (rewrite <- Qle_bool_iff; congruence).
      apply Qnot_le_lt in H. apply Qlt_le_weak in H. eapply Qle_trans; eauto.
Qed.

Lemma q_median_ok x l : exists s, Permutation s (x :: l) /\ StronglySorted Qle s /\
     (Nat.odd (length (x :: l)) = true -> nth_error s (length (x :: l) / 2) = Some (q_median x l)) /\
     (Nat.even (length (x :: l)) = true -> exists a b, nth_error s (length (x :: l) / 2 - 1) = Some a /\
        nth_error s (length (x :: l) / 2) = Some b /\ (2 * q_median x l == a + b)%Q).
Proof.
  exists (isort Qle_bool (x :: l)). split; [symmetry; apply isort_perm|]. split.
  { apply isort_sorted with (R := Qle).
    - intros a b H. now apply Qle_bool_iff.
    - intros a b H. assert (~ (a <= b)%Q) by (rewrite <- Qle_bool_iff; congruence).
      apply Qlt_le_weak. now apply Qnot_le_lt.
    - intros a b c. apply Qle_trans. }
  unfold q_median. rewrite isort_length. set (s := isort Qle_bool (x :: l)).
  assert (Ls : length s = length (x :: l)) by apply isort_length.
  assert (Hd : length (x :: l) / 2 < length s) by (rewrite Ls; apply Nat.div_lt; simpl; lia).
  rewrite <- Nat.negb_odd. destruct (Nat.odd (length (x :: l))) eqn:E; cbn [negb]; split; try discriminate; intros _.
  - now apply nth_error_nth'.
  - exists (nth (length (x :: l) / 2 - 1) s x), (nth (length (x :: l) / 2) s x).
    split; [apply nth_error_nth'; lia|]. split; [now apply nth_error_nth'|]. field.
Qed.
