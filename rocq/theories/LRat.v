(** Exact rational elevations: the fill laws hold for every finite set of rationals, because
    finitely many rationals (and the increment) have a common denominator [D]. *)
From Coq Require Import QArith Qround Lqa.
From Verif Require Import Py Spec.
Set Implicit Arguments.
Unset Strict Implicit.

Definition q_lt (x y : Q) : bool := negb (Qle_bool y x).
Lemma q_lt_spec x y : q_lt x y = true <-> (x < y)%Q.
Proof. unfold q_lt. rewrite negb_true_iff. split.
  - intros H. apply Qnot_le_lt. intros L. apply Qle_bool_iff in L. congruence.
  - intros H. destruct (Qle_bool y x) eqn:E; auto. apply Qle_bool_iff in E. exfalso. now apply (Qlt_not_le _ _ H). Qed.

Definition Qelev : elev Q := Elev Qle_bool q_lt Qeq_bool Qplus 0%Q 10000000000%Q.

(** multiples of 1/D *)
Definition on_grid (D : positive) (x : Q) : Prop := exists k, (x == k # D)%Q.
Definition qrank (D : positive) (x : Q) : Z := Qfloor (x * (Zpos D # 1)).

Lemma qrank_eq D x k : (x == k # D)%Q -> qrank D x = k.
Proof.
  intros H. unfold qrank. rewrite (Qfloor_comp _ (inject_Z k)).
  - apply Qfloor_Z.
  - rewrite H. unfold Qeq, inject_Z; cbn. lia.
Qed.
Lemma qrank_val D x : on_grid D x -> (x == qrank D x # D)%Q.
Proof. intros [k H]. now rewrite (qrank_eq H). Qed.

Lemma grid_le D a b : (a # D <= b # D)%Q <-> (a <= b)%Z.
Proof. unfold Qle; cbn. split; nia. Qed.
Lemma grid_add D a b : ((a # D) + (b # D) == (a + b) # D)%Q.
Proof. unfold Qeq; cbn. nia. Qed.
Lemma rank_le D x y : on_grid D x -> on_grid D y -> (x <= y)%Q <-> (qrank D x <= qrank D y)%Z.
Proof. intros Hx Hy. rewrite <- (grid_le D). now rewrite <- (qrank_val Hx), <- (qrank_val Hy). Qed.

Lemma Qelev_laws D eps : on_grid D eps -> (0 <= eps)%Q -> elev_laws Qelev (on_grid D) (qrank D) eps.
Proof.
  intros He He0.
  assert (ADD : forall x, on_grid D x -> on_grid D (x + eps)%Q).
  { intros x [k Hk]. destruct He as [e He]. exists (k + e)%Z. rewrite Hk, He. apply grid_add. }
  assert (RL : forall x y, on_grid D x -> on_grid D y -> Qle_bool x y = (qrank D x <=? qrank D y)%Z).
  { intros x y Hx Hy. apply eq_true_iff_eq. rewrite Qle_bool_iff, Z.leb_le. now apply rank_le. }
  constructor; cbn [Qelev e_le e_lt e_eq e_add e_big].
  - exact RL.
  - intros x y Hx Hy. unfold q_lt. rewrite RL by auto. rewrite Z.leb_antisym. apply negb_involutive.
  - intros x y Hx Hy. apply eq_true_iff_eq. rewrite Qeq_bool_iff, Z.eqb_eq. split.
    + intros H. apply Z.le_antisymm; [apply (proj1 (rank_le Hx Hy))|apply (proj1 (rank_le Hy Hx))]; rewrite H; apply Qle_refl.
    + intros H. apply Qle_antisym; [apply (proj2 (rank_le Hx Hy))|apply (proj2 (rank_le Hy Hx))]; rewrite H; apply Z.le_refl.
  - exact ADD.
  - intros x Hx. apply (proj1 (rank_le Hx (ADD x Hx))). lra.
  - intros x y Hx Hy H. apply (proj1 (rank_le (ADD x Hx) (ADD y Hy))). apply (proj2 (rank_le Hx Hy)) in H. lra.
  - exists (10000000000 * Zpos D)%Z. unfold Qeq; cbn. lia.
Qed.

Lemma Qelev_null D : eps_null Qelev (on_grid D) 0%Q.
Proof. intros x _. cbn. apply Qeq_bool_iff. lra. Qed.

(** any rationals lie on a common grid *)
Lemma on_grid_mul D D' x : on_grid D x -> on_grid (D * D') x.
Proof. intros [k H]. exists (k * Zpos D')%Z. rewrite H. unfold Qeq; cbn. lia. Qed.
Lemma common_grid (l : list Q) : exists D, Forall (on_grid D) l.
Proof.
  induction l as [|x l [D IH]]; [exists 1%positive; constructor|].
  exists (D * Qden x)%positive. constructor.
  - exists (Qnum x * Zpos D)%Z. unfold Qeq; cbn. lia.
  - revert IH. apply Forall_impl. intros y. apply on_grid_mul.
Qed.
