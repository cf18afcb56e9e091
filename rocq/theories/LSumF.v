(** Sums of doubles in any order: how far they are from the exact sum. *)
From Coq Require Import ZArith Reals Lra Lia Permutation.
From Flocq Require Import Core.Core IEEE754.BinarySingleNaN.
From Verif Require Import Py MStream LSum LFloat PropsAcc2 PropsAccF PropsWorldF.
Set Implicit Arguments.
Unset Strict Implicit.
Local Open Scope nat_scope.
Local Open Scope list_scope.
Local Notation length := List.length.

Definition rsum (l : list R) : R := fold_right Rplus 0%R l.

Lemma rsum_app a b : (rsum (a ++ b) = rsum a + rsum b)%R.
Proof. induction a as [|x a IH]; cbn [app rsum fold_right] in *; [unfold rsum; ring|]. unfold rsum in *. rewrite IH. ring. Qed.
Lemma rsum_perm a b : Permutation a b -> rsum a = rsum b.
Proof. induction 1; cbn [rsum fold_right] in *; unfold rsum in *; lra. Qed.
Lemma rsum_nonneg l : (forall x, In x l -> (0 <= x)%R) -> (0 <= rsum l)%R.
Proof.
  induction l as [|x l IH]; intros H; cbn [rsum fold_right]; [lra|].
  assert (X := H x (or_introl eq_refl)). assert (Y := IH (fun y Hy => H y (or_intror Hy))). unfold rsum in Y. lra.
Qed.
Lemma rsum_le l M : (forall x, In x l -> (x <= M)%R) -> (rsum l <= INR (length l) * M)%R.
Proof.
  induction l as [|x l IH]; intros H; [cbn; lra|]. change (length (x :: l)) with (S (length l)). rewrite S_INR. cbn [rsum fold_right].
  assert (X := H x (or_introl eq_refl)). assert (Y := IH (fun y Hy => H y (or_intror Hy))). unfold rsum in Y. lra.
Qed.
Lemma rsum_ge l M : (forall x, In x l -> (M <= x)%R) -> (INR (length l) * M <= rsum l)%R.
Proof.
  induction l as [|x l IH]; intros H; [cbn; lra|]. change (length (x :: l)) with (S (length l)). rewrite S_INR. cbn [rsum fold_right].
  assert (X := H x (or_introl eq_refl)). assert (Y := IH (fun y Hy => H y (or_intror Hy))). unfold rsum in Y. lra.
Qed.
Lemma rsum_member l x : (forall y, In y l -> (0 <= y)%R) -> In x l -> (x <= rsum l)%R.
Proof.
  induction l as [|a l IH]; intros H I; [destruct I|]. cbn [rsum fold_right].
  assert (X := H a (or_introl eq_refl)). assert (N := rsum_nonneg (fun y Hy => H y (or_intror Hy))). unfold rsum in N.
  destruct I as [->|I]; [lra|]. assert (Y := IH (fun y Hy => H y (or_intror Hy)) I). unfold rsum in Y. lra.
Qed.
Lemma rsum_filter {A} (g : A -> R) (keep : A -> bool) l : (forall x, In x l -> (0 <= g x)%R) ->
  (rsum (map g (filter keep l)) <= rsum (map g l))%R.
Proof.
  induction l as [|x l IH]; intros H; cbn [filter map]; [lra|].
  assert (X := H x (or_introl eq_refl)). assert (Y := IH (fun y Hy => H y (or_intror Hy))).
  destruct (keep x); cbn [map rsum fold_right] in *; unfold rsum in *; lra.
Qed.

Lemma bern_up n : (1 - INR n * u <= (1 - u) ^ n)%R.
Proof.
  assert (P := u_pos). assert (Q := u_small). induction n as [|n IH]; [simpl; lra|]. rewrite S_INR. cbn [pow].
  assert (X : ((1 - u) ^ n <= 1)%R) by (assert (Y := pow_incr (1 - u) 1 n ltac:(lra)); now rewrite pow1 in Y). nra.
Qed.

(** [n] roundings change a number by no more than [n u], relatively, either way *)
Lemma within_linear n s x : (0 <= s)%R -> (INR n * u < 1)%R -> within n s x ->
  ((1 - INR n * u) * s <= x /\ (1 - INR n * u) * x <= s)%R.
Proof.
  intros Hs Hn [A B]. assert (P := u_pos). assert (Q := u_small). assert (Y := bern_up n).
  assert (Q2 : ((1 - u) ^ n * (1 + u) ^ n <= 1)%R).
  { rewrite <- Rpow_mult_distr. assert (Z := pow_incr ((1 - u) * (1 + u)) 1 n ltac:(nra)). now rewrite pow1 in Z. }
  assert (P1 : (0 < (1 + u) ^ n)%R) by (apply pow_lt; lra). assert (P2 : (0 < (1 - u) ^ n)%R) by (apply pow_lt; lra).
  assert (X0 : (0 <= x)%R) by nra.
  split; [nra|]. apply Rle_trans with ((1 - u) ^ n * x)%R; [nra|].
  apply Rle_trans with ((1 - u) ^ n * ((1 + u) ^ n * s))%R; [nra|]. nra.
Qed.

Lemma within_max h s t x y e : (0 <= s)%R -> (0 <= t)%R -> (Rabs e <= u)%R ->
  within h s x -> within h t y -> within (S h) (s + t) ((x + y) * (1 + e)).
Proof.
  intros Hs Ht He [A1 A2] [B1 B2]. assert (P := u_pos). assert (Q := u_small). apply Rabs_le_inv in He.
  assert (L : (0 <= (1 - u) ^ h)%R) by (apply pow_le; lra).
  assert (X : (0 <= x + y)%R) by nra.
  split; cbn [pow].
  - apply Rle_trans with ((1 - u) * (x + y))%R; [|nra]. rewrite Rmult_assoc. apply Rmult_le_compat_l; lra.
  - apply Rle_trans with ((1 + u) * (x + y))%R; [nra|]. rewrite (Rmult_assoc (1 + u)). apply Rmult_le_compat_l; lra.
Qed.

Notation sum64 := (summed f_add f_zero).
Notation total_of l := (rsum (map val l)).

Section Tree.
  Lemma zero_nonneg : nonneg f_zero.
  Proof. split; [reflexivity|cbn; lia]. Qed.

  Lemma sum_nonneg h l x : sum64 h l x -> (forall y, In y l -> nonneg y) -> nonneg x.
  Proof.
    induction 1 as [|h x|h l1 l2 l x y H1 IH1 H2 IH2 P]; intros HN; [apply zero_nonneg|apply HN; now left|].
    apply (g_ok b64_growing); [apply IH1|apply IH2]; intros z Hz; apply HN; eapply Permutation_in; [exact P| |exact P|]; apply in_app_iff; auto.
  Qed.

  Lemma sum_part h l x : sum64 h l x -> (forall y, In y l -> nonneg y) -> forall y, In y l -> f_ge x y = true.
  Proof.
    induction 1 as [|h x|h l1 l2 l x y H1 IH1 H2 IH2 P]; intros HN z Hz; [destruct Hz| |].
    - destruct Hz as [<-|[]]. destruct (HN x (or_introl eq_refl)) as [N _]. unfold f_ge. rewrite le_rank by auto. apply Z.leb_refl.
    - assert (N1 : forall y, In y l1 -> nonneg y) by (intros w Hw; apply HN; eapply Permutation_in; [exact P|]; apply in_app_iff; auto).
      assert (N2 : forall y, In y l2 -> nonneg y) by (intros w Hw; apply HN; eapply Permutation_in; [exact P|]; apply in_app_iff; auto).
      assert (Nx := sum_nonneg H1 N1). assert (Ny := sum_nonneg H2 N2).
      assert (TR : forall a b c, nonneg a -> nonneg b -> nonneg c -> f_ge a b = true -> f_ge b c = true -> f_ge a c = true).
      { intros a b c [Na _] [Nb _] [Nc _]. unfold f_ge. rewrite !le_rank by auto. rewrite !Z.leb_le. lia. }
      apply Permutation_sym in P. apply (Permutation_in _ P) in Hz. apply in_app_iff in Hz. destruct Hz as [Hz|Hz].
      + apply (TR _ x); auto; [apply (g_ok b64_growing); auto|apply (g_left b64_growing); auto].
      + apply (TR _ y); auto; [apply (g_ok b64_growing); auto|apply (g_right b64_growing); auto].
  Qed.

  (** a sum of moderate terms is finite and close to the exact sum *)
  Lemma sum_close h l x : sum64 h l x -> (forall y, In y l -> nonneg y /\ finite y) -> h <= 2000 ->
    (total_of l <= bpow radix2 1020)%R -> finite x /\ within h (total_of l) (val x).
  Proof.
    induction 1 as [h|h x|h l1 l2 l x y H1 IH1 H2 IH2 P]; intros HN Hh HB.
    - split; [reflexivity|]. unfold within. cbn. lra.
    - destruct (HN x (or_introl eq_refl)) as [N F]. split; auto. assert (V := nonneg_val N F). cbn [map rsum fold_right]. rewrite Rplus_0_r.
      apply within_mono with (j := 0); [auto|lia|]. unfold within. cbn. lra.
    - assert (N1 : forall y, In y l1 -> nonneg y /\ finite y) by (intros w Hw; apply HN; eapply Permutation_in; [exact P|]; apply in_app_iff; auto).
      assert (N2 : forall y, In y l2 -> nonneg y /\ finite y) by (intros w Hw; apply HN; eapply Permutation_in; [exact P|]; apply in_app_iff; auto).
      assert (E : total_of l = (total_of l1 + total_of l2)%R).
      { rewrite <- rsum_app, <- map_app. apply rsum_perm. apply Permutation_map. now apply Permutation_sym. }
      assert (S1 : (0 <= total_of l1)%R).
      { apply rsum_nonneg. intros v Hv. apply in_map_iff in Hv. destruct Hv as (w & <- & Hw). destruct (N1 w Hw). now apply nonneg_val. }
      assert (S2 : (0 <= total_of l2)%R).
      { apply rsum_nonneg. intros v Hv. apply in_map_iff in Hv. destruct Hv as (w & <- & Hw). destruct (N2 w Hw). now apply nonneg_val. }
      rewrite E in *. destruct IH1 as [F1 W1]; [auto|lia|lra|]. destruct IH2 as [F2 W2]; [auto|lia|lra|].
      assert (Nx : nonneg x) by (eapply sum_nonneg; [exact H1|intros w Hw; now apply N1]).
      assert (Ny : nonneg y) by (eapply sum_nonneg; [exact H2|intros w Hw; now apply N2]).
      destruct (rnd_plus x y) as [e [He Ee]].
      assert (W : within (S h) (total_of l1 + total_of l2) (rnd (val x + val y))) by (rewrite Ee; now apply within_max).
      destruct (add_cases F1 F2 (nonneg_val Ny F2)) as [[A [B _]]|[_ B]]; [split; [auto|rewrite B; exact W]|]. exfalso.
      assert (U := u_pos). assert (US : (u * 9000000000000000 <= 1)%R) by (unfold u; simpl; lra).
      assert (HI : (INR (S h) <= 2000)%R) by (replace 2000%R with (INR 2000) by (rewrite INR_IZR_INZ; reflexivity); now apply le_INR).
      assert (SM : (INR (S h) * u <= 0.5)%R) by (assert (0 <= INR (S h))%R by apply pos_INR; nra).
      assert (X := @within_linear (S h) _ _ (Rplus_le_le_0_compat _ _ S1 S2) ltac:(lra) W). destruct X as [_ X].
      assert (BB : (bpow radix2 1024 = bpow radix2 1020 * 16)%R).
      { replace 1024%Z with (1020 + 4)%Z by lia. rewrite bpow_plus. f_equal. }
      assert (P0 := bpow_gt_0 radix2 1020).
      assert (0 <= val x + val y)%R by (assert (V1 := nonneg_val Nx F1); assert (V2 := nonneg_val Ny F2); lra).
      nra.
  Qed.
End Tree.

Lemma total_summed l : sum64 (S (length l)) l (f_total l).
Proof. apply np_sum_adds_all. Qed.

(** fewer than eight terms: from left to right *)
Lemma total_few l : length l <= 7 -> (forall y, In y l -> Bsign y = false) -> f_total l = fold_left f_add l f_zero.
Proof.
  intros L HN. unfold f_total. rewrite np_sum_few by auto.
  assert (N : Bsign (fold_left f_add l f_zero) = false).
  { clear L. assert (Z : Bsign f_zero = false) by reflexivity. revert Z. generalize f_zero. induction l as [|a l IH]; intros w Hw; cbn [fold_left]; auto.
    apply IH; [intros y Hy; apply HN; now right|]. apply plus_sign; auto. apply HN. now left. }
  destruct (fold_left f_add l f_zero) as [[]|[]| |[] m e B]; try discriminate; reflexivity.
Qed.
