(** Sums in some order: NumPy's [np_sum] (MStream.v) adds every term exactly once. *)
From Coq Require Import Permutation.
From Verif Require Import Py MStream.
Set Implicit Arguments.
Unset Strict Implicit.
Local Open Scope nat_scope.
Local Open Scope list_scope.

Section Sums.
  Context {F : Type} (fadd : F -> F -> F) (fzero : F).

  (** [summed h l x]: [x] is the sum of the terms [l], added in some order and grouping, with no
      more than [h] additions on the way of a term to the result *)
  Inductive summed : nat -> list F -> F -> Prop :=
  | sm_zero h : summed h [] fzero
  | sm_one h x : summed h [x] x
  | sm_add h l1 l2 l x y : summed h l1 x -> summed h l2 y -> Permutation (l1 ++ l2) l -> summed (S h) l (fadd x y).

  Lemma summed_up h k l x : summed h l x -> h <= k -> summed k l x.
  Proof.
    intros H. revert k. induction H as [| |h l1 l2 l x y H1 IH1 H2 IH2 P]; intros k L; [constructor|constructor|].
    destruct k as [|k]; [lia|]. eapply sm_add; [apply IH1; lia|apply IH2; lia|exact P].
  Qed.

  Lemma summed_perm h l l' x : summed h l x -> Permutation l l' -> summed h l' x.
  Proof.
    intros H P. destruct H.
    - apply Permutation_nil in P. subst. constructor.
    - apply Permutation_length_1_inv in P. subst. constructor.
    - eapply sm_add; [eassumption|eassumption|]. eapply Permutation_trans; eassumption.
  Qed.

  Lemma summed_fold l : forall h l1 x, summed h l1 x -> summed (h + length l) (l1 ++ l) (fold_left fadd l x).
  Proof.
    induction l as [|a l IH]; intros h l1 x H; cbn [fold_left length].
    - rewrite app_nil_r, Nat.add_0_r. exact H.
    - replace (h + S (length l)) with (S h + length l) by lia.
      change (a :: l) with ([a] ++ l). rewrite app_assoc. apply IH.
      eapply sm_add; [exact H|apply sm_one|apply Permutation_refl].
  Qed.

  Lemma summed_pair h l1 l2 x y : summed h l1 x -> summed h l2 y -> summed (S h) (l1 ++ l2) (fadd x y).
  Proof. intros H1 H2. eapply sm_add; [exact H1|exact H2|apply Permutation_refl]. Qed.

  Lemma summed_snoc h l a x : summed h l x -> summed (S h) (l ++ [a]) (fadd x a).
  Proof. intros H. apply summed_pair; [exact H|constructor]. Qed.

  Lemma summed_lanes n : forall l h l0 l1 l2 l3 l4 l5 l6 l7 r0 r1 r2 r3 r4 r5 r6 r7, length l <= n ->
    summed h l0 r0 -> summed h l1 r1 -> summed h l2 r2 -> summed h l3 r3 ->
    summed h l4 r4 -> summed h l5 r5 -> summed h l6 r6 -> summed h l7 r7 ->
    summed (h + length l + 3) (((l0 ++ l1) ++ (l2 ++ l3)) ++ ((l4 ++ l5) ++ (l6 ++ l7)) ++ l)
           (lanes fadd r0 r1 r2 r3 r4 r5 r6 r7 l).
  Proof.
    induction n as [|n IH]; intros l h l0 l1 l2 l3 l4 l5 l6 l7 r0 r1 r2 r3 r4 r5 r6 r7 L H0 H1 H2 H3 H4 H5 H6 H7;
    assert (REST : summed (h + length l + 3) (((l0 ++ l1) ++ (l2 ++ l3)) ++ ((l4 ++ l5) ++ (l6 ++ l7)) ++ l)
       (fold_left fadd l (fadd (fadd (fadd r0 r1) (fadd r2 r3)) (fadd (fadd r4 r5) (fadd r6 r7)))))
      by (replace (h + length l + 3) with (S (S (S h)) + length l) by lia; rewrite app_assoc; apply summed_fold;
          repeat apply summed_pair; assumption).
    { destruct l; [exact REST|cbn in L; lia]. }
    destruct l as [|a0 [|a1 [|a2 [|a3 [|a4 [|a5 [|a6 [|a7 l]]]]]]]]; try exact REST. clear REST. cbn [lanes].
    cbn [length] in *.
    eapply summed_perm.
    - eapply summed_up; [apply (IH l (S h) (l0 ++ [a0]) (l1 ++ [a1]) (l2 ++ [a2]) (l3 ++ [a3]) (l4 ++ [a4]) (l5 ++ [a5]) (l6 ++ [a6]) (l7 ++ [a7]));
        [lia|..]; apply summed_snoc; assumption|lia].
    - change (a0 :: a1 :: a2 :: a3 :: a4 :: a5 :: a6 :: a7 :: l) with ([a0] ++ [a1] ++ [a2] ++ [a3] ++ [a4] ++ [a5] ++ [a6] ++ [a7] ++ l).
      rewrite <- !app_assoc. apply Permutation_app_head.
      assert (PA : forall A X B C D : list F, Permutation ((A ++ X) ++ B) D -> Permutation (A ++ X ++ C ++ B) (C ++ D)).
      { intros A X B C D P. rewrite !app_assoc. eapply Permutation_trans; [apply Permutation_app_tail, Permutation_app_comm|].
        rewrite <- app_assoc. apply Permutation_app_head. exact P. }
      apply (PA [] [a0] _ l1), PA, PA, PA, PA, PA, PA. cbn [app]. apply Permutation_refl.
  Qed.

  Lemma summed_block l : summed (length l) l (block_sum fadd fzero l).
  Proof.
    unfold block_sum.
    assert (SEQ : summed (length l) l (fold_left fadd l fzero)).
    { apply (@summed_fold l 0 [] fzero). constructor. }
    destruct l as [|a0 [|a1 [|a2 [|a3 [|a4 [|a5 [|a6 [|a7 l]]]]]]]]; try exact SEQ. clear SEQ. cbn [length].
    apply summed_up with (h := 0 + length l + 3); [|lia].
    change (a0 :: a1 :: a2 :: a3 :: a4 :: a5 :: a6 :: a7 :: l) with ((([a0] ++ [a1]) ++ [a2] ++ [a3]) ++ (([a4] ++ [a5]) ++ [a6] ++ [a7]) ++ l).
    apply (@summed_lanes (length l)); [lia|constructor..].
  Qed.

  Lemma summed_pairwise fuel : forall l, summed (length l) l (pairwise_sum fadd fzero fuel l).
  Proof.
    induction fuel as [|fuel IH]; intros l; cbn [pairwise_sum]; [apply summed_block|].
    destruct (Nat.leb_spec (length l) 128) as [L|L]; [apply summed_block|].
    set (h := length l / 2 - (length l / 2) mod 8).
    assert (H2 : length l / 2 <= length l / 1) by (apply Nat.div_le_compat_l; lia). rewrite Nat.div_1_r in H2.
    assert (H3 : 64 <= length l / 2) by (change 64 with (128 / 2); apply Nat.div_le_mono; lia).
    assert (H4 : length l / 2 < length l) by (apply Nat.div_lt; lia).
    assert (H5 := Nat.mod_upper_bound (length l / 2) 8 ltac:(lia)).
    assert (Hh : 1 <= h < length l) by lia. clearbody h.
    eapply summed_up with (h := S (Nat.max h (length l - h))); [|lia].
    rewrite <- (firstn_skipn h l) at 2.
    apply summed_pair.
    - eapply summed_up; [apply IH|]. rewrite firstn_length. lia.
    - eapply summed_up; [apply IH|]. rewrite skipn_length. lia.
  Qed.

  (** the length of the list is enough fuel: more changes nothing *)
  Lemma pairwise_enough f1 : forall f2 l, length l <= f1 -> length l <= f2 ->
    pairwise_sum fadd fzero f1 l = pairwise_sum fadd fzero f2 l.
  Proof.
    induction f1 as [|f1 IH]; intros f2 l L1 L2.
    - destruct l; [|cbn in L1; lia]. destruct f2; reflexivity.
    - destruct f2 as [|f2]; [destruct l; [reflexivity|cbn in L2; lia]|]. cbn [pairwise_sum].
      destruct (Nat.leb_spec (length l) 128) as [L|L]; [reflexivity|].
      set (h := length l / 2 - (length l / 2) mod 8).
      assert (H3 : 64 <= length l / 2) by (change 64 with (128 / 2); apply Nat.div_le_mono; lia).
      assert (H4 : length l / 2 < length l) by (apply Nat.div_lt; lia).
      assert (H5 := Nat.mod_upper_bound (length l / 2) 8 ltac:(lia)).
      assert (Hh : 1 <= h < length l) by lia. clearbody h.
      f_equal; apply IH; rewrite ?firstn_length, ?skipn_length; lia.
  Qed.

  Theorem np_sum_adds_all l : summed (S (length l)) l (np_sum fadd fzero l).
  Proof. unfold np_sum. apply (@summed_pair (length l) [] l); [constructor|apply summed_pairwise]. Qed.

  (** fewer than eight terms: from left to right *)
  Lemma np_sum_few l : length l <= 7 -> np_sum fadd fzero l = fadd fzero (fold_left fadd l fzero).
  Proof.
    intros L. unfold np_sum. f_equal. destruct l as [|a0 [|a1 [|a2 [|a3 [|a4 [|a5 [|a6 [|a7 l]]]]]]]]; try reflexivity.
    cbn [length] in L. lia.
  Qed.
End Sums.

(** the order, on formal sums: eight running sums over rows of eight terms, combined in pairs; the
    remaining terms are added one by one; beyond 128 terms the list is halved *)
Module ExSum.
  Inductive t := Z0 | X (n : nat) | A (a b : t).
  Local Notation "a + b" := (A a b).
  Example few : np_sum A Z0 (map X (seq 0 3)) = Z0 + (((Z0 + X 0) + X 1) + X 2).
  Proof. reflexivity. Qed.
  Example eighteen : np_sum A Z0 (map X (seq 0 18)) =
    Z0 + (((((X 0 + X 8) + (X 1 + X 9)) + ((X 2 + X 10) + (X 3 + X 11))) +
           (((X 4 + X 12) + (X 5 + X 13)) + ((X 6 + X 14) + (X 7 + X 15)))) + X 16 + X 17).
  Proof. reflexivity. Qed.
  Example halves : np_sum A Z0 (map X (seq 0 150)) =
    Z0 + (block_sum A Z0 (map X (seq 0 72)) + block_sum A Z0 (map X (seq 72 78))).
  Proof. vm_compute. reflexivity. Qed.
End ExSum.
