(** The arithmetic of float64 satisfies what C98 assumes ([laws]). *)
From Coq Require Import ZArith Reals Lra Lia.
From Flocq Require Import Core.Core IEEE754.BinarySingleNaN.
From Verif Require Import Py MFlow MDir MObj MStream MSobj MWorld LWorld3 PropsWorld PropsWorld3 LFloat LSum LDir4.
Set Implicit Arguments.
Unset Strict Implicit.
Local Notation length := List.length.

(** 0.01 = 5764607523034235 * 2^-59 *)
Definition f_percent : b64 := @B754_finite 53 1024 false 5764607523034235 (-59) eq_refl.
(** NaN quotients (0/0) are [None], as in MStream.v *)
Definition f_quot (x y : b64) : option b64 := let q := f_div x y in if nan q then None else Some q.
Definition f_abs : b64 -> b64 := @Babs 53 1024.
(** np.sum, with NumPy's order of the additions *)
Definition f_total : list b64 -> b64 := np_sum f_add f_zero.
Definition f_le0 (x : b64) : bool := f_le x f_zero.
Definition f_keep (x : b64) : bool := f_lt f_percent x.

Lemma plus_sign x y : Bsign x = false -> Bsign y = false -> Bsign (f_add x y) = false.
Proof.
  intros Sx Sy. destruct (fin x) eqn:Fx, (fin y) eqn:Fy.
  2:{ destruct x as [[]|[]| |[] ? ? ?], y as [[]|[]| |[] ? ? ?]; try discriminate; reflexivity. }
  2:{ destruct x as [[]|[]| |[] ? ? ?], y as [[]|[]| |[] ? ? ?]; try discriminate; reflexivity. }
  2:{ destruct x as [[]|[]| |[] ? ? ?], y as [[]|[]| |[] ? ? ?]; try discriminate; reflexivity. }
  assert (Px : (0 <= val x)%R) by (destruct (Rle_or_lt 0 (val x)) as [|G]; auto; apply sign_neg in G; auto; congruence).
  assert (Py : (0 <= val y)%R) by (destruct (Rle_or_lt 0 (val y)) as [|G]; auto; apply sign_neg in G; auto; congruence).
  assert (C := Bplus_correct _ _ _ _ mode_NE x y Fx Fy). fold (f_add x y) in C.
  destruct (Rlt_bool _ _).
  - destruct C as [_ [_ ->]]. rewrite Sx, Sy. destruct (Rcompare_spec (val x + val y) 0); auto. lra.
  - destruct C as [C _]. change (binary_overflow 53 1024 mode_NE (Bsign x)) with (SpecFloat.S754_infinity (Bsign x)) in C.
    apply of_inf in C. rewrite C. exact Sx.
Qed.

Lemma plus_zero x : Bsign x = false -> f_add x f_zero = x.
Proof. destruct x as [[]|[]| |[] m e B]; intros; try discriminate; reflexivity. Qed.

(** the quotient of a positive number by a positive distance is positive, or underflows to zero *)
Lemma div_up x r : f_lt f_zero x = true -> finite r -> (0 < val r)%R ->
  f_le0 (f_div x r) = false \/ f_div x r = f_zero.
Proof.
  intros Hx Fr Pr.
  assert (Nx : not_nan x) by (destruct x; try discriminate; reflexivity).
  assert (Z : val r <> 0%R) by lra. assert (N := div_ok Nx Fr Pr). assert (SR := sign_pos Fr Pr).
  assert (C := Bdiv_correct _ _ _ _ mode_NE x r Z). fold (f_div x r) in C.
  destruct (nan_cases Nx) as [Fx|[s ->]].
  - assert (Px : (0 < val x)%R) by (apply lt_val in Hx; auto; reflexivity). assert (SX := sign_pos Fx Px).
    rewrite SX, SR in C. simpl xorb in C.
    destruct (Rlt_bool_spec (Rabs (rnd (val x / val r))) (bpow radix2 1024)) as [L|L].
    + destruct C as [V [F SS]]. specialize (SS N). assert (Fq : finite (f_div x r)) by (unfold finite; rewrite F; exact Fx).
      assert (Q : (0 <= val x / val r)%R). { apply Rmult_le_pos; [lra|]. left. now apply Rinv_0_lt_compat. }
      assert (X : (rnd 0 <= rnd (val x / val r))%R) by (apply rnd_le; lra). rewrite rnd_zero, <- V in X.
      destruct (Rle_lt_or_eq_dec _ _ X) as [G|G].
      * left. unfold f_le0. rewrite le_rank; auto; [|reflexivity]. apply Z.leb_gt. apply (@val_rank_lt f_zero); auto; reflexivity.
      * right. destruct (f_div x r) as [sg|sg| |sg m e B] eqn:Eq; try discriminate.
        -- cbn [Bsign] in SS. now subst sg.
        -- exfalso. cbn [Bsign] in SS. subst sg. cbn [B2R] in G.
           assert (P := F2R_gt_0 radix2 (Float radix2 (Zpos m) e) ltac:(reflexivity)). cbn [SpecFloat.cond_Zopp] in G. lra.
    + change (binary_overflow 53 1024 mode_NE false) with (SpecFloat.S754_infinity false) in C. apply of_inf in C.
      rewrite C. left. reflexivity.
  - left. destruct s; [discriminate|]. destruct r as [|?| |sr m e B]; try discriminate; [cbn in Pr; lra|].
    cbn [Bsign] in SR. subst sr. reflexivity.
Qed.

Lemma drops_fold xs ys : drops f_zero xs ys -> forall t, Bsign t = false ->
  fold_left f_add (map f_abs xs) t = fold_left f_add (map f_abs ys) t.
Proof.
  induction 1 as [|x xs ys Hl IH|xs ys Hl IH]; intros t Ht; cbn [map fold_left]; auto.
  - apply IH. apply plus_sign; auto. destruct x; reflexivity.
  - change (f_abs f_zero) with f_zero. rewrite plus_zero by auto. now apply IH.
Qed.
Lemma drops_length {T} (z : T) xs ys : drops z xs ys -> (length ys <= length xs)%nat.
Proof. induction 1; cbn [length]; lia. Qed.

Lemma zero_share t : match f_quot f_zero t with Some f => f_keep f = false | None => True end.
Proof. unfold f_quot. destruct t as [[]|[]| |[] m e B]; simpl; auto; reflexivity. Qed.

(** everything but [l_kept], whatever the sum *)
Lemma b64_laws (dist : nat -> nat -> b64) (nb0 : list (list nat)) (ok : list b64 -> Prop) :
  (forall c n, In n (nth c nb0 []) -> finite (dist c n) /\ (0 < val (dist c n))%R) ->
  (forall xs ys, ok ys -> drops f_zero xs ys -> (length xs <= widest nb0)%nat ->
     forall y, In y ys -> kept f_abs f_quot f_keep y (f_total (map f_abs xs)) = kept f_abs f_quot f_keep y (f_total (map f_abs ys))) ->
  laws f_div f_lt f_zero f_big f_abs f_total f_quot f_le0 f_keep dist nb0 ok.
Proof.
  intros Hd Hk. constructor.
  - reflexivity.
  - exact Hk.
  - exact zero_share.
  - reflexivity.
  - intros c n I. destruct (Hd c n I) as [F P]. destruct (dist c n) as [|?| |[] m e B]; try discriminate; [cbn in P; lra| |reflexivity].
    exfalso. assert (X := F2R_lt_0 radix2 (Float radix2 (Zneg m) e) ltac:(reflexivity)). cbn [B2R SpecFloat.cond_Zopp Z.opp] in P. lra.
  - intros c n x I Hx. destruct (Hd c n I) as [F P]. now apply div_up.
Qed.

(** with at most seven neighbours the terms are added from left to right, where a zero changes
    nothing *)
Theorem b64_few_laws (dist : nat -> nat -> b64) (nb0 : list (list nat)) :
  (forall c n, In n (nth c nb0 []) -> finite (dist c n) /\ (0 < val (dist c n))%R) ->
  (forall l, In l nb0 -> (length l <= 7)%nat) ->
  laws f_div f_lt f_zero f_big f_abs f_total f_quot f_le0 f_keep dist nb0 (fun _ => True).
Proof.
  intros Hd H7. apply b64_laws; [exact Hd|]. intros xs ys _ D L y _.
  assert (W : (widest nb0 <= 7)%nat) by now apply widest_le. assert (LD := drops_length D).
  unfold f_total. rewrite !np_sum_few by (rewrite map_length; lia). now rewrite (drops_fold D).
Qed.

(** C98 for doubles, on a grid whose neighbours are a finite positive distance apart and whose cells
    have at most seven neighbours each *)
Section World.
  Context {W : Type}.
  Variables (wadd : W -> W -> W) (wzero : W) (fone : b64) (vge : Z + W -> Z + W -> bool) (fuel lim : nat) (ncol : Z).
  Variables (dist : nat -> nat -> b64) (areas : list W) (nb0 : list (list nat)) (thr0 : b64).
  Notation step := (@step b64 W f_sub f_div f_lt f_eq f_zero f_big wadd wzero fone f_abs f_total f_quot f_le0 f_keep vge fuel lim ncol
                         dist areas nb0 thr0).
  Notation run := (@run b64 W f_sub f_div f_lt f_eq f_zero f_big wadd wzero fone f_abs f_total f_quot f_le0 f_keep vge fuel lim ncol
                         dist areas nb0 thr0).
  Notation reply := (@reply b64 W f_sub f_div f_lt f_eq f_zero f_big wadd wzero fone f_abs f_total f_quot f_le0 f_keep vge fuel lim ncol
                         dist areas nb0 thr0).
  Notation reachable := (@reachable b64 W f_sub f_div f_lt f_eq f_zero f_big wadd wzero fone f_abs f_total f_quot f_le0 f_keep vge fuel lim ncol
                         dist areas nb0 thr0).
  Notation stream_history := (@stream_history b64 W f_sub f_div f_lt f_eq f_zero f_big wadd wzero fone f_abs f_total f_quot f_le0 f_keep vge
                         fuel lim ncol dist areas nb0 thr0).

  Theorem C98_binary64_few w k i w1 x rd d ra a rz dem cs ps c p thr :
    (forall c n, In n (nth c nb0 []) -> finite (dist c n) /\ (0 < val (dist c n))%R) ->
    (forall l, In l nb0 -> (length l <= 7)%nat) ->
    reachable w -> step w (NewStreams k i) = (w1, Ok x) ->
    reply w (FlowCall i WFlowDirectionArray) = Ok (ARef rd) -> shows w rd (CInts d) ->
    reply w (FlowCall i WFlowAccumulationArray) = Ok (ARef ra) -> shows w ra (CAcc a) ->
    reply w (FlowCall i WDem) = Ok (ARef rz) -> shows w rz (CElevs dem) ->
    length d = length dem ->
    let j := length (w_streams w) in
    stream_history j w1 cs ps -> (forall e, ~ In (Edit rz e) cs) ->
    let w2 := run w1 cs in
    resolves (w_heap w2) c p ->
    sagrees (w_heap (fst (step w2 (StreamCall j c)))) (reply w2 (StreamCall j c))
        (sreply vge fone f_abs f_total f_quot f_le0 f_keep lim fuel ncol d (fvals a)
           (table f_sub f_div f_lt f_zero f_big dist nb0 dem thr) (table_nb nb0 dem) k ps p).
  Proof. intros Hd H7. apply (C98_cascades_ignore_the_threshold thr (b64_few_laws Hd H7)). intros c0 ns ys _ _. exact I. Qed.
End World.
