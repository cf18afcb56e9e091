(** C86 for IEEE 754 binary64 accumulation values. *)
From Coq Require Import ZArith Reals Lra Lia.
From Flocq Require Import Core.Core IEEE754.BinarySingleNaN.
From Verif Require Import Py Spec MFlow MStream LGraph PropsStream PropsCtl PropsCtl2 PropsCtl4 LFloat PropsAccF.
Set Implicit Arguments.
Unset Strict Implicit.
Local Open Scope nat_scope.
Local Open Scope list_scope.
Local Notation length := List.length.

Definition f_nan (x : b64) : bool := BinarySingleNaN.is_nan x.
Definition f_gt (x y : b64) : bool := f_lt y x.
Definition f_five : b64 := @B754_finite 53 1024 false 5629499534213120 (-50) eq_refl.
Lemma five : val f_five = 5%R.
Proof. unfold f_five, B2R, F2R. cbn [Fnum Fexp cond_Zopp]. change (bpow radix2 (-50)) with (/ IZR (2 ^ 50))%R. change (2 ^ 50)%Z with 1125899906842624%Z. lra. Qed.

Lemma weak_b64 : weak_order f_nan f_gt.
Proof.
  unfold weak_order, f_gt. repeat split; intros; rewrite !lt_rank in * by assumption; rewrite ?Z.ltb_lt, ?Z.ltb_ge in *; lia.
Qed.

Lemma lowered_b64 : lowered (fun x => f_sub x f_five) f_nan f_ge.
Proof.
  split.
  - intros a Na. apply sub_le; [exact Na|reflexivity|rewrite five; lra].
  - intros a x Na. unfold f_ge. destruct a; try discriminate. destruct x; reflexivity.
Qed.

Theorem C86_binary64 :
  forall nb fdir (facc : list b64) fuel cells t,
    length facc = length fdir -> length fdir <= length nb -> neighbours_in nb (length fdir) ->
    (forall c, ~ adjacent nb c c) -> acyclic fdir ->
    length fdir <= fuel -> (forall c, In c cells -> c < length fdir) ->
    exists thr strm,
      control_thresholds (fun x => f_sub x f_five) f_nan f_gt fuel nb fdir facc cells t = Ok thr /\
      delineate_streams f_ge facc (PerCell thr) None = Ok strm /\ length strm = length fdir /\
      forall n a, nth_error facc n = Some a ->
        (nth_error strm n = Some 1%Z \/ nth_error strm n = Some 0%Z) /\
        (nth_error strm n = Some 1%Z <->
           f_nan a = false /\ ((exists c, In c cells /\ climbs f_nan f_gt nb fdir facc c n) \/ f_ge a t = true)).
Proof.
  intros nb fdir facc fuel cells t LA LB NB NS AC HF HC.
  exact (@C86_stems_and_large_streams b64 _ f_nan f_gt f_ge weak_b64 lowered_b64 nb fdir facc LA LB NB NS AC fuel cells t HF HC).
Qed.

(** C120 for binary64 accumulation values and thresholds *)
Theorem C120_binary64 :
  forall nb fdir (facc : list b64) fuel cells cells' t t' strm strm',
    length facc = length fdir -> length fdir <= length nb -> neighbours_in nb (length fdir) ->
    (forall c, ~ adjacent nb c c) -> acyclic fdir -> length fdir <= fuel ->
    (forall c, In c cells -> In c cells') -> (forall c, In c cells' -> c < length fdir) -> f_ge t t' = true ->
    streams_of f_nan f_gt f_ge nb fdir facc (fun x => f_sub x f_five) fuel cells t strm ->
    streams_of f_nan f_gt f_ge nb fdir facc (fun x => f_sub x f_five) fuel cells' t' strm' ->
    forall n, nth_error strm n = Some 1%Z -> nth_error strm' n = Some 1%Z.
Proof.
  intros nb fdir facc fuel cells cells' t t' strm strm' LA LB NB NS AC HF SUB HC G S S'.
  refine (@C120_more_control_points_only_add b64 f_nan f_gt f_ge weak_b64 nb fdir facc LA LB NB NS AC
    _ fuel cells cells' t t' strm strm' lowered_b64 HF SUB HC _ S S').
  intros a H. unfold f_ge in *.
  assert (NN : forall x y, f_le x y = true -> BinarySingleNaN.is_nan x = false /\ BinarySingleNaN.is_nan y = false).
  { intros x y Hx. destruct x, y; try discriminate; split; reflexivity. }
  destruct (NN _ _ H), (NN _ _ G). rewrite !le_rank in * by auto. rewrite Z.leb_le in *. lia.
Qed.
