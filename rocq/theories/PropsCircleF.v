(** C135 for IEEE 754 binary64. *)
From Coq Require Import Reals Lra.
From Flocq Require Import Core.Core IEEE754.BinarySingleNaN.
From Verif Require Import Py Spec MDir MStream LFloat PropsWorld3 PropsWorldF LCircle PropsCircle.
Set Implicit Arguments.
Unset Strict Implicit.
Local Open Scope nat_scope.
Local Open Scope list_scope.
Local Notation length := List.length.

Theorem binary64_down_laws dist nb :
  (forall c n, adjacent nb c n -> finite (dist c n) /\ (0 < val (dist c n))%R) ->
  down_laws f_sub f_div f_lt f_zero f_big f_abs f_quot f_le0 f_keep dist nb finite.
Proof.
  intros HD. constructor.
  - intros x Fx. destruct (f_lt x x) eqn:E; auto. apply lt_val in E; auto. lra.
  - intros x y z Fx Fy Fz H1 H2. apply lt_val in H1, H2; auto. apply lt_val; auto. lra.
  - reflexivity.
  - intros c n zn zc thr t q AD Fn Fc drop H0 Ht Hk. destruct (HD c n AD) as [Fd Pd].
    assert (NS := sub_ok Fn Fc).
    assert (ND : not_nan drop) by (unfold drop; destruct (f_lt (f_sub zn zc) thr && f_lt f_zero (f_sub zn zc)); [reflexivity|exact NS]).
    assert (NX := div_ok ND Fd Pd). set (x := f_div drop (dist c n)) in *.
    assert (LX : f_lt x f_zero = true).
    { destruct (f_lt x f_zero) eqn:E; auto. exfalso.
      assert (Z : f_abs x = f_zero).
      { unfold f_le0, f_le, f_lt in *. destruct x as [[]|[]| |[] m e B]; try discriminate; reflexivity. }
      rewrite Z in Ht. assert (X := zero_share t).
      rewrite Ht in X. congruence. }
    assert (LD : f_lt drop f_zero = true) by (eapply div_neg; eauto).
    unfold drop in LD. destruct (f_lt (f_sub zn zc) thr && f_lt f_zero (f_sub zn zc)); [discriminate|]. now apply sub_neg.
Qed.

(** C135 for IEEE doubles *)
Theorem C135_binary64 fone fdir strm basin dem nb thr dist out :
  valid_fdir fdir -> acyclic fdir -> length dem = length fdir -> basin_fits basin (length fdir) ->
  (forall c n, adjacent nb c n -> n < length fdir /\ finite (dist c n) /\ (0 < val (dist c n))%R) ->
  (forall c z, nth_error dem c = Some (Some z) -> finite z) ->
  runs_on fdir strm basin ->
  cascades_many fone f_abs f_total f_quot f_le0 f_keep fdir strm basin
    (table f_sub f_div f_lt f_zero f_big dist nb dem thr) (table_nb nb dem) = Ok out ->
  no_circle out.
Proof.
  intros V A L HB HD FI RUN H.
  assert (DL : down_laws f_sub f_div f_lt f_zero f_big f_abs f_quot f_le0 f_keep dist nb finite).
  { apply binary64_down_laws. intros c n AD. now apply HD in AD. }
  refine (C135_no_circles DL V L HB _ FI A RUN H). intros c n AD. now apply HD in AD.
Qed.

