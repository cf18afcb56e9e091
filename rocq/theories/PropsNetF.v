(** C119 for IEEE 754 binary64 areas *)
From Coq Require Import ZArith Reals Lra Lia.
From Flocq Require Import Core.Core IEEE754.BinarySingleNaN.
From Verif Require Import Py Spec MFlow LGraph MStream PropsAcc2 LFloat PropsAccF PropsNet.
Set Implicit Arguments.
Unset Strict Implicit.
Local Open Scope nat_scope.
Local Open Scope list_scope.
Local Notation length := List.length.

(** C119 for doubles, whatever the rounding and overflow *)
Theorem C119_network_of_a_basin_binary64 :
  forall fdir (area facc : list b64) fuel t pour basin strm,
    valid_fdir fdir -> acyclic fdir -> length area = length fdir -> S (length fdir) <= fuel -> pour < length fdir ->
    Forall area_ok area ->
    flow_accumulation_area f_add f_zero fuel fdir area = Ok facc ->
    get_watershed_boundary fuel fdir (Z.of_nat pour) None = Ok basin ->
    delineate_streams f_ge facc (Scalar t) (Some basin) = Ok strm ->
    basin_network f_zero f_ge fdir facc t pour strm.
Proof.
  intros fdir area facc fuel t pour basin strm V A La Hf Hp Ho E EB ES. rewrite Forall_forall in Ho.
  eapply (@C119_network_of_a_basin b64 f_add f_zero f_ge nonneg fdir area facc fuel t pour basin strm b64_growing); auto.
  - intros a Ha. apply area_plus_zero. auto.
  - intros a Ha. apply area_nonneg. auto.
  - intros a b [Na Ra] [Nb Rb] H1 H2. unfold f_ge in *. destruct (BinarySingleNaN.is_nan t) eqn:Nt.
    + destruct t; try discriminate.
    + rewrite le_rank in * by auto. apply Z.leb_le in H1, H2. apply Z.leb_le. lia.
Qed.
