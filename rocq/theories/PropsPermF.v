(** C110, C111 for IEEE binary64 elevations *)
From Coq Require Import String Permutation Reals Lra.
From Verif Require Import Py Spec MHeap LHeap MFill LFill LFill3 LFloat PropsFloat PropsPerm.
Set Implicit Arguments.
Unset Strict Implicit.
Local Open Scope nat_scope.
Local Open Scope list_scope.
Local Notation length := List.length.

Theorem C110_flood_binary64 : forall iverts nb1 nb2 (dem : list b64) eps method fuel,
  Forall not_nan dem -> finite eps -> (0 <= val eps)%R ->
  grid_of iverts nb1 (length dem) -> grid_of iverts nb2 (length dem) ->
  same_neighbours (length dem) nb1 nb2 -> flood_method method None -> length dem <= fuel ->
  exists out, fill_sinks Felev fuel iverts nb1 dem eps None method = Ok out /\
              fill_sinks Felev fuel iverts nb2 dem eps None method = Ok out.
Proof.
  intros iverts nb1 nb2 dem eps method fuel ND Fe He G1 G2 S F U.
  assert (LW : elev_laws Felev not_nan rank (step_eps Felev method eps)).
  { unfold step_eps. destruct (String.eqb _ _); apply b64_laws; auto; [reflexivity|cbn; lra]. }
  apply (C110_flood_any_neighbour_order LW ND G1 G2 S (mask := None) I F U). congruence.
Qed.

Theorem C111_monotone_binary64 : forall iverts nb (dem1 dem2 : list b64) eps fuel,
  Forall not_nan dem1 -> Forall not_nan dem2 -> grid_of iverts nb (length dem1) -> length dem1 <= fuel ->
  Forall2 (fun x y => f_le x y = true) dem1 dem2 ->
  exists out1 out2,
    fill_sinks Felev fuel iverts nb dem1 eps None "complete" = Ok out1 /\
    fill_sinks Felev fuel iverts nb dem2 eps None "complete" = Ok out2 /\
    Forall2 (fun x y => f_le x y = true) out1 out2.
Proof.
  intros iverts nb dem1 dem2 eps fuel N1 N2 G U H.
  assert (LW : elev_laws Felev not_nan rank (e_zero Felev)) by (apply b64_laws; [reflexivity|cbn; lra]).
  exact (C111_complete_monotone eps (method := "complete") eq_refl LW b64_null N1 N2 G U H).
Qed.
