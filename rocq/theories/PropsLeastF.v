(** C116 for IEEE binary64 elevations *)
From Coq Require Import String Permutation Reals Lra.
From Verif Require Import Py Spec MHeap LHeap MFill LFill LFill3 LFloat PropsFloat PropsPerm PropsLeast.
Set Implicit Arguments.
Unset Strict Implicit.
Local Open Scope nat_scope.
Local Open Scope list_scope.
Local Notation length := List.length.

Lemma drain_name : ~ flood_method "drain" None.
Proof. intros [X|[X|X]]; try discriminate. now destruct X. Qed.

(** below the flood level of 1e10 *)
Notation belowF dem := (Forall (fun x => f_le x (e_big Felev) = true) dem).

Theorem C116_drain_is_least_binary64 : forall iverts nb (dem : list b64) eps,
  Forall not_nan dem -> finite eps -> (0 <= val eps)%R ->
  grid_of iverts nb (length dem) -> neighbours_in nb (length dem) -> belowF dem ->
  exists f0 out, (forall fuel, f0 <= fuel -> fill_sinks Felev fuel iverts nb dem eps None "drain" = Ok out) /\
    Forall not_nan out /\ belowF out /\ Forall2 (fun x y => f_le x y = true) dem out /\
    (forall n, boundary_cell iverts n -> nth_error out n = nth_error dem n) /\
    (forall n y, nth_error out n = Some y ->
       drains_by Felev eps iverts nb out n \/ f_eq y (e_big Felev) = true) /\
    (forall u, Forall not_nan u -> Forall2 (fun x y => f_le x y = true) dem u ->
       forall n x y, drains_by Felev eps iverts nb u n -> nth_error out n = Some x -> nth_error u n = Some y ->
         f_le x y = true).
Proof.
  intros iverts nb dem eps ND Fe He G NI B.
  exact (C116_drain_is_least drain_name (b64_laws Fe He) ND G NI B).
Qed.

Theorem C116_drain_monotone_binary64 : forall iverts nb (dem1 dem2 : list b64) eps,
  Forall not_nan dem1 -> Forall not_nan dem2 -> finite eps -> (0 <= val eps)%R ->
  grid_of iverts nb (length dem1) -> neighbours_in nb (length dem1) -> belowF dem1 -> belowF dem2 ->
  Forall2 (fun x y => f_le x y = true) dem1 dem2 ->
  exists f0 out1 out2,
    (forall fuel, f0 <= fuel -> fill_sinks Felev fuel iverts nb dem1 eps None "drain" = Ok out1) /\
    (forall fuel, f0 <= fuel -> fill_sinks Felev fuel iverts nb dem2 eps None "drain" = Ok out2) /\
    Forall2 (fun x y => f_le x y = true) out1 out2.
Proof.
  intros iverts nb dem1 dem2 eps N1 N2 Fe He G NI B1 B2 H.
  exact (C116_drain_monotone drain_name (b64_laws Fe He) N1 N2 G NI B1 B2 H).
Qed.

Theorem C116_drain_twice_binary64 : forall iverts nb (dem : list b64) eps,
  Forall not_nan dem -> finite eps -> (0 <= val eps)%R ->
  grid_of iverts nb (length dem) -> neighbours_in nb (length dem) -> belowF dem ->
  exists f0 out out',
    (forall fuel, f0 <= fuel -> fill_sinks Felev fuel iverts nb dem eps None "drain" = Ok out) /\
    (forall fuel, f0 <= fuel -> fill_sinks Felev fuel iverts nb out eps None "drain" = Ok out') /\
    Forall2 (fun x y => f_eq x y = true) out out'.
Proof.
  intros iverts nb dem eps ND Fe He G NI B.
  exact (C116_drain_twice drain_name (b64_laws Fe He) ND G NI B).
Qed.
