(** C132-C134 for IEEE binary64, with the NaN of IEEE 754; C133 is refuted. *)
From Coq Require Import ZArith Reals Lra Lia String.
From Flocq Require Import Core.Core IEEE754.BinarySingleNaN.
From Verif Require Import Py Spec MFill Grids LFill2 LFill3 LFloat PropsNanFill.
Set Implicit Arguments.
Unset Strict Implicit.
Local Open Scope nat_scope.
Local Open Scope list_scope.
Local Notation length := List.length.

Definition f_nan : b64 := B754_nan.

Lemma f_nan_or (x : b64) : not_nan x \/ x = f_nan.
Proof. destruct x; (now left) || now right. Qed.
Lemma f_nan_iff (x : b64) : ~ not_nan x <-> x = f_nan.
Proof. split; [intros H; destruct (f_nan_or x); [contradiction|auto]|intros -> H; discriminate]. Qed.

Lemma b64_nan_laws (eps : b64) : nan_laws Felev not_nan eps.
Proof.
  constructor; cbn [Felev e_le e_lt e_add].
  - intros x. destruct (f_nan_or x) as [?| ->]; [now left|right; discriminate].
  - intros x y H. destruct (f_nan_or x) as [?| ->]; [|destruct y; discriminate].
    destruct (f_nan_or y) as [?| ->]; [auto|]. destruct x; discriminate.
  - intros x y H. destruct (f_nan_or x) as [?| ->]; [|destruct y; discriminate].
    destruct (f_nan_or y) as [?| ->]; [auto|]. destruct x; discriminate.
  - intros x H. apply f_nan_iff in H. subst x. apply f_nan_iff. unfold f_add, f_nan. destruct eps; reflexivity.
Qed.

(** C132 for doubles: any DEM, NaN and infinite cells included *)
Theorem C132_binary64 : forall iverts nb (dem : list b64) eps mask method fuel,
  finite eps -> (0 <= val eps)%R -> grid_of iverts nb (length dem) -> mask_fits mask (length dem) ->
  flood_method method mask -> length dem <= fuel ->
  exists out, fill_sinks Felev fuel iverts nb dem eps mask method = Ok out /\
    Forall2 (fun x y => (x = f_nan <-> y = f_nan) /\ (x <> f_nan -> f_le x y = true)) dem out /\
    (mask = None -> forall n, boundary_cell iverts n -> nth_error out n = nth_error dem n) /\
    (forall n y, reachable (link nb (length dem)) (source iverts mask) n -> nth_error out n = Some y -> y <> f_nan ->
       drains f_le (link nb (length dem)) (fun s => source iverts mask s \/
         exists c, link nb (length dem) c s /\ nth_error out c = Some f_nan) out n).
Proof.
  intros iverts nb dem eps mask method fuel Fe He G M F U.
  assert (Fe' : finite (step_eps Felev method eps) /\ (0 <= val (step_eps Felev method eps))%R).
  { unfold step_eps. destruct (String.eqb _ _); auto. cbn. split; [reflexivity|lra]. }
  destruct Fe' as [F1 F2].
  destruct (@C132_flood_with_nan b64 Felev not_nan rank iverts nb dem eps mask method fuel (b64_laws F1 F2)
     (b64_nan_laws _) G M F U) as [out [R [L [V [B [_ [D _]]]]]]].
  exists out. split; [exact R|]. split; [|split; [exact B|]].
  - clear -V. induction V as [|x y l l' H V IH]; constructor; auto. destruct H as [[O1 [O2 H]]|[O1 ->]].
    + split; auto. split; intros ->; discriminate.
    + apply f_nan_iff in O1. subst x. split; [tauto|]. intros H. now destruct H.
  - intros n y Hr Hy Ny. assert (Oy : not_nan y) by (destruct (f_nan_or y); [auto|contradiction]).
    specialize (D n y Hr Hy Oy). clear -D L. induction D as [s [S|S]|c n x y' D IH Hl Hc Hn HR].
    + apply dr_seed. now left.
    + destruct S as [c [x [Hl [Hx Ox]]]]. apply f_nan_iff in Ox. subst x. rewrite L in Hl.
      apply dr_seed. right. exists c. auto.
    + eapply dr_down; eauto.
Qed.

(** C133 is false: with a NaN cell on the rim, 'complete' raises a cell that has a strictly lower
    neighbour on the rim; no path of the example needs to touch the NaN cell.  The comparisons with
    NaN break the order of the priority queue. *)
Module Ex133.
  Definition f1 : b64 := @B754_finite 53 1024 false 4503599627370496 (-52) eq_refl.
  Definition f2 : b64 := @B754_finite 53 1024 false 4503599627370496 (-51) eq_refl.
  Definition dem : list b64 := [f2; f_nan; f2; f1; f1; f_zero; f2; f2; f_zero].
  Definition out : list b64 := [f2; f_nan; f2; f1; f2; f_zero; f2; f2; f_zero].
  Lemma run : fill_sinks Felev 9 (quad_iverts 3 3) (queen 3 3) dem f_zero None "complete" = Ok out.
  Proof. vm_compute. reflexivity. Qed.
  Lemma grid : grid_of (quad_iverts 3 3) (queen 3 3) 9.
  Proof. split; [reflexivity|]. split; [|cbn; lia]. repeat constructor; discriminate. Qed.
End Ex133.

Definition C133_statement : Prop := forall iverts nb (dem : list b64) fuel out,
  grid_of iverts nb (length dem) -> symmetric_grid nb -> neighbours_in nb (length dem) -> length dem <= fuel ->
  fill_sinks Felev fuel iverts nb dem f_zero None "complete" = Ok out ->
  (* every number has a strictly descending chain of numbers to the rim *)
  (forall n x, nth_error dem n = Some x -> x <> f_nan ->
     drains f_lt (link nb (length dem)) (boundary_cell iverts) dem n) ->
  out = dem.

Theorem C133_drained_terrain_with_nan_unchanged_refuted : ~ C133_statement.
Proof.
  intros H. assert (X : Ex133.out = Ex133.dem); [|discriminate X].
  apply (H (quad_iverts 3 3) (queen 3 3) Ex133.dem 9 Ex133.out).
  - exact Ex133.grid.
  - intros c n [l [Hc Hn]].
    assert (Q : forallb (fun c => forallb (fun n => existsb (Nat.eqb c) (nth n (queen 3 3) [])) (nth c (queen 3 3) [])) (seq 0 9) = true) by (vm_compute; reflexivity).
    rewrite forallb_forall in Q. assert (Lc : c < 9) by (change 9 with (length (queen 3 3)); apply nth_error_Some; congruence).
    specialize (Q c ltac:(apply in_seq; lia)). rewrite forallb_forall in Q. rewrite (nth_error_nth _ _ [] Hc) in Q.
    specialize (Q n Hn). apply existsb_exists in Q. destruct Q as [c' [Hin E]]. apply Nat.eqb_eq in E. subst c'.
    exists (nth n (queen 3 3) []). split; auto. apply nth_error_nth'.
    destruct (Nat.lt_ge_cases n (length (queen 3 3))) as [?|G]; auto. rewrite nth_overflow in Hin by auto. destruct Hin.
  - intros c n Hc [l [El Hn]].
    assert (Q : forallb (fun l => forallb (fun n => n <? 9) l) (queen 3 3) = true) by (vm_compute; reflexivity).
    rewrite forallb_forall in Q. specialize (Q l (nth_error_In _ _ El)). rewrite forallb_forall in Q.
    apply Nat.ltb_lt. exact (Q n Hn).
  - cbn. lia.
  - exact Ex133.run.
  - assert (B : forall n, In n [0; 1; 2; 3; 5; 6; 7; 8] -> boundary_cell (quad_iverts 3 3) n).
    { destruct (LEdge.identify_edge_nodes_spec (proj1 (proj2 Ex133.grid))) as [l [El [_ Hl]]].
      intros n Hn. apply Hl. vm_compute in El. injection El as <-. exact Hn. }
    intros n x Hn Nx. assert (n < 9) by (change 9 with (length Ex133.dem); apply nth_error_Some; congruence).
    destruct (Nat.eq_dec n 4) as [->|N4].
    + apply dr_down with (c := 5) (x := f_zero) (y := Ex133.f1); try reflexivity.
      * apply dr_seed. apply B. cbn; tauto.
      * split; [|cbn; lia]. eexists. split; [reflexivity|]. vm_compute. tauto.
    + apply dr_seed. apply B. cbn. lia.
Qed.

(** C134 for doubles: after 'drain' the NaN cells inside the rim are cells at 1e+10 *)
Theorem C134_binary64 : forall iverts nb (dem : list b64) eps,
  finite eps -> (0 <= val eps)%R -> grid_of iverts nb (length dem) -> neighbours_in nb (length dem) ->
  exists f0 out, (forall fuel, f0 <= fuel -> fill_sinks Felev fuel iverts nb dem eps None "drain" = Ok out) /\
    length out = length dem /\
    (forall n, boundary_cell iverts n -> nth_error out n = nth_error dem n) /\
    (forall n, ~ boundary_cell iverts n -> nth_error dem n = Some f_nan -> nth_error out n = Some f_big) /\
    (forall n x y, nth_error dem n = Some x -> nth_error out n = Some y -> x <> f_nan -> f_le x f_big = true -> f_le x y = true).
Proof.
  intros iverts nb dem eps Fe He G NI.
  assert (F : ~ flood_method "drain" None) by (intros [X|[X|X]]; [discriminate|discriminate|now destruct X]).
  destruct (@C134_drain_with_nan_returns b64 Felev not_nan rank iverts nb dem eps "drain" (b64_laws Fe He) (b64_nan_laws eps) G NI F)
    as [f0 [out [R [L [B V]]]]].
  exists f0, out. split; [exact R|]. split; [exact L|]. split; [exact B|]. split.
  - intros n Hn Hx. refine (C134_nan_inside_becomes_1e10 (b64_laws Fe He) (b64_nan_laws eps) G NI F Hn Hx _ (R f0 (le_n _))).
    now apply f_nan_iff.
  - intros n x y Hx Hy Nx Hb. refine (proj2 (V n x y Hx Hy _ Hb)). destruct (f_nan_or x); [auto|contradiction].
Qed.

(** the claim "NaN cells stay NaN" is false for 'drain': whenever a NaN cell lies inside the rim *)
Theorem C134_nan_stays_nan_refuted : exists iverts nb (dem out : list b64) n,
  grid_of iverts nb (length dem) /\ neighbours_in nb (length dem) /\
  fill_sinks Felev 9 iverts nb dem f_zero None "drain" = Ok out /\
  nth_error dem n = Some f_nan /\ nth_error out n = Some f_big.
Proof.
  exists (quad_iverts 3 3), (queen 3 3), [f_zero; f_zero; f_zero; f_zero; f_nan; f_zero; f_zero; f_zero; f_zero],
    [f_zero; f_zero; f_zero; f_zero; f_big; f_zero; f_zero; f_zero; f_zero], 4.
  split; [exact Ex133.grid|]. split.
  { intros c n Hc [l [El Hn]].
    assert (Q : forallb (fun l => forallb (fun n => n <? 9) l) (queen 3 3) = true) by (vm_compute; reflexivity).
    rewrite forallb_forall in Q. specialize (Q l (nth_error_In _ _ El)). rewrite forallb_forall in Q.
    apply Nat.ltb_lt. exact (Q n Hn). }
  split; [vm_compute; reflexivity|]. split; reflexivity.
Qed.

(** the hypotheses of C132 are met by the example *)
Example C132_case :
  match fill_sinks Felev 9 (quad_iverts 3 3) (queen 3 3) Ex133.dem Ex133.f1 None "priority" with
  | Ok out => nth_error out 1 | Err _ => None end = Some f_nan.
Proof. vm_compute. reflexivity. Qed.
Example C132_case_meets : finite Ex133.f1 /\ (0 <= val Ex133.f1)%R /\ grid_of (quad_iverts 3 3) (queen 3 3) (length Ex133.dem) /\
  flood_method "priority" None.
Proof.
  split; [reflexivity|]. split; [|split; [exact Ex133.grid|now left]].
  change (val Ex133.f1) with (F2R (Float radix2 4503599627370496 (-52))). apply F2R_ge_0. cbn. lia.
Qed.
