(** C126, C127 for IEEE doubles: the error is measured in exact (real) numbers; no rounding error is
    added. *)
From Coq Require Import String Reals Lra.
From Flocq Require Import Core BinarySingleNaN.
From Verif Require Import Py Spec MHeap MFill LFill LFill3 LFloat PropsFill PropsPerm PropsStable.
Set Implicit Arguments.
Unset Strict Implicit.
Local Open Scope nat_scope.
Local Open Scope list_scope.
Local Notation length := List.length.

Lemma finite_plus0 x : finite x -> finite (f_add x f_zero).
Proof.
  intros Fx. assert (F0 : finite f_zero) by reflexivity.
  destruct (@add_cases x f_zero Fx F0) as [[F _]|[_ B]]; [cbn; lra|exact F|].
  exfalso. cbn [f_zero] in B. unfold B2R at 2 in B. cbn in B. rewrite Rplus_0_r, rnd_val in B.
  assert (BX := abs_B2R_lt_emax _ _ x). apply Rabs_lt_inv in BX. cbn in *. lra.
Qed.

Lemma b64_laws_fin : elev_laws Felev finite rank f_zero.
Proof.
  assert (LW : elev_laws Felev not_nan rank f_zero) by (apply b64_laws; [reflexivity|cbn; lra]).
  constructor; intros; try apply LW; auto using fin_ok, finite_plus0. reflexivity.
Qed.

Lemma fin_tolerance (d : R) : tolerance Felev finite (fun x y => val x <= val y + d)%R.
Proof.
  split; [intros x y; destruct (Rle_dec (val x) (val y + d)); auto|].
  assert (LE : forall x y, finite x -> finite y -> f_le x y = true -> (val x <= val y)%R).
  { intros x y Fx Fy H. destruct (Rle_or_lt (val x) (val y)) as [|L]; auto. exfalso.
    apply lt_val in L; auto. assert (LW := b64_laws_fin). change (e_le Felev x y = true) in H. change (e_lt Felev y x = true) in L.
    rewrite (l_le LW) in H by auto. rewrite (l_lt LW) in L by auto. apply Z.leb_le in H. apply Z.ltb_lt in L. lia. }
  intros x a b y Fx Fa Fb Fy H1 H2 H3. apply LE in H1; auto. apply LE in H3; auto. lra.
Qed.

Lemma F2_impl {A B} (P R : A -> B -> Prop) l m : (forall x y, P x y -> R x y) -> Forall2 P l m -> Forall2 R l m.
Proof. induction 2; constructor; auto. Qed.

Theorem C126_binary64 : forall iverts nb (dem1 dem2 : list b64) eps fuel (d : R),
  Forall finite dem1 -> Forall finite dem2 -> grid_of iverts nb (length dem1) -> length dem1 <= fuel ->
  Forall2 (fun x y => Rabs (val x - val y) <= d)%R dem1 dem2 ->
  exists out1 out2,
    fill_sinks Felev fuel iverts nb dem1 eps None "complete" = Ok out1 /\
    fill_sinks Felev fuel iverts nb dem2 eps None "complete" = Ok out2 /\
    Forall2 (fun x y => Rabs (val x - val y) <= d)%R out1 out2.
Proof.
  intros iverts nb dem1 dem2 eps fuel d N1 N2 G U H. assert (Ln : length dem1 = length dem2) by exact (Forall2_len H).
  assert (NU : eps_null Felev finite (e_zero Felev)) by (intros x Fx; apply b64_null, fin_ok, Fx).
  assert (AB : forall l m, Forall2 (fun x y => Rabs (val x - val y) <= d)%R l m <->
     Forall2 (fun x y => val x <= val y + d)%R l m /\ Forall2 (fun y x => val y <= val x + d)%R m l).
  { intros l m. split.
    - intros F. split; [|apply Forall2_turn in F]; revert F; apply F2_impl; intros a b Q; apply Rabs_le_inv in Q; lra.
    - intros [A B]. apply Forall2_turn in B. assert (C := proj2 (Forall2_both _ _ l m) (conj A B)). revert C. apply F2_impl.
      intros a b [C1 C2]. apply Rabs_le. lra. }
  apply AB in H. destruct H as [HA HB].
  destruct (C126_complete_within eps (method := "complete") eq_refl b64_laws_fin NU N1 N2 G U (fin_tolerance d) HA) as [o1 [o2 [R1 [R2 W1]]]].
  assert (G2 : grid_of iverts nb (length dem2)) by (rewrite <- Ln; exact G).
  assert (U2 : length dem2 <= fuel) by (rewrite <- Ln; exact U).
  destruct (C126_complete_within eps (method := "complete") eq_refl b64_laws_fin NU N2 N1 G2 U2 (fin_tolerance d) HB) as [o2' [o1' [R2' [R1' W2]]]].
  assert (o1' = o1) by congruence. assert (o2' = o2) by congruence. subst.
  exists o1, o2. split; auto. split; auto. apply AB. auto.
Qed.

Theorem C127_binary64 : forall iverts nb (dem1 dem2 : list b64) eps fuel,
  Forall not_nan dem1 -> Forall not_nan dem2 -> length dem2 = length dem1 ->
  grid_of iverts nb (length dem1) -> length dem1 <= fuel ->
  exists out1 out2,
    fill_sinks Felev fuel iverts nb dem1 eps None "complete" = Ok out1 /\
    fill_sinks Felev fuel iverts nb dem2 eps None "complete" = Ok out2 /\
    ((forall n x z z', nth_error out1 n = Some x -> nth_error dem1 n = Some z -> nth_error dem2 n = Some z' ->
        z = z' \/ (f_lt z x = true /\ f_le z' x = true)) ->
     Forall2 (fun x y => f_eq x y = true) out1 out2).
Proof.
  intros iverts nb dem1 dem2 eps fuel N1 N2 Ln G U.
  assert (LW : elev_laws Felev not_nan rank (e_zero Felev)) by (apply b64_laws; [reflexivity|cbn; lra]).
  exact (C127_ground_of_depressions eps (method := "complete") eq_refl LW b64_null N1 N2 Ln G U).
Qed.
