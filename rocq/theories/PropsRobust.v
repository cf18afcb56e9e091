(** C129: flow directions withstand small errors of the terrain where the steepest neighbour is clear. *)
From Coq Require Import QArith Lqa String.
From Verif Require Import Py Spec MFlow MDir MFill Grids LRat LGraph LDir LDir2 LDir3 LDir4 PropsFill PropsDir.
Set Implicit Arguments.
Unset Strict Implicit.
Local Open Scope nat_scope.
Local Open Scope list_scope.
Local Notation length := List.length.

(** the same cells are NaN, the valid elevations differ by at most [d] *)
Definition measured_alike (d : Q) (dem1 dem2 : list (option Q)) : Prop :=
  Forall2 (fun x y => match x, y with
                      | Some a, Some b => (a <= b + d /\ b <= a + d)%Q
                      | None, None => True | _, _ => False end) dem1 dem2.

(** the slope from [c] to [n] is downhill by more than [m], and steeper by more than [m] than the
    slope to any other neighbour *)
Definition clearly_steepest (thr : Q) (dist : nat -> nat -> Q) (dem : list (option Q)) (nb : list (list nat))
           (m : Q) (c n : nat) : Prop :=
  adjacent nb c n /\ exists s, slope_to Qops thr dist dem c n s /\ (s + m < 0)%Q /\
    forall n' s', n' <> n -> adjacent nb c n' -> slope_to Qops thr dist dem c n' s' -> (s + m < s')%Q.

Lemma alike_at d dem1 dem2 : measured_alike d dem1 dem2 -> forall c z2, nth_error dem2 c = Some (Some z2) ->
  exists z1, nth_error dem1 c = Some (Some z1) /\ (z1 <= z2 + d /\ z2 <= z1 + d)%Q.
Proof.
  intros H. induction H as [|x y l m Hxy H IH]; intros [|c] z2; cbn; try discriminate; auto.
  intros E. inversion E; subst. destruct x as [z1|]; [|contradiction]. eauto.
Qed.
Lemma alike_turn d dem1 dem2 : measured_alike d dem1 dem2 -> measured_alike d dem2 dem1.
Proof. intros H. induction H as [|[x|] [y|] l m Hxy H IH]; constructor; auto. tauto. Qed.

Lemma clear_unique thr dist dem nb m c n : (0 <= m)%Q -> clearly_steepest thr dist dem nb m c n ->
  steepest Qops thr dist dem nb c n /\ forall n', steepest Qops thr dist dem nb c n' -> n' = n.
Proof.
  intros Hm [A [s [S [L M]]]]. split.
  - split; auto. exists s. split; auto. intros n' s' A' S'. destruct (Nat.eq_dec n' n) as [->|NE].
    + destruct S as [zc [zn [E1 [E2 E3]]]]. destruct S' as [zc' [zn' [E1' [E2' E3']]]].
      assert (zc' = zc) by congruence. assert (zn' = zn) by congruence. subst zc' zn'. assert (s' = s) by congruence. clear E3 E3'. subst s'. cbn.
      destruct (q_lt _ _) eqn:Q; auto. apply q_lt_spec in Q. lra.
    + assert (X := M n' s' NE A' S'). cbn. destruct (q_lt s' s) eqn:Q; auto. apply q_lt_spec in Q. lra.
  - intros n' [A' [s' [S' M']]]. destruct (Nat.eq_dec n' n) as [|NE]; auto. exfalso.
    assert (X := M n' s' NE A' S'). assert (Y := M' n s A S). cbn in Y.
    assert (Q : q_lt s s' = true) by (apply q_lt_spec; lra). congruence.
Qed.

Lemma clear_low thr dist dem nb m c n : (0 <= m)%Q -> (forall n, adjacent nb c n -> (0 < dist c n)%Q) ->
  clearly_steepest thr dist dem nb m c n -> is_valid dem c /\ ~ lowest Qops dem c.
Proof.
  intros Hm DP [A [s [S [L M]]]]. destruct S as [zc [zn [E1 [E2 E3]]]]. split; [now exists zc|].
  intros [z [Ez HL]]. assert (z = zc) by congruence. subst z. specialize (HL n zn E2). cbn in HL, E3.
  assert (P := DP n A).
  assert (Z : (zn < zc)%Q).
  { apply Qnot_le_lt. intros LE. assert (D0 : (0 <= s)%Q).
    { subst s. apply Qle_shift_div_l; auto. rewrite Qmult_0_l. destruct (q_lt (zn - zc) thr && q_lt 0 (zn - zc)); lra. }
    lra. }
  apply q_lt_spec in Z. congruence.
Qed.

(** slopes change by at most 2 e where elevations change by at most d <= e * distance *)
Lemma clear_moves thr dist dem1 dem2 nb d e m c n :
  (0 <= d)%Q -> (forall n, adjacent nb c n -> (0 < dist c n)%Q /\ (d <= e * dist c n)%Q) ->
  measured_alike d dem1 dem2 -> (4 * e <= m)%Q ->
  clearly_steepest thr dist dem1 nb m c n -> clearly_steepest thr dist dem2 nb (m - 4 * e) c n.
Proof.
  intros Hd DP AL Hm [A [s [S [L M]]]]. assert (AL' := alike_turn AL).
  destruct (DP n A) as [P DE].
  assert (E0 : (0 <= e)%Q).
  { apply Qnot_lt_le. intros N. assert (X : (e * dist c n < 0)%Q); [|lra].
    assert (Y := Qmult_lt_compat_r _ _ _ P N). rewrite Qmult_0_l in Y. exact Y. }
  destruct S as [zc [zn [E1 [E2 E3]]]]. cbn in E3.
  destruct (alike_at AL' E1) as [zc2 [F1 [B1 B2]]]. destruct (alike_at AL' E2) as [zn2 [F2 [B3 B4]]].
  (* the drop of dem1 is real *)
  assert (Z : (zn < zc)%Q).
  { apply Qnot_le_lt. intros LE. assert (D0 : (0 <= s)%Q).
    { subst s. apply Qle_shift_div_l; auto. rewrite Qmult_0_l. destruct (q_lt (zn - zc) thr && q_lt 0 (zn - zc)); lra. }
    lra. }
  assert (NF : forall a, (a < 0)%Q -> (if q_lt a thr && q_lt 0 a then 0 else a)%Q = a).
  { intros a Ha. assert (Q : q_lt 0 a = false). { destruct (q_lt 0 a) eqn:Q; auto. apply q_lt_spec in Q. lra. } now rewrite Q, andb_false_r. }
  rewrite NF in E3 by lra.
  assert (SD : (s * dist c n == zn - zc)%Q) by (subst s; field; lra).
  assert (SN : (s + 2 * e < 0)%Q) by lra.
  assert (Z2 : (zn2 - zc2 < 0)%Q).
  { assert (X := Qmult_lt_compat_r _ _ _ P SN). rewrite Qmult_0_l in X. ring_simplify in X. rewrite Qmult_plus_distr_l in X || idtac.
    assert (X' : (s * dist c n + 2 * (e * dist c n) < 0)%Q) by lra. lra. }
  set (s2 := ((zn2 - zc2) / dist c n)%Q).
  assert (S2D : (s2 * dist c n == zn2 - zc2)%Q) by (unfold s2; field; lra).
  assert (SUP : (s2 <= s + 2 * e)%Q).
  { apply Qnot_lt_le. intros N. assert (X := Qmult_lt_compat_r _ _ _ P N). assert (X' : (s * dist c n + 2 * (e * dist c n) < s2 * dist c n)%Q) by lra. lra. }
  split; auto. exists s2. split; [|split].
  - exists zc2, zn2. split; auto. split; auto. cbn. now rewrite NF.
  - lra.
  - intros n' s' NE A' [zc' [zn2' [F1' [F2' E3']]]]. assert (zc' = zc2) by congruence. subst zc'. cbn in E3'.
    destruct (DP n' A') as [P' DE']. destruct (alike_at AL F2') as [zn' [G2 [B5 B6]]].
    assert (M' := fun s0 => M n' s0 NE A').
    set (r2 := (zn2' - zc2)%Q) in *. set (r1 := (zn' - zc)%Q).
    assert (S1 : (s + m < (if q_lt r1 thr && q_lt 0 r1 then 0 else r1) / dist c n')%Q).
    { apply M'. exists zc, zn'. split; auto. }
    (* it is enough to bound the new slope from below by the raw rise *)
    assert (LOW : (s + m - 2 * e < s')%Q); [|lra].
    destruct (Qlt_le_dec 0 r2) as [R2|R2].
    { (* not downhill in dem2: slope >= 0 *)
      assert (D0 : (0 <= s')%Q).
      { subst s'. apply Qle_shift_div_l; auto. rewrite Qmult_0_l. destruct (q_lt r2 thr && q_lt 0 r2); lra. }
      lra. }
    assert (E4 : (s' * dist c n' == r2)%Q).
    { subst s'. assert (Q : q_lt 0 r2 = false). { destruct (q_lt 0 r2) eqn:Q; auto. apply q_lt_spec in Q. lra. }
      rewrite Q, andb_false_r. field. lra. }
    assert (R12 : (r1 - 2 * d <= r2)%Q) by (unfold r1, r2; lra).
    destruct (Qlt_le_dec r1 0) as [R1|R1].
    + rewrite NF in S1 by auto. assert (X : ((s + m) * dist c n' < r1)%Q).
      { assert (X := Qmult_lt_compat_r _ _ _ P' S1). setoid_replace (r1 / dist c n' * dist c n')%Q with r1 in X by (field; lra). exact X. }
      apply Qnot_le_lt. intros N. assert (Y := Qmult_le_compat_r _ _ (dist c n') N (Qlt_le_weak _ _ P')).
      assert (Y' : (s' * dist c n' <= (s + m) * dist c n' - 2 * (e * dist c n'))%Q) by lra. lra.
    + apply Qnot_le_lt. intros N. assert (N' : (s' <= - (2 * e) - (- (s + m)))%Q) by lra.
      assert (N2 : (s' + 2 * e < 0)%Q) by lra.
      assert (Y := Qmult_lt_compat_r _ _ (dist c n') P' N2).
      assert (Y' : (s' * dist c n' + 2 * (e * dist c n') < 0)%Q) by lra. lra.
Qed.

(** C129: where one neighbour is clearly the steepest, both terrains give the same flow direction *)
Theorem C129_directions_withstand_errors :
  forall nb thr dist terminals fuel dem1 dem2 fdir1 fdir2 nb1 nb2 d e c n,
  terrain_ok Qops (fun _ => True) thr dist dem1 nb terminals ->
  terrain_ok Qops (fun _ => True) thr dist dem2 nb terminals ->
  enough_steps nb fuel -> (forall l, In l nb -> NoDup l) ->
  run Qops fuel dist dem1 nb thr terminals = Ok (fdir1, nb1) ->
  run Qops fuel dist dem2 nb thr terminals = Ok (fdir2, nb2) ->
  (0 <= d)%Q -> measured_alike d dem1 dem2 ->
  (forall n, adjacent nb c n -> (0 < dist c n)%Q /\ (d <= e * dist c n)%Q) ->
  ~ In (Z.of_nat c) terminals ->
  clearly_steepest thr dist dem1 nb (4 * e) c n ->
  nth_error fdir1 c = Some (Z.of_nat n) /\ nth_error fdir2 c = Some (Z.of_nat n).
Proof.
  intros nb thr dist terminals fuel dem1 dem2 fdir1 fdir2 nb1 nb2 d e c n T1 T2 FU ND R1 R2 Hd AL DP NT CL.
  assert (E0 : (0 <= 4 * e)%Q).
  { destruct CL as [A _]. destruct (DP n A) as [P DE]. apply Qnot_lt_le. intros N.
    assert (N' : (e < 0)%Q) by lra. assert (Y := Qmult_lt_compat_r _ _ _ P N'). rewrite Qmult_0_l in Y. lra. }
  assert (CL2 := clear_moves Hd DP AL (Qle_refl _) CL).
  assert (Z0 : (0 <= 4 * e - 4 * e)%Q) by lra.
  assert (DP' : forall n, adjacent nb c n -> (0 < dist c n)%Q) by (intros k Hk; now apply DP).
  destruct (clear_unique E0 CL) as [S1 U1]. destruct (clear_unique Z0 CL2) as [S2 U2].
  destruct (clear_low E0 DP' CL) as [V1 L1]. destruct (clear_low Z0 DP' CL2) as [V2 L2].
  split.
  - apply (C60_unique_steepest_wins Qlaws T1 FU R1 ND V1); auto. intros [H|H]; contradiction.
  - apply (C60_unique_steepest_wins Qlaws T2 FU R2 ND V2); auto. intros [H|H]; contradiction.
Qed.

(** ** Example: a row of three cells, elevations known to within 2 *)
Module ExR.
  Definition nb := queen 1 3.
  Definition dem1 : list (option Q) := [Some 0; Some 10; Some 30]%Q.
  Definition dem2 : list (option Q) := [Some 1; Some 12; Some 28]%Q.
  Definition thr : Q := (1 # 1000)%Q.
  Definition one (_ _ : nat) : Q := 1%Q.
  Example alike : measured_alike 2 dem1 dem2.
  Proof. unfold measured_alike, dem1, dem2. repeat constructor; unfold Qle; cbn; lia. Qed.
  Example clear : clearly_steepest thr one dem1 nb (4 * 2) 2 1.
  Proof.
    split; [exists [1]; split; [reflexivity|now left]|]. eexists. split; [exists 30%Q, 10%Q; split; [reflexivity|split; [reflexivity|reflexivity]]|].
    split; [reflexivity|]. intros n' s' NE [l [Hl Hn]]. cbn in Hl. inversion Hl; subst l. destruct Hn as [<-|[]]. now elim NE.
  Qed.
  Example both : exists f1 f2 nb1 nb2, run Qops 100 one dem1 nb thr [] = Ok (f1, nb1) /\ run Qops 100 one dem2 nb thr [] = Ok (f2, nb2) /\
    nth_error f1 2 = Some 1%Z /\ nth_error f2 2 = Some 1%Z.
  Proof.
    do 4 eexists. split; [vm_compute; reflexivity|]. split; [vm_compute; reflexivity|].
    refine (@C129_directions_withstand_errors nb thr one [] 100 dem1 dem2 _ _ _ _ 2 2 2 1 _ _ _ _ _ _ _ alike _ _ clear).
    - apply terrain_checked; vm_compute; reflexivity.
    - apply terrain_checked; vm_compute; reflexivity.
    - exists 2. split; [|cbn; lia]. intros l H. repeat (destruct H as [<-|H]; [cbn; lia|]). destruct H.
    - intros l H. repeat (destruct H as [<-|H]; [repeat constructor; cbn; intuition lia|]). destruct H.
    - vm_compute. reflexivity.
    - vm_compute. reflexivity.
    - unfold Qle; cbn; lia.
    - intros n _. split; unfold one, Qlt, Qle; cbn; lia.
    - intros [].
  Qed.
End ExR.
