(** C129 in double precision: flow directions computed in IEEE binary64 from two measurements of the same
    terrain agree wherever the really steepest neighbour wins by more than the measurement errors. *)
From Coq Require Import ZArith Reals Lra Lia.
From Flocq Require Import Core.Core IEEE754.BinarySingleNaN.
From Verif Require Import MGeo Py Spec Grids MFlow MDir LGraph LDir LDir2 LDir3 LDir4 LFloat PropsFloat PropsAccF PropsCascF PropsDir MNumF PropsNumF PropsRainF PropsNumF2.
Set Implicit Arguments.
Unset Strict Implicit.
Local Open Scope nat_scope.
Local Open Scope list_scope.

(** the same NaN cells, all other elevations at most [d] apart *)
Definition alike64 (d : R) (dem1 dem2 : list (option b64)) : Prop :=
  Forall2 (fun x y => match x, y with
                      | Some a, Some b => (Rabs (val a - val b) <= d)%R
                      | None, None => True | _, _ => False end) dem1 dem2.

Lemma alike64_at d dem1 dem2 : alike64 d dem1 dem2 -> forall c z2, nth_error dem2 c = Some (Some z2) ->
  exists z1, nth_error dem1 c = Some (Some z1) /\ (Rabs (val z1 - val z2) <= d)%R.
Proof.
  intros H. induction H as [|x y l m Hxy H IH]; intros [|c] z2; cbn; try discriminate; auto.
  intros E. injection E as ->. destruct x as [z1|]; [|contradiction]. eauto.
Qed.
Lemma alike64_turn d dem1 dem2 : alike64 d dem1 dem2 -> alike64 d dem2 dem1.
Proof. intros H. induction H as [|[x|] [y|] l m Hxy H IH]; constructor; auto. now rewrite Rabs_minus_sym. Qed.

Lemma descent_moves centers dem1 dem2 d e c n s2 : alike64 d dem1 dem2 ->
  (0 < distance (real_point (at64 centers c)) (real_point (at64 centers n)))%R ->
  (d <= e * distance (real_point (at64 centers c)) (real_point (at64 centers n)))%R ->
  descent centers dem2 c n s2 -> exists s1, descent centers dem1 c n s1 /\ (Rabs (s1 - s2) <= 2 * e)%R.
Proof.
  intros AL P DE (zc2 & zn2 & E1 & E2 & ->). destruct (alike64_at AL E1) as (zc1 & F1 & B1), (alike64_at AL E2) as (zn1 & F2 & B2).
  set (D := distance _ _) in *. exists ((val zc1 - val zn1) / D)%R. split; [exists zc1, zn1; auto|].
  replace ((val zc1 - val zn1) / D - (val zc2 - val zn2) / D)%R with (((val zc1 - val zc2) - (val zn1 - val zn2)) / D)%R by (field; lra).
  unfold Rdiv. rewrite Rabs_mult, (Rabs_pos_eq (/ D)) by (apply Rlt_le, Rinv_0_lt_compat; exact P).
  apply Rmult_le_reg_r with D; [exact P|]. rewrite Rmult_assoc, Rinv_l by lra. rewrite Rmult_1_r.
  apply Rle_trans with (Rabs (val zc1 - val zc2) + Rabs (val zn1 - val zn2))%R; [|lra].
  replace (val zc1 - val zc2 - (val zn1 - val zn2))%R with ((val zc1 - val zc2) + - (val zn1 - val zn2))%R by ring.
  eapply Rle_trans; [apply Rabs_triang|]. rewrite Rabs_Ropp. lra.
Qed.

Lemma downhill_not_lowest centers dem nb c n s : good_grid centers dem nb -> adjacent nb c n ->
  descent centers dem c n s -> (0 < s)%R -> ~ lowest Fops dem c.
Proof.
  intros GG A (zc & zn & E1 & E2 & ->) P (z0 & E0 & L). assert (z0 = zc) by congruence. subst z0.
  assert (X := L n zn E2). cbn [o_lt Fops] in X.
  apply not_lt_val in X; [|apply (gg_level GG E2)|apply (gg_level GG E1)].
  set (D := distance _ _) in *. assert (Q : (0 <= D)%R) by apply sqrt_pos.
  assert (I : (0 <= / D)%R).
  { destruct (Req_dec D 0) as [Z|NZ]; [rewrite Z, Rinv_0; lra|]. apply Rlt_le, Rinv_0_lt_compat. lra. }
  unfold Rdiv in P. nra.
Qed.

(** C129: two DEMs of the same grid, errors of at most [d], [d <= e * distance] for the neighbours of [c]: if in
    the first one the descent to [n] beats flat ground and the descents to all other neighbours by [4 * e] and a
    relative [2e-14], both runs send [c] to [n] *)
Theorem C129_binary64 : forall centers nb thr terminals fuel dem1 dem2 fdir1 fdir2 nb1 nb2 d e c n s,
  good_grid centers dem1 nb -> good_grid centers dem2 nb ->
  terrain_ok Fops not_nan thr (dist64 centers) dem1 nb terminals ->
  terrain_ok Fops not_nan thr (dist64 centers) dem2 nb terminals ->
  enough_steps nb fuel -> (forall l, In l nb -> NoDup l) ->
  run Fops fuel (dist64 centers) dem1 nb thr terminals = Ok (fdir1, nb1) ->
  run Fops fuel (dist64 centers) dem2 nb thr terminals = Ok (fdir2, nb2) ->
  alike64 d dem1 dem2 ->
  (forall m, adjacent nb c m -> (0 < distance (real_point (at64 centers c)) (real_point (at64 centers m)))%R /\
                                (d <= e * distance (real_point (at64 centers c)) (real_point (at64 centers m)))%R) ->
  ~ In (Z.of_nat c) terminals ->
  adjacent nb c n -> descent centers dem1 c n s -> (2 * e < s)%R ->
  (forall m s', adjacent nb c m -> m <> n -> descent centers dem1 c m s' -> ((s' + 2 * e) * (1 + 2 / 10 ^ 14) < s - 2 * e)%R) ->
  nth_error fdir1 c = Some (Z.of_nat n) /\ nth_error fdir2 c = Some (Z.of_nat n).
Proof.
  intros centers nb thr terminals fuel dem1 dem2 fdir1 fdir2 nb1 nb2 d e c n s G1 G2 T1 T2 FU ND R1 R2 AL DE NT A D1 P W.
  assert (AL' := alike64_turn AL). destruct (DE n A) as [DP DD].
  assert (V1 : exists z1, nth_error dem1 c = Some (Some z1)) by (destruct D1 as (zc & _ & X & _); eauto).
  destruct V1 as [z1 V1]. destruct (alike64_at AL' V1) as (z2 & V2 & B0).
  assert (E0 : (0 <= e)%R).
  { assert (Y := Rabs_pos (val z2 - val z1)). apply Rnot_lt_le. intros N. nra. }
  destruct (descent_moves AL' DP DD D1) as (s2 & D2 & B). apply Rabs_le_inv in B.
  split.
  - apply (C139_clear_winner G1 T1 FU R1 ND (d := s)); auto; [now exists z1| |lra|].
    + apply (downhill_not_lowest G1 A D1). lra.
    + intros m s' Am NE Dm. assert (X := W m s' Am NE Dm). nra.
  - apply (C139_clear_winner G2 T2 FU R2 ND (d := s2)); auto; [now exists z2| |lra|].
    + apply (downhill_not_lowest G2 A D2). lra.
    + intros m s' Am NE Dm. destruct (DE m Am) as [MP MD]. destruct (descent_moves AL MP MD Dm) as (s1 & D1' & B').
      apply Rabs_le_inv in B'. assert (X := W m s1 Am NE D1'). nra.
Qed.

(** A case: the row 9, 5, 1 of [ExNum] measured again as 9, 5, 0 *)
Module ExRobust.
  Import PropsFloat.ExF PropsRainF.ExRain PropsNumF2.ExNum.
  Definition dem3b : list (option b64) := map Some (z [9; 5; 0]%Z).
  Lemma fin3b c x : nth_error dem3b c = Some (Some x) -> finite x.
  Proof. destruct c as [|[|[|[]]]]; cbn; intros H; try discriminate; apply some_inj in H; subst x; vm_compute; reflexivity. Qed.
  Lemma good3b : good_grid centers3 dem3b (queen 1 3).
  Proof.
    split.
    - exact apart3.
    - intros c z H. split; [eapply fin3b; eauto|]. apply big400.
      destruct c as [|[|[|c]]]; [apply some_inj in H; subst z ..|destruct c; discriminate]; vals; rewrite Rabs_pos_eq; lra.
    - intros c n zc zn A Hc Hn. apply far. apply near3 in A.
      destruct A as [[-> ->]|[[-> ->]|[[-> ->]|[-> ->]]]]; cbn [nth_error dem3b map z] in Hc, Hn; apply some_inj in Hc; apply some_inj in Hn; subst zc zn;
        vals; unfold Rabs; destruct Rcase_abs; lra.
  Qed.
  Lemma terrain33b : terrain_ok Fops not_nan thr (dist64 centers3) dem3b (queen 1 3) [].
  Proof.
    apply terrain_checked_b64; [exact fin3b| |vm_compute; reflexivity].
    intros c n A. destruct (C138_distance (apart_sym (apart3 A))) as (F & P & _). auto.
  Qed.
  Example C129_binary64_case : exists fdir1 fdir2 nb1 nb2,
    run Fops 100 (dist64 centers3) dem3 (queen 1 3) thr [] = Ok (fdir1, nb1) /\
    run Fops 100 (dist64 centers3) dem3b (queen 1 3) thr [] = Ok (fdir2, nb2) /\
    nth_error fdir1 0 = Some 1%Z /\ nth_error fdir2 0 = Some 1%Z.
  Proof.
    destruct (C61_always_computed b64_order terrain33 steps3) as [fdir1 [nb1 [E1 _]]].
    destruct (C61_always_computed b64_order terrain33b steps3) as [fdir2 [nb2 [E2 _]]].
    exists fdir1, fdir2, nb1, nb2. split; [exact E1|]. split; [exact E2|].
    assert (DD : distance (real_point (at64 centers3 0)) (real_point (at64 centers3 1)) = 1%R).
    { unfold distance, real_point. cbn [at64 centers3 nth fst snd]. vals. replace ((0 - 1) ^ 2 + (0 - 0) ^ 2)%R with (1 * 1)%R by ring. apply sqrt_square. lra. }
    apply (@C129_binary64 centers3 (queen 1 3) thr [] 100 dem3 dem3b fdir1 fdir2 nb1 nb2 1%R 1%R 0 1 4%R good3 good3b terrain33 terrain33b steps3); auto.
    - apply rows_nodup. vm_compute. reflexivity.
    - constructor; [|constructor; [|constructor; [|constructor]]]; vals; unfold Rabs; destruct Rcase_abs; lra.
    - intros m A. apply near3 in A. assert (m = 1) by lia. subst m. rewrite DD. lra.
    - now apply adj_nth; vm_compute; auto.
    - exists (dbl 9 0), (dbl 5 0). split; [reflexivity|]. split; [reflexivity|]. rewrite DD. vals. lra.
    - lra.
    - intros m s A NE. apply near3 in A. exfalso. lia.
  Qed.
End ExRobust.
