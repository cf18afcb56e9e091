(** C139: in double precision the water flows to a neighbour that is the steepest in real numbers, up to
    a relative 1e-14. *)
From Coq Require Import ZArith Reals Lra Lia.
From Flocq Require Import Core.Core IEEE754.BinarySingleNaN.
From Verif Require Import MGeo Py Spec Grids MFlow MDir LGraph LDir LDir2 LDir3 LDir4 LFloat PropsFloat PropsAccF PropsCascF PropsDir MNumF PropsNumF PropsRainF.
Set Implicit Arguments.
Unset Strict Implicit.
Local Open Scope nat_scope.
Local Open Scope list_scope.
Local Notation length := List.length.

(** ** Specification *)
(** cell centres [centers] and elevations [dem] (NaN cells allowed) of moderate size, neighbours at different places *)
Record good_grid (centers : list point64) (dem : list (option b64)) (nb : list (list nat)) : Prop := {
  gg_apart : forall c n, adjacent nb c n -> apart (at64 centers c) (at64 centers n);
  gg_level : forall c z, nth_error dem c = Some (Some z) -> good_level z;
  gg_differ : forall c n zc zn, adjacent nb c n -> nth_error dem c = Some (Some zc) -> nth_error dem n = Some (Some zn) -> differ zn zc }.

(** [s] is the descent from [c] to [n] in real numbers: drop over distance of the centres (negative: uphill) *)
Definition descent (centers : list point64) (dem : list (option b64)) (c n : nat) (s : R) : Prop :=
  exists zc zn, nth_error dem c = Some (Some zc) /\ nth_error dem n = Some (Some zn) /\
    s = ((val zc - val zn) / distance (real_point (at64 centers c)) (real_point (at64 centers n)))%R.

Section Steep.
  Variables (centers : list point64) (dem : list (option b64)) (nb : list (list nat)) (thr : b64) (terminals : list Z).
  Notation dist := (dist64 centers).
  Hypothesis GG : good_grid centers dem nb.

  Lemma swap_distance a b : distance a b = distance b a.
  Proof. unfold distance. f_equal. ring. Qed.

  (** the slope used by the program: downhill it is the descent, with the other sign *)
  Lemma slope_downhill c n s d : adjacent nb c n -> slope_to Fops thr dist dem c n s -> descent centers dem c n d -> (0 < d)%R ->
    finite s /\ near (e7 e5) (val s) (- d).
  Proof using GG.
    intros A (zc & zn & Ec & En & ES) (zc' & zn' & Ec' & En' & ED) P.
    assert (zc' = zc) by congruence. assert (zn' = zn) by congruence. subst zc' zn'.
    assert (AP := apart_sym (gg_apart GG A)). destruct (distance_near AP) as (_ & Nl & DL & DH). destruct errors_small as (_ & _ & E5).
    rewrite (swap_distance (real_point (at64 centers c))) in ED. set (dd := distance (real_point (at64 centers n)) (real_point (at64 centers c))) in *.
    assert (Pd : (0 < dd)%R) by (assert (X := bpow_gt_0 radix2 (-400)); lra).
    assert (PZ : (val zn < val zc)%R).
    { apply Rnot_le_lt. intros L. assert (X : (d <= 0)%R); [|lra]. rewrite ED. assert (I := Rinv_0_lt_compat _ Pd). unfold Rdiv. nra. }
    destruct (drop_near (gg_level GG En) (gg_level GG Ec) (gg_differ GG A Ec En)) as (Fd & Nd & Md). assert (U := u_tiny).
    cbn [o_sub o_lt o_zero o_div Fops] in ES.
    assert (NF : f_lt f_zero (f_sub zn zc) = false).
    { destruct (f_lt f_zero (f_sub zn zc)) eqn:L; [|reflexivity]. exfalso. apply lt_val in L; [|reflexivity|exact Fd].
      change (val f_zero) with 0%R in L. assert (X := near_neg Nd ltac:(lra) ltac:(lra)). lra. }
    rewrite NF, andb_false_r in ES.
    destruct (@quotient_near (f_sub zn zc) (val zn - val zc) (dist c n) dd e5 Fd Nd Md Nl ltac:(lra)) as [F N].
    { split; [apply Rle_trans with (bpow radix2 (-400)); [apply bpow_le; lia|auto]|]. apply Rle_trans with (bpow radix2 402); [auto|apply bpow_le; lia]. }
    rewrite ES. split; [exact F|]. replace (- d)%R with ((val zn - val zc) / dd)%R; [exact N|]. rewrite ED. unfold Rdiv. ring.
  Qed.
  (** level or uphill it is not negative (and not NaN), and at most twice the climb *)
  Lemma slope_uphill c n s d : adjacent nb c n -> slope_to Fops thr dist dem c n s -> descent centers dem c n d -> (d <= 0)%R ->
    finite s /\ (0 <= val s <= 2 * - d)%R.
  Proof using GG.
    intros A (zc & zn & Ec & En & ES) (zc' & zn' & Ec' & En' & ED) P.
    assert (zc' = zc) by congruence. assert (zn' = zn) by congruence. subst zc' zn'.
    assert (AP := apart_sym (gg_apart GG A)). destruct (distance_near AP) as (_ & Nl & DL & DH). destruct errors_small as (_ & _ & E5).
    rewrite (swap_distance (real_point (at64 centers c))) in ED. set (dd := distance (real_point (at64 centers n)) (real_point (at64 centers c))) in *.
    assert (Pd : (0 < dd)%R) by (assert (X := bpow_gt_0 radix2 (-400)); lra). assert (ID := Rinv_0_lt_compat _ Pd).
    assert (PZ : (val zc <= val zn)%R).
    { apply Rnot_lt_le. intros L. assert (X : (0 < d)%R); [|lra]. rewrite ED. unfold Rdiv. nra. }
    destruct (drop_near (gg_level GG En) (gg_level GG Ec) (gg_differ GG A Ec En)) as (Fd & Nd & Md). assert (U := u_tiny).
    assert (BD : (bpow radix2 (-401) <= dd <= bpow radix2 404)%R).
    { split; [apply Rle_trans with (bpow radix2 (-400)); [apply bpow_le; lia|auto]|]. apply Rle_trans with (bpow radix2 402); [auto|apply bpow_le; lia]. }
    cbn [o_sub o_lt o_zero o_div Fops] in ES. destruct (f_lt (f_sub zn zc) thr && f_lt f_zero (f_sub zn zc)).
    - destruct (@quotient_near f_zero 0 (dist c n) dd e5 ltac:(reflexivity) (near_refl 0%R (Rlt_le _ _ (proj1 U))) (or_introl eq_refl) Nl ltac:(lra) BD) as [F N].
      rewrite ES. split; [exact F|]. replace (0 / dd)%R with 0%R in N by (unfold Rdiv; ring). apply near_zero in N. lra.
    - destruct (@quotient_near (f_sub zn zc) (val zn - val zc) (dist c n) dd e5 Fd Nd Md Nl ltac:(lra) BD) as [F N].
      rewrite ES. split; [exact F|]. fold (e7 e5) in N. destruct (e7_mono (e := e5) ltac:(lra)) as [_ E7]. specialize (E7 ltac:(lra)).
      assert (Q : (0 <= (val zn - val zc) / dd)%R) by (unfold Rdiv; nra).
      assert (EQ : ((val zn - val zc) / dd = - d)%R) by (rewrite ED; unfold Rdiv; ring). rewrite EQ in *.
      destruct N as [t [T E]]. apply Rabs_le_inv in T. rewrite E. split; nra.
  Qed.

  Lemma not_lt_val (x y : b64) : finite x -> finite y -> f_lt x y = false -> (val y <= val x)%R.
  Proof. intros Fx Fy L. apply Rnot_lt_le. intros X. apply (proj2 (lt_val Fx Fy)) in X. congruence. Qed.

  (** the steepest neighbour by the slopes of the program *)
  Lemma steepest_really c n n' d' : steepest Fops thr dist dem nb c n -> adjacent nb c n' -> descent centers dem c n' d' -> (0 < d')%R ->
    exists d, descent centers dem c n d /\ ((1 - / 10 ^ 14) * d' <= d)%R.
  Proof using GG.
    intros [A (s & SN & ST)] A' D' P'. destruct SN as (zc & zn & Ec & En & ES).
    assert (SN : slope_to Fops thr dist dem c n s) by (exists zc, zn; auto).
    set (d := ((val zc - val zn) / distance (real_point (at64 centers c)) (real_point (at64 centers n)))%R).
    assert (DN : descent centers dem c n d) by (exists zc, zn; auto). exists d. split; [exact DN|].
    destruct D' as (zc' & zn' & Ec' & En' & ED').
    assert (D' : descent centers dem c n' d') by (exists zc', zn'; auto).
    set (s' := f_div (if f_lt (f_sub zn' zc') thr && f_lt f_zero (f_sub zn' zc') then f_zero else f_sub zn' zc') (dist c n')).
    assert (SN' : slope_to Fops thr dist dem c n' s') by (exists zc', zn'; split; [auto|]; split; [auto|reflexivity]).
    assert (L := ST n' s' A' SN'). cbn [o_lt Fops] in L.
    destruct (slope_downhill A' SN' D' P') as [F' N']. destruct errors_small as (_ & _ & E5).
    destruct (e7_mono (e := e5) ltac:(lra)) as [P7 E7]. specialize (E7 ltac:(lra)).
    destruct (Rle_or_lt d 0) as [U|U].
    - exfalso. destruct (slope_uphill A SN DN U) as [F Q]. apply not_lt_val in L; auto.
      assert (X := near_neg N' ltac:(lra) ltac:(lra)). lra.
    - destruct (slope_downhill A SN DN U) as [F N]. apply not_lt_val in L; auto.
      destruct N as [t [T E]], N' as [t' [T' E']]. apply Rabs_le_inv in T, T'. rewrite E, E' in L. nra.
  Qed.

  Variables (fuel : nat) (fdir : list Z) (nb' : list (list nat)).
  Hypothesis TR : terrain_ok Fops not_nan thr dist dem nb terminals.
  Hypothesis FU : enough_steps nb fuel.
  Hypothesis RUN : run Fops fuel dist dem nb thr terminals = Ok (fdir, nb').

  (** C139: no neighbour descends more steeply than the one the water flows to, by more than a relative 1e-14 *)
  Theorem C139_steepest_in_real_numbers c n n' d' : nth_error fdir c = Some (Z.of_nat n) -> n <> c ->
    adjacent nb c n' -> descent centers dem c n' d' -> (0 < d')%R ->
    adjacent nb c n /\ exists d, descent centers dem c n d /\ ((1 - / 10 ^ 14) * d' <= d)%R.
  Proof using GG TR FU RUN.
    intros E NE A' D' P'. assert (Lc : c < length dem).
    { destruct D' as (zc & _ & Ec & _). apply nth_error_Some. congruence. }
    destruct (C59_steepest_neighbour b64_order TR FU RUN Lc) as [[X _]|[[X _]|(m & X & S)]]; rewrite E in X; [exfalso; injection X; lia|exfalso; injection X; lia|].
    assert (m = n) by (injection X; lia). subst m. split; [apply S|]. eapply steepest_really; eauto.
  Qed.

  (** where one neighbour is the steepest by more than a relative 2e-14, the water flows there *)
  Theorem C139_clear_winner c n d : (forall l, In l nb -> NoDup l) -> is_valid dem c -> ~ lowest Fops dem c -> ~ In (Z.of_nat c) terminals ->
    adjacent nb c n -> descent centers dem c n d -> (0 < d)%R ->
    (forall n' d', adjacent nb c n' -> n' <> n -> descent centers dem c n' d' -> (d' * (1 + 2 / 10 ^ 14) < d)%R) ->
    nth_error fdir c = Some (Z.of_nat n).
  Proof using GG TR FU RUN.
    intros ND V NL NT A D P CL.
    assert (U : forall m, steepest Fops thr dist dem nb c m -> m = n).
    { intros m S. destruct (Nat.eq_dec m n) as [|NE]; [auto|exfalso].
      destruct (steepest_really S A D P) as (dm & Dm & L). assert (X := CL m dm (proj1 S) NE Dm). nra. }
    assert (EX : exists m, steepest Fops thr dist dem nb c m).
    { apply (steep_exists b64_order TR V). destruct D as (zc & zn & Ec & En & _). exists n. eexists. split; [exact A|]. exists zc, zn. split; [auto|]. split; [auto|reflexivity]. }
    destruct EX as [m S]. assert (m = n) by now apply U. subst m.
    apply (C60_unique_steepest_wins b64_order TR FU RUN ND V); auto. intros [H|H]; contradiction.
  Qed.
End Steep.

(** the distances of a grid whose neighbouring centres are between 2^-59 and 2^59 apart are as C137 asks for *)
Theorem C138_distances_for_cascades centers a b : apart (at64 centers a) (at64 centers b) ->
  (bpow radix2 (-59) <= distance (real_point (at64 centers a)) (real_point (at64 centers b)) <= bpow radix2 59)%R ->
  finite (dist64 centers a b) /\ (bpow radix2 (-60) <= val (dist64 centers a b) <= bpow radix2 60)%R.
Proof.
  intros A B. rewrite swap_distance in B. destruct (distance_near (apart_sym A)) as (F & N & _). destruct errors_small as (_ & _ & E5).
  split; [exact F|]. unfold dist64. assert (P := bpow_gt_0 radix2 (-59)). assert (SZ := near_size N ltac:(lra)).
  rewrite (Rabs_pos_eq (distance _ _)) in SZ by lra. rewrite Rabs_pos_eq in SZ by (apply Rlt_le; eapply near_pos; [exact N|lra|lra]).
  assert (Z1 := bpow_twice (-60)). change (-60 + 1)%Z with (-59)%Z in Z1. assert (Z2 := bpow_twice 59). change (59 + 1)%Z with 60%Z in Z2. lra.
Qed.

(** A case: the row of cells 9, 5, 1 with centres (0, 0), (1, 0), (3, 0) *)
Module ExNum.
  Import PropsFloat.ExF PropsRainF.ExRain.
  Definition centers3 : list point64 := [(dbl 0 0, dbl 0 0); (dbl 1 0, dbl 0 0); (dbl 3 0, dbl 0 0)].
  Lemma val0 : val (dbl 0 0) = 0%R.
  Proof. reflexivity. Qed.
  Lemma val3 : val (dbl 3 0) = 3%R.
  Proof. rewrite (@val_of (dbl 3 0) 6755399441055744 (-51)) by (vm_compute; reflexivity). unfold F2R. simpl. lra. Qed.
  Lemma big400 x : (Rabs x <= 16)%R -> (Rabs x <= bpow radix2 400)%R.
  Proof. intros H. apply Rle_trans with (bpow radix2 4); [simpl; lra|apply bpow_le; lia]. Qed.
  Lemma small400 x : (1 <= Rabs x)%R -> (bpow radix2 (-400) <= Rabs x)%R.
  Proof. intros H. apply Rle_trans with 1%R; [|exact H]. change 1%R with (bpow radix2 0). apply bpow_le. lia. Qed.
  Ltac vals := rewrite ?val0, ?val1, ?val3, ?val5, ?val9.
  Lemma good_pt k : k < 3 -> good_point (at64 centers3 k).
  Proof.
    intros L. destruct k as [|[|[|k]]]; [| | |lia]; (split; [reflexivity|]; split; [reflexivity|]); split; apply big400;
      cbn [at64 centers3 nth fst snd]; vals; rewrite Rabs_pos_eq; lra.
  Qed.
  Lemma near3 c n : adjacent (queen 1 3) c n -> (c = 0 /\ n = 1) \/ (c = 1 /\ n = 0) \/ (c = 1 /\ n = 2) \/ (c = 2 /\ n = 1).
  Proof.
    intros [l [E I]]. destruct c as [|[|[|c]]]; cbn in E; try (injection E as <-); cbn in I.
    - intuition lia.
    - intuition lia.
    - intuition lia.
    - destruct c; discriminate.
  Qed.
  Lemma far x y : (1 <= Rabs (val x - val y))%R -> differ x y.
  Proof. intros H. right. now apply small400. Qed.
  Lemma apart3 c n : adjacent (queen 1 3) c n -> apart (at64 centers3 c) (at64 centers3 n).
  Proof.
    assert (S : forall a b, a < 3 -> b < 3 -> (1 <= Rabs (val (fst (at64 centers3 a)) - val (fst (at64 centers3 b))))%R -> snd (at64 centers3 a) = snd (at64 centers3 b) ->
       apart (at64 centers3 a) (at64 centers3 b)).
    { intros a b La Lb H E. split; [now apply good_pt|]. split; [now apply good_pt|]. split; [now apply far|]. split; [left; now rewrite E|].
      intros X. apply (f_equal fst) in X. cbn [real_point fst] in X. rewrite X in H. rewrite Rminus_eq_0, Rabs_R0 in H. lra. }
    intros A. apply near3 in A. destruct A as [[-> ->]|[[-> ->]|[[-> ->]|[-> ->]]]]; apply S; try lia; try reflexivity;
      cbn [at64 centers3 nth fst snd]; vals; unfold Rabs; destruct Rcase_abs; lra.
  Qed.
  Lemma good3 : good_grid centers3 dem3 (queen 1 3).
  Proof.
    split.
    - exact apart3.
    - intros c z H. split; [eapply fin3; eauto|]. apply big400.
      destruct c as [|[|[|c]]]; [apply some_inj in H; subst z ..|destruct c; discriminate]; vals; rewrite Rabs_pos_eq; lra.
    - intros c n zc zn A Hc Hn. apply far. apply near3 in A.
      destruct A as [[-> ->]|[[-> ->]|[[-> ->]|[-> ->]]]]; cbn [nth_error dem3 map z] in Hc, Hn; apply some_inj in Hc; apply some_inj in Hn; subst zc zn;
        vals; unfold Rabs; destruct Rcase_abs; lra.
  Qed.
  Example terrain33 : terrain_ok Fops not_nan thr (dist64 centers3) dem3 (queen 1 3) [].
  Proof.
    apply terrain_checked_b64; [exact fin3| |vm_compute; reflexivity].
    intros c n A. destruct (C138_distance (apart_sym (apart3 A))) as (F & P & _). auto.
  Qed.
  Example C139_case : exists fdir nb', run Fops 100 (dist64 centers3) dem3 (queen 1 3) thr [] = Ok (fdir, nb') /\ nth_error fdir 0 = Some 1%Z.
  Proof.
    destruct (C61_always_computed b64_order terrain33 steps3) as [fdir [nb' [E _]]]. exists fdir, nb'. split; [exact E|].
    assert (LW : forall c, lowest Fops dem3 c <-> c = 2).
    { intros c. rewrite <- (proj1 (proj2 (mins_spec b64_order terrain33))). assert (X : mins Fops dem3 = [2]) by (vm_compute; reflexivity). rewrite X. cbn. intuition lia. }
    assert (DD : distance (real_point (at64 centers3 0)) (real_point (at64 centers3 1)) = 1%R).
    { unfold distance, real_point. cbn [at64 centers3 nth fst snd]. vals. replace ((0 - 1) ^ 2 + (0 - 0) ^ 2)%R with (1 * 1)%R by ring. apply sqrt_square. lra. }
    apply (@C139_clear_winner centers3 dem3 (queen 1 3) thr [] good3 100 fdir nb' terrain33 steps3 E 0 1 4%R).
    - apply rows_nodup. vm_compute. reflexivity.
    - eexists. reflexivity.
    - rewrite LW. lia.
    - intros [].
    - now apply adj_nth; vm_compute; auto.
    - exists (dbl 9 0), (dbl 5 0). split; [reflexivity|]. split; [reflexivity|]. rewrite DD. vals. lra.
    - lra.
    - intros n d A NE. apply near3 in A. exfalso. lia.
  Qed.
End ExNum.
