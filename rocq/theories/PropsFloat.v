(** The fill and flow-direction properties for IEEE 754 binary64, the arithmetic NumPy uses:
    no exact-arithmetic assumption.  (Elevations without NaN; NaN cells: C132-C134 in PropsNanFillF for filling; C59-C66 also cover NaN cells,
    which the model represents by [None].) *)
From Coq Require Import ZArith Reals Lra Lia String.
From Flocq Require Import Core.Core IEEE754.BinarySingleNaN.
From Verif Require Import Py Spec MFlow MDir MFill Grids LGraph LFill LDir LDir2 LDir3 LDir4 PropsFill PropsFill2 PropsDir LFloat.
Set Implicit Arguments.
Unset Strict Implicit.
Local Open Scope nat_scope.
Local Open Scope list_scope.
Local Notation length := List.length.
Local Notation is_nan := Spec.is_nan.

(** C01, C02, C03, C05 for doubles: priority filling with any finite eps >= 0 *)
Theorem C03_binary64 : forall iverts nb (dem : list b64) eps fuel,
  Forall not_nan dem -> finite eps -> (0 <= val eps)%R ->
  grid_of iverts nb (length dem) -> length dem <= fuel ->
  exists out, fill_sinks Felev fuel iverts nb dem eps None "priority" = Ok out /\
    Forall2 (fun x y => f_le x y = true) dem out /\
    (forall n, boundary_cell iverts n -> nth_error out n = nth_error dem n) /\
    (forall n, n < length dem -> reachable (link nb (length dem)) (boundary_cell iverts) n ->
       drains f_le (link nb (length dem)) (boundary_cell iverts) out n) /\
    ((bpow radix2 (-20) <= val eps)%R ->
     Forall (fun x => finite x /\ (Rabs (val x) <= bpow radix2 30)%R) out ->
     forall n, n < length dem -> reachable (link nb (length dem)) (boundary_cell iverts) n ->
       drains f_lt (link nb (length dem)) (boundary_cell iverts) out n).
Proof.
  intros iverts nb dem eps fuel ND Fe He G FU.
  assert (SE : step_eps Felev "priority" eps = eps) by reflexivity.
  assert (LW : elev_laws Felev not_nan rank (step_eps Felev "priority" eps)) by (rewrite SE; now apply b64_laws).
  assert (FM : flood_method "priority" None) by now left.
  destruct (C03_priority_removes_sinks eps LW ND G FM FU) as [out [E [D1 D2]]].
  destruct (C01_flood_never_lowers eps (mask := None) LW ND G Logic.I FM FU) as [o1 [E1 [_ F2]]].
  destruct (C02_flood_keeps_rim eps LW ND G FM FU) as [o2 [E2 [R _]]].
  assert (o1 = out) by congruence. assert (o2 = out) by congruence. subst o1 o2.
  exists out. split; [exact E|]. split; [exact F2|]. split; [exact R|]. split; [exact D1|].
  intros HE HO. apply D2. intros x Hx. rewrite SE. rewrite Forall_forall in HO. destruct (HO x Hx) as [A B].
  now apply add_effective.
Qed.

(** C04 for doubles: complete filling gives exactly the spill elevation *)
Theorem C04_binary64 : forall iverts nb (dem : list b64) eps fuel,
  Forall not_nan dem -> grid_of iverts nb (length dem) -> length dem <= fuel ->
  exists out, fill_sinks Felev fuel iverts nb dem eps None "complete" = Ok out /\ length out = length dem /\
    forall n y, reachable (link nb (length dem)) (boundary_cell iverts) n -> nth_error out n = Some y ->
      is_spill f_le (link nb (length dem)) (boundary_cell iverts) dem n y.
Proof.
  intros iverts nb dem eps fuel ND G FU.
  assert (LW : elev_laws Felev not_nan rank (e_zero Felev)) by (apply b64_laws; [reflexivity|cbn; lra]).
  exact (C04_complete_is_spill eps "complete" eq_refl LW b64_null ND G FU).
Qed.

(** C09 for doubles: 'complete' leaves no pit on the stream line, 'priority' at most one of depth eps *)
Theorem C09_binary64 : forall iverts nb (dem : list b64) eps m fuel,
  Forall not_nan dem -> grid_of iverts nb (length dem) -> symmetric_grid nb -> length m = length dem -> length dem <= fuel ->
  finite eps -> (0 <= val eps)%R ->
  (exists out, fill_sinks Felev fuel iverts nb dem eps (Some m) "complete" = Ok out /\ length out = length dem /\
    forall c x, stream m c -> two_stream_neighbours nb m c -> nth_error out c = Some x ->
      exists n y, adjacent nb c n /\ stream m n /\ nth_error out n = Some y /\ f_le y x = true) /\
  (exists out, fill_sinks Felev fuel iverts nb dem eps (Some m) "priority" = Ok out /\ length out = length dem /\
    forall c x, stream m c -> two_stream_neighbours nb m c -> nth_error out c = Some x ->
      exists n y, adjacent nb c n /\ stream m n /\ nth_error out n = Some y /\ f_le y (f_add x eps) = true).
Proof.
  intros iverts nb dem eps m fuel ND G SY Lm FU Fe He. split.
  - assert (LW : elev_laws Felev not_nan rank (e_zero Felev)) by (apply b64_laws; [reflexivity|cbn; lra]).
    exact (C09_complete_has_no_stream_pits eps (method := "complete") eq_refl LW b64_null ND G SY Lm FU).
  - exact (C09_at_most_eps_below (method := "priority") (b64_laws Fe He) ND G SY Lm FU).
Qed.

(** C10, C12 for doubles: draining returns, and with eps = 0 it agrees with complete filling *)
Theorem C10_binary64 : forall iverts nb (dem : list b64) eps,
  Forall not_nan dem -> finite eps -> (0 <= val eps)%R ->
  grid_of iverts nb (length dem) -> neighbours_in nb (length dem) ->
  exists f0 out, forall fuel, f0 <= fuel -> fill_sinks Felev fuel iverts nb dem eps None "drain" = Ok out.
Proof.
  intros iverts nb dem eps ND Fe He G NI.
  apply (C10_drain_terminates (b64_laws Fe He) ND G NI).
  intros [X|[X|X]]; try discriminate. now destruct X.
Qed.

(** what flow_directions needs of a grid of doubles: finite elevations and distances *)
Lemma slope_ok_b64 thr dist (dem : list (option b64)) nb :
  (forall c z, nth_error dem c = Some (Some z) -> finite z) ->
  (forall c n, adjacent nb c n -> finite (dist c n) /\ (0 < val (dist c n))%R) ->
  forall c n s, adjacent nb c n -> slope_to Fops thr dist dem c n s -> not_nan s.
Proof.
  intros HE HD c n s A [zc [zn [Hc [Hn E]]]]. destruct (HD c n A) as [D1 D2]. cbv zeta in E. subst s. cbn [Fops o_div o_sub o_lt o_zero].
  apply div_ok; auto. destruct (_ && _); [reflexivity|]. apply sub_ok; eauto.
Qed.

Lemma slope_sign_b64 thr dist (dem : list (option b64)) nb :
  (forall c z, nth_error dem c = Some (Some z) -> finite z) ->
  (forall c n, adjacent nb c n -> finite (dist c n) /\ (0 < val (dist c n))%R) ->
  forall c n s, adjacent nb c n -> slope_to Fops thr dist dem c n s ->
    o_lt Fops s (o_zero Fops) = true -> below Fops dem n c = true.
Proof.
  intros HE HD c n s A [zc [zn [Hc [Hn E]]]] L. destruct (HD c n A) as [D1 D2].
  cbv zeta in E. subst s. cbn [Fops o_div o_sub o_lt o_zero] in *.
  assert (Fc := HE _ _ Hc). assert (Fn := HE _ _ Hn). assert (SO := sub_ok Fn Fc).
  unfold below. apply nth_opt in Hc, Hn. rewrite Hc, Hn. cbn [Fops o_lt].
  destruct (_ && _).
  - apply div_neg in L; auto; [|reflexivity]. exfalso. now vm_compute in L.
  - apply div_neg in L; auto. now apply sub_neg.
Qed.

(** C64 for doubles.  [steeper] cells: the computed slope to some neighbour is negative (for a
    drop of at least 2^-1000 over at most 2^60 it is, see [slope_neg]) *)
Theorem C64_binary64 :
  forall thr dist dem nb terminals fuel fdir nb',
  terrain_ok Fops not_nan thr dist dem nb terminals ->
  (forall c z, nth_error dem c = Some (Some z) -> finite z) ->
  (forall c n, adjacent nb c n -> finite (dist c n) /\ (0 < val (dist c n) <= bpow radix2 60)%R) ->
  (forall l, In l nb -> NoDup l) ->
  let base c := lowest Fops dem c \/ In (Z.of_nat c) terminals in
  (forall c, is_valid dem c -> ~ base c ->
     exists n zc zn, adjacent nb c n /\ nth_error dem c = Some (Some zc) /\
       nth_error dem n = Some (Some zn) /\ (val zn + bpow radix2 (-1000) <= val zc)%R) ->
  (forall c x n, base c -> n <> c -> steepest Fops thr dist dem nb x c -> ~ steepest Fops thr dist dem nb x n) ->
  enough_steps nb fuel ->
  run Fops fuel dist dem nb thr terminals = Ok (fdir, nb') ->
  (forall c, nth_error fdir c <> Some (-2)%Z) /\
  (forall c, is_valid dem c -> ~ base c ->
     exists n zc zn, nth_error fdir c = Some (Z.of_nat n) /\ adjacent nb c n /\
       nth_error dem c = Some (Some zc) /\ nth_error dem n = Some (Some zn) /\ (val zn < val zc)%R) /\
  (forall c, is_valid dem c -> exists k t, downs fdir k c = t /\ base t /\ nth_error fdir t = Some (Z.of_nat t)) /\
  acyclic fdir.
Proof.
  intros thr dist dem nb terminals fuel fdir nb' TR HE HD ND base HS HF FU Hrun.
  assert (HD' : forall c n, adjacent nb c n -> finite (dist c n) /\ (0 < val (dist c n))%R).
  { intros c n A. destruct (HD c n A) as [X [Y _]]. auto. }
  assert (SIGN := slope_sign_b64 (thr := thr) (dist := dist) (nb := nb) HE HD').
  assert (FREE : forall c, start_cell Fops dem terminals c -> ~ contested Fops thr dist dem nb c).
  { intros c S [x [n [H1 [H2 H3]]]]. now apply (HF c x n). }
  assert (DOWN : forall c, is_valid dem c -> ~ start_cell Fops dem terminals c ->
    exists n s, adjacent nb c n /\ slope_to Fops thr dist dem c n s /\ o_lt Fops s (o_zero Fops) = true).
  { intros c V NS. destruct (HS c V NS) as [n [zc [zn [A [Hc [Hn L]]]]]]. exists n.
    destruct (HD c n A) as [D1 D2]. eexists. split; auto. split; [exists zc, zn; split; auto; split; auto; reflexivity|].
    cbn [Fops o_lt o_sub o_div o_zero].
    assert (Fc := HE _ _ Hc). assert (Fn := HE _ _ Hn). assert (SO := sub_ok Fn Fc).
    assert (P := bpow_gt_0 radix2 (-1000)).
    assert (NB : f_lt f_zero (f_sub zn zc) = false).
    { destruct (f_lt f_zero (f_sub zn zc)) eqn:E; auto. exfalso.
      assert (NEG : f_lt (f_sub zn zc) f_zero = true).
      { apply (@div_neg _ (dist c n)); auto; [apply D2|]. apply slope_neg; auto. }
      assert (X := ol_asym b64_order (x := f_zero) (y := f_sub zn zc) (eq_refl : not_nan f_zero) SO E). cbn [Fops o_lt] in X. congruence. }
    rewrite NB, andb_false_r. apply slope_neg; auto. }
  assert (Z0 : not_nan (o_zero Fops)) by reflexivity.
  assert (NS2 : forall c, nth_error fdir c <> Some (-2)%Z).
  { intros c E. destruct (unpack b64_order TR FU Hrun) as [s0 [fcells [L0 [P0 I]]]]. assert (L := l_len I). cbn [fst] in L.
    assert (Hc : c < length dem) by (rewrite <- L; apply nth_error_Some; congruence).
    destruct (C59_steepest_neighbour b64_order TR FU Hrun Hc) as [[X _]|[[X V]|[n [X _]]]]; rewrite E in X; inversion X; try lia.
    destruct (@downhill b64 Fops _ b64_order thr dist dem nb terminals TR fuel FU ND) with (fdir := fdir) (nb' := nb') (c := c)
      as [[_ Y]|[_ [n [Y _]]]]; auto; try (rewrite E in Y; inversion Y; lia).
    exact (drop_all b64_order TR SIGN Z0 DOWN). }
  split; auto. split; [|split].
  - intros c V NS. destruct (paths_descend b64_order TR FU ND SIGN Z0 DOWN FREE Hrun V NS) as [n [zc [zn [A [B [C [D E]]]]]]].
    exists n, zc, zn. split; auto. split; auto. split; auto. split; auto. apply lt_val; eauto.
  - intros c V. apply (path_ends b64_order TR FU ND SIGN Z0 DOWN FREE Hrun (k := S (cnt Fops dem c))); auto.
  - apply (no_cycles b64_order TR FU ND SIGN Z0 DOWN FREE Hrun).
Qed.

(** C65 (part) for doubles: priority fill with eps >= 2^-20, then flow_directions *)
Theorem C65_binary64_partial :
  forall iverts nb dem eps ffuel out thr dist terminals fuel fdir nb',
  grid_of iverts nb (length dem) -> symmetric_grid nb ->
  (forall n, n < length dem -> reachable (link nb (length dem)) (boundary_cell iverts) n) ->
  Forall not_nan dem -> finite eps -> (bpow radix2 (-20) <= val eps)%R -> length dem <= ffuel ->
  fill_sinks Felev ffuel iverts nb dem eps None "priority" = Ok out ->
  Forall (fun x => finite x /\ (Rabs (val x) <= bpow radix2 30)%R) out ->
  (forall x y, In x out -> In y out -> (val x < val y)%R -> (val x + bpow radix2 (-1000) <= val y)%R) ->
  let filled := map Some out in
  terrain_ok Fops not_nan thr dist filled nb terminals ->
  (forall c n, adjacent nb c n -> finite (dist c n) /\ (0 < val (dist c n) <= bpow radix2 60)%R) ->
  (forall l, In l nb -> NoDup l) ->
  let base c := lowest Fops filled c \/ In (Z.of_nat c) terminals in
  (forall c, boundary_cell iverts c -> ~ base c ->
     exists n zc zn, adjacent nb c n /\ nth_error out c = Some zc /\ nth_error out n = Some zn /\ (val zn < val zc)%R) ->
  (forall c x n, base c -> n <> c -> steepest Fops thr dist filled nb x c -> ~ steepest Fops thr dist filled nb x n) ->
  enough_steps nb fuel ->
  run Fops fuel dist filled nb thr terminals = Ok (fdir, nb') ->
  acyclic fdir /\ (forall c, nth_error fdir c <> Some (-2)%Z) /\
  (forall c, c < length dem -> exists k t, downs fdir k c = t /\ base t /\ nth_error fdir t = Some (Z.of_nat t)).
Proof.
  intros iverts nb dem eps ffuel out thr dist terminals fuel fdir nb' G SY RE NN Fe He FF Hfill OB GAP filled TR DP ND base RIM FREE FU Hrun.
  assert (P20 := bpow_gt_0 radix2 (-20)).
  destruct (@C03_binary64 iverts nb dem eps ffuel NN Fe) as [o [E [F2 [_ [_ DR]]]]]; auto; [lra|].
  assert (o = out) by congruence. subst o. specialize (DR He OB).
  assert (NT : forall c z, nth_error filled c = Some (Some z) <-> nth_error out c = Some z).
  { intros c z. unfold filled. rewrite nth_error_map. destruct (nth_error out c); cbn; split; congruence. }
  assert (FO : forall c z, nth_error out c = Some z -> finite z).
  { intros c z H. apply nth_error_In in H. rewrite Forall_forall in OB. now apply OB. }
  assert (LO : length out = length dem) by (clear - F2; induction F2; simpl; congruence).
  assert (DN : forall c, is_valid filled c -> ~ base c ->
     exists n zc zn, adjacent nb c n /\ nth_error filled c = Some (Some zc) /\
       nth_error filled n = Some (Some zn) /\ (val zn + bpow radix2 (-1000) <= val zc)%R).
  { intros c V NB. assert (Hc := val_lt V). unfold filled in Hc. rewrite map_length, LO in Hc.
    destruct (DR c Hc (RE c Hc)) as [s Hs|c' n x y _ [LK _] Hx Hy HL].
    - destruct (RIM s Hs NB) as [n [zc [zn [A [B [C L]]]]]]. exists n, zc, zn. rewrite !NT. split; auto. split; auto. split; auto.
      apply GAP; auto; eapply nth_error_In; eauto.
    - exists c', y, x. rewrite !NT. split; [now apply SY|]. split; auto. split; auto.
      apply GAP; try (eapply nth_error_In; eauto). apply lt_val; eauto. }
  assert (HE : forall c z, nth_error filled c = Some (Some z) -> finite z) by (intros c z H; apply NT in H; eauto).
  destruct (C64_binary64 TR HE DP ND DN FREE FU Hrun) as [A [_ [B C]]].
  split; auto. split; auto. intros c Hc. apply B.
  destruct (nth_error out c) as [z|] eqn:Ez; [exists z; now apply NT|].
  apply nth_error_None in Ez. lia.
Qed.

(** ** Worked cases *)
Lemma gap_rank x y : finite x -> finite y -> (rank x + 2 ^ 74 <= rank y)%Z -> (val x + bpow radix2 (-1000) <= val y)%R.
Proof.
  intros Fx Fy H. apply IZR_le in H. rewrite plus_IZR, !rank_val in H by auto.
  change (2 ^ 74)%Z with (radix2 ^ 74)%Z in H. rewrite IZR_Zpower in H by lia.
  assert (P := bpow_gt_0 radix2 1074). apply Rmult_le_reg_r with (bpow radix2 1074); auto.
  rewrite Rmult_plus_distr_r, <- bpow_plus. change (-1000 + 1074)%Z with 74%Z. exact H.
Qed.

Definition terrain_check_b64 (thr : b64) (dist : nat -> nat -> b64) (dem : list (option b64)) (nb : list (list nat)) (terminals : list Z) : bool :=
  let N := length dem in
  let sl := slope f_sub f_div f_lt f_zero f_big N thr dist dem in
  Nat.eqb (length nb) N
  && forallb (forallb (fun n => n <? N)) nb
  && existsb (fun l => negb (Nat.eqb (length l) 0)) nb
  && existsb (fun v => match v with Some z => f_lt z f_big | None => false end) dem
  && forallb (fun c => match nth c dem None with
                       | None => true
                       | Some _ => existsb (fun n => match sl c n with Some s => f_lt s f_big | None => false end) (nth c nb [])
                                   || forallb (fun l => length l <=? length (nth c nb [])) nb
                       end) (seq 0 N)
  && forallb (fun t => (0 <=? t)%Z && (t <? Z.of_nat N)%Z) terminals
  && (Z.of_nat N <? 999000)%Z.

Lemma terrain_checked_b64 thr dist dem nb terminals :
  (forall c z, nth_error dem c = Some (Some z) -> finite z) ->
  (forall c n, adjacent nb c n -> finite (dist c n) /\ (0 < val (dist c n))%R) ->
  terrain_check_b64 thr dist dem nb terminals = true -> terrain_ok Fops not_nan thr dist dem nb terminals.
Proof.
  intros HE HD. unfold terrain_check_b64. rewrite !andb_true_iff. intros [[[[[[H1 H2] H3] H4] H5] H6] H7].
  apply Nat.eqb_eq in H1. rewrite forallb_forall in H2, H5, H6. apply Z.ltb_lt in H7.
  assert (NBL : forall c n, adjacent nb c n -> n < length dem).
  { intros c n [l [E Hn]]. apply nth_error_In in E. specialize (H2 l E). rewrite forallb_forall in H2. apply Nat.ltb_lt. auto. }
  constructor; auto.
  - intros c n _ A. eapply NBL; eauto.
  - apply existsb_exists in H3. destruct H3 as [l [Hl Hn]]. apply In_nth_error in Hl. destruct Hl as [c Hc].
    destruct l as [|n l]; [discriminate|]. exists c, n, (n :: l). split; auto. now left.
  - intros c z H. apply fin_ok. eauto.
  - now apply slope_ok_b64.
  - reflexivity.
  - apply existsb_exists in H4. destruct H4 as [[z|] [Hz L]]; [|discriminate]. apply In_nth_error in Hz. destruct Hz as [c Hc].
    exists c, z. auto.
  - intros c V. assert (Hc := val_lt V). destruct V as [z V]. assert (X := H5 c). rewrite in_seq in X.
    specialize (X ltac:(lia)). assert (V' := V). apply nth_opt in V'. rewrite V' in X. apply orb_true_iff in X. destruct X as [X|X].
    + left. apply existsb_exists in X. destruct X as [n [Hn X]].
      destruct (slope f_sub f_div f_lt f_zero f_big (length dem) thr dist dem c n) as [s|] eqn:Es; [|discriminate].
      apply adj_nth in Hn. exists n, s. split; auto. split; auto.
      now apply (slope_spec Fops thr dist (dem := dem) c s (NBL c n Hn)).
    + right. intros c' l l' E1 E2. apply (nth_error_nth _ _ []) in E1. subst l. rewrite forallb_forall in X.
      apply Nat.leb_le. apply X. eapply nth_error_In; eauto.
  - intros t Ht. specialize (H6 t Ht). apply andb_true_iff in H6. destruct H6 as [A B]. apply Z.leb_le in A. apply Z.ltb_lt in B. lia.
Qed.

Module ExF.
  (** the double nearest to m * 2^e *)
  Definition dbl (m e : Z) : b64 := binary_normalize 53 1024 _ _ mode_NE m e false.
  Definition z (l : list Z) : list b64 := map (fun k => dbl k 0) l.
  Definition show (l : list b64) := map (@B2SF 53 1024) l.
  (** 2e-6, the default increment, as the double nearest to it *)
  Definition eps6 : b64 := dbl 4722366482869645 (-71).

  (** a 3x3 grid with a pit in the middle: the pit is raised to 7 + eps, rounded *)
  Example C03_case :
    match fill_sinks Felev 9 (quad_iverts 3 3) (queen 3 3) (z [9; 9; 9; 9; 5; 7; 9; 9; 9]%Z) eps6 None "priority" with
    | Ok out => show out | Err _ => [] end
    = show [dbl 9 0; dbl 9 0; dbl 9 0; dbl 9 0; f_add (dbl 7 0) eps6; dbl 7 0; dbl 9 0; dbl 9 0; dbl 9 0].
  Proof. vm_compute. reflexivity. Qed.

  Definition one (_ _ : nat) : b64 := dbl 1 0.
  Definition thr : b64 := dbl 1 (-20).
  Definition dem3 : list (option b64) := map Some (z [9; 5; 1]%Z).
  Lemma one_ok : finite (dbl 1 0) /\ (0 < val (dbl 1 0) <= bpow radix2 60)%R.
  Proof.
    split; [reflexivity|].
    assert (V : val (dbl 1 0) = 1%R).
    { assert (F : finite (dbl 1 0)) by reflexivity. assert (R := rank_val F).
      assert (RK : rank (dbl 1 0) = (radix2 ^ 1074)%Z) by (vm_compute; reflexivity).
      rewrite RK, IZR_Zpower in R by lia. assert (P := bpow_gt_0 radix2 1074).
      apply Rmult_eq_reg_r with (bpow radix2 1074); lra. }
    rewrite V. split; [lra|]. change 1%R with (bpow radix2 0). apply bpow_le. lia.
  Qed.
  Lemma fin3 c q : nth_error dem3 c = Some (Some q) -> finite q.
  Proof. intros H. do 3 (destruct c as [|c]; [inversion H; reflexivity|]). destruct c; discriminate. Qed.
  Example terrain3 : terrain_ok Fops not_nan thr one dem3 (queen 1 3) [].
  Proof.
    apply terrain_checked_b64; [exact fin3|intros; split; apply one_ok|vm_compute; reflexivity].
  Qed.
  Lemma low3 c : lowest Fops dem3 c <-> c = 2.
  Proof. rewrite <- (proj1 (proj2 (mins_spec b64_order terrain3))).
    assert (E : mins Fops dem3 = [2]) by (vm_compute; reflexivity). rewrite E. cbn. intuition lia. Qed.
  Definition targets3 : list (list nat) := [[1]; [2]; [1]].
  Lemma targets3_ok : map (tg (pad_neighbors 3 (queen 1 3)) (F0 Fops thr one dem3 (queen 1 3))) (seq 0 3) = targets3.
  Proof. vm_compute. reflexivity. Qed.
  Lemma steep3 x n : steepest Fops thr one dem3 (queen 1 3) x n -> In n (nth x targets3 []).
  Proof.
    intros S. assert (V := proj1 (steep_valid S)). apply (tg_steep b64_order terrain3 n V) in S.
    assert (L := val_lt V). change (length dem3) with 3 in *. rewrite <- targets3_ok.
    rewrite nth_indep with (d' := tg (pad_neighbors 3 (queen 1 3)) (F0 Fops thr one dem3 (queen 1 3)) 0) by (rewrite map_length, seq_length; lia).
    rewrite map_nth, seq_nth by lia. exact S.
  Qed.
  Lemma steps3 : enough_steps (queen 1 3) 100.
  Proof. exists 2. split; [|vm_compute; lia]. intros l Hl. vm_compute in Hl. repeat destruct Hl as [<-|Hl]; cbn; try lia; try destruct Hl. Qed.
  (** C64 for doubles applies to this row of cells *)
  Example C64_case : exists fdir nb', run Fops 100 one dem3 (queen 1 3) thr [] = Ok (fdir, nb') /\ acyclic fdir.
  Proof.
    destruct (C61_always_computed b64_order terrain3 steps3) as [fdir [nb' [E _]]]. exists fdir, nb'. split; [exact E|].
    refine (proj2 (proj2 (proj2 (C64_binary64 terrain3 fin3 (fun _ _ _ => one_ok) _ _ _ steps3 E)))).
    - apply rows_nodup. vm_compute. reflexivity.
    - intros c V NB. assert (L := val_lt V). change (length dem3) with 3 in *.
      assert (NC : c <> 2) by (intros ->; apply NB; left; now apply low3).
      destruct c as [|[|c]]; [| |lia].
      + exists 1, (dbl 9 0), (dbl 5 0). split; [now apply adj_nth; vm_compute; auto|]. split; [reflexivity|]. split; [reflexivity|].
        apply gap_rank; [reflexivity|reflexivity|]. apply Z.leb_le. vm_compute. reflexivity.
      + exists 2, (dbl 5 0), (dbl 1 0). split; [now apply adj_nth; vm_compute; auto|]. split; [reflexivity|]. split; [reflexivity|].
        apply gap_rank; [reflexivity|reflexivity|]. apply Z.leb_le. vm_compute. reflexivity.
    - intros c x n [H|[]] Hne S1 S2. apply low3 in H. subst c. apply steep3 in S1, S2.
      destruct x as [|[|[|x]]]; cbn in S1, S2; try intuition lia. destruct x; destruct S1.
  Qed.
End ExF.
Print Assumptions C65_binary64_partial.
