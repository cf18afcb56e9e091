(** C99 and C137 for IEEE 754 binary64. *)
From Coq Require Import Reals Lra Relations.Relation_Operators Relations.Operators_Properties.
From Flocq Require Import Core.Core Relative IEEE754.BinarySingleNaN.
From Verif Require Import Py Spec Grids MFlow MDir MStream MSobj LGraph LStream LCasc LAcc2 LDir4 PropsAcc PropsAcc2 PropsStream PropsCasc PropsCasc2
  PropsCascF LSum LSumF LFloat PropsFloat PropsAccF PropsWorld3 PropsWorldF PropsDir PropsSobj LCircle PropsCircle PropsCircleF.
Set Implicit Arguments.
Unset Strict Implicit.
Local Open Scope nat_scope.
Local Open Scope list_scope.
Local Notation length := List.length.

(** ** The records of one cell, any arithmetic *)
Lemma mapM_each {A B} (f : A -> res B) l ys x : mapM f l = Ok ys -> In x l -> exists y, f x = Ok y /\ In y ys.
Proof.
  revert ys. induction l as [|a l IH]; intros ys H I; [destruct I|]. cbn [mapM] in H.
  apply bind_ok in H. destruct H as [y [Ey H]]. apply bind_ok in H. destruct H as [ys' [E H]]. injection H as <-.
  destruct I as [->|I]; [exists y; split; [auto|now left]|]. destruct (IH _ E I) as [z [Z1 Z2]]. exists z. split; [auto|now right].
Qed.

Section Records.
  Context {F : Type} (fone : F) (fabs : F -> F) (fsum : list F -> F)
          (fdiv : F -> F -> option F) (fle0 fkeep : F -> bool).
  Notation flandscape := (landscape fabs fsum fdiv fle0 fkeep).
  Notation fmany := (cascades_many fone fabs fsum fdiv fle0 fkeep).
  Variables (fdir strm : list Z) (slopes : list (list (option F))) (fnb : list (list Z)).

  (** every element of a cell's block is in the result *)
  Lemma block_record out n : fmany fdir strm None slopes fnb = Ok out -> n < length fdir ->
    exists b, fblock fone fabs fsum fdiv fle0 fkeep strm slopes fnb fdir (n, nth n fdir 0%Z) = Ok b /\
      forall a d f, In (a, d, f) b -> exists s, In (a + 1, d + 1, f, s)%Z out.
  Proof.
    intros H Hn. unfold cascades_many in H. apply bind_ok in H. destruct H as [c [E H]].
    apply fblocks in E. destruct E as [m [bs [Em [E ->]]]]. injection Em as <-.
    assert (I : In (n, nth n fdir 0%Z) (combine (seq 0 (length fdir)) fdir)).
    { replace (n, nth n fdir 0%Z) with (nth n (combine (seq 0 (length fdir)) fdir) (0, 0%Z)).
      - apply nth_In. rewrite combine_length, seq_length. lia.
      - rewrite combine_nth by now rewrite seq_length. now rewrite seq_nth. }
    destruct (mapM_each E I) as [b [Eb Ib]]. exists b. split; [auto|]. intros a d f X.
    assert (IC : In (a, d, f) (concat bs)) by (apply in_concat; eexists; split; [exact Ib|exact X]).
    unfold finish_cascades in H. destruct (mapM_each H IC) as [y [Ey Iy]].
    apply bind_ok in Ey. destruct Ey as [s [_ Ey]]. injection Ey as <-. eauto.
  Qed.

  Lemma stream_row out n : valid_fdir fdir -> fmany fdir strm None slopes fnb = Ok out ->
    n < length fdir -> river strm n -> exists s, In (Z.of_nat n + 1, Z.of_nat (down fdir n) + 1, Some fone, s)%Z out.
  Proof.
    intros V H Hn [z [Hz Pz]]. destruct (block_record H Hn) as [b [Eb IB]].
    assert (Vn := proj1 (Forall_forall _ _) V (nth n fdir 0%Z) (nth_In fdir 0%Z Hn)). cbn beta in Vn. unfold fblock in Eb.
    destruct (Z.eqb_spec (nth n fdir 0%Z) (-9)) as [|_]; [lia|].
    assert (ME : memn n (where_ (fun z => 0 <? z)%Z strm) = true).
    { apply existsb_exists. exists n. split; [|apply Nat.eqb_refl]. apply in_where. exists z. split; [auto|now apply Z.ltb_lt]. }
    rewrite ME in Eb. rewrite (npget_pos fdir 0%Z Vn) in Eb. cbn [bind] in Eb. injection Eb as <-.
    assert (Vd : (0 <= nth (Z.to_nat (nth n fdir 0)) fdir 0 < Z.of_nat (length fdir))%Z).
    { apply (proj1 (Forall_forall _ _) V). apply nth_In. lia. }
    destruct (Z.eqb_spec (nth (Z.to_nat (nth n fdir 0%Z)) fdir 0%Z) (-9)) as [|_]; [lia|].
    destruct (IB _ _ _ (or_introl eq_refl)) as [s X]. exists s. unfold down. rewrite Z2Nat.id by lia. exact X.
  Qed.

  Lemma landscape_row out n row nbs : valid_fdir fdir -> fmany fdir strm None slopes fnb = Ok out ->
    n < length fdir -> ~ river strm n -> nth_error slopes n = Some row -> nth_error fnb n = Some nbs ->
    exists l, flandscape fdir row nbs = Ok l /\
      forall d f, In (d, f) l -> exists s, In (Z.of_nat n + 1, d + 1, f, s)%Z out.
  Proof.
    intros V H Hn NR Er En. destruct (block_record H Hn) as [b [Eb IB]].
    assert (Vn := proj1 (Forall_forall _ _) V (nth n fdir 0%Z) (nth_In fdir 0%Z Hn)). cbn beta in Vn. unfold fblock in Eb.
    destruct (Z.eqb_spec (nth n fdir 0%Z) (-9)) as [|_]; [lia|].
    destruct (memn n _) eqn:ME.
    { exfalso. apply NR. unfold memn in ME. apply existsb_exists in ME. destruct ME as [k [I E]]. apply Nat.eqb_eq in E. subst k.
      apply in_where in I. destruct I as [z [Hz P]]. exists z. split; [auto|now apply Z.ltb_lt]. }
    apply get_ok in Er, En. rewrite Er, En in Eb. cbn [bind] in Eb. apply bind_ok in Eb. destruct Eb as [l [El Eb]]. injection Eb as <-.
    exists l. split; [auto|]. intros d f I. apply (IB (Z.of_nat n) d f). apply in_map_iff. now exists (d, f).
  Qed.

  (** a landscape cell has a receiver if one of the slopes it may use gets more than one percent *)
  Lemma landscape_not_nil m row nbs l k x c : flandscape m row nbs = Ok l ->
    (forall xs, length xs <= length row -> (forall y, In y xs -> In (Some y) row /\ fle0 y = true) -> In x xs ->
       exists y q, In y xs /\ fdiv (fabs y) (fsum (map fabs xs)) = Some q /\ fkeep q = true) ->
    nth_error row k = Some (Some x) -> fle0 x = true -> nth_error nbs k = Some c -> npget m c <> Ok 0%Z -> l <> [].
  Proof.
    intros H SH Ek Ex Ec Nc. unfold landscape in H. set (ft := where_ _ row) in H.
    apply bind_ok in H. destruct H as [conns [EC H]]. apply bind_ok in H. destruct H as [kept [EK H]]. cbn zeta in H.
    set (sl := fold_right _ [] kept) in H.
    assert (FT : forall k', In k' ft -> exists y, nth_error row k' = Some (Some y) /\ fle0 y = true).
    { intros k' Hk. unfold ft in Hk. apply in_where in Hk. destruct Hk as [[y|] [H1 H2]]; [|discriminate]. eauto. }
    assert (IK : In k ft) by (unfold ft; apply in_where; exists (Some x); auto).
    assert (LC : length conns = length ft) by (eapply mapM_length; eauto).
    assert (LFT : length ft <= length row) by (unfold ft; apply where_length).
    assert (HC : forall c s, In (c, s) conns -> exists y, s = Some y /\ In (Some y) row /\ fle0 y = true).
    { intros c' s I. destruct (@mapM_in _ _ _ _ _ _ EC I) as [k' [Hk E]]. destruct (FT k' Hk) as [y [Y1 Y2]].
      apply bind_ok in E. destruct E as [c2 [_ E]]. apply bind_ok in E. destruct E as [s2 [E2 E]]. injection E as _ <-.
      apply get_ok in E2. rewrite Y1 in E2. injection E2 as <-. exists y. split; [auto|]. split; [eapply nth_error_In; eauto|auto]. }
    assert (IC : In (c, Some x) conns).
    { destruct (mapM_each EC IK) as [p [E I]]. apply get_ok in Ec, Ek. rewrite Ec in E. cbn [bind] in E. rewrite Ek in E. cbn [bind] in E.
      injection E as <-. exact I. }
    assert (KE : forall cs acc kept, foldM (fun l p => d <- npget m (fst p) ;; Ok (if (d =? 0)%Z then l else l ++ [p])) cs acc = Ok kept ->
       length kept <= length acc + length cs /\
       (forall p, In p kept -> In p acc \/ In p cs) /\ (forall p : Z * option F, In p acc -> In p kept) /\
       (In (c, Some x) cs -> In (c, Some x) kept)).
    { clear - Nc. induction cs as [|p cs IH]; intros acc kept E; cbn [foldM] in E.
      - injection E as <-. cbn [length]. split; [lia|]. split; [auto|]. split; [auto|easy].
      - apply bind_ok in E. destruct E as [a1 [E1 E]]. apply bind_ok in E1. destruct E1 as [d [Ed E1]]. injection E1 as <-.
        destruct (IH _ _ E) as [L [A [B C]]]. split; [|split; [|split]].
        + destruct (d =? 0)%Z; [cbn [length]; lia|]. rewrite app_length in L. cbn [length] in *. lia.
        + intros q I. destruct (A q I) as [X|X]; [|right; now right]. destruct (d =? 0)%Z; auto. apply in_app_iff in X. destruct X as [X|[<-|[]]]; [auto|right; now left].
        + intros q I. apply B. destruct (d =? 0)%Z; auto. apply in_app_iff. now left.
        + intros [->|I]; [|now apply C]. apply B. cbn [fst] in Ed. destruct (Z.eqb_spec d 0) as [E0|]; [congruence|]. apply in_app_iff. right. now left. }
    destruct (KE _ _ _ EK) as [LK [KC [_ KX]]]. cbn [length] in LK. specialize (KX IC).
    assert (SL : forall p, In p sl <-> In (fst p, Some (snd p)) kept).
    { unfold sl. clear. intros [a y]. cbn [fst snd]. induction kept as [|[b [z|]] kept IH]; cbn [fold_right snd fst In]; [tauto| |].
      - rewrite IH. split; (intros [X|X]; [left; congruence|now right]).
      - rewrite IH. split; [now right|]. intros [X|X]; [discriminate|auto]. }
    assert (LSL : length sl <= length kept).
    { unfold sl. clear. induction kept as [|[b [z|]] kept IH]; cbn [fold_right snd fst length]; lia. }
    destruct (SH (map snd sl)) as [y [q [Iy [Eq Kq]]]].
    { rewrite map_length. lia. }
    { intros y I. apply in_map_iff in I. destruct I as [p [<- I]]. apply SL in I. destruct (KC _ I) as [[]|I2]. destruct (HC _ _ I2) as [z [Ez X]]. injection Ez as ->. exact X. }
    { apply in_map_iff. exists (c, x). split; [auto|]. now apply SL. }
    injection H as <-. unfold fractions. intros X.
    assert (X' : map fst (filter (fun p => match snd p with Some f => fkeep f | None => false end)
       (combine sl (map (fun x => fdiv (fabs x) (fsum (map fabs (map snd sl)))) (map snd sl)))) = []).
    { match goal with |- ?t = [] => set (s2 := t) in * end. destruct s2 as [|p s2]; [auto|]. cbn [map combine] in X. discriminate. }
    apply map_eq_nil in X'. apply in_map_iff in Iy. destruct Iy as [p [<- Ip]].
    assert (I : In (p, fdiv (fabs (snd p)) (fsum (map fabs (map snd sl))))
      (filter (fun p => match snd p with Some f => fkeep f | None => false end)
       (combine sl (map (fun x => fdiv (fabs x) (fsum (map fabs (map snd sl)))) (map snd sl))))).
    { apply filter_In. split; [|cbn [snd]; now rewrite Eq]. generalize (fsum (map fabs (map snd sl))) as T. intros T. rewrite map_map, combine_map_r. apply in_map_iff. now exists p. }
    rewrite X' in I. destruct I.
  Qed.
End Records.

(** ** The largest of at most 99 slopes gets more than one percent *)
Lemma largest (l : list b64) : l <> [] -> exists m, In m l /\ forall y, In y l -> (val y <= val m)%R.
Proof.
  induction l as [|a l IH]; intros N; [now destruct N|]. destruct l as [|b l].
  - exists a. split; [now left|]. intros y [<-|[]]. lra.
  - destruct IH as [m [I L]]; [discriminate|]. destruct (Rle_or_lt (val a) (val m)) as [X|X].
    + exists m. split; [now right|]. intros y [<-|Iy]; auto.
    + exists a. split; [now left|]. intros y [<-|Iy]; [lra|]. specialize (L y Iy). lra.
Qed.

Lemma abs_val x : val (f_abs x) = Rabs (val x).
Proof. apply B2R_Babs. Qed.
Lemma abs_fin x : finite x -> finite (f_abs x).
Proof. unfold finite, f_abs. now rewrite is_finite_Babs. Qed.

Lemma largest_share xs x : length xs <= 99 -> (forall y, In y xs -> finite y /\ (Rabs (val y) <= bpow radix2 1000)%R) ->
  In x xs -> (val x < 0)%R ->
  exists y q, In y xs /\ f_quot (f_abs y) (f_total (map f_abs xs)) = Some q /\ f_keep q = true.
Proof.
  intros L99 HX Ix Nx.
  destruct (@largest (map f_abs xs)) as [a [Ia LA]]; [destruct xs; [destruct Ix|discriminate]|].
  apply in_map_iff in Ia. destruct Ia as [y [<- Iy]]. exists y.
  assert (HA : forall z, In z (map f_abs xs) -> nonneg z /\ finite z /\ (val z <= val (f_abs y))%R).
  { intros z Iz. split; [|split; [|now apply LA]]; apply in_map_iff in Iz; destruct Iz as [z' [<- Iz]]; destruct (HX z' Iz) as [Fz _].
    - apply abs_nonneg. now apply fin_ok.
    - now apply abs_fin. }
  set (M := val (f_abs y)) in *.
  assert (PM : (0 < M)%R).
  { assert (X := LA (f_abs x) (in_map _ _ _ Ix)). rewrite abs_val, Rabs_left in X by auto. lra. }
  assert (BM : (M <= bpow radix2 1000)%R) by (unfold M; rewrite abs_val; now apply HX).
  assert (N1 : forall z, In z (map f_abs xs) -> nonneg z) by (intros z Iz; now apply HA).
  assert (SUM := total_summed (map f_abs xs)). set (T := f_total (map f_abs xs)) in *. rewrite map_length in SUM.
  assert (K : (0 <= INR (length xs) <= 99)%R).
  { split; [apply pos_INR|]. replace 99%R with (INR 99) by (simpl; lra). now apply le_INR. }
  assert (SM : (rsum (map val (map f_abs xs)) <= 99 * M)%R).
  { eapply Rle_trans; [apply (@rsum_le _ M)|].
    - intros v Hv. apply in_map_iff in Hv. destruct Hv as (z & <- & Hz). now apply HA.
    - rewrite !map_length. apply Rmult_le_compat_r; lra. }
  assert (S0 : (0 <= rsum (map val (map f_abs xs)))%R).
  { apply rsum_nonneg. intros v Hv. apply in_map_iff in Hv. destruct Hv as (z & <- & Hz). destruct (HA z Hz) as (Q1 & Q2 & _). now apply nonneg_val. }
  destruct (@sum_close _ _ _ SUM) as [FT W]; [intros z Iz; destruct (HA z Iz) as (? & ? & _); auto|lia| |].
  { eapply Rle_trans; [exact SM|]. replace 1020%Z with (20 + 1000)%Z by lia. rewrite bpow_plus.
    assert (P0 := bpow_gt_0 radix2 1000). change (bpow radix2 20) with 1048576%R. nra. }
  assert (U : (0 < u <= 1 / 10 ^ 15)%R).
  { split; [apply u_pos|]. unfold u. simpl. lra. }
  assert (KU : (0 <= INR (S (length xs)) * u <= 1 / 10 ^ 12)%R) by (rewrite S_INR; split; nra).
  destruct (@within_linear (S (length xs)) _ _ S0 ltac:(lra) W) as [_ BT].
  assert (NT : nonneg T) by (eapply sum_nonneg; [exact SUM|exact N1]).
  assert (GE : f_ge T (f_abs y) = true) by (eapply sum_part; [exact SUM|exact N1|now apply in_map]).
  assert (Ny : nonneg (f_abs y)) by (apply HA; now apply in_map).
  assert (TM : (M <= val T)%R).
  { destruct (Rle_or_lt M (val T)) as [|X]; auto. assert (Fy : finite (f_abs y)) by (apply HA; now apply in_map). apply (val_rank_lt FT Fy) in X. unfold f_ge in GE.
    destruct Ny as [Ny1 _], NT as [NT1 _]. rewrite le_rank in GE by auto. apply Z.leb_le in GE. lia. }
  assert (PT : (0 < val T)%R) by lra.
  destruct (quot_spec Ny NT FT PT GE) as (q & Eq & Fq & Vq & B). exists q. split; [auto|]. split; [auto|].
  unfold f_keep. apply lt_val; [reflexivity|auto|]. rewrite Vq. fold M.
  assert (TB : (val T <= 99 * M * (1 + 2 / 10 ^ 12))%R).
  { set (k := (INR (S (length xs)) * u)%R) in *. nra. }
  assert (X : (0.010101 <= M / val T)%R).
  { apply Rmult_le_reg_r with (val T); auto. unfold Rdiv. rewrite Rmult_assoc, Rinv_l, Rmult_1_r by lra. nra. }
  destruct (@quot_rel (M / val T)) as (e & He & Ee); [lra|]. rewrite Ee. apply Rabs_le_inv in He.
  assert (VP := val_percent). nra.
Qed.

(** C99 for doubles: a landscape cell that has a downhill slope towards a cell that does not flow
    to cell 0 has a cascade *)
Theorem C99_binary64 fone fdir strm slopes fnb out n row nbs k x c :
  valid_fdir fdir ->
  cascades_many fone f_abs f_total f_quot f_le0 f_keep fdir strm None slopes fnb = Ok out ->
  n < length fdir -> ~ river strm n -> nth_error slopes n = Some row -> nth_error fnb n = Some nbs -> length row <= 99 ->
  (forall y, In (Some y) row -> f_le0 y = true -> finite y /\ (Rabs (val y) <= bpow radix2 1000)%R) ->
  nth_error row k = Some (Some x) -> (val x < 0)%R -> nth_error nbs k = Some c -> npget fdir c <> Ok 0%Z ->
  exists d f s, In (Z.of_nat n + 1, d, f, s)%Z out.
Proof.
  intros V H Hn NR Er En L HX Ek Nx Ec Nc.
  destruct (landscape_row V H Hn NR Er En) as [l [El IL]].
  assert (Lx : f_le0 x = true).
  { unfold f_le0. destruct (f_le x f_zero) eqn:E; auto. exfalso.
    assert (NN : not_nan x) by (destruct x; try reflexivity; cbn in Nx; lra).
    rewrite le_rank in E by (auto; reflexivity). apply Z.leb_gt in E.
    assert (Fx : finite x) by (destruct x; try reflexivity; cbn in Nx; lra). apply val_rank_lt in E; [|reflexivity|auto]. cbn in E. cbn in Nx. lra. }
  assert (NE : l <> []).
  { refine (@landscape_not_nil b64 f_abs f_total f_quot f_le0 f_keep fdir row nbs l k x c El _ Ek Lx Ec Nc).
    intros xs L1 HI Ix. apply largest_share with (x := x); auto; [lia|]. intros y Iy. destruct (HI y Iy). auto. }
  destruct l as [|[d f] l]; [now destruct NE|]. destruct (IL d f (or_introl eq_refl)) as [s I]. eauto.
Qed.

(** ** Slopes of terrain with moderate elevations and distances *)
Lemma rnd_bound e x : (-1074 <= e < 1024)%Z -> (Rabs x <= bpow radix2 e)%R -> (Rabs (rnd x) <= bpow radix2 e)%R.
Proof.
  intros H L. apply abs_round_le_generic; [apply (fexp_correct 53 1024); reflexivity|apply valid_rnd_round_mode| |exact L]. apply generic_format_bpow. unfold SpecFloat.fexp, SpecFloat.emin. lia.
Qed.
Lemma sub_bound x y : finite x -> finite y -> (Rabs (val x) <= bpow radix2 60)%R -> (Rabs (val y) <= bpow radix2 60)%R ->
  finite (f_sub x y) /\ (Rabs (val (f_sub x y)) <= bpow radix2 61)%R.
Proof.
  intros Fx Fy Bx By. assert (C := Bminus_correct _ _ _ _ mode_NE x y Fx Fy). fold (f_sub x y) in C.
  assert (B : (Rabs (rnd (val x - val y)) <= bpow radix2 61)%R).
  { apply rnd_bound; [lia|]. replace (bpow radix2 61) with (bpow radix2 60 + bpow radix2 60)%R by (simpl; lra).
    eapply Rle_trans; [apply Rabs_triang|]. rewrite Rabs_Ropp. lra. }
  rewrite Rlt_bool_true in C.
  - destruct C as [V [F _]]. split; [exact F|]. now rewrite V.
  - eapply Rle_lt_trans; [exact B|]. apply bpow_lt. lia.
Qed.
Lemma div_bound d r : finite d -> finite r -> (Rabs (val d) <= bpow radix2 61)%R -> (bpow radix2 (-60) <= val r)%R ->
  finite (f_div d r) /\ (Rabs (val (f_div d r)) <= bpow radix2 121)%R.
Proof.
  intros Fd Fr Bd Br. assert (P := bpow_gt_0 radix2 (-60)). assert (Z : val r <> 0%R) by lra.
  assert (C := Bdiv_correct _ _ _ _ mode_NE d r Z). fold (f_div d r) in C.
  assert (B : (Rabs (rnd (val d / val r)) <= bpow radix2 121)%R).
  { apply rnd_bound; [lia|]. unfold Rdiv. rewrite Rabs_mult. replace 121%Z with (61 + 60)%Z by lia. rewrite bpow_plus.
    apply Rmult_le_compat; auto using Rabs_pos. assert (I := Rinv_0_lt_compat (val r) ltac:(lra)). rewrite Rabs_pos_eq by lra.
    replace (bpow radix2 60) with (/ bpow radix2 (-60))%R by (rewrite <- bpow_opp; reflexivity). now apply Rinv_le. }
  rewrite Rlt_bool_true in C.
  - destruct C as [V [F _]]. split; [unfold finite in *; now rewrite F|]. now rewrite V.
  - eapply Rle_lt_trans; [exact B|]. apply bpow_lt. lia.
Qed.

(** ** Specification *)
Notation b64_rows := (table f_sub f_div f_lt f_zero f_big).
Notation b64_many := (cascades_many f_one f_abs f_total f_quot f_le0 f_keep).

(** terrain of doubles (NaN cells allowed): elevations up to 2^60, distances between 2^-60 and
    2^60, every cell but the outlets [base] is at least 2^-1000 above some neighbour; no cell has to
    choose between an outlet and another steepest neighbour (C63), no cell has more than 99
    neighbours and no neighbour of cell 0 is higher than cell 0 (C71) *)
Record falling64 (thr : b64) (dist : nat -> nat -> b64) (dem : list (option b64)) (nb : list (list nat))
       (terminals : list Z) (base : nat -> Prop) : Prop := {
  ff_terrain : terrain_ok Fops not_nan thr dist dem nb terminals;
  ff_elev : forall c z, nth_error dem c = Some (Some z) -> finite z /\ (Rabs (val z) <= bpow radix2 60)%R;
  ff_dist : forall c n, adjacent nb c n -> finite (dist c n) /\ (bpow radix2 (-60) <= val (dist c n) <= bpow radix2 60)%R;
  ff_nodup : forall l, In l nb -> NoDup l;
  ff_width : forall l, In l nb -> length l <= 99;
  ff_base : forall c, base c <-> lowest Fops dem c \/ In (Z.of_nat c) terminals;
  ff_lower : forall c, is_valid dem c -> ~ base c ->
     exists n zc zn, adjacent nb c n /\ nth_error dem c = Some (Some zc) /\
       nth_error dem n = Some (Some zn) /\ (val zn + bpow radix2 (-1000) <= val zc)%R;
  ff_choice : forall c x n, base c -> n <> c -> steepest Fops thr dist dem nb x c -> ~ steepest Fops thr dist dem nb x n;
  ff_zero : forall c zc z0, adjacent nb c 0 -> nth_error dem c = Some (Some zc) -> nth_error dem 0 = Some (Some z0) -> (val zc <= val z0)%R }.

Section Rain.
  Variables (thr : b64) (dist : nat -> nat -> b64) (dem : list (option b64)) (nb : list (list nat)) (terminals : list Z) (base : nat -> Prop).
  Notation N := (length dem).
  Hypothesis FA : falling64 thr dist dem nb terminals base.

  Lemma neighbours_here : neighbours_in nb N.
  Proof using FA. exact (@tr_nb _ _ _ _ _ _ _ _ (ff_terrain FA)). Qed.
  Lemma dist_pos c n : adjacent nb c n -> finite (dist c n) /\ (0 < val (dist c n))%R.
  Proof using FA. intros A. destruct (ff_dist FA A) as [F [L _]]. assert (P := bpow_gt_0 radix2 (-60)). split; [auto|lra]. Qed.
  Lemma padded c fn m : get (pad_neighbors N nb) c = Ok fn -> In m fn -> m <> N -> adjacent nb c m /\ m < N.
  Proof using FA.
    intros Ef Em NE. apply get_ok in Ef. unfold pad_neighbors in Ef. rewrite nth_error_map in Ef.
    destruct (nth_error nb c) as [l|] eqn:El; [|discriminate].
    cbn [option_map] in Ef. injection Ef as <-. apply in_app_iff in Em. destruct Em as [Em|Em]; [|apply repeat_spec in Em; contradiction].
    assert (A : adjacent nb c m) by (exists l; auto). split; [auto|]. apply (neighbours_here (c := c)); auto.
    rewrite <- (tr_rows (ff_terrain FA)). apply nth_error_Some. congruence.
  Qed.

  Lemma rows_reach fdir : length fdir = N -> slopes_reach f_le0 fdir (b64_rows dist nb dem thr) (table_nb nb dem).
  Proof using FA.
    intros LF. assert (LN := tr_rows (ff_terrain FA)).
    assert (LP : length (pad_neighbors N nb) = N) by (unfold pad_neighbors; now rewrite map_length).
    split; [|split].
    - unfold table, calculate_slopes. rewrite map_length, combine_length, seq_length. lia.
    - unfold table_nb. rewrite map_length. lia.
    - intros n row nbs k x Er En Ek Le. apply get_ok in Er. rewrite table_row in Er. apply bind_ok in Er. destruct Er as [fn [Ef Er]]. injection Er as <-.
      assert (Ef' := Ef). apply get_ok in Ef'. unfold table_nb in En. rewrite nth_error_map, Ef' in En. cbn [option_map] in En. injection En as <-.
      rewrite nth_error_map in Ek. destruct (nth_error fn k) as [m|] eqn:Em; [|discriminate]. cbn [option_map] in Ek. injection Ek as Ek.
      exists (Z.of_nat m). split; [rewrite nth_error_map, Em; reflexivity|].
      unfold slope in Ek. destruct (Nat.eqb_spec m N) as [|NE].
      { injection Ek as <-. vm_compute in Le. discriminate. }
      destruct (padded Ef (nth_error_In _ _ Em) NE) as [_ L]. lia.
  Qed.

  (** all slopes of the table that lead down are moderate *)
  Lemma rows_moderate n row y : nth_error (b64_rows dist nb dem thr) n = Some row -> In (Some y) row -> f_le0 y = true ->
    finite y /\ (Rabs (val y) <= bpow radix2 1000)%R.
  Proof using FA.
    intros Er I Le. apply get_ok in Er. rewrite table_row in Er. apply bind_ok in Er. destruct Er as [fn [Ef Er]]. injection Er as <-.
    apply in_map_iff in I. destruct I as [m [E Im]]. unfold slope in E. destruct (Nat.eqb_spec m N) as [|NE].
    { injection E as <-. vm_compute in Le. discriminate. }
    destruct (padded Ef Im NE) as [AD _].
    destruct (nth m dem None) as [zm|] eqn:Zm; [|discriminate]. destruct (nth n dem None) as [zn|] eqn:Zn; [|discriminate].
    injection E as <-. apply nth_opt in Zm, Zn. destruct (ff_elev FA Zm) as [Fm Bm]. destruct (ff_elev FA Zn) as [Fn Bn].
    destruct (ff_dist FA AD) as [Fd [Ld _]]. destruct (sub_bound Fm Fn Bm Bn) as [Fs Bs].
    assert (X : finite (if f_lt (f_sub zm zn) thr && f_lt f_zero (f_sub zm zn) then f_zero else f_sub zm zn) /\
      (Rabs (val (if f_lt (f_sub zm zn) thr && f_lt f_zero (f_sub zm zn) then f_zero else f_sub zm zn)) <= bpow radix2 61)%R).
    { destruct (_ && _); [|auto]. split; [reflexivity|]. cbn [val f_zero B2R]. rewrite Rabs_R0. apply bpow_ge_0. }
    destruct X as [F1 B1]. destruct (div_bound F1 Fd B1 Ld) as [F2 B2]. split; [exact F2|]. eapply Rle_trans; [exact B2|]. apply bpow_le. lia.
  Qed.

  (** a neighbour at least 2^-1000 lower is in the table, with a negative slope *)
  Lemma lower_in_rows n m zn zm : n < N -> adjacent nb n m -> nth_error dem n = Some (Some zn) -> nth_error dem m = Some (Some zm) ->
    (val zm + bpow radix2 (-1000) <= val zn)%R ->
    exists row nbs k x, nth_error (b64_rows dist nb dem thr) n = Some row /\ nth_error (table_nb nb dem) n = Some nbs /\
      length row = widest nb /\ nth_error row k = Some (Some x) /\ (val x < 0)%R /\ nth_error nbs k = Some (Z.of_nat m).
  Proof using FA.
    intros Ln AD Zn Zm LT. assert (LN := tr_rows (ff_terrain FA)). set (fn := nth n (pad_neighbors N nb) []).
    assert (LP : length (pad_neighbors N nb) = N) by (unfold pad_neighbors; now rewrite map_length).
    assert (Ef : get (pad_neighbors N nb) n = Ok fn) by (apply get_ok, nth_error_nth'; lia).
    exists (map (slope f_sub f_div f_lt f_zero f_big N thr dist dem n) fn), (map Z.of_nat fn).
    assert (I : In m fn) by (unfold fn; rewrite nth_pad by lia; apply in_app_iff; left; now apply adj_nth).
    apply In_nth_error in I. destruct I as [k Hk].
    destruct (ff_elev FA Zn) as [Fn Bn]. destruct (ff_elev FA Zm) as [Fm Bm]. destruct (ff_dist FA AD) as [Fd [Ld Ud]]. destruct (dist_pos AD) as [_ Pd].
    destruct (sub_bound Fm Fn Bm Bn) as [Fs Bs].
    assert (SN : f_lt (f_div (f_sub zm zn) (dist n m)) f_zero = true) by (apply slope_neg; auto).
    assert (NB : f_lt f_zero (f_sub zm zn) = false).
    { destruct (f_lt f_zero (f_sub zm zn)) eqn:E; auto. exfalso. apply div_neg in SN; auto; [|now apply fin_ok].
      apply lt_val in E; [|reflexivity|auto]. apply lt_val in SN; [|auto|reflexivity]. lra. }
    exists k, (f_div (f_sub zm zn) (dist n m)). split; [|split; [|split; [|split; [|split]]]].
    - apply get_ok. rewrite table_row, Ef. reflexivity.
    - unfold table_nb. rewrite nth_error_map. apply get_ok in Ef. now rewrite Ef.
    - rewrite map_length. unfold fn. apply pad_width. lia.
    - rewrite nth_error_map, Hk. cbn [option_map]. f_equal. unfold slope. assert (Lm := neighbours_here Ln AD).
      destruct (Nat.eqb_spec m N); [lia|]. rewrite (nth_error_nth _ _ None Zm), (nth_error_nth _ _ None Zn). cbv zeta.
      rewrite NB, andb_false_r. reflexivity.
    - apply lt_val in SN; [exact SN| |reflexivity]. apply (div_bound Fs Fd Bs Ld).
    - rewrite nth_error_map, Hk. reflexivity.
  Qed.

  Variables (fuel : nat) (fdir : list Z) (nb' : list (list nat)).
  Hypothesis FU : enough_steps nb fuel.
  Hypothesis RUN : run Fops fuel dist dem nb thr terminals = Ok (fdir, nb').

  Lemma base_dec c : c < N -> base c \/ ~ base c.
  Proof using FA FU RUN.
    intros Hc. destruct (unpack b64_order (ff_terrain FA) FU RUN) as [s0 [fcells [_ [P0 _]]]].
    destruct (P0 c Hc) as [[_ B]|[_ [B1 B2]]]; [left; now apply (ff_base FA)|right]. intros X. apply (ff_base FA) in X. tauto.
  Qed.

  Lemma directions64 : length fdir = N /\ valid_fdir fdir /\ acyclic fdir /\
    (forall c, is_valid dem c -> ~ base c -> exists zc zn, adjacent nb c (down fdir c) /\
       nth_error dem c = Some (Some zc) /\ nth_error dem (down fdir c) = Some (Some zn) /\ (val zn < val zc)%R) /\
    (forall c, is_valid dem c -> base c -> down fdir c = c) /\
    (forall c, is_nan dem c -> down fdir c = c).
  Proof using FA FU RUN.
    destruct FA as [TR EL DI ND WI BA LO CH ZE].
    assert (LV : length fdir = N /\ forall c d, nth_error fdir c = Some d -> d = (-2)%Z \/ (0 <= d < Z.of_nat N)%Z).
    { destruct (C61_always_computed b64_order TR FU) as [fdir' [nb2 [Hrun [LF VAL]]]]. rewrite RUN in Hrun. injection Hrun as <- <-. auto. }
    destruct LV as [LF VAL].
    assert (DR := @C64_binary64 thr dist dem nb terminals fuel fdir nb' TR).
    cbn zeta in DR. destruct DR as [N2 [DW [EN AC]]]; auto.
    { intros c z Hz. now apply EL in Hz. }
    { intros c n A. destruct (DI c n A) as [F [L U]]. assert (P := bpow_gt_0 radix2 (-60)). split; [auto|lra]. }
    { intros c Hc Hb. apply LO; auto. intros X. apply Hb. now apply BA. }
    { intros c x n Hb. apply CH. now apply BA. }
    split; [auto|]. split; [|split; [auto|split; [|split]]].
    - unfold valid_fdir. rewrite Forall_forall. intros d Hd. apply In_nth_error in Hd. destruct Hd as [c Hc].
      destruct (VAL c d Hc) as [->|X]; [now apply N2 in Hc|]. rewrite LF. exact X.
    - intros c Vc Nb. destruct (DW c Vc) as [n [zc [zn [E [A [Zc [Zn L]]]]]]]; [intros X; apply Nb; now apply BA|].
      assert (E' : down fdir c = n) by (unfold down; rewrite (nth_error_nth _ _ 0%Z E); apply Nat2Z.id). rewrite E'. exists zc, zn. auto.
    - intros c Vc Bc. assert (Lc := val_lt Vc).
      assert (E : nth_error fdir c = Some (Z.of_nat c)).
      { apply (C63_uncontested_outlet_partial b64_order TR FU RUN ND Lc); [now apply BA|]. intros [x [n [H1 [H2 H3]]]]. now apply (CH c x n). }
      unfold down. rewrite (nth_error_nth _ _ 0%Z E). apply Nat2Z.id.
    - intros c Nc. assert (Lc : c < N) by (apply nth_error_Some; unfold is_nan in Nc; congruence).
      destruct (C59_steepest_neighbour b64_order TR FU RUN Lc) as [[E _]|[[_ [z E]]|[n [_ S]]]].
      + unfold down. rewrite (nth_error_nth _ _ 0%Z E). apply Nat2Z.id.
      + unfold is_nan in Nc. congruence.
      + destruct (proj1 (steep_valid S)) as [z E]. unfold is_nan in Nc. congruence.
  Qed.

  (** every cell with an elevation that is no outlet passes its water on *)
  Lemma all_pass64 strm out c : b64_many fdir strm None (b64_rows dist nb dem thr) (table_nb nb dem) = Ok out ->
    is_valid dem c -> ~ base c -> exists d, leads out c d /\ is_valid dem d.
  Proof using FA FU RUN.
    intros H Vc Nb. destruct directions64 as (LF & VF & AC & DW & BS & NA). assert (Lc := val_lt Vc). assert (Lc' : c < length fdir) by lia.
    destruct (riverb strm c) eqn:R.
    - apply riverb_spec in R. destruct (stream_row VF H Lc' R) as [s I].
      destruct (DW c Vc Nb) as (zc & zn & _ & Z1 & Z2 & LT). exists (down fdir c). split; [|exists zn; auto]. split; [|eauto].
      intros E. rewrite <- E, Z1 in Z2. injection Z2 as <-. lra.
    - assert (NR : ~ river strm c) by (rewrite <- riverb_spec; congruence).
      destruct (ff_lower FA Vc Nb) as (m & zc & zm & AD & Zc & Zm & LT).
      destruct (@lower_in_rows c m zc zm Lc AD Zc Zm LT) as (row & nbs & k & x & Er & En & Lr & Ek & Lx & Em).
      assert (W : widest nb <= 99) by (apply widest_le, (ff_width FA)).
      assert (Lm := neighbours_here Lc AD).
      assert (Z0 := ff_zero FA).
      destruct (@C99_binary64 f_one fdir strm _ _ out c row nbs k x (Z.of_nat m) VF H Lc' NR Er En) as (d & f & s & I); auto; [lia| | |].
      { intros y Iy Ly. eapply rows_moderate; eauto. }
      { intros X. rewrite (npget_pos fdir 0%Z) in X by lia. injection X as X. rewrite Nat2Z.id in X.
        assert (D0 : down fdir m = 0) by (unfold down; now rewrite X).
        assert (Vm : is_valid dem m) by (exists zm; auto). assert (P := bpow_gt_0 radix2 (-1000)).
        destruct (Nat.eq_dec m 0) as [->|M0].
        { assert (Y := Z0 c zc zm AD Zc Zm). lra. }
        assert (NBm : ~ base m) by (intros B; apply M0; rewrite <- (BS m Vm B); exact D0).
        destruct (DW m Vm NBm) as (z1 & z0 & A0 & E1 & E0 & L0). rewrite D0 in A0, E0.
        assert (Y := Z0 m z1 z0 A0 E1 E0). lra. }
      assert (HN : forall c n, adjacent nb c n -> n < length fdir).
      { intros c' n' X. rewrite LF. apply (neighbours_here (c := c')); auto. rewrite <- (tr_rows (ff_terrain FA)). destruct X as [l' [X _]]. apply nth_error_Some. congruence. }
      assert (OK : forall c z, nth_error dem c = Some (Some z) -> finite z) by (intros c' z Hz; now apply (ff_elev FA) in Hz).
      destruct (C135_landscape_cascades_descend (basin := None) (binary64_down_laws dist_pos) VF (eq_sym LF) Logic.I HN OK H I)
        as (n & d' & E1 & -> & Ln & Ld & _ & _ & HL).
      assert (n = c) by lia. subst n. destruct (HL NR) as (_ & z1 & z2 & Y1 & Y2 & Y3).
      exists d'. split; [|exists z2; auto]. split; [|eauto]. intros <-. rewrite Y1 in Y2. injection Y2 as <-.
      apply lt_val in Y3; eauto. lra.
  Qed.

  (** no record leads to a NaN cell *)
  Lemma nan_dry64 strm out u c : b64_many fdir strm None (b64_rows dist nb dem thr) (table_nb nb dem) = Ok out ->
    leads out u c -> is_valid dem c.
  Proof using FA FU RUN.
    intros H [NE (f & s & I)]. destruct directions64 as (LF & VF & AC & DW & BS & NA).
    assert (HN : forall c n, adjacent nb c n -> n < length fdir).
    { intros c' n' X. rewrite LF. apply (neighbours_here (c := c')); auto. rewrite <- (tr_rows (ff_terrain FA)). destruct X as [l' [X _]]. apply nth_error_Some. congruence. }
    assert (OK : forall c z, nth_error dem c = Some (Some z) -> finite z) by (intros c' z Hz; now apply (ff_elev FA) in Hz).
    destruct (C135_landscape_cascades_descend (basin := None) (binary64_down_laws dist_pos) VF (eq_sym LF) Logic.I HN OK H I)
      as (n & d & E1 & E2 & Ln & Ld & _ & HR & HL).
    assert (n = u) by lia. assert (d = c) by lia. subst n d. destruct (riverb strm u) eqn:R.
    - apply riverb_spec in R. destruct (HR R) as [[_ E]|[_ E]]; [|congruence]. subst c.
      destruct (nth_error dem u) as [[z|]|] eqn:En; [|exfalso; apply NE; symmetry; now apply NA|apply nth_error_None in En; lia].
      assert (Vn : is_valid dem u) by (exists z; auto).
      destruct (@base_dec u ltac:(lia)) as [B|B]; [exfalso; apply NE; symmetry; now apply BS|].
      destruct (DW u Vn B) as (zc & zn & _ & _ & E & _). exists zn. auto.
    - assert (NR : ~ river strm u) by (rewrite <- riverb_spec; congruence). destruct (HL NR) as (_ & zn & zc & _ & E & _). exists zc. auto.
  Qed.
End Rain.

(** C137 for doubles: the calls succeed, the cascades run in no circle, the fractions that leave a
    cell add up to one within 1e-13, and every cell with an elevation is an outlet or passes its
    water on: from every cell the records lead to an outlet, and wherever they end is an outlet *)
Section Pipeline.
  Context {W : Type} (wadd : W -> W -> W) (wzero : W) (ncol : Z).

  Theorem C137_binary64 :
    forall thr dist dem nb terminals base (area : list W) fuel lim t,
    falling64 thr dist dem nb terminals base -> enough_steps nb fuel ->
    length area = length dem -> S (length dem) <= fuel -> length dem + 1 <= lim ->
    exists fdir nb' facc strm out,
      run Fops fuel dist dem nb thr terminals = Ok (fdir, nb') /\
      flow_accumulation_cells wadd wzero fuel fdir area = Ok facc /\
      let prms := PropsSobj.ask Z.geb f_one f_abs f_total f_quot f_le0 f_keep lim fuel ncol fdir facc
                    (b64_rows dist nb dem thr) (table_nb nb dem) KPrms in
      prms [] (DelineateStreams (Scalar t) None) = Ok (AArray strm) /\
      prms [DelineateStreams (Scalar t) None] (Cascades None None true false) = Ok (ACasc out) /\
      no_circle out /\ (forall u, shares_out almost_percent (leaving u out)) /\
      (forall c, is_valid dem c -> exists o, clos_refl_trans nat (leads out) c o /\ base o /\ is_valid dem o) /\
      (forall c o, is_valid dem c -> clos_refl_trans nat (leads out) c o -> (forall d, ~ leads out o d) -> base o /\ is_valid dem o).
  Proof.
    intros thr dist dem nb terminals base area fuel lim t FA FU LA HF HL.
    destruct (C61_always_computed b64_order (ff_terrain FA) FU) as [fdir [nb' [RUN [LF _]]]].
    destruct (directions64 FA FU RUN) as (_ & VF & AC & DW & BS & NA).
    assert (LA' : length area = length fdir) by congruence.
    destruct (@C18_accumulation_finishes W wadd wzero fdir area VF LA') as (facc & ar & L1 & L2 & EX).
    destruct (EX fuel) as [EC _]; [lia|].
    set (strm := map (fun a => if Z.geb a t then 1%Z else 0%Z) facc).
    assert (LS : length strm = length fdir) by (unfold strm; rewrite map_length; congruence).
    destruct (@C34_connectivity_succeeds fdir strm lim VF LS) as (s2 & g & E6); [lia|].
    destruct (@C34_reaches_number_the_cells fdir strm lim s2 g VF LS E6) as (Ls2 & _ & P2 & Z2 & _).
    assert (RV : forall c, river s2 c <-> river strm c).
    { intros c. split.
      - intros [z [Hz Pz]]. assert (Lc : c < length strm) by (rewrite <- Ls2; apply nth_error_Some; congruence).
        destruct (nth_error strm c) as [v|] eqn:Ev; [|apply nth_error_None in Ev; lia]. exists v. split; [auto|].
        destruct (Z.eq_dec v 0) as [->|Nv]; [apply Z2 in Ev; congruence|].
        unfold strm in Ev. rewrite nth_error_map in Ev. destruct (nth_error facc c) as [a|]; [|discriminate]. cbn in Ev. injection Ev as <-.
        destruct (a >=? t)%Z; lia.
      - intros [z [Hz Pz]]. destruct (P2 c) as (r & Hr & Er); [apply nth_error_Some; congruence|rewrite Hz; intros X; inversion X; lia|].
        exists r. split; [auto|lia]. }
    destruct (@C54_any_arithmetic_succeeds b64 f_one f_abs f_total f_quot f_le0 f_keep fdir s2 None (b64_rows dist nb dem thr) (table_nb nb dem)
                VF (eq_trans Ls2 LS) Logic.I (rows_reach FA LF)) as [out EO].
    assert (RO : runs_on fdir s2 None).
    { assert (R1 := @C135_delineated_streams_run_on W wadd wzero fdir area fuel facc t None strm VF AC LA' ltac:(lia) EC eq_refl).
      intros c Hc I1 I2 R. apply RV. apply (R1 c Hc I1 I2). now apply RV. }
    assert (HN : forall c n, adjacent nb c n -> n < length fdir).
    { intros c' n' X. rewrite LF. apply (neighbours_here FA (c := c')); auto. rewrite <- (tr_rows (ff_terrain FA)). destruct X as [l' [X _]]. apply nth_error_Some. congruence. }
    assert (OK : forall c z, nth_error dem c = Some (Some z) -> finite z) by (intros c' z Hz; now apply (ff_elev FA) in Hz).
    assert (HD := @height_decreases b64 f_sub f_div f_lt f_zero f_big f_one f_abs f_total f_quot f_le0 f_keep dist nb finite fdir s2 None dem thr
       (binary64_down_laws (dist_pos FA)) VF (eq_sym LF) Logic.I HN OK AC RO out EO).
    exists fdir, nb', facc, strm, out. split; [auto|]. split; [auto|]. cbv zeta. split; [reflexivity|]. split; [|split; [|split; [|split]]].
    - unfold PropsSobj.ask, sreply, scalls. cbn [fold_left scall_step fst]. unfold do_delineate. cbn [delineate_streams above bind].
      fold strm. cbn [andthen fst snd]. unfold do_cascades, pick. cbn [so_strm so_graph]. unfold prms_connect, run6, pick. cbn [so_strm bind]. rewrite E6. cbn [bind andthen so_strm].
      rewrite EO. reflexivity.
    - eapply height_no_circle. intros u d L. apply (HD u d L).
    - apply (C54_binary64 (fdir := fdir) (strm := s2) (basin := None) (slopes := b64_rows dist nb dem thr) (fnb := table_nb nb dem)); [| |exact EO].
      + intros row x Ir Ix Lx. apply In_nth_error in Ir. destruct Ir as [n Er]. eapply rows_moderate; eauto.
      + intros row Ir. apply In_nth_error in Ir. destruct Ir as [n Er].
        apply get_ok in Er. rewrite table_row in Er. apply bind_ok in Er. destruct Er as [fn [Ef Er]]. injection Er as <-.
        rewrite map_length. apply get_ok in Ef. apply row_width in Ef. assert (widest nb <= 99) by (apply widest_le, (ff_width FA)). lia.
    - assert (G : forall k c, height f_lt fdir s2 dem c < k -> is_valid dem c -> exists o, clos_refl_trans nat (leads out) c o /\ base o /\ is_valid dem o).
      { induction k as [|k IH]; intros c Hk Vc; [lia|].
        destruct (base_dec FA FU RUN (val_lt Vc)) as [B|B]; [exists c; split; [apply rt_refl|auto]|].
        destruct (all_pass64 FA FU RUN EO Vc B) as [d [L Vd]]. destruct (HD c d L) as (_ & _ & LT).
        destruct (IH d ltac:(lia) Vd) as [o [C [Bo Vo]]]. exists o. split; [|auto]. eapply rt_trans; [apply rt_step, L|exact C]. }
      intros c Vc. eapply G; [apply Nat.lt_succ_diag_r|exact Vc].
    - intros c o Vc C E. assert (Vo : is_valid dem o).
      { apply clos_rt_rtn1 in C. inversion C as [|y z L C']; subst; [auto|]. eapply (nan_dry64 FA FU RUN EO); eauto. }
      split; [|auto]. destruct (base_dec FA FU RUN (val_lt Vo)) as [B|B]; [auto|]. exfalso.
      destruct (all_pass64 FA FU RUN EO Vo B) as [d [L _]]. now apply E in L.
  Qed.
End Pipeline.

(** the hypotheses are met: the row of cells 9, 5, 1 of PropsFloat *)
Module ExRain.
  Import PropsFloat.ExF.
  Lemma val_of (x : b64) m e : B2SF x = SpecFloat.S754_finite false m e -> val x = F2R (Float radix2 (Zpos m) e).
  Proof. intros H. now rewrite <- SF2R_B2SF, H. Qed.
  Lemma val9 : val (dbl 9 0) = 9%R.
  Proof. rewrite (@val_of (dbl 9 0) 5066549580791808 (-49)) by (vm_compute; reflexivity). unfold F2R. simpl. lra. Qed.
  Lemma val5 : val (dbl 5 0) = 5%R.
  Proof. rewrite (@val_of (dbl 5 0) 5629499534213120 (-50)) by (vm_compute; reflexivity). unfold F2R. simpl. lra. Qed.
  Lemma val1 : val (dbl 1 0) = 1%R.
  Proof. rewrite (@val_of (dbl 1 0) 4503599627370496 (-52)) by (vm_compute; reflexivity). unfold F2R. simpl. lra. Qed.
  Lemma small x : (0 <= x <= 16)%R -> (Rabs x <= bpow radix2 60)%R.
  Proof. intros H. rewrite Rabs_pos_eq by lra. apply Rle_trans with (bpow radix2 4); [simpl; lra|apply bpow_le; lia]. Qed.
  Lemma tiny : (0 < bpow radix2 (-1000) <= 1)%R.
  Proof. split; [apply bpow_gt_0|]. change 1%R with (bpow radix2 0). apply bpow_le. lia. Qed.

  Lemma some_inj (a b : b64) : Some (Some a) = Some (Some b) -> b = a.
  Proof. congruence. Qed.

  Lemma falling3 : falling64 thr one dem3 (queen 1 3) [] (fun c => c = 2).
  Proof.
    constructor.
    - exact terrain3.
    - intros c z H. split; [eapply fin3; eauto|]. apply small.
      destruct c as [|[|[|c]]]; [rewrite (@some_inj (dbl 9 0) z H); rewrite val9; lra|rewrite (@some_inj (dbl 5 0) z H); rewrite val5; lra|rewrite (@some_inj (dbl 1 0) z H); rewrite val1; lra|destruct c; discriminate].
    - intros c n _. unfold one. split; [reflexivity|]. rewrite val1. split; [change 1%R with (bpow radix2 0); apply bpow_le; lia|].
      change 1%R with (bpow radix2 0). apply bpow_le. lia.
    - apply rows_nodup. vm_compute. reflexivity.
    - intros l I. assert (X : forallb (fun l => length l <=? 99) (queen 1 3) = true) by (vm_compute; reflexivity).
      apply Nat.leb_le. exact (proj1 (forallb_forall _ _) X l I).
    - intros c. rewrite low3. cbn. tauto.
    - intros c V NC. assert (L := val_lt V). change (length dem3) with 3 in *. assert (T := tiny).
      destruct c as [|[|c]]; [| |lia].
      + exists 1, (dbl 9 0), (dbl 5 0). split; [now apply adj_nth; vm_compute; auto|]. split; [reflexivity|]. split; [reflexivity|]. rewrite val9, val5. lra.
      + exists 2, (dbl 5 0), (dbl 1 0). split; [now apply adj_nth; vm_compute; auto|]. split; [reflexivity|]. split; [reflexivity|]. rewrite val5, val1. lra.
    - intros c x n -> Hne S1 S2. apply steep3 in S1, S2.
      destruct x as [|[|[|x]]]; cbn in S1, S2; try intuition lia. destruct x; destruct S1.
    - intros c zc z0 _ Hc H0. rewrite (@some_inj (dbl 9 0) z0 H0). rewrite val9.
      destruct c as [|[|[|c]]]; [rewrite (@some_inj (dbl 9 0) zc Hc); rewrite val9; lra|rewrite (@some_inj (dbl 5 0) zc Hc); rewrite val5; lra|rewrite (@some_inj (dbl 1 0) zc Hc); rewrite val1; lra|destruct c; discriminate].
  Qed.
  Example C137_case := @C137_binary64 Z Z.add 0%Z 3%Z thr one dem3 (queen 1 3) [] (fun c => c = 2) (repeat 1%Z 3) 100 20 2%Z
    falling3 steps3 eq_refl ltac:(cbn; lia) ltac:(cbn; lia).
End ExRain.
