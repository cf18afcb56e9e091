(** C141: from cell centres and elevations given in doubles to the outlets: the hypotheses speak of real
    numbers only. *)
From Coq Require Import ZArith String Reals Lra Lia Relations.
From Flocq Require Import Core.Core IEEE754.BinarySingleNaN.
From Verif Require Import MGeo Py Spec Grids MFlow MStream MSobj MDir MFill LGraph LDir LDir2 LDir3 LDir4 LFloat PropsFloat PropsAccF PropsCascF PropsDir
  PropsObj PropsSobj PropsApi PropsWorld3 PropsWorldF PropsCircle PropsCircleF PropsWater PropsRain PropsRainF PropsWaterF PropsPipe MNumF PropsNumF PropsNumF2.
Set Implicit Arguments.
Unset Strict Implicit.
Local Open Scope nat_scope.
Local Open Scope list_scope.
Local Notation length := List.length.

(** ** Specification *)
(** the real elevation of a cell *)
Definition lies_at (dem : list (option b64)) (c : nat) (z : R) : Prop := exists x, nth_error dem c = Some (Some x) /\ val x = z.
(** no cell lies lower *)
Definition lowest_of_all (dem : list (option b64)) (c : nat) : Prop :=
  exists z, lies_at dem c z /\ forall c' z', lies_at dem c' z' -> (z <= z')%R.

(** a map of cell centres [centers] and elevations [dem] (NaN cells allowed) in which every cell that is no
    outlet ([base]) has a lower neighbour *)
Record downhill_map (centers : list point64) (dem : list (option b64)) (nb : list (list nat)) (terminals : list Z) (base : nat -> Prop) : Prop := {
  (** the grid: a row of different neighbours for every cell *)
  dm_rows : length nb = length dem;
  dm_nb : neighbours_in nb (length dem);
  dm_nodup : forall l, In l nb -> NoDup l;
  dm_width : forall l, In l nb -> length l <= 99;
  dm_size : (Z.of_nat (length dem) < 999000)%Z;
  dm_some : exists c, is_valid dem c;
  dm_term : forall t, In t terminals -> (0 <= t < Z.of_nat (length dem))%Z;
  (** coordinates of at most 2^400 that are equal or differ by 2^-400; neighbours are between 2^-10 and 2^59 apart *)
  dm_apart : forall c n, adjacent nb c n -> apart (at64 centers c) (at64 centers n);
  dm_dist : forall c n, adjacent nb c n ->
    (bpow radix2 (-10) <= distance (real_point (at64 centers c)) (real_point (at64 centers n)) <= bpow radix2 59)%R;
  (** elevations of at most 1e6; those of neighbours are equal or differ by 2^-400 *)
  dm_elev : forall c x, nth_error dem c = Some (Some x) -> finite x /\ (Rabs (val x) <= 10 ^ 6)%R;
  dm_differ : forall c n zc zn, adjacent nb c n -> lies_at dem c zc -> lies_at dem n zn -> zc = zn \/ (bpow radix2 (-400) <= Rabs (zc - zn))%R;
  (** the outlets: the lowest cells and the terminal cells; they are not adjacent to each other *)
  dm_base : forall c, base c <-> lowest_of_all dem c \/ In (Z.of_nat c) terminals;
  dm_separate : forall c n, base c -> base n -> ~ adjacent nb c n;
  dm_exit : forall c, base c -> is_valid dem c -> exists n, adjacent nb c n /\ is_valid dem n;
  (** every other cell has a lower neighbour *)
  dm_lower : forall c z, lies_at dem c z -> ~ base c -> exists n zn, adjacent nb c n /\ lies_at dem n zn /\ (zn < z)%R;
  (** an outlet is never within a relative 1e-14 of being just as steep as another neighbour (C63) *)
  dm_choice : forall x c n dc dn, base c -> ~ base x -> n <> c -> adjacent nb x c -> adjacent nb x n ->
    descent centers dem x c dc -> descent centers dem x n dn -> (0 < dc)%R -> (0 < dn)%R ->
    (dn < (1 - / 10 ^ 14) * dc)%R \/ (dc < (1 - / 10 ^ 14) * dn)%R;
  (** no neighbour of cell 0 is higher than cell 0 (C71) *)
  dm_zero : forall c zc z0, adjacent nb c 0 -> lies_at dem c zc -> lies_at dem 0 z0 -> (zc <= z0)%R }.

Section Map.
  Variables (centers : list point64) (dem : list (option b64)) (nb : list (list nat)) (terminals : list Z) (base : nat -> Prop) (thr : b64).
  Notation dist := (dist64 centers).
  Hypothesis DM : downhill_map centers dem nb terminals base.

  Lemma million : (10 ^ 6 <= bpow radix2 60)%R /\ (10 ^ 6 <= bpow radix2 400)%R.
  Proof. assert (X : (bpow radix2 60 <= bpow radix2 400)%R) by (apply bpow_le; lia). assert (Y : bpow radix2 60 = 1152921504606846976%R) by reflexivity. rewrite Y in *. lra. Qed.

  Lemma map_good : good_grid centers dem nb.
  Proof using DM.
    split.
    - exact (dm_apart DM).
    - intros c z H. destruct (dm_elev DM H) as [F B]. split; [auto|]. assert (M := million). lra.
    - intros c n zc zn A Hc Hn. destruct (@dm_differ _ _ _ _ _ DM c n (val zc) (val zn) A) as [E|E]; [exists zc; auto|exists zn; auto|left; auto|].
      right. now rewrite Rabs_minus_sym.
  Qed.
  Lemma map_dist c n : adjacent nb c n -> finite (dist c n) /\ (bpow radix2 (-60) <= val (dist c n) <= bpow radix2 60)%R.
  Proof using DM.
    intros A. apply C138_distances_for_cascades; [exact (dm_apart DM A)|]. destruct (dm_dist DM A) as [L U]. split; [|auto].
    apply Rle_trans with (bpow radix2 (-10)); [apply bpow_le; lia|auto].
  Qed.
  Lemma valid_lies c : is_valid dem c <-> exists z, lies_at dem c z.
  Proof.
    unfold is_valid, lies_at. split.
    - intros [x H]. exists (val x), x. auto.
    - intros (z & x & H & _). eauto.
  Qed.
  Lemma lies c x : nth_error dem c = Some (Some x) -> lies_at dem c (val x).
  Proof. intros H. exists x. auto. Qed.
  Lemma a_descent c n : is_valid dem c -> is_valid dem n -> exists d, descent centers dem c n d.
  Proof. intros [zc Hc] [zn Hn]. eexists. exists zc, zn. split; [exact Hc|]. split; [exact Hn|reflexivity]. Qed.
  Lemma a_slope c n : is_valid dem c -> is_valid dem n -> exists s, slope_to Fops thr dist dem c n s.
  Proof. intros [zc Hc] [zn Hn]. eexists. exists zc, zn. split; [exact Hc|]. split; [exact Hn|reflexivity]. Qed.
  Lemma slope_valid c n s : slope_to Fops thr dist dem c n s -> is_valid dem c /\ is_valid dem n.
  Proof. intros (zc & zn & Hc & Hn & _). split; eexists; eauto. Qed.

  (** slopes are finite and below 1e10 *)
  Lemma descent_size c n d : adjacent nb c n -> descent centers dem c n d -> (Rabs d <= 2.1 * 10 ^ 9)%R.
  Proof using DM.
    intros A (zc & zn & Hc & Hn & ->). destruct (dm_elev DM Hc) as [_ Bc]. destruct (dm_elev DM Hn) as [_ Bn].
    destruct (dm_dist DM A) as [L _]. change (bpow radix2 (-10)) with (/ 1024)%R in L. set (D := distance _ _) in *.
    assert (P : (0 < D)%R) by lra. assert (I : (/ D <= 1024)%R).
    { replace 1024%R with (/ / 1024)%R by lra. apply Rinv_le; lra. }
    assert (I0 := Rinv_0_lt_compat _ P). apply Rabs_le_inv in Bc, Bn. unfold Rdiv. rewrite Rabs_mult, (Rabs_pos_eq (/ D)) by lra.
    assert (B : (Rabs (val zc - val zn) <= 2 * 10 ^ 6)%R) by (apply Rabs_le; lra).
    apply Rle_trans with (2 * 10 ^ 6 * 1024)%R; [|lra]. apply Rmult_le_compat; try lra. apply Rabs_pos.
  Qed.
  Lemma slope_fine c n s : adjacent nb c n -> slope_to Fops thr dist dem c n s -> finite s /\ f_lt s f_big = true.
  Proof using DM.
    intros A S. destruct (slope_valid S) as [Vc Vn]. destruct (a_descent Vc Vn) as [d D]. assert (B := descent_size A D). apply Rabs_le_inv in B.
    assert (VB : val f_big = (10 ^ 10)%R) by (unfold f_big; cbn [B2R]; unfold F2R; simpl; lra).
    destruct (Rlt_or_le 0 d) as [P|P].
    - destruct (slope_downhill map_good A S D P) as [F N]. split; [auto|]. apply lt_val; [auto|reflexivity|].
      destruct errors_small as (_ & _ & E5). destruct (e7_mono (e := e5) ltac:(lra)) as [_ E7]. specialize (E7 ltac:(lra)).
      assert (X := near_neg N ltac:(lra) ltac:(lra)). lra.
    - destruct (slope_uphill map_good A S D P) as [F N]. split; [auto|]. apply lt_val; [auto|reflexivity|]. lra.
  Qed.

  Lemma lowest_iff c : lowest Fops dem c <-> lowest_of_all dem c.
  Proof using DM.
    unfold lowest, lowest_of_all. split.
    - intros (x & H & L). exists (val x). split; [exists x; auto|]. intros c' z' (y & Hy & <-). specialize (L c' y Hy). cbn [o_lt Fops] in L.
      apply not_lt_val in L; auto; [exact (proj1 (dm_elev DM Hy))|exact (proj1 (dm_elev DM H))].
    - intros (z & (x & H & <-) & L). exists x. split; [auto|]. intros c' y Hy. cbn [o_lt Fops]. destruct (f_lt y x) eqn:E; [|reflexivity]. exfalso.
      apply lt_val in E; [|exact (proj1 (dm_elev DM Hy))|exact (proj1 (dm_elev DM H))]. assert (X := L c' (val y) ltac:(exists y; auto)). lra.
  Qed.

  Lemma lower_neighbour c : is_valid dem c -> ~ base c -> exists n d, adjacent nb c n /\ descent centers dem c n d /\ (0 < d)%R.
  Proof using DM.
    intros [x H] NB. destruct (dm_lower DM (lies H) NB) as (n & zn & A & (y & Hy & E) & L).
    exists n. eexists. split; [exact A|]. split; [exists x, y; split; [exact H|split; [exact Hy|reflexivity]]|].
    destruct (dm_dist DM A) as [D _]. assert (P := bpow_gt_0 radix2 (-10)). apply Rdiv_lt_0_compat; lra.
  Qed.

  Lemma map_terrain : terrain_ok Fops not_nan thr dist dem nb terminals.
  Proof using DM.
    constructor.
    - exact (dm_rows DM).
    - exact (dm_nb DM).
    - destruct (dm_some DM) as [c V]. assert (D : base c \/ ~ base c) by (apply Classical_Prop.classic).
      destruct D as [B|B]; [destruct (dm_exit DM B V) as (n & A & _)|destruct (lower_neighbour V B) as (n & d & A & _)]; eauto.
    - intros c z H. apply fin_ok. exact (proj1 (dm_elev DM H)).
    - intros c n s A S. apply fin_ok. exact (proj1 (slope_fine A S)).
    - reflexivity.
    - destruct (dm_some DM) as [c [z H]]. exists c, z. split; [exact H|]. cbn [o_lt o_big Fops]. destruct (dm_elev DM H) as [F B]. apply Rabs_le_inv in B.
      apply lt_val; [auto|reflexivity|]. assert (VB : val f_big = (10 ^ 10)%R) by (unfold f_big; cbn [B2R]; unfold F2R; simpl; lra). lra.
    - intros c V. left. assert (X : exists n, adjacent nb c n /\ is_valid dem n).
      { assert (D : base c \/ ~ base c) by (apply Classical_Prop.classic). destruct D as [B|B]; [exact (dm_exit DM B V)|].
        destruct (lower_neighbour V B) as (n & d & A & (zc & zn & _ & Hn & _) & _). exists n. split; [auto|eexists; eauto]. }
      destruct X as (n & A & Vn). destruct (a_slope V Vn) as [s S]. exists n, s. split; [auto|]. split; [auto|]. exact (proj2 (slope_fine A S)).
    - exact (dm_term DM).
    - exact (dm_size DM).
  Qed.

  Theorem C141_falling : falling64 thr dist dem nb terminals base.
  Proof using DM.
    constructor.
    - exact map_terrain.
    - intros c z H. destruct (dm_elev DM H) as [F B]. split; [auto|]. assert (M := million). lra.
    - exact map_dist.
    - exact (dm_nodup DM).
    - exact (dm_width DM).
    - intros c. now rewrite lowest_iff, (dm_base DM).
    - intros c V NB. destruct V as [x H]. destruct (dm_lower DM (lies H) NB) as (n & zn & A & (y & Hy & E) & L).
      exists n, x, y. split; [auto|]. split; [auto|]. split; [auto|]. rewrite E.
      destruct (@dm_differ _ _ _ _ _ DM c n (val x) zn A) as [Q|Q]; [now apply lies|exists y; auto|lra|].
      rewrite Rabs_pos_eq in Q by lra. assert (X : (bpow radix2 (-1000) <= bpow radix2 (-400))%R) by (apply bpow_le; lia). lra.
    - intros c x n B NE S1 S2. destruct (steep_valid S1) as [Vx _].
      assert (NB : ~ base x) by (intros X; exact (dm_separate DM X B (proj1 S1))).
      destruct (lower_neighbour Vx NB) as (n0 & d0 & A0 & D0 & P0).
      destruct (steepest_really map_good S1 A0 D0 P0) as (dc & Dc & Lc). destruct (steepest_really map_good S2 A0 D0 P0) as (dn & Dn & Ln).
      assert (Pc : (0 < dc)%R) by nra. assert (Pn : (0 < dn)%R) by nra.
      destruct (steepest_really map_good S1 (proj1 S2) Dn Pn) as (dc' & Dc' & L1). destruct (steepest_really map_good S2 (proj1 S1) Dc Pc) as (dn' & Dn' & L2).
      assert (UD : forall a b d d', descent centers dem a b d -> descent centers dem a b d' -> d = d').
      { intros a b d d' (z1 & z2 & H1 & H2 & ->) (z3 & z4 & H3 & H4 & ->). congruence. }
      rewrite (UD _ _ _ _ Dc' Dc) in L1. rewrite (UD _ _ _ _ Dn' Dn) in L2.
      destruct (dm_choice DM B NB NE (proj1 S1) (proj1 S2) Dc Dn Pc Pn); lra.
    - intros c zc z0 A Hc H0. apply (dm_zero DM A); [exists zc; auto|exists z0; auto].
  Qed.

  (** so C92 applies: the chain from elevations to the MODFLOW tables succeeds, and the tables describe the streams *)
  Theorem C141_downhill : downhill thr dist dem nb terminals base.
  Proof using DM.
    assert (F := C141_falling). constructor; try apply F.
    - intros c n A. destruct (ff_dist F A) as [FD [L U]]. split; [auto|]. assert (P := bpow_gt_0 radix2 (-60)). lra.
  Qed.
End Map.

Section FromTheMap.
  Context {W : Type} (wadd : W -> W -> W) (wzero : W) (ncol : Z).

  (** C141: the four calls succeed, and whatever the rain, all of it ends in outlets (and NaN cells keep
      theirs), up to a relative 1e-13 for each cell on the way *)
  Theorem C141_from_the_map_to_the_outlets :
    forall thr centers dem nb terminals base (area : list W) fuel lim t,
    downhill_map centers dem nb terminals base -> enough_steps nb fuel ->
    length area = length dem -> S (length dem) <= fuel -> length dem + 1 <= lim ->
    exists fdir nb' facc strm out,
      run Fops fuel (dist64 centers) dem nb thr terminals = Ok (fdir, nb') /\
      flow_accumulation_cells wadd wzero fuel fdir area = Ok facc /\
      let prms := PropsSobj.ask Z.geb f_one f_abs f_total f_quot f_le0 f_keep lim fuel ncol fdir facc
                    (b64_rows (dist64 centers) nb dem thr) (table_nb nb dem) KPrms in
      prms [] (DelineateStreams (Scalar t) None) = Ok (AArray strm) /\
      prms [DelineateStreams (Scalar t) None] (Cascades None None true false) = Ok (ACasc out) /\
      no_circle out /\
      forall rain, (forall c, c < length dem -> (0 <= rain c)%R) ->
      exists q ends, routed64 out (length dem) rain q /\
        (forall q', routed64 out (length dem) rain q' -> forall c, c < length dem -> q' c = q c) /\
        NoDup ends /\ (forall c, In c ends -> c < length dem /\ passes_on64 out c = false /\ (base c \/ is_nan dem c)) /\
        (forall c, is_nan dem c -> q c = rain c) /\
        ((1 - / 10 ^ 13) ^ (2 * length dem + 1) * amount (seq 0 (length dem)) rain <= amount ends q
           <= (1 + / 10 ^ 13) ^ (2 * length dem + 1) * amount (seq 0 (length dem)) rain)%R.
  Proof.
    intros thr centers dem nb terminals base area fuel lim t DM FU LA HF HL.
    exact (@C137_binary64_rain_reaches_the_outlets W wadd wzero ncol thr _ dem nb terminals base area fuel lim t (C141_falling thr DM) FU LA HF HL).
  Qed.
End FromTheMap.

(** The row of cells 9, 5, 1 with centres (0, 0), (1, 0), (3, 0) is such a map; its outlet is the last cell *)
Module ExMap.
  Import PropsFloat.ExF PropsRainF.ExRain PropsNumF2.ExNum.
  Lemma lies3 c z : lies_at dem3 c z -> (c = 0 /\ z = 9%R) \/ (c = 1 /\ z = 5%R) \/ (c = 2 /\ z = 1%R).
  Proof.
    intros (x & H & <-). destruct c as [|[|[|c]]]; [apply some_inj in H; subst x ..|destruct c; discriminate]; vals; auto.
  Qed.
  Lemma lies0 : lies_at dem3 0 9. Proof. exists (dbl 9 0). split; [reflexivity|vals; reflexivity]. Qed.
  Lemma lies1 : lies_at dem3 1 5. Proof. exists (dbl 5 0). split; [reflexivity|vals; reflexivity]. Qed.
  Lemma lies2 : lies_at dem3 2 1. Proof. exists (dbl 1 0). split; [reflexivity|vals; reflexivity]. Qed.
  Lemma adj01 : adjacent (queen 1 3) 0 1. Proof. apply adj_nth; vm_compute; auto. Qed.
  Lemma adj12 : adjacent (queen 1 3) 1 2. Proof. apply adj_nth; vm_compute; auto. Qed.
  Lemma adj21 : adjacent (queen 1 3) 2 1. Proof. apply adj_nth; vm_compute; auto. Qed.
  Example map3 : downhill_map centers3 dem3 (queen 1 3) [] (fun c => c = 2).
  Proof.
    assert (P10 : bpow radix2 (-10) = (/ 1024)%R) by reflexivity. assert (P59 : bpow radix2 59 = 576460752303423488%R) by reflexivity.
    constructor.
    - reflexivity.
    - exact (@tr_nb _ _ _ _ _ _ _ _ terrain33).
    - apply rows_nodup. vm_compute. reflexivity.
    - intros l I. assert (X : forallb (fun l => length l <=? 99) (queen 1 3) = true) by (vm_compute; reflexivity).
      apply Nat.leb_le. exact (proj1 (forallb_forall _ _) X l I).
    - reflexivity.
    - exists 0. eexists. reflexivity.
    - intros t [].
    - exact apart3.
    - intros c n A. rewrite P10, P59. assert (S0 : forall a : R, (0 <= a)%R -> sqrt (a ^ 2 + (0 - 0) ^ 2) = a).
      { intros a H. replace (a ^ 2 + (0 - 0) ^ 2)%R with (a * a)%R by ring. now apply sqrt_square. }
      assert (S1 : forall a : R, (0 <= a)%R -> sqrt ((- a) ^ 2 + (0 - 0) ^ 2) = a).
      { intros a H. replace ((- a) ^ 2 + (0 - 0) ^ 2)%R with (a * a)%R by ring. now apply sqrt_square. }
      apply near3 in A. unfold distance, real_point.
      destruct A as [[-> ->]|[[-> ->]|[[-> ->]|[-> ->]]]]; cbn [at64 centers3 nth fst snd]; vals.
      + replace (0 - 1)%R with (- (1))%R by lra. rewrite S1; lra.
      + replace (1 - 0)%R with 1%R by lra. rewrite S0; lra.
      + replace (1 - 3)%R with (- (2))%R by lra. rewrite S1; lra.
      + replace (3 - 1)%R with 2%R by lra. rewrite S0; lra.
    - intros c x H. split; [eapply fin3; eauto|]. assert (L := lies3 (lies H)).
      destruct L as [[_ ->]|[[_ ->]|[_ ->]]]; rewrite Rabs_pos_eq; lra.
    - intros c n zc zn A Hc Hn. assert (SM : (bpow radix2 (-400) <= 1)%R) by (change 1%R with (bpow radix2 0); apply bpow_le; lia).
      apply near3 in A. apply lies3 in Hc, Hn. right. apply Rle_trans with 1%R; [exact SM|].
      destruct A as [[-> ->]|[[-> ->]|[[-> ->]|[-> ->]]]]; destruct Hc as [[? ->]|[[? ->]|[? ->]]]; try lia; destruct Hn as [[? ->]|[[? ->]|[? ->]]]; try lia;
        unfold Rabs; destruct Rcase_abs; lra.
    - intros c. split.
      + intros ->. left. exists 1%R. split; [exact lies2|]. intros c' z' H. destruct (lies3 H) as [[_ ->]|[[_ ->]|[_ ->]]]; lra.
      + intros [(z & H & L)|[]]. assert (X := L 2 1%R lies2). destruct (lies3 H) as [[_ ->]|[[_ ->]|[-> _]]]; auto; lra.
    - intros c n -> -> A. apply near3 in A. lia.
    - intros c -> _. exists 1. split; [exact adj21|]. eexists. reflexivity.
    - intros c z H NB. destruct (lies3 H) as [[-> ->]|[[-> ->]|[-> _]]]; [| |lia].
      + exists 1, 5%R. split; [exact adj01|]. split; [exact lies1|lra].
      + exists 2, 1%R. split; [exact adj12|]. split; [exact lies2|lra].
    - intros x c n dc dn -> NB NE A1 A2 _ (zx & zn & Hx & Hn & ->) _ P. exfalso. apply near3 in A1, A2.
      assert (x = 1) by lia. assert (n = 0) by lia. subst x n.
      destruct (lies3 (lies Hx)) as [[? _]|[[_ E1]|[? _]]]; try lia. destruct (lies3 (lies Hn)) as [[_ E2]|[[? _]|[? _]]]; try lia.
      rewrite E1, E2 in P. set (D := distance _ _) in P. assert (ND : (0 <= D)%R) by apply sqrt_pos.
      destruct (Rle_lt_or_eq_dec _ _ ND) as [Y|Y].
      + assert (I := Rinv_0_lt_compat _ Y). unfold Rdiv in P. nra.
      + rewrite <- Y in P. unfold Rdiv in P. rewrite Rinv_0 in P. lra.
    - intros c zc z0 A Hc H0. apply near3 in A. assert (c = 1) by lia. subst c.
      destruct (lies3 Hc) as [[? _]|[[_ ->]|[? _]]]; try lia. destruct (lies3 H0) as [[_ ->]|[[? _]|[? _]]]; try lia; lra.
  Qed.
  Example map3_outlets := @C141_from_the_map_to_the_outlets Z Z.add 0%Z 3%Z thr centers3 dem3 (queen 1 3) [] (fun c => c = 2) [1; 1; 1]%Z 100 100 2%Z
    map3 steps3 eq_refl ltac:(cbn; lia) ltac:(cbn; lia).
End ExMap.

(** ** C142: fill first, then everything drains *)
(** the part of [downhill_map] that does not depend on elevations *)
Record map_ok (centers : list point64) (nb : list (list nat)) (size : nat) (terminals : list Z) : Prop := {
  mo_rows : length nb = size;
  mo_nb : neighbours_in nb size;
  mo_nodup : forall l, In l nb -> NoDup l;
  mo_width : forall l, In l nb -> length l <= 99;
  mo_size : 0 < size /\ (Z.of_nat size < 999000)%Z;
  mo_term : forall t, In t terminals -> (0 <= t < Z.of_nat size)%Z;
  mo_apart : forall c n, adjacent nb c n -> apart (at64 centers c) (at64 centers n);
  mo_dist : forall c n, adjacent nb c n ->
    (bpow radix2 (-10) <= distance (real_point (at64 centers c)) (real_point (at64 centers n)) <= bpow radix2 59)%R;
  mo_exit : forall c, c < size -> exists n, adjacent nb c n }.

(** the filled elevations [out] on that map: the rim drains (C65), no ties at outlets (C63), cell 0 (C71) *)
Record filled_ok (centers : list point64) (iverts nb : list (list nat)) (out : list b64) (terminals : list Z) (base : nat -> Prop) : Prop := {
  fo_elev : forall x, In x out -> finite x /\ (Rabs (val x) <= 10 ^ 6)%R;
  fo_differ : forall x y, In x out -> In y out -> val x = val y \/ (bpow radix2 (-400) <= Rabs (val x - val y))%R;
  fo_base : forall c, base c <-> lowest_of_all (map Some out) c \/ In (Z.of_nat c) terminals;
  fo_separate : forall c n, base c -> base n -> ~ adjacent nb c n;
  fo_rim : forall c z, boundary_cell iverts c -> ~ base c -> lies_at (map Some out) c z ->
    exists n zn, adjacent nb c n /\ lies_at (map Some out) n zn /\ (zn < z)%R;
  fo_choice : forall x c n dc dn, base c -> ~ base x -> n <> c -> adjacent nb x c -> adjacent nb x n ->
    descent centers (map Some out) x c dc -> descent centers (map Some out) x n dn -> (0 < dc)%R -> (0 < dn)%R ->
    (dn < (1 - / 10 ^ 14) * dc)%R \/ (dc < (1 - / 10 ^ 14) * dn)%R;
  fo_zero : forall c zc z0, adjacent nb c 0 -> lies_at (map Some out) c zc -> lies_at (map Some out) 0 z0 -> (zc <= z0)%R }.

Theorem C142_filled_terrain_is_downhill : forall centers iverts nb (dem : list b64) eps fuel terminals,
  Forall not_nan dem -> finite eps -> (bpow radix2 (-20) <= val eps)%R ->
  grid_of iverts nb (length dem) -> symmetric_grid nb ->
  (forall n, n < length dem -> reachable (link nb (length dem)) (boundary_cell iverts) n) -> length dem <= fuel ->
  map_ok centers nb (length dem) terminals ->
  exists out, fill_sinks Felev fuel iverts nb dem eps None "priority" = Ok out /\ length out = length dem /\
    forall base, filled_ok centers iverts nb out terminals base -> downhill_map centers (map Some out) nb terminals base.
Proof.
  intros centers iverts nb dem eps fuel terminals NN Fe He G SY RE FF MO. assert (P20 := bpow_gt_0 radix2 (-20)).
  destruct (@C03_binary64 iverts nb dem eps fuel NN Fe) as [out [E [F2 [_ [_ DR]]]]]; auto; [lra|]. exists out. split; [exact E|].
  assert (LO : length out = length dem) by (clear - F2; induction F2; simpl; congruence). split; [exact LO|]. intros base FO.
  assert (NT : forall c z, nth_error (map Some out) c = Some (Some z) <-> nth_error out c = Some z).
  { intros c z. rewrite nth_error_map. destruct (nth_error out c); cbn; split; congruence. }
  assert (LI : forall c x, nth_error out c = Some x -> lies_at (map Some out) c (val x)) by (intros c x H; apply lies; now apply NT).
  assert (VA : forall c, is_valid (map Some out) c <-> c < length dem).
  { intros c. unfold is_valid. rewrite <- LO. split.
    - intros [z H]. apply NT in H. apply nth_error_Some. congruence.
    - intros H. destruct (nth_error out c) as [x|] eqn:X; [exists x; now apply NT|]. apply nth_error_None in X. lia. }
  assert (B30 : (10 ^ 6 <= bpow radix2 30)%R) by (change (bpow radix2 30) with 1073741824%R; lra).
  assert (D := DR He). clear DR. assert (OB : Forall (fun x => finite x /\ (Rabs (val x) <= bpow radix2 30)%R) out).
  { apply Forall_forall. intros x Hx. destruct (fo_elev FO Hx) as [A B]. split; [auto|lra]. }
  specialize (D OB). constructor; rewrite ?map_length, ?LO; try apply MO.
  - exists 0. apply VA. apply MO.
  - intros c x H. apply NT in H. apply (fo_elev FO). eapply nth_error_In; eauto.
  - intros c n zc zn A (x & Hx & <-) (y & Hy & <-). apply NT in Hx, Hy. apply (fo_differ FO); eapply nth_error_In; eauto.
  - apply FO.
  - apply FO.
  - intros c B V. destruct (mo_exit MO (c := c)) as [n A]; [now apply VA|]. exists n. split; [auto|]. apply VA.
    eapply (mo_nb MO); [|exact A]. now apply VA.
  - intros c z (x & Hx & <-) NB. apply NT in Hx. assert (Hc : c < length dem) by (rewrite <- LO; apply nth_error_Some; congruence).
    destruct (D c Hc (RE c Hc)) as [s Hs|c' n x' y _ [LK _] Hx' Hy HL].
    + apply (fo_rim FO Hs NB). now apply LI.
    + assert (y = x) by congruence. subst y. exists c', (val x'). split; [now apply SY|]. split; [now apply LI|].
      apply lt_val in HL; auto; apply (fo_elev FO); eapply nth_error_In; eauto.
  - apply FO.
  - apply FO.
Qed.

(** the whole chain: fill, flow directions, accumulation, streams, cascades; all the rain ends in outlets *)
Theorem C142_fill_then_drain {W : Type} (wadd : W -> W -> W) (wzero : W) (ncol : Z) :
  forall thr centers iverts nb (dem : list b64) eps ffuel terminals (area : list W) fuel lim t,
  Forall not_nan dem -> finite eps -> (bpow radix2 (-20) <= val eps)%R ->
  grid_of iverts nb (length dem) -> symmetric_grid nb ->
  (forall n, n < length dem -> reachable (link nb (length dem)) (boundary_cell iverts) n) -> length dem <= ffuel ->
  map_ok centers nb (length dem) terminals ->
  enough_steps nb fuel -> length area = length dem -> S (length dem) <= fuel -> length dem + 1 <= lim ->
  exists out, fill_sinks Felev ffuel iverts nb dem eps None "priority" = Ok out /\
    forall base, filled_ok centers iverts nb out terminals base ->
    exists fdir nb' facc strm casc,
      run Fops fuel (dist64 centers) (map Some out) nb thr terminals = Ok (fdir, nb') /\
      flow_accumulation_cells wadd wzero fuel fdir area = Ok facc /\
      let prms := PropsSobj.ask Z.geb f_one f_abs f_total f_quot f_le0 f_keep lim fuel ncol fdir facc
                    (b64_rows (dist64 centers) nb (map Some out) thr) (table_nb nb (map Some out)) KPrms in
      prms [] (DelineateStreams (Scalar t) None) = Ok (AArray strm) /\
      prms [DelineateStreams (Scalar t) None] (Cascades None None true false) = Ok (ACasc casc) /\
      no_circle casc /\
      forall rain, (forall c, c < length dem -> (0 <= rain c)%R) ->
      exists q ends, routed64 casc (length dem) rain q /\
        (forall c, In c ends -> c < length dem /\ passes_on64 casc c = false /\ base c) /\ NoDup ends /\
        ((1 - / 10 ^ 13) ^ (2 * length dem + 1) * amount (seq 0 (length dem)) rain <= amount ends q
           <= (1 + / 10 ^ 13) ^ (2 * length dem + 1) * amount (seq 0 (length dem)) rain)%R.
Proof.
  intros thr centers iverts nb dem eps ffuel terminals area fuel lim t NN Fe He G SY RE FF MO FU LA HF HL.
  destruct (C142_filled_terrain_is_downhill NN Fe He G SY RE FF MO) as (out & E & LO & DM). exists out. split; [exact E|]. intros base FO.
  assert (LM : length (map Some out) = length dem) by now rewrite map_length.
  destruct (@C141_from_the_map_to_the_outlets W wadd wzero ncol thr centers (map Some out) nb terminals base area fuel lim t (DM base FO) FU)
    as (fdir & nb' & facc & strm & casc & R1 & R2 & R); rewrite ?LM; auto.
  exists fdir, nb', facc, strm, casc. split; [exact R1|]. split; [exact R2|]. cbn zeta in R |- *. destruct R as (R3 & R4 & R5 & R6).
  split; [exact R3|]. split; [exact R4|]. split; [exact R5|]. rewrite LM in R6. intros rain PR.
  destruct (R6 rain PR) as (q & ends & Q1 & _ & ND & Q3 & _ & Q5). exists q, ends. split; [exact Q1|]. split; [|split; [exact ND|exact Q5]].
  intros c Hc. destruct (Q3 c Hc) as (A & B & [C|C]); [auto|]. exfalso. unfold is_nan in C. rewrite nth_error_map in C.
  destruct (nth_error out c); cbn in C; discriminate.
Qed.
