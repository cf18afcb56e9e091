(** C20, C21, C30 for IEEE 754 binary64 areas, the arithmetic NumPy uses: accumulated areas are
    right up to one rounding per cell, and grow downstream. *)
From Coq Require Import ZArith Reals Lra Lia.
From Flocq Require Import Core.Core Relative Plus_error IEEE754.BinarySingleNaN.
From Verif Require Import Py Spec MFlow LGraph LAcc LAcc2 LAcc3 MStream PropsAcc PropsStream PropsAcc2 LFloat.
Set Implicit Arguments.
Unset Strict Implicit.
Local Open Scope nat_scope.
Local Open Scope list_scope.
Local Notation length := List.length.

(** areas as computed: not NaN, sign bit clear *)
Definition area_ok (a : b64) : Prop := not_nan a /\ Bsign a = false.
Definition f_ge (a b : b64) : bool := f_le b a.
Definition nonneg (a : b64) : Prop := not_nan a /\ (0 <= rank a)%Z.

Lemma area_nonneg a : area_ok a -> nonneg a.
Proof.
  intros [N S]. split; auto. destruct a as [s|s| |s m e B]; cbn [Bsign] in S; try discriminate; try subst s; cbn [rank].
  1: assert (X := top_pos); lia.
  assert (X := exp_bound B). assert (0 < 2 ^ (e + 1074))%Z by (apply Z.pow_pos_nonneg; lia). lia.
Qed.

Lemma area_plus_zero a : area_ok a -> f_add a f_zero = a.
Proof. intros [N S]. destruct a as [s|s| |s m e B]; cbn in S; subst; try discriminate; reflexivity. Qed.

Lemma nonneg_val a : nonneg a -> finite a -> (0 <= val a)%R.
Proof.
  intros [N R] F. destruct (Rle_or_lt 0 (val a)) as [|H]; auto. exfalso.
  change 0%R with (val f_zero) in H. apply (val_rank_lt F) in H; [|reflexivity]. cbn [rank f_zero] in H. lia.
Qed.

Lemma nonneg_cases a : nonneg a -> finite a \/ a = B754_infinity false.
Proof.
  intros [N R]. destruct (nan_cases N) as [F|[s ->]]; auto. right. destruct s; auto. cbn [rank] in R.
  assert (X := top_pos). lia.
Qed.

(** sums of non-negative doubles grow *)
Theorem b64_growing : growing f_add f_ge nonneg.
Proof.
  assert (ADD : forall a b, nonneg a -> nonneg b ->
    nonneg (f_add a b) /\ (rank a <= rank (f_add a b))%Z /\ (rank b <= rank (f_add a b))%Z).
  { intros a b Ha Hb. assert (T := top_pos).
    destruct (nonneg_cases Ha) as [Fa|Ea]; destruct (nonneg_cases Hb) as [Fb|Eb].
    - assert (Va := nonneg_val Ha Fa). assert (Vb := nonneg_val Hb Fb).
      destruct (add_cases Fa Fb Vb) as [[F [VV _]]|[-> _]].
      + assert (La : (rank a <= rank (f_add a b))%Z).
        { apply Z.nlt_ge. intros L. apply val_rank_lt in L; auto. rewrite VV in L.
          assert (X : (rnd (val a) <= rnd (val a + val b))%R) by (apply rnd_le; lra). rewrite rnd_val in X. lra. }
        assert (Lb : (rank b <= rank (f_add a b))%Z).
        { apply Z.nlt_ge. intros L. apply val_rank_lt in L; auto. rewrite VV in L.
          assert (X : (rnd (val b) <= rnd (val a + val b))%R) by (apply rnd_le; lra). rewrite rnd_val in X. lra. }
        destruct Ha. repeat split; auto; [now apply fin_ok|lia].
      + assert (Ba := rank_bound Fa). assert (Bb := rank_bound Fb).
        unfold nonneg. cbn [rank]. repeat split; lia.
    - subst b. assert (E : f_add a (B754_infinity false) = B754_infinity false) by (destruct a; try discriminate; reflexivity).
      rewrite E. assert (Ba := rank_bound Fa). unfold nonneg. cbn [rank]. repeat split; lia.
    - subst a. rewrite (add_inf _ Fb). assert (Bb := rank_bound Fb). unfold nonneg. cbn [rank]. repeat split; lia.
    - subst a b. unfold nonneg. cbn. repeat split; lia. }
  assert (GE : forall a b, nonneg a -> nonneg b -> f_ge a b = true <-> (rank b <= rank a)%Z).
  { intros a b [Na _] [Nb _]. unfold f_ge. rewrite le_rank by auto. apply Z.leb_le. }
  constructor.
  - intros a b Ha Hb. apply ADD; auto.
  - intros a Ha. apply GE; auto. lia.
  - intros a b c Ha Hb Hc. rewrite !GE by auto. lia.
  - intros a b Ha Hb. destruct (ADD a b Ha Hb) as [N [L1 L2]]. apply GE; auto.
  - intros a b Ha Hb. destruct (ADD a b Ha Hb) as [N [L1 L2]]. apply GE; auto.
Qed.

(** C30 for doubles, whatever the rounding and overflow *)
Theorem C30_binary64 :
  forall fdir (area : list b64) fuel facc t out,
    valid_fdir fdir -> acyclic fdir -> length area = length fdir -> S (length fdir) <= fuel ->
    Forall area_ok area ->
    flow_accumulation_area f_add f_zero fuel fdir area = Ok facc ->
    delineate_streams f_ge facc (Scalar t) None = Ok out ->
    forall c, c < length fdir -> nth_error out c = Some 1%Z -> nth_error out (down fdir c) = Some 1%Z.
Proof.
  intros fdir area fuel facc t out V A La Hf Ho E D. rewrite Forall_forall in Ho.
  apply (@C30_streams_run_on_any_addition b64 f_add f_zero f_ge nonneg b64_growing fdir area facc fuel) with (t := t); auto.
  - intros a Ha. apply area_plus_zero. auto.
  - intros a Ha. apply area_nonneg. auto.
  - intros a b [Na Ra] [Nb Rb] H1 H2. unfold f_ge in *. destruct (BinarySingleNaN.is_nan t) eqn:Nt.
    + destruct t; try discriminate.
    + rewrite le_rank in * by auto. apply Z.leb_le in H1, H2. apply Z.leb_le. lia.
Qed.

(** ** exact accumulation satisfies the recurrence in any order *)
Section Exact.
  Context {W : Type} (wadd : W -> W -> W) (wzero : W).
  Hypothesis X : exact_sum wadd wzero.

  Lemma fold_wsum (f : nat -> W) l : forall w, fold_left wadd (map f l) w = wadd w (wsum wadd wzero f l).
  Proof.
    destruct X as [C1 [C2 C3]]. induction l as [|m l IH]; intros w; cbn [map fold_left wsum fold_right]; [now rewrite C3|].
    rewrite IH. now rewrite C2.
  Qed.

  Lemma exact_rec fdir (area : list W) fuel areas n l :
    valid_fdir fdir -> length area = length fdir -> S (length fdir) <= fuel ->
    flow_accumulation_area wadd wzero fuel fdir area = Ok areas ->
    n < length fdir -> ~ on_cycle fdir n -> inflows_of fdir n l ->
    nth n areas wzero = wadd (nth n area wzero) (wsum wadd wzero (fun m => nth m areas wzero) l).
  Proof.
    intros V La Hf E Hn Cn [ND HI]. destruct X as [C1 [C2 C3]].
    destruct (@C20_any_addition W wadd wzero fdir area fuel areas (fun a _ => C3 a) V La Hf E) as [LA R].
    destruct (R n Hn Cn) as [l' [[ND' HI'] HV]]. apply (nth_error_nth _ _ wzero) in HV. rewrite HV at 1. rewrite fold_wsum. f_equal.
    apply wsum_perm; auto. apply NoDup_Permutation; auto. intros m. rewrite HI, HI'. tauto.
  Qed.

  Lemma sum_over_fun (w : nat -> W) P n a b : sum_over wadd wzero w P n a -> sum_over wadd wzero w P n b -> a = b.
  Proof. intros Ha. revert b. induction Ha; intros b Hb; inversion Hb; subst; auto; try contradiction.
    f_equal. auto. Qed.
End Exact.

Lemma exact_nat : exact_sum Nat.add 0. Proof. repeat split; intros; lia. Qed.
Lemma exact_R : exact_sum Rplus 0%R. Proof. repeat split; intros; ring. Qed.

(** ** roundings *)
Definition u : R := bpow radix2 (-53).
Lemma u_pos : (0 < u)%R. Proof. apply bpow_gt_0. Qed.
Lemma u_small : (u <= / 2)%R.
Proof. unfold u. change (/ 2)%R with (bpow radix2 (-1)). apply bpow_le. lia. Qed.

Lemma rnd_plus (x y : b64) : exists e, (Rabs e <= u)%R /\ rnd (val x + val y) = ((val x + val y) * (1 + e))%R.
Proof.
  destruct (@FLT_plus_error_N_ex radix2 (3 - 1024 - 53) 53 b64_prec (fun x => negb (Z.even x)) (val x) (val y)) as [e [B E]].
  - apply generic_format_B2R.
  - apply generic_format_B2R.
  - exists e. split; [|exact E]. eapply Rle_trans; [exact B|].
    assert (U : u_ro radix2 53 = u).
    { unfold u_ro, u. change (/ 2)%R with (bpow radix2 (-1)). rewrite <- bpow_plus. reflexivity. }
    rewrite U. assert (P := u_pos). apply (Rmult_le_reg_r (1 + u)); [lra|]. unfold Rdiv. rewrite Rmult_assoc, Rinv_l by lra. nra.
Qed.

Lemma pow_dec (x : R) (m n : nat) : (0 <= x <= 1)%R -> m <= n -> (x ^ n <= x ^ m)%R.
Proof.
  intros H L. replace n with (m + (n - m)) by lia. rewrite pow_add.
  assert (A : (0 <= x ^ m)%R) by (apply pow_le; lra).
  assert (B : (0 <= x ^ (n - m) <= 1)%R).
  { split; [apply pow_le; lra|]. rewrite <- (pow1 (n - m)). apply pow_incr. lra. }
  nra.
Qed.

(** [x] is [s] up to [j] roundings *)
Definition within (j : nat) (s x : R) : Prop := ((1 - u) ^ j * s <= x <= (1 + u) ^ j * s)%R.

Lemma within_mono j k s x : (0 <= s)%R -> j <= k -> within j s x -> within k s x.
Proof.
  intros Hs L [A B]. assert (P := u_pos). assert (Q := u_small). split.
  - eapply Rle_trans; [|exact A]. apply Rmult_le_compat_r; auto. apply pow_dec; auto. lra.
  - eapply Rle_trans; [exact B|]. apply Rmult_le_compat_r; auto. apply Rle_pow; auto. lra.
Qed.

Lemma within_plus j k s t x y e : (0 <= s)%R -> (0 <= t)%R -> (Rabs e <= u)%R ->
  within j s x -> within k t y -> within (S (j + k)) (s + t) ((x + y) * (1 + e)).
Proof.
  intros Hs Ht He Hx Hy. assert (P := u_pos). assert (Q := u_small).
  apply (within_mono (k := j + k)) in Hx; auto; [|lia]. apply (within_mono (k := j + k)) in Hy; auto; [|lia].
  destruct Hx as [A1 A2], Hy as [B1 B2]. apply Rabs_le_inv in He.
  assert (L : (0 <= (1 - u) ^ (j + k))%R) by (apply pow_le; lra).
  assert (U : (0 <= (1 + u) ^ (j + k))%R) by (apply pow_le; lra).
  split; cbn [pow].
  - apply Rle_trans with ((1 - u) * (x + y))%R.
    + rewrite Rmult_assoc. apply Rmult_le_compat_l; [lra|]. rewrite Rmult_plus_distr_l. lra.
    + rewrite Rmult_comm. apply Rmult_le_compat_l; [|lra].
      assert (0 <= (1 - u) ^ (j + k) * s)%R by (apply Rmult_le_pos; auto).
      assert (0 <= (1 - u) ^ (j + k) * t)%R by (apply Rmult_le_pos; auto). lra.
  - apply Rle_trans with ((1 + u) * (x + y))%R.
    + rewrite (Rmult_comm (1 + u)). apply Rmult_le_compat_l; [|lra].
      assert (0 <= (1 - u) ^ (j + k) * s)%R by (apply Rmult_le_pos; auto).
      assert (0 <= (1 - u) ^ (j + k) * t)%R by (apply Rmult_le_pos; auto). lra.
    + rewrite Rmult_assoc. apply Rmult_le_compat_l; [lra|]. rewrite Rmult_plus_distr_l. lra.
Qed.

Lemma below_finite a b : nonneg a -> nonneg b -> finite b -> f_ge b a = true -> finite a.
Proof.
  intros [Na Ra] [Nb Rb] Fb H. unfold f_ge in H. rewrite le_rank in H by auto. apply Z.leb_le in H.
  destruct (nan_cases Na) as [|[s ->]]; auto. exfalso. assert (B := rank_bound Fb). assert (T := top_pos).
  destruct s; cbn [rank] in *; lia.
Qed.

(** a sum of double areas, each within its own bounds *)
Lemma fold_within (f : nat -> b64) (S_ : nat -> R) (K : nat -> nat) l : forall w s j,
  nonneg w -> finite w -> (0 <= s)%R -> within j s (val w) ->
  (forall m, In m l -> nonneg (f m) /\ (finite (f m) -> 1 <= K m /\ (0 <= S_ m)%R /\ within (K m - 1) (S_ m) (val (f m)))) ->
  finite (fold_left f_add (map f l) w) ->
  within (j + wsum Nat.add 0 K l) (s + wsum Rplus 0%R S_ l) (val (fold_left f_add (map f l) w)).
Proof.
  induction l as [|m l IH]; intros w s j Nw Fw Hs HW HL HF; cbn [map fold_left wsum fold_right] in *.
  - rewrite Nat.add_0_r, Rplus_0_r. exact HW.
  - destruct (HL m (or_introl eq_refl)) as [Nm Hm].
    assert (NA : nonneg (f_add w (f m))) by (apply (g_ok b64_growing); auto).
    assert (FA : finite (f_add w (f m))).
    { eapply below_finite; [exact NA| |exact HF|].
      - apply (fold_ok b64_growing); auto. intros x Hx. apply in_map_iff in Hx. destruct Hx as [q [<- Hq]]. apply HL. now right.
      - apply (fold_start b64_growing); auto. intros x Hx. apply in_map_iff in Hx. destruct Hx as [q [<- Hq]]. apply HL. now right. }
    assert (Fm : finite (f m)) by (eapply below_finite; [exact Nm|exact NA|exact FA|now apply (g_right b64_growing)]).
    destruct (Hm Fm) as [K1 [S0 Wm]].
    destruct (add_cases Fw Fm (nonneg_val Nm Fm)) as [[_ [VV _]]|[EE _]]; [|rewrite EE in FA; discriminate].
    destruct (rnd_plus w (f m)) as [e [He Ee]].
    assert (X : within (S (j + (K m - 1))) (s + S_ m) (val (f_add w (f m)))).
    { rewrite VV, Ee. apply within_plus; auto. }
    replace (S (j + (K m - 1))) with (j + K m) in X by lia.
    assert (Y := IH (f_add w (f m)) (s + S_ m)%R (j + K m) NA FA ltac:(lra) X (fun q Hq => HL q (or_intror Hq)) HF).
    unfold wsum in Y. rewrite <- Nat.add_assoc, Rplus_assoc in Y. exact Y.
Qed.

(** C20 for doubles: the accumulated area is the exact total upstream area up to one rounding
    for each of the other upstream cells *)
Theorem C20_binary64 :
  forall fdir (area : list b64) fuel areas,
    Forall (fun a => finite a /\ Bsign a = false) area ->
    valid_fdir fdir -> length area = length fdir -> S (length fdir) <= fuel ->
    flow_accumulation_area f_add f_zero fuel fdir area = Ok areas ->
    forall n, n < length fdir -> ~ on_cycle fdir n -> finite (nth n areas f_zero) ->
      exists l s, upstream_cells fdir n l /\
        sum_over Rplus 0%R (fun c => val (nth c area f_zero)) (fun c => flows_through fdir c n) (length fdir) s /\
        ((1 - u) ^ (length l - 1) * s <= val (nth n areas f_zero) <= (1 + u) ^ (length l - 1) * s)%R.
Proof.
  intros fdir area fuel areas HA V La Hf E. rewrite Forall_forall in HA.
  assert (AOK : forall a, In a area -> area_ok a) by (intros a Ha; destruct (HA a Ha); split; auto; now apply fin_ok).
  assert (HZ : forall a, In a area -> f_add a f_zero = a) by (intros a Ha; apply area_plus_zero; auto).
  assert (HN : forall a, In a area -> nonneg a) by (intros a Ha; apply area_nonneg; auto).
  set (areaR := map val area). set (ones := repeat 1 (length fdir)).
  assert (LR : length areaR = length fdir) by (unfold areaR; rewrite map_length; auto).
  assert (L1 : length ones = length fdir) by apply repeat_length.
  destruct (@C18_accumulation_finishes R Rplus 0%R fdir areaR V LR) as [c0 [SR [_ [LSR ER]]]]. destruct (ER fuel Hf) as [_ ES]. clear ER.
  destruct (@C18_accumulation_finishes nat Nat.add 0 fdir ones V L1) as [c1 [KK [_ [LK EK]]]]. destruct (EK fuel Hf) as [_ EKK]. clear EK.
  destruct (@C20_any_addition b64 f_add f_zero fdir area fuel areas HZ V La Hf E) as [LA R].
  assert (VA : forall c, nth c areaR 0%R = val (nth c area f_zero)).
  { intros c. unfold areaR. change 0%R with (val f_zero). apply map_nth. }
  assert (V0 : forall c, c < length fdir -> (0 <= val (nth c area f_zero))%R).
  { intros c Hc. assert (I : In (nth c area f_zero) area) by (apply nth_In; lia). apply nonneg_val; auto. now apply HA. }
  assert (MAIN : forall n, n < length fdir -> ~ on_cycle fdir n ->
    1 <= nth n KK 0 /\ (0 <= nth n SR 0)%R /\ (finite (nth n areas f_zero) -> within (nth n KK 0 - 1) (nth n SR 0%R) (val (nth n areas f_zero)))).
  { apply (@network_ind fdir). intros n Hn Cn IH.
    destruct (R n Hn Cn) as [l [HI HV]]. apply (nth_error_nth _ _ f_zero) in HV.
    assert (K1 := @exact_rec nat Nat.add 0 exact_nat fdir ones fuel KK n l V L1 Hf EKK Hn Cn HI).
    assert (S1 := @exact_rec _ Rplus 0%R exact_R fdir areaR fuel SR n l V LR Hf ES Hn Cn HI).
    assert (O : nth n ones 0 = 1) by (unfold ones; rewrite (nth_indep _ 0 1) by (rewrite repeat_length; auto); apply nth_repeat).
    rewrite O in K1. rewrite VA in S1.
    assert (INF : forall m, In m l -> m < length fdir /\ ~ on_cycle fdir m /\ m <> n /\ down fdir m = n).
    { intros m Hm. apply HI in Hm. destruct Hm as [H1 [H2 H3]]. repeat split; auto. apply (@off_cycle fdir n); auto. }
    split; [lia|]. split.
    - rewrite S1. assert (G : forall l, (forall m, In m l -> (0 <= nth m SR 0)%R) -> (0 <= wsum Rplus 0%R (fun m => nth m SR 0%R) l)%R).
      { clear. induction l as [|m l IH]; intros H; cbn [wsum fold_right]; [lra|]. assert (A := H m (or_introl eq_refl)).
        assert (B := IH (fun q Hq => H q (or_intror Hq))). unfold wsum in B. lra. }
      specialize (V0 n Hn). assert (Q := G l). lapply Q; [lra|]. intros m Hm. destruct (INF m Hm) as [A [B [C D]]]. now apply IH.
    - intros F. rewrite HV in F |- *. rewrite K1, S1. replace (1 + _ - 1) with (0 + wsum Nat.add 0 (fun m => nth m KK 0) l) by lia.
      assert (I : In (nth n area f_zero) area) by (apply nth_In; lia).
      apply (@fold_within (fun m => nth m areas f_zero) (fun m => nth m SR 0%R) (fun m => nth m KK 0) l); auto.
      + now apply HA.
      + unfold within. simpl. lra.
      + intros m Hm. destruct (INF m Hm) as [A [B [C D]]]. split.
        * now apply (@acc_ok b64 f_add f_zero f_ge nonneg b64_growing fdir area areas fuel).
        * intros Fm. destruct (IH m A C D B) as [Q1 [Q2 Q3]]. auto. }
  intros n Hn Cn Fn. destruct (MAIN n Hn Cn) as [_ [_ M]]. specialize (M Fn).
  destruct (@C20_accumulated_area _ Rplus 0%R fdir areaR fuel SR exact_R V LR Hf ES n Hn Cn) as [s [Es Ss]].
  destruct (@C20_accumulated_area _ Nat.add 0 fdir ones fuel KK exact_nat V L1 Hf EKK n Hn Cn) as [k [Ek Sk]].
  destruct (@C18_accumulation_finishes b64 f_add f_zero fdir area V La) as [cells [a0 [_ [_ EC]]]]. destruct (EC fuel Hf) as [EC' _]. clear EC.
  destruct (@C19_accumulated_cells b64 f_add f_zero fdir area fuel cells V La Hf EC' n Hn Cn) as [l [UL _]].
  exists l, s. split; auto. split.
  - clear - Ss VA. assert (G : forall w w' P n s, (forall c, w c = w' c) -> sum_over Rplus 0%R w P n s -> sum_over Rplus 0%R w' P n s).
    { intros w w' P m t H Q. induction Q; [constructor| |]; [rewrite H|]; constructor; auto. }
    eapply G; [|exact Ss]. exact VA.
  - apply (nth_error_nth _ _ 0%R) in Es. apply (nth_error_nth _ _ 0) in Ek. rewrite Es, Ek in M.
    assert (H : k = length l).
    { destruct UL as [ND HL]. assert (W1 := @wsum_sum_over nat Nat.add 0 ltac:(intros; lia) ltac:(intros; lia) (fun c => nth c ones 0)
        (fun c => flows_through fdir c n) (length fdir) l ND HL).
      assert (X := sum_over_fun exact_nat Sk W1). rewrite X. clear - HL.
      assert (forall c, In c l -> c < length fdir) by (intros c Hc; apply HL in Hc; tauto). clear HL.
      induction l as [|c l IH]; auto. cbn [wsum fold_right List.length]. unfold wsum in IH. rewrite IH by (intros; apply H; now right).
      unfold ones. rewrite (nth_indep _ 0 1) by (rewrite repeat_length; apply H; now left). rewrite nth_repeat. lia. }
    rewrite H in M. exact M.
Qed.

(** the same as a relative error: at most 2^-52 for each upstream cell *)
Lemma within_relative k s x : (0 <= s)%R -> (INR k * u <= / 2)%R -> within (k - 1) s x ->
  (Rabs (x - s) <= INR k * (2 * u) * s)%R.
Proof.
  intros Hs Hk Hw. apply (within_mono (k := k)) in Hw; auto; [|lia]. destruct Hw as [A B].
  assert (P := u_pos). assert (Q := u_small). assert (K0 := pos_INR k).
  assert (LO : forall k, (1 - INR k * u <= (1 - u) ^ k)%R).
  { clear - P Q. induction k as [|k IH]; [simpl; lra|]. rewrite S_INR. cbn [pow].
    assert (H : ((1 - u) ^ k <= 1 ^ k)%R) by (apply pow_incr; lra). rewrite pow1 in H. assert (0 <= (1 - u) ^ k)%R by (apply pow_le; lra). nra. }
  assert (UP : ((1 + u) ^ k * (1 - INR k * u) <= 1)%R).
  { apply Rle_trans with ((1 + u) ^ k * (1 - u) ^ k)%R.
    - apply Rmult_le_compat_l; [apply pow_le; lra|apply LO].
    - rewrite <- Rpow_mult_distr. apply Rle_trans with (1 ^ k)%R; [|rewrite pow1; lra]. apply pow_incr. split; nra. }
  assert (UP2 : ((1 + u) ^ k <= 1 + 2 * (INR k * u))%R).
  { assert (0 <= (1 + u) ^ k)%R by (apply pow_le; lra). set (y := ((1 + u) ^ k)%R) in *. set (z := (INR k * u)%R) in *.
    assert (0 <= z)%R by (unfold z; nra). apply (Rmult_le_reg_r (1 - z)); [lra|]. nra. }
  specialize (LO k). apply Rabs_le. split; nra.
Qed.

Theorem C20_binary64_relative :
  forall fdir (area : list b64) fuel areas,
    Forall (fun a => finite a /\ Bsign a = false) area ->
    valid_fdir fdir -> length area = length fdir -> S (length fdir) <= fuel ->
    flow_accumulation_area f_add f_zero fuel fdir area = Ok areas ->
    forall n, n < length fdir -> ~ on_cycle fdir n -> finite (nth n areas f_zero) ->
      exists l s, upstream_cells fdir n l /\
        sum_over Rplus 0%R (fun c => val (nth c area f_zero)) (fun c => flows_through fdir c n) (length fdir) s /\
        ((INR (length l) <= bpow radix2 52)%R ->
         (Rabs (val (nth n areas f_zero) - s) <= INR (length l) * bpow radix2 (-52) * s)%R).
Proof.
  intros fdir area fuel areas HA V La Hf E n Hn Cn Fn.
  destruct (@C20_binary64 fdir area fuel areas HA V La Hf E n Hn Cn Fn) as [l [s [U [SS B]]]].
  exists l, s. split; auto. split; auto. intros HK.
  assert (D : (bpow radix2 (-52) = 2 * u)%R) by (unfold u; change 2%R with (bpow radix2 1); rewrite <- bpow_plus; reflexivity).
  rewrite D. apply within_relative; auto.
  - assert (G : forall P m t, m <= length fdir -> sum_over Rplus 0%R (fun c => val (nth c area f_zero)) P m t -> (0 <= t)%R).
    { rewrite Forall_forall in HA. clear - HA La. intros P m t L Q. induction Q as [|m t Q IH HP|m t Q IH HP]; [lra| |].
      - assert (I : In (nth m area f_zero) area) by (apply nth_In; lia). destruct (HA _ I) as [F S0].
        assert (X := nonneg_val (area_nonneg (conj (fin_ok F) S0)) F). assert (Y := IH ltac:(lia)). lra.
      - apply IH. lia. }
    eapply G; [|exact SS]. lia.
  - apply Rle_trans with (bpow radix2 52 * u)%R; [apply Rmult_le_compat_r; auto; apply Rlt_le, u_pos|].
    unfold u. rewrite <- bpow_plus. apply Rle_refl.
Qed.

Lemma sum_over_within (w v : nat -> R) P j n a : sum_over Rplus 0%R w P n a ->
  (forall t, t < n -> P t -> within j (w t) (v t)) ->
  exists b, sum_over Rplus 0%R v P n b /\ within j a b.
Proof.
  induction 1 as [|n a Q IH HP|n a Q IH HP]; intros H.
  - exists 0%R. split; [constructor|]. unfold within. lra.
  - destruct IH as [b [B1 B2]]; [intros; apply H; auto|]. exists (b + v n)%R. split; [now constructor|].
    destruct B2 as [B2 B3]. destruct (H n ltac:(lia) HP) as [H1 H2]. split; rewrite Rmult_plus_distr_l; lra.
  - destruct IH as [b [B1 B2]]; [intros; apply H; auto|]. exists b. split; [now constructor|auto].
Qed.

Lemma sum_over_ext {W} (wadd : W -> W -> W) wzero (w w' : nat -> W) P n s :
  (forall c, w c = w' c) -> sum_over wadd wzero w P n s -> sum_over wadd wzero w' P n s.
Proof. intros H Q. induction Q; [constructor| |]; [rewrite H|]; constructor; auto. Qed.

(** C21 for doubles: the (exact) sum of the accumulated areas of the terminal cells is the
    total area up to one rounding per cell of the grid *)
Theorem C21_binary64 :
  forall fdir (area : list b64) fuel areas,
    Forall (fun a => finite a /\ Bsign a = false) area ->
    valid_fdir fdir -> acyclic fdir -> length area = length fdir -> S (length fdir) <= fuel ->
    flow_accumulation_area f_add f_zero fuel fdir area = Ok areas ->
    Forall finite areas ->
    exists out total,
      sum_over Rplus 0%R (fun t => val (nth t areas f_zero)) (terminal fdir) (length fdir) out /\
      sum_over Rplus 0%R (fun c => val (nth c area f_zero)) (fun _ => True) (length fdir) total /\
      ((1 - u) ^ length fdir * total <= out <= (1 + u) ^ length fdir * total)%R.
Proof.
  intros fdir area fuel areas HA V A La Hf E HF. rewrite Forall_forall in HF.
  set (areaR := map val area).
  assert (LR : length areaR = length fdir) by (unfold areaR; rewrite map_length; auto).
  assert (VA : forall c, nth c areaR 0%R = val (nth c area f_zero)).
  { intros c. unfold areaR. change 0%R with (val f_zero). apply map_nth. }
  destruct (@C18_accumulation_finishes R Rplus 0%R fdir areaR V LR) as [c0 [SR [_ [LSR ER]]]]. destruct (ER fuel Hf) as [_ ES]. clear ER.
  destruct (@C18_accumulation_finishes b64 f_add f_zero fdir area V La) as [c1 [a0 [_ [LA0 EA]]]]. destruct (EA fuel Hf) as [_ EA0]. clear EA.
  assert (a0 = areas) by congruence. subst a0.
  assert (X := @C21_area_conserved _ Rplus 0%R fdir areaR fuel SR exact_R V A LR Hf ES).
  destruct X as [total [X1 X2]].
  destruct (@sum_over_within (fun t => nth t SR 0%R) (fun t => val (nth t areas f_zero)) (terminal fdir) (length fdir) (length fdir) total X1) as [out [O1 O2]].
  - intros t Ht _.
    assert (Ft : finite (nth t areas f_zero)) by (apply HF, nth_In; lia).
    destruct (@C20_binary64 fdir area fuel areas HA V La Hf E t Ht (A t Ht) Ft) as [l [s [[ND HU] [SS B]]]].
    destruct (@C20_accumulated_area _ Rplus 0%R fdir areaR fuel SR exact_R V LR Hf ES t Ht (A t Ht)) as [s' [Es Ss]].
    apply (nth_error_nth _ _ 0%R) in Es. apply (sum_over_ext VA) in Ss.
    assert (Q : s = s') by (eapply sum_over_fun; eauto using exact_R). rewrite Es, <- Q.
    apply (within_mono (j := length l - 1)); [|  |exact B].
    + clear - SS HA La. rewrite Forall_forall in HA.
      assert (G : forall P m t, m <= length fdir -> sum_over Rplus 0%R (fun c => val (nth c area f_zero)) P m t -> (0 <= t)%R).
      { intros P m q L Q. induction Q as [|m q Q IH HP|m q Q IH HP]; [lra| |].
        - assert (I : In (nth m area f_zero) area) by (apply nth_In; lia). destruct (HA _ I) as [F S0].
          assert (X := nonneg_val (area_nonneg (conj (fin_ok F) S0)) F). assert (Y := IH ltac:(lia)). lra.
        - apply IH. lia. }
      eapply G; [|exact SS]. lia.
    + assert (length l <= length fdir); [|lia]. rewrite <- (seq_length (length fdir) 0). apply NoDup_incl_length; auto.
      intros c Hc. apply HU in Hc. apply in_seq. lia.
  - exists out, total. split; auto. split; [|exact O2]. apply (sum_over_ext VA) in X2. exact X2.
Qed.

(** Instances: 0.1, 0.2 and 0.3 as doubles; cells 0 and 1 flow to cell 2, the outlet. *)
Module Ex.
  Definition d1 : b64 := @B754_finite 53 1024 false 7205759403792794 (-56) eq_refl.
  Definition d2 : b64 := @B754_finite 53 1024 false 7205759403792794 (-55) eq_refl.
  Definition d3 : b64 := @B754_finite 53 1024 false 5404319552844595 (-54) eq_refl.
  Definition fdir := [2; 2; 2]%Z.
  Definition area := [d1; d2; d3].
  Example ok : Forall (fun a => finite a /\ Bsign a = false) area.
  Proof. repeat constructor. Qed.
  Example valid : valid_fdir fdir. Proof. repeat constructor; cbv; congruence. Qed.
  Example no_cycle : acyclic fdir.
  Proof.
    intros n Hn [H [k [Hk E]]]. destruct n as [|[|[|n]]]; [| |cbv in H; congruence|simpl in Hn; lia].
    all: assert (Z : forall j, downs fdir j 2 = 2) by (induction j; auto; rewrite downs_S, IHj; reflexivity).
    all: destruct k as [|k]; [lia|]; change (downs fdir k 2 = 0) in E || change (downs fdir k 2 = 1) in E; rewrite Z in E; discriminate.
  Qed.
  Definition run := flow_accumulation_area f_add f_zero 4 fdir area.
  Example finishes : match run with Ok l => forallb (fun x => is_finite x) l && Nat.eqb (length l) 3 | _ => false end = true.
  Proof. vm_compute. reflexivity. Qed.
  (** sums depend on the order: (0.3 + 0.2) + 0.1 = 0.6, (0.3 + 0.1) + 0.2 > 0.6 *)
  Example inexact : f_eq (f_add (f_add d3 d1) d2) (f_add (f_add d3 d2) d1) = false.
  Proof. vm_compute. reflexivity. Qed.
End Ex.
