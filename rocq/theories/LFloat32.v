(** IEEE 754 binary32 (NumPy's float32, round to nearest even) satisfies the laws assumed of
    elevations ([elev_laws]); a small increment is absorbed by the rounding.  The sum of a
    float32 array element and a Python float, stored back in a float32 array, is modelled as
    in NumPy 2: the Python float is rounded to float32 and the sum is a float32 sum.
    Same proofs as [LFloat] with the constants of the other format. *)
From Coq Require Import ZArith Reals Lra Lia.
From Flocq Require Import Core.Core IEEE754.BinarySingleNaN.
From Verif Require Import Py Spec.
Set Implicit Arguments.
Unset Strict Implicit.
Local Open Scope Z_scope.

Definition b32 := binary_float 24 128.
#[global] Instance b32_prec : Prec_gt_0 24. Proof. reflexivity. Qed.
#[global] Instance b32_emax : Prec_lt_emax 24 128. Proof. reflexivity. Qed.
Notation f32 := (SpecFloat.fexp 24 128).
#[global] Instance f32_valid : Valid_exp f32 := fexp_correct 24 128 b32_prec.
Notation rnd := (round radix2 f32 (round_mode mode_NE)).
Notation val := (@B2R 24 128).
Notation fin := (@is_finite 24 128).
Notation nan := (@BinarySingleNaN.is_nan 24 128).

Definition f_add : b32 -> b32 -> b32 := Bplus mode_NE.
Definition f_sub : b32 -> b32 -> b32 := Bminus mode_NE.
Definition f_div : b32 -> b32 -> b32 := Bdiv mode_NE.
Definition f_le : b32 -> b32 -> bool := @Bleb 24 128.
Definition f_lt : b32 -> b32 -> bool := @Bltb 24 128.
Definition f_eq : b32 -> b32 -> bool := @Beqb 24 128.
Definition f_zero : b32 := B754_zero false.
(** 1e10 = 9765625 * 2^10 *)
Definition f_big : b32 := @B754_finite 24 128 false 9765625 10 eq_refl.

Definition not_nan (x : b32) : Prop := nan x = false.
Definition finite (x : b32) : Prop := fin x = true.

(** ** the rank of a float32: its value in units of 2^-149; the infinities lie outside *)
Definition rank (x : b32) : Z :=
  match x with
  | B754_zero _ => 0
  | B754_infinity s => if s then - 2 ^ 277 else 2 ^ 277
  | B754_nan => 0
  | B754_finite s m e _ => (if s then Zneg m else Zpos m) * 2 ^ (e + 149)
  end.

Lemma exp_bound m e : SpecFloat.bounded 24 128 m e = true -> -149 <= e.
Proof.
  unfold SpecFloat.bounded, SpecFloat.canonical_mantissa. intros H. apply andb_prop in H. destruct H as [H _].
  apply Zeq_bool_eq in H. unfold SpecFloat.fexp, SpecFloat.emin in H. lia.
Qed.

Lemma rank_val x : finite x -> IZR (rank x) = (val x * bpow radix2 149)%R.
Proof.
  destruct x as [s|s| |s m e B]; intros F; try discriminate; [cbn; lra|].
  assert (E := exp_bound B). unfold rank. unfold B2R, F2R; cbn [Fnum Fexp].
  rewrite Rmult_assoc, <- bpow_plus, mult_IZR.
  replace (2 ^ (e + 149)) with (radix2 ^ (e + 149)) by reflexivity. rewrite IZR_Zpower by lia.
  now destruct s.
Qed.

Lemma rank_bound x : finite x -> - 2 ^ 277 < rank x < 2 ^ 277.
Proof.
  intros F. assert (H := abs_B2R_lt_emax _ _ x). assert (V := rank_val F).
  assert (B : (Rabs (IZR (rank x)) < bpow radix2 277)%R).
  { rewrite V, Rabs_mult, (Rabs_pos_eq (bpow _ _)) by apply bpow_ge_0.
    change 277 with (128 + 149). rewrite bpow_plus. apply Rmult_lt_compat_r; [apply bpow_gt_0|exact H]. }
  rewrite <- abs_IZR, <- (IZR_Zpower radix2 277) in B by lia. apply lt_IZR in B.
  change (radix2 ^ 277) with (2 ^ 277) in B. lia.
Qed.

Lemma top_pos : 0 < 2 ^ 277. Proof. apply Z.pow_pos_nonneg; lia. Qed.

Lemma val_rank_lt x y : finite x -> finite y -> (val x < val y)%R <-> rank x < rank y.
Proof.
  intros Fx Fy. assert (P := bpow_gt_0 radix2 149). split; intros H.
  - apply lt_IZR. rewrite !rank_val by auto. now apply Rmult_lt_compat_r.
  - apply IZR_lt in H. rewrite !rank_val in H by auto. now apply Rmult_lt_reg_r in H.
Qed.
Lemma val_rank_eq x y : finite x -> finite y -> val x = val y <-> rank x = rank y.
Proof.
  intros Fx Fy. assert (P := bpow_gt_0 radix2 149). split; intros H.
  - apply eq_IZR. rewrite !rank_val by auto. now rewrite H.
  - apply (f_equal IZR) in H. rewrite !rank_val in H by auto. apply Rmult_eq_reg_r in H; auto. lra.
Qed.

Lemma nan_cases x : not_nan x -> finite x \/ exists s, x = B754_infinity s.
Proof. destruct x; intros H; try discriminate; [left; reflexivity|right; eauto|left; reflexivity]. Qed.

Lemma compare_rank x y : not_nan x -> not_nan y -> Bcompare x y = Some (rank x ?= rank y).
Proof.
  intros Nx Ny. assert (T := top_pos).
  assert (INF : forall s, rank (B754_infinity s) = if s then - 2 ^ 277 else 2 ^ 277) by reflexivity.
  destruct (nan_cases Nx) as [Fx|[sx ->]], (nan_cases Ny) as [Fy|[sy ->]].
  - rewrite Bcompare_correct by auto. f_equal.
    destruct (Rcompare_spec (val x) (val y)) as [H|H|H].
    + apply (val_rank_lt Fx Fy) in H. symmetry. now apply Z.compare_lt_iff.
    + apply val_rank_eq in H; auto. rewrite H. now rewrite Z.compare_refl.
    + apply (val_rank_lt Fy Fx) in H. symmetry. apply Z.compare_gt_iff. exact H.
  - assert (B := rank_bound Fx). rewrite INF.
    destruct sy; [replace (rank x ?= - 2 ^ 277) with Gt by (symmetry; apply Z.compare_gt_iff; lia)
                 |replace (rank x ?= 2 ^ 277) with Lt by (symmetry; apply Z.compare_lt_iff; lia)];
      destruct x as [s|s| |s m e Be]; try discriminate; try reflexivity; destruct s; reflexivity.
  - assert (B := rank_bound Fy). rewrite INF.
    destruct sx; [replace (- 2 ^ 277 ?= rank y) with Lt by (symmetry; apply Z.compare_lt_iff; lia)
                 |replace (2 ^ 277 ?= rank y) with Gt by (symmetry; apply Z.compare_gt_iff; lia)];
      destruct y as [s|s| |s m e Be]; try discriminate; try reflexivity; destruct s; reflexivity.
  - rewrite !INF.
    destruct sx, sy; [rewrite Z.compare_refl|replace (- 2 ^ 277 ?= 2 ^ 277) with Lt by (symmetry; apply Z.compare_lt_iff; lia)
      |replace (2 ^ 277 ?= - 2 ^ 277) with Gt by (symmetry; apply Z.compare_gt_iff; lia)|rewrite Z.compare_refl]; reflexivity.
Qed.

Lemma le_rank x y : not_nan x -> not_nan y -> f_le x y = (rank x <=? rank y).
Proof.
  intros Nx Ny. assert (C := compare_rank Nx Ny). unfold f_le, Bleb, SpecFloat.SFleb. unfold Bcompare in C. rewrite C.
  unfold Z.leb. now destruct (rank x ?= rank y).
Qed.
Lemma lt_rank x y : not_nan x -> not_nan y -> f_lt x y = (rank x <? rank y).
Proof.
  intros Nx Ny. assert (C := compare_rank Nx Ny). unfold f_lt, Bltb, SpecFloat.SFltb. unfold Bcompare in C. rewrite C.
  unfold Z.ltb. now destruct (rank x ?= rank y).
Qed.
Lemma eq_rank x y : not_nan x -> not_nan y -> f_eq x y = (rank x =? rank y).
Proof.
  intros Nx Ny. assert (C := compare_rank Nx Ny). unfold f_eq, Beqb, SpecFloat.SFeqb. unfold Bcompare in C. rewrite C.
  destruct (Z.compare_spec (rank x) (rank y)) as [->|H|H]; symmetry;
    [apply Z.eqb_refl|apply Z.eqb_neq; lia|apply Z.eqb_neq; lia].
Qed.

(** ** adding a finite increment that is not negative *)
Lemma sign_pos x : finite x -> (0 < val x)%R -> Bsign x = false.
Proof.
  destruct x as [s|s| |s m e B]; intros F P; try discriminate; [cbn in P; lra|].
  destruct s; [|reflexivity]. exfalso. cbn in P.
  assert (X : (F2R (Float radix2 (Zneg m) e) < 0)%R) by now apply F2R_lt_0. lra.
Qed.
Lemma sign_neg x : finite x -> (val x < 0)%R -> Bsign x = true.
Proof.
  destruct x as [s|s| |s m e B]; intros F P; try discriminate; [cbn in P; lra|].
  destruct s; [reflexivity|]. exfalso. cbn in P.
  assert (X : (0 < F2R (Float radix2 (Zpos m) e))%R) by now apply F2R_gt_0. lra.
Qed.

Lemma rnd_val x : rnd (val x) = val x.
Proof. apply round_generic; [apply valid_rnd_round_mode|apply generic_format_B2R]. Qed.
Lemma rnd_le a b : (a <= b)%R -> (rnd a <= rnd b)%R.
Proof. apply round_le; [apply f32_valid|apply valid_rnd_round_mode]. Qed.

Lemma of_inf x s : B2SF x = SpecFloat.S754_infinity s -> x = B754_infinity s :> b32.
Proof. destruct x; cbn; intros H; inversion H; reflexivity. Qed.

Lemma add_cases x eps : finite x -> finite eps -> (0 <= val eps)%R ->
  (finite (f_add x eps) /\ val (f_add x eps) = rnd (val x + val eps) /\ (rnd (val x + val eps) < bpow radix2 128)%R) \/
  (f_add x eps = B754_infinity false /\ (bpow radix2 128 <= rnd (val x + val eps))%R).
Proof.
  intros Fx Fe He. assert (C := Bplus_correct _ _ _ _ mode_NE x eps Fx Fe).
  set (r := rnd (val x + val eps)) in *.
  assert (LR : (val x <= r)%R). { rewrite <- rnd_val. apply rnd_le. lra. }
  assert (BX := abs_B2R_lt_emax _ _ x). apply Rabs_lt_inv in BX.
  destruct (Rlt_bool_spec (Rabs r) (bpow radix2 128)) as [L|L].
  - destruct C as [C1 [C2 _]]. left. split; [exact C2|]. split; [exact C1|]. apply Rabs_lt_inv in L. lra.
  - right. destruct C as [C1 C2].
    assert (R0 : (0 <= r)%R). { destruct (Rle_or_lt 0 r) as [|R0]; auto. rewrite Rabs_left in L by auto. lra. }
    rewrite Rabs_pos_eq in L by auto. split; auto.
    assert (PE : (0 < val eps)%R).
    { destruct He as [|He]; auto. exfalso. unfold r in L. rewrite <- He, Rplus_0_r, rnd_val in L. lra. }
    rewrite (sign_pos Fe PE) in C2. rewrite C2 in C1. now apply of_inf.
Qed.

Lemma add_inf s eps : finite eps -> f_add (B754_infinity s) eps = B754_infinity s.
Proof. destruct eps; intros F; try discriminate; reflexivity. Qed.

Definition F32elev : elev b32 := Elev f_le f_lt f_eq f_add f_zero f_big.

(** the elevation laws hold for all float32 other than NaN and every finite increment >= 0 *)
Theorem b32_laws : forall eps, finite eps -> (0 <= val eps)%R -> elev_laws F32elev not_nan rank eps.
Proof.
  intros eps Fe He. constructor; cbn [F32elev e_le e_lt e_eq e_add e_big].
  - exact le_rank.
  - exact lt_rank.
  - exact eq_rank.
  - intros x Nx. destruct (nan_cases Nx) as [Fx|[s ->]]; [|rewrite add_inf by auto; reflexivity].
    destruct (add_cases Fx Fe He) as [[F _]|[-> _]]; [|reflexivity].
    unfold not_nan. destruct (f_add x eps); try discriminate; reflexivity.
  - intros x Nx. destruct (nan_cases Nx) as [Fx|[s ->]]; [|rewrite add_inf by auto; lia].
    destruct (add_cases Fx Fe He) as [[F [V _]]|[-> _]].
    + apply Z.nlt_ge. intros L. apply val_rank_lt in L; auto. rewrite V in L.
      assert (X : (rnd (val x) <= rnd (val x + val eps))%R) by (apply rnd_le; lra). rewrite rnd_val in X. lra.
    + cbn [rank]. assert (B := rank_bound Fx). lia.
  - intros x y Nx Ny L. destruct (nan_cases Nx) as [Fx|[s ->]].
    + destruct (nan_cases Ny) as [Fy|[s ->]].
      * assert (VL : (val x <= val y)%R).
        { destruct (Rle_or_lt (val x) (val y)) as [|G]; auto. apply val_rank_lt in G; auto. lia. }
        assert (RL : (rnd (val x + val eps) <= rnd (val y + val eps))%R) by (apply rnd_le; lra).
        destruct (add_cases Fx Fe He) as [[F [V _]]|[-> B1]], (add_cases Fy Fe He) as [[F' [V' B2]]|[-> _]]; try lra.
        -- apply Z.nlt_ge. intros G. apply val_rank_lt in G; auto. lra.
        -- assert (B := rank_bound F). cbn [rank]. lia.
        -- lia.
      * rewrite add_inf by auto. destruct s; [cbn [rank] in L; assert (B := rank_bound Fx); lia|].
        destruct (add_cases Fx Fe He) as [[F _]|[-> _]]; [|lia].
        assert (B := rank_bound F). cbn [rank]. lia.
    + rewrite add_inf by auto. destruct s.
      * destruct (nan_cases Ny) as [Fy|[s ->]]; [|rewrite add_inf by auto; exact L].
        assert (T := top_pos).
        destruct (add_cases Fy Fe He) as [[F _]|[-> _]]; [assert (B := rank_bound F)|]; cbn [rank]; lia.
      * destruct (nan_cases Ny) as [Fy|[s ->]]; [|rewrite add_inf by auto; exact L].
        cbn [rank] in L. assert (B := rank_bound Fy). lia.
  - reflexivity.
Qed.

Theorem b32_null : eps_null F32elev not_nan f_zero.
Proof.
  intros x Nx. cbn [F32elev e_eq e_add]. assert (F0 : finite f_zero) by reflexivity.
  assert (N2 : not_nan (f_add x f_zero)) by (apply (l_ok (b32_laws F0 (Rle_refl _))); auto).
  rewrite eq_rank by auto. apply Z.eqb_eq.
  destruct (nan_cases Nx) as [Fx|[s ->]]; [|now rewrite add_inf].
  destruct (@add_cases x f_zero Fx F0) as [[F [V _]]|[_ B]]; [cbn; lra| |].
  - apply val_rank_eq; auto. rewrite V. cbn. now rewrite Rplus_0_r, rnd_val.
  - exfalso. cbn [f_zero] in B. unfold B2R at 2 in B. cbn in B. rewrite Rplus_0_r, rnd_val in B.
    assert (BX := abs_B2R_lt_emax _ _ x). apply Rabs_lt_inv in BX. cbn in *. lra.
Qed.

(** ** absorption: an increment below half a unit in the last place is lost *)
Lemma rnd_absorb x e : generic_format radix2 f32 x -> (0 <= x)%R -> (0 <= e)%R -> (e < / 2 * ulp radix2 f32 x)%R ->
  rnd (x + e) = x.
Proof.
  intros Fx X0 E0 E1. set (y := rnd (x + e)).
  assert (LO : (x <= y)%R).
  { unfold y. rewrite <- (round_generic radix2 f32 (round_mode mode_NE) x Fx) at 1. apply rnd_le. lra. }
  destruct LO as [LO|LO]; [|auto]. exfalso.
  assert (Fy : generic_format radix2 f32 y) by (apply generic_format_round; [apply f32_valid|apply valid_rnd_round_mode]).
  assert (S : (succ radix2 f32 x <= y)%R) by (apply succ_le_lt; [apply f32_valid| | |]; auto).
  rewrite succ_eq_pos in S by auto.
  assert (N : Rnd_N_pt (generic_format radix2 f32) (x + e) y).
  { unfold y. change (round_mode mode_NE) with (Znearest (fun x => negb (Z.even x))). apply round_N_pt. apply f32_valid. }
  destruct N as [_ N]. specialize (N x Fx). rewrite !Rabs_minus_sym with (y := (x + e)%R) in N.
  replace (x + e - x)%R with e in N by ring. rewrite (Rabs_pos_eq e) in N by auto.
  rewrite Rabs_minus_sym in N. rewrite Rabs_pos_eq in N by lra. lra.
Qed.

(** the elevations of at least 64 *)
Definition high (x : b32) : Prop := finite x /\ (64 <= val x)%R.

Lemma absorb eps x : finite eps -> (0 <= val eps < bpow radix2 (-18))%R -> high x ->
  finite (f_add x eps) /\ val (f_add x eps) = val x.
Proof.
  intros Fe [E0 E1] [Fx X64].
  assert (R : rnd (val x + val eps) = val x).
  { apply rnd_absorb; auto; [apply generic_format_B2R|lra|].
    assert (U : (ulp radix2 f32 64 <= ulp radix2 f32 (val x))%R).
    { apply ulp_le_pos; [apply f32_valid|apply fexp_monotone|lra|exact X64]. }
    assert (U64 : ulp radix2 f32 64 = bpow radix2 (-17)).
    { change 64%R with (bpow radix2 6). rewrite ulp_bpow. reflexivity. }
    rewrite U64 in U. change (-17)%Z with (1 + -18)%Z in U. rewrite bpow_plus in U.
    change (bpow radix2 1) with 2%R in U. lra. }
  destruct (add_cases Fx Fe E0) as [[F [V _]]|[_ B]].
  - split; auto. now rewrite V.
  - exfalso. rewrite R in B. assert (BX := abs_B2R_lt_emax _ _ x). apply Rabs_lt_inv in BX. lra.
Qed.

Theorem b32_high_laws : forall eps, finite eps -> (0 <= val eps < bpow radix2 (-18))%R ->
  elev_laws F32elev high rank eps /\ eps_null F32elev high eps.
Proof.
  intros eps Fe He.
  assert (NN : forall x, high x -> not_nan x).
  { intros x [F _]. unfold not_nan. destruct x; try discriminate; reflexivity. }
  assert (HA : forall x, high x -> high (f_add x eps) /\ rank (f_add x eps) = rank x).
  { intros x Hx. destruct (absorb Fe He Hx) as [F V]. destruct Hx as [Fx X64].
    split; [split; auto; rewrite V; exact X64|]. now apply val_rank_eq. }
  split; [constructor; cbn [F32elev e_le e_lt e_eq e_add e_big]|].
  - intros x y Hx Hy. apply le_rank; auto.
  - intros x y Hx Hy. apply lt_rank; auto.
  - intros x y Hx Hy. apply eq_rank; auto.
  - intros x Hx. apply HA, Hx.
  - intros x Hx. destruct (HA x Hx) as [_ ->]. lia.
  - intros x y Hx Hy L. destruct (HA x Hx) as [_ ->], (HA y Hy) as [_ ->]. exact L.
  - split; [reflexivity|]. unfold f_big, B2R, F2R. cbn [Fnum Fexp cond_Zopp]. change (bpow radix2 10) with 1024%R. lra.
  - intros x Hx. cbn [F32elev e_eq e_add]. destruct (HA x Hx) as [H R]. rewrite eq_rank by auto. apply Z.eqb_eq. exact R.
Qed.

(** float32(2e-06) = 8796093 * 2^-42, the default eps of fill_sinks *)
Definition f_eps : b32 := @B754_finite 24 128 false 8796093 (-42) eq_refl.
Lemma f_eps_small : finite f_eps /\ (0 <= val f_eps < bpow radix2 (-18))%R.
Proof.
  split; [reflexivity|]. unfold f_eps, B2R, F2R. cbn [Fnum Fexp cond_Zopp].
  assert (P := bpow_gt_0 radix2 (-42)). replace (-18) with (24 + -42) by reflexivity. rewrite bpow_plus.
  change (bpow radix2 24) with 16777216%R. split; [|apply Rmult_lt_compat_r; auto; lra].
  apply Rmult_le_pos; [lra|left; exact P].
Qed.
