(** IEEE 754 binary64 (NumPy's float64, round to nearest even) satisfies the laws assumed of
    elevations ([elev_laws]) and of slopes ([order_laws]), and the signs of differences and
    quotients are right.  Built on Flocq's formalisation of IEEE 754. *)
From Coq Require Import ZArith Reals Lra Lia.
From Flocq Require Import Core.Core IEEE754.BinarySingleNaN.
From Verif Require Import Py Spec.
Set Implicit Arguments.
Unset Strict Implicit.
Local Open Scope Z_scope.

Definition b64 := binary_float 53 1024.
#[global] Instance b64_prec : Prec_gt_0 53. Proof. reflexivity. Qed.
#[global] Instance b64_emax : Prec_lt_emax 53 1024. Proof. reflexivity. Qed.
Notation f64 := (SpecFloat.fexp 53 1024).
#[global] Instance f64_valid : Valid_exp f64 := fexp_correct 53 1024 b64_prec.
Notation rnd := (round radix2 f64 (round_mode mode_NE)).
Notation val := (@B2R 53 1024).
Notation fin := (@is_finite 53 1024).
Notation nan := (@BinarySingleNaN.is_nan 53 1024).

Definition f_add : b64 -> b64 -> b64 := Bplus mode_NE.
Definition f_sub : b64 -> b64 -> b64 := Bminus mode_NE.
Definition f_div : b64 -> b64 -> b64 := Bdiv mode_NE.
Definition f_le : b64 -> b64 -> bool := @Bleb 53 1024.
Definition f_lt : b64 -> b64 -> bool := @Bltb 53 1024.
Definition f_eq : b64 -> b64 -> bool := @Beqb 53 1024.
Definition f_zero : b64 := B754_zero false.
(** 1e10 = 5242880000000000 * 2^-19 *)
Definition f_big : b64 := @B754_finite 53 1024 false 5242880000000000 (-19) eq_refl.

Definition not_nan (x : b64) : Prop := nan x = false.
Definition finite (x : b64) : Prop := fin x = true.

(** ** the rank of a double: its value in units of 2^-1074; the infinities lie outside *)
Definition rank (x : b64) : Z :=
  match x with
  | B754_zero _ => 0
  | B754_infinity s => if s then - 2 ^ 2098 else 2 ^ 2098
  | B754_nan => 0
  | B754_finite s m e _ => (if s then Zneg m else Zpos m) * 2 ^ (e + 1074)
  end.

Lemma exp_bound m e : SpecFloat.bounded 53 1024 m e = true -> -1074 <= e.
Proof.
  unfold SpecFloat.bounded, SpecFloat.canonical_mantissa. intros H. apply andb_prop in H. destruct H as [H _].
  apply Zeq_bool_eq in H. unfold SpecFloat.fexp, SpecFloat.emin in H. lia.
Qed.

Lemma rank_val x : finite x -> IZR (rank x) = (val x * bpow radix2 1074)%R.
Proof.
  destruct x as [s|s| |s m e B]; intros F; try discriminate; [cbn; lra|].
  assert (E := exp_bound B). unfold rank. unfold B2R, F2R; cbn [Fnum Fexp].
  rewrite Rmult_assoc, <- bpow_plus, mult_IZR.
  replace (2 ^ (e + 1074)) with (radix2 ^ (e + 1074)) by reflexivity. rewrite IZR_Zpower by lia.
  now destruct s.
Qed.

Lemma rank_bound x : finite x -> - 2 ^ 2098 < rank x < 2 ^ 2098.
Proof.
  intros F. assert (H := abs_B2R_lt_emax _ _ x). assert (V := rank_val F).
  assert (B : (Rabs (IZR (rank x)) < bpow radix2 2098)%R).
  { rewrite V, Rabs_mult, (Rabs_pos_eq (bpow _ _)) by apply bpow_ge_0.
    change 2098 with (1024 + 1074). rewrite bpow_plus. apply Rmult_lt_compat_r; [apply bpow_gt_0|exact H]. }
  rewrite <- abs_IZR, <- (IZR_Zpower radix2 2098) in B by lia. apply lt_IZR in B.
  change (radix2 ^ 2098) with (2 ^ 2098) in B. lia.
Qed.

Lemma top_pos : 0 < 2 ^ 2098. Proof. apply Z.pow_pos_nonneg; lia. Qed.

Lemma val_rank_lt x y : finite x -> finite y -> (val x < val y)%R <-> rank x < rank y.
Proof.
  intros Fx Fy. assert (P := bpow_gt_0 radix2 1074). split; intros H.
  - apply lt_IZR. rewrite !rank_val by auto. now apply Rmult_lt_compat_r.
  - apply IZR_lt in H. rewrite !rank_val in H by auto. now apply Rmult_lt_reg_r in H.
Qed.
Lemma val_rank_eq x y : finite x -> finite y -> val x = val y <-> rank x = rank y.
Proof.
  intros Fx Fy. assert (P := bpow_gt_0 radix2 1074). split; intros H.
  - apply eq_IZR. rewrite !rank_val by auto. now rewrite H.
  - apply (f_equal IZR) in H. rewrite !rank_val in H by auto. apply Rmult_eq_reg_r in H; auto. lra.
Qed.

Lemma nan_cases x : not_nan x -> finite x \/ exists s, x = B754_infinity s.
Proof. destruct x; intros H; try discriminate; [left; reflexivity|right; eauto|left; reflexivity]. Qed.

Lemma compare_rank x y : not_nan x -> not_nan y -> Bcompare x y = Some (rank x ?= rank y).
Proof.
  intros Nx Ny. assert (T := top_pos).
  assert (INF : forall s, rank (B754_infinity s) = if s then - 2 ^ 2098 else 2 ^ 2098) by reflexivity.
  destruct (nan_cases Nx) as [Fx|[sx ->]], (nan_cases Ny) as [Fy|[sy ->]].
  - rewrite Bcompare_correct by auto. f_equal.
    destruct (Rcompare_spec (val x) (val y)) as [H|H|H].
    + apply (val_rank_lt Fx Fy) in H. symmetry. now apply Z.compare_lt_iff.
    + apply val_rank_eq in H; auto. rewrite H. now rewrite Z.compare_refl.
    + apply (val_rank_lt Fy Fx) in H. symmetry. apply Z.compare_gt_iff. exact H.
  - assert (B := rank_bound Fx). rewrite INF.
    destruct sy; [replace (rank x ?= - 2 ^ 2098) with Gt by (symmetry; apply Z.compare_gt_iff; lia)
                 |replace (rank x ?= 2 ^ 2098) with Lt by (symmetry; apply Z.compare_lt_iff; lia)];
      destruct x as [s|s| |s m e Be]; try discriminate; try reflexivity; destruct s; reflexivity.
  - assert (B := rank_bound Fy). rewrite INF.
    destruct sx; [replace (- 2 ^ 2098 ?= rank y) with Lt by (symmetry; apply Z.compare_lt_iff; lia)
                 |replace (2 ^ 2098 ?= rank y) with Gt by (symmetry; apply Z.compare_gt_iff; lia)];
      destruct y as [s|s| |s m e Be]; try discriminate; try reflexivity; destruct s; reflexivity.
  - rewrite !INF.
    destruct sx, sy; [rewrite Z.compare_refl|replace (- 2 ^ 2098 ?= 2 ^ 2098) with Lt by (symmetry; apply Z.compare_lt_iff; lia)
      |replace (2 ^ 2098 ?= - 2 ^ 2098) with Gt by (symmetry; apply Z.compare_gt_iff; lia)|rewrite Z.compare_refl]; reflexivity.
Qed.

Lemma le_rank x y : not_nan x -> not_nan y -> f_le x y = (rank x <=? rank y).
Proof.
  intros Nx Ny. assert (C := compare_rank Nx Ny). unfold f_le, Bleb, SpecFloat.SFleb. unfold Bcompare in C. rewrite C.
  unfold Z.leb. now destruct (rank x ?= rank y).
Qed.
Lemma lt_rank x y : not_nan x -> not_nan y -> f_lt x y = (rank x <? rank y).
Proof.
  intros Nx Ny. assert (C := compare_rank Nx Ny). unfold f_lt, Bltb, SpecFloat.SFltb. unfold Bcompare in C. rewrite C.
  unfold Z.ltb. now destruct (rank x ?= rank y).
Qed.
Lemma eq_rank x y : not_nan x -> not_nan y -> f_eq x y = (rank x =? rank y).
Proof.
  intros Nx Ny. assert (C := compare_rank Nx Ny). unfold f_eq, Beqb, SpecFloat.SFeqb. unfold Bcompare in C. rewrite C.
  destruct (Z.compare_spec (rank x) (rank y)) as [->|H|H]; symmetry;
    [apply Z.eqb_refl|apply Z.eqb_neq; lia|apply Z.eqb_neq; lia].
Qed.

(** ** adding a finite increment that is not negative *)
Lemma sign_pos x : finite x -> (0 < val x)%R -> Bsign x = false.
Proof.
  destruct x as [s|s| |s m e B]; intros F P; try discriminate; [cbn in P; lra|].
  destruct s; [|reflexivity]. exfalso. cbn in P.
  assert (X : (F2R (Float radix2 (Zneg m) e) < 0)%R) by now apply F2R_lt_0. lra.
Qed.
Lemma sign_neg x : finite x -> (val x < 0)%R -> Bsign x = true.
Proof.
  destruct x as [s|s| |s m e B]; intros F P; try discriminate; [cbn in P; lra|].
  destruct s; [reflexivity|]. exfalso. cbn in P.
  assert (X : (0 < F2R (Float radix2 (Zpos m) e))%R) by now apply F2R_gt_0. lra.
Qed.

Lemma rnd_val x : rnd (val x) = val x.
Proof. apply round_generic; [apply valid_rnd_round_mode|apply generic_format_B2R]. Qed.
Lemma rnd_le a b : (a <= b)%R -> (rnd a <= rnd b)%R.
Proof. apply round_le; [apply f64_valid|apply valid_rnd_round_mode]. Qed.

Lemma of_inf x s : B2SF x = SpecFloat.S754_infinity s -> x = B754_infinity s :> b64.
Proof. destruct x; cbn; intros H; inversion H; reflexivity. Qed.

Lemma add_cases x eps : finite x -> finite eps -> (0 <= val eps)%R ->
  (finite (f_add x eps) /\ val (f_add x eps) = rnd (val x + val eps) /\ (rnd (val x + val eps) < bpow radix2 1024)%R) \/
  (f_add x eps = B754_infinity false /\ (bpow radix2 1024 <= rnd (val x + val eps))%R).
Proof.
  intros Fx Fe He. assert (C := Bplus_correct _ _ _ _ mode_NE x eps Fx Fe).
  set (r := rnd (val x + val eps)) in *.
  assert (LR : (val x <= r)%R). { rewrite <- rnd_val. apply rnd_le. lra. }
  assert (BX := abs_B2R_lt_emax _ _ x). apply Rabs_lt_inv in BX.
  destruct (Rlt_bool_spec (Rabs r) (bpow radix2 1024)) as [L|L].
  - destruct C as [C1 [C2 _]]. left. split; [exact C2|]. split; [exact C1|]. apply Rabs_lt_inv in L. lra.
  - right. destruct C as [C1 C2].
    assert (R0 : (0 <= r)%R). { destruct (Rle_or_lt 0 r) as [|R0]; auto. rewrite Rabs_left in L by auto. lra. }
    rewrite Rabs_pos_eq in L by auto. split; auto.
    assert (PE : (0 < val eps)%R).
    { destruct He as [|He]; auto. exfalso. unfold r in L. rewrite <- He, Rplus_0_r, rnd_val in L. lra. }
    rewrite (sign_pos Fe PE) in C2. rewrite C2 in C1. now apply of_inf.
Qed.

Lemma add_inf s eps : finite eps -> f_add (B754_infinity s) eps = B754_infinity s.
Proof. destruct eps; intros F; try discriminate; reflexivity. Qed.

Definition Felev : elev b64 := Elev f_le f_lt f_eq f_add f_zero f_big.

(** the elevation laws hold for all doubles other than NaN and every finite increment >= 0 *)
Theorem b64_laws : forall eps, finite eps -> (0 <= val eps)%R -> elev_laws Felev not_nan rank eps.
Proof.
  intros eps Fe He. constructor; cbn [Felev e_le e_lt e_eq e_add e_big].
  - exact le_rank.
  - exact lt_rank.
  - exact eq_rank.
  - intros x Nx. destruct (nan_cases Nx) as [Fx|[s ->]]; [|rewrite add_inf by auto; reflexivity].
    destruct (add_cases Fx Fe He) as [[F _]|[-> _]]; [|reflexivity].
    unfold not_nan. destruct (f_add x eps); try discriminate; reflexivity.
  - intros x Nx. destruct (nan_cases Nx) as [Fx|[s ->]]; [|rewrite add_inf by auto; lia].
    destruct (add_cases Fx Fe He) as [[F [V _]]|[-> _]].
    + apply Z.nlt_ge. intros L. apply val_rank_lt in L; auto. rewrite V in L.
      assert (X : (rnd (val x) <= rnd (val x + val eps))%R) by (apply rnd_le; lra). rewrite rnd_val in X. lra.
    + cbn [rank]. assert (B := rank_bound Fx). lia.
  - intros x y Nx Ny L. destruct (nan_cases Nx) as [Fx|[s ->]].
    + destruct (nan_cases Ny) as [Fy|[s ->]].
      * assert (VL : (val x <= val y)%R).
        { destruct (Rle_or_lt (val x) (val y)) as [|G]; auto. apply val_rank_lt in G; auto. lia. }
        assert (RL : (rnd (val x + val eps) <= rnd (val y + val eps))%R) by (apply rnd_le; lra).
        destruct (add_cases Fx Fe He) as [[F [V _]]|[-> B1]], (add_cases Fy Fe He) as [[F' [V' B2]]|[-> _]]; try lra.
        -- apply Z.nlt_ge. intros G. apply val_rank_lt in G; auto. lra.
        -- assert (B := rank_bound F). cbn [rank]. lia.
        -- lia.
      * rewrite add_inf by auto. destruct s; [cbn [rank] in L; assert (B := rank_bound Fx); lia|].
        destruct (add_cases Fx Fe He) as [[F _]|[-> _]]; [|lia].
        assert (B := rank_bound F). cbn [rank]. lia.
    + rewrite add_inf by auto. destruct s.
      * destruct (nan_cases Ny) as [Fy|[s ->]]; [|rewrite add_inf by auto; exact L].
        assert (T := top_pos).
        destruct (add_cases Fy Fe He) as [[F _]|[-> _]]; [assert (B := rank_bound F)|]; cbn [rank]; lia.
      * destruct (nan_cases Ny) as [Fy|[s ->]]; [|rewrite add_inf by auto; exact L].
        cbn [rank] in L. assert (B := rank_bound Fy). lia.
  - reflexivity.
Qed.

Theorem b64_null : eps_null Felev not_nan f_zero.
Proof.
  intros x Nx. cbn [Felev e_eq e_add]. assert (F0 : finite f_zero) by reflexivity.
  assert (N2 : not_nan (f_add x f_zero)) by (apply (l_ok (b64_laws F0 (Rle_refl _))); auto).
  rewrite eq_rank by auto. apply Z.eqb_eq.
  destruct (nan_cases Nx) as [Fx|[s ->]]; [|now rewrite add_inf].
  destruct (@add_cases x f_zero Fx F0) as [[F [V _]]|[_ B]]; [cbn; lra| |].
  - apply val_rank_eq; auto. rewrite V. cbn. now rewrite Rplus_0_r, rnd_val.
  - exfalso. cbn [f_zero] in B. unfold B2R at 2 in B. cbn in B. rewrite Rplus_0_r, rnd_val in B.
    assert (BX := abs_B2R_lt_emax _ _ x). apply Rabs_lt_inv in BX. cbn in *. lra.
Qed.

(** ** slopes *)
Definition Fops : slope_ops b64 := SlopeOps f_sub f_div f_lt f_eq f_zero f_big.

Theorem b64_order : order_laws Fops not_nan.
Proof.
  constructor; cbn [Fops o_lt o_eq].
  - intros x y Nx Ny. rewrite !lt_rank by auto. rewrite Z.ltb_lt, Z.ltb_ge. lia.
  - intros x y z Nx Ny Nz. rewrite !lt_rank by auto. rewrite !Z.ltb_lt. lia.
  - intros x y Nx Ny. rewrite !lt_rank, eq_rank by auto.
    destruct (Z.eqb_spec (rank x) (rank y)), (Z.ltb_spec (rank x) (rank y)), (Z.ltb_spec (rank y) (rank x)); cbn; auto; lia.
Qed.

Lemma zero_ok : not_nan f_zero. Proof. reflexivity. Qed.
Lemma fin_ok x : finite x -> not_nan x.
Proof. unfold not_nan. destruct x; intros; try discriminate; reflexivity. Qed.
Lemma lt_val x y : finite x -> finite y -> f_lt x y = true <-> (val x < val y)%R.
Proof. intros Fx Fy. rewrite lt_rank by now apply fin_ok. rewrite Z.ltb_lt. symmetry. now apply val_rank_lt. Qed.
Lemma lt_zero x : not_nan x -> f_lt x f_zero = true <-> Bsign x = true /\ x <> B754_zero true.
Proof.
  intros Nx. rewrite lt_rank by (auto; reflexivity). rewrite Z.ltb_lt. cbn [f_zero rank].
  assert (T := top_pos).
  destruct x as [s|s| |s m e B]; try discriminate; destruct s; cbn [rank Bsign]; (split; [intros H|intros [H H']]); try congruence; try lia.
  all: try (split; [reflexivity|discriminate]).
  all: assert (0 < 2 ^ (e + 1074)) by (apply Z.pow_pos_nonneg; [lia|assert (X := exp_bound B); lia]); nia.
Qed.

Lemma rnd_zero : rnd 0%R = 0%R. Proof. apply round_0, valid_rnd_round_mode. Qed.

(** differences *)
Lemma sub_ok x y : finite x -> finite y -> not_nan (f_sub x y).
Proof.
  intros Fx Fy. assert (C := Bminus_correct _ _ _ _ mode_NE x y Fx Fy).
  destruct (Rlt_bool _ _); [apply fin_ok, C|].
  destruct C as [C _]. change (binary_overflow 53 1024 mode_NE (Bsign x)) with (SpecFloat.S754_infinity (Bsign x)) in C.
  apply of_inf in C. unfold f_sub. rewrite C. reflexivity.
Qed.

Lemma sub_neg x y : finite x -> finite y -> f_lt (f_sub x y) f_zero = true -> f_lt x y = true.
Proof.
  intros Fx Fy H. apply lt_val; auto. assert (N := sub_ok Fx Fy).
  assert (C := Bminus_correct _ _ _ _ mode_NE x y Fx Fy). fold (f_sub x y) in C.
  destruct (Rlt_bool_spec (Rabs (rnd (val x - val y))) (bpow radix2 1024)) as [L|L].
  - destruct C as [V [F _]]. apply lt_val in H; [|exact F|reflexivity]. cbn [f_zero B2R] in H. rewrite V in H.
    destruct (Rle_or_lt (val y) (val x)) as [G|G]; auto. exfalso.
    assert (X : (rnd 0 <= rnd (val x - val y))%R) by (apply rnd_le; lra). rewrite rnd_zero in X. lra.
  - destruct C as [C SS]. change (binary_overflow 53 1024 mode_NE (Bsign x)) with (SpecFloat.S754_infinity (Bsign x)) in C.
    apply of_inf in C. rewrite C in H, N. apply lt_zero in H; auto. destruct H as [H _]. cbn [Bsign] in H.
    (* x is negative, y is positive *)
    rewrite H in SS. assert (SY : Bsign y = false) by (destruct (Bsign y); auto; discriminate).
    assert (X : (val x <= 0)%R). { destruct (Rle_or_lt (val x) 0) as [|G]; auto. apply sign_pos in G; auto. congruence. }
    assert (Y : (0 <= val y)%R). { destruct (Rle_or_lt 0 (val y)) as [|G]; auto. apply sign_neg in G; auto. congruence. }
    destruct (Req_dec (val x) (val y)) as [E|E]; [|lra].
    exfalso. assert (E0 : (val x - val y = 0)%R) by lra. rewrite E0, rnd_zero, Rabs_R0 in L.
    assert (P := bpow_gt_0 radix2 1024). lra.
Qed.

(** quotients by a finite positive distance *)
Lemma div_ok d r : not_nan d -> finite r -> (0 < val r)%R -> not_nan (f_div d r).
Proof.
  intros Nd Fr Pr. assert (Z : val r <> 0%R) by lra.
  assert (C := Bdiv_correct _ _ _ _ mode_NE d r Z). fold (f_div d r) in C.
  destruct (nan_cases Nd) as [Fd|[s ->]].
  - destruct (Rlt_bool _ _).
    + destruct C as [_ [F _]]. apply fin_ok. unfold finite. rewrite F. exact Fd.
    + set (s := xorb (Bsign d) (Bsign r)) in *.
      change (binary_overflow 53 1024 mode_NE s) with (SpecFloat.S754_infinity s) in C. apply of_inf in C. rewrite C. reflexivity.
  - destruct r; try discriminate; reflexivity.
Qed.

Lemma div_neg d r : not_nan d -> finite r -> (0 < val r)%R ->
  f_lt (f_div d r) f_zero = true -> f_lt d f_zero = true.
Proof.
  intros Nd Fr Pr H. assert (Z : val r <> 0%R) by lra. assert (N := div_ok Nd Fr Pr).
  assert (C := Bdiv_correct _ _ _ _ mode_NE d r Z). fold (f_div d r) in C.
  assert (SR := sign_pos Fr Pr).
  destruct (nan_cases Nd) as [Fd|[s ->]].
  - destruct (Rlt_bool_spec (Rabs (rnd (val d / val r))) (bpow radix2 1024)) as [L|L].
    + destruct C as [V [F _]]. apply lt_val in H; [|unfold finite; rewrite F; exact Fd|reflexivity]. cbn [f_zero B2R] in H.
      rewrite V in H. apply lt_val; auto; [reflexivity|]. cbn [f_zero B2R].
      destruct (Rle_or_lt 0 (val d)) as [G|G]; auto. exfalso.
      assert (Q : (0 <= val d / val r)%R). { apply Rmult_le_pos; auto. left. now apply Rinv_0_lt_compat. }
      assert (X : (rnd 0 <= rnd (val d / val r))%R) by (apply rnd_le; lra). rewrite rnd_zero in X. lra.
    + rewrite SR, xorb_false_r in C.
      change (binary_overflow 53 1024 mode_NE (Bsign d)) with (SpecFloat.S754_infinity (Bsign d)) in C. apply of_inf in C.
      rewrite C in H. apply lt_zero in H; [|reflexivity]. destruct H as [H _]. cbn [Bsign] in H.
      apply lt_zero; auto. split; auto. intros ->. cbn [B2R] in L. unfold Rdiv in L.
      rewrite Rmult_0_l, rnd_zero, Rabs_R0 in L. assert (P := bpow_gt_0 radix2 1024). lra.
  - destruct r as [|?| |sr m e B]; try discriminate; [cbn in Pr; lra|]. cbn [Bsign] in SR. subst sr.
    cbn [f_div Bdiv] in H. rewrite xorb_false_r in H. exact H.
Qed.

(** a drop of at least 2^-1000 over a distance of at most 2^60 gives a negative slope: no underflow *)
Lemma format_pow e : (-1074 <= e < 1024)%Z -> rnd (- bpow radix2 e)%R = (- bpow radix2 e)%R.
Proof.
  intros H. apply round_generic; [apply valid_rnd_round_mode|]. apply generic_format_opp.
  apply generic_format_bpow. unfold SpecFloat.fexp, SpecFloat.emin. lia.
Qed.

Lemma slope_neg x y r : finite x -> finite y -> finite r ->
  (val x + bpow radix2 (-1000) <= val y)%R -> (0 < val r <= bpow radix2 60)%R ->
  f_lt (f_div (f_sub x y) r) f_zero = true.
Proof.
  intros Fx Fy Fr G [R0 R1]. assert (N := sub_ok Fx Fy). assert (ND := div_ok N Fr R0).
  assert (P1000 := bpow_gt_0 radix2 (-1000)).
  assert (D : f_sub x y = B754_infinity true \/ finite (f_sub x y) /\ (val (f_sub x y) <= - bpow radix2 (-1000))%R).
  { assert (C := Bminus_correct _ _ _ _ mode_NE x y Fx Fy). fold (f_sub x y) in C.
    assert (RL : (rnd (val x - val y) <= - bpow radix2 (-1000))%R).
    { rewrite <- format_pow by lia. apply rnd_le. lra. }
    destruct (Rlt_bool_spec (Rabs (rnd (val x - val y))) (bpow radix2 1024)) as [L|L].
    - destruct C as [V [F _]]. right. split; auto. now rewrite V.
    - left. destruct C as [C SS]. change (binary_overflow 53 1024 mode_NE (Bsign x)) with (SpecFloat.S754_infinity (Bsign x)) in C.
      apply of_inf in C. rewrite C. f_equal.
      destruct (Bsign x) eqn:SX; auto. exfalso.
      assert (SY : Bsign y = true) by (destruct (Bsign y); auto; discriminate).
      assert (X : (0 <= val x)%R). { destruct (Rle_or_lt 0 (val x)) as [|Q]; auto. apply sign_neg in Q; auto. congruence. }
      assert (Y : (val y <= 0)%R). { destruct (Rle_or_lt (val y) 0) as [|Q]; auto. apply sign_pos in Q; auto. congruence. }
      lra. }
  destruct D as [D|[FD D]].
  - rewrite D. destruct r as [|?| |sr m e B]; try discriminate; [cbn in R0; lra|].
    assert (SR := sign_pos Fr R0). cbn [Bsign] in SR. subst sr. reflexivity.
  - assert (Z : val r <> 0%R) by lra. set (d := f_sub x y) in *.
    assert (C := Bdiv_correct _ _ _ _ mode_NE d r Z). fold (f_div d r) in C.
    assert (Q : (val d / val r <= - bpow radix2 (-1060))%R).
    { assert (I : (bpow radix2 (-60) <= / val r)%R).
      { rewrite <- (Z.opp_involutive 60) in R1. change (- (60))%Z with (-60)%Z in R1.
        rewrite bpow_opp in R1. rewrite <- (Rinv_inv (bpow radix2 (-60))). apply Rinv_le; auto. }
      change (-1060)%Z with (-1000 + -60)%Z. rewrite bpow_plus. unfold Rdiv.
      assert (P60 := bpow_gt_0 radix2 (-60)). nra. }
    assert (RQ : (rnd (val d / val r) <= - bpow radix2 (-1060))%R).
    { rewrite <- format_pow by lia. now apply rnd_le. }
    assert (P1060 := bpow_gt_0 radix2 (-1060)).
    destruct (Rlt_bool_spec (Rabs (rnd (val d / val r))) (bpow radix2 1024)) as [L|L].
    + destruct C as [V [F _]]. apply lt_val; [unfold finite; rewrite F; exact FD|reflexivity|]. cbn [f_zero B2R]. rewrite V. lra.
    + rewrite (sign_pos Fr R0), xorb_false_r, (sign_neg FD) in C by lra.
      change (binary_overflow 53 1024 mode_NE true) with (SpecFloat.S754_infinity true) in C. apply of_inf in C. now rewrite C.
Qed.

(** an increment of at least 2^-20 (9.5e-7) is not absorbed by elevations up to 2^30 (1e9) *)
Lemma add_effective x eps : finite x -> finite eps ->
  (Rabs (val x) <= bpow radix2 30)%R -> (bpow radix2 (-20) <= val eps)%R ->
  f_lt x (f_add x eps) = true.
Proof.
  intros Fx Fe Hx He. assert (P := bpow_gt_0 radix2 (-20)).
  assert (GE : (0 <= val eps)%R) by lra.
  destruct (add_cases Fx Fe GE) as [[F [V _]]|[-> _]].
  2:{ rewrite (lt_rank (fin_ok Fx)) by reflexivity. apply Z.ltb_lt. assert (B := rank_bound Fx). cbn [rank]. lia. }
  apply lt_val; auto. rewrite V.
  assert (G := generic_format_B2R 53 1024 x).
  assert (VE : Valid_exp f64) by apply f64_valid.
  assert (ME : Monotone_exp f64) by (apply fexp_monotone).
  assert (U : (ulp radix2 f64 (val x) <= bpow radix2 (-22))%R).
  { replace (bpow radix2 (-22)) with (ulp radix2 f64 (bpow radix2 30)).
    - apply ulp_le; auto. rewrite (Rabs_pos_eq (bpow _ _)); [exact Hx|apply bpow_ge_0].
    - rewrite ulp_bpow. f_equal. }
  assert (SU : (succ radix2 f64 (val x) <= val x + ulp radix2 f64 (val x))%R) by (apply succ_le_plus_ulp; auto).
  assert (B22 : (bpow radix2 (-22) <= bpow radix2 (-20))%R) by (apply bpow_le; lia).
  assert (SR : (succ radix2 f64 (val x) <= rnd (val x + val eps))%R).
  { apply round_ge_generic; auto; [apply valid_rnd_round_mode|apply generic_format_succ; auto|lra]. }
  destruct (Req_dec (val x) 0) as [E|E].
  - rewrite E in *. rewrite succ_0 in SR. assert (Q := ulp_ge_0 radix2 f64 0).
    assert (Q1 : (bpow radix2 (-20) <= rnd (0 + val eps))%R).
    { rewrite Rplus_0_l, rnd_val. exact He. } lra.
  - assert (X := succ_gt_id radix2 f64 (val x) E). lra.
Qed.

(** taking a non-negative number off never raises a double *)
Lemma sub_le x y : not_nan x -> finite y -> (0 <= val y)%R -> f_le (f_sub x y) x = true.
Proof.
  intros Nx Fy Hy. destruct (nan_cases Nx) as [Fx|[s ->]].
  - assert (N := sub_ok Fx Fy). rewrite le_rank by auto. apply Z.leb_le.
    assert (C := Bminus_correct _ _ _ _ mode_NE x y Fx Fy). fold (f_sub x y) in C.
    destruct (Rlt_bool_spec (Rabs (rnd (val x - val y))) (bpow radix2 1024)) as [L|L].
    + destruct C as [V [F _]]. apply Z.nlt_ge. intros G. apply val_rank_lt in G; auto. rewrite V in G.
      assert (X : (rnd (val x - val y) <= rnd (val x))%R) by (apply rnd_le; lra). rewrite rnd_val in X. lra.
    + destruct C as [C SS]. change (binary_overflow 53 1024 mode_NE (Bsign x)) with (SpecFloat.S754_infinity (Bsign x)) in C.
      apply of_inf in C. rewrite C. destruct (Bsign x) eqn:SX; [cbn [rank]; assert (B := rank_bound Fx); lia|].
      exfalso. assert (SY : Bsign y = true) by (destruct (Bsign y); auto; discriminate).
      assert (Y : (val y = 0)%R).
      { destruct Hy as [Hy|Hy]; auto. apply sign_pos in Hy; auto. congruence. }
      rewrite Y, Rminus_0_r, rnd_val in L. assert (BX := abs_B2R_lt_emax _ _ x). cbn in *. lra.
  - assert (E : f_sub (B754_infinity s) y = B754_infinity s) by (destruct y; try discriminate; reflexivity).
    rewrite E. rewrite le_rank by reflexivity. apply Z.leb_refl.
Qed.
