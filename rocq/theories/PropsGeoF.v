(** C144: cell areas in double precision. *)
From Coq Require Import ZArith Reals Lra Lia.
From Flocq Require Import Core.Core Relative IEEE754.BinarySingleNaN.
From Verif Require Import Py MGeo LGeo Spec MFlow MStream LFloat PropsAccF PropsCascF MNumF PropsNumF MGeoF.
Set Implicit Arguments.
Unset Strict Implicit.
Local Open Scope R_scope.
Local Open Scope list_scope.
Local Notation length := List.length.

(** ** One product, one difference *)
Definition eta : R := bpow radix2 (-1075).
Lemma eta_pos : 0 < eta. Proof. apply bpow_gt_0. Qed.
Lemma eta_tiny : eta < / 10 ^ 15.
Proof. unfold eta. apply Rlt_trans with (bpow radix2 (-53)); [apply bpow_lt; lia|]. apply u_tiny. Qed.

Lemma mul_any (x y : b64) : finite x -> finite y -> Rabs (val x * val y) <= bpow radix2 1000 ->
  finite (f_mul x y) /\ Rabs (val (f_mul x y) - val x * val y) <= u * Rabs (val x * val y) + eta.
Proof.
  intros Fx Fy B. set (z := val x * val y) in *.
  destruct (@error_N_FLT radix2 (3 - 1024 - 53) 53 ltac:(reflexivity) (fun x => negb (Z.even x)) z) as [e [h [He [Hh [_ E]]]]].
  assert (He' : Rabs e <= u).
  { eapply Rle_trans; [exact He|]. right. unfold u. change (/ 2)%R with (bpow radix2 (-1)). rewrite <- bpow_plus. reflexivity. }
  assert (Hh' : Rabs h <= eta).
  { eapply Rle_trans; [exact Hh|]. right. unfold eta. change (/ 2)%R with (bpow radix2 (-1)). rewrite <- bpow_plus. reflexivity. }
  assert (ER : Rabs (rnd z - z) <= u * Rabs z + eta).
  { assert (X : rnd z = z * (1 + e) + h) by exact E. rewrite X. replace (z * (1 + e) + h - z) with (e * z + h) by ring.
    eapply Rle_trans; [apply Rabs_triang|]. rewrite Rabs_mult. assert (P := Rabs_pos z). nra. }
  assert (L : Rlt_bool (Rabs (rnd z)) (bpow radix2 1024) = true).
  { apply Rlt_bool_true. assert (U := u_small). assert (UP := u_pos). assert (ET := eta_tiny). assert (P := Rabs_pos z).
    assert (T : Rabs (rnd z) <= 2 * bpow radix2 1000 + 1).
    { replace (rnd z) with ((rnd z - z) + z) by ring. eapply Rle_trans; [apply Rabs_triang|].
      assert (u * Rabs z <= / 2 * bpow radix2 1000) by nra. assert (eta < 1) by (eapply Rlt_trans; [exact ET|lra]).
      assert (0 < bpow radix2 1000) by apply bpow_gt_0. lra. }
    eapply Rle_lt_trans; [exact T|]. apply Rlt_le_trans with (4 * bpow radix2 1000).
    - assert (bpow radix2 1 <= bpow radix2 1000) by (apply bpow_le; lia). simpl (bpow radix2 1) in H. lra.
    - change 4 with (bpow radix2 2). rewrite <- bpow_plus. apply bpow_le. lia. }
  assert (C := Bmult_correct _ _ _ _ mode_NE x y). fold z in C.
  change (round radix2 (SpecFloat.fexp 53 1024) (round_mode mode_NE) z) with (rnd z) in C. rewrite L in C.
  destruct C as [V [F _]]. unfold finite, f_mul in *. rewrite F, Fx, Fy, V. auto.
Qed.

(** a corner of a cell: two numbers of moderate size *)
Definition corner_ok (X Y : R) (p : point64) : Prop :=
  finite (fst p) /\ finite (snd p) /\ Rabs (val (fst p)) <= X /\ Rabs (val (snd p)) <= Y.

Section Det.
  Variables (X Y : R).
  Hypothesis XP : 0 <= X. Hypothesis YP : 0 <= Y.
  Hypothesis XY : X * Y <= bpow radix2 960.
  (* twice the size of a product *)
  Let M := 2 * (X * Y).

  Lemma XY_pos : 0 <= X * Y. Proof using XP YP. nra. Qed.
  Lemma product_size (a b : b64) : Rabs (val a) <= X -> Rabs (val b) <= Y -> Rabs (val a * val b) <= X * Y.
  Proof using XP YP. intros A B. rewrite Rabs_mult. apply Rmult_le_compat; auto using Rabs_pos. Qed.

  Lemma det_error (a b : point64) : corner_ok X Y a -> corner_ok X Y b ->
    let d := val (fst a) * val (snd b) - val (snd a) * val (fst b) in
    let t := f_sub (f_mul (fst a) (snd b)) (f_mul (snd a) (fst b)) in
    finite t /\ Rabs d <= M /\ Rabs (val t - d) <= ((1 + u) ^ 2 - 1) * M + 2 * eta * (1 + u).
  Proof using XP YP XY.
    intros [Fa1 [Fa2 [Ba1 Ba2]]] [Fb1 [Fb2 [Bb1 Bb2]]]. cbv zeta.
    assert (P1 := product_size Ba1 Bb2). assert (P2 := product_size Bb1 Ba2). rewrite (Rmult_comm (val (fst b))) in P2.
    assert (BIG : bpow radix2 960 <= bpow radix2 1000) by (apply bpow_le; lia).
    destruct (mul_any Fa1 Fb2 ltac:(lra)) as [F1 E1]. destruct (mul_any Fa2 Fb1 ltac:(lra)) as [F2 E2].
    set (p := f_mul (fst a) (snd b)) in *. set (q := f_mul (snd a) (fst b)) in *.
    set (x := val (fst a) * val (snd b)) in *. set (y := val (snd a) * val (fst b)) in *.
    assert (U := u_tiny). assert (ET := eta_tiny). assert (EP := eta_pos). assert (NX := XY_pos).
    assert (SZ : forall v w, Rabs (v - w) <= u * Rabs w + eta -> Rabs w <= X * Y -> Rabs v <= (1 + u) * (X * Y) + eta).
    { intros v w H1 H2. replace v with ((v - w) + w) by ring. eapply Rle_trans; [apply Rabs_triang|]. nra. }
    assert (S1 := SZ _ _ E1 P1). assert (S2 := SZ _ _ E2 P2).
    assert (OK : (1 + u) * (X * Y) + eta <= bpow radix2 1000).
    { apply Rle_trans with (2 * bpow radix2 960 + 1); [nra|]. apply Rle_trans with (bpow radix2 962); [|apply bpow_le; lia].
      change 962%Z with (2 + 960)%Z. rewrite bpow_plus. simpl (bpow radix2 2).
      assert (bpow radix2 1 <= bpow radix2 960) by (apply bpow_le; lia). simpl (bpow radix2 1) in H. lra. }
    destruct (sub_near F1 F2 ltac:(lra) ltac:(lra)) as [F3 [t [T E3]]].
    split; [exact F3|]. split.
    - unfold M. eapply Rle_trans; [apply Rabs_triang|]. rewrite Rabs_Ropp. lra.
    - rewrite E3. replace ((val p - val q) * (1 + t) - (x - y)) with ((val p - x) - (val q - y) + (val p - val q) * t) by ring.
      eapply Rle_trans; [apply Rabs_triang|]. rewrite Rabs_mult.
      assert (A1 : Rabs (val p - x - (val q - y)) <= 2 * (u * (X * Y) + eta)).
      { eapply Rle_trans; [apply Rabs_triang|]. rewrite Rabs_Ropp. nra. }
      assert (A2 : Rabs (val p - val q) <= 2 * ((1 + u) * (X * Y) + eta)).
      { eapply Rle_trans; [apply Rabs_triang|]. rewrite Rabs_Ropp. lra. }
      assert (A3 := Rmult_le_compat _ _ _ _ (Rabs_pos _) (Rabs_pos _) A2 T). unfold M. nra.
  Qed.

  (** ** Powers of 1 + u *)
  Lemma pow_u (k : nat) : INR k <= 2 ^ 26 -> 1 <= (1 + u) ^ k <= 1 + INR k * u + (INR k * u) ^ 2.
  Proof.
    assert (U := u_tiny). assert (UP := u_pos). induction k as [|k IH]; intros K.
    - simpl. lra.
    - rewrite S_INR in K |- *. destruct (IH ltac:(lra)) as [L H]. assert (NK := pos_INR k).
      assert (KU : INR k * u <= 1).
      { apply Rle_trans with (2 ^ 26 * / 10 ^ 15); [|lra]. apply Rmult_le_compat; lra. }
      simpl ((1 + u) ^ S k). split; [nra|].
      apply Rle_trans with ((1 + INR k * u + (INR k * u) ^ 2) * (1 + u)); [nra|].
      assert (Q : INR k ^ 2 * u ^ 3 <= (INR k + 1) * u ^ 2).
      { replace (INR k ^ 2 * u ^ 3) with (INR k * u ^ 2 * (INR k * u)) by ring.
        apply Rle_trans with (INR k * u ^ 2 * 1); [apply Rmult_le_compat_l; [|auto]; apply Rmult_le_pos; nra|nra]. }
      nra.
  Qed.
  Lemma pow_u_simple (k : nat) : INR k <= 2 ^ 26 -> 1 <= (1 + u) ^ k <= 1 + (INR k + 1) * u.
  Proof.
    intros K. destruct (pow_u K) as [L H]. split; [auto|]. eapply Rle_trans; [exact H|].
    assert (UP := u_pos). assert (NK := pos_INR k). assert (INR k ^ 2 * u <= 1).
    { rewrite u_val. assert (INR k ^ 2 <= (2 ^ 26) ^ 2) by (apply pow_incr; lra). lra. }
    replace ((INR k * u) ^ 2) with (INR k ^ 2 * u * u) by ring. nra.
  Qed.

  (** ** The running sum *)
  Definition budget (k : nat) : R := ((1 + u) ^ (k + 2) - 1) * (INR k * M) + 2 * INR k * eta * (1 + u) ^ (k + 1).
  Definition few (k : nat) : Prop := INR k <= 2 ^ 20.
  Lemma budget_size k : few k -> 0 <= budget k <= 2 * INR k * M + 1.
  Proof using XP YP.
    unfold few, budget. intros K. assert (NK := pos_INR k). assert (NX := XY_pos). assert (MP : 0 <= M) by (unfold M; lra).
    assert (U := u_tiny). assert (EP := eta_pos). assert (ET := eta_tiny).
    destruct (@pow_u_simple (k + 2)) as [L1 H1]; [rewrite plus_INR; simpl INR; lra|].
    destruct (@pow_u_simple (k + 1)) as [L2 H2]; [rewrite plus_INR; simpl INR; lra|].
    rewrite plus_INR in H1, H2. simpl INR in H1, H2.
    assert (W1 : (INR k + (1 + 1) + 1) * u <= 1) by (apply Rle_trans with ((2 ^ 20 + 3) * / 10 ^ 15); [apply Rmult_le_compat; lra|lra]).
    assert (W2 : (INR k + 1 + 1) * u <= 1) by (apply Rle_trans with ((2 ^ 20 + 3) * / 10 ^ 15); [apply Rmult_le_compat; lra|lra]).
    assert (KM : 0 <= INR k * M) by nra.
    set (P := (1 + u) ^ (k + 2)) in *. set (Q := (1 + u) ^ (k + 1)) in *.
    assert (KE : 0 <= 2 * INR k * eta <= / 10 ^ 8).
    { split; [nra|]. apply Rle_trans with (2 * 2 ^ 20 * / 10 ^ 15); [apply Rmult_le_compat; lra|lra]. }
    split; [apply Rplus_le_le_0_compat; apply Rmult_le_pos; lra|].
    apply Rplus_le_compat.
    - replace (2 * INR k * M) with (2 * (INR k * M)) by ring. apply Rmult_le_compat_r; lra.
    - apply Rle_trans with (/ 10 ^ 8 * 2); [apply Rmult_le_compat; lra|lra].
  Qed.

  Lemma budget_step k w t : few k -> w <= INR k * M + budget k -> t <= ((1 + u) ^ 2 - 1) * M + 2 * eta * (1 + u) ->
    u * (w + (M + t)) + (budget k + t) <= budget (S k).
  Proof using XP YP.
    unfold few, budget. intros K Hw Ht. assert (NK := pos_INR k). assert (NX := XY_pos). assert (MP : 0 <= M) by (unfold M; lra).
    assert (U := u_tiny). assert (EP := eta_pos). rewrite S_INR.
    replace (S k + 2)%nat with (S (k + 2)) by lia. replace (S k + 1)%nat with (S (k + 1)) by lia.
    assert (L1 : 1 <= (1 + u) ^ k) by (apply pow_R1_Rle; lra).
    assert (E2 : (1 + u) ^ (k + 2) = (1 + u) ^ k * (1 + u) ^ 2) by apply pow_add.
    assert (E1 : (1 + u) ^ (k + 1) = (1 + u) ^ k * (1 + u)) by (rewrite pow_add; ring).
    simpl ((1 + u) ^ S (k + 2)). simpl ((1 + u) ^ S (k + 1)). rewrite E1, E2 in *. set (P := (1 + u) ^ k) in *.
    apply Rle_trans with (u * (INR k * M + ((P * (1 + u) ^ 2 - 1) * (INR k * M) + 2 * INR k * eta * (P * (1 + u))) + (M + (((1 + u) ^ 2 - 1) * M + 2 * eta * (1 + u)))) +
      ((P * (1 + u) ^ 2 - 1) * (INR k * M) + 2 * INR k * eta * (P * (1 + u)) + (((1 + u) ^ 2 - 1) * M + 2 * eta * (1 + u)))).
    - nra.
    - assert (0 <= (P - 1) * ((1 + u) ^ 3 * M)) by (apply Rmult_le_pos; [lra|apply Rmult_le_pos; [apply pow_le; lra|auto]]).
      assert (0 <= (P - 1) * (2 * eta * (1 + u) ^ 2)) by (apply Rmult_le_pos; [lra|apply Rmult_le_pos; [lra|apply pow_le; lra]]).
      lra.
  Qed.

  Variable p : list point64.
  Hypothesis good : Forall (corner_ok X Y) p.
  Let d (i : nat) : R := nth (before (length p) i) (map fst (map real_point p)) 0 * nth i (map snd (map real_point p)) 0 -
                         nth (before (length p) i) (map snd (map real_point p)) 0 * nth i (map fst (map real_point p)) 0.
  Lemma corner_nth i : corner_ok X Y (nth i p (f_zero, f_zero)).
  Proof using XP YP good.
    destruct (Nat.lt_ge_cases i (length p)) as [L|L].
    - apply (proj1 (Forall_forall _ _) good). now apply nth_In.
    - rewrite nth_overflow by auto. repeat split; cbn; rewrite ?Rabs_R0; auto.
  Qed.
  Lemma det_at i : let t := determinant64 (map fst p) (map snd p) i in
    finite t /\ Rabs (d i) <= M /\ Rabs (val t - d i) <= ((1 + u) ^ 2 - 1) * M + 2 * eta * (1 + u).
  Proof using XP YP XY good.
    assert (H := det_error (corner_nth (before (length p) i)) (corner_nth i)). cbv zeta in *.
    unfold determinant64, d. rewrite map_length, !map_map.
    assert (E1 : forall j, nth j (map fst p) f_zero = fst (nth j p (f_zero, f_zero))) by (intro j; exact (map_nth fst p (f_zero, f_zero) j)).
    assert (E2 : forall j, nth j (map snd p) f_zero = snd (nth j p (f_zero, f_zero))) by (intro j; exact (map_nth snd p (f_zero, f_zero) j)).
    assert (E3 : forall j, nth j (map (fun q => fst (real_point q)) p) 0 = val (fst (nth j p (f_zero, f_zero)))) by (intro j; exact (map_nth (fun q => fst (real_point q)) p (f_zero, f_zero) j)).
    assert (E4 : forall j, nth j (map (fun q => snd (real_point q)) p) 0 = val (snd (nth j p (f_zero, f_zero)))) by (intro j; exact (map_nth (fun q => snd (real_point q)) p (f_zero, f_zero) j)).
    rewrite !E1, !E2, !E3, !E4. exact H.
  Qed.

  Lemma run_error l : forall k w D, finite w -> Rabs D <= INR k * M -> Rabs (val w - D) <= budget k -> few (k + length l) ->
    let r := fold_left (fun a i => f_add a (determinant64 (map fst p) (map snd p) i)) l w in
    let S := fold_left (fun a i => a + d i) l D in
    finite r /\ Rabs S <= INR (k + length l) * M /\ Rabs (val r - S) <= budget (k + length l).
  Proof using XP YP XY good.
    induction l as [|i l IH]; intros k w D Fw HD HE K; cbn [fold_left length] in *.
    - rewrite Nat.add_0_r. auto.
    - replace (k + S (length l))%nat with (S k + length l)%nat in * by lia.
      assert (K0 : few k) by (unfold few in *; rewrite plus_INR, S_INR in K; assert (X0 := pos_INR (length l)); lra).
      destruct (det_at i) as [Ft [Hd Ht]]. set (t := determinant64 (map fst p) (map snd p) i) in *.
      assert (NK := pos_INR k). assert (NX := XY_pos). assert (MP : 0 <= M) by (unfold M; lra).
      assert (BS := budget_size K0). unfold few in K0.
      assert (SW : Rabs (val w) <= INR k * M + budget k).
      { replace (val w) with ((val w - D) + D) by ring. eapply Rle_trans; [apply Rabs_triang|]. lra. }
      assert (U := u_tiny). assert (ET := eta_tiny). assert (EP := eta_pos).
      assert (ST : Rabs (val t) <= M + (((1 + u) ^ 2 - 1) * M + 2 * eta * (1 + u))).
      { replace (val t) with ((val t - d i) + d i) by ring. eapply Rle_trans; [apply Rabs_triang|]. lra. }
      assert (SMALL : forall c, 0 <= c <= 2 ^ 30 -> c * M + 1 <= bpow radix2 1000).
      { intros c C. apply Rle_trans with (bpow radix2 30 * bpow radix2 961 + 1).
        - apply Rplus_le_compat_r. apply Rmult_le_compat; [lra|auto|simpl (bpow radix2 30); lra|]. unfold M.
          change 961%Z with (1 + 960)%Z. rewrite bpow_plus. simpl (bpow radix2 1). lra.
        - rewrite <- bpow_plus. apply Rle_trans with (bpow radix2 (1 + (30 + 961))); [|apply bpow_le; lia]. rewrite (bpow_plus radix2 1). simpl (bpow radix2 1).
          assert (bpow radix2 0 <= bpow radix2 (30 + 961)) by (apply bpow_le; lia). simpl (bpow radix2 0) in H. lra. }
      assert (BW : Rabs (val w) <= bpow radix2 1000).
      { eapply Rle_trans; [exact SW|]. eapply Rle_trans; [|apply (SMALL (3 * INR k)); lra]. lra. }
      assert (BT : Rabs (val t) <= bpow radix2 1000).
      { eapply Rle_trans; [exact ST|]. eapply Rle_trans; [|apply (SMALL 2); lra].
        assert (A1 : ((1 + u) ^ 2 - 1) * M <= 1 * M) by (apply Rmult_le_compat_r; [auto|nra]). assert (A2 : 2 * eta * (1 + u) <= 1) by nra. lra. }
      destruct (add_near Fw Ft BW BT) as [Fs [e [He Es]]]. apply IH; auto.
      + rewrite S_INR. eapply Rle_trans; [apply Rabs_triang|]. lra.
      + rewrite Es. replace ((val w + val t) * (1 + e) - (D + d i)) with (e * (val w + val t) + ((val w - D) + (val t - d i))) by ring.
        eapply Rle_trans; [apply Rabs_triang|].
        eapply Rle_trans; [|apply (@budget_step k (Rabs (val w)) (Rabs (val t - d i)) K0 SW Ht)].
        apply Rplus_le_compat.
        * rewrite Rabs_mult. apply Rmult_le_compat; auto using Rabs_pos. eapply Rle_trans; [apply Rabs_triang|].
          apply Rplus_le_compat_l. apply Rle_trans with (Rabs (d i) + Rabs (val t - d i)); [|lra].
          eapply Rle_trans; [|apply Rabs_triang]. right. f_equal. ring.
        * eapply Rle_trans; [apply Rabs_triang|]. lra.
  Qed.
End Det.

(** ** Halving *)
Lemma in_format (m e : Z) : (Z.abs m < 2 ^ 53)%Z -> (-1074 <= e)%Z -> rnd (IZR m * bpow radix2 e) = IZR m * bpow radix2 e.
Proof.
  intros B E. apply round_generic; [apply valid_rnd_round_mode|].
  change (generic_format radix2 (FLT_exp (-1074) 53) (F2R (Float radix2 m e))).
  apply generic_format_FLT. exists (Float radix2 m e); [reflexivity|exact B|exact E].
Qed.
Lemma half_any (x : b64) : finite x -> Rabs (val x) <= bpow radix2 1001 -> finite (f_div x f_two) /\ Rabs (val (f_div x f_two) - val x / 2) <= eta.
Proof.
  intros Fx B. set (z := val x / 2).
  assert (ER : Rabs (rnd z - z) <= eta).
  { destruct x as [s|s| |s m e Bd]; try discriminate.
    - unfold z. change (val (B754_zero s)) with 0. replace (0 / 2) with 0 by lra. rewrite rnd_zero. replace (0 - 0) with 0 by ring. rewrite Rabs_R0. apply Rlt_le, eta_pos.
    - assert (EB := exp_bound Bd). apply andb_prop in Bd as Bd'. destruct Bd' as [CM _].
      assert (MB : (Z.abs (cond_Zopp s (Zpos m)) < 2 ^ 53)%Z).
      { rewrite abs_cond_Zopp. unfold SpecFloat.canonical_mantissa in CM. apply Zeq_bool_eq in CM. unfold SpecFloat.fexp in CM. cbn [Z.abs].
        rewrite Digits.Zpos_digits2_pos in CM. assert (DG := Digits.Zdigits_correct radix2 (Zpos m)).
        apply Z.lt_le_trans with (1 := proj2 DG). cbn [Z.abs] in *. change (2 ^ 53)%Z with (Zpower radix2 53). apply Zpower_le. lia. }
      assert (ZE : z = IZR (cond_Zopp s (Zpos m)) * bpow radix2 (e - 1)).
      { unfold z. change (val (B754_finite s m e Bd)) with (IZR (cond_Zopp s (Zpos m)) * bpow radix2 e).
        replace e with (1 + (e - 1))%Z at 1 by lia. rewrite bpow_plus. change (bpow radix2 1) with 2. field. }
      destruct (Z.eq_dec e (-1074)) as [->|NE].
      + destruct (@error_N_FLT radix2 (3 - 1024 - 53) 53 ltac:(reflexivity) (fun x => negb (Z.even x)) z) as [ep [h [He [Hh [HZ E]]]]].
        assert (X : rnd z = z * (1 + ep) + h) by exact E. rewrite X. replace (z * (1 + ep) + h - z) with (ep * z + h) by ring.
        apply Rmult_integral in HZ. destruct HZ as [-> | ->].
        * rewrite Rmult_0_l, Rplus_0_l. eapply Rle_trans; [exact Hh|]. right. unfold eta. change (/ 2)%R with (bpow radix2 (-1)). rewrite <- bpow_plus. reflexivity.
        * rewrite Rplus_0_r, Rabs_mult. assert (HE : Rabs ep <= bpow radix2 (-53)).
          { eapply Rle_trans; [exact He|]. right. change (/ 2)%R with (bpow radix2 (-1)). rewrite <- bpow_plus. reflexivity. }
          assert (HZ : Rabs z <= bpow radix2 (53 + -1075)).
          { rewrite ZE; change (-1074 - 1)%Z with (-1075)%Z; rewrite Rabs_mult, <- abs_IZR, (Rabs_pos_eq (bpow _ _)) by apply bpow_ge_0. rewrite bpow_plus. apply Rmult_le_compat_r; [apply bpow_ge_0|].
            change (bpow radix2 53) with (IZR (2 ^ 53)). apply IZR_le. lia. }
          apply Rle_trans with (bpow radix2 (-53) * bpow radix2 (53 + -1075)); [apply Rmult_le_compat; auto using Rabs_pos|].
          rewrite <- bpow_plus. right. reflexivity.
      + rewrite ZE, in_format by (auto; lia). rewrite Rminus_diag_eq, Rabs_R0 by reflexivity. apply Rlt_le, eta_pos. }
  assert (L : Rlt_bool (Rabs (rnd (val x / val f_two))) (bpow radix2 1024) = true).
  { rewrite val_two. fold z. apply Rlt_bool_true. replace (rnd z) with ((rnd z - z) + z) by ring. eapply Rle_lt_trans; [apply Rabs_triang|].
    assert (Rabs z <= bpow radix2 1001).
    { unfold z, Rdiv. rewrite Rabs_mult, (Rabs_pos_eq (/ 2)) by lra. assert (P := Rabs_pos (val x)). lra. }
    assert (ET := eta_tiny). apply Rle_lt_trans with (2 * bpow radix2 1001).
    - assert (bpow radix2 0 <= bpow radix2 1001) by (apply bpow_le; lia). simpl (bpow radix2 0) in H0. assert (/ 10 ^ 15 < 1) by lra. lra.
    - change 2 with (bpow radix2 1). rewrite <- bpow_plus. apply bpow_lt. lia. }
  assert (NT : val f_two <> 0) by (rewrite val_two; lra).
  assert (C := Bdiv_correct _ _ _ _ mode_NE x f_two NT).
  change (round radix2 (SpecFloat.fexp 53 1024) (round_mode mode_NE) (val x / val f_two)) with (rnd (val x / val f_two)) in C.
  rewrite L in C. destruct C as [V [F _]]. unfold finite, f_div in *. rewrite F, V, val_two. auto.
Qed.

(** ** C144: accuracy *)
Lemma real_run p : area_x2 (map fst (map real_point p)) (map snd (map real_point p)) =
  fold_left (fun a i => a + (nth (before (length p) i) (map fst (map real_point p)) 0 * nth i (map snd (map real_point p)) 0 -
                             nth (before (length p) i) (map snd (map real_point p)) 0 * nth i (map fst (map real_point p)) 0)) (seq 0 (length p)) 0.
Proof. unfold area_x2. now rewrite !map_length. Qed.

Lemma area_x2_run X Y p : 0 <= X -> 0 <= Y -> X * Y <= bpow radix2 960 -> Forall (corner_ok X Y) p -> few (length p) ->
  finite (area_x2_64 (map fst p) (map snd p)) /\
  Rabs (area_x2 (map fst (map real_point p)) (map snd (map real_point p))) <= INR (length p) * (2 * (X * Y)) /\
  Rabs (val (area_x2_64 (map fst p) (map snd p)) - area_x2 (map fst (map real_point p)) (map snd (map real_point p))) <= budget X Y (length p).
Proof.
  intros XP YP XY G K. rewrite real_run. unfold area_x2_64. rewrite map_length.
  assert (R := @run_error X Y XP YP XY p G (seq 0 (length p)) 0 f_zero 0 eq_refl). rewrite seq_length in R. cbn [Nat.add] in R.
  apply R; auto.
  - rewrite Rabs_R0. simpl INR. lra.
  - change (val f_zero) with 0. rewrite Rminus_0_r, Rabs_R0. apply (@budget_size X Y); auto. unfold few. simpl INR. lra.
Qed.
Lemma area_x2_size X Y p : 0 <= X -> 0 <= Y -> X * Y <= bpow radix2 960 -> Forall (corner_ok X Y) p -> few (length p) ->
  Rabs (val (area_x2_64 (map fst p) (map snd p))) <= bpow radix2 1001.
Proof.
  intros XP YP XY G K. destruct (area_x2_run XP YP XY G K) as [_ [S E]]. assert (B := budget_size XP YP K). unfold few in K.
  set (v := val _) in *. set (w := area_x2 _ _) in *. replace v with ((v - w) + w) by ring. eapply Rle_trans; [apply Rabs_triang|].
  assert (NX : 0 <= X * Y) by nra.
  assert (Z : INR (length p) * (X * Y) <= 2 ^ 20 * bpow radix2 960) by (apply Rmult_le_compat; auto using pos_INR).
  apply Rle_trans with (6 * (2 ^ 20 * bpow radix2 960) + 1); [lra|].
  replace (2 ^ 20) with (bpow radix2 20) by (simpl (bpow radix2 20); lra). rewrite <- bpow_plus.
  apply Rle_trans with (bpow radix2 (3 + (20 + 960))); [|apply bpow_le; lia]. rewrite (bpow_plus radix2 3). change (bpow radix2 3) with 8.
  assert (bpow radix2 0 <= bpow radix2 (20 + 960)) by (apply bpow_le; lia). change (bpow radix2 0) with 1 in H. lra.
Qed.

(** The area of a cell with [n] corners, [|x| <= X] and [|y| <= Y], computed in double precision, is off by at most
    [n (n + 3) X Y / 2 ^ 53] (the last term is below 10 ^ -317) *)
Theorem C144_accuracy X Y p : 0 <= X -> 0 <= Y -> X * Y <= bpow radix2 960 -> Forall (corner_ok X Y) p -> INR (length p) <= 2 ^ 20 ->
  finite (shoelace64 p) /\
  Rabs (val (shoelace64 p) - shoelace (map real_point p)) <=
    INR (length p) * (INR (length p) + 3) * (X * Y) / 2 ^ 53 + (INR (length p) + 1) * bpow radix2 (-1074).
Proof.
  intros XP YP XY G K. destruct (area_x2_run XP YP XY G K) as [F [_ E]]. assert (SZ := area_x2_size XP YP XY G K).
  destruct (half_any F SZ) as [FH EH]. unfold shoelace64, shoelace.
  set (v := area_x2_64 _ _) in *. set (w := area_x2 _ _) in *. split; [unfold finite in *; now rewrite is_finite_Babs|].
  rewrite B2R_Babs. eapply Rle_trans; [apply Rabs_triang_inv2|].
  replace (val (f_div v f_two) - w / 2) with ((val (f_div v f_two) - val v / 2) + (val v - w) / 2) by field.
  eapply Rle_trans; [apply Rabs_triang|]. unfold Rdiv at 2. rewrite (Rabs_mult (_ - _)), (Rabs_pos_eq (/ 2)) by lra.
  assert (NX : 0 <= X * Y) by nra. assert (NK := pos_INR (length p)). assert (ET := eta_pos).
  destruct (@pow_u_simple (length p + 2)) as [L1 H1]; [rewrite plus_INR; simpl INR; lra|].
  destruct (@pow_u_simple (length p + 1)) as [L2 H2]; [rewrite plus_INR; simpl INR; lra|].
  rewrite plus_INR in H1, H2. simpl INR in H1, H2. unfold budget in E. assert (U := u_tiny).
  assert (T : bpow radix2 (-1074) = 2 * eta) by (unfold eta; change 2 with (bpow radix2 1); rewrite <- bpow_plus; reflexivity).
  set (n := INR (length p)) in *. assert (W2 : (n + 1 + 1) * u <= 1) by (apply Rle_trans with ((2 ^ 20 + 3) * / 10 ^ 15); [apply Rmult_le_compat; lra|lra]).
  assert (A1 : ((1 + u) ^ (length p + 2) - 1) * (n * (2 * (X * Y))) <= (n + 3) * u * (n * (2 * (X * Y)))).
  { apply Rmult_le_compat_r; [|lra]. apply Rmult_le_pos; lra. }
  assert (A2 : 2 * n * eta * (1 + u) ^ (length p + 1) <= 2 * n * eta * 2) by (apply Rmult_le_compat_l; [nra|lra]).
  rewrite T. assert (UV : u = / 2 ^ 53) by (rewrite u_val; f_equal; lra). unfold Rdiv. rewrite <- UV. nra.
Qed.

(** ** C144: exact areas *)
(** the coordinates are whole multiples of the units [2 ^ kx] and [2 ^ ky] *)
Definition in_units (kx ky a b : Z) (p : point64) : Prop :=
  finite (fst p) /\ finite (snd p) /\
  (exists i, (Z.abs i <= a)%Z /\ val (fst p) = IZR i * bpow radix2 kx) /\
  (exists j, (Z.abs j <= b)%Z /\ val (snd p) = IZR j * bpow radix2 ky).

Definition ready (k : Z) (m : Z) (x : b64) : Prop := finite x /\ val x = IZR m * bpow radix2 k.
Lemma no_overflow (m k : Z) : (Z.abs m < 2 ^ 53)%Z -> (k <= 960)%Z -> Rlt_bool (Rabs (IZR m * bpow radix2 k)) (bpow radix2 1024) = true.
Proof.
  intros B K. apply Rlt_bool_true. rewrite Rabs_mult, <- abs_IZR, (Rabs_pos_eq (bpow _ _)) by apply bpow_ge_0.
  apply Rle_lt_trans with (bpow radix2 53 * bpow radix2 960); [|rewrite <- bpow_plus; apply bpow_lt; lia].
  apply Rmult_le_compat; [apply IZR_le; lia|apply bpow_ge_0|change (bpow radix2 53) with (IZR (2 ^ 53)); apply IZR_le; lia|now apply bpow_le].
Qed.
Lemma mul_exact kx ky i j x y : ready kx i x -> ready ky j y -> (Z.abs (i * j) < 2 ^ 53)%Z -> (-1074 <= kx + ky <= 960)%Z -> ready (kx + ky) (i * j) (f_mul x y).
Proof.
  intros [Fx Vx] [Fy Vy] B K. assert (C := Bmult_correct _ _ _ _ mode_NE x y).
  assert (E : val x * val y = IZR (i * j) * bpow radix2 (kx + ky)) by (rewrite Vx, Vy, mult_IZR, bpow_plus; ring).
  rewrite E in C. change (round radix2 (SpecFloat.fexp 53 1024) (round_mode mode_NE) (IZR (i * j) * bpow radix2 (kx + ky))) with (rnd (IZR (i * j) * bpow radix2 (kx + ky))) in C.
  rewrite in_format, no_overflow in C by (auto; lia). destruct C as [V [F _]]. unfold ready, finite, f_mul in *. rewrite F, Fx, Fy. auto.
Qed.
Lemma add_exact k i j x y : ready k i x -> ready k j y -> (Z.abs (i + j) < 2 ^ 53)%Z -> (-1074 <= k <= 960)%Z -> ready k (i + j) (f_add x y).
Proof.
  intros [Fx Vx] [Fy Vy] B K. assert (C := Bplus_correct _ _ _ _ mode_NE x y Fx Fy).
  assert (E : val x + val y = IZR (i + j) * bpow radix2 k) by (rewrite Vx, Vy, plus_IZR; ring).
  rewrite E in C. change (round radix2 (SpecFloat.fexp 53 1024) (round_mode mode_NE) (IZR (i + j) * bpow radix2 k)) with (rnd (IZR (i + j) * bpow radix2 k)) in C.
  rewrite in_format, no_overflow in C by (auto; lia). destruct C as [V [F _]]. split; auto.
Qed.
Lemma sub_exact k i j x y : ready k i x -> ready k j y -> (Z.abs (i - j) < 2 ^ 53)%Z -> (-1074 <= k <= 960)%Z -> ready k (i - j) (f_sub x y).
Proof.
  intros [Fx Vx] [Fy Vy] B K. assert (C := Bminus_correct _ _ _ _ mode_NE x y Fx Fy).
  assert (E : val x - val y = IZR (i - j) * bpow radix2 k) by (rewrite Vx, Vy, minus_IZR; ring).
  rewrite E in C. change (round radix2 (SpecFloat.fexp 53 1024) (round_mode mode_NE) (IZR (i - j) * bpow radix2 k)) with (rnd (IZR (i - j) * bpow radix2 k)) in C.
  rewrite in_format, no_overflow in C by (auto; lia). destruct C as [V [F _]]. split; auto.
Qed.

Section Exact.
  Variables (kx ky a b : Z) (p : list point64).
  Hypothesis good : Forall (in_units kx ky a b) p.
  Hypothesis range : (-1073 <= kx + ky <= 960)%Z.
  Hypothesis room : (2 * Z.of_nat (length p) * (a * b) < 2 ^ 53)%Z.
  Let d (i : nat) : R := nth (before (length p) i) (map fst (map real_point p)) 0 * nth i (map snd (map real_point p)) 0 -
                         nth (before (length p) i) (map snd (map real_point p)) 0 * nth i (map fst (map real_point p)) 0.
  Lemma units_nth i : p <> [] -> in_units kx ky a b (nth i p (f_zero, f_zero)).
  Proof using good range room.
    clear range room.
    intros NE. destruct (Nat.lt_ge_cases i (length p)) as [L|L].
    - apply (proj1 (Forall_forall _ _) good). now apply nth_In.
    - destruct p as [|q l]; [congruence|]. inversion good as [|? ? Hq _]; subst. destruct Hq as [_ [_ [[i0 [I0 _]] [j0 [J0 _]]]]].
      rewrite nth_overflow by auto. repeat split; exists 0%Z; cbn; (split; [lia|lra]).
  Qed.
  Lemma det_exact i : (i < length p)%nat -> exists m, (Z.abs m <= 2 * (a * b))%Z /\ d i = IZR m * bpow radix2 (kx + ky) /\
    ready (kx + ky) m (determinant64 (map fst p) (map snd p) i).
  Proof using good range room.
    intros Hi. assert (NE : p <> []) by (intros ->; cbn in Hi; lia).
    destruct (units_nth (before (length p) i) NE) as [F1 [F2 [[x0 [X0 EX0]] [y0 [Y0 EY0]]]]].
    destruct (units_nth i NE) as [F3 [F4 [[x1 [X1 EX1]] [y1 [Y1 EY1]]]]].
    assert (AB : (0 <= a * b)%Z) by nia.
    assert (P1 : (Z.abs (x0 * y1) <= a * b)%Z) by (rewrite Z.abs_mul; nia). assert (P2 : (Z.abs (y0 * x1) <= a * b)%Z) by (rewrite Z.abs_mul; nia).
    assert (RM : (2 * (a * b) < 2 ^ 53)%Z) by nia.
    assert (R1 : ready (kx + ky) (x0 * y1) (f_mul (fst (nth (before (length p) i) p (f_zero, f_zero))) (snd (nth i p (f_zero, f_zero))))).
    { apply mul_exact; try (split; auto; fail); lia. }
    assert (R2 : ready (kx + ky) (y0 * x1) (f_mul (snd (nth (before (length p) i) p (f_zero, f_zero))) (fst (nth i p (f_zero, f_zero))))).
    { rewrite (Z.add_comm kx ky). apply mul_exact; try (split; auto; fail); lia. }
    exists (x0 * y1 - y0 * x1)%Z. split; [lia|].
    assert (E1 : forall j, nth j (map fst p) f_zero = fst (nth j p (f_zero, f_zero))) by (intro j; exact (map_nth fst p (f_zero, f_zero) j)).
    assert (E2 : forall j, nth j (map snd p) f_zero = snd (nth j p (f_zero, f_zero))) by (intro j; exact (map_nth snd p (f_zero, f_zero) j)).
    assert (E3 : forall j, nth j (map (fun q => fst (real_point q)) p) 0 = val (fst (nth j p (f_zero, f_zero)))) by (intro j; exact (map_nth (fun q => fst (real_point q)) p (f_zero, f_zero) j)).
    assert (E4 : forall j, nth j (map (fun q => snd (real_point q)) p) 0 = val (snd (nth j p (f_zero, f_zero)))) by (intro j; exact (map_nth (fun q => snd (real_point q)) p (f_zero, f_zero) j)).
    unfold determinant64, d. rewrite map_length, !map_map, !E1, !E2, !E3, !E4. split.
    - rewrite EX0, EY0, EX1, EY1, minus_IZR, !mult_IZR, bpow_plus. ring.
    - apply sub_exact; auto; lia.
  Qed.
  Lemma run_exact l : forall w m D, (forall i, In i l -> (i < length p)%nat) -> ready (kx + ky) m w -> D = IZR m * bpow radix2 (kx + ky) ->
    (Z.abs m + 2 * Z.of_nat (length l) * (a * b) < 2 ^ 53)%Z ->
    exists m', (Z.abs m' < 2 ^ 53)%Z /\ ready (kx + ky) m' (fold_left (fun a i => f_add a (determinant64 (map fst p) (map snd p) i)) l w) /\
      fold_left (fun a i => a + d i) l D = IZR m' * bpow radix2 (kx + ky).
  Proof using good range room.
    induction l as [|i l IH]; intros w m D IN Rw ED RM; cbn [fold_left length] in *.
    - exists m. repeat split; auto; try apply Rw. lia.
    - destruct (@det_exact i (IN i (or_introl eq_refl))) as [t [T [Ed Rt]]].
      assert (AB : (0 <= a * b)%Z) by lia.
      apply (@IH _ (m + t)%Z); auto with datatypes.
      + apply add_exact; auto; try lia.
      + rewrite ED, Ed, plus_IZR. ring.
      + nia.
  Qed.
End Exact.

(** If the corners lie on a regular lattice whose units are powers of two (whole metres, quarter feet, ...), the computed
    area is the exact one *)
Theorem C144_exact kx ky a b p : Forall (in_units kx ky a b) p -> (-1073 <= kx + ky <= 960)%Z ->
  (2 * Z.of_nat (length p) * (a * b) < 2 ^ 53)%Z ->
  finite (shoelace64 p) /\ val (shoelace64 p) = shoelace (map real_point p).
Proof.
  intros G R RM.
  destruct (@run_exact kx ky a b p G R RM (seq 0 (length p)) f_zero 0 0) as [m [B [[F V] E]]].
  { intros i Hi. apply in_seq in Hi. lia. }
  { split; [reflexivity|]. change (val f_zero) with 0. lra. }
  { lra. }
  { rewrite seq_length. cbn [Z.abs]. lia. }
  unfold shoelace64, shoelace. rewrite real_run. unfold area_x2_64. rewrite map_length. rewrite E.
  set (w := fold_left _ (seq 0 (length p)) f_zero) in *.
  assert (NT : val f_two <> 0) by (rewrite val_two; lra).
  assert (C := Bdiv_correct _ _ _ _ mode_NE w f_two NT). rewrite V, val_two in C.
  assert (H : IZR m * bpow radix2 (kx + ky) / 2 = IZR m * bpow radix2 (kx + ky - 1)).
  { replace (kx + ky)%Z with (1 + (kx + ky - 1))%Z at 1 by lia. rewrite bpow_plus. change (bpow radix2 1) with 2. field. }
  rewrite H in *. change (round radix2 (SpecFloat.fexp 53 1024) (round_mode mode_NE) (IZR m * bpow radix2 (kx + ky - 1))) with (rnd (IZR m * bpow radix2 (kx + ky - 1))) in C.
  rewrite in_format, no_overflow in C by (auto; lia). destruct C as [V2 [F2 _]]. unfold finite, f_div in *.
  rewrite is_finite_Babs, B2R_Babs. split.
  - change (fin (Bdiv mode_NE w f_two) = true). congruence.
  - change (Rabs (val (Bdiv mode_NE w f_two)) = Rabs (IZR m * bpow radix2 (kx + ky - 1))). now rewrite V2.
Qed.

(** ** C144: the other cells do not matter *)
Lemma add_plus_zero w : finite w -> finite (f_add w f_zero) /\ val (f_add w f_zero) = val w.
Proof.
  intros F. assert (C := Bplus_correct _ _ _ _ mode_NE w f_zero F eq_refl). change (B2R f_zero) with 0 in C. rewrite Rplus_0_r in C.
  change (round radix2 (SpecFloat.fexp 53 1024) (round_mode mode_NE) (B2R w)) with (rnd (val w)) in C.
  rewrite rnd_val, Rlt_bool_true in C by apply abs_B2R_lt_emax. destruct C as [V [F' _]]. auto.
Qed.
Lemma add_plus_zeros n : forall s w, finite w -> finite (fold_left (fun a (_ : nat) => f_add a f_zero) (seq s n) w) /\ val (fold_left (fun a (_ : nat) => f_add a f_zero) (seq s n) w) = val w.
Proof.
  induction n as [|n IH]; intros s w F; cbn [seq fold_left]; [auto|].
  destruct (add_plus_zero F) as [F' V']. destruct (IH (S s) _ F') as [F2 V2]. split; [exact F2|]. now rewrite V2.
Qed.
Lemma mul_val (x y : b64) : finite (f_mul x y) ->
  val (f_mul x y) = rnd (val x * val y) /\ Bsign (f_mul x y) = xorb (Bsign x) (Bsign y).
Proof.
  intros F. assert (C := Bmult_correct _ _ _ _ mode_NE x y).
  change (round radix2 (SpecFloat.fexp 53 1024) (round_mode mode_NE) (B2R x * B2R y)) with (rnd (val x * val y)) in C.
  destruct (Rlt_bool _ _).
  - destruct C as [V [_ S]]. split; [exact V|]. apply S. unfold f_mul, finite in F. now destruct (Bmult mode_NE x y).
  - exfalso. unfold f_mul, finite in F. destruct (Bmult mode_NE x y); cbn in C, F; discriminate.
Qed.
Lemma same_product_zero (x y : b64) : finite x -> finite y -> Rabs (val x * val y) <= bpow radix2 1000 ->
  f_sub (f_mul x y) (f_mul y x) = f_zero.
Proof.
  intros Fx Fy B. destruct (mul_any Fx Fy B) as [F1 _]. rewrite Rmult_comm in B. destruct (mul_any Fy Fx B) as [F2 _].
  destruct (mul_val F1) as [V1 S1]. destruct (mul_val F2) as [V2 S2]. rewrite Rmult_comm in V2. rewrite xorb_comm in S2.
  assert (E : f_mul y x = f_mul x y) by (apply (@B2R_Bsign_inj 53 1024); auto; congruence).
  rewrite E. clear V1 S1 V2 S2 E F2. set (z := f_mul x y) in *. clearbody z.
  assert (C := Bminus_correct _ _ _ _ mode_NE z z F1 F1). rewrite Rminus_diag_eq in C by reflexivity.
  change (round radix2 (SpecFloat.fexp 53 1024) (round_mode mode_NE) 0) with (rnd 0) in C.
  rewrite rnd_zero, Rabs_R0, Rlt_bool_true in C by apply bpow_gt_0. destruct C as [V [F S]].
  rewrite Rcompare_Eq in S by reflexivity. unfold f_sub.
  apply (@B2R_Bsign_inj 53 1024); auto. rewrite S. cbn. now destruct (Bsign z).
Qed.

Lemma nth_patch w p i : nth i (patch64 w p) (f_zero, f_zero) =
  if (i <? length p)%nat then nth i p (f_zero, f_zero) else if (i <? w)%nat then last p (f_zero, f_zero) else (f_zero, f_zero).
Proof.
  unfold patch64. destruct (Nat.ltb_spec i (length p)) as [L|L]; [now apply app_nth1|].
  rewrite app_nth2 by auto. destruct (Nat.ltb_spec i w) as [L2|L2].
  - rewrite (nth_indep _ _ (last p (f_zero, f_zero))) by (rewrite repeat_length; lia). now rewrite nth_repeat.
  - apply nth_overflow. rewrite repeat_length. lia.
Qed.
Lemma patch_length w p : length (patch64 w p) = Nat.max w (length p).
Proof. unfold patch64. rewrite app_length, repeat_length. lia. Qed.
Lemma fold_ext {A B} (f g : A -> B -> A) l : (forall a x, In x l -> f a x = g a x) -> forall a, fold_left f l a = fold_left g l a.
Proof.
  induction l as [|x l IH]; intros H a; cbn; [auto|]. rewrite H by (now left). apply IH. intros a' y Hy. apply H. now right.
Qed.
Lemma det_points q i : determinant64 (map fst q) (map snd q) i =
  let a := nth (before (length q) i) q (f_zero, f_zero) in let b := nth i q (f_zero, f_zero) in
  f_sub (f_mul (fst a) (snd b)) (f_mul (snd a) (fst b)).
Proof.
  unfold determinant64. rewrite map_length.
  assert (E1 : forall j, nth j (map fst q) f_zero = fst (nth j q (f_zero, f_zero))) by (intro j; exact (map_nth fst q (f_zero, f_zero) j)).
  assert (E2 : forall j, nth j (map snd q) f_zero = snd (nth j q (f_zero, f_zero))) by (intro j; exact (map_nth snd q (f_zero, f_zero) j)).
  now rewrite !E1, !E2.
Qed.

Lemma shoelace_patch X Y w p : 0 <= X -> 0 <= Y -> X * Y <= bpow radix2 960 -> Forall (corner_ok X Y) p -> few (length p) ->
  shoelace64 (patch64 w p) = shoelace64 p.
Proof.
  intros XP YP XY G K. destruct (area_x2_run XP YP XY G K) as [F _]. assert (SZ := area_x2_size XP YP XY G K).
  set (lst := last p (f_zero, f_zero)).
  assert (LG : corner_ok X Y lst).
  { unfold lst. destruct (Nat.eq_dec (length p) 0) as [Z|Z].
    - apply length_zero_iff_nil in Z. rewrite Z. repeat split; cbn; rewrite ?Rabs_R0; auto.
    - rewrite <- last_nth_. apply (@corner_nth X Y XP YP p G). }
  assert (DZ : forall i, (length p <= i < Nat.max w (length p))%nat -> determinant64 (map fst (patch64 w p)) (map snd (patch64 w p)) i = f_zero).
  { intros i Hi. rewrite det_points. cbv zeta. rewrite patch_length, !nth_patch.
    destruct (Nat.ltb_spec i (length p)) as [L|_]; [lia|]. destruct (Nat.ltb_spec i w) as [_|L]; [|lia].
    fold lst. assert (E : (if before (Nat.max w (length p)) i <? length p then nth (before (Nat.max w (length p)) i) p (f_zero, f_zero)
      else if before (Nat.max w (length p)) i <? w then lst else (f_zero, f_zero)) = lst).
    { destruct i as [|i]; cbn [before].
      - destruct (Nat.ltb_spec (Nat.max w (length p) - 1) (length p)); [lia|]. destruct (Nat.ltb_spec (Nat.max w (length p) - 1) w); [auto|lia].
      - destruct (Nat.ltb_spec i (length p)).
        + unfold lst. rewrite <- last_nth_. f_equal. lia.
        + destruct (Nat.ltb_spec i w); [auto|lia]. }
    rewrite E. destruct LG as [F1 [F2 [B1 B2]]]. apply same_product_zero; auto.
    eapply Rle_trans; [apply (@product_size X Y); auto|]. eapply Rle_trans; [exact XY|]. apply bpow_le. lia. }
  assert (DS : forall i, (i < length p)%nat -> determinant64 (map fst (patch64 w p)) (map snd (patch64 w p)) i = determinant64 (map fst p) (map snd p) i).
  { intros i Hi. rewrite !det_points. cbv zeta. rewrite patch_length, !nth_patch.
    destruct (Nat.ltb_spec i (length p)) as [_|L]; [|lia].
    assert (E : (if before (Nat.max w (length p)) i <? length p then nth (before (Nat.max w (length p)) i) p (f_zero, f_zero)
      else if before (Nat.max w (length p)) i <? w then last p (f_zero, f_zero) else (f_zero, f_zero)) = nth (before (length p) i) p (f_zero, f_zero)).
    { destruct i as [|i]; cbn [before].
      - destruct (Nat.ltb_spec (Nat.max w (length p) - 1) (length p)) as [L|L].
        + f_equal. lia.
        + destruct (Nat.ltb_spec (Nat.max w (length p) - 1) w); [|lia]. now rewrite <- last_nth_.
      - destruct (Nat.ltb_spec i (length p)); [auto|lia]. }
    now rewrite E. }
  assert (EQ : finite (area_x2_64 (map fst (patch64 w p)) (map snd (patch64 w p))) /\
    val (area_x2_64 (map fst (patch64 w p)) (map snd (patch64 w p))) = val (area_x2_64 (map fst p) (map snd p))).
  { unfold area_x2_64 in *. rewrite !map_length, patch_length in *.
    replace (Nat.max w (length p)) with (length p + (Nat.max w (length p) - length p))%nat by lia.
    rewrite seq_app, fold_left_app, Nat.add_0_l.
    rewrite (@fold_ext _ _ _ (fun a i => f_add a (determinant64 (map fst p) (map snd p) i)) (seq 0 (length p))).
    2:{ intros a i Hi. apply in_seq in Hi. now rewrite DS by lia. }
    rewrite (@fold_ext _ _ _ (fun a (_ : nat) => f_add a f_zero) (seq (length p) _)).
    2:{ intros a i Hi. apply in_seq in Hi. now rewrite DZ by lia. }
    now apply add_plus_zeros. }
  destruct EQ as [F' V']. unfold shoelace64. set (v := area_x2_64 (map fst p) _) in *. set (v' := area_x2_64 (map fst (patch64 w p)) _) in *.
  assert (SZ' : Rabs (val v') <= bpow radix2 1001) by (now rewrite V').
  destruct (half_any F SZ) as [FH _]. destruct (half_any F' SZ') as [FH' _].
  apply (@B2R_Bsign_inj 53 1024).
  - unfold finite in *. now rewrite is_finite_Babs.
  - unfold finite in *. now rewrite is_finite_Babs.
  - rewrite !B2R_Babs. f_equal.
    assert (DV : forall z, finite (f_div z f_two) -> val (f_div z f_two) = rnd (val z / 2)).
    { clear. intros z Fz. assert (NT : val f_two <> 0) by (rewrite val_two; lra). assert (C := Bdiv_correct _ _ _ _ mode_NE z f_two NT).
      rewrite val_two in C. destruct (Rlt_bool _ _).
      - destruct C as [V _]. exact V.
      - exfalso. unfold f_div, finite in Fz. destruct (Bdiv mode_NE z f_two); cbn in C, Fz; discriminate. }
    rewrite (DV v' FH'), (DV v FH). now rewrite V'.
  - assert (PS : forall z : b64, fin z = true -> Bsign (Babs z) = false) by (intros [ | | | ]; intros; try reflexivity; discriminate).
    now rewrite !PS by assumption.
Qed.

(** every cell gets the area of its own polygon, bit for bit: the padding of the vertex lists to the length of the longest
    does not change it *)
Theorem C144_areas_of_cells X Y cells : 0 <= X -> 0 <= Y -> X * Y <= bpow radix2 960 ->
  Forall (fun p => Forall (corner_ok X Y) p /\ INR (length p) <= 2 ^ 20) cells ->
  cell_areas64 cells = map shoelace64 cells.
Proof.
  intros XP YP XY G. unfold cell_areas64. apply map_ext_in. intros p Hp.
  destruct (proj1 (Forall_forall _ _) G p Hp) as [G1 G2]. now apply (@shoelace_patch X Y).
Qed.

(** ** Not exact in general *)
(** Unlike in exact arithmetic (C67_position), the same square far from the origin gets another area: a unit square at
    (2 ^ 27, 2 ^ 27) is computed to have area 0.  That is what C144_accuracy allows. *)
(* 2 ^ 27 and 2 ^ 27 + 1 *)
Definition far0 : b64 := @B754_finite 53 1024 false 4503599627370496 (-25) eq_refl.
Definition far1 : b64 := @B754_finite 53 1024 false 4503599660924928 (-25) eq_refl.
Definition far_square : list point64 := [(far0, far0); (far1, far0); (far1, far1); (far0, far1)].
Lemma val_far0 : val far0 = 134217728.
Proof. unfold val, far0, B2R, F2R; cbn. lra. Qed.
Lemma val_far1 : val far1 = 134217729.
Proof. unfold val, far1, B2R, F2R; cbn. lra. Qed.
Theorem C144_position_matters :
  Forall (corner_ok 134217729 134217729) far_square /\ shoelace (map real_point far_square) = 1 /\ shoelace64 far_square = f_zero.
Proof.
  split; [|split].
  - repeat constructor; cbn [fst snd]; rewrite ?val_far0, ?val_far1, Rabs_pos_eq; lra.
  - rewrite shoelace_signed. unfold far_square, real_point, signed2, cr; cbn [map fst snd last chain]. unfold cr; cbn [fst snd].
    rewrite val_far0, val_far1. rewrite Rabs_pos_eq; lra.
  - vm_compute. reflexivity.
Qed.

(** ** A worked case: an L-shaped cell on the lattice of whole metres *)
Definition i1 : b64 := @B754_finite 53 1024 false 4503599627370496 (-52) eq_refl.
Definition i2 : b64 := @B754_finite 53 1024 false 4503599627370496 (-51) eq_refl.
Definition i3 : b64 := @B754_finite 53 1024 false 6755399441055744 (-51) eq_refl.
Definition ell : list point64 := [(f_zero, f_zero); (i2, f_zero); (i2, i1); (i1, i1); (i1, i2); (f_zero, i2)].
Lemma val_i1 : val i1 = 1. Proof. unfold val, i1, B2R, F2R; cbn. lra. Qed.
Lemma val_i2 : val i2 = 2. Proof. unfold val, i2, B2R, F2R; cbn. lra. Qed.
Example C144_worked : Forall (in_units 0 0 2 2) ell /\ val (shoelace64 ell) = 3 /\
  map (fun '(a, b) => f_eq a b) (combine (cell_areas64 [ell; [(f_zero, f_zero); (i1, f_zero); (f_zero, i2)]]) [i3; i1]) = [true; true].
Proof.
  assert (I0 : exists i, (Z.abs i <= 2)%Z /\ val f_zero = IZR i * bpow radix2 0) by (exists 0%Z; cbn; split; [lia|lra]).
  assert (I1 : exists i, (Z.abs i <= 2)%Z /\ val i1 = IZR i * bpow radix2 0) by (exists 1%Z; rewrite val_i1; cbn; split; [lia|lra]).
  assert (I2 : exists i, (Z.abs i <= 2)%Z /\ val i2 = IZR i * bpow radix2 0) by (exists 2%Z; rewrite val_i2; cbn; split; [lia|lra]).
  assert (G : Forall (in_units 0 0 2 2) ell) by (repeat constructor; auto).
  split; [exact G|split].
  - destruct (C144_exact G ltac:(lia) ltac:(cbn; lia)) as [_ ->].
    rewrite shoelace_signed. unfold ell, real_point, signed2; cbn [map fst snd last chain]. unfold cr; cbn [fst snd].
    rewrite val_i1, val_i2. change (val f_zero) with 0. rewrite Rabs_pos_eq; lra.
  - vm_compute. reflexivity.
Qed.

Print Assumptions C144_accuracy.
Print Assumptions C144_exact.
Print Assumptions C144_areas_of_cells.
Print Assumptions C144_position_matters.
