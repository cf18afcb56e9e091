(** C138, C139: distances, lengths and gradients in double precision. *)
From Coq Require Import ZArith Reals Lra Lia.
From Flocq Require Import Core.Core Relative IEEE754.BinarySingleNaN.
From Verif Require Import Py Spec MFlow MStream MGeo LFloat PropsAccF PropsCascF MNumF.
Set Implicit Arguments.
Unset Strict Implicit.
Local Open Scope R_scope.
Local Open Scope list_scope.
Local Notation length := List.length.

(** ** Relative errors *)
(** [x] is [y] up to the relative error [e] *)
Definition near (e x y : R) : Prop := exists t, Rabs t <= e /\ x = y * (1 + t).

Lemma near_refl e x : 0 <= e -> near e x x.
Proof. intros E. exists 0. split; [now rewrite Rabs_R0|ring]. Qed.
Lemma near_mono e e' x y : e <= e' -> near e x y -> near e' x y.
Proof. intros L [t [T E]]. exists t. split; [lra|auto]. Qed.
Lemma near_trans e1 e2 x y z : near e1 x y -> near e2 y z -> near (e1 + e2 + e1 * e2) x z.
Proof.
  intros [a [A ->]] [b [B ->]]. exists (a + b + a * b). split; [|ring].
  eapply Rle_trans; [apply Rabs_triang|]. rewrite Rabs_mult. assert (X := Rabs_triang a b).
  assert (Y := Rmult_le_compat _ _ _ _ (Rabs_pos a) (Rabs_pos b) A B). lra.
Qed.
Lemma near_mult e1 e2 a b A B : near e1 a A -> near e2 b B -> near (e1 + e2 + e1 * e2) (a * b) (A * B).
Proof.
  intros [s [S ->]] [t [T ->]]. exists (s + t + s * t). split; [|ring].
  eapply Rle_trans; [apply Rabs_triang|]. rewrite Rabs_mult. assert (X := Rabs_triang s t).
  assert (Y := Rmult_le_compat _ _ _ _ (Rabs_pos s) (Rabs_pos t) S T). lra.
Qed.
Lemma near_plus e a b A B : near e a A -> near e b B -> 0 <= A -> 0 <= B -> near e (a + b) (A + B).
Proof.
  intros [s [S ->]] [t [T ->]] PA PB. destruct (Req_dec (A + B) 0) as [Z|NZ].
  - exists 0. assert (A = 0) by lra. assert (B = 0) by lra. subst. split; [rewrite Rabs_R0; assert (X := Rabs_pos s); lra|ring].
  - assert (P : 0 < A + B) by lra. exists ((A * s + B * t) / (A + B)). split; [|field; lra].
    unfold Rdiv. rewrite Rabs_mult, (Rabs_pos_eq (/ (A + B))) by (apply Rlt_le, Rinv_0_lt_compat, P).
    apply (Rmult_le_reg_r (A + B)); [auto|]. rewrite Rmult_assoc, Rinv_l, Rmult_1_r by lra.
    eapply Rle_trans; [apply Rabs_triang|]. rewrite !Rabs_mult, (Rabs_pos_eq A), (Rabs_pos_eq B) by auto. nra.
Qed.
Lemma near_inv e b B : e < 1 -> near e b B -> B <> 0 -> b <> 0 /\ near (e / (1 - e)) (/ b) (/ B).
Proof.
  intros E [t [T ->]] NB. assert (X := Rabs_le_inv _ _ T). assert (P : 0 < 1 + t) by lra.
  split; [apply Rmult_integral_contrapositive_currified; lra|].
  exists (- t / (1 + t)). split; [|field; split; lra].
  unfold Rdiv. rewrite Rabs_mult, Rabs_Ropp, (Rabs_pos_eq (/ (1 + t))) by (apply Rlt_le, Rinv_0_lt_compat, P).
  assert (Y : / (1 + t) <= / (1 - e)) by (apply Rinv_le; lra).
  apply Rmult_le_compat; auto using Rabs_pos. apply Rlt_le, Rinv_0_lt_compat, P.
Qed.
Lemma near_sqrt e x y : e <= 1 -> 0 <= y -> near e x y -> near e (sqrt x) (sqrt y).
Proof.
  intros E PY [t [T ->]]. assert (X := Rabs_le_inv _ _ T). exists (sqrt (1 + t) - 1). split.
  - eapply Rle_trans; [|exact T]. assert (S0 := sqrt_pos (1 + t)). assert (SQ : sqrt (1 + t) * sqrt (1 + t) = 1 + t) by (apply sqrt_sqrt; lra).
    set (r := sqrt (1 + t)) in *. replace t with ((r - 1) * (r + 1)) by lra. rewrite Rabs_mult. rewrite (Rabs_pos_eq (r + 1)) by lra.
    assert (P := Rabs_pos (r - 1)). nra.
  - rewrite sqrt_mult by lra. ring.
Qed.
Lemma near_size e x y : near e x y -> 0 <= e <= / 2 -> Rabs y / 2 <= Rabs x <= 2 * Rabs y.
Proof.
  intros [t [T ->]] E. rewrite Rabs_mult. assert (X := Rabs_le_inv _ _ T). rewrite (Rabs_pos_eq (1 + t)) by lra.
  assert (P := Rabs_pos y). nra.
Qed.
Lemma near_pos e x y : near e x y -> e < 1 -> 0 < y -> 0 < x.
Proof. intros [t [T ->]] E P. apply Rabs_le_inv in T. nra. Qed.
Lemma near_neg e x y : near e x y -> e < 1 -> y < 0 -> x < 0.
Proof. intros [t [T ->]] E P. apply Rabs_le_inv in T. nra. Qed.
Lemma near_zero e x : near e x 0 -> x = 0.
Proof. intros [t [_ ->]]. ring. Qed.
Lemma near_le e x y : near e x y <-> Rabs (x - y) <= e * Rabs y /\ (0 <= e).
Proof.
  split.
  - intros [t [T ->]]. split; [|assert (X := Rabs_pos t); lra]. replace (y * (1 + t) - y) with (t * y) by ring. rewrite Rabs_mult.
    apply Rmult_le_compat_r; auto using Rabs_pos.
  - intros [H E]. destruct (Req_dec y 0) as [->|NY].
    + exists 0. rewrite Rabs_R0 in H |- *. split; [auto|]. replace (x - 0) with x in H by ring. assert (X : Rabs x = 0) by (assert (P := Rabs_pos x); lra).
      destruct (Req_dec x 0) as [->|N]; [ring|]. apply Rabs_no_R0 in N. contradiction.
    + exists ((x - y) / y). split; [|field; auto]. unfold Rdiv. rewrite Rabs_mult, Rabs_inv.
      assert (P : 0 < Rabs y) by now apply Rabs_pos_lt. apply (Rmult_le_reg_r (Rabs y)); [auto|]. rewrite Rmult_assoc, Rinv_l, Rmult_1_r by lra. exact H.
Qed.

(** ** The operations *)
Definition mid (x : R) : Prop := x = 0 \/ bpow radix2 (-1000) <= Rabs x <= bpow radix2 1000.
Lemma u_val : u = / 9007199254740992.
Proof. unfold u. reflexivity. Qed.
Lemma rnd_near x : mid x -> near u (rnd x) x /\ Rlt_bool (Rabs (rnd x)) (bpow radix2 1024) = true.
Proof.
  intros [->|[L1 L2]].
  - rewrite rnd_zero. split; [apply near_refl, Rlt_le, u_pos|]. rewrite Rabs_R0. apply Rlt_bool_true, bpow_gt_0.
  - destruct (@relative_error_N_FLT_ex radix2 (3 - 1024 - 53) 53 ltac:(reflexivity) (fun x => negb (Z.even x)) x) as [e [B E]].
    + eapply Rle_trans; [|exact L1]. apply bpow_le. lia.
    + assert (B' : Rabs e <= u).
      { eapply Rle_trans; [exact B|]. right. unfold u. change (/ 2)%R with (bpow radix2 (-1)). rewrite <- bpow_plus. reflexivity. }
      assert (NR : near u (rnd x) x) by (exists e; split; [exact B'|exact E]).
      split; [auto|]. apply Rlt_bool_true. assert (U := u_pos). assert (U2 := u_small).
      destruct (near_size NR ltac:(lra)) as [_ Z]. eapply Rle_lt_trans; [exact Z|].
      apply Rle_lt_trans with (bpow radix2 1001); [|apply bpow_lt; lia]. change 1001%Z with (1 + 1000)%Z. rewrite bpow_plus. simpl (bpow radix2 1). lra.
Qed.
Lemma rnd_sum_near (x y : b64) : Rabs (val x) <= bpow radix2 1000 -> Rabs (val y) <= bpow radix2 1000 ->
  near u (rnd (val x + val y)) (val x + val y) /\ Rlt_bool (Rabs (rnd (val x + val y))) (bpow radix2 1024) = true.
Proof.
  intros Bx By. destruct (rnd_plus x y) as [e [He Ee]]. assert (NR : near u (rnd (val x + val y)) (val x + val y)) by (exists e; auto).
  split; [auto|]. apply Rlt_bool_true. assert (U := u_pos). assert (U2 := u_small).
  destruct (near_size NR ltac:(lra)) as [_ Z]. eapply Rle_lt_trans; [exact Z|]. assert (T := Rabs_triang (val x) (val y)).
  apply Rle_lt_trans with (bpow radix2 1002); [|apply bpow_lt; lia]. change 1002%Z with (2 + 1000)%Z. rewrite bpow_plus. simpl (bpow radix2 2). lra.
Qed.
Lemma add_near (x y : b64) : finite x -> finite y -> Rabs (val x) <= bpow radix2 1000 -> Rabs (val y) <= bpow radix2 1000 ->
  finite (f_add x y) /\ near u (val (f_add x y)) (val x + val y).
Proof.
  intros Fx Fy Bx By. destruct (rnd_sum_near Bx By) as [N L]. assert (C := Bplus_correct _ _ _ _ mode_NE x y Fx Fy).
  rewrite L in C. destruct C as [V [F _]]. split; [exact F|]. unfold f_add. now rewrite V.
Qed.
Lemma val_opp (y : b64) : val (Bopp y) = - val y.
Proof. apply B2R_Bopp. Qed.
Lemma sub_near (x y : b64) : finite x -> finite y -> Rabs (val x) <= bpow radix2 1000 -> Rabs (val y) <= bpow radix2 1000 ->
  finite (f_sub x y) /\ near u (val (f_sub x y)) (val x - val y).
Proof.
  intros Fx Fy Bx By. assert (By' : Rabs (val (Bopp y)) <= bpow radix2 1000) by (rewrite val_opp, Rabs_Ropp; auto).
  destruct (rnd_sum_near Bx By') as [N L]. rewrite val_opp in N, L. assert (C := Bminus_correct _ _ _ _ mode_NE x y Fx Fy).
  unfold Rminus in C. rewrite L in C. destruct C as [V [F _]]. split; [exact F|]. unfold f_sub. now rewrite V.
Qed.
Lemma mul_near (x y : b64) : finite x -> finite y -> mid (val x * val y) ->
  finite (f_mul x y) /\ near u (val (f_mul x y)) (val x * val y).
Proof.
  intros Fx Fy M. destruct (rnd_near M) as [N L]. assert (C := Bmult_correct _ _ _ _ mode_NE x y). rewrite L in C.
  destruct C as [V [F _]]. unfold finite, f_mul in *. rewrite F, Fx, Fy, V. auto.
Qed.
Lemma div_near (x y : b64) : finite x -> val y <> 0 -> mid (val x / val y) ->
  finite (f_div x y) /\ near u (val (f_div x y)) (val x / val y).
Proof.
  intros Fx Ny M. destruct (rnd_near M) as [N L]. assert (C := Bdiv_correct _ _ _ _ mode_NE x y Ny). rewrite L in C.
  destruct C as [V [F _]]. unfold finite, f_div in *. rewrite F, Fx, V. auto.
Qed.
Lemma sqrt_near64 (x : b64) : finite x -> 0 < val x -> mid (sqrt (val x)) ->
  finite (f_sqrt x) /\ near u (val (f_sqrt x)) (sqrt (val x)).
Proof.
  intros Fx P M. destruct (rnd_near M) as [N L]. destruct (Bsqrt_correct _ _ _ _ mode_NE x) as [V [F _]].
  unfold finite, f_sqrt in *. rewrite F, V. split; [|auto].
  destruct x as [s|s| |s m e B]; try discriminate; [reflexivity|]. destruct s; [|reflexivity].
  exfalso. change (0 < F2R (Float radix2 (Zneg m) e)) in P. assert (X := F2R_lt_0 radix2 (Float radix2 (Zneg m) e) ltac:(reflexivity)). lra.
Qed.

(** ** Specification *)
(** coordinates of moderate size; two different coordinates differ by at least 2^-400 *)
Definition real_point (p : point64) : point := (val (fst p), val (snd p)).
Definition good_point (p : point64) : Prop :=
  finite (fst p) /\ finite (snd p) /\ Rabs (val (fst p)) <= bpow radix2 400 /\ Rabs (val (snd p)) <= bpow radix2 400.
Definition differ (x y : b64) : Prop := val x = val y \/ bpow radix2 (-400) <= Rabs (val x - val y).
Definition apart (a b : point64) : Prop :=
  good_point a /\ good_point b /\ differ (fst a) (fst b) /\ differ (snd a) (snd b) /\ real_point a <> real_point b.

Lemma bpow_twice e : bpow radix2 (e + 1) = 2 * bpow radix2 e.
Proof. rewrite bpow_plus. change (bpow radix2 1) with 2. ring. Qed.

(** one coordinate: the rounded square of the rounded difference *)
Definition e3 : R := 2 * u + u * u + u + u * (2 * u + u * u).
Lemma u_tiny : 0 < u < / 10 ^ 15.
Proof. rewrite u_val. lra. Qed.
Lemma square_near (x y : b64) : finite x -> finite y -> Rabs (val x) <= bpow radix2 400 -> Rabs (val y) <= bpow radix2 400 -> differ x y ->
  let d := f_sub x y in
  finite (f_mul d d) /\ near e3 (val (f_mul d d)) ((val x - val y) * (val x - val y)) /\
  0 <= val (f_mul d d) <= bpow radix2 805.
Proof.
  intros Fx Fy Bx By D d. assert (U := u_tiny).
  destruct (@sub_near x y Fx Fy) as [Fd Nd]; [eapply Rle_trans; [eauto|apply bpow_le; lia] ..|]. fold d in Fd, Nd.
  assert (NN : near (u + u + u * u) (val d * val d) ((val x - val y) * (val x - val y))) by now apply near_mult.
  assert (SZ := near_size Nd ltac:(lra)).
  assert (TB : Rabs (val x - val y) <= bpow radix2 401).
  { change 401%Z with (400 + 1)%Z. rewrite bpow_twice. unfold Rminus. eapply Rle_trans; [apply Rabs_triang|]. rewrite Rabs_Ropp. lra. }
  assert (UP : Rabs (val d * val d) <= bpow radix2 804).
  { rewrite Rabs_mult. replace (bpow radix2 804) with (bpow radix2 402 * bpow radix2 402) by (rewrite <- bpow_plus; reflexivity).
    assert (X : Rabs (val d) <= bpow radix2 402) by (change 402%Z with (401 + 1)%Z; rewrite bpow_twice; lra).
    apply Rmult_le_compat; auto using Rabs_pos. }
  assert (M : mid (val d * val d)).
  { destruct D as [E|L].
    - left. rewrite E, (Rminus_diag_eq (val y) (val y) eq_refl) in Nd. apply near_zero in Nd. rewrite Nd. ring.
    - right. split; [|eapply Rle_trans; [exact UP|apply bpow_le; lia]].
      apply Rle_trans with (bpow radix2 (-401) * bpow radix2 (-401)); [rewrite <- bpow_plus; apply bpow_le; lia|].
      rewrite Rabs_mult. assert (X : bpow radix2 (-401) <= Rabs (val d)).
      { assert (Y := bpow_twice (-401)). change (-401 + 1)%Z with (-400)%Z in Y. lra. }
      assert (P := bpow_ge_0 radix2 (-401)). apply Rmult_le_compat; auto. }
  destruct (mul_near Fd Fd M) as [Fm Nm]. split; [exact Fm|]. split.
  - eapply near_mono; [|exact (near_trans Nm NN)]. unfold e3. lra.
  - destruct Nm as [t [T ET]]. assert (X := Rabs_le_inv _ _ T). rewrite ET. assert (Q : 0 <= val d * val d) by nra. split; [nra|].
    rewrite Rabs_pos_eq in UP by auto. change 805%Z with (804 + 1)%Z. rewrite bpow_twice. nra.
Qed.

Definition e4 : R := u + e3 + u * e3.
Definition e5 : R := u + e4 + u * e4.
Lemma errors_small : 0 < e3 < / 10 ^ 15 /\ 0 < e4 < / 10 ^ 15 /\ 0 < e5 < 7 / 10 ^ 16.
Proof. unfold e5, e4, e3. rewrite u_val. lra. Qed.

(** ** C138: distances *)
Theorem distance_near a b : apart a b ->
  finite (distance64 a b) /\ near e5 (val (distance64 a b)) (distance (real_point a) (real_point b)) /\
  bpow radix2 (-400) <= distance (real_point a) (real_point b) <= bpow radix2 402.
Proof.
  intros ([Fax [Fay [Bax Bay]]] & [Fbx [Fby [Bbx Bby]]] & Dx & Dy & NE).
  destruct (square_near Fax Fbx Bax Bbx Dx) as (Fx & Nx & Px & Qx). destruct (square_near Fay Fby Bay Bby Dy) as (Fy & Ny & Py & Qy).
  assert (U := u_tiny). destruct errors_small as (E3 & E4 & E5).
  unfold distance64. set (sx := f_mul (f_sub (fst a) (fst b)) _) in *. set (sy := f_mul (f_sub (snd a) (snd b)) _) in *.
  set (X := val (fst a) - val (fst b)) in *. set (Y := val (snd a) - val (snd b)) in *.
  assert (XX : 0 <= X * X) by nra. assert (YY : 0 <= Y * Y) by nra.
  assert (NS := near_plus Nx Ny XX YY).
  assert (B1000 : bpow radix2 805 <= bpow radix2 1000) by (apply bpow_le; lia).
  destruct (@add_near sx sy Fx Fy) as [Fs Ns]; [rewrite Rabs_pos_eq; lra ..|].
  assert (NT := near_trans Ns NS). change (u + e3 + u * e3) with e4 in NT.
  assert (DD : distance (real_point a) (real_point b) = sqrt (X * X + Y * Y)).
  { unfold distance, real_point. cbn [fst snd]. f_equal. fold X Y. ring. }
  assert (TX : Rabs X <= bpow radix2 401).
  { change 401%Z with (400 + 1)%Z. rewrite bpow_twice. unfold X, Rminus. eapply Rle_trans; [apply Rabs_triang|]. rewrite Rabs_Ropp. lra. }
  assert (TY : Rabs Y <= bpow radix2 401).
  { change 401%Z with (400 + 1)%Z. rewrite bpow_twice. unfold Y, Rminus. eapply Rle_trans; [apply Rabs_triang|]. rewrite Rabs_Ropp. lra. }
  assert (HI : X * X + Y * Y <= bpow radix2 402 * bpow radix2 402).
  { assert (P := bpow_gt_0 radix2 401). assert (B2 := bpow_twice 401). change (401 + 1)%Z with 402%Z in B2. rewrite B2.
    assert (X2 : X * X = Rabs X * Rabs X) by (rewrite <- Rabs_mult, Rabs_pos_eq; auto).
    assert (Y2 : Y * Y = Rabs Y * Rabs Y) by (rewrite <- Rabs_mult, Rabs_pos_eq; auto).
    assert (PX := Rabs_pos X). assert (PY := Rabs_pos Y). rewrite X2, Y2. nra. }
  assert (LO : bpow radix2 (-400) * bpow radix2 (-400) <= X * X + Y * Y).
  { assert (P := bpow_gt_0 radix2 (-400)).
    assert (X2 : X * X = Rabs X * Rabs X) by (rewrite <- Rabs_mult, Rabs_pos_eq; auto).
    assert (Y2 : Y * Y = Rabs Y * Rabs Y) by (rewrite <- Rabs_mult, Rabs_pos_eq; auto).
    destruct Dx as [EX|LX]; [destruct Dy as [EY|LY]|].
    - exfalso. apply NE. unfold real_point. now rewrite EX, EY.
    - fold Y in LY. rewrite Y2. nra.
    - fold X in LX. rewrite X2. nra. }
  assert (DB : bpow radix2 (-400) <= sqrt (X * X + Y * Y) <= bpow radix2 402).
  { rewrite <- (sqrt_square (bpow radix2 (-400))), <- (sqrt_square (bpow radix2 402)) by apply bpow_ge_0. split; now apply sqrt_le_1_alt. }
  rewrite DD. set (D2 := X * X + Y * Y) in *. assert (PD : 0 < D2) by (assert (P := bpow_gt_0 radix2 (-400)); nra).
  assert (Ps : 0 < val (f_add sx sy)) by (eapply near_pos; [exact NT|lra|exact PD]).
  assert (NQ := near_sqrt (e := e4) ltac:(lra) (Rlt_le _ _ PD) NT).
  assert (SZ := near_size NQ ltac:(lra)). rewrite !(Rabs_pos_eq (sqrt _)) in SZ by apply sqrt_pos.
  assert (M : mid (sqrt (val (f_add sx sy)))).
  { right. rewrite Rabs_pos_eq by apply sqrt_pos. split.
    - apply Rle_trans with (bpow radix2 (-401)); [apply bpow_le; lia|]. assert (Z := bpow_twice (-401)). change (-401 + 1)%Z with (-400)%Z in Z. lra.
    - apply Rle_trans with (bpow radix2 403); [|apply bpow_le; lia]. assert (Z := bpow_twice 402). change (402 + 1)%Z with 403%Z in Z. lra. }
  destruct (sqrt_near64 Fs Ps M) as [Fq Nq]. split; [exact Fq|]. split; [|exact DB].
  exact (near_trans Nq NQ).
Qed.

(** the same distance in both directions, to the last bit *)
Lemma sub_swap (x y : b64) : finite x -> finite y -> val (f_sub x y) = - val (f_sub y x) \/ val (f_sub x y) = val (f_sub y x).
Proof.
  intros Fx Fy. assert (C := Bminus_correct _ _ _ _ mode_NE x y Fx Fy). assert (C' := Bminus_correct _ _ _ _ mode_NE y x Fy Fx).
  assert (E : rnd (val x - val y) = - rnd (val y - val x)).
  { replace (val x - val y) with (- (val y - val x)) by ring. apply round_NE_opp. }
  rewrite E, Rabs_Ropp in C. destruct (Rlt_bool _ _).
  - left. destruct C as [C _], C' as [C' _]. unfold f_sub. rewrite C, C'. reflexivity.
  - right. destruct C as [C _], C' as [C' _]. unfold f_sub.
    transitivity (SF2R radix2 (B2SF (Bminus mode_NE x y))); [symmetry; apply SF2R_B2SF|].
    transitivity (SF2R radix2 (B2SF (Bminus mode_NE y x))); [|apply SF2R_B2SF]. rewrite C, C'. now destruct (Bsign x), (Bsign y).
Qed.

(** C138: the distance of two cells, in doubles *)
Theorem C138_distance a b : apart a b ->
  finite (distance64 a b) /\ 0 < val (distance64 a b) /\
  Rabs (val (distance64 a b) - distance (real_point a) (real_point b)) <= / 10 ^ 15 * distance (real_point a) (real_point b).
Proof.
  intros A. destruct (distance_near A) as (F & N & L & _). destruct errors_small as (_ & _ & E5).
  assert (P := bpow_gt_0 radix2 (-400)). split; [auto|]. split; [eapply near_pos; [exact N|lra|lra]|].
  apply (near_mono (e' := / 10 ^ 15)) in N; [|lra]. apply near_le in N. destruct N as [N _]. now rewrite (Rabs_pos_eq (distance _ _)) in N by lra.
Qed.

Lemma apart_sym a b : apart a b -> apart b a.
Proof.
  intros (A & B & Dx & Dy & N). split; [auto|]. split; [auto|]. split; [|split].
  - destruct Dx as [E|L]; [left; auto|right]. now rewrite Rabs_minus_sym.
  - destruct Dy as [E|L]; [left; auto|right]. now rewrite Rabs_minus_sym.
  - intros E. now apply N.
Qed.

Lemma square_val (x y : b64) : finite x -> finite y -> Rabs (val x) <= bpow radix2 400 -> Rabs (val y) <= bpow radix2 400 -> differ x y ->
  val (f_mul (f_sub x y) (f_sub x y)) = rnd (val (f_sub x y) * val (f_sub x y)).
Proof.
  intros Fx Fy Bx By D. assert (U := u_tiny).
  assert (C := Bmult_correct _ _ _ _ mode_NE (f_sub x y) (f_sub x y)). fold (f_mul (f_sub x y) (f_sub x y)) in C.
  destruct (Rlt_bool_spec (Rabs (rnd (val (f_sub x y) * val (f_sub x y)))) (bpow radix2 1024)) as [L|L]; [apply C|]. exfalso.
  destruct (square_near Fx Fy Bx By D) as (F & _). apply (f_equal (fun z => match z with SpecFloat.S754_infinity _ => false | SpecFloat.S754_nan => false | _ => true end)) in C.
  destruct (f_mul (f_sub x y) (f_sub x y)); cbn in C; try discriminate; destruct (Bsign (f_sub x y)); discriminate.
Qed.

Theorem C138_distance_is_symmetric a b : apart a b -> distance64 a b = distance64 b a.
Proof.
  intros A. destruct (distance_near A) as (F1 & N1 & L1 & _). destruct (distance_near (apart_sym A)) as (F2 & N2 & L2 & _).
  destruct errors_small as (_ & _ & E5). assert (P := bpow_gt_0 radix2 (-400)).
  assert (P1 : 0 < val (distance64 a b)) by (eapply near_pos; [exact N1|lra|lra]).
  assert (P2 : 0 < val (distance64 b a)) by (eapply near_pos; [exact N2|lra|lra]).
  apply B2R_Bsign_inj; auto; [|rewrite !sign_pos by auto; reflexivity].
  destruct A as ([Fax [Fay [Bax Bay]]] & [Fbx [Fby [Bbx Bby]]] & Dx & Dy & NE).
  assert (Dx' : differ (fst b) (fst a)) by (destruct Dx as [E|L]; [left; auto|right; now rewrite Rabs_minus_sym]).
  assert (Dy' : differ (snd b) (snd a)) by (destruct Dy as [E|L]; [left; auto|right; now rewrite Rabs_minus_sym]).
  destruct (square_near Fax Fbx Bax Bbx Dx) as (Fx & _ & Px & Qx). destruct (square_near Fay Fby Bay Bby Dy) as (Fy & _ & Py & Qy).
  destruct (square_near Fbx Fax Bbx Bax Dx') as (Fx' & _ & Px' & Qx'). destruct (square_near Fby Fay Bby Bay Dy') as (Fy' & _ & Py' & Qy').
  assert (EX : val (f_mul (f_sub (fst a) (fst b)) (f_sub (fst a) (fst b))) = val (f_mul (f_sub (fst b) (fst a)) (f_sub (fst b) (fst a)))).
  { rewrite !square_val by auto. destruct (sub_swap Fax Fbx) as [->| ->]; [|reflexivity]. f_equal. ring. }
  assert (EY : val (f_mul (f_sub (snd a) (snd b)) (f_sub (snd a) (snd b))) = val (f_mul (f_sub (snd b) (snd a)) (f_sub (snd b) (snd a)))).
  { rewrite !square_val by auto. destruct (sub_swap Fay Fby) as [->| ->]; [|reflexivity]. f_equal. ring. }
  unfold distance64, f_sqrt. rewrite !(proj1 (Bsqrt_correct _ _ _ _ mode_NE _)).
  f_equal. f_equal.
  assert (B1000 : bpow radix2 805 <= bpow radix2 1000) by (apply bpow_le; lia).
  assert (S : forall p q : b64, finite p -> finite q -> 0 <= val p <= bpow radix2 805 -> 0 <= val q <= bpow radix2 805 -> val (f_add p q) = rnd (val p + val q)).
  { intros p q Fp Fq Bp Bq. destruct (@rnd_sum_near p q) as [_ L]; [rewrite Rabs_pos_eq; lra ..|].
    assert (C := Bplus_correct _ _ _ _ mode_NE p q Fp Fq). rewrite L in C. apply C. }
  rewrite !S by auto. now rewrite EX, EY.
Qed.

(** ** Lengths *)
Lemma val_1_5 : val f_1_5 = 1.5.
Proof. unfold f_1_5. cbn [B2R]. unfold F2R. simpl. lra. Qed.
Lemma val_two : val f_two = 2.
Proof. unfold f_two. cbn [B2R]. unfold F2R. simpl. lra. Qed.
Lemma val_0001 : 0.000099 < val f_0001 < 0.000101.
Proof. unfold f_0001. cbn [B2R]. unfold F2R. simpl. lra. Qed.
Lemma val_micro : 0.000000999999 < val f_micro < 0.000001.
Proof. unfold f_micro. cbn [B2R]. unfold F2R. simpl. lra. Qed.

Definition e6 : R := u + e5 + u * e5.
Lemma length_near a b : apart a b ->
  let l := f_mul (distance64 a b) f_1_5 in
  finite l /\ near e6 (val l) (1.5 * distance (real_point a) (real_point b)) /\ 0 < val l.
Proof.
  intros A l. destruct (distance_near A) as (F & N & L & H). destruct errors_small as (_ & _ & E5). assert (U := u_tiny).
  assert (P := bpow_gt_0 radix2 (-400)). assert (SZ := near_size N ltac:(lra)). rewrite (Rabs_pos_eq (distance _ _)) in SZ by lra.
  assert (PV : 0 < val (distance64 a b)) by (eapply near_pos; [exact N|lra|lra]). rewrite Rabs_pos_eq in SZ by lra.
  assert (M : mid (val (distance64 a b) * val f_1_5)).
  { right. rewrite val_1_5, Rabs_pos_eq by lra. split.
    - apply Rle_trans with (bpow radix2 (-401)); [apply bpow_le; lia|]. assert (Z := bpow_twice (-401)). change (-401 + 1)%Z with (-400)%Z in Z. lra.
    - apply Rle_trans with (bpow radix2 (402 + 1 + 1)); [|apply bpow_le; lia]. rewrite !bpow_twice. lra. }
  destruct (mul_near F (y := f_1_5) ltac:(reflexivity) M) as [Fl Nl]. fold l in Fl, Nl. split; [exact Fl|].
  assert (N' : near e5 (val (distance64 a b) * val f_1_5) (1.5 * distance (real_point a) (real_point b))).
  { destruct N as [t [T E]]. exists t. split; [auto|]. rewrite E, val_1_5. ring. }
  assert (NN := near_trans Nl N'). split; [exact NN|]. eapply near_pos; [exact NN| |lra]. fold e6. unfold e6. rewrite u_val. lra.
Qed.

(** C138: rlen (MODFLOW 6) and rchlen (MODFLOW-2005) are positive and 1.5 times the distance to the
    cell below *)
Theorem C138_lengths centers c n : apart (at64 centers c) (at64 centers n) ->
  let len := 1.5 * distance (real_point (at64 centers c)) (real_point (at64 centers n)) in
  (finite (rlen64 centers c n) /\ 0 < val (rlen64 centers c n) /\ Rabs (val (rlen64 centers c n) - len) <= / 10 ^ 15 * len) /\
  (finite (rchlen64 centers c n) /\ 0 < val (rchlen64 centers c n) /\ Rabs (val (rchlen64 centers c n) - len) <= / 10 ^ 15 * len).
Proof.
  intros A len. destruct (length_near A) as (F & N & P). fold len in N. destruct errors_small as (_ & _ & E5).
  assert (E6 : e6 <= / 10 ^ 15) by (unfold e6; rewrite u_val; lra).
  assert (PL : 0 < len).
  { unfold len. destruct (distance_near A) as (_ & _ & L & _). assert (Q := bpow_gt_0 radix2 (-400)). lra. }
  assert (X := near_mono E6 N). apply near_le in X. destruct X as [X _]. rewrite (Rabs_pos_eq len) in X by lra.
  assert (Y : finite (rlen64 centers c n) /\ 0 < val (rlen64 centers c n) /\ Rabs (val (rlen64 centers c n) - len) <= / 10 ^ 15 * len) by auto.
  split; exact Y.
Qed.

(** the length at an outlet: 1.5 times the mean of the width and the height of the cell *)
Theorem C138_outlet_length w h : finite w -> finite h -> bpow radix2 (-400) <= val w <= bpow radix2 400 -> bpow radix2 (-400) <= val h <= bpow radix2 400 ->
  let len := 1.5 * ((val w + val h) / 2) in
  finite (outlet_len64 w h) /\ Rabs (val (outlet_len64 w h) - len) <= / 10 ^ 15 * len.
Proof.
  intros Fw Fh Bw Bh len. assert (U := u_tiny). assert (P := bpow_gt_0 radix2 (-400)).
  assert (B1 : bpow radix2 400 <= bpow radix2 1000) by (apply bpow_le; lia).
  assert (B2 : bpow radix2 (400 + 1 + 1 + 1 + 1) <= bpow radix2 1000) by (apply bpow_le; lia). rewrite !bpow_twice in B2.
  assert (B3 : bpow radix2 (-1000) <= bpow radix2 (-404)) by (apply bpow_le; lia).
  assert (B4 : bpow radix2 (-404 + 1 + 1 + 1 + 1) = bpow radix2 (-400)) by reflexivity. rewrite !bpow_twice in B4.
  destruct (@add_near w h Fw Fh) as [Fs Ns]; [rewrite Rabs_pos_eq; lra ..|].
  assert (Ps : 0 < val (f_add w h)) by (eapply near_pos; [exact Ns|lra|lra]).
  assert (SZ := near_size Ns ltac:(lra)). rewrite !Rabs_pos_eq in SZ by lra.
  assert (M : mid (val (f_add w h) / val f_two)).
  { right. rewrite val_two, Rabs_pos_eq by lra. lra. }
  destruct (div_near Fs (y := f_two) ltac:(rewrite val_two; lra) M) as [Fd Nd]. rewrite val_two in Nd.
  assert (N1 : near u (val (f_add w h) / 2) ((val w + val h) / 2)).
  { destruct Ns as [t [T E]]. exists t. split; [auto|]. rewrite E. field. }
  assert (N2 := near_trans Nd N1). assert (SZ2 := near_size N2 ltac:(nra)).
  assert (Pd : 0 < val (f_div (f_add w h) f_two)) by (eapply near_pos; [exact N2|nra|lra]). rewrite !Rabs_pos_eq in SZ2 by lra.
  assert (M2 : mid (val f_1_5 * val (f_div (f_add w h) f_two))).
  { right. rewrite val_1_5, Rabs_pos_eq by lra. lra. }
  destruct (mul_near (x := f_1_5) ltac:(reflexivity) Fd M2) as [Fl Nl]. fold (outlet_len64 w h) in Fl, Nl. split; [exact Fl|].
  assert (N3 : near (u + u + u * u) (val f_1_5 * val (f_div (f_add w h) f_two)) len).
  { destruct N2 as [t [T E]]. exists t. split; [auto|]. unfold len. rewrite E, val_1_5. ring. }
  assert (N4 := near_trans Nl N3). assert (E : u + (u + u + u * u) + u * (u + u + u * u) <= / 10 ^ 15) by (rewrite u_val; lra).
  assert (X := near_mono E N4). apply near_le in X. destruct X as [X _]. rewrite (Rabs_pos_eq len) in X by (unfold len; lra). exact X.
Qed.

(** ** Gradients *)
(** elevations of moderate size *)
Definition good_level (z : b64) : Prop := finite z /\ Rabs (val z) <= bpow radix2 400.

Lemma drop_near x y : good_level x -> good_level y -> differ x y ->
  finite (f_sub x y) /\ near u (val (f_sub x y)) (val x - val y) /\ (val (f_sub x y) = 0 \/ bpow radix2 (-401) <= Rabs (val (f_sub x y)) <= bpow radix2 402).
Proof.
  intros [Fx Bx] [Fy By] D. assert (U := u_tiny).
  destruct (@sub_near x y Fx Fy) as [F N]; [eapply Rle_trans; [eauto|apply bpow_le; lia] ..|]. split; [auto|]. split; [auto|].
  destruct D as [E|L].
  - left. rewrite E, (Rminus_diag_eq (val y) (val y) eq_refl) in N. now apply near_zero in N.
  - right. assert (SZ := near_size N ltac:(lra)). assert (Z := bpow_twice (-401)). change (-401 + 1)%Z with (-400)%Z in Z.
    assert (Z1 := bpow_twice 400). change (400 + 1)%Z with 401%Z in Z1. assert (Z2 := bpow_twice 401). change (401 + 1)%Z with 402%Z in Z2.
    assert (T : Rabs (val x - val y) <= 2 * bpow radix2 400).
    { unfold Rminus. eapply Rle_trans; [apply Rabs_triang|]. rewrite Rabs_Ropp. lra. }
    lra.
Qed.

(** a quotient of a drop and a length *)
Lemma quotient_near d D l L e : finite d -> near u (val d) D -> (val d = 0 \/ bpow radix2 (-401) <= Rabs (val d) <= bpow radix2 402) ->
  near e (val l) L -> 0 < e <= / 10 ^ 15 -> bpow radix2 (-401) <= L <= bpow radix2 404 ->
  finite (f_div d l) /\ near (u + (u + e / (1 - e) + u * (e / (1 - e))) + u * (u + e / (1 - e) + u * (e / (1 - e)))) (val (f_div d l)) (D / L).
Proof.
  intros Fd Nd Md Nl E BL. assert (U := u_tiny). assert (P := bpow_gt_0 radix2 (-401)).
  destruct (near_inv (e := e) ltac:(lra) Nl ltac:(lra)) as [Zl Ni]. assert (SZ := near_size Nl ltac:(lra)).
  rewrite (Rabs_pos_eq L) in SZ by lra. assert (PV : 0 < val l) by (eapply near_pos; [exact Nl|lra|lra]). rewrite (Rabs_pos_eq (val l)) in SZ by lra.
  assert (M : mid (val d / val l)).
  { destruct Md as [Z|[M1 M2]]; [left; rewrite Z; field; auto|right].
    unfold Rdiv. rewrite Rabs_mult, Rabs_inv, (Rabs_pos_eq (val l)) by lra.
    assert (IL : bpow radix2 (-405) <= / val l).
    { replace (bpow radix2 (-405)) with (/ bpow radix2 405) by (rewrite <- bpow_opp; reflexivity). apply Rinv_le; [auto|].
      assert (Z := bpow_twice 404). change (404 + 1)%Z with 405%Z in Z. lra. }
    assert (IH : / val l <= bpow radix2 402).
    { replace (bpow radix2 402) with (/ bpow radix2 (-402)) by (rewrite <- bpow_opp; reflexivity). apply Rinv_le; [apply bpow_gt_0|].
      assert (Z := bpow_twice (-402)). change (-402 + 1)%Z with (-401)%Z in Z. lra. }
    split.
    - apply Rle_trans with (bpow radix2 (-401) * bpow radix2 (-405)); [rewrite <- bpow_plus; apply bpow_le; lia|].
      apply Rmult_le_compat; auto using bpow_ge_0.
    - apply Rle_trans with (bpow radix2 402 * bpow radix2 402); [|rewrite <- bpow_plus; apply bpow_le; lia].
      apply Rmult_le_compat; auto using Rabs_pos. assert (Q := bpow_gt_0 radix2 (-405)). lra. }
  destruct (div_near Fd Zl M) as [F N]. split; [exact F|].
  exact (near_trans N (near_mult Nd Ni)).
Qed.

Definition e7 (e : R) : R := u + (u + e / (1 - e) + u * (e / (1 - e))) + u * (u + e / (1 - e) + u * (e / (1 - e))).
Lemma e7_mono e : 0 < e <= / 10 ^ 15 -> 0 < e7 e /\ (e <= 7 / 10 ^ 16 -> e7 e <= 0.99 / 10 ^ 15).
Proof.
  intros E. assert (U := u_tiny). unfold e7. assert (I1 : 0 < / (1 - e)) by (apply Rinv_0_lt_compat; lra).
  assert (Q0 : 0 < e / (1 - e)) by (unfold Rdiv; nra). split.
  - assert (0 < u * (e / (1 - e))) by nra. nra.
  - intros E'. assert (I2 : / (1 - e) <= 1 + 2 / 10 ^ 15).
    { apply (Rmult_le_reg_r (1 - e)); [lra|]. rewrite Rinv_l by lra. nra. }
    assert (Q1 : e / (1 - e) <= 7.01 / 10 ^ 16) by (unfold Rdiv; nra).
    set (q := e / (1 - e)) in *. rewrite u_val. nra.
Qed.

Lemma e6_small : 0 < e6 <= 7 / 10 ^ 16.
Proof. unfold e6, e5, e4, e3. rewrite u_val. lra. Qed.

(** C138: the slope of reach_data is the drop to the cell below divided by rchlen *)
Theorem C138_reach_slope centers top c n zc zn : apart (at64 centers c) (at64 centers n) ->
  nth_error top c = Some (Some zc) -> nth_error top n = Some (Some zn) -> good_level zc -> good_level zn -> differ zc zn ->
  let s := (val zc - val zn) / (1.5 * distance (real_point (at64 centers c)) (real_point (at64 centers n))) in
  exists x, rslope64 centers top c n = Some x /\ finite x /\ Rabs (val x - s) <= / 10 ^ 15 * Rabs s.
Proof.
  intros A Ec En Gc Gn D s. unfold rslope64, level64. rewrite (nth_error_nth _ _ _ Ec), (nth_error_nth _ _ _ En).
  eexists. split; [reflexivity|]. destruct (drop_near Gc Gn D) as (Fd & Nd & Md). destruct (length_near A) as (_ & Nl & _).
  destruct (distance_near A) as (_ & _ & DL & DH). destruct e6_small as [E0 E1].
  destruct (@quotient_near (f_sub zc zn) (val zc - val zn) (rchlen64 centers c n) _ e6 Fd Nd Md Nl ltac:(lra)) as [F N].
  { assert (Z1 := bpow_twice (-401)). change (-401 + 1)%Z with (-400)%Z in Z1. assert (Z2 := bpow_twice 402). change (402 + 1)%Z with 403%Z in Z2.
    assert (Z3 := bpow_twice 403). change (403 + 1)%Z with 404%Z in Z3. assert (P := bpow_gt_0 radix2 402). assert (P' := bpow_gt_0 radix2 (-401)). lra. }
  split; [exact F|]. fold s in N. destruct (e7_mono (e := e6) ltac:(lra)) as [_ E7]. specialize (E7 E1).
  apply (near_mono (e' := / 10 ^ 15)) in N; [|fold (e7 e6); lra]. now apply near_le in N.
Qed.

Lemma slope_near centers dem c n zc zn : apart (at64 centers c) (at64 centers n) ->
  nth_error dem c = Some (Some zc) -> nth_error dem n = Some (Some zn) -> good_level zc -> good_level zn -> differ zc zn ->
  (val zc <= val zn \/ / 10 ^ 6 <= val zc - val zn) ->
  finite (slope64 centers dem c n) /\
  near (e7 e5) (val (slope64 centers dem c n)) ((val zc - val zn) / distance (real_point (at64 centers c)) (real_point (at64 centers n))).
Proof.
  intros A Ec En Gc Gn D CS. unfold slope64. rewrite (nth_error_nth _ _ _ Ec), (nth_error_nth _ _ _ En).
  destruct (drop_near Gc Gn D) as (Fd & Nd & Md). destruct (distance_near A) as (_ & Nl & DL & DH). destruct errors_small as (_ & _ & E5).
  assert (NF : f_lt (f_sub zc zn) f_micro && f_lt f_zero (f_sub zc zn) = false).
  { destruct (f_lt (f_sub zc zn) f_micro) eqn:L1; [|reflexivity]. destruct (f_lt f_zero (f_sub zc zn)) eqn:L2; [|reflexivity]. exfalso.
    apply lt_val in L1; [|exact Fd|reflexivity]. apply lt_val in L2; [|reflexivity|exact Fd]. change (val f_zero) with 0 in L2.
    assert (U := u_tiny). destruct CS as [CS|CS].
    - assert (X : val zc - val zn <= 0) by lra. destruct (Rle_lt_or_eq_dec _ _ X) as [Y|Y].
      + assert (Z := near_neg Nd ltac:(lra) Y). lra.
      + rewrite Y in Nd. apply near_zero in Nd. lra.
    - assert (C := Bminus_correct _ _ _ _ mode_NE zc zn (proj1 Gc) (proj1 Gn)). fold (f_sub zc zn) in C.
      destruct (Rlt_bool _ _).
      + destruct C as [V _]. assert (M := val_micro). assert (R : rnd (val f_micro) <= rnd (val zc - val zn)) by (apply rnd_le; lra).
        rewrite rnd_val in R. rewrite V in L1. lra.
      + destruct C as [C _]. unfold finite in Fd. rewrite <- is_finite_SF_B2SF, C in Fd. destruct (Bsign zc); discriminate. }
  rewrite NF.
  destruct (@quotient_near (f_sub zc zn) (val zc - val zn) (distance64 (at64 centers c) (at64 centers n)) _ e5 Fd Nd Md Nl ltac:(lra)) as [F N].
  { split; [apply Rle_trans with (bpow radix2 (-400)); [apply bpow_le; lia|auto]|]. apply Rle_trans with (bpow radix2 402); [auto|apply bpow_le; lia]. }
  assert (NN : BinarySingleNaN.is_nan (f_div (f_sub zc zn) (distance64 (at64 centers c) (at64 centers n))) = false) by (apply fin_ok, F).
  rewrite NN. split; [exact F|]. exact N.
Qed.

(** C138: rgrd of packagedata is the drop divided by 1.5 times the distance (drops between 0 and 1e-6 count as 0) *)
Theorem C138_gradient centers dem c n zc zn : apart (at64 centers c) (at64 centers n) ->
  nth_error dem c = Some (Some zc) -> nth_error dem n = Some (Some zn) -> good_level zc -> good_level zn -> differ zc zn ->
  (val zc <= val zn \/ / 10 ^ 6 <= val zc - val zn) ->
  let s := (val zc - val zn) / (1.5 * distance (real_point (at64 centers c)) (real_point (at64 centers n))) in
  finite (rgrd64 centers dem c n) /\ Rabs (val (rgrd64 centers dem c n) - s) <= 2 / 10 ^ 15 * Rabs s.
Proof.
  intros A Ec En Gc Gn D CS s. destruct (slope_near A Ec En Gc Gn D CS) as [F N]. destruct errors_small as (_ & _ & E5). assert (U := u_tiny).
  destruct (e7_mono (e := e5) ltac:(lra)) as [P7 E7]. specialize (E7 ltac:(lra)).
  destruct (distance_near A) as (_ & _ & DL & DH). set (dd := distance (real_point (at64 centers c)) (real_point (at64 centers n))) in *.
  assert (P := bpow_gt_0 radix2 (-400)). set (S := slope64 centers dem c n) in *.
  assert (ES : (val zc - val zn) / dd = 1.5 * s) by (unfold s; fold dd; field; lra). rewrite ES in N.
  assert (M : mid (val S / val f_1_5)).
  { rewrite val_1_5. destruct D as [E|L].
    - left. assert (Z : 1.5 * s = 0) by (rewrite <- ES, E; unfold Rdiv; rewrite (Rminus_diag_eq (val zn) (val zn) eq_refl); ring).
      rewrite Z in N. apply near_zero in N. rewrite N. lra.
    - right. assert (SZ := near_size N ltac:(lra)). rewrite <- ES in SZ. unfold Rdiv in SZ. rewrite Rabs_mult, Rabs_inv, (Rabs_pos_eq dd) in SZ by lra.
      assert (T : Rabs (val zc - val zn) <= bpow radix2 401).
      { change 401%Z with (400 + 1)%Z. rewrite bpow_twice. unfold Rminus. eapply Rle_trans; [apply Rabs_triang|]. rewrite Rabs_Ropp. destruct Gc, Gn. lra. }
      assert (IL : bpow radix2 (-402) <= / dd).
      { replace (bpow radix2 (-402)) with (/ bpow radix2 402) by (rewrite <- bpow_opp; reflexivity). apply Rinv_le; [lra|auto]. }
      assert (IH : / dd <= bpow radix2 400).
      { replace (bpow radix2 400) with (/ bpow radix2 (-400)) by (rewrite <- bpow_opp; reflexivity). now apply Rinv_le. }
      assert (LO : bpow radix2 (-400) * bpow radix2 (-402) <= Rabs (val zc - val zn) * / dd) by (apply Rmult_le_compat; auto using bpow_ge_0).
      assert (Q0 := bpow_gt_0 radix2 (-402)).
      assert (HI : Rabs (val zc - val zn) * / dd <= bpow radix2 401 * bpow radix2 400) by (apply Rmult_le_compat; auto using Rabs_pos; lra).
      rewrite <- bpow_plus in LO, HI.
      unfold Rdiv. rewrite Rabs_mult, (Rabs_pos_eq (/ 1.5)) by lra.
      assert (B1 : bpow radix2 (-1000) <= bpow radix2 (-804)) by (apply bpow_le; lia).
      assert (B2 : bpow radix2 (-804 + 1 + 1) = bpow radix2 (-802)) by reflexivity. rewrite !bpow_twice in B2.
      assert (B3 : bpow radix2 (801 + 1 + 1) <= bpow radix2 1000) by (apply bpow_le; lia). rewrite !bpow_twice in B3.
      change (-400 + -402)%Z with (-802)%Z in LO. change (401 + 400)%Z with 801%Z in HI. assert (Q1 := bpow_gt_0 radix2 801). assert (Q2 := bpow_gt_0 radix2 (-804)). lra. }
  destruct (div_near F (y := f_1_5) ltac:(rewrite val_1_5; lra) M) as [Fr Nr]. fold (rgrd64 centers dem c n) in Fr, Nr. split; [exact Fr|].
  assert (N1 : near (e7 e5) (val S / val f_1_5) s).
  { destruct N as [t [T E]]. exists t. split; [auto|]. rewrite E, val_1_5. lra. }
  assert (N2 := near_trans Nr N1). apply (near_mono (e' := 2 / 10 ^ 15)) in N2; [|nra]. now apply near_le in N2.
Qed.
Theorem C138_small_drops_are_flat centers dem c n zc zn : apart (at64 centers c) (at64 centers n) ->
  nth_error dem c = Some (Some zc) -> nth_error dem n = Some (Some zn) -> good_level zc -> good_level zn -> differ zc zn ->
  0 < val zc - val zn <= 0.99 / 10 ^ 6 -> val (rgrd64 centers dem c n) = 0.
Proof.
  intros A Ec En Gc Gn D CS. destruct (drop_near Gc Gn D) as (Fd & Nd & Md). assert (U := u_tiny). assert (VM := val_micro).
  unfold rgrd64, slope64. rewrite (nth_error_nth _ _ _ Ec), (nth_error_nth _ _ _ En).
  assert (L1 : f_lt (f_sub zc zn) f_micro = true).
  { apply lt_val; [exact Fd|reflexivity|]. destruct Nd as [t [T E]]. apply Rabs_le_inv in T. rewrite E. nra. }
  assert (L2 : f_lt f_zero (f_sub zc zn) = true).
  { apply lt_val; [reflexivity|exact Fd|]. change (val f_zero) with 0. eapply near_pos; [exact Nd|lra|lra]. }
  rewrite L1, L2. cbn [andb].
  assert (Z : forall y : b64, 0 < val y -> val (f_div f_zero y) = 0 /\ finite (f_div f_zero y)).
  { intros y P. destruct (@div_near f_zero y) as [F N]; [reflexivity|lra|left; change (val f_zero) with 0; field; lra|].
    split; [|exact F]. replace (val f_zero / val y) with 0 in N by (change (val f_zero) with 0; field; lra). now apply near_zero in N. }
  destruct (C138_distance A) as (_ & P & _). destruct (Z _ P) as [Z1 Z2].
  assert (NN := fin_ok Z2). unfold not_nan in NN. rewrite NN.
  destruct (@div_near (f_div f_zero (distance64 (at64 centers c) (at64 centers n))) f_1_5 Z2) as [_ N].
  - rewrite val_1_5. lra.
  - left. rewrite Z1, val_1_5. lra.
  - rewrite Z1, val_1_5 in N. replace (0 / 1.5) with 0 in N by lra. now apply near_zero in N.
Qed.

(** ** C79 for doubles: whatever the coordinates and elevations, the slopes of the builder object are within
    the limits (0.0001 as a double, and 1) or NaN *)
Theorem C79_binary64 centers top c n s : builder_slope64 centers top c n = Some s -> not_nan s -> finite s /\ val f_0001 <= val s <= 1.
Proof.
  unfold builder_slope64. intros H NS. destruct (if f_eq _ _ then _ else _) as [x|]; [|discriminate]. injection H as <-.
  assert (F1 : finite f_one) by reflexivity. assert (F2 : finite f_0001) by reflexivity. assert (V := val_0001).
  destruct (f_lt f_one x) eqn:L1; [split; [exact F1|rewrite val_one; lra]|].
  destruct (f_lt x f_0001) eqn:L2; [split; [exact F2|lra]|].
  rewrite lt_rank in L1, L2 by (auto; reflexivity). apply Z.ltb_ge in L1, L2.
  assert (F : finite x).
  { destruct x as [b|b| |b m e B]; try reflexivity; [|discriminate]. exfalso. assert (B1 := rank_bound F1). assert (B2 := rank_bound F2).
    destruct b; cbn [rank] in L1, L2; lia. }
  split; [exact F|]. rewrite <- val_one.
  split; apply Rnot_lt_le; intros X; apply val_rank_lt in X; auto; lia.
Qed.

(** coordinates and levels are looked up by cell *)
Lemma at64_cell (l : list point64) c p : nth_error l c = Some p -> at64 l c = p.
Proof. intros H. unfold at64. now apply nth_error_nth. Qed.

(** the real slope brought between the limits 0.0001 and 1 *)
Definition limited (s : R) : R := Rmin 1 (Rmax 0.0001 s).
Lemma val_0001_near : Rabs (val f_0001 - 0.0001) <= / 10 ^ 20.
Proof. unfold f_0001. cbn [B2R]. unfold F2R. simpl. apply Rabs_le. lra. Qed.
Lemma limited_near v d lo e : near e v d -> 0 < e <= / 10 ^ 15 -> Rabs (lo - 0.0001) <= / 10 ^ 20 ->
  Rabs ((if Rlt_dec 1 v then 1 else if Rlt_dec v lo then lo else v) - limited d) <= 2 / 10 ^ 15 * limited d.
Proof.
  intros [t [T E]] B L. apply Rabs_le_inv in T, L. unfold limited, Rmin, Rmax.
  destruct (Rlt_dec 1 v), (Rlt_dec v lo), (Rle_dec 0.0001 d); try destruct (Rle_dec 1 d); try destruct (Rle_dec 1 0.0001); apply Rabs_le; try lra; split; nra.
Qed.

(** C79: the slope of the builder object is the real slope between the centres, within the limits, up to a relative 2e-15 *)
Theorem C79_binary64_accurate centers top c n zc zn : apart (at64 centers c) (at64 centers n) ->
  nth_error top c = Some (Some zc) -> nth_error top n = Some (Some zn) -> good_level zc -> good_level zn -> differ zc zn ->
  let s := limited ((val zc - val zn) / distance (real_point (at64 centers c)) (real_point (at64 centers n))) in
  exists x, builder_slope64 centers top c n = Some x /\ finite x /\ Rabs (val x - s) <= 2 / 10 ^ 15 * s.
Proof.
  intros A Ec En Gc Gn D s. unfold builder_slope64, level64. rewrite (nth_error_nth _ _ _ Ec), (nth_error_nth _ _ _ En).
  destruct (drop_near Gc Gn D) as (Fd & Nd & Md). destruct (distance_near A) as (Fl & Nl & DL & DH). destruct errors_small as (_ & _ & E5).
  destruct (@quotient_near (f_sub zc zn) (val zc - val zn) (distance64 (at64 centers c) (at64 centers n)) _ e5 Fd Nd Md Nl ltac:(lra)) as [F N].
  { split; [apply Rle_trans with (bpow radix2 (-400)); [apply bpow_le; lia|auto]|]. apply Rle_trans with (bpow radix2 402); [auto|apply bpow_le; lia]. }
  fold (e7 e5) in N. destruct (e7_mono (e := e5) ltac:(lra)) as [P7 E7]. specialize (E7 ltac:(lra)).
  assert (NZ : f_eq (distance64 (at64 centers c) (at64 centers n)) f_zero = false).
  { destruct (C138_distance A) as (_ & P & _). destruct (f_eq _ _) eqn:Q; [|reflexivity]. exfalso.
    rewrite eq_rank in Q by (auto using fin_ok; reflexivity). apply Z.eqb_eq in Q. apply val_rank_eq in Q; [|auto|reflexivity].
    change (val f_zero) with 0 in Q. lra. }
  rewrite NZ. set (v := f_div _ _) in *. eexists. split; [reflexivity|].
  assert (F1 : finite f_one) by reflexivity. assert (F2 : finite f_0001) by reflexivity.
  assert (B7 : 0 < e7 e5 <= / 10 ^ 15) by lra. assert (K := limited_near N B7 val_0001_near). fold s in K.
  destruct (f_lt f_one v) eqn:L1.
  - apply lt_val in L1; auto. rewrite val_one in *. destruct (Rlt_dec 1 (val v)); [|contradiction]. split; [auto|exact K].
  - assert (M1 : ~ 1 < val v) by (rewrite <- val_one; intros X; apply (proj2 (lt_val F1 F)) in X; congruence).
    destruct (Rlt_dec 1 (val v)); [contradiction|]. destruct (f_lt v f_0001) eqn:L2.
    + apply lt_val in L2; auto. destruct (Rlt_dec (val v) (val f_0001)); [|contradiction]. auto.
    + assert (M2 : ~ val v < val f_0001) by (intros X; apply (proj2 (lt_val F F2)) in X; congruence).
      destruct (Rlt_dec (val v) (val f_0001)); [contradiction|]. auto.
Qed.

(** C79: a reach that drains to its own cell gets the default slope 0.001 *)
Theorem C79_binary64_default centers top c : finite (fst (at64 centers c)) -> finite (snd (at64 centers c)) ->
  exists x, builder_slope64 centers top c c = Some x /\ finite x /\ Rabs (val x - 0.001) <= / 10 ^ 18.
Proof.
  intros Fx Fy. exists f_001. split; [|split; [reflexivity|unfold f_001; cbn [B2R]; unfold F2R; simpl; apply Rabs_le; lra]].
  assert (S : forall x : b64, finite x -> exists s, f_sub x x = B754_zero s).
  { intros x F. assert (C := Bminus_correct _ _ _ _ mode_NE x x F F). fold (f_sub x x) in C. rewrite Rminus_eq_0 in C.
    fold (rnd 0) in C. rewrite rnd_zero, Rabs_R0, Rlt_bool_true in C by apply bpow_gt_0. destruct C as (V & F' & _).
    destruct (f_sub x x) as [s|s| |s m e B]; [eauto|discriminate|discriminate|].
    exfalso. assert (X : B2R (@B754_finite 53 1024 s m e B) <> 0); [|now apply X]. cbn [B2R]. intros X. apply eq_0_F2R in X. destruct s; discriminate. }
  destruct (S _ Fx) as [s1 E1], (S _ Fy) as [s2 E2]. unfold builder_slope64, distance64. rewrite E1, E2.
  destruct s1, s2; reflexivity.
Qed.
