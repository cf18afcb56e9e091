(** The theorems C141 and C142 at work: a 3 x 3 map with a pit in the middle.  The pit is filled in double
    precision; the filled map drains to the corner cell 8. *)
From Coq Require Import ZArith String Reals Lra Lia Relations.
From Flocq Require Import Core.Core IEEE754.BinarySingleNaN.
From Verif Require Import MGeo Py Spec Grids MFlow MStream MSobj MDir MFill LGraph LDir LDir2 LDir3 LDir4 LFloat PropsFill PropsFloat PropsAccF PropsCascF PropsDir
  PropsObj PropsSobj PropsApi PropsWorld3 PropsWorldF PropsCircle PropsCircleF PropsWater PropsRain PropsRainF PropsWaterF PropsPipe MNumF PropsNumF PropsNumF2 PropsRainF2.
Set Implicit Arguments.
Unset Strict Implicit.
Local Open Scope nat_scope.
Local Open Scope list_scope.
Local Notation length := List.length.
Import PropsFloat.ExF PropsRainF.ExRain.

Definition gridnb : list (list nat) := queen 3 3.
(** centres (column, row), 1 apart *)
Definition centers9 : list point64 := map (fun c => (dbl (Z.of_nat (c mod 3)) 0, dbl (Z.of_nat (c / 3)) 0)) (seq 0 9).
Definition dem9 : list b64 := z [9; 8; 7; 6; 0; 4; 5; 3; 1]%Z.
(** the increment 1/2 *)
Definition half : b64 := dbl 1 (-1).
(** the filled elevations in reals *)
Definition flood9 : list R := [9; 8; 7; 6; 1.5; 4; 5; 3; 1]%R.

Lemma val_of (x : b64) m e : B2SF x = SpecFloat.S754_finite false m e -> val x = F2R (Float radix2 (Zpos m) e).
Proof. intros H. now rewrite <- SF2R_B2SF, H. Qed.
Ltac vof m e := erewrite (@val_of _ m e) by (vm_compute; reflexivity); unfold F2R; simpl; lra.
Lemma v0 : val (dbl 0 0) = 0%R. Proof. reflexivity. Qed.
Lemma v1 : val (dbl 1 0) = 1%R. Proof. vof 4503599627370496%positive (-52)%Z. Qed.
Lemma v2 : val (dbl 2 0) = 2%R. Proof. vof 4503599627370496%positive (-51)%Z. Qed.
Lemma v3 : val (dbl 3 0) = 3%R. Proof. vof 6755399441055744%positive (-51)%Z. Qed.
Lemma v4 : val (dbl 4 0) = 4%R. Proof. vof 4503599627370496%positive (-50)%Z. Qed.
Lemma v5 : val (dbl 5 0) = 5%R. Proof. vof 5629499534213120%positive (-50)%Z. Qed.
Lemma v6 : val (dbl 6 0) = 6%R. Proof. vof 6755399441055744%positive (-50)%Z. Qed.
Lemma v7 : val (dbl 7 0) = 7%R. Proof. vof 7881299347898368%positive (-50)%Z. Qed.
Lemma v8 : val (dbl 8 0) = 8%R. Proof. vof 4503599627370496%positive (-49)%Z. Qed.
Lemma v9 : val (dbl 9 0) = 9%R. Proof. vof 5066549580791808%positive (-49)%Z. Qed.
Lemma v15 : val (dbl 3 (-1)) = 1.5%R. Proof. vof 6755399441055744%positive (-52)%Z. Qed.
Lemma vhalf : val half = 0.5%R. Proof. unfold half. vof 4503599627370496%positive (-53)%Z. Qed.

(** the neighbours, as a list of pairs *)
Definition pairs : list (nat * nat) := flat_map (fun c => map (fun n => (c, n)) (nth c gridnb [])) (seq 0 9).
Lemma adj_pairs c n : adjacent gridnb c n <-> In (c, n) pairs.
Proof.
  rewrite adj_nth. unfold pairs. rewrite in_flat_map. split.
  - intros H. assert (L : c < 9). { destruct (Nat.lt_ge_cases c 9); auto. rewrite nth_overflow in H by exact H0. destruct H. }
    exists c. split; [apply in_seq; lia|]. now apply in_map.
  - intros (a & _ & H). apply in_map_iff in H. destruct H as (m & E & H). now injection E as -> ->.
Qed.
Lemma each_pair (P : nat -> nat -> bool) : forallb (fun p => P (fst p) (snd p)) pairs = true -> forall c n, adjacent gridnb c n -> P c n = true.
Proof. intros H c n A. apply adj_pairs in A. exact (proj1 (forallb_forall _ _) H _ A). Qed.

(** coordinates *)
Definition col (c : nat) : Z := Z.of_nat (c mod 3).
Definition row (c : nat) : Z := Z.of_nat (c / 3).
Lemma small_val k : (0 <= k <= 2)%Z -> val (dbl k 0) = IZR k /\ finite (dbl k 0).
Proof. intros H. assert (X : k = 0%Z \/ k = 1%Z \/ k = 2%Z) by lia. destruct X as [->|[->| ->]]; (split; [|reflexivity]); [exact v0|exact v1|exact v2]. Qed.
Lemma col_range c : c < 9 -> (0 <= col c <= 2)%Z /\ (0 <= row c <= 2)%Z.
Proof. intros L. unfold col, row. do 9 (destruct c as [|c]; [cbn; lia|]). lia. Qed.
Lemma center c : c < 9 -> at64 centers9 c = (dbl (col c) 0, dbl (row c) 0).
Proof. intros L. apply at64_cell. do 9 (destruct c as [|c]; [reflexivity|]). lia. Qed.
Lemma adj_lt c n : adjacent gridnb c n -> c < 9 /\ n < 9.
Proof.
  intros A. assert (X := @each_pair (fun c n => (c <? 9) && (n <? 9)) ltac:(vm_compute; reflexivity) c n A). apply andb_true_iff in X.
  destruct X as [X Y]. apply Nat.ltb_lt in X, Y. auto.
Qed.
Lemma adj_sq c n : adjacent gridnb c n -> (1 <= (col c - col n) ^ 2 + (row c - row n) ^ 2 <= 2)%Z.
Proof.
  intros A. assert (X := @each_pair (fun c n => (1 <=? (col c - col n) ^ 2 + (row c - row n) ^ 2) && ((col c - col n) ^ 2 + (row c - row n) ^ 2 <=? 2))%Z
    ltac:(vm_compute; reflexivity) c n A). apply andb_true_iff in X. destruct X as [X Y]. apply Z.leb_le in X, Y. lia.
Qed.
Lemma bigger x k : (Rabs x <= 16)%R -> (4 <= k)%Z -> (Rabs x <= bpow radix2 k)%R.
Proof. intros H K. apply Rle_trans with (bpow radix2 4); [simpl; lra|now apply bpow_le]. Qed.
Lemma one400 : (bpow radix2 (-400) <= 1)%R.
Proof. change 1%R with (bpow radix2 0). apply bpow_le. lia. Qed.
Lemma int_apart a b : IZR a = IZR b \/ (bpow radix2 (-400) <= Rabs (IZR a - IZR b))%R.
Proof.
  destruct (Z.eq_dec a b) as [->|N]; [now left|right]. apply Rle_trans with 1%R; [exact one400|]. rewrite <- minus_IZR, <- abs_IZR. apply IZR_le. lia.
Qed.
Lemma real9 c : c < 9 -> real_point (at64 centers9 c) = (IZR (col c), IZR (row c)).
Proof.
  intros L. rewrite (center L). unfold real_point. cbn [fst snd]. destruct (col_range L) as [C R]. now rewrite (proj1 (small_val C)), (proj1 (small_val R)).
Qed.
Lemma dist9 c n : adjacent gridnb c n ->
  distance (real_point (at64 centers9 c)) (real_point (at64 centers9 n)) = sqrt (IZR ((col c - col n) ^ 2 + (row c - row n) ^ 2)).
Proof.
  intros A. destruct (adj_lt A) as [Lc Ln]. rewrite (real9 Lc), (real9 Ln). unfold distance. cbn [fst snd]. f_equal.
  rewrite plus_IZR, !Z.pow_2_r, !mult_IZR, !minus_IZR. ring.
Qed.
Lemma dist9_bounds c n : adjacent gridnb c n -> (1 <= distance (real_point (at64 centers9 c)) (real_point (at64 centers9 n)) <= 2)%R.
Proof.
  intros A. rewrite (dist9 A). destruct (adj_sq A) as [L U]. apply IZR_le in L, U. split.
  - rewrite <- sqrt_1. now apply sqrt_le_1_alt.
  - replace 2%R with (sqrt (2 * 2)) by (apply sqrt_square; lra). apply sqrt_le_1_alt. lra.
Qed.
Lemma good9 c : c < 9 -> good_point (at64 centers9 c).
Proof.
  intros L. rewrite (center L). destruct (col_range L) as [C R]. destruct (small_val C) as [VC FC], (small_val R) as [VR FR].
  split; [exact FC|]. split; [exact FR|]. cbn [fst snd]. rewrite VC, VR. destruct C as [C1 C2], R as [R1 R2]. apply IZR_le in C1, C2, R1, R2.
  split; (apply bigger; [rewrite Rabs_pos_eq by lra; lra|lia]).
Qed.
Lemma apart9 c n : adjacent gridnb c n -> apart (at64 centers9 c) (at64 centers9 n).
Proof.
  intros A. destruct (adj_lt A) as [Lc Ln]. split; [now apply good9|]. split; [now apply good9|].
  destruct (col_range Lc) as [C1 R1], (col_range Ln) as [C2 R2].
  split; [|split].
  - rewrite (center Lc), (center Ln). unfold differ. cbn [fst snd]. rewrite (proj1 (small_val C1)), (proj1 (small_val C2)). apply int_apart.
  - rewrite (center Lc), (center Ln). unfold differ. cbn [fst snd]. rewrite (proj1 (small_val R1)), (proj1 (small_val R2)). apply int_apart.
  - intros X. assert (D := dist9_bounds A). rewrite X in D. unfold distance in D.
    match type of D with context [sqrt ?e] => replace e with 0%R in D by ring end. rewrite sqrt_0 in D. lra.
Qed.

Example map9 : map_ok centers9 gridnb 9 [].
Proof.
  constructor.
  - reflexivity.
  - intros c n _ A. exact (proj2 (adj_lt A)).
  - apply rows_nodup. vm_compute. reflexivity.
  - intros l I. assert (X : forallb (fun l => length l <=? 99) gridnb = true) by (vm_compute; reflexivity).
    apply Nat.leb_le. exact (proj1 (forallb_forall _ _) X l I).
  - split; [lia|reflexivity].
  - intros t [].
  - exact apart9.
  - intros c n A. destruct (dist9_bounds A) as [L U]. change (bpow radix2 (-10)) with (/ 1024)%R.
    change (bpow radix2 59) with 576460752303423488%R. lra.
  - intros c L. exists (hd 0 (nth c gridnb [])). apply adj_nth. do 9 (destruct c as [|c]; [vm_compute; auto|]). lia.
Qed.

(** filling *)
Lemma boundary9 c : boundary_cell (quad_iverts 3 3) c <-> c < 9 /\ c <> 4.
Proof.
  destruct (@C13_edge_cells (quad_iverts 3 3)) as (l & E & _ & H).
  { apply Forall_forall. intros p Hp. assert (X : forallb (fun p => negb (match p with [] => true | _ => false end)) (quad_iverts 3 3) = true) by (vm_compute; reflexivity).
    assert (Y := proj1 (forallb_forall _ _) X p Hp). now destruct p. }
  assert (X : identify_edge_nodes (quad_iverts 3 3) = Ok [0; 1; 2; 3; 5; 6; 7; 8]) by (vm_compute; reflexivity).
  rewrite X in E. injection E as <-. rewrite <- H. cbn [In]. lia.
Qed.
Lemma grid9 : grid_of (quad_iverts 3 3) gridnb (length dem9).
Proof. split; [reflexivity|]. split; [|vm_compute; lia]. repeat constructor; discriminate. Qed.
Lemma sym9 : symmetric_grid gridnb.
Proof.
  intros c n A. assert (X := @each_pair (fun c n => memn c (nth n gridnb [])) ltac:(vm_compute; reflexivity) c n A). cbn beta in X.
  apply memn_spec in X. now apply adj_nth.
Qed.
Lemma reach9 n : n < length dem9 -> reachable (link gridnb (length dem9)) (boundary_cell (quad_iverts 3 3)) n.
Proof.
  intros L. change (length dem9) with 9 in *. destruct (Nat.eq_dec n 4) as [->|N].
  - exists 0, [4; 0]. split; [apply boundary9; lia|]. apply gp_step with 0; [constructor|]. split; [|lia]. apply adj_nth. vm_compute. auto.
  - exists n, [n]. split; [apply boundary9; lia|constructor].
Qed.

Definition same (x y : b64) : bool := f_eq x y && is_finite x && is_finite y.
Lemma same_val x y : same x y = true -> finite x /\ val x = val y.
Proof.
  unfold same. rewrite !andb_true_iff. intros [[E Fx] Fy]. split; [exact Fx|]. rewrite eq_rank in E by (apply fin_ok; assumption).
  apply Z.eqb_eq in E. now apply val_rank_eq.
Qed.
Definition expected9 : list b64 := [dbl 9 0; dbl 8 0; dbl 7 0; dbl 6 0; dbl 3 (-1); dbl 4 0; dbl 5 0; dbl 3 0; dbl 1 0].
Fixpoint all_same (l l' : list b64) : bool :=
  match l, l' with [], [] => true | x :: l, y :: l' => same x y && all_same l l' | _, _ => false end.
Lemma fill9 : match fill_sinks Felev 100 (quad_iverts 3 3) gridnb dem9 half None "priority" with Ok out => all_same out expected9 | Err _ => false end = true.
Proof. vm_compute. reflexivity. Qed.
Lemma expected_vals : map val expected9 = flood9.
Proof. unfold expected9, flood9. cbn [map]. now rewrite v9, v8, v7, v6, v15, v4, v5, v3, v1. Qed.
Lemma all_same_spec : forall l l', all_same l l' = true -> Forall (fun x => finite x) l /\ map val l = map val l'.
Proof.
  induction l as [|x l IH]; intros [|y l'] H; try discriminate; [split; constructor|]. cbn [all_same] in H. apply andb_true_iff in H. destruct H as [S H].
  destruct (same_val S) as [F V]. destruct (IH _ H) as [G M]. split; [now constructor|]. cbn [map]. now rewrite V, M.
Qed.

Lemma out9 : forall out, fill_sinks Felev 100 (quad_iverts 3 3) gridnb dem9 half None "priority" = Ok out ->
  Forall (fun x => finite x) out /\ map val out = flood9.
Proof.
  intros out OUT. assert (F := fill9). rewrite OUT in F. destruct (all_same_spec F) as [G M]. split; [exact G|]. rewrite M. exact expected_vals.
Qed.
Section Filled.
  Variable out : list b64.
  Hypothesis FIN : Forall (fun x => finite x) out.
  Hypothesis OUT : map val out = flood9.
  Lemma level9 c zc : lies_at (map Some out) c zc <-> nth_error flood9 c = Some zc.
  Proof using OUT.
    rewrite <- OUT. unfold lies_at. rewrite !nth_error_map. destruct (nth_error out c) as [b|] eqn:E; cbn [option_map]; split.
    - intros (x & H & <-). apply some_inj in H. subst. change (option_map val (nth_error out c) = Some (val b)). rewrite E. reflexivity.
    - intros H. exists b. split; [reflexivity|]. change (option_map val (nth_error out c) = Some zc) in H. rewrite E in H. cbn [option_map] in H. congruence.
    - intros (x & H & _). discriminate H.
    - intros H. change (option_map val (nth_error out c) = Some zc) in H. rewrite E in H. discriminate H.
  Qed.
  Lemma lev_in c (z : R) : nth_error flood9 c = Some z -> In z flood9.
  Proof. apply nth_error_In. Qed.
  Lemma level_cases c zc : lies_at (map Some out) c zc ->
    (c = 0 /\ zc = 9%R) \/ (c = 1 /\ zc = 8%R) \/ (c = 2 /\ zc = 7%R) \/ (c = 3 /\ zc = 6%R) \/ (c = 4 /\ zc = 1.5%R) \/
    (c = 5 /\ zc = 4%R) \/ (c = 6 /\ zc = 5%R) \/ (c = 7 /\ zc = 3%R) \/ (c = 8 /\ zc = 1%R).
  Proof using OUT.
    intros H. apply level9 in H. do 9 (destruct c as [|c]; [cbn in H; injection H as <-; tauto|]). destruct c; discriminate.
  Qed.
  Lemma level_of x : In x out -> finite x /\ exists c, lies_at (map Some out) c (val x).
  Proof using FIN.
    intros H. split; [exact (proj1 (Forall_forall _ _) FIN x H)|]. apply In_nth_error in H. destruct H as [c H]. exists c. exists x.
    rewrite nth_error_map, H. auto.
  Qed.
  Lemma descent9 x c d : descent centers9 (map Some out) x c d -> adjacent gridnb x c -> exists zx zc D, lies_at (map Some out) x zx /\ lies_at (map Some out) c zc /\
    (1 <= D <= 2)%R /\ (d * D = zx - zc)%R /\ ((col x = col c \/ row x = row c) -> D = 1%R).
  Proof using OUT.
    intros (zx & zc & Hx & Hc & ->) A. exists (val zx), (val zc), (distance (real_point (at64 centers9 x)) (real_point (at64 centers9 c))).
    split; [exists zx; auto|]. split; [exists zc; auto|]. assert (B := dist9_bounds A). split; [exact B|]. split; [field; lra|]. intros S.
    rewrite (dist9 A). destruct (adj_sq A) as [L U]. assert (E : ((col x - col c) ^ 2 + (row x - row c) ^ 2 = 1)%Z); [|rewrite E; apply sqrt_1].
    destruct S as [S|S]; rewrite S in L, U |- *; rewrite Z.sub_diag in L, U |- *; [set (r := (row x - row c)%Z) in *|set (r := (col x - col c)%Z) in *]; assert (R9 : (-1 <= r <= 1)%Z) by nia; assert (C9 : (r = -1 \/ r = 0 \/ r = 1)%Z) by lia; destruct C9 as [C9|[C9|C9]]; rewrite C9 in *; try reflexivity; cbn in L, U; lia.
  Qed.

  Lemma filled9 : filled_ok centers9 (quad_iverts 3 3) gridnb out [] (fun c => c = 8).
  Proof using FIN OUT.
    constructor.
    - intros x H. destruct (level_of H) as [F [c L]]. split; [exact F|]. apply level_cases in L. clear OUT F H.
      rewrite Rabs_pos_eq; decompose [or and] L; lra.
    - intros x y Hx Hy. destruct (level_of Hx) as [_ [c L]], (level_of Hy) as [_ [n L']]. apply level9 in L, L'.
      assert (H4 := one400). assert (H5 : (bpow radix2 (-400) <= 0.5)%R) by (change 0.5%R with (5 / 10)%R; apply Rle_trans with (bpow radix2 (-1)); [apply bpow_le; lia|simpl; lra]).
      assert (LX : In (val x) flood9) by (apply lev_in with c; exact L). assert (LY : In (val y) flood9) by (apply lev_in with n; exact L').
      clear L L' OUT FIN. unfold flood9 in LX, LY. cbn [In] in LX, LY.
      decompose [or] LX; try contradiction; decompose [or] LY; try contradiction;
        match goal with A : _ = val x, B : _ = val y |- _ => rewrite <- A, <- B end;
        ((left; lra) || (right; unfold Rabs; destruct Rcase_abs; lra)).
    - intros c. split.
      + intros ->. left. exists 1%R. split; [now apply level9|]. intros c' z' H. apply level_cases in H. lra.
      + intros [(zz & H & L)|[]]. assert (X := L 8 1%R ltac:(now apply level9)). apply level_cases in H. destruct (Nat.eq_dec c 8) as [E|NE]; [exact E|]. exfalso. clear FIN OUT L; decompose [or and] H; first [contradiction | subst c; lra | lra].
    - intros c n -> -> A. assert (X := @each_pair (fun c n => negb (c =? n)) ltac:(vm_compute; reflexivity) 8 8 A). discriminate.
    - intros c zc B NB H. apply boundary9 in B. exists (if c =? 5 then 8 else if c =? 7 then 8 else 4), (if c =? 5 then 1%R else if c =? 7 then 1%R else 1.5%R).
      assert (X := level_cases H). rewrite level9, adj_nth.
      do 9 (destruct c as [|c]; [try (exfalso; lia); cbn [Nat.eqb]; (split; [vm_compute; tauto|]; split; [reflexivity|]; clear OUT FIN H; decompose [or and] X; try discriminate; lra)|]). lia.
    - intros x c n dc dn -> NB NE A1 A2 D1 D2 P1 P2.
      destruct (descent9 D1 A1) as (zx & zc & D & Lx & Lc & BD & E1 & O1). destruct (descent9 D2 A2) as (zx' & zn & D' & Lx' & Ln & BD' & E2 & O2).
      apply level9 in Lc. cbn in Lc. injection Lc as <-. assert (X : zx' = zx) by (apply level9 in Lx, Lx'; congruence). subst zx'.
      assert (XC : x = 4 \/ x = 5 \/ x = 7). { apply sym9 in A1. apply adj_nth in A1. vm_compute in A1. lia. }
      assert (PN : (zn < zx)%R) by nra. apply adj_nth in A2. apply level9 in Lx, Ln. clear FIN OUT D1 D2.
      assert (ND : forall b, (zx - zn <= b)%R -> (dn <= b)%R) by (intros b Hb; nra).
      destruct XC as [->|[->| ->]]; vm_compute in A2; cbn in Lx; injection Lx as <-.
      + exfalso. decompose [or] A2; try contradiction; subst n; cbn in Ln; injection Ln as <-; try lra. now apply NE.
      + assert (ED : D = 1%R) by (apply O1; left; reflexivity). subst D. left. assert (N5 : (dn <= 2.5)%R); [|lra]. apply ND.
        decompose [or] A2; try contradiction; subst n; cbn in Ln; injection Ln as <-; try lra. exfalso; now apply NE.
      + assert (ED : D = 1%R) by (apply O1; right; reflexivity). subst D. left. assert (N5 : (dn <= 1.5)%R); [|lra]. apply ND.
        decompose [or] A2; try contradiction; subst n; cbn in Ln; injection Ln as <-; try lra. exfalso; now apply NE.
    - intros c zc z0 A Hc H0. apply level9 in H0. cbn in H0. injection H0 as <-. apply level_cases in Hc. clear FIN OUT. decompose [or and] Hc; lra.
  Qed.
End Filled.

Lemma steps9 : enough_steps gridnb 1000.
Proof.
  exists 8. split; [|vm_compute; lia]. intros l I. assert (X : forallb (fun l => length l <=? 8) gridnb = true) by (vm_compute; reflexivity).
  apply Nat.leb_le. exact (proj1 (forallb_forall _ _) X l I).
Qed.
(** the chain on this map: every premise of C142 holds *)
Example C142_case : exists out, fill_sinks Felev 100 (quad_iverts 3 3) gridnb dem9 half None "priority" = Ok out /\
  exists fdir nb', run Fops 1000 (dist64 centers9) (map Some out) gridnb thr [] = Ok (fdir, nb').
Proof.
  destruct (@C142_fill_then_drain Z Z.add 0%Z 3%Z thr centers9 (quad_iverts 3 3) gridnb dem9 half 100 [] (repeat 1%Z 9) 1000 1000 2%Z) as (out & E & H).
  - repeat constructor.
  - reflexivity.
  - rewrite vhalf. apply Rle_trans with (bpow radix2 (-1)); [apply bpow_le; lia|simpl; lra].
  - exact grid9.
  - exact sym9.
  - exact reach9.
  - vm_compute. lia.
  - exact map9.
  - exact steps9.
  - reflexivity.
  - vm_compute. lia.
  - vm_compute. lia.
  - exists out. split; [exact E|]. destruct (out9 E) as [O1 O2]. destruct (H _ (filled9 O1 O2)) as (fdir & nb' & facc & strm & casc & R & _). exists fdir, nb'. exact R.
Qed.
