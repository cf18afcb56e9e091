(** C136 for IEEE 754 binary64: the fractions are rounded, so that water routed along the
    many-to-many cascades is conserved up to rounding. *)
From Coq Require Import ZArith Reals Lra Lia Relations.Relation_Operators.
From Flocq Require Import Core.Core IEEE754.BinarySingleNaN.
From Verif Require Import Py Spec Grids MFlow MDir MStream MSobj LGraph LStream LCasc LAcc2 LDir4 PropsAcc PropsAcc2 PropsStream PropsCasc PropsCasc2
  PropsCascF LSum LSumF LFloat PropsFloat PropsAccF PropsWorld3 PropsWorldF PropsDir PropsSobj LCircle PropsCircle PropsCircleF PropsRainF.
Set Implicit Arguments.
Unset Strict Implicit.
Local Open Scope nat_scope.
Local Open Scope list_scope.
Local Notation length := List.length.

(** ** Specification (amounts of water are real numbers, fractions are doubles) *)
Notation record64 := (Z * Z * option b64 * Z)%type.
(** the fraction of a record (0 for NaN) *)
Definition share (f : option b64) : R := match f with Some x => val x | None => 0%R end.
(** what arrives at cell [c] from other cells if every cell [u] holds [q u] and passes its
    fractions on *)
Definition arriving64 (out : list record64) (q : nat -> R) (c : nat) : R :=
  rsum (map (fun e : record64 => let '(u, _, f, _) := e in (share f * q (Z.to_nat (u - 1)))%R)
            (filter (fun e : record64 => let '(u, d, _, _) := e in (d =? Z.of_nat c + 1)%Z && negb (u =? d)%Z) out)).
(** [q]: every cell holds its rain and what arrives *)
Definition routed64 (out : list record64) (size : nat) (rain q : nat -> R) : Prop :=
  forall c, c < size -> q c = (rain c + arriving64 out q c)%R.
(** a record leads from [c] to another cell *)
Definition passes_on64 (out : list record64) (c : nat) : bool :=
  existsb (fun e : record64 => let '(u, d, _, _) := e in (u =? Z.of_nat c + 1)%Z && negb (u =? d)%Z) out.
Definition amount (cells : list nat) (q : nat -> R) : R := rsum (map q cells).

(** ** Sums *)
Lemma rsum_cons x l : rsum (x :: l) = (x + rsum l)%R.
Proof. reflexivity. Qed.
Lemma rsum_ext {A} (f g : A -> R) l : (forall x, In x l -> f x = g x) -> rsum (map f l) = rsum (map g l).
Proof. intros H. f_equal. now apply map_ext_in. Qed.
Lemma rsum_plus {A} (f g : A -> R) l : rsum (map (fun x => f x + g x)%R l) = (rsum (map f l) + rsum (map g l))%R.
Proof. induction l as [|x l IH]; cbn [map]; rewrite ?rsum_cons, ?IH; [unfold rsum; cbn|]; ring. Qed.
Lemma rsum_zero {A} (f : A -> R) l : (forall x, In x l -> f x = 0%R) -> rsum (map f l) = 0%R.
Proof.
  induction l as [|x l IH]; intros H; [reflexivity|]. cbn [map]. rewrite rsum_cons, (H x (or_introl eq_refl)), IH; [ring|].
  intros; apply H; now right.
Qed.
Lemma rsum_scale {A} (f : A -> R) a l : rsum (map (fun x => f x * a)%R l) = (rsum (map f l) * a)%R.
Proof. induction l as [|x l IH]; cbn [map]; rewrite ?rsum_cons, ?IH; [unfold rsum; cbn|]; ring. Qed.
Lemma rsum_mono {A} (f g : A -> R) l : (forall x, In x l -> (f x <= g x)%R) -> (rsum (map f l) <= rsum (map g l))%R.
Proof.
  induction l as [|x l IH]; intros H; [cbn; lra|]. cbn [map]. rewrite !rsum_cons.
  assert (X := H x (or_introl eq_refl)). assert (Y := IH (fun y Hy => H y (or_intror Hy))). lra.
Qed.
Lemma rsum_at (w : R) k : forall n a, a <= k < a + n -> rsum (map (fun c => if Nat.eqb k c then w else 0%R) (seq a n)) = w.
Proof.
  induction n as [|n IH]; intros a H; [lia|]. cbn [seq map]. rewrite rsum_cons. destruct (Nat.eqb_spec k a) as [->|NE].
  - rewrite rsum_zero; [ring|]. intros x Hx. apply in_seq in Hx. destruct (Nat.eqb_spec a x); [lia|reflexivity].
  - rewrite IH by lia. ring.
Qed.
Lemma rsum_keys {A} (key : A -> nat) (p : A -> bool) (w : A -> R) n out : (forall e, In e out -> p e = true -> key e < n) ->
  rsum (map (fun c => rsum (map w (filter (fun e => Nat.eqb (key e) c && p e) out))) (seq 0 n)) = rsum (map w (filter p out)).
Proof.
  induction out as [|e out IH]; intros H.
  - cbn [filter map]. rewrite rsum_zero; reflexivity.
  - rewrite (rsum_ext (g := fun c => ((if Nat.eqb (key e) c then (if p e then w e else 0%R) else 0%R) +
       rsum (map w (filter (fun e => Nat.eqb (key e) c && p e) out)))%R)).
    + rewrite rsum_plus, IH by (intros; apply H; [now right|auto]). cbn [filter]. destruct (p e) eqn:Ep.
      * rewrite rsum_at by (assert (X := H e (or_introl eq_refl) Ep); lia). reflexivity.
      * rewrite rsum_zero; [ring|]. intros x _. destruct (Nat.eqb (key e) x); reflexivity.
    + intros c _. cbn [filter]. destruct (Nat.eqb (key e) c); cbn [andb].
      * destruct (p e); [reflexivity|ring].
      * ring.
Qed.
Lemma rsum_split {A} (p : A -> bool) (w : A -> R) l :
  rsum (map w l) = (rsum (map w (filter p l)) + rsum (map w (filter (fun x => negb (p x)) l)))%R.
Proof.
  induction l as [|x l IH]; [unfold rsum; cbn; ring|]. cbn [map filter]. rewrite rsum_cons, IH.
  destruct (p x); cbn [negb map]; rewrite rsum_cons; ring.
Qed.

(** ** Any table of records: numbers of cells, fractions that are not negative and add up to one up
    to [delta], a height that decreases along the records *)
Section Table.
  Variables (N : nat) (out : list record64) (hgt : nat -> nat) (H : nat) (delta : R).
  Hypothesis HD : (0 <= delta < 1)%R.
  Hypothesis SH : forall u d f s, In (u, d, f, s) out -> exists n c, u = (Z.of_nat n + 1)%Z /\ d = (Z.of_nat c + 1)%Z /\ n < N /\ c < N /\
    (0 <= share f)%R /\ (n <> c -> hgt c < hgt n).
  Hypothesis HH : forall c, c < N -> hgt c <= H.
  Notation leaving_others n := (filter (fun e : record64 => let '(u, d, _, _) := e in (u =? Z.of_nat n + 1)%Z && negb (u =? d)%Z) out).
  Hypothesis WHOLE : forall n, n < N -> passes_on64 out n = true ->
    (1 - delta <= rsum (map (fun e : record64 => let '(_, _, f, _) := e in share f) (leaving_others n)) <= 1 + delta)%R.

  Lemma not_passing n : passes_on64 out n = false -> leaving_others n = [].
  Proof.
    clear. intros E. unfold passes_on64 in E. induction out as [|[[[u d] f] s] o IH]; cbn [filter existsb] in *; auto.
    apply orb_false_iff in E. destruct E as [E1 E2]. rewrite E1. now apply IH.
  Qed.

  Variables (rain q : nat -> R).
  Hypothesis R0 : forall c, c < N -> (0 <= rain c)%R.
  Hypothesis RT : routed64 out N rain q.

  Lemma held_nonneg c : c < N -> (0 <= q c)%R.
  Proof using SH HH R0 RT.
    intros Lc. assert (G : forall k c, c < N -> H - hgt c <= k -> (0 <= q c)%R).
    { clear c Lc. induction k as [|k IH]; intros c Lc Hk; rewrite (RT Lc); apply Rplus_le_le_0_compat; auto;
      apply rsum_nonneg; intros x Hx; apply in_map_iff in Hx; destruct Hx as ([[[u d] f] s] & <- & I); apply filter_In in I; destruct I as [I X];
      apply andb_true_iff in X; destruct X as [X1 X2]; apply Z.eqb_eq in X1; apply negb_true_iff, Z.eqb_neq in X2;
      destruct (SH I) as (n & m & -> & -> & Ln & Lm & S0 & HG); assert (m = c) by lia; subst m;
      replace (Z.to_nat (Z.of_nat n + 1 - 1)) with n by lia; assert (LT := HG ltac:(intros ->; lia)); assert (Y := HH Ln); apply Rmult_le_pos; auto;
      [lia|apply IH; [auto|lia]]. }
    apply (G H); auto. lia.
  Qed.

  (** rain and water held, weighted *)
  Lemma weighted (w : nat -> R) :
    rsum (map (fun c => rain c * w c)%R (seq 0 N)) =
    (rsum (map (fun c => q c * w c)%R (seq 0 N)) -
     rsum (map (fun n => rsum (map (fun e : record64 => let '(_, d, f, _) := e in share f * w (Z.to_nat (d - 1)))%R (leaving_others n)) * q n)%R (seq 0 N)))%R.
  Proof using SH RT.
    set (g := fun e : record64 => let '(u, d, f, _) := e in (share f * q (Z.to_nat (u - 1)) * w (Z.to_nat (d - 1)))%R).
    set (p := fun e : record64 => let '(u, d, _, _) := e in negb (u =? d)%Z).
    assert (A1 : rsum (map (fun c => arriving64 out q c * w c)%R (seq 0 N)) = rsum (map g (filter p out))).
    { rewrite <- (@rsum_keys _ (fun e : record64 => Z.to_nat (snd (fst (fst e)) - 1)) p g N out).
      - apply rsum_ext. intros c _. unfold arriving64. rewrite <- rsum_scale.
        assert (E : filter (fun e : record64 => Nat.eqb (Z.to_nat (snd (fst (fst e)) - 1)) c && p e) out =
          filter (fun e : record64 => let '(u, d, _, _) := e in (d =? Z.of_nat c + 1)%Z && negb (u =? d)%Z) out).
        { apply filter_ext_in. intros [[[u d] f] s] I. unfold p. cbn [fst snd]. f_equal.
          destruct (SH I) as (n & m & -> & -> & _). clear. destruct (Z.eqb_spec (Z.of_nat m + 1) (Z.of_nat c + 1)), (Nat.eqb_spec (Z.to_nat (Z.of_nat m + 1 - 1)) c); auto; lia. }
        rewrite E. apply rsum_ext. intros [[[u d] f] s] I. apply filter_In in I. destruct I as [_ I]. apply andb_true_iff in I. destruct I as [I _].
        apply Z.eqb_eq in I. subst d. unfold g. now replace (Z.to_nat (Z.of_nat c + 1 - 1)) with c by lia.
      - intros [[[u d] f] s] I _. cbn [fst snd]. destruct (SH I) as (n & m & -> & -> & _ & Lm & _). lia. }
    assert (A2 : rsum (map g (filter p out)) =
      rsum (map (fun n => rsum (map (fun e : record64 => let '(_, d, f, _) := e in share f * w (Z.to_nat (d - 1)))%R (leaving_others n)) * q n)%R (seq 0 N))).
    { rewrite <- (@rsum_keys _ (fun e : record64 => Z.to_nat (fst (fst (fst e)) - 1)) p g N out).
      2:{ intros [[[u d] f] s] I _. cbn [fst snd]. destruct (SH I) as (n & m & -> & -> & Ln & _). lia. }
      apply rsum_ext. intros n Hn. rewrite <- rsum_scale.
      assert (E : filter (fun e : record64 => Nat.eqb (Z.to_nat (fst (fst (fst e)) - 1)) n && p e) out = leaving_others n).
      { apply filter_ext_in. intros [[[u d] f] s] I. unfold p. cbn [fst snd]. f_equal.
        destruct (SH I) as (n' & m & -> & -> & _). destruct (Z.eqb_spec (Z.of_nat n' + 1) (Z.of_nat n + 1)), (Nat.eqb_spec (Z.to_nat (Z.of_nat n' + 1 - 1)) n); auto; lia. }
      rewrite E. apply rsum_ext. intros [[[u d] f] s] I. apply filter_In in I. destruct I as [_ I]. apply andb_true_iff in I. destruct I as [I _].
      apply Z.eqb_eq in I. subst u. unfold g. replace (Z.to_nat (Z.of_nat n + 1 - 1)) with n by lia. ring. }
    rewrite <- A2, <- A1.
    assert (T : rsum (map (fun c => q c * w c)%R (seq 0 N)) = (rsum (map (fun c => rain c * w c)%R (seq 0 N)) + rsum (map (fun c => arriving64 out q c * w c)%R (seq 0 N)))%R).
    { rewrite <- rsum_plus. apply rsum_ext. intros c Hc. apply in_seq in Hc. rewrite (@RT c) by lia. ring. }
    rewrite T. ring.
  Qed.

  Notation ends := (filter (fun c => negb (passes_on64 out c)) (seq 0 N)).

  Lemma pow_up a k j : (1 <= a)%R -> k <= j -> (a ^ k <= a ^ j)%R.
  Proof. intros. now apply Rle_pow. Qed.
  Lemma pow_down a k j : (0 <= a <= 1)%R -> k <= j -> (a ^ j <= a ^ k)%R.
  Proof.
    intros A L. replace j with (k + (j - k)) by lia. rewrite pow_add. rewrite <- (Rmult_1_r (a ^ k)) at 2.
    apply Rmult_le_compat_l; [now apply pow_le|]. assert (X := pow_incr a 1 (j - k) ltac:(lra)). now rewrite pow1 in X.
  Qed.

  Lemma ends_at_most : (amount ends q <= (1 + delta) ^ H * amount (seq 0 N) rain)%R.
  Proof using HD SH HH WHOLE R0 RT.
    unfold amount. set (w := fun c => ((1 + delta) ^ hgt c)%R). assert (E := weighted w).
    assert (W1 : forall c, (1 <= w c)%R) by (intros c; unfold w; apply pow_R1_Rle; lra).
    assert (B : (rsum (map (fun n => rsum (map (fun e : record64 => let '(_, d, f, _) := e in share f * w (Z.to_nat (d - 1)))%R (leaving_others n)) * q n)%R (seq 0 N))
       <= rsum (map (fun c => q c * w c)%R (filter (passes_on64 out) (seq 0 N))))%R).
    { rewrite (rsum_split (passes_on64 out)).
      assert (Z : rsum (map (fun n => rsum (map (fun e : record64 => let '(_, d, f, _) := e in share f * w (Z.to_nat (d - 1)))%R (leaving_others n)) * q n)%R
        (filter (fun x => negb (passes_on64 out x)) (seq 0 N))) = 0%R).
      { apply rsum_zero. intros n Hn. apply filter_In in Hn. destruct Hn as [_ Hn]. apply negb_true_iff in Hn. rewrite not_passing by auto. unfold rsum. cbn. ring. }
      rewrite Z, Rplus_0_r. apply rsum_mono. intros n Hn. apply filter_In in Hn. destruct Hn as [Ln P]. apply in_seq in Ln.
      rewrite (Rmult_comm (q n)). apply Rmult_le_compat_r; [apply held_nonneg; lia|].
      destruct (@WHOLE n ltac:(lia) P) as [_ W].
      assert (NE : 0 < hgt n).
      { unfold passes_on64 in P. apply existsb_exists in P. destruct P as ([[[u d] f] s] & I & X). apply andb_true_iff in X. destruct X as [X1 X2].
        apply Z.eqb_eq in X1. apply negb_true_iff, Z.eqb_neq in X2. destruct (SH I) as (n' & m & -> & -> & _ & _ & _ & HG). assert (n' = n) by lia. subst n'.
        assert (Y := HG ltac:(intros ->; lia)). lia. }
      apply Rle_trans with (rsum (map (fun e : record64 => let '(_, _, f, _) := e in share f) (leaving_others n)) * (1 + delta) ^ (hgt n - 1))%R.
      - rewrite <- rsum_scale. apply rsum_mono. intros [[[u d] f] s] I. apply filter_In in I. destruct I as [I X].
        apply andb_true_iff in X. destruct X as [X1 X2]. apply Z.eqb_eq in X1. apply negb_true_iff, Z.eqb_neq in X2.
        destruct (SH I) as (n' & m & -> & -> & _ & _ & S0 & HG). assert (n' = n) by lia. subst n'. assert (Y := HG ltac:(intros ->; lia)).
        replace (Z.to_nat (Z.of_nat m + 1 - 1)) with m by lia. apply Rmult_le_compat_l; auto. unfold w. apply pow_up; [lra|lia].
      - unfold w. replace (hgt n) with (S (hgt n - 1)) at 2 by lia. cbn [pow]. apply Rmult_le_compat_r; [apply pow_le; lra|lra]. }
    rewrite (rsum_split (passes_on64 out) (fun c => q c * w c)%R) in E.
    apply Rle_trans with (rsum (map (fun c => rain c * w c)%R (seq 0 N))).
    - apply Rle_trans with (rsum (map (fun c => q c * w c)%R ends)); [|lra].
      apply rsum_mono. intros c Hc. apply filter_In in Hc. destruct Hc as [Hc _]. apply in_seq in Hc.
      assert (X := @held_nonneg c ltac:(lia)). assert (Y := W1 c). nra.
    - rewrite Rmult_comm, <- rsum_scale. apply rsum_mono. intros c Hc. apply in_seq in Hc. apply Rmult_le_compat_l; [apply R0; lia|].
      unfold w. apply pow_up; [lra|apply HH; lia].
  Qed.

  Lemma ends_at_least : ((1 - delta) ^ H * amount (seq 0 N) rain <= amount ends q)%R.
  Proof using HD SH HH WHOLE R0 RT.
    unfold amount. set (w := fun c => ((1 - delta) ^ hgt c)%R). assert (E := weighted w).
    assert (W1 : forall c, (0 <= w c <= 1)%R).
    { intros c. unfold w. split; [apply pow_le; lra|]. assert (X := pow_incr (1 - delta) 1 (hgt c) ltac:(lra)). now rewrite pow1 in X. }
    assert (B : (rsum (map (fun c => q c * w c)%R (filter (passes_on64 out) (seq 0 N)))
       <= rsum (map (fun n => rsum (map (fun e : record64 => let '(_, d, f, _) := e in share f * w (Z.to_nat (d - 1)))%R (leaving_others n)) * q n)%R (seq 0 N)))%R).
    { rewrite (rsum_split (passes_on64 out) _ (seq 0 N)).
      assert (Z : rsum (map (fun n => rsum (map (fun e : record64 => let '(_, d, f, _) := e in share f * w (Z.to_nat (d - 1)))%R (leaving_others n)) * q n)%R
        (filter (fun x => negb (passes_on64 out x)) (seq 0 N))) = 0%R).
      { apply rsum_zero. intros n Hn. apply filter_In in Hn. destruct Hn as [_ Hn]. apply negb_true_iff in Hn. rewrite not_passing by auto. unfold rsum. cbn. ring. }
      rewrite Z, Rplus_0_r. apply rsum_mono. intros n Hn. apply filter_In in Hn. destruct Hn as [Ln P]. apply in_seq in Ln.
      rewrite (Rmult_comm (q n)). apply Rmult_le_compat_r; [apply held_nonneg; lia|].
      destruct (@WHOLE n ltac:(lia) P) as [W _].
      assert (NE : 0 < hgt n).
      { unfold passes_on64 in P. apply existsb_exists in P. destruct P as ([[[u d] f] s] & I & X). apply andb_true_iff in X. destruct X as [X1 X2].
        apply Z.eqb_eq in X1. apply negb_true_iff, Z.eqb_neq in X2. destruct (SH I) as (n' & m & -> & -> & _ & _ & _ & HG). assert (n' = n) by lia. subst n'.
        assert (Y := HG ltac:(intros ->; lia)). lia. }
      apply Rle_trans with (rsum (map (fun e : record64 => let '(_, _, f, _) := e in share f) (leaving_others n)) * (1 - delta) ^ (hgt n - 1))%R.
      - unfold w. replace (hgt n) with (S (hgt n - 1)) at 1 by lia. cbn [pow]. apply Rmult_le_compat_r; [apply pow_le; lra|lra].
      - rewrite <- rsum_scale. apply rsum_mono. intros [[[u d] f] s] I. apply filter_In in I. destruct I as [I X].
        apply andb_true_iff in X. destruct X as [X1 X2]. apply Z.eqb_eq in X1. apply negb_true_iff, Z.eqb_neq in X2.
        destruct (SH I) as (n' & m & -> & -> & _ & _ & S0 & HG). assert (n' = n) by lia. subst n'. assert (Y := HG ltac:(intros ->; lia)).
        replace (Z.to_nat (Z.of_nat m + 1 - 1)) with m by lia. apply Rmult_le_compat_l; auto. unfold w. apply pow_down; [lra|lia]. }
    rewrite (rsum_split (passes_on64 out) (fun c => q c * w c)%R) in E.
    apply Rle_trans with (rsum (map (fun c => rain c * w c)%R (seq 0 N))).
    - rewrite Rmult_comm, <- rsum_scale. apply rsum_mono. intros c Hc. apply in_seq in Hc. apply Rmult_le_compat_l; [apply R0; lia|].
      unfold w. apply pow_down; [lra|apply HH; lia].
    - apply Rle_trans with (rsum (map (fun c => q c * w c)%R ends)); [lra|].
      apply rsum_mono. intros c Hc. apply filter_In in Hc. destruct Hc as [Hc _]. apply in_seq in Hc.
      assert (X := @held_nonneg c ltac:(lia)). assert (Y := W1 c). nra.
  Qed.
End Table.

(** ** The cascades of a terrain of doubles *)
Section Water.
  Variables (fdir strm : list Z) (basin : option (list Z)) (dem : list (option b64)) (thr : b64)
            (dist : nat -> nat -> b64) (nb : list (list nat)) (out : list record64).
  Notation N := (length fdir).
  Notation rows := (table f_sub f_div f_lt f_zero f_big dist nb dem thr).
  Hypothesis V : valid_fdir fdir.
  Hypothesis LD : length dem = N.
  Hypothesis LN : length nb = N.
  Hypothesis HB : basin_fits basin N.
  (** neighbours are cells, up to a thousand of them, and at least 2^-60 apart *)
  Hypothesis HN : forall c n, adjacent nb c n -> n < N /\ finite (dist c n) /\ (bpow radix2 (-60) <= val (dist c n))%R.
  Hypothesis HW : forall l, In l nb -> length l <= 1000.
  (** elevations up to 2^60 *)
  Hypothesis HE : forall c z, nth_error dem c = Some (Some z) -> finite z /\ (Rabs (val z) <= bpow radix2 60)%R.
  Hypothesis A : acyclic fdir.
  Hypothesis RUN : runs_on fdir strm basin.
  Hypothesis OUT : cascades_many f_one f_abs f_total f_quot f_le0 f_keep fdir strm basin rows (table_nb nb dem) = Ok out.
  Notation hgt := (height f_lt fdir strm dem).
  Notation H := (2 * N + 1).

  Lemma dist_pos64 c n : adjacent nb c n -> finite (dist c n) /\ (0 < val (dist c n))%R.
  Proof using HN. intros X. destruct (HN X) as (_ & F & L). assert (P := bpow_gt_0 radix2 (-60)). split; [auto|lra]. Qed.
  Lemma hgt64_le c : hgt c <= H.
  Proof using.
    clear. unfold height. destruct (riverb strm c); [assert (X := @rest_le fdir c); lia|].
    assert (X := filter_len (lowerb f_lt dem c) (seq 0 N)). rewrite seq_length in X. lia.
  Qed.

  Lemma rows_wide row : In row rows -> length row <= 1000.
  Proof using HW LN LD.
    intros I. apply In_nth_error in I. destruct I as [n Er]. apply get_ok in Er. rewrite table_row in Er. apply bind_ok in Er. destruct Er as [fn [Ef Er]]. injection Er as <-.
    rewrite map_length. apply get_ok in Ef.
    assert (Ln : n < length nb) by (assert (X : n < length (pad_neighbors (length dem) nb)) by (apply nth_error_Some; congruence); unfold pad_neighbors in X; now rewrite map_length in X).
    apply (nth_error_nth _ _ []) in Ef. rewrite <- Ef, pad_width by auto. now apply widest_le.
  Qed.

  Lemma rows_moderate64 row y : In row rows -> In (Some y) row -> f_le0 y = true -> finite y /\ (Rabs (val y) <= bpow radix2 1000)%R.
  Proof using HN HE LD LN.
    intros I Iy Le. apply In_nth_error in I. destruct I as [n Er]. apply get_ok in Er. rewrite table_row in Er. apply bind_ok in Er. destruct Er as [fn [Ef Er]]. injection Er as <-.
    apply in_map_iff in Iy. destruct Iy as [m [E Im]]. unfold slope in E. destruct (Nat.eqb_spec m (length dem)) as [|NE].
    { injection E as <-. vm_compute in Le. discriminate. }
    assert (AD : adjacent nb n m).
    { apply get_ok in Ef. unfold pad_neighbors in Ef. rewrite nth_error_map in Ef. destruct (nth_error nb n) as [l|] eqn:El; [|discriminate].
      cbn [option_map] in Ef. injection Ef as <-. apply in_app_iff in Im. destruct Im as [Im|Im]; [exists l; auto|apply repeat_spec in Im; contradiction]. }
    destruct (nth m dem None) as [zm|] eqn:Zm; [|discriminate]. destruct (nth n dem None) as [zn|] eqn:Zn; [|discriminate].
    injection E as <-. apply nth_opt in Zm, Zn. destruct (HE Zm) as [Fm Bm]. destruct (HE Zn) as [Fn Bn].
    destruct (HN AD) as (_ & Fd & Ld). destruct (sub_bound Fm Fn Bm Bn) as [Fs Bs].
    assert (X : finite (if f_lt (f_sub zm zn) thr && f_lt f_zero (f_sub zm zn) then f_zero else f_sub zm zn) /\
      (Rabs (val (if f_lt (f_sub zm zn) thr && f_lt f_zero (f_sub zm zn) then f_zero else f_sub zm zn)) <= bpow radix2 61)%R).
    { destruct (_ && _); [|auto]. split; [reflexivity|]. cbn [val f_zero B2R]. rewrite Rabs_R0. apply bpow_ge_0. }
    destruct X as [F1 B1]. destruct (div_bound F1 Fd B1 Ld) as [F2 B2]. split; [exact F2|]. eapply Rle_trans; [exact B2|]. apply bpow_le. lia.
  Qed.

  Lemma shares64 u : shares_out almost_percent (leaving u out).
  Proof using HW LN LD HN HE OUT.
    refine (@C54_binary64 fdir strm basin rows (table_nb nb dem) out _ _ OUT u); [|exact rows_wide].
    intros row x. exact (@rows_moderate64 row x).
  Qed.

  Lemma almost_percent_pos : (0 < almost_percent)%R.
  Proof using. clear. unfold almost_percent. assert (X := val_percent). assert (Y : (/ 10 ^ 12 <= 0.5)%R) by lra. nra. Qed.

  Lemma shape64 u d f s : In (u, d, f, s) out -> exists n c, u = (Z.of_nat n + 1)%Z /\ d = (Z.of_nat c + 1)%Z /\ n < N /\ c < N /\
    (0 <= share f)%R /\ (n <> c -> hgt c < hgt n) /\ (river strm n -> f = Some f_one) /\ (~ river strm n -> n <> c).
  Proof using V LD LN HB HN HW HE A RUN OUT.
    intros I.
    assert (HN' : forall c n, adjacent nb c n -> n < N) by (intros c n X; now apply HN in X).
    assert (HE' : forall c z, nth_error dem c = Some (Some z) -> finite z) by (intros c z X; now apply HE in X).
    destruct (C135_landscape_cascades_descend (binary64_down_laws dist_pos64) V LD HB HN' HE' OUT I) as (n & c & E1 & E2 & Ln & Lc & Hin & _ & HL).
    exists n, c. do 4 (split; [auto|]). split; [|split; [|split]].
    - assert (IL : In f (leaving u out)).
      { unfold leaving. apply in_map_iff. exists (u, d, f, s). split; [reflexivity|]. apply filter_In. split; [auto|]. apply Z.eqb_refl. }
      destruct (shares64 u) as [E|(qs & E & Q & _)]; [rewrite E in IL; destruct IL|]. rewrite E in IL. apply in_map_iff in IL.
      destruct IL as (x & <- & Ix). cbn [share]. assert (X := almost_percent_pos). apply Q in Ix. lra.
    - intros NE. assert (LE : leads out n c) by (split; [auto|exists f, s; now rewrite <- E1, <- E2]).
      destruct (height_decreases (binary64_down_laws dist_pos64) V LD HB HN' HE' A RUN OUT LE) as (_ & _ & L2). exact L2.
    - intros R. destruct (@record_cases b64 _ _ _ _ _ _ fdir strm basin _ _ out V HB OUT _ _ _ _ I) as (n' & c' & E1' & _ & _ & _ & [[_ [E _]]|[R' _]]); auto.
      assert (n' = n) by lia. subst. contradiction.
    - intros R ->. destruct (HL R) as (_ & zn & zc & Z1 & Z2 & LT). rewrite Z1 in Z2. injection Z2 as <-. apply lt_val in LT; eauto. lra.
  Qed.

  Notation delta := (/ 10 ^ 13)%R.
  Lemma whole64 n : n < N -> passes_on64 out n = true ->
    (1 - delta <= rsum (map (fun e : record64 => let '(_, _, f, _) := e in share f)
       (filter (fun e : record64 => let '(u, d, _, _) := e in (u =? Z.of_nat n + 1)%Z && negb (u =? d)%Z) out)) <= 1 + delta)%R.
  Proof using V LD LN HB HN HW HE A RUN OUT.
    intros Ln P. set (L := filter (fun e : record64 => let '(u, _, _, _) := e in (u =? Z.of_nat n + 1)%Z) out).
    assert (EL : filter (fun e : record64 => let '(u, d, _, _) := e in (u =? Z.of_nat n + 1)%Z && negb (u =? d)%Z) out =
       filter (fun e : record64 => let '(u, d, _, _) := e in negb (u =? d)%Z) L).
    { unfold L. clear. induction out as [|[[[u d] f] s] o IH]; cbn [filter]; auto.
      destruct (u =? Z.of_nat n + 1)%Z; cbn [andb filter]; [|exact IH]. destruct (negb (u =? d)%Z); now rewrite IH. }
    assert (EP : existsb (fun e : record64 => let '(u, d, _, _) := e in negb (u =? d)%Z) L = true).
    { rewrite <- P. unfold L, passes_on64. clear. induction out as [|[[[u d] f] s] o IH]; cbn [existsb filter]; auto.
      destruct (u =? Z.of_nat n + 1)%Z; cbn [andb orb existsb filter]; [|exact IH]. now rewrite IH. }
    rewrite EL.
    assert (SH : forall u d f s, In (u, d, f, s) L -> (river strm n -> f = Some f_one) /\ (~ river strm n -> u <> d)).
    { intros u d f s I. unfold L in I. apply filter_In in I. destruct I as [I E]. apply Z.eqb_eq in E.
      destruct (shape64 I) as (n' & c & E1 & E2 & _ & _ & _ & _ & X1 & X2). assert (n' = n) by lia. subst n'. split; auto.
      intros R. specialize (X2 R). lia. }
    assert (FR := shares64 (Z.of_nat n + 1)%Z). unfold leaving in FR.
    assert (EF : filter (fun e : record64 => let '(u', _, _, _) := e in (u' =? Z.of_nat n + 1)%Z) out = L) by reflexivity.
    assert (SUM : (1 - delta <= rsum (map (fun e : record64 => let '(_, _, f, _) := e in share f) L) <= 1 + delta)%R).
    { destruct FR as [FR|(qs & FR & _ & S)].
      - exfalso. apply map_eq_nil in FR. unfold L in EP. rewrite FR in EP. discriminate.
      - apply Rabs_le_inv in S. assert (E : rsum (map (fun e : record64 => let '(_, _, f, _) := e in share f) L) = rsum (map val qs)); [|lra].
        f_equal. unfold L. clear - FR. revert qs FR. match goal with |- forall qs, map _ ?l = _ -> _ => generalize l end.
        intros l. induction l as [|[[[u d] f] s] l IH]; intros qs FR; destruct qs as [|q qs]; cbn [map] in *; try discriminate; [reflexivity|].
        injection FR as F1 F2. subst f. cbn [share]. f_equal. now apply IH. }
    clear FR EF EL. clearbody L. destruct (riverb strm n) eqn:R.
    - apply riverb_spec in R.
      assert (ONE : length L = 1).
      { assert (C : rsum (map (fun e : record64 => let '(_, _, f, _) := e in share f) L) = INR (length L)).
        { clear SUM EP. induction L as [|[[[u d] f] s] L IH]; [reflexivity|]. change (length ((u, d, f, s) :: L)) with (S (length L)). rewrite S_INR. cbn [map]. rewrite rsum_cons, IH by (intros; eapply SH; right; eauto).
          destruct (SH u d f s (or_introl eq_refl)) as [X _]. rewrite (X R). cbn [share]. rewrite val_one. ring. }
        rewrite C in SUM. assert (D : (0 < delta < 0.5)%R) by lra. destruct L as [|e [|e' L]]; [discriminate|reflexivity|].
        exfalso. change (length (e :: e' :: L)) with (S (S (length L))) in SUM. rewrite !S_INR in SUM. assert (Y := pos_INR (length L)). lra. }
      destruct L as [|e [|e' L]]; try discriminate. destruct e as [[[u d] f] s]. cbn [existsb] in EP. cbn [filter]. destruct (u =? d)%Z; cbn [negb orb] in *; [discriminate|exact SUM].
    - assert (NR : ~ river strm n) by (rewrite <- riverb_spec; congruence).
      assert (AL : filter (fun e : record64 => let '(u, d, _, _) := e in negb (u =? d)%Z) L = L).
      { apply filter_all. intros [[[u d] f] s] I. destruct (SH _ _ _ _ I) as [_ X]. apply negb_true_iff, Z.eqb_neq. auto. }
      rewrite AL. exact SUM.
  Qed.

  (** C136 for doubles: the water held in the end by the cells that pass nothing on is the rain, up
      to a relative 1e-13 for each cell on the way *)
  Theorem C136_binary64 rain q : (forall c, c < N -> (0 <= rain c)%R) -> routed64 out N rain q ->
    let kept := amount (filter (fun c => negb (passes_on64 out c)) (seq 0 N)) q in
    ((1 - / 10 ^ 13) ^ (2 * N + 1) * amount (seq 0 N) rain <= kept <= (1 + / 10 ^ 13) ^ (2 * N + 1) * amount (seq 0 N) rain)%R.
  Proof using V LD LN HB HN HW HE A RUN OUT.
    intros R0 RT. assert (D : (0 <= delta < 1)%R) by lra.
    assert (SH : forall u d f s, In (u, d, f, s) out -> exists n c, u = (Z.of_nat n + 1)%Z /\ d = (Z.of_nat c + 1)%Z /\ n < N /\ c < N /\
      (0 <= share f)%R /\ (n <> c -> hgt c < hgt n)).
    { intros u d f s I. destruct (shape64 I) as (n & c & E1 & E2 & L1 & L2 & S0 & HG & _). exists n, c. auto 10. }
    split; [eapply ends_at_least|eapply ends_at_most]; eauto using whole64; intros c _; apply hgt64_le.
  Qed.

  Lemma arriving64_ext q q' c : (forall u, u < N -> hgt c < hgt u -> q u = q' u) -> arriving64 out q c = arriving64 out q' c.
  Proof using V LD LN HB HN HW HE A RUN OUT.
    intros E. unfold arriving64. apply rsum_ext. intros [[[u d] f] s] I. apply filter_In in I. destruct I as [I X].
    apply andb_true_iff in X. destruct X as [X1 X2]. apply Z.eqb_eq in X1. apply negb_true_iff, Z.eqb_neq in X2.
    destruct (shape64 I) as (n & m & -> & -> & Ln & Lm & _ & HG & _). assert (m = c) by lia. subst m.
    replace (Z.to_nat (Z.of_nat n + 1 - 1)) with n by lia. f_equal. apply E; auto. apply HG. intros ->. lia.
  Qed.

  (** the amounts exist and are unique: the cascades run in no circle *)
  Theorem C136_binary64_routing_is_defined rain : exists q, routed64 out N rain q /\
    forall q', routed64 out N rain q' -> forall c, c < N -> q' c = q c.
  Proof using V LD LN HB HN HW HE A RUN OUT.
    set (it := fix it (k : nat) (c : nat) : R := match k with O => rain c | S k => (rain c + arriving64 out (it k) c)%R end).
    assert (ST : forall k c, H - hgt c <= k -> it (S k) c = it k c).
    { induction k as [|k IH]; intros c Hk.
      - change ((rain c + arriving64 out (it 0%nat) c)%R = rain c).
        assert (Z : arriving64 out (it 0%nat) c = arriving64 out (fun _ => 0%R) c).
        { apply arriving64_ext. intros u _ LT. assert (X := hgt64_le u). lia. }
        rewrite Z. unfold arriving64. rewrite rsum_zero; [ring|]. intros [[[u d] f] s] _. ring.
      - change ((rain c + arriving64 out (it (S k)) c)%R = (rain c + arriving64 out (it k) c)%R).
        f_equal. apply arriving64_ext. intros u _ LT. apply IH. lia. }
    exists (it H). split.
    - intros c _. symmetry. apply (ST H c). lia.
    - intros q' R'.
      assert (G : forall k c, c < N -> H - hgt c <= k -> q' c = it H c).
      { induction k as [|k IH]; intros c Lc Hk.
        - rewrite (R' c Lc), <- (ST H c) by lia. change ((rain c + arriving64 out q' c)%R = (rain c + arriving64 out (it H) c)%R).
          f_equal. apply arriving64_ext. intros u _ LT. assert (X := hgt64_le u). lia.
        - rewrite (R' c Lc), <- (ST H c) by lia. change ((rain c + arriving64 out q' c)%R = (rain c + arriving64 out (it H) c)%R).
          f_equal. apply arriving64_ext. intros u Lu LT. apply IH; auto. lia. }
      intros c Lc. apply (G H); auto. lia.
  Qed.
End Water.

(** ** From elevations to outlets *)
Section Pipeline.
  Context {W : Type} (wadd : W -> W -> W) (wzero : W) (ncol : Z).

  (** C137 for doubles, water: whatever the rain, the water that the cascades route all ends in
      outlets (and in NaN cells, which keep their own), up to a relative 1e-13 for each cell on the way *)
  Theorem C137_binary64_rain_reaches_the_outlets :
    forall thr dist dem nb terminals base (area : list W) fuel lim t,
    falling64 thr dist dem nb terminals base -> enough_steps nb fuel ->
    length area = length dem -> S (length dem) <= fuel -> length dem + 1 <= lim ->
    exists fdir nb' facc strm out,
      run Fops fuel dist dem nb thr terminals = Ok (fdir, nb') /\
      flow_accumulation_cells wadd wzero fuel fdir area = Ok facc /\
      let prms := PropsSobj.ask Z.geb f_one f_abs f_total f_quot f_le0 f_keep lim fuel ncol fdir facc
                    (b64_rows dist nb dem thr) (table_nb nb dem) KPrms in
      prms [] (DelineateStreams (Scalar t) None) = Ok (AArray strm) /\
      prms [DelineateStreams (Scalar t) None] (Cascades None None true false) = Ok (ACasc out) /\
      no_circle out /\
      forall rain, (forall c, c < length dem -> (0 <= rain c)%R) ->
      exists q ends, routed64 out (length dem) rain q /\
        (forall q', routed64 out (length dem) rain q' -> forall c, c < length dem -> q' c = q c) /\
        NoDup ends /\ (forall c, In c ends -> c < length dem /\ passes_on64 out c = false /\ (base c \/ is_nan dem c)) /\
        (forall c, is_nan dem c -> q c = rain c) /\
        ((1 - / 10 ^ 13) ^ (2 * length dem + 1) * amount (seq 0 (length dem)) rain <= amount ends q
           <= (1 + / 10 ^ 13) ^ (2 * length dem + 1) * amount (seq 0 (length dem)) rain)%R.
  Proof.
    intros thr dist dem nb terminals base area fuel lim t FA FU LA HF HL.
    destruct (C61_always_computed b64_order (ff_terrain FA) FU) as [fdir [nb' [RUN [LF _]]]].
    destruct (directions64 FA FU RUN) as (_ & VF & AC & DW & BS & NA).
    assert (LA' : length area = length fdir) by congruence.
    destruct (@C18_accumulation_finishes W wadd wzero fdir area VF LA') as (facc & ar & L1 & L2 & EX).
    destruct (EX fuel) as [EC _]; [lia|].
    set (strm := map (fun a => if Z.geb a t then 1%Z else 0%Z) facc).
    assert (LS : length strm = length fdir) by (unfold strm; rewrite map_length; congruence).
    destruct (@C34_connectivity_succeeds fdir strm lim VF LS) as (s2 & g & E6); [lia|].
    destruct (@C34_reaches_number_the_cells fdir strm lim s2 g VF LS E6) as (Ls2 & _ & P2 & Z2 & _).
    assert (RV : forall c, river s2 c <-> river strm c).
    { intros c. split.
      - intros [z [Hz Pz]]. assert (Lc : c < length strm) by (rewrite <- Ls2; apply nth_error_Some; congruence).
        destruct (nth_error strm c) as [v|] eqn:Ev; [|apply nth_error_None in Ev; lia]. exists v. split; [auto|].
        destruct (Z.eq_dec v 0) as [->|Nv]; [apply Z2 in Ev; congruence|].
        unfold strm in Ev. rewrite nth_error_map in Ev. destruct (nth_error facc c) as [a|]; [|discriminate]. cbn in Ev. injection Ev as <-.
        destruct (a >=? t)%Z; lia.
      - intros [z [Hz Pz]]. destruct (P2 c) as (r & Hr & Er); [apply nth_error_Some; congruence|rewrite Hz; intros X; inversion X; lia|].
        exists r. split; [auto|lia]. }
    destruct (@C54_any_arithmetic_succeeds b64 f_one f_abs f_total f_quot f_le0 f_keep fdir s2 None (b64_rows dist nb dem thr) (table_nb nb dem)
                VF (eq_trans Ls2 LS) Logic.I (rows_reach FA LF)) as [out EO].
    assert (RO : runs_on fdir s2 None).
    { assert (R1 := @C135_delineated_streams_run_on W wadd wzero fdir area fuel facc t None strm VF AC LA' ltac:(lia) EC eq_refl).
      intros c Hc I1 I2 R. apply RV. apply (R1 c Hc I1 I2). now apply RV. }
    assert (HN : forall c n, adjacent nb c n -> n < length fdir).
    { intros c' n' X. rewrite LF. apply (neighbours_here FA (c := c')); auto. rewrite <- (tr_rows (ff_terrain FA)). destruct X as [l' [X _]]. apply nth_error_Some. congruence. }
    assert (OK : forall c z, nth_error dem c = Some (Some z) -> finite z) by (intros c' z Hz; now apply (ff_elev FA) in Hz).
    assert (HD := @height_decreases b64 f_sub f_div f_lt f_zero f_big f_one f_abs f_total f_quot f_le0 f_keep dist nb finite fdir s2 None dem thr
       (binary64_down_laws (dist_pos FA)) VF (eq_sym LF) Logic.I HN OK AC RO out EO).
    assert (LN : length nb = length fdir) by (rewrite LF; exact (tr_rows (ff_terrain FA))).
    assert (HN2 : forall c n, adjacent nb c n -> n < length fdir /\ finite (dist c n) /\ (bpow radix2 (-60) <= val (dist c n))%R).
    { intros c n X. destruct (ff_dist FA X) as [F1 [F2 _]]. eauto. }
    assert (HW : forall l, In l nb -> length l <= 1000) by (intros l I; apply (ff_width FA) in I; lia).
    exists fdir, nb', facc, strm, out. split; [auto|]. split; [auto|]. cbv zeta. split; [reflexivity|]. split; [|split].
    - unfold PropsSobj.ask, sreply, scalls. cbn [fold_left scall_step fst]. unfold do_delineate. cbn [delineate_streams above bind].
      fold strm. cbn [andthen fst snd]. unfold do_cascades, pick. cbn [so_strm so_graph]. unfold prms_connect, run6, pick. cbn [so_strm bind]. rewrite E6. cbn [bind andthen so_strm].
      rewrite EO. reflexivity.
    - eapply height_no_circle. intros u d L. apply (HD u d L).
    - intros rain R0. rewrite <- LF in *.
      destruct (@C136_binary64_routing_is_defined fdir s2 None dem thr dist nb out VF (eq_sym LF) LN Logic.I HN2 HW (ff_elev FA) AC RO EO rain) as [q [Rq Uq]].
      exists q, (filter (fun c => negb (passes_on64 out c)) (seq 0 (length fdir))).
      split; [exact Rq|]. split; [exact Uq|]. split; [apply NoDup_filter, seq_NoDup|]. split; [|split].
      + intros c Hc. apply filter_In in Hc. destruct Hc as [Hc P]. apply in_seq in Hc. apply negb_true_iff in P.
        split; [lia|]. split; [auto|].
        destruct (nth_error dem c) as [[z|]|] eqn:Ez; [|right; exact Ez|apply nth_error_None in Ez; lia]. left.
        assert (Vc : is_valid dem c) by (exists z; auto).
        destruct (base_dec FA FU RUN (val_lt Vc)) as [B|B]; [auto|]. exfalso.
        destruct (all_pass64 FA FU RUN EO Vc B) as [d [[NE (f & s & I)] _]].
        assert (X : passes_on64 out c = true); [|congruence]. unfold passes_on64. apply existsb_exists. eexists. split; [exact I|].
        apply andb_true_iff. split; [apply Z.eqb_refl|]. apply negb_true_iff, Z.eqb_neq. lia.
      + intros c Nc. assert (Lc : c < length fdir) by (rewrite LF; apply nth_error_Some; unfold is_nan in Nc; congruence).
        rewrite (Rq c Lc). unfold arriving64. rewrite rsum_zero; [ring|]. intros [[[u d] f] s] I. exfalso.
        apply filter_In in I. destruct I as [I X]. apply andb_true_iff in X. destruct X as [X1 X2]. apply Z.eqb_eq in X1. apply negb_true_iff, Z.eqb_neq in X2.
        destruct (C135_landscape_cascades_descend (binary64_down_laws (dist_pos FA)) VF (eq_sym LF) (Logic.I : basin_fits None (length fdir)) HN OK EO I) as (n & m & -> & -> & _).
        assert (m = c) by lia. subst m.
        assert (L : leads out n c) by (split; [intros ->; lia|eauto]).
        destruct (nan_dry64 FA FU RUN EO L) as [z Hz]. unfold is_nan in Nc. congruence.
      + exact (@C136_binary64 fdir s2 None dem thr dist nb out VF (eq_sym LF) LN Logic.I HN2 HW (ff_elev FA) AC RO EO rain q R0 Rq).
  Qed.
End Pipeline.

(** A case: a hill above two slopes above a river cell, all next to each other *)
Module ExWater.
  Import PropsFloat.ExF PropsRainF.ExRain.
  Definition dem4 : list (option b64) := [Some (dbl 9 0); Some (dbl 5 0); Some (dbl 5 0); Some (dbl 1 0)].
  Definition fdir4 : list Z := [3; 3; 3; 3]%Z.
  Definition strm4 : list Z := [0; 0; 0; 1]%Z.
  Definition made4 := cascades_many f_one f_abs f_total f_quot f_le0 f_keep fdir4 strm4 None
    (table f_sub f_div f_lt f_zero f_big one (queen 2 2) dem4 thr) (table_nb (queen 2 2) dem4).
  Definition out4 : list record64 := match made4 with Ok o => o | Err _ => [] end.
  (** five records between cells: three from the hill, one from each slope; and the river cell's own *)
  Lemma count4 : match made4 with Ok o => length o | Err _ => 0 end = 6.
  Proof. vm_compute. reflexivity. Qed.
  Lemma out4_made : made4 = Ok out4.
  Proof. assert (C := count4). unfold out4. destruct made4; [reflexivity|discriminate]. Qed.

  Lemma elev4 c z : nth_error dem4 c = Some (Some z) -> finite z /\ (Rabs (val z) <= bpow radix2 60)%R.
  Proof.
    intros H. destruct c as [|[|[|[|c]]]]; [| | | |destruct c; discriminate]; cbn [nth_error dem4] in H; apply some_inj in H; subst z;
      (split; [vm_compute; reflexivity|]); apply small; rewrite ?val9, ?val5, ?val1; lra.
  Qed.
  Lemma near4 c n : adjacent (queen 2 2) c n -> n < 4 /\ finite (one c n) /\ (bpow radix2 (-60) <= val (one c n))%R.
  Proof.
    intros [l [El I]]. split; [|split; [reflexivity|]].
    - assert (X : forallb (forallb (fun m => m <? 4)) (queen 2 2) = true) by (vm_compute; reflexivity).
      apply Nat.ltb_lt. exact (proj1 (forallb_forall _ _) (proj1 (forallb_forall _ _) X l (nth_error_In _ _ El)) n I).
    - unfold one. rewrite val1. change 1%R with (bpow radix2 0). apply bpow_le. lia.
  Qed.
  Lemma narrow4 l : In l (queen 2 2) -> length l <= 1000.
  Proof.
    intros I. assert (X : forallb (fun l => length l <=? 9) (queen 2 2) = true) by (vm_compute; reflexivity).
    assert (Y := proj1 (forallb_forall _ _) X l I). apply Nat.leb_le in Y. lia.
  Qed.
  Lemma valid4 : valid_fdir fdir4.
  Proof. repeat constructor; cbn; lia. Qed.
  Lemma acyclic4 : acyclic fdir4.
  Proof.
    assert (X : forall k, downs fdir4 k 3 = 3) by (induction k; auto).
    intros n Hn [D [[|k] [Hk E]]]; [lia|]. destruct n as [|[|[|[|n]]]]; cbn in Hn; [| | |apply D; reflexivity|lia];
    [change (downs fdir4 k 3 = 0) in E|change (downs fdir4 k 3 = 1) in E|change (downs fdir4 k 3 = 2) in E]; rewrite X in E; discriminate.
  Qed.
  Lemma runs4 : runs_on fdir4 strm4 None.
  Proof.
    intros c Lc _ _ _. exists 1%Z. split; [|lia].
    destruct c as [|[|[|[|c]]]]; [reflexivity|reflexivity|reflexivity|reflexivity|cbn in Lc; lia].
  Qed.
  (** a litre on every cell: it is kept by the river cell, up to rounding *)
  Example kept4 : exists q, routed64 out4 4 (fun _ => 1%R) q /\
    ((1 - / 10 ^ 13) ^ 9 * 4 <= amount (filter (fun c => negb (passes_on64 out4 c)) (seq 0 4)) q <= (1 + / 10 ^ 13) ^ 9 * 4)%R.
  Proof.
    assert (HB : basin_fits None (length fdir4)) by exact I.
    destruct (@C136_binary64_routing_is_defined fdir4 strm4 None dem4 thr one (queen 2 2) out4 valid4 eq_refl eq_refl HB near4 narrow4 elev4 acyclic4 runs4 out4_made (fun _ => 1%R)) as [q [RT _]].
    exists q. split; [exact RT|].
    assert (X := @C136_binary64 fdir4 strm4 None dem4 thr one (queen 2 2) out4 valid4 eq_refl eq_refl HB near4 narrow4 elev4 acyclic4 runs4 out4_made (fun _ => 1%R) q
      ltac:(intros; lra) RT). cbv zeta in X.
    replace (amount (seq 0 (length fdir4)) (fun _ => 1%R)) with 4%R in X by (unfold amount, rsum; cbn; lra).
    exact X.
  Qed.
  Lemma ends4 : filter (fun c => negb (passes_on64 out4 c)) (seq 0 4) = [3].
  Proof. vm_compute. reflexivity. Qed.
  Example C137_case := @C137_binary64_rain_reaches_the_outlets Z Z.add 0%Z 3%Z thr one dem3 (queen 1 3) [] (fun c => c = 2) (repeat 1%Z 3) 100 20 2%Z
    falling3 steps3 eq_refl ltac:(cbn; lia) ltac:(cbn; lia).
End ExWater.
