(** C98 for the arithmetic of float64 and for exact arithmetic, with any number of neighbours. *)
From Coq Require Import ZArith Reals Lra Lia Permutation QArith Qcanon Qcabs.
From Flocq Require Import Core.Core IEEE754.BinarySingleNaN.
From Verif Require Import Py MFlow MDir MObj MStream MSobj MWorld LWorld3 PropsWorld PropsWorld3 LFloat LSum LDir4 PropsAcc2 PropsAccF
  PropsWorldF LSumF PropsCascF PropsFloat.
Set Implicit Arguments.
Unset Strict Implicit.
Local Open Scope nat_scope.
Local Open Scope list_scope.
Local Notation length := List.length.

(** ** Doubles *)

(** the exact sum of the absolute values of some slopes *)
Definition exact_total (ys : list b64) : R := rsum (map (fun y => Rabs (val y)) ys).

(** the slopes are of moderate size, and none is within a relative 1e-12 of the limit of one
    percent of the sum *)
Definition clear_cut (ys : list b64) : Prop :=
  forall y, In y ys -> finite y /\ (Rabs (val y) <= bpow radix2 1000)%R /\
    ((0 < exact_total ys)%R ->
       (Rabs (val y) < (1 - 1 / 1000000000000) * (exact_total ys / 100))%R \/
       ((1 + 1 / 1000000000000) * (exact_total ys / 100) < Rabs (val y))%R).

Lemma val_abs x : val (f_abs x) = Rabs (val x).
Proof. unfold f_abs. apply B2R_Babs. Qed.

Lemma total_of_abs ys : rsum (map val (map f_abs ys)) = exact_total ys.
Proof. unfold exact_total. rewrite map_map. f_equal. apply map_ext. intros y. apply val_abs. Qed.

Lemma drops_total xs ys : drops f_zero xs ys -> exact_total xs = exact_total ys.
Proof.
  induction 1 as [|x xs ys D IH|xs ys D IH]; unfold exact_total in *; cbn [map rsum fold_right] in *; unfold rsum in *; auto.
  - now rewrite IH.
  - change (val f_zero) with 0%R. rewrite Rabs_R0, IH. ring.
Qed.
Lemma drops_in {T} (z : T) xs ys : drops z xs ys -> forall y, In y ys -> In y xs.
Proof. induction 1; intros w Hw; cbn [In] in *; intuition. Qed.
Lemma drops_finite xs ys : drops f_zero xs ys -> (forall y, In y ys -> finite y /\ (Rabs (val y) <= bpow radix2 1000)%R) ->
  forall x, In x xs -> finite x /\ (Rabs (val x) <= bpow radix2 1000)%R.
Proof.
  induction 1 as [|x xs ys D IH|xs ys D IH]; intros H z Hz; cbn [In] in *; [easy| |].
  - destruct Hz as [<-|Hz]; [apply H; now left|]. apply IH; auto.
  - destruct Hz as [<-|Hz]; [|auto]. split; [reflexivity|]. change (val f_zero) with 0%R. rewrite Rabs_R0. left. apply bpow_gt_0.
Qed.

(** the rounded constant 0.01 *)
Lemma percent_near : (Rabs (val f_percent - 1 / 100) <= 1 / 1000000000000000000)%R.
Proof. apply Rabs_le. unfold f_percent, B2R, F2R. simpl. lra. Qed.

(** whether a candidate passes the test depends only on its exact share *)
Lemma kept_exact xs y : length xs <= 1000 -> (forall x, In x xs -> finite x /\ (Rabs (val x) <= bpow radix2 1000)%R) -> In y xs ->
  ((exact_total xs <= 0)%R -> kept f_abs f_quot f_keep y (f_total (map f_abs xs)) = false) /\
  ((0 < exact_total xs)%R -> (Rabs (val y) < (1 - 1 / 1000000000000) * (exact_total xs / 100))%R ->
     kept f_abs f_quot f_keep y (f_total (map f_abs xs)) = false) /\
  ((0 < exact_total xs)%R -> ((1 + 1 / 1000000000000) * (exact_total xs / 100) < Rabs (val y))%R ->
     kept f_abs f_quot f_keep y (f_total (map f_abs xs)) = true).
Proof.
  intros L HX I. set (t := f_total (map f_abs xs)). set (S := exact_total xs).
  assert (HN : forall z, In z (map f_abs xs) -> nonneg z /\ finite z).
  { intros z Hz. apply in_map_iff in Hz. destruct Hz as (x & <- & Hx). destruct (HX x Hx) as [F _]. split; [apply abs_nonneg; now apply fin_ok|].
    destruct x; try discriminate; reflexivity. }
  assert (ST := total_summed (map f_abs xs)). fold t in ST.
  assert (NT : nonneg t) by (eapply sum_nonneg; [exact ST|intros z Hz; now apply HN]).
  assert (Ia : In (f_abs y) (map f_abs xs)) by now apply in_map.
  assert (GE : f_ge t (f_abs y) = true) by (eapply sum_part; [exact ST|intros z Hz; now apply HN|exact Ia]).
  destruct (HN _ Ia) as [Ny Fy].
  assert (B : (S <= bpow radix2 1020)%R).
  { unfold S, exact_total. eapply Rle_trans; [apply rsum_le with (M := bpow radix2 1000)|].
    - intros v Hv. apply in_map_iff in Hv. destruct Hv as (x & <- & Hx). now apply HX.
    - rewrite map_length. assert (X : (INR (length xs) <= bpow radix2 10)%R).
      { apply Rle_trans with (INR 1000); [now apply le_INR|]. rewrite INR_IZR_INZ. simpl. lra. }
      apply Rle_trans with (bpow radix2 10 * bpow radix2 1000)%R; [apply Rmult_le_compat_r; [apply bpow_ge_0|auto]|].
      rewrite <- bpow_plus. apply bpow_le. lia. }
  destruct (@sum_close _ _ _ ST HN) as [FT WT]; [rewrite map_length; lia|rewrite total_of_abs; exact B|].
  rewrite total_of_abs in WT. fold S in WT. rewrite map_length in WT.
  assert (S0 : (0 <= S)%R) by (apply rsum_nonneg; intros v Hv; apply in_map_iff in Hv; destruct Hv as (x & <- & _); apply Rabs_pos).
  assert (U := u_pos). assert (US : (u * 9000000000000000 <= 1)%R) by (unfold u; simpl; lra).
  assert (HI : (INR (Datatypes.S (length xs)) <= 1001)%R).
  { replace 1001%R with (INR 1001) by (rewrite INR_IZR_INZ; reflexivity). apply le_INR. lia. }
  assert (HI0 := pos_INR (Datatypes.S (length xs))).
  set (d := (INR (Datatypes.S (length xs)) * u)%R) in *.
  assert (D : (0 <= d <= 1 / 8000000000000)%R) by (unfold d; split; [nra|nra]).
  destruct (@within_linear (Datatypes.S (length xs)) S (val t) S0) as [W1 W2]; [fold d; lra|exact WT|]. fold d in W1, W2. clearbody d. clear HI HI0 WT.
  assert (VT := nonneg_val NT FT). assert (P1 := percent_near). apply Rabs_le_inv in P1.
  assert (K : forall x : bool, (kept f_abs f_quot f_keep y t = x) -> kept f_abs f_quot f_keep y t = x) by auto. clear K.
  assert (NK : (val t <= 0)%R -> kept f_abs f_quot f_keep y t = false).
  { intros Z. unfold kept. destruct (f_quot (f_abs y) t) as [q|] eqn:E; auto. destruct (f_keep q) eqn:KQ; auto. exfalso.
    destruct (kept_total Ny NT GE E KQ) as (_ & P & _). lra. }
  split; [intros Z; apply NK; nra|].
  assert (QS : (0 < S)%R -> (0 < val t)%R) by (intros; nra).
  split; intros P Q; specialize (QS P); destruct (quot_spec Ny NT FT QS GE) as (q & E & Fq & Vq & _); rewrite val_abs in Vq;
  unfold kept; rewrite E; unfold f_keep; set (a := Rabs (val y)) in *; assert (A0 : (0 <= a)%R) by apply Rabs_pos; clearbody a.
  - destruct (f_lt f_percent q) eqn:LT; auto. exfalso. apply lt_val in LT; auto; [|reflexivity].
    assert (X : (a / val t <= val f_percent)%R).
    { apply (Rmult_le_reg_r (val t)); auto. unfold Rdiv. rewrite Rmult_assoc, Rinv_l by lra. nra. }
    apply rnd_le in X. rewrite rnd_val in X. lra.
  - apply lt_val; auto; [reflexivity|].
    assert (X : (val f_percent * (1 + 1 / 2000000000000) <= a / val t)%R).
    { apply (Rmult_le_reg_r (val t)); auto. unfold Rdiv at 2. rewrite (Rmult_assoc a), Rinv_l by lra. nra. }
    destruct (@quot_rel (a / val t)%R) as (e & He & Ee); [nra|]. rewrite Vq, Ee. apply Rabs_le_inv in He. nra.
Qed.

Theorem b64_wide_laws (dist : nat -> nat -> b64) (nb0 : list (list nat)) :
  (forall c n, In n (nth c nb0 []) -> finite (dist c n) /\ (0 < val (dist c n))%R) ->
  (forall l, In l nb0 -> length l <= 1000) ->
  laws f_div f_lt f_zero f_big f_abs f_total f_quot f_le0 f_keep dist nb0 clear_cut.
Proof.
  intros Hd HW. apply b64_laws; [exact Hd|]. intros xs ys CC D L y Hy.
  assert (W : widest nb0 <= 1000) by now apply widest_le. assert (LD := drops_length D).
  assert (HY : forall y, In y ys -> finite y /\ (Rabs (val y) <= bpow radix2 1000)%R) by (intros z Hz; destruct (CC z Hz) as (A & B & _); auto).
  assert (HX := drops_finite D HY).
  destruct (@kept_exact xs y ltac:(lia) HX (drops_in D Hy)) as (X1 & X2 & X3).
  destruct (@kept_exact ys y ltac:(lia) HY Hy) as (Y1 & Y2 & Y3). rewrite (drops_total D) in *.
  destruct (CC y Hy) as (_ & _ & C). destruct (Rlt_or_le 0 (exact_total ys)) as [P|P].
  - destruct (C P) as [Q|Q]; [now rewrite X2, Y2|now rewrite X3, Y3].
  - now rewrite X1, Y1.
Qed.

Section World.
  Context {W : Type}.
  Variables (wadd : W -> W -> W) (wzero : W) (fone : b64) (vge : Z + W -> Z + W -> bool) (fuel lim : nat) (ncol : Z).
  Variables (dist : nat -> nat -> b64) (areas : list W) (nb0 : list (list nat)) (thr0 : b64).
  Notation step := (@step b64 W f_sub f_div f_lt f_eq f_zero f_big wadd wzero fone f_abs f_total f_quot f_le0 f_keep vge fuel lim ncol
                         dist areas nb0 thr0).
  Notation run := (@run b64 W f_sub f_div f_lt f_eq f_zero f_big wadd wzero fone f_abs f_total f_quot f_le0 f_keep vge fuel lim ncol
                         dist areas nb0 thr0).
  Notation reply := (@reply b64 W f_sub f_div f_lt f_eq f_zero f_big wadd wzero fone f_abs f_total f_quot f_le0 f_keep vge fuel lim ncol
                         dist areas nb0 thr0).
  Notation reachable := (@reachable b64 W f_sub f_div f_lt f_eq f_zero f_big wadd wzero fone f_abs f_total f_quot f_le0 f_keep vge fuel lim ncol
                         dist areas nb0 thr0).
  Notation stream_history := (@stream_history b64 W f_sub f_div f_lt f_eq f_zero f_big wadd wzero fone f_abs f_total f_quot f_le0 f_keep vge
                         fuel lim ncol dist areas nb0 thr0).

  (** C98 for doubles and up to a thousand neighbours, as long as no slope is, but for rounding,
      one percent of the sum it is compared with *)
  Theorem C98_binary64 w k i w1 x rd d ra a rz dem cs ps c p thr :
    (forall c n, In n (nth c nb0 []) -> finite (dist c n) /\ (0 < val (dist c n))%R) ->
    (forall l, In l nb0 -> length l <= 1000) -> settled f_sub f_div f_le0 dist nb0 clear_cut dem ->
    reachable w -> step w (NewStreams k i) = (w1, Ok x) ->
    reply w (FlowCall i WFlowDirectionArray) = Ok (ARef rd) -> shows w rd (CInts d) ->
    reply w (FlowCall i WFlowAccumulationArray) = Ok (ARef ra) -> shows w ra (CAcc a) ->
    reply w (FlowCall i WDem) = Ok (ARef rz) -> shows w rz (CElevs dem) ->
    length d = length dem ->
    let j := length (w_streams w) in
    stream_history j w1 cs ps -> (forall e, ~ In (Edit rz e) cs) ->
    let w2 := run w1 cs in
    resolves (w_heap w2) c p ->
    sagrees (w_heap (fst (step w2 (StreamCall j c)))) (reply w2 (StreamCall j c))
        (sreply vge fone f_abs f_total f_quot f_le0 f_keep lim fuel ncol d (fvals a)
           (table f_sub f_div f_lt f_zero f_big dist nb0 dem thr) (table_nb nb0 dem) k ps p).
  Proof. intros Hd HW HS. exact (C98_cascades_ignore_the_threshold thr (b64_wide_laws Hd HW) HS). Qed.
End World.

(** slopes that are zero or of similar size (the smallest at least a ninetieth of the largest
    times the number of neighbours) are clear-cut *)
Lemma similar_slopes ys (m M : R) : (0 < m)%R -> (M <= bpow radix2 1000)%R -> (INR (length ys) * M <= 90 * m)%R ->
  (forall y, In y ys -> finite y /\ (val y = 0%R \/ (m <= Rabs (val y) <= M)%R)) -> clear_cut ys.
Proof.
  intros Pm HM HL H y Hy. destruct (H y Hy) as [F C]. split; auto.
  assert (PM : forall z, In z ys -> (Rabs (val z) <= Rmax 0 M)%R).
  { intros z Hz. destruct (H z Hz) as [_ [->|G]]; [rewrite Rabs_R0; apply Rmax_l|]. apply Rle_trans with M; [lra|apply Rmax_r]. }
  assert (B0 := bpow_gt_0 radix2 1000).
  split; [eapply Rle_trans; [apply PM; auto|]; apply Rmax_lub; lra|].
  intros PS. destruct C as [-> |G]; [left; rewrite Rabs_R0; lra|right].
  assert (LE : (exact_total ys <= INR (length ys) * M)%R).
  { unfold exact_total. assert (EL := map_length (fun y : b64 => Rabs (val y)) ys). rewrite <- EL. apply rsum_le. intros v Hv. apply in_map_iff in Hv.
    destruct Hv as (z & <- & Hz). destruct (H z Hz) as [_ [->|K]]; [rewrite Rabs_R0|]; lra. }
  lra.
Qed.

(** ** Exact arithmetic: canonical rationals *)
Definition c_lt (x y : Qc) : bool := if Qclt_le_dec x y then true else false.
Definition c_quot (x y : Qc) : option Qc := if Qc_eq_dec y 0 then None else Some (x / y)%Qc.
Definition c_le0 (x : Qc) : bool := negb (c_lt 0%Qc x).
Definition c_keep (x : Qc) : bool := c_lt (Q2Qc (1 # 100)) x.
Definition c_total : list Qc -> Qc := np_sum Qcplus 0%Qc.
Definition csum (l : list Qc) : Qc := fold_right Qcplus 0%Qc l.

Lemma c_lt_spec x y : c_lt x y = true <-> (x < y)%Qc.
Proof.
  unfold c_lt. destruct (Qclt_le_dec x y) as [H|H]; split; auto; [discriminate|]. intros K. exfalso.
  exact (Qclt_not_le _ _ K H).
Qed.

Lemma csum_app a b : csum (a ++ b) = (csum a + csum b)%Qc.
Proof. induction a as [|x a IH]; cbn [app csum fold_right] in *; [symmetry; apply Qcplus_0_l|]. unfold csum in *. rewrite IH. apply Qcplus_assoc. Qed.
Lemma csum_perm a b : Permutation a b -> csum a = csum b.
Proof.
  induction 1 as [|x a b P IH|x y a|a b c P1 IH1 P2 IH2]; unfold csum in *; cbn [fold_right] in *; [reflexivity|congruence| |congruence].
  rewrite !Qcplus_assoc. f_equal. apply Qcplus_comm.
Qed.
Lemma summed_csum h l x : summed Qcplus 0%Qc h l x -> x = csum l.
Proof.
  induction 1 as [|h x|h l1 l2 l x y H1 IH1 H2 IH2 P]; [reflexivity|unfold csum; cbn; symmetry; apply Qcplus_0_r|].
  rewrite IH1, IH2, <- (csum_perm P), csum_app. reflexivity.
Qed.
Lemma c_total_sum l : c_total l = csum l.
Proof. exact (summed_csum (np_sum_adds_all Qcplus 0%Qc l)). Qed.

Lemma c_abs_zero : Qcabs 0%Qc = 0%Qc.
Proof. apply Qc_is_canon. reflexivity. Qed.

Theorem exact_laws (dist : nat -> nat -> Qc) (nb0 : list (list nat)) :
  (forall c n, In n (nth c nb0 []) -> (0 < dist c n)%Qc) ->
  laws Qcdiv c_lt 0%Qc (Q2Qc 10000000000) Qcabs c_total c_quot c_le0 c_keep dist nb0 (fun _ => True).
Proof.
  intros Hd. constructor.
  - exact c_abs_zero.
  - intros xs ys _ D _ y _. f_equal. rewrite !c_total_sum.
    induction D as [|x xs ys D IH|xs ys D IH]; unfold csum in *; cbn [map fold_right]; [reflexivity|now rewrite IH|].
    now rewrite c_abs_zero, IH, Qcplus_0_l.
  - intros t. unfold c_quot. destruct (Qc_eq_dec t 0); [exact I|]. reflexivity.
  - reflexivity.
  - intros c n _. apply Qcmult_0_l.
  - intros c n x I Hx. left. unfold c_le0. apply Bool.negb_false_iff. apply c_lt_spec. apply c_lt_spec in Hx. specialize (Hd c n I).
    unfold Qcdiv. rewrite <- (Qcmult_0_l (/ dist c n)). apply Qcmult_lt_compat_r; auto.
    unfold Qclt in *. change (Qcanon.this (/ dist c n)%Qc) with (Qred (/ Qcanon.this (dist c n))). change (Qcanon.this (Q2Qc 0)) with 0%Q in *.
    apply Qlt_le_trans with (/ Qcanon.this (dist c n))%Q; [now apply Qinv_lt_0_compat|]. apply Qle_lteq. right. symmetry. apply Qred_correct.
Qed.

Section Exact.
  Context {W : Type}.
  Variables (wadd : W -> W -> W) (wzero : W) (fone : Qc) (vge : Z + W -> Z + W -> bool) (fuel lim : nat) (ncol : Z).
  Variables (dist : nat -> nat -> Qc) (areas : list W) (nb0 : list (list nat)) (thr0 : Qc).
  Notation big := (Q2Qc 10000000000).
  Notation c_eq := (fun x y : Qc => if Qc_eq_dec x y then true else false).
  Notation step := (@step Qc W Qcminus Qcdiv c_lt c_eq 0%Qc big wadd wzero fone Qcabs c_total c_quot c_le0 c_keep vge fuel lim ncol
                         dist areas nb0 thr0).
  Notation run := (@run Qc W Qcminus Qcdiv c_lt c_eq 0%Qc big wadd wzero fone Qcabs c_total c_quot c_le0 c_keep vge fuel lim ncol
                         dist areas nb0 thr0).
  Notation reply := (@reply Qc W Qcminus Qcdiv c_lt c_eq 0%Qc big wadd wzero fone Qcabs c_total c_quot c_le0 c_keep vge fuel lim ncol
                         dist areas nb0 thr0).
  Notation reachable := (@reachable Qc W Qcminus Qcdiv c_lt c_eq 0%Qc big wadd wzero fone Qcabs c_total c_quot c_le0 c_keep vge fuel lim ncol
                         dist areas nb0 thr0).
  Notation stream_history := (@stream_history Qc W Qcminus Qcdiv c_lt c_eq 0%Qc big wadd wzero fone Qcabs c_total c_quot c_le0 c_keep vge
                         fuel lim ncol dist areas nb0 thr0).

  (** C98 in exact arithmetic: without conditions on the slopes or the number of neighbours *)
  Theorem C98_exact w k i w1 x rd d ra a rz dem cs ps c p thr :
    (forall c n, In n (nth c nb0 []) -> (0 < dist c n)%Qc) ->
    reachable w -> step w (NewStreams k i) = (w1, Ok x) ->
    reply w (FlowCall i WFlowDirectionArray) = Ok (ARef rd) -> shows w rd (CInts d) ->
    reply w (FlowCall i WFlowAccumulationArray) = Ok (ARef ra) -> shows w ra (CAcc a) ->
    reply w (FlowCall i WDem) = Ok (ARef rz) -> shows w rz (CElevs dem) ->
    length d = length dem ->
    let j := length (w_streams w) in
    stream_history j w1 cs ps -> (forall e, ~ In (Edit rz e) cs) ->
    let w2 := run w1 cs in
    resolves (w_heap w2) c p ->
    sagrees (w_heap (fst (step w2 (StreamCall j c)))) (reply w2 (StreamCall j c))
        (sreply vge fone Qcabs c_total c_quot c_le0 c_keep lim fuel ncol d (fvals a)
           (table Qcminus Qcdiv c_lt 0%Qc big dist nb0 dem thr) (table_nb nb0 dem) k ps p).
  Proof.
    intros Hd. apply (C98_cascades_ignore_the_threshold thr (exact_laws Hd)). intros c0 ns ys _ _. exact I.
  Qed.
End Exact.

(** ** A session in which the threshold decides: with the threshold 1 the slope to the slightly
    higher cell 0 is burnt to zero, which makes eight candidates instead of seven, and eight terms
    are added in another order.  The share of cell 1 is then 0.01 instead of 0.010000000000000002. *)
Module ExT.
  Import ExF.
  Definition nb := Grids.queen 3 3.
  (** cells one apart, or (diagonal) the double nearest to the square root of two *)
  Definition diag (a b : nat) : bool := Nat.even (a + b) .
  Definition dist (a b : nat) : b64 := if diag a b then dbl 6369051672525773 (-52) else dbl 1 0.
  Definition dem : list (option b64) :=
    map Some [dbl 129 (-1); dbl 8828965668262295 (-47); dbl 44 0; dbl 54 0; dbl 64 0; dbl 36 0; dbl 46 0; dbl 24 0; dbl 35 0].
  Notation tstep := (@step b64 Z f_sub f_div f_lt f_eq f_zero f_big Z.add 0%Z f_one f_abs f_total f_quot f_le0 f_keep (fun _ _ => false)
    50 50 3%Z dist (repeat 1%Z 9) nb f_zero).
  Notation trun := (@run b64 Z f_sub f_div f_lt f_eq f_zero f_big Z.add 0%Z f_one f_abs f_total f_quot f_le0 f_keep (fun _ _ => false)
    50 50 3%Z dist (repeat 1%Z 9) nb f_zero).
  Notation treply := (@reply b64 Z f_sub f_div f_lt f_eq f_zero f_big Z.add 0%Z f_one f_abs f_total f_quot f_le0 f_keep (fun _ _ => false)
    50 50 3%Z dist (repeat 1%Z 9) nb f_zero).
  Definition start : list (@cmd b64 Z) :=
    [New (CElevs dem); NewFlow 0 true; FlowCall 0 (WFlowDirections f_zero []); FlowCall 0 (WAccumulation true);
     NewStreams KPrms 0; StreamCall 0 (WDelineate (inl (inl 4%Z)) None)].
  Definition count (r : res (@wanswer b64)) : option nat :=
    match r with Ok (APlain (ACasc c)) => Some (length c) | _ => None end.
  Lemma counted r n : count r = Some n -> exists c, r = Ok (APlain (ACasc c)) /\ length c = n.
  Proof. destruct r as [[]|]; try discriminate. destruct a; try discriminate. intros E. injection E as E. eauto. Qed.
  (** number of cascades after flow_directions was run again with the threshold [thr] *)
  Definition cascades_after (thr : b64) : option nat :=
    count (treply (trun (@empty_world b64 Z) (start ++ [FlowCall 0 (WFlowDirections thr [])])) (StreamCall 0 (WCascades None None true false))).
  Example grid_ok : (forall c n, In n (nth c nb []) -> finite (dist c n) /\ (0 < val (dist c n))%R) /\ (forall l, In l nb -> length l <= 8).
  Proof.
    split.
    - intros c n _. unfold dist. destruct (diag c n); split; try reflexivity; apply (@lt_val f_zero); reflexivity.
    - intros l Hl. apply Nat.leb_le. revert l Hl. apply forallb_forall. vm_compute. reflexivity.
  Qed.

  (** a landscape whose slopes are similar *)
  Definition tame : list (option b64) := map Some (z [9; 8; 7; 8; 7; 6; 7; 6; 5]%Z).
  Definition similar (y : b64) : bool :=
    fin y && (negb (f_le0 y) || f_eq y f_zero || (f_le (dbl (-2) 0) y && f_le y (dbl (-1) (-1)))).
  Lemma similar_all c n y : In n (nth c nb []) -> plain_slope f_sub f_div dist tame c n = Some y -> similar y = true.
  Proof.
    assert (X : forallb (fun c => forallb (fun n => match plain_slope f_sub f_div dist tame c n with Some y => similar y | None => true end)
                  (nth c nb [])) (seq 0 9) = true) by (vm_compute; reflexivity).
    intros I E. destruct (Nat.ltb_spec c 9) as [L|L].
    - rewrite forallb_forall in X. assert (Y := X c ltac:(apply in_seq; lia)). rewrite forallb_forall in Y. specialize (Y n I). now rewrite E in Y.
    - rewrite nth_overflow in I; [destruct I|]. exact L.
  Qed.
  Lemma val_dbl m e : finite (dbl m e) -> forall r, (rank (dbl m e) = r)%Z -> (val (dbl m e) * bpow radix2 1074 = IZR r)%R.
  Proof. intros F r <-. symmetry. now apply rank_val. Qed.
  Example tame_settled : settled f_sub f_div f_le0 dist nb clear_cut tame.
  Proof.
    intros c ns ys SO F2.
    assert (L : length ys <= 8 /\ length ns <= 8).
    { assert (Q : length ns = length ys) by (clear - F2; induction F2; cbn [length]; congruence). assert (R : length ns <= length (nth c nb [])) by (clear - SO; induction SO; cbn [length]; lia).
      destruct (nth_in_or_default c nb []) as [I|E]; [apply (proj2 grid_ok) in I; lia|rewrite E in R; cbn [length] in R; lia]. }
    assert (IN : forall n, In n ns -> In n (nth c nb [])) by (clear - SO; induction SO; cbn [In]; intuition).
    assert (V2 : (val (dbl (-2) 0) = -2)%R).
    { assert (R := val_dbl (m := -2) (e := 0) eq_refl (r := (- 2 * radix2 ^ 1074)%Z) ltac:(vm_compute; reflexivity)).
      rewrite mult_IZR, IZR_Zpower in R by lia. assert (P := bpow_gt_0 radix2 1074). apply Rmult_eq_reg_r with (bpow radix2 1074); lra. }
    assert (V1 : (val (dbl (-1) (-1)) = -/2)%R).
    { assert (R := val_dbl (m := -1) (e := -1) eq_refl (r := (- radix2 ^ 1073)%Z) ltac:(vm_compute; reflexivity)).
      rewrite opp_IZR, IZR_Zpower in R by lia. assert (E : (bpow radix2 1074 = 2 * bpow radix2 1073)%R) by (change 1074%Z with (1 + 1073)%Z; rewrite bpow_plus; f_equal).
      assert (P := bpow_gt_0 radix2 1073). apply Rmult_eq_reg_r with (bpow radix2 1074); lra. }
    apply (@similar_slopes ys (/2) 2); [lra| | |].
    - change 2%R with (bpow radix2 1). apply bpow_le. lia.
    - assert (X : (INR (length ys) <= 8)%R) by (replace 8%R with (INR 8) by (simpl; lra); now apply le_INR). lra.
    - intros y Hy.
      assert (SY : exists n, In n ns /\ plain_slope f_sub f_div dist tame c n = Some y /\ f_le0 y = true).
      { clear - F2 Hy. induction F2 as [|n y' ns ys [A B] F2 IH]; [destruct Hy|]. destruct Hy as [->|Hy]; [exists n; split; [now left|auto]|].
        destruct (IH Hy) as (n' & I & R). exists n'. split; [now right|auto]. }
      destruct SY as (n & Hn & E & LE). assert (S := similar_all (IN n Hn) E). unfold similar in S. rewrite LE in S. cbn [negb orb] in S.
      apply andb_prop in S. destruct S as [F S]. split; [exact F|]. apply orb_prop in S. destruct S as [S|S].
      + left. destruct y as [|?| |s m e B]; try discriminate; [reflexivity|]. destruct s; discriminate S.
      + right. apply andb_prop in S. destruct S as [S1 S2].
        assert (LV : forall a b : b64, finite a -> finite b -> f_le a b = true -> (val a <= val b)%R).
        { intros a b Fa Fb H. destruct (Rle_or_lt (val a) (val b)) as [|X]; auto. apply (val_rank_lt Fb Fa) in X.
          rewrite le_rank in H by (now apply fin_ok). apply Z.leb_le in H. lia. }
        assert (A1 := LV _ _ (eq_refl : finite (dbl (-2) 0)) F S1). assert (A2 := LV _ _ F (eq_refl : finite (dbl (-1) (-1))) S2).
        rewrite Rabs_left by lra. lra.
  Qed.

  Lemma E1 : cascades_after f_zero = Some 20.
  Proof. vm_compute. reflexivity. Qed.
  Lemma E2 : cascades_after (dbl 1 0) = Some 19.
  Proof. vm_compute. reflexivity. Qed.
  (** C98 is false of the code in doubles on a grid with eight neighbours per cell: the same stream
      object, on the same elevations, returns 20 or 19 cascades, depending on the burn threshold
      that its FlowDirections object was last run with *)
  Theorem C98_binary64_refuted :
    exists (start : list (@cmd b64 Z)) thr1 thr2 n1 n2,
      let ask thr := treply (trun (@empty_world b64 Z) (start ++ [FlowCall 0 (WFlowDirections thr [])])) (StreamCall 0 (WCascades None None true false)) in
      (forall r e, ~ In (Edit r e) start) /\
      (exists c1, ask thr1 = Ok (APlain (ACasc c1)) /\ length c1 = n1) /\
      (exists c2, ask thr2 = Ok (APlain (ACasc c2)) /\ length c2 = n2) /\ n1 <> n2.
  Proof.
    exists start, f_zero, (dbl 1 0), 20, 19. cbv zeta.
    split; [intros r e H; unfold start in H; repeat (destruct H as [H|H]; [discriminate H|]); destruct H|].
    split; [exact (counted E1)|]. split; [exact (counted E2)|]. discriminate.
  Qed.
End ExT.
