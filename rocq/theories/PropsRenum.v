(** C124: results do not depend on how the cells of the grid are numbered: the same flow directions
    in another numbering give the same accumulations, watersheds, streams, river network, segments
    and cascades, in that numbering. *)
From Coq Require Import Permutation.
From Verif Require Import Py Spec MFlow LGraph LAcc PropsAcc MStream LStream PropsStream PropsBasin LConn LSeg LSeg2 LSeg3 LSeg4 PropsSeg PropsCasc PropsCasc3 PropsDirNum PropsSame.
Set Implicit Arguments.
Unset Strict Implicit.
Local Open Scope nat_scope.
Local Open Scope list_scope.

(** the flow directions (2) are those of (1) in the new numbering: cell [c] is called [s c] *)
Definition same_flow (s : nat -> nat) (fdir1 fdir2 : list Z) : Prop :=
  length fdir2 = length fdir1 /\
  forall c, c < length fdir1 -> nth_error fdir2 (s c) = Some (Z.of_nat (s (down fdir1 c))).

(** so is an array with a value for every cell *)
Definition same_array {A} (s : nat -> nat) (a1 a2 : list A) : Prop :=
  length a2 = length a1 /\ forall c, c < length a1 -> nth_error a2 (s c) = nth_error a1 c.

(** ** Sums over a set of cells *)
Section Sums.
  Context {W : Type} (plus : W -> W -> W) (zero : W).
  Lemma sum_list w P n x : sum_over plus zero w P n x ->
    exists l, NoDup l /\ (forall c, In c l <-> c < n /\ P c) /\ x = fold_right (fun c a => plus a (w c)) zero l.
  Proof.
    induction 1 as [|n x H IH HP|n x H IH HP].
    - exists []. split; [constructor|]. split; [intros c; split; [intros []|intros [Q _]; lia]|reflexivity].
    - destruct IH as [l [ND [HI ->]]]. exists (n :: l). split; [constructor; auto; rewrite HI; lia|]. split; [|reflexivity].
      intros c. cbn. rewrite HI. split; [intros [<-|[Q1 Q2]]; auto|].
      intros [Q1 Q2]. destruct (Nat.eq_dec n c) as [|]; [auto|right; split; auto; lia].
    - destruct IH as [l [ND [HI ->]]]. exists l. split; auto. split; [|reflexivity].
      intros c. rewrite HI. split; [intros [Q1 Q2]; split; auto|].
      intros [Q1 Q2]. destruct (Nat.eq_dec n c) as [->|]; [contradiction|split; auto; lia].
  Qed.
  Hypothesis ES : exact_sum plus zero.
  Lemma fold_perm (w : nat -> W) l l' : Permutation l l' ->
    fold_right (fun c a => plus a (w c)) zero l = fold_right (fun c a => plus a (w c)) zero l'.
  Proof.
    destruct ES as [HC [HA _]]. induction 1 as [|x l l' H IH|x y l|l l' l'' H1 IH1 H2 IH2]; cbn; auto; [now rewrite IH| |congruence].
    rewrite <- !HA. f_equal. apply HC.
  Qed.
End Sums.

Section Renumber.
  Variables (fdir1 fdir2 : list Z) (s t : nat -> nat).
  Notation N := (length fdir1).
  Hypothesis V : valid_fdir fdir1.
  Hypothesis RN : renumbering N s t.
  Hypothesis SF : same_flow s fdir1 fdir2.

  Lemma s_lt c : c < N -> s c < N. Proof using RN. intros H. now apply RN. Qed.
  Lemma t_lt c : c < N -> t c < N. Proof using RN. intros H. now apply RN. Qed.
  Lemma ts c : c < N -> t (s c) = c. Proof using RN. intros H. now apply RN. Qed.
  Lemma st c : c < N -> s (t c) = c. Proof using RN. intros H. now apply RN. Qed.
  Lemma s_inj a b : a < N -> b < N -> s a = s b -> a = b.
  Proof using RN. intros Ha Hb E. rewrite <- (ts Ha), <- (ts Hb). now rewrite E. Qed.
  Lemma len2 : length fdir2 = N. Proof using SF. apply SF. Qed.

  Lemma valid2 : valid_fdir fdir2.
  Proof using V RN SF.
    unfold valid_fdir. rewrite len2. apply Forall_forall. intros d Hd. apply In_nth_error in Hd. destruct Hd as [c Hc].
    assert (Lc : c < N) by (rewrite <- len2; apply nth_error_Some; congruence).
    destruct SF as [_ H]. specialize (H _ (t_lt Lc)). rewrite (st Lc), Hc in H. injection H as ->.
    assert (Q := s_lt (down_lt V (t_lt Lc))). lia.
  Qed.

  Lemma down2 c : c < N -> down fdir2 (s c) = s (down fdir1 c).
  Proof using SF.
    intros H. destruct SF as [_ HS]. specialize (HS _ H). unfold down at 1.
    rewrite (nth_error_nth _ _ 0%Z HS). now rewrite Nat2Z.id.
  Qed.
  Lemma downs2 k : forall c, c < N -> downs fdir2 k (s c) = s (downs fdir1 k c).
  Proof using V SF.
    induction k as [|k IH]; intros c H; cbn; auto. rewrite down2 by auto. apply IH. now apply down_lt.
  Qed.
  Lemma downs_in k c : c < N -> downs fdir1 k c < N.
  Proof using V. revert c. induction k as [|k IH]; intros c H; cbn; auto. apply IH. now apply down_lt. Qed.

  Lemma through2 c n : c < N -> n < N -> flows_through fdir2 (s c) (s n) <-> flows_through fdir1 c n.
  Proof using V RN SF.
    intros Hc Hn. split; intros [k Hk]; exists k.
    - rewrite downs2 in Hk by auto. apply s_inj in Hk; auto using downs_in.
    - rewrite downs2 by auto. congruence.
  Qed.

  Lemma cycle2 n : n < N -> on_cycle fdir2 (s n) <-> on_cycle fdir1 n.
  Proof using V RN SF.
    intros Hn. unfold on_cycle. rewrite down2 by auto. split; intros [A [k [K1 K2]]]; (split; [|exists k; split; auto]).
    - intros Q. apply A. now rewrite Q.
    - rewrite downs2 in K2 by auto. apply s_inj in K2; auto using downs_in.
    - intros Q. apply A. apply s_inj; auto. now apply down_lt.
    - rewrite downs2 by auto. congruence.
  Qed.
  Lemma acyclic2 : acyclic fdir1 -> acyclic fdir2.
  Proof using V RN SF.
    intros A c Hc. rewrite len2 in Hc. rewrite <- (st Hc), cycle2 by (now apply t_lt). apply A. now apply t_lt.
  Qed.

  Lemma upstream2 n l : n < N -> upstream_cells fdir1 n l -> upstream_cells fdir2 (s n) (map s l).
  Proof using V RN SF.
    intros Hn [ND HI]. split.
    - assert (B : forall c, In c l -> c < N) by (intros c Hc; now apply HI in Hc). clear HI.
      induction ND as [|x l N1 N2 IH]; cbn; constructor; [|apply IH; intros; apply B; now right].
      intros Q. apply in_map_iff in Q. destruct Q as [y [Q Hy]]. apply s_inj in Q; [|apply B; now right|apply B; now left].
      now subst.
    - intros c. rewrite len2, in_map_iff. split.
      + intros [x [<- Hx]]. apply HI in Hx. destruct Hx as [Hx Hf]. split; [now apply s_lt|now apply through2].
      + intros [Hc Hf]. exists (t c). rewrite (st Hc). split; auto. apply HI. split; [now apply t_lt|].
        rewrite <- (st Hc) in Hf. apply through2 in Hf; auto. now apply t_lt.
  Qed.

  (** C124: the number of cells that drain to a cell *)
  Theorem C124_cells_any_numbering W1 W2 (add1 : W1 -> W1 -> W1) z1 (add2 : W2 -> W2 -> W2) z2 area1 area2 fuel1 fuel2 cells1 cells2 :
    length area1 = N -> length area2 = N -> S N <= fuel1 -> S N <= fuel2 ->
    flow_accumulation_cells add1 z1 fuel1 fdir1 area1 = Ok cells1 ->
    flow_accumulation_cells add2 z2 fuel2 fdir2 area2 = Ok cells2 ->
    forall n, n < N -> ~ on_cycle fdir1 n -> nth_error cells2 (s n) = nth_error cells1 n.
  Proof using V RN SF.
    intros L1 L2 F1 F2 E1 E2 n Hn NC. assert (LL := len2).
    destruct (@C19_accumulated_cells W1 add1 z1 fdir1 area1 fuel1 cells1 V L1 F1 E1 n Hn NC) as [l1 [U1 ->]].
    destruct (@C19_accumulated_cells W2 add2 z2 fdir2 area2 fuel2 cells2 valid2) with (n := s n) as [l2 [U2 ->]]; try lia; auto.
    { rewrite LL. now apply s_lt. }
    { now rewrite cycle2. }
    apply (upstream2 Hn) in U1. destruct U1 as [N1 H1], U2 as [N2 H2]. do 2 f_equal. rewrite <- (map_length s l1).
    apply Nat.le_antisymm; apply NoDup_incl_length; auto; intros x Hx; [apply H1, H2|apply H2, H1]; auto.
  Qed.

  (** C124: the area that drains to a cell *)
  Theorem C124_area_any_numbering W (wadd : W -> W -> W) wzero area1 area2 fuel1 fuel2 acc1 acc2 :
    exact_sum wadd wzero -> length area1 = N -> same_array s area1 area2 -> S N <= fuel1 -> S N <= fuel2 ->
    flow_accumulation_area wadd wzero fuel1 fdir1 area1 = Ok acc1 ->
    flow_accumulation_area wadd wzero fuel2 fdir2 area2 = Ok acc2 ->
    forall n, n < N -> ~ on_cycle fdir1 n -> nth_error acc2 (s n) = nth_error acc1 n.
  Proof using V RN SF.
    intros ES L1 [L2 SA] F1 F2 E1 E2 n Hn NC. assert (LL := len2).
    destruct (@C20_accumulated_area W wadd wzero fdir1 area1 fuel1 acc1 ES V L1 F1 E1 n Hn NC) as [x1 [-> S1]].
    destruct (@C20_accumulated_area W wadd wzero fdir2 area2 fuel2 acc2 ES valid2) with (n := s n) as [x2 [-> S2]]; try lia; auto.
    { rewrite LL. now apply s_lt. }
    { now rewrite cycle2. }
    f_equal. apply sum_list in S1, S2. destruct S1 as [l1 [N1 [H1 ->]]], S2 as [l2 [N2 [H2 ->]]].
    assert (U1 : upstream_cells fdir2 (s n) (map s l1)) by (apply upstream2; auto; split; auto).
    assert (P : Permutation l2 (map s l1)).
    { apply NoDup_Permutation; auto; [apply U1|]. intros x. rewrite H2. symmetry. apply U1. }
    rewrite (fold_perm ES _ P). clear P U1 H2 N2 N1.
    assert (B : forall c, In c l1 -> c < N) by (intros c Hc; now apply H1 in Hc). clear H1.
    induction l1 as [|c l1 IH]; cbn; auto. rewrite IH by (intros; apply B; now right). f_equal.
    assert (Hc : c < N) by (apply B; now left). assert (Q := SA c). rewrite L1 in Q. specialize (Q Hc).
    destruct (nth_error area1 c) as [a|] eqn:Ea.
    - now rewrite (nth_error_nth _ _ wzero Ea), (nth_error_nth _ _ wzero Q).
    - apply nth_error_None in Ea. lia.
  Qed.

  (** C124: the watershed of a cell *)
  Theorem C124_watershed_any_numbering p fuel1 fuel2 out1 out2 :
    p < N -> N <= fuel1 -> N <= fuel2 ->
    get_watershed_boundary fuel1 fdir1 (Z.of_nat p) None = Ok out1 ->
    get_watershed_boundary fuel2 fdir2 (Z.of_nat (s p)) None = Ok out2 ->
    same_array s out1 out2.
  Proof using V RN SF.
    intros Hp F1 F2 E1 E2. assert (LL := len2).
    destruct (@C24_watershed_is_upstream fdir1 p fuel1 V Hp F1) as [o1 [Q1 [L1 H1]]]. rewrite E1 in Q1. injection Q1 as <-.
    destruct (@C24_watershed_is_upstream fdir2 (s p) fuel2 valid2) as [o2 [Q2 [L2 H2]]]; [rewrite LL; now apply s_lt|lia|].
    rewrite E2 in Q2. injection Q2 as <-. split; [lia|]. intros c Hc. rewrite L1 in Hc.
    destruct (H1 c Hc) as [A1 B1]. destruct (H2 (s c)) as [A2 B2]; [rewrite LL; now apply s_lt|].
    assert (D : flows_through fdir1 c p \/ ~ flows_through fdir1 c p).
    { destruct (nth_error out1 c) as [v|] eqn:Ev; [|apply nth_error_None in Ev; lia].
      destruct (Z.eq_dec v 1) as [->|N1]; [left|right; intros Q; apply A1 in Q; congruence].
      destruct (flows_dec V p Hc) as [Q|Q]; auto. apply B1 in Q. congruence. }
    destruct D as [D|D]; [rewrite A1, A2|rewrite B1, B2]; auto; rewrite ?through2; auto.
  Qed.

  (** C124: the streams at a threshold.  [facc1] and [facc2] are accumulations in the two numberings *)
  Theorem C124_streams_any_numbering T (ge : T -> T -> bool) facc1 facc2 thr out1 out2 :
    length facc1 = N -> same_array s facc1 facc2 ->
    delineate_streams ge facc1 (Scalar thr) None = Ok out1 ->
    delineate_streams ge facc2 (Scalar thr) None = Ok out2 ->
    same_array s out1 out2.
  Proof using.
    clear. intros L1 [L2 SA] E1 E2. cbn in E1, E2. injection E1 as <-. injection E2 as <-. split; [now rewrite !map_length|].
    intros c Hc. rewrite map_length in Hc. now rewrite !nth_error_map, SA.
  Qed.

  Variables (strm1 strm2 : list Z).
  Hypothesis LS : length strm1 = N.
  Hypothesis SS : same_array s strm1 strm2.

  Lemma ls2 : length strm2 = length fdir2.
  Proof using LS SS SF. rewrite len2. destruct SS. lia. Qed.
  Lemma sc_lt c : stream_cell strm1 c -> c < N.
  Proof using LS. intros [v [H _]]. rewrite <- LS. apply nth_error_Some. congruence. Qed.
  Lemma sc2 c : c < N -> stream_cell strm2 (s c) <-> stream_cell strm1 c.
  Proof using LS SS. intros H. unfold stream_cell. destruct SS as [_ SA]. rewrite SA by lia. tauto. Qed.
  Lemma sc2_lt c : stream_cell strm2 c -> c < N.
  Proof using LS SS. intros [v [H _]]. destruct SS as [Q _]. rewrite <- LS, <- Q. apply nth_error_Some. congruence. Qed.

  Lemma inflows2 c l : c < N -> stream_inflows fdir1 strm1 c l -> stream_inflows fdir2 strm2 (s c) (map s l).
  Proof using V RN SF LS SS.
    intros Hc [ND HI]. split.
    - assert (B : forall c, In c l -> c < N) by (intros x Hx; apply HI in Hx; now apply sc_lt). clear HI.
      induction ND as [|x l N1 N2 IH]; cbn; constructor; [|apply IH; intros; apply B; now right].
      intros Q. apply in_map_iff in Q. destruct Q as [y [Q Hy]]. apply s_inj in Q; [|apply B; now right|apply B; now left].
      now subst.
    - intros x. rewrite in_map_iff. split.
      + intros [y [<- Hy]]. apply HI in Hy. destruct Hy as [Sy Dy]. assert (Ly := sc_lt Sy).
        split; [now apply sc2|]. now rewrite down2, Dy.
      + intros [Sx Dx]. assert (Lx := sc2_lt Sx). exists (t x). rewrite (st Lx). split; auto. apply HI.
        rewrite <- (st Lx) in Sx, Dx. assert (Lt := t_lt Lx). rewrite down2 in Dx by auto.
        split; [now apply sc2 in Sx|]. apply s_inj in Dx; auto. now apply down_lt.
  Qed.
  Lemma starts2 c : starts_segment fdir1 strm1 c -> starts_segment fdir2 strm2 (s c).
  Proof using V RN SF LS SS.
    intros [Sc [l [HI HL]]]. assert (Hc := sc_lt Sc). split; [now apply sc2|]. exists (map s l).
    split; [now apply inflows2|now rewrite map_length].
  Qed.
  Lemma ring2 c : c < N -> closed_ring fdir1 strm1 c -> closed_ring fdir2 strm2 (s c).
  Proof using V RN SF LS SS.
    intros Hc [k [K0 [K1 K2]]]. exists k. split; auto. rewrite downs2 by auto. split; [congruence|].
    intros j. destruct (K2 j) as [Sj [x Hx]]. assert (Lj := sc_lt Sj). rewrite downs2 by auto.
    split; [now apply sc2|]. exists (s x). change [s x] with (map s [x]). now apply inflows2.
  Qed.

  (** C124: the MODFLOW 6 network *)
  Theorem C124_network6_any_numbering lim1 lim2 a1 a2 g1 g2 :
    mf6_connectivity lim1 fdir1 strm1 = Ok (a1, g1) -> mf6_connectivity lim2 fdir2 strm2 = Ok (a2, g2) ->
    forall c d, c < N -> d < N -> (runs_into6 a2 g2 (s c) (s d) <-> runs_into6 a1 g1 c d).
  Proof using V RN SF LS SS.
    intros E1 E2 c d Hc Hd. rewrite (mf6_next V LS c d E1), (mf6_next valid2 ls2 (s c) (s d) E2).
    rewrite !sc2, down2 by auto. split; intros [A [B C]]; (split; [auto|split; [auto|]]).
    - apply s_inj in C; auto. now apply down_lt.
    - congruence.
  Qed.
End Renumber.

(** the same in the other direction *)
Lemma renum_sym N s t : renumbering N s t -> renumbering N t s.
Proof. intros [A B]. split; auto. Qed.
Lemma flow_sym fdir1 fdir2 s t : valid_fdir fdir1 -> renumbering (length fdir1) s t -> same_flow s fdir1 fdir2 -> same_flow t fdir2 fdir1.
Proof.
  intros V RN SF. assert (LL := len2 SF). split; [auto|]. intros c Hc. rewrite LL in Hc.
  assert (Lt := t_lt RN Hc). rewrite <- (st RN Hc) at 2. rewrite (down2 SF Lt), (ts RN) by (now apply down_lt).
  unfold down. rewrite Z2Nat.id.
  - apply nth_error_nth'. exact Lt.
  - unfold valid_fdir in V. rewrite Forall_forall in V. apply V. now apply nth_In.
Qed.
Lemma array_sym {A} N s t (a1 a2 : list A) : renumbering N s t -> length a1 = N -> same_array s a1 a2 -> same_array t a2 a1.
Proof.
  intros RN L [LL SA]. split; [auto|]. intros c Hc. rewrite LL, L in Hc. destruct RN as [_ B]. destruct (B c Hc) as [B1 B2].
  rewrite <- B2 at 2. symmetry. apply SA. lia.
Qed.

(** [c] is [j] cells below the start [a] of its segment *)
Definition seg_pos (fdir strm : list Z) (c a j : nat) : Prop :=
  starts_segment fdir strm a /\ downs fdir j a = c /\
  forall i, 0 < i <= j -> stream_cell strm (downs fdir i a) /\ ~ starts_segment fdir strm (downs fdir i a).

Lemma downs_S' fdir j : forall a, downs fdir (S j) a = down fdir (downs fdir j a).
Proof. induction j as [|j IH]; intros a; [reflexivity|]. cbn [downs] in *. apply IH. Qed.

Lemma rows_pos fdir strm lim fuel m : valid_fdir fdir -> length strm = length fdir -> length fdir <= fuel ->
  mf2005_connectivity lim fuel true fdir strm = Ok m ->
  forall c g r, In (Z.of_nat c, g, r) (m_nsr m) <->
    exists a j, seg_pos fdir strm c a j /\ In (Z.of_nat a, g, 1%Z) (m_nsr m) /\ r = (Z.of_nat j + 1)%Z.
Proof.
  intros V L Hf E. destruct (@C42_segments_partition_the_streams fdir strm lim fuel m V L Hf E) as [RS [ND [CO RO]]].
  assert (SCR : forall y s r, In (Z.of_nat y, s, r) (m_nsr m) -> stream_cell strm y).
  { intros y s r H. destruct (RS _ _ _ H) as [y' [Q S']]. apply Nat2Z.inj in Q. now subst. }
  intros c g r. split.
  - intros H. assert (R1 : exists j, r = (Z.of_nat j + 1)%Z).
    { exists (Z.to_nat (r - 1)). destruct (RO _ _ _ H). lia. }
    destruct R1 as [j ->]. revert c H. induction j as [|j IH]; intros c H.
    + exists c, 0. split; [|split; auto]. split; [|split; [reflexivity|intros i Hi; lia]]. now apply (RO _ _ _ H).
    + destruct (RO _ _ _ H) as [_ [R2 [R3 _]]]. destruct R3 as [p [Hp Dp]]; [lia|].
      replace (Z.of_nat (S j) + 1 - 1)%Z with (Z.of_nat j + 1)%Z in Hp by lia.
      destruct (IH p Hp) as [a [j' [[A1 [A2 A3]] [A4 A5]]]]. assert (j' = j) by lia. subst j'.
      exists a, (S j). split; [|split; auto]. split; auto. rewrite downs_S', A2. split; auto.
      intros i Hi. destruct (Nat.eq_dec i (S j)) as [->|]; [|apply A3; lia]. rewrite downs_S', A2, Dp.
      split; [eapply SCR; eauto|]. intros Q. apply R2 in Q. lia.
  - intros [a [j [[A1 [A2 A3]] [A4 ->]]]]. subst c. induction j as [|j IH]; [exact A4|].
    assert (Hj : In (Z.of_nat (downs fdir j a), g, (Z.of_nat j + 1)%Z) (m_nsr m)) by (apply IH; intros; apply A3; lia).
    destruct (RO _ _ _ Hj) as [_ [_ [_ [X|X]]]].
    + rewrite <- downs_S' in X. now replace (Z.of_nat (S j) + 1)%Z with (Z.of_nat j + 1 + 1)%Z by lia.
    + destruct (A3 (S j)) as [B1 B2]; [lia|]. rewrite downs_S' in B1, B2. destruct X; contradiction.
Qed.

Lemma same_segment fdir strm lim fuel m : valid_fdir fdir -> length strm = length fdir -> length fdir <= fuel ->
  mf2005_connectivity lim fuel true fdir strm = Ok m ->
  forall c d r q, (exists g, In (Z.of_nat c, g, r) (m_nsr m) /\ In (Z.of_nat d, g, q) (m_nsr m)) <->
    exists a j k, seg_pos fdir strm c a j /\ seg_pos fdir strm d a k /\ r = (Z.of_nat j + 1)%Z /\ q = (Z.of_nat k + 1)%Z.
Proof.
  intros V L Hf E c d r q. assert (RP := @rows_pos fdir strm lim fuel m V L Hf E). split.
  - intros [g [H1 H2]]. apply RP in H1, H2. destruct H1 as [a [j [A1 [A2 ->]]]], H2 as [b [k [B1 [B2 ->]]]].
    assert (Q : a = b).
    { destruct (@grouped_result fdir strm lim fuel m V L Hf E) as [K [sg [tg [HS [HK [C _]]]]]].
      rewrite (c_nsr C) in A2, B2. apply in_rows in A2, B2.
      destruct A2 as [x [i [Hx [Hi [Ea [Eg Ei]]]]]], B2 as [x' [i' [Hx' [Hi' [Eb [Es Ei']]]]]].
      assert (x = x') by (apply (c_inj C); congruence). subst x'. assert (i = 0) by lia. assert (i' = 0) by lia. subst i i'.
      lia. }
    subst b. exists a, j, k. auto.
  - intros [a [j [k [A [B [-> ->]]]]]].
    destruct (@C42_segments_partition_the_streams fdir strm lim fuel m V L Hf E) as [RS [ND [CO RO]]].
    assert (SA := proj1 A). destruct (proj2 (CO a (proj1 SA))) as [g [x Hx]].
    { intros [n [_ [_ RI]]]. destruct SA as [_ [l [[ND1 I1] Ll]]]. destruct (RI 0) as [_ [x [ND2 I2]]]. cbn [downs] in I2.
      apply Ll. change 1 with (length [x]). apply Nat.le_antisymm; apply NoDup_incl_length; auto; intros y Hy.
      - apply I2. now apply I1.
      - apply I1. now apply I2. }
    assert (x = 1%Z) by (destruct (RO _ _ _ Hx) as [_ [Y _]]; now apply Y). subst x.
    exists g. split; apply RP; eauto.
Qed.

Section Segments.
  Variables (fdir1 fdir2 : list Z) (s t : nat -> nat) (strm1 strm2 : list Z).
  Notation N := (length fdir1).
  Hypothesis V : valid_fdir fdir1.
  Hypothesis RN : renumbering N s t.
  Hypothesis SF : same_flow s fdir1 fdir2.
  Hypothesis LS : length strm1 = N.
  Hypothesis SS : same_array s strm1 strm2.

  Let V2 := valid2 V RN SF.
  Let LL := len2 SF.
  Let RN' : renumbering (length fdir2) t s. Proof. rewrite (len2 SF). now apply renum_sym. Qed.
  Let SF' : same_flow t fdir2 fdir1 := flow_sym V RN SF.
  Let LS' : length strm2 = length fdir2 := ls2 SF LS SS.
  Let SS' : same_array t strm2 strm1 := array_sym RN LS SS.

  Lemma starts_both c : c < N -> starts_segment fdir2 strm2 (s c) <-> starts_segment fdir1 strm1 c.
  Proof.
    intros Hc. split; [|apply (starts2 V RN SF LS SS)]. intros H.
    apply (starts2 V2 RN' SF' LS' SS') in H. now rewrite (ts RN Hc) in H.
  Qed.
  Lemma ring_both c : c < N -> closed_ring fdir2 strm2 (s c) <-> closed_ring fdir1 strm1 c.
  Proof.
    intros Hc. split; [|now apply (ring2 V RN SF LS SS)]. intros H.
    apply (ring2 V2 RN' SF' LS' SS') in H; [now rewrite (ts RN Hc) in H|rewrite LL; now apply (s_lt RN)].
  Qed.
  Lemma seg_pos2 c a j : a < N -> seg_pos fdir1 strm1 c a j -> seg_pos fdir2 strm2 (s c) (s a) j.
  Proof.
    intros Ha [A1 [A2 A3]]. split; [now apply starts_both|]. split; [rewrite (downs2 V SF) by auto; congruence|].
    intros i Hi. destruct (A3 i Hi) as [B1 B2]. assert (Q := downs_in V i Ha). rewrite (downs2 V SF) by auto.
    split; [now apply (sc2 LS SS)|now rewrite starts_both].
  Qed.

  Lemma seg_pos2' c a j : a < length fdir2 -> seg_pos fdir2 strm2 c a j -> seg_pos fdir1 strm1 (t c) (t a) j.
  Proof.
    intros Ha [A1 [A2 A3]]. split; [now apply (starts2 V2 RN' SF' LS' SS')|]. split; [rewrite (downs2 V2 SF') by auto; congruence|].
    intros i Hi. destruct (A3 i Hi) as [B1 B2]. assert (Q := downs_in V2 i Ha). rewrite (downs2 V2 SF') by auto.
    split; [now apply (sc2 LS' SS')|]. intros X. apply B2. apply (starts2 V RN SF LS SS) in X. rewrite (st RN) in X; auto. lia.
  Qed.

  Variables (lim1 lim2 fuel1 fuel2 : nat) (m1 m2 : mf2005).
  Hypothesis F1 : N <= fuel1.
  Hypothesis F2 : N <= fuel2.
  Hypothesis E1 : mf2005_connectivity lim1 fuel1 true fdir1 strm1 = Ok m1.
  Hypothesis E2 : mf2005_connectivity lim2 fuel2 true fdir2 strm2 = Ok m2.

  (** C124: the MODFLOW-2005 network *)
  Theorem C124_network2005_any_numbering c d : c < N -> d < N ->
    (runs_into5 (m_nsr m2) (m_seg m2) (s c) (s d) <-> runs_into5 (m_nsr m1) (m_seg m1) c d).
  Proof.
    intros Hc Hd. assert (F2' : length fdir2 <= fuel2) by lia.
    rewrite (mf5_next V LS c d F1 E1), (mf5_next V2 LS' (s c) (s d) F2' E2).
    rewrite !(sc2 LS SS), (down2 SF), ring_both by auto. split; intros [A [B [C D]]]; (split; [auto|split; [auto|split; [|auto]]]).
    - apply (s_inj RN) in C; auto. now apply down_lt.
    - congruence.
  Qed.

  (** C124: the segments: the same cells are grouped into a segment, in the same order (the segment
      numbers may differ) *)
  Theorem C124_segments_any_numbering c d r q : c < N -> d < N ->
    ((exists g, In (Z.of_nat (s c), g, r) (m_nsr m2) /\ In (Z.of_nat (s d), g, q) (m_nsr m2)) <->
     (exists g, In (Z.of_nat c, g, r) (m_nsr m1) /\ In (Z.of_nat d, g, q) (m_nsr m1))).
  Proof.
    intros Hc Hd. assert (F2' : length fdir2 <= fuel2) by lia.
    rewrite (same_segment V LS F1 E1), (same_segment V2 LS' F2' E2). split.
    - intros [a [j [k [A [B [-> ->]]]]]]. assert (La : a < length fdir2) by (rewrite LL; apply (sc2_lt LS SS), A).
      apply (seg_pos2' La) in A, B. rewrite (ts RN) in A, B by auto. eauto 10.
    - intros [a [j [k [A [B [-> ->]]]]]]. assert (La : a < N) by (apply (sc_lt LS), A).
      apply (seg_pos2 La) in A, B. eauto 10.
  Qed.
End Segments.

Section Records.
  Variables (fdir1 fdir2 : list Z) (s t : nat -> nat) (strm1 strm2 : list Z).
  Notation N := (length fdir1).
  Hypothesis V : valid_fdir fdir1.
  Hypothesis RN : renumbering N s t.
  Hypothesis SF : same_flow s fdir1 fdir2.
  Hypothesis LS : length strm1 = N.
  Hypothesis SS : same_array s strm1 strm2.

  (** a basin mask in the two numberings *)
  Definition same_basin (b1 b2 : option (list Z)) : Prop :=
    match b1, b2 with None, None => True | Some x, Some y => length x = N /\ same_array s x y | _, _ => False end.

  (** C124: the many-to-one cascades: the same records *)
  Theorem C124_cascades_any_numbering F (one : F) b1 b2 out1 out2 :
    same_basin b1 b2 ->
    cascades_one one fdir1 strm1 b1 = Ok out1 -> cascades_one one fdir2 strm2 b2 = Ok out2 ->
    forall u d f g, u < N -> d < N ->
      (In ((Z.of_nat (s u) + 1)%Z, (Z.of_nat (s d) + 1)%Z, f, g) out2 <-> In ((Z.of_nat u + 1)%Z, (Z.of_nat d + 1)%Z, f, g) out1).
  Proof.
    intros SB E1 E2 u d f g Hu Hd. assert (LL := len2 SF).
    assert (IN : forall c, c < N -> inside b2 (s c) <-> inside b1 c).
    { intros c Hc. destruct b1 as [x|], b2 as [y|]; try contradiction; [|cbn; tauto].
      destruct SB as [Lx [_ SA]]. unfold inside. rewrite SA by lia. tauto. }
    assert (B1 : basin_fits b1 N /\ basin_fits b2 (length fdir2)).
    { destruct b1 as [x|], b2 as [y|]; cbn in *; auto; try contradiction. destruct SB as [Lx [Ly _]]. split; lia. }
    destruct B1 as [B1 B2].
    destruct (@C70_records_exactly F one fdir1 strm1 V LS b1 B1) as [o1 [Q1 H1]]. rewrite E1 in Q1. injection Q1 as <-.
    destruct (@C70_records_exactly F one fdir2 strm2 (valid2 V RN SF) (ls2 SF LS SS) b2 B2) as [o2 [Q2 H2]].
    rewrite E2 in Q2. injection Q2 as <-. rewrite H1, H2.
    assert (ST : forall c, c < N -> nth (s c) strm2 0%Z = nth c strm1 0%Z).
    { intros c Hc. destruct SS as [L2 SA]. assert (Q := SA c). rewrite LS in Q. specialize (Q Hc).
      destruct (nth_error strm1 c) as [v|] eqn:Ev; [|apply nth_error_None in Ev; lia].
      now rewrite (nth_error_nth _ _ 0%Z Ev), (nth_error_nth _ _ 0%Z Q). }
    split; intros [-> [c [Hc [J [Ed [Eg D]]]]]]; (split; [reflexivity|]).
    - rewrite LL in Hc. exists (t c). assert (Lt := t_lt RN Hc). rewrite <- (st RN Hc) in J, Ed, Eg, D.
      rewrite (down2 SF Lt) in *. assert (Hdn := down_lt V Lt). rewrite IN in J, D by auto. rewrite ST in Eg by auto.
      assert (d = down fdir1 (t c)) by (apply (s_inj RN); auto; lia). subst d.
      do 2 (split; auto). split; auto. split; auto. destruct D as [[D1 D2]|[D1 D2]]; [left|right]; (split; auto).
      + assert (u = t c) by (apply (s_inj RN); auto; lia). lia.
      + assert (u = down fdir1 (t c)) by (apply (s_inj RN); auto; lia). lia.
    - exists (s c). rewrite LL. assert (Hdn := down_lt V Hc). rewrite (down2 SF Hc), !IN, ST by auto.
      assert (d = down fdir1 c) by lia. subst d.
      split; [now apply (s_lt RN)|]. do 3 (split; auto).
      destruct D as [[D1 D2]|[D1 D2]]; [left|right]; (split; auto).
      + assert (u = c) by lia. now subst.
      + assert (u = down fdir1 c) by lia. now subst.
  Qed.

  (** C124: the subbasins of a set of pour points: the same cells are grouped (the numbers follow
      the order in which the code takes the pour points) *)
  Theorem C124_subbasins_any_numbering pours lim1 lim2 fuel1 fuel2 out1 out2 :
    (forall p, In p pours -> p < N) -> ~ In 0 pours -> ~ In (t 0) pours ->
    (forall p q, In p pours -> In q pours -> p <> q -> flows_through fdir1 p q -> ~ flows_through fdir1 q p) ->
    length pours + 2 <= lim1 -> length pours + 2 <= lim2 -> 2 * N + 2 <= fuel1 -> 2 * N + 2 <= fuel2 ->
    get_subbasins lim1 fuel1 fdir1 (map Z.of_nat pours) = Ok out1 ->
    get_subbasins lim2 fuel2 fdir2 (map Z.of_nat (map s pours)) = Ok out2 ->
    forall c d, c < N -> d < N ->
      (nth (s c) out2 0%Z = nth (s d) out2 0%Z <-> nth c out1 0%Z = nth d out1 0%Z) /\
      (nth (s c) out2 0%Z = 0%Z <-> nth c out1 0%Z = 0%Z).
  Proof.
    intros HP N0 N0' HC L1 L2 G1 G2 E1 E2. assert (LL := len2 SF).
    destruct (@C27_subbasins_first_pour fdir1 pours lim1 fuel1 V HP N0 HC L1 G1) as [o1 [or1 [Q1 [Lo1 [ND1 [I1 [A1 B1]]]]]]].
    rewrite E1 in Q1. injection Q1 as <-.
    assert (HP2 : forall p, In p (map s pours) -> p < length fdir2).
    { intros p Hp. apply in_map_iff in Hp. destruct Hp as [x [<- Hx]]. rewrite LL. apply (s_lt RN). auto. }
    assert (N02 : ~ In 0 (map s pours)).
    { intros H. apply in_map_iff in H. destruct H as [x [Hs Hx]]. apply N0'. rewrite <- Hs, (ts RN); auto. }
    assert (HC2 : forall p q, In p (map s pours) -> In q (map s pours) -> p <> q -> flows_through fdir2 p q -> ~ flows_through fdir2 q p).
    { intros p q Hp Hq. apply in_map_iff in Hp, Hq. destruct Hp as [x [<- Hx]], Hq as [y [<- Hy]]. intros NE.
      rewrite !(through2 V RN SF) by auto. apply HC; auto. }
    destruct (@C27_subbasins_first_pour fdir2 (map s pours) lim2 fuel2 (valid2 V RN SF) HP2 N02 HC2) as [o2 [or2 [Q2 [Lo2 [ND2 [I2 [A2 B2]]]]]]];
      [now rewrite map_length|lia|].
    rewrite E2 in Q2. injection Q2 as <-.
    (* every cell has a first pour point or none *)
    assert (DEC : forall c, c < N -> (exists p, first_pour fdir1 pours c p) \/ (forall p, In p pours -> ~ flows_through fdir1 c p)).
    { intros c Hc.
      assert (K : forall n, (exists k, k < n /\ In (downs fdir1 k c) pours /\ forall j, j < k -> ~ In (downs fdir1 j c) pours) \/
                            (forall k, k < n -> ~ In (downs fdir1 k c) pours)).
      { induction n as [|n [[k [K1 K2]]|IH]]; [right; intros; lia|left; exists k; split; [lia|auto]|].
        destruct (in_dec Nat.eq_dec (downs fdir1 n c) pours) as [Y|Y]; [left; exists n; auto|].
        right. intros k Hk. destruct (Nat.eq_dec k n) as [->|]; [auto|apply IH; lia]. }
      destruct (K (S N)) as [[k [_ [K2 K3]]]|K2]; [left; exists (downs fdir1 k c); split; eauto|].
      right. intros p Hp Hf. apply (flows_bound V Hc) in Hf. destruct Hf as [k [Hk Hd]]. apply (K2 k); [lia|]. now rewrite Hd. }
    assert (FP : forall c p, c < N -> first_pour fdir1 pours c p -> first_pour fdir2 (map s pours) (s c) (s p)).
    { intros c p Hc [Hp [k [Hk Hj]]]. split; [now apply in_map|]. exists k. rewrite (downs2 V SF) by auto. split; [congruence|].
      intros j Lj. rewrite (downs2 V SF) by auto. intros Q. apply in_map_iff in Q. destruct Q as [x [Qx Hx]].
      apply (s_inj RN) in Qx; auto; [|now apply (downs_in V)]. subst. now apply (Hj j). }
    assert (UF : forall c p q, first_pour fdir1 pours c p -> first_pour fdir1 pours c q -> p = q).
    { intros c p q [Hp [k [Hk Hj]]] [Hq [k' [Hk' Hj']]].
      destruct (Nat.lt_trichotomy k k') as [X|[->|X]]; [exfalso; apply (Hj' k X); congruence|congruence|exfalso; apply (Hj k' X); congruence]. }
    assert (LAB : forall c, c < N ->
      (nth c out1 0%Z = 0%Z /\ nth (s c) out2 0%Z = 0%Z /\ forall p, ~ first_pour fdir1 pours c p) \/
      exists p i j, first_pour fdir1 pours c p /\ nth_error or1 i = Some p /\ nth_error or2 j = Some (s p) /\
         nth c out1 0%Z = Z.of_nat (i + 1) /\ nth (s c) out2 0%Z = Z.of_nat (j + 1)).
    { intros c Hc. destruct (DEC c Hc) as [[p Fp]|NF].
      - right. assert (Hp := proj1 Fp). assert (Hi := proj2 (I1 p) Hp). apply In_nth_error in Hi. destruct Hi as [i Hi].
        assert (Hj := proj2 (I2 (s p)) (in_map s _ _ Hp)). apply In_nth_error in Hj. destruct Hj as [j Hj].
        exists p, i, j. do 3 (split; auto). split.
        + apply nth_error_nth. now apply (A1 i p).
        + apply nth_error_nth. apply (A2 j (s p)); auto. rewrite LL. now apply (s_lt RN).
      - left. split; [apply nth_error_nth; now apply B1|]. split.
        + apply nth_error_nth. apply B2; [rewrite LL; now apply (s_lt RN)|].
          intros p Hp. apply in_map_iff in Hp. destruct Hp as [x [<- Hx]]. rewrite (through2 V RN SF) by auto. auto.
        + intros p [Hp [k [Hk _]]]. apply (NF p Hp). now exists k. }
    intros c d Hc Hd. destruct (LAB c Hc) as [[X1 [X2 X3]]|[p [i [j [P1 [P2 [P3 [P4 P5]]]]]]]],
                              (LAB d Hd) as [[Y1 [Y2 Y3]]|[q [i' [j' [R1 [R2 [R3 [R4 R5]]]]]]]].
    - rewrite X1, X2, Y1, Y2. tauto.
    - rewrite X1, X2, R4, R5. split; [split; intros Q; lia|tauto].
    - rewrite P4, P5, Y1, Y2. split; [split; intros Q; lia|split; intros Q; lia].
    - rewrite P4, P5, R4, R5. split; [|split; intros Q; lia]. split; intros Q.
      + assert (j = j') by lia. subst j'. assert (s p = s q) by congruence.
        assert (p = q) by (apply (s_inj RN); auto; [apply HP, P1|apply HP, R1]). subst q.
        rewrite NoDup_nth_error in ND1. assert (i = i') by (apply ND1; [apply nth_error_Some; congruence|congruence]). lia.
      + assert (i = i') by lia. subst i'. assert (p = q) by congruence. subst q.
        rewrite NoDup_nth_error in ND2. assert (j = j') by (apply ND2; [apply nth_error_Some; congruence|congruence]). lia.
  Qed.
End Records.

(** ** Examples: four cells numbered in the opposite direction *)
Module ExR.
  (* cells 0 and 1 flow to 2, 2 to 3, 3 is terminal *)
  Definition fdir1 : list Z := [2; 2; 3; 3]%Z.
  Definition fdir2 : list Z := [0; 0; 1; 1]%Z.
  Definition s (c : nat) : nat := 3 - c.
  Example ren : renumbering 4 s s.
  Proof. split; intros c H; unfold s; lia. Qed.
  Example flow : same_flow s fdir1 fdir2.
  Proof. split; [reflexivity|]. intros c H. cbn in H. do 4 (destruct c as [|c]; [reflexivity|]). lia. Qed.
  Example valid : valid_fdir fdir1. Proof. unfold valid_fdir, fdir1. cbn. repeat constructor; lia. Qed.
  Example streams : same_array s [1; 1; 1; 0]%Z [0; 1; 1; 1]%Z.
  Proof. split; [reflexivity|]. intros c H. cbn in H. do 4 (destruct c as [|c]; [reflexivity|]). lia. Qed.
  Example cells : forall n, n < 4 -> ~ on_cycle fdir1 n -> nth_error [4; 3; 1; 1]%Z (s n) = nth_error [1; 1; 3; 4]%Z n.
  Proof.
    refine (@C124_cells_any_numbering fdir1 fdir2 s s valid ren flow unit unit (fun _ _ => tt) tt (fun _ _ => tt) tt
      [tt; tt; tt; tt] [tt; tt; tt; tt] 5 5 _ _ eq_refl eq_refl _ _ _ _); try (cbn; lia); vm_compute; reflexivity.
  Qed.
  Example rows2005 : exists m1 m2, mf2005_connectivity 100 100 true fdir1 [1; 1; 1; 0]%Z = Ok m1 /\
    mf2005_connectivity 100 100 true fdir2 [0; 1; 1; 1]%Z = Ok m2 /\
    m_nsr m1 = [(0, 2, 1); (1, 1, 1); (2, 3, 1)]%Z /\ m_nsr m2 = [(2, 2, 1); (3, 1, 1); (1, 3, 1)]%Z.
  Proof. eexists _, _. split; [vm_compute; reflexivity|]. split; [vm_compute; reflexivity|]. split; reflexivity. Qed.
End ExR.

(** C51: irunbnd, on the other hand, does depend on the numbering of the cells: the same river and
    the same segment labels, numbered in the opposite direction, send cell 1 to another segment *)
Theorem C51_numbering_decides_refuted :
  exists fdir1 fdir2 strm1 strm2 s out1 out2 c,
    valid_fdir fdir1 /\ renumbering (length fdir1) s s /\ same_flow s fdir1 fdir2 /\ same_array s strm1 strm2 /\
    irunbnd 10 fdir1 strm1 = Ok out1 /\ irunbnd 10 fdir2 strm2 = Ok out2 /\
    nth c strm1 0%Z = 0%Z /\ nth c out1 0%Z <> nth (s c) out2 0%Z.
Proof.
  exists ExR.fdir1, ExR.fdir2, [1; 0; 2; 3]%Z, [3; 2; 0; 1]%Z, ExR.s, [2; 2; 3; 3]%Z, [3; 2; 3; 1]%Z, 1.
  split; [exact ExR.valid|]. split; [exact ExR.ren|]. split; [exact ExR.flow|]. split.
  - split; [reflexivity|]. intros c H. cbn in H. do 4 (destruct c as [|c]; [reflexivity|]). lia.
  - split; [vm_compute; reflexivity|]. split; [vm_compute; reflexivity|]. split; [reflexivity|]. vm_compute. discriminate.
Qed.
