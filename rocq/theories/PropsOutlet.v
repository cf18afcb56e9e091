(** C93: the outseg of the segments that end at an outlet, i.e. at a stream cell that flows to
    itself (stream_util.py 231-283). *)
From Coq Require Import Permutation.
From Verif Require Import Py Spec MFlow MStream LGraph LStream LSeg4 PropsAcc PropsStream PropsSeg PropsReach.
Set Implicit Arguments.
Unset Strict Implicit.
Local Open Scope nat_scope.
Local Open Scope list_scope.

Lemma nodup_key {A B} (f : A -> B) l x y : NoDup (map f l) -> In x l -> In y l -> f x = f y -> x = y.
Proof.
  induction l as [|a l IH]; intros ND Hx Hy Ef; [destruct Hx|]. cbn [map] in ND. inversion ND as [|? ? N1 N2]; subst.
  destruct Hx as [<-|Hx], Hy as [<-|Hy]; auto; exfalso; apply N1; [rewrite Ef|rewrite <- Ef]; now apply in_map.
Qed.
Lemma inflows_exist fdir strm c : exists l, stream_inflows fdir strm c l.
Proof.
  exists (filter (fun x => Nat.eqb (down fdir x) c) (nonzero strm)). split; [apply NoDup_filter, nonzero_nodup|].
  intros x. rewrite filter_In, Nat.eqb_eq, in_nonzero. split; intros [H1 H2]; split; auto.
  - destruct H1 as [Hl Hz]. exists (nth x strm 0%Z). split; auto. now apply nth_error_nth'.
  - destruct H1 as [v [Hv Nv]]. split; [apply nth_error_Some; congruence|]. apply (nth_error_nth _ _ 0%Z) in Hv. congruence.
Qed.

Section Grouped.
  Variables (fdir strm : list Z) (lim fuel : nat) (m : mf2005).
  Hypotheses (V : valid_fdir fdir) (L : length strm = length fdir) (Hf : length fdir <= fuel)
             (E : mf2005_connectivity lim fuel true fdir strm = Ok m).

  (** the rows of one segment have different reach numbers *)
  Lemma row_unique s r x y : In (x, s, r) (m_nsr m) -> In (y, s, r) (m_nsr m) -> x = y.
  Proof.
    intros Hx Hy. destruct (@C42_segments_partition_the_streams fdir strm lim fuel m V L Hf E) as [Q1 [Q2 [Q3 Q4]]].
    destruct (@C43_segment_graph fdir strm lim fuel m V L Hf E) as [G1 [G2 G3]].
    assert (Hs : In s (map fst (m_seg m))).
    { destruct (@any_result fdir strm lim fuel true m V L Hf E) as [K [len [sg [tg [C _]]]]].
      rewrite (c_nsr C) in Hx. apply in_rows in Hx. destruct Hx as [a [j [Ha [_ [_ [-> _]]]]]].
      rewrite (c_seg C), map_map. cbn [fst]. now apply in_map. }
    destruct (@C42_reaches_in_order fdir strm lim fuel m s V L Hf E Hs) as [n Hn].
    assert (ND : NoDup (map snd (filter (fun row => (snd (fst row) =? s)%Z) (m_nsr m)))).
    { rewrite Hn. apply FinFun.Injective_map_NoDup; [intros a b; apply Nat2Z.inj|apply seq_NoDup]. }
    revert ND. generalize (m_nsr m) Hx Hy. clear. induction l as [|[[n s'] r'] l IH]; intros Hx Hy ND; [destruct Hx|].
    cbn [filter fst snd] in ND. destruct (Z.eqb_spec s' s) as [->|NE].
    - cbn [map snd] in ND. inversion ND as [|? ? N1 N2]; subst.
      assert (NI : forall z, In (z, s, r') l -> False).
      { intros z Hz. apply N1. apply in_map_iff. exists (z, s, r'). split; auto. apply filter_In. split; auto. apply Z.eqb_refl. }
      destruct Hx as [Hx|Hx], Hy as [Hy|Hy]; try (inversion Hx; subst); try (inversion Hy; subst); auto; try (exfalso; eauto; fail).
    - destruct Hx as [Hx|Hx]; [inversion Hx; congruence|]. destruct Hy as [Hy|Hy]; [inversion Hy; congruence|]. auto.
  Qed.

  (** an outlet that another stream cell flows into is a segment of its own, and its outseg is
      its own number: never 0 *)
  Theorem C93_outlet_flows_to_itself_refuted : forall o x,
    stream_cell strm o -> down fdir o = o -> stream_cell strm x -> x <> o -> down fdir x = o ->
    exists s, In (Z.of_nat o, s, 1%Z) (m_nsr m) /\ (forall t, In (s, t) (m_seg m) <-> t = s) /\
      In (s, s) (segment_data (m_seg m)) /\ (0 < s)%Z.
  Proof.
    intros o x So Do Sx Nx Dx.
    destruct (@C42_segments_partition_the_streams fdir strm lim fuel m V L Hf E) as [Q1 [Q2 [Q3 Q4]]].
    destruct (@C43_segment_graph fdir strm lim fuel m V L Hf E) as [G1 [G2 G3]].
    assert (NR : ~ closed_ring fdir strm o).
    { intros [k [_ [_ H]]]. destruct (H 0) as [_ [y [ND Hy]]]. cbn [downs] in Hy.
      assert (A : In o [y]) by (apply Hy; auto). assert (B : In x [y]) by (apply Hy; auto).
      destruct A as [A|[]], B as [B|[]]. congruence. }
    destruct (proj2 (Q3 o So) NR) as [s [r Hr]]. destruct (Q4 o s r Hr) as [R1 [R2 [R3 _]]].
    assert (r = 1%Z).
    { destruct (Z.eq_dec r 1) as [X|X]; auto. exfalso. apply X, R2. split; auto.
      destruct (@inflows_exist fdir strm o) as [l Hl]. exists l. split; auto. intros X1. destruct Hl as [ND Hl].
      destruct l as [|y [|z l]]; try discriminate.
      assert (A : In o [y]) by (apply Hl; auto). assert (B : In x [y]) by (apply Hl; auto).
      destruct A as [A|[]], B as [B|[]]. congruence. }
    subst r. exists s. split; [exact Hr|].
    assert (LAST : forall y, ~ In (y, s, (1 + 1)%Z) (m_nsr m)).
    { intros y Hy. destruct (Q1 _ _ _ Hy) as [c [-> _]]. destruct (Q4 _ _ _ Hy) as [_ [_ [P _]]].
      destruct (P ltac:(lia)) as [p [Hp Dp]]. replace (1 + 1 - 1)%Z with 1%Z in Hp by lia.
      assert (X := row_unique Hp Hr). apply Nat2Z.inj in X. subst p. rewrite Do in Dp. rewrite <- Dp in Hy.
      assert (X := nodup_key Q2 Hr Hy eq_refl). inversion X. }
    assert (SS : In (s, s) (m_seg m)).
    { apply G3. exists o, 1%Z. split; auto. split; auto. rewrite Do. split; auto. intros H. contradiction. }
    split.
    { intros t. split; [|intros ->; exact SS]. intros Ht. assert (X := nodup_key G1 Ht SS eq_refl). now inversion X. }
    destruct (@C47_segment_data fdir strm lim fuel true m V L Hf E) as [_ SD]. split; [now apply SD|].
    apply (in_map fst) in SS. apply G2 in SS. cbn in SS. lia.
  Qed.

  (** streams that run on to outlets (C30): no segment at all has outseg 0 *)
  Theorem C93_no_outlet_refuted :
    (forall c, stream_cell strm c -> stream_cell strm (down fdir c)) ->
    forall s t, In (s, t) (m_seg m) -> t <> 0%Z.
  Proof.
    intros RUN s t H. destruct (@C43_segment_graph fdir strm lim fuel m V L Hf E) as [G1 [G2 G3]].
    destruct (@C42_segments_partition_the_streams fdir strm lim fuel m V L Hf E) as [Q1 _].
    apply G3 in H. destruct H as [c [r [H1 [_ [H2 _]]]]]. destruct (Q1 _ _ _ H1) as [c' [Ec Sc]]. apply Nat2Z.inj in Ec. subst c'.
    specialize (H2 (RUN c Sc)).
    destruct (@any_result fdir strm lim fuel true m V L Hf E) as [K [len [sg [tg [C _]]]]].
    rewrite (c_nsr C) in H2. apply in_rows in H2. destruct H2 as [a [j [Ha [_ [_ [-> _]]]]]]. assert (X := @c_rng _ _ _ _ _ _ _ C a Ha). lia.
  Qed.
End Grouped.

(** with group_segments=False the outseg of an outlet is 0 *)
Theorem C93_ungrouped_outlet : forall fdir strm lim fuel m o,
  valid_fdir fdir -> length strm = length fdir -> length fdir <= fuel ->
  mf2005_connectivity lim fuel false fdir strm = Ok m ->
  stream_cell strm o -> down fdir o = o ->
  exists s, nth_error (m_strm m) o = Some s /\ In (Z.of_nat o, s, 1%Z) (m_nsr m) /\ In (s, 0%Z) (segment_data (m_seg m)).
Proof.
  intros fdir strm lim fuel m o V L Hf E So Do.
  destruct (@C46_ungrouped fdir strm lim fuel m V L E) as [H1 [H2 [H3 [H4 [H5 H6]]]]].
  destruct (@C47_segment_data fdir strm lim fuel false m V L Hf E) as [_ SD].
  assert (Lm : length (m_strm m) = length fdir).
  { destruct (@any_result fdir strm lim fuel false m V L Hf E) as [K [len [sg [tg [C _]]]]]. exact (c_len C). }
  assert (Ho : o < length fdir) by (destruct So as [v [Hv _]]; rewrite <- L; apply nth_error_Some; congruence).
  destruct (nth_error (m_strm m) o) as [s|] eqn:Es; [|apply nth_error_None in Es; lia].
  exists s. split; auto. split; [apply H1; exists o; auto|]. apply SD, H2. exists o. split; auto. split; auto.
  split; [intros [_ X]; congruence|auto].
Qed.

(** a Y-shaped network: 0 -> 1 -> 4, 2 -> 1, 4 -> 3, 3 -> 3 *)
Module Ex.
  Definition fdir := [1; 4; 1; 3; 3; 5]%Z.
  Definition strm := [1; 1; 1; 1; 1; 0]%Z.
  Example valid : valid_fdir fdir /\ length strm = length fdir.
  Proof. split; [repeat constructor; lia|reflexivity]. Qed.
  Example result : exists m, mf2005_connectivity 100 100 true fdir strm = Ok m /\
    segment_data (m_seg m) = [(1, 3); (2, 3); (3, 4); (4, 4)]%Z.
  Proof. eexists. split; vm_compute; reflexivity. Qed.
  Example runs_on : forall c, stream_cell strm c -> stream_cell strm (down fdir c).
  Proof.
    intros c [v [Hv Nv]]. do 6 (destruct c as [|c]; [cbn in Hv; inversion Hv; subst; try congruence; (exists 1%Z; split; [reflexivity|lia])|]).
    destruct c; discriminate.
  Qed.
  Example result_single : exists m, mf2005_connectivity 100 100 false fdir strm = Ok m /\
    segment_data (m_seg m) = [(1, 3); (2, 3); (3, 4); (4, 5); (5, 0)]%Z.
  Proof. eexists. split; vm_compute; reflexivity. Qed.
End Ex.
