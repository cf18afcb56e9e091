(** C42-C47: MODFLOW-2005 segments.

    [mf2005_connectivity lim fuel grouped fdir strm] is the model of
    _mf2005_stream_connectivity (group_segments = [grouped]); [m_nsr] are the
    (node, segment, reach) rows, [m_seg] is the segment graph, [m_strm] the stored array.
    [fuel] bounds the iterations of each segment's walk, [lim] the stack frames available to
    the topological sort. *)
From Verif Require Import Py Spec MFlow LGraph LTopo MStream LStream LConn LSeg LSeg2 LSeg3 LSeg4.
Set Implicit Arguments.
Local Open Scope nat_scope.
Local Open Scope list_scope.

Lemma stream_cell_in strm c : stream_cell strm c <-> In c (nonzero strm).
Proof.
  rewrite in_nonzero. split.
  - intros [v [H Hv]]. split; [apply nth_error_Some; congruence|]. apply nth_error_nth with (d := 0%Z) in H. congruence.
  - intros [H Hv]. exists (nth c strm 0%Z). split; auto. now apply nth_error_nth'.
Qed.

Lemma inflows_spec fdir strm c : stream_inflows fdir strm c (inflows fdir strm c).
Proof. split; [apply inflows_nodup|]. intros x. rewrite in_inflows, stream_cell_in. tauto. Qed.

Lemma inflows_length fdir strm c l : stream_inflows fdir strm c l -> length l = length (inflows fdir strm c).
Proof.
  intros [ND H]. destruct (inflows_spec fdir strm c) as [ND' H'].
  apply Nat.le_antisymm; apply NoDup_incl_length; auto; intros x Hx; [apply H', H|apply H, H']; auto.
Qed.

Lemma starts_iff fdir strm c : starts_segment fdir strm c <-> In c (nonzero strm) /\ length (inflows fdir strm c) <> 1.
Proof.
  unfold starts_segment. rewrite stream_cell_in. split.
  - intros [H [l [Hl E]]]. split; auto. rewrite <- (inflows_length Hl). auto.
  - intros [H E]. split; auto. exists (inflows fdir strm c). split; auto. apply inflows_spec.
Qed.

Lemma ring_iff fdir strm c : closed_ring fdir strm c <-> lost fdir strm c.
Proof.
  unfold closed_ring, lost. split; intros [k [Hk [E H]]]; exists k; (split; [exact Hk|split; [exact E|]]); intros j; destruct (H j) as [H1 H2]; split.
  - now apply stream_cell_in.
  - destruct H2 as [x Hx]. rewrite <- (inflows_length Hx). reflexivity.
  - now apply stream_cell_in.
  - destruct (inflows fdir strm (downs fdir j c)) as [|x [|y r]] eqn:Ei; try discriminate. exists x. rewrite <- Ei. apply inflows_spec.
Qed.

Section Rows.
  Variables (fdir : list Z) (len : nat -> nat) (sg : nat -> Z).
  Notation rws := (rows fdir len sg).

  Lemma in_rows K n q r : In (n, q, r) (flat_map rws K) <->
    exists c j, In c K /\ j <= len c /\ n = Z.of_nat (downs fdir j c) /\ q = sg c /\ r = Z.of_nat (S j).
  Proof.
    rewrite in_flat_map. split.
    - intros [c [Hc H]]. unfold rows in H. apply in_map_iff in H. destruct H as [j [E Hj]]. apply in_seq in Hj.
      assert (E1 := f_equal (fun t => fst (fst t)) E). assert (E2 := f_equal (fun t => snd (fst t)) E). assert (E3 := f_equal snd E).
      cbn [fst snd] in E1, E2, E3. exists c, j. split; [auto|]. split; [lia|]. split; [auto|]. split; [auto|]. lia.
    - intros [c [j [Hc [Hj [-> [-> ->]]]]]]. exists c. split; auto. unfold rows. apply in_map_iff. exists j. split; [|apply in_seq; lia].
      f_equal. lia.
  Qed.

  Lemma rows_filter_in c : filter (fun r => (snd (fst r) =? sg c)%Z) (rws c) = rws c.
  Proof.
    unfold rows. induction (seq 0 (S (len c))) as [|j l IH]; auto. cbn [map filter fst snd]. rewrite Z.eqb_refl. now f_equal.
  Qed.
  Lemma rows_filter_out c q : sg c <> q -> filter (fun r => (snd (fst r) =? q)%Z) (rws c) = [].
  Proof.
    intros H. unfold rows. induction (seq 0 (S (len c))) as [|j l IH]; auto. cbn [map filter fst snd].
    destruct (Z.eqb_spec (sg c) q); [contradiction|]. auto.
  Qed.

  Lemma rows_of_seg K c : NoDup K -> (forall a b, In a K -> In b K -> sg a = sg b -> a = b) -> In c K ->
    filter (fun r => (snd (fst r) =? sg c)%Z) (flat_map rws K) = rws c.
  Proof.
    induction K as [|a K IH]; intros ND Inj Hc; [contradiction|]. cbn [flat_map]. rewrite filter_app.
    inversion ND as [|? ? N1 N2]; subst. destruct Hc as [->|Hc].
    - rewrite rows_filter_in. replace (filter _ (flat_map rws K)) with (@nil (Z * Z * Z)); [apply app_nil_r|].
      symmetry. assert (X : forall b, In b K -> sg b <> sg c).
      { intros b Hb E. apply N1. rewrite <- (Inj b c); auto; [now right|now left]. }
      clear -X. induction K as [|b K IH]; auto. cbn [flat_map]. rewrite filter_app, IH by (intros; apply X; now right).
      rewrite rows_filter_out by (apply X; now left). reflexivity.
    - rewrite rows_filter_out; [apply IH; auto; intros; apply Inj; auto; now right|].
      intros E. apply N1. rewrite (Inj a c); auto; [now left|now right].
  Qed.

  Lemma rows_reach c : map snd (rws c) = map Z.of_nat (seq 1 (S (len c))).
  Proof.
    unfold rows. rewrite map_map. cbn [snd]. rewrite <- seq_shift, map_map. apply map_ext. intros j. lia.
  Qed.
  Lemma rows_cells c : map (fun r => fst (fst r)) (rws c) = map (fun j => Z.of_nat (downs fdir j c)) (seq 0 (S (len c))).
  Proof. unfold rows. rewrite map_map. reflexivity. Qed.
End Rows.

(** what the connectivity returns in grouped mode *)
Lemma grouped_result fdir strm lim fuel m : valid_fdir fdir -> length strm = length fdir -> length fdir <= fuel ->
  mf2005_connectivity lim fuel true fdir strm = Ok m ->
  exists K sg tg, let len := slen fdir strm K in
    (forall c, In c K <-> starts_segment fdir strm c) /\
    (forall c, In c K <-> In c (nonzero strm) /\ length (inflows fdir strm c) <> 1) /\
    conn5 fdir strm m K len sg tg /\
    (forall c, In c K -> In (downs fdir (S (len c)) c) (nonzero strm) ->
       In (downs fdir (S (len c)) c) K /\ tg c = sg (downs fdir (S (len c)) c)) /\
    (forall c, In c K -> segm fdir strm K c (len c)) /\
    (forall x, In x (nonzero strm) -> (forall c j, In c K -> j <= len c -> x <> downs fdir j c) ->
              nth x (m_strm m) 0%Z =
                if ((0 <=? nth x strm 0%Z) && (nth x strm 0%Z <=? Z.of_nat (length K)))%Z then
                  match nth_error K (Z.to_nat (nth x strm 0%Z) - 1) with Some c => sg c | None => 0%Z end
                else 0%Z).
Proof.
  intros V L Hf E. destruct (starts_spec fdir strm L) as [K [Es [NDK HK]]].
  destruct (@grouped_conn fdir strm V L K NDK HK lim fuel Hf Es) as [H _]. destruct (H m E) as [sg [tg [C [_ [T U]]]]].
  exists K, sg, tg. cbv zeta. split; [intros c; rewrite HK; symmetry; apply starts_iff|]. split; [exact HK|]. split; auto.
  split; auto. split; auto. intros c Hc. now apply (slen_segm fdir strm L K HK).
Qed.

(** ** C42 *)
Theorem C42_segments_partition_the_streams :
  forall fdir strm lim fuel m,
    valid_fdir fdir -> length strm = length fdir -> length fdir <= fuel ->
    mf2005_connectivity lim fuel true fdir strm = Ok m ->
    (* rows are stream cells, no cell occurs twice *)
    (forall n s r, In (n, s, r) (m_nsr m) -> exists c, n = Z.of_nat c /\ stream_cell strm c) /\
    NoDup (map (fun row => fst (fst row)) (m_nsr m)) /\
    (* the cells without a row are those on closed rings *)
    (forall c, stream_cell strm c ->
       ((exists s r, In (Z.of_nat c, s, r) (m_nsr m)) <-> ~ closed_ring fdir strm c)) /\
    (* reach 1 is at headwaters and confluences; the other reaches are below their predecessor *)
    (forall c s r, In (Z.of_nat c, s, r) (m_nsr m) ->
       (1 <= r)%Z /\ (r = 1%Z <-> starts_segment fdir strm c) /\
       (r <> 1%Z -> exists p, In (Z.of_nat p, s, (r - 1)%Z) (m_nsr m) /\ down fdir p = c) /\
       (* a segment goes on until the next segment starts or the stream ends *)
       (In (Z.of_nat (down fdir c), s, (r + 1)%Z) (m_nsr m) \/
        ~ stream_cell strm (down fdir c) \/ starts_segment fdir strm (down fdir c))).
Proof.
  intros fdir strm lim fuel m V L Hf E. destruct (@grouped_result fdir strm lim fuel m V L Hf E) as [K [sg [tg [HS [HK [C [T [G U]]]]]]]].
  set (len := slen fdir strm K) in *. rewrite (c_nsr C). split; [|split; [|split]].
  - intros n s r H. apply in_rows in H. destruct H as [c [j [Hc [Hj [-> _]]]]].
    exists (downs fdir j c). split; auto. apply stream_cell_in. now apply (c_node C).
  - assert (NDl : forall l, NoDup l -> (forall c, In c l -> In c K) -> NoDup (map (fun row => fst (fst row)) (flat_map (rows fdir len sg) l))).
    { induction l as [|a l IH]; intros ND Hl; [constructor|]. inversion ND as [|? ? N1 N2]; subst. cbn [flat_map]. rewrite map_app.
      assert (D : forall x, In x (map (fun row => fst (fst row)) (rows fdir len sg a)) ->
                   ~ In x (map (fun row => fst (fst row)) (flat_map (rows fdir len sg) l))).
      { intros x Hx Hy. rewrite rows_cells in Hx. apply in_map_iff in Hx. destruct Hx as [j [<- Hj]]. apply in_seq in Hj.
        apply in_map_iff in Hy. destruct Hy as [[[n q] r] [En Hy]]. cbn [fst] in En. apply in_rows in Hy.
        destruct Hy as [b [j' [Hb [Hj' [En' _]]]]]. rewrite En' in En. apply Nat2Z.inj in En.
        destruct (@c_disj _ _ _ _ _ _ _ C b a j' j) as [-> _]; auto; try lia; apply Hl; auto; [now right|now left]. }
      assert (N3 : NoDup (map (fun row => fst (fst row)) (rows fdir len sg a))).
      { rewrite rows_cells. apply nodup_map_in; [apply seq_NoDup|]. intros i j Hi Hj X. apply in_seq in Hi. apply in_seq in Hj.
        apply Nat2Z.inj in X. apply (@c_disj _ _ _ _ _ _ _ C a a i j); auto; try lia; apply Hl; now left. }
      specialize (IH N2 (fun c Hc => Hl c (or_intror Hc))).
      clear - D N3 IH. induction (map (fun row => fst (fst row)) (rows fdir len sg a)) as [|x l' IH']; auto.
      inversion N3; subst. cbn [app]. constructor; [|apply IH'; auto; intros; apply D; now right].
      rewrite in_app_iff. intros [X|X]; [contradiction|]. apply (D x); auto. now left. }
    apply NDl; auto. apply (c_nd C).
  - intros c Hc. rewrite ring_iff. apply stream_cell_in in Hc. split.
    + intros [s [r H]] Hl. apply in_rows in H. destruct H as [a [j [Ha [Hj [En _]]]]]. apply Nat2Z.inj in En.
      exact (@lost_not_covered fdir strm L K HK c a j Hl Ha Hj En).
    + intros Hl. destruct (@cover fdir strm V L K HK c Hc) as [[a [j [Ha [Hj ->]]]]|X]; [|contradiction].
      exists (sg a), (Z.of_nat (S j)). apply in_rows. exists a, j. auto.
  - intros c s r H. apply in_rows in H. destruct H as [a [j [Ha [Hj [En [-> ->]]]]]]. apply Nat2Z.inj in En. subst c.
    split; [lia|]. split; [|split].
    + split.
      * intros X. replace j with 0 by lia. now apply HS.
      * intros X. apply HS in X. destruct j as [|j]; [reflexivity|]. exfalso. apply (@sg_in _ _ _ _ _ (G a Ha) (S j)); [lia|auto].
    + intros X. destruct j as [|j]; [lia|]. exists (downs fdir j a). split; [|now rewrite <- downs_S].
      apply in_rows. exists a, j. repeat split; auto; lia.
    + destruct (Nat.eq_dec j (len a)) as [->|Ne].
      * right. rewrite <- downs_S. destruct (in_dec Nat.eq_dec (downs fdir (S (len a)) a) (nonzero strm)) as [Hi|Hi].
        -- right. apply HS. now apply (sg_end (G a Ha)).
        -- left. now rewrite stream_cell_in.
      * left. rewrite <- downs_S. apply in_rows. exists a, (S j). repeat split; auto; lia.
Qed.

(** the rows of one segment are listed in order, with reaches 1, 2, 3, ... *)
Theorem C42_reaches_in_order :
  forall fdir strm lim fuel m s,
    valid_fdir fdir -> length strm = length fdir -> length fdir <= fuel ->
    mf2005_connectivity lim fuel true fdir strm = Ok m ->
    In s (map fst (m_seg m)) ->
    exists n, map snd (filter (fun row => snd (fst row) =? s)%Z (m_nsr m)) = map Z.of_nat (seq 1 (S n)).
Proof.
  intros fdir strm lim fuel m s V L Hf E Hs. destruct (@grouped_result fdir strm lim fuel m V L Hf E) as [K [sg [tg [HS [HK [C [T [G U]]]]]]]].
  set (len := slen fdir strm K) in *. rewrite (c_seg C), map_map in Hs. cbn [fst] in Hs. apply in_map_iff in Hs.
  destruct Hs as [c [<- Hc]]. exists (len c). rewrite (c_nsr C).
  rewrite (@rows_of_seg fdir len sg K c); [apply rows_reach|apply (c_nd C)|intros; now apply (c_inj C)|auto].
Qed.

(** the stored array shows the segment of every cell with a row, and 0 off the streams *)
Theorem C42_array_shows_segments :
  forall fdir strm lim fuel m,
    valid_fdir fdir -> length strm = length fdir -> length fdir <= fuel ->
    mf2005_connectivity lim fuel true fdir strm = Ok m ->
    length (m_strm m) = length strm /\
    (forall c s r, In (Z.of_nat c, s, r) (m_nsr m) -> nth_error (m_strm m) c = Some s) /\
    (forall c, nth_error strm c = Some 0%Z -> nth_error (m_strm m) c = Some 0%Z).
Proof.
  intros fdir strm lim fuel m V L Hf E. destruct (@grouped_result fdir strm lim fuel m V L Hf E) as [K [sg [tg [HS [HK [C [T [G U]]]]]]]].
  set (len := slen fdir strm K) in *. assert (Lm := c_len C). split; [lia|]. split.
  - intros c s r H. rewrite (c_nsr C) in H. apply in_rows in H. destruct H as [a [j [Ha [Hj [En [-> ->]]]]]]. apply Nat2Z.inj in En. subst c.
    assert (X := @c_node _ _ _ _ _ _ _ C a j Ha Hj). apply in_nonzero in X. rewrite (nth_error_nth' _ 0%Z) by lia. f_equal. now apply (c_at C).
  - intros c Hc. assert (Hl : c < length strm) by (apply nth_error_Some; congruence).
    rewrite (nth_error_nth' _ 0%Z) by lia. f_equal. apply (c_off C). rewrite in_nonzero. apply nth_error_nth with (d := 0%Z) in Hc. tauto.
Qed.

(** ** C43 *)
Theorem C43_segment_graph :
  forall fdir strm lim fuel m,
    valid_fdir fdir -> length strm = length fdir -> length fdir <= fuel ->
    mf2005_connectivity lim fuel true fdir strm = Ok m ->
    NoDup (map fst (m_seg m)) /\
    (forall s, In s (map fst (m_seg m)) <-> (1 <= s <= Z.of_nat (length (m_seg m)))%Z) /\
    forall s t, In (s, t) (m_seg m) <->
      exists c r, In (Z.of_nat c, s, r) (m_nsr m) /\
        (* the last reach of the segment *)
        (forall x, ~ In (x, s, (r + 1)%Z) (m_nsr m)) /\
        (* the segment of the cell below it *)
        (stream_cell strm (down fdir c) -> In (Z.of_nat (down fdir c), t, 1%Z) (m_nsr m)) /\
        (~ stream_cell strm (down fdir c) -> t = 0%Z).
Proof.
  intros fdir strm lim fuel m V L Hf E. destruct (@grouped_result fdir strm lim fuel m V L Hf E) as [K [sg [tg [HS [HK [C [T [G U]]]]]]]].
  set (len := slen fdir strm K) in *. rewrite (c_seg C), map_map, map_length. cbn [fst].
  split; [|split].
  - apply nodup_map_in; [apply (c_nd C)|]. intros; now apply (c_inj C).
  - intros s. rewrite in_map_iff. split.
    + intros [c [<- Hc]]. now apply (c_rng C).
    + intros Hs. destruct (c_num C Hs) as [c [Hc Ec]]. eauto.
  - intros s t. rewrite in_map_iff, (c_nsr C). split.
    + intros [c [Ec Hc]]. inversion Ec; subst. exists (downs fdir (len c) c), (Z.of_nat (S (len c))). split; [|split; [|split]].
      * apply in_rows. exists c, (len c). auto.
      * intros x X. apply in_rows in X. destruct X as [c' [j [Hc' [Hj [_ [Es Er]]]]]].
        apply (c_inj C) in Es; auto. subst c'. lia.
      * rewrite <- downs_S, stream_cell_in. intros X. destruct (T c Hc X) as [H1 ->]. apply in_rows.
        exists (downs fdir (S (len c)) c), 0. repeat split; auto. lia.
      * rewrite <- downs_S, stream_cell_in. apply (c_tg0 C). auto.
    + intros [x [r [H [Hl [H1 H2]]]]]. apply in_rows in H. destruct H as [c [j [Hc [Hj [En [-> ->]]]]]]. apply Nat2Z.inj in En. subst x.
      assert (j = len c).
      { destruct (Nat.eq_dec j (len c)) as [X|X]; auto. exfalso. apply (Hl (Z.of_nat (downs fdir (S j) c))).
        apply in_rows. exists c, (S j). repeat split; auto; lia. }
      subst j. exists c. split; auto. f_equal. rewrite <- downs_S, stream_cell_in in H1, H2.
      destruct (in_dec Nat.eq_dec (downs fdir (S (len c)) c) (nonzero strm)) as [Hi|Hi].
      * destruct (T c Hc Hi) as [HiK ->]. apply H1 in Hi. apply in_rows in Hi.
        destruct Hi as [c' [j [Hc' [Hj' [En [Et Er]]]]]]. assert (j = 0) by lia. subst j. apply Nat2Z.inj in En. change (downs fdir 0 c') with c' in En.
        rewrite Et, En. reflexivity.
      * rewrite (H2 Hi). now apply (c_tg0 C).
Qed.

(** ** C44 *)
Theorem C44_grouping_finishes :
  forall fdir strm fuel,
    valid_fdir fdir -> length strm = length fdir -> length fdir <= fuel ->
    exists g s, node_graph fdir (nonzero strm) = Ok g /\ group_segments fuel g strm = Ok s.
Proof.
  intros fdir strm fuel V L Hf. destruct (starts_spec fdir strm L) as [K [Es [NDK HK]]].
  destruct (group_spec fdir strm L NDK HK Hf Es) as [a [Eg _]]. eexists _, _. split; [apply (node_graph_eq strm V L)|exact Eg].
Qed.

Theorem C44_connectivity_succeeds :
  forall fdir strm lim fuel grouped,
    valid_fdir fdir -> length strm = length fdir -> length fdir <= fuel -> length fdir < lim ->
    exists m, mf2005_connectivity lim fuel grouped fdir strm = Ok m.
Proof.
  intros fdir strm lim fuel [|] V L Hf Hl.
  - destruct (starts_spec fdir strm L) as [K [Es [NDK HK]]].
    destruct (@grouped_conn fdir strm V L K NDK HK lim fuel Hf Es) as [_ H]. apply H.
    assert (length K <= length (nonzero strm)) by (apply NoDup_incl_length; auto; intros x Hx; now apply HK in Hx).
    assert (X := where_length (fun z => negb (z =? 0)%Z) strm). unfold nonzero in *. lia.
  - destruct (@numbers fdir strm L) as [K [Es [NDK HK]]].
    destruct (@single_conn fdir strm V L K NDK HK lim fuel Es) as [_ H]. apply H.
    assert (X := where_length (fun z => negb (z =? 0)%Z) strm). unfold nonzero in *. lia.
Qed.

(** ** C45 *)
(** cell 0 drains to itself and nothing flows into it: no row, and the stored array shows the
    number of another segment *)
Theorem C45_cell_lost_refuted :
  exists m, mf2005_connectivity 100 100 true [0; 2; 3; 3]%Z [1; 1; 1; 0]%Z = Ok m /\
    stream_cell [1; 1; 1; 0]%Z 0 /\
    (forall s r, ~ In (Z.of_nat 0, s, r) (m_nsr m)) /\
    (* the row that carries the number shown at cell 0 belongs to cell 1 *)
    nth_error (m_strm m) 0 = Some 1%Z /\ In (1, 1, 1)%Z (m_nsr m).
Proof.
  eexists. split; [vm_compute; reflexivity|]. split; [exists 1%Z; split; [reflexivity|lia]|]. split.
  - intros s r H. cbn in H. intuition congruence.
  - cbn. auto.
Qed.

(** in general: with a 0/1 stream array every cell on a closed ring is shown with the number
    of a segment that does not contain it, unless there is no segment at all *)
Theorem C45_ring_cells_mislabelled :
  forall fdir strm lim fuel m c,
    valid_fdir fdir -> length strm = length fdir -> length fdir <= fuel ->
    mf2005_connectivity lim fuel true fdir strm = Ok m ->
    nth_error strm c = Some 1%Z -> closed_ring fdir strm c ->
    (forall s r, ~ In (Z.of_nat c, s, r) (m_nsr m)) /\
    (m_seg m <> [] -> exists s x r, nth_error (m_strm m) c = Some s /\ In (Z.of_nat x, s, r) (m_nsr m)).
Proof.
  intros fdir strm lim fuel m c V L Hf E H1 HR.
  destruct (@C42_segments_partition_the_streams fdir strm lim fuel m V L Hf E) as [_ [_ [P _]]].
  assert (SC : stream_cell strm c) by (exists 1%Z; split; [auto|lia]).
  assert (Nr : forall s r, ~ In (Z.of_nat c, s, r) (m_nsr m)).
  { intros s r H. apply (proj1 (P c SC)); eauto. }
  split; auto. intros Hne. destruct (@grouped_result fdir strm lim fuel m V L Hf E) as [K [sg [tg [HS [HK [C [T [G U]]]]]]]].
  set (len := slen fdir strm K) in *. assert (Lm := c_len C).
  assert (Hl : c < length strm) by (apply nth_error_Some; congruence).
  assert (Hn : forall a j, In a K -> j <= len a -> c <> downs fdir j a).
  { intros a j Ha Hj ->. apply (Nr (sg a) (Z.of_nat (S j))). rewrite (c_nsr C). apply in_rows. exists a, j. auto. }
  specialize (U c (proj1 (stream_cell_in strm c) SC) Hn). apply nth_error_nth with (d := 0%Z) in H1. rewrite H1 in U.
  destruct K as [|a K']; [exfalso; apply Hne; rewrite (c_seg C); reflexivity|].
  destruct (Z.leb_spec 1 (Z.of_nat (length (a :: K')))) as [_|X]; [|cbn [length] in X; lia]. cbn in U.
  exists (sg a), a, 1%Z. split; [rewrite (nth_error_nth' _ 0%Z) by lia; now rewrite U|].
  rewrite (c_nsr C). apply in_rows. exists a, 0. repeat split; auto; [now left|lia].
Qed.

(** ** C46 *)
Theorem C46_segments_increase :
  forall fdir strm lim fuel grouped m,
    valid_fdir fdir -> acyclic fdir -> length strm = length fdir -> length fdir <= fuel ->
    mf2005_connectivity lim fuel grouped fdir strm = Ok m ->
    forall s t, In (s, t) (m_seg m) -> t = 0%Z \/ t = s \/ (s < t)%Z.
Proof.
  intros fdir strm lim fuel grouped m V A L Hf E s t H.
  assert (X : exists K len sg tg, conn5 fdir strm m K len sg tg /\
     (forall c, In c K -> In (downs fdir (S (len c)) c) (nonzero strm) -> tg c = sg (downs fdir (S (len c)) c) \/ tg c = 0%Z)).
  { destruct grouped.
    - destruct (@grouped_result fdir strm lim fuel m V L Hf E) as [K [sg [tg [HS [HK [C [T [G U]]]]]]]]. exists K, (slen fdir strm K), sg, tg. split; auto.
      intros c Hc Hi. left. now apply T.
    - destruct (@numbers fdir strm L) as [K [Es [NDK HK]]].
      destruct (@single_conn fdir strm V L K NDK HK lim fuel Es) as [S _]. destruct (S m E) as [sg [tg [C [_ [T1 T2]]]]].
      exists (nonzero strm), (fun _ => 0), sg, tg. split; auto. intros c Hc Hi. cbn [downs] in *.
      destruct (Nat.eq_dec (down fdir c) c) as [Ec|Ec]; [right; auto|left; auto]. }
  destruct X as [K [len [sg [tg [C T]]]]]. rewrite (c_seg C) in H. apply in_map_iff in H. destruct H as [c [Ec Hc]]. inversion Ec; subst. clear Ec.
  destruct (Z.eq_dec (tg c) 0) as [Z0|Z0]; [now left|]. destruct (Z.eq_dec (tg c) (sg c)) as [Zs|Zs]; [right; now left|]. right. right.
  apply (c_ord C); auto. intros [k Hk].
  assert (Hn : In c (nonzero strm)) by (apply (@c_node _ _ _ _ _ _ _ C c 0 Hc); lia).
  assert (Hcl : c < length fdir) by (apply in_nonzero in Hn; lia).
  apply (A c Hcl). split.
  - intros Ed. apply Zs. assert (Ef : downs fdir (S (len c)) c = c).
    { clear - Ed. induction (S (len c)); simpl; auto. now rewrite Ed. }
    specialize (T c Hc). rewrite Ef in T. destruct (T Hn); [auto|contradiction].
  - exists (S (len c) + k). split; [lia|]. now rewrite downs_add.
Qed.

(** ungrouped mode: one row per stream cell, segment graph = flow links between stream cells,
    cells that drain to themselves or out of the streams go to 0 *)
Theorem C46_ungrouped :
  forall fdir strm lim fuel m,
    valid_fdir fdir -> length strm = length fdir ->
    mf2005_connectivity lim fuel false fdir strm = Ok m ->
    (forall n s r, In (n, s, r) (m_nsr m) <->
       exists c, n = Z.of_nat c /\ r = 1%Z /\ stream_cell strm c /\ nth_error (m_strm m) c = Some s) /\
    (forall s t, In (s, t) (m_seg m) <->
       exists c, stream_cell strm c /\ nth_error (m_strm m) c = Some s /\
         (stream_cell strm (down fdir c) /\ down fdir c <> c -> nth_error (m_strm m) (down fdir c) = Some t) /\
         (~ stream_cell strm (down fdir c) \/ down fdir c = c -> t = 0%Z)) /\
    (* the numbers 1..n are each on one cell *)
    NoDup (map fst (m_seg m)) /\
    (forall s, In s (map fst (m_seg m)) <-> (1 <= s <= Z.of_nat (length (m_seg m)))%Z) /\
    (forall s, (1 <= s <= Z.of_nat (length (m_seg m)))%Z -> exists c, nth_error (m_strm m) c = Some s /\
        forall c', nth_error (m_strm m) c' = Some s -> c' = c) /\
    (forall c, nth_error strm c = Some 0%Z -> nth_error (m_strm m) c = Some 0%Z).
Proof.
  intros fdir strm lim fuel m V L E. destruct (@numbers fdir strm L) as [K [Es [NDK HK]]].
  destruct (@single_conn fdir strm V L K NDK HK lim fuel Es) as [S _]. destruct (S m E) as [sg [tg [C [_ [T1 T2]]]]].
  assert (Lm := c_len C).
  assert (At : forall c, In c (nonzero strm) -> nth_error (m_strm m) c = Some (sg c)).
  { intros c Hc. assert (X := Hc). apply in_nonzero in X. rewrite (nth_error_nth' _ 0%Z) by lia. f_equal. apply (@c_at _ _ _ _ _ _ _ C c 0 Hc). lia. }
  assert (Hk : forall s, In s (map fst (m_seg m)) <-> (1 <= s <= Z.of_nat (length (m_seg m)))%Z).
  { intros s. rewrite (c_seg C), map_map, map_length. cbn [fst]. rewrite in_map_iff. split.
    - intros [c [<- Hc]]. now apply (c_rng C).
    - intros Hs. destruct (c_num C Hs) as [c [Hc Ec]]. eauto. }
  split; [|split; [|split; [|split; [|split]]]]; auto.
  - intros n s r. rewrite (c_nsr C), in_rows. split.
    + intros [c [j [Hc [Hj [-> [-> ->]]]]]]. replace j with 0 by lia. exists c. split; auto. split; auto. split; [now apply stream_cell_in|auto].
    + intros [c [-> [-> [Hc Hs]]]]. apply stream_cell_in in Hc. rewrite (At c Hc) in Hs. inversion Hs. exists c, 0. repeat split; auto.
  - intros s t. rewrite (c_seg C), in_map_iff. split.
    + intros [c [Ec Hc]]. inversion Ec; subst. exists c. split; [now apply stream_cell_in|]. split; [auto|]. rewrite stream_cell_in. split.
      * intros [Hd Hne]. rewrite (T1 c) by auto. auto.
      * intros [Hd|Hd]; [|auto]. apply (c_tg0 C); auto.
    + intros [c [Hc [Hs [H1 H2]]]]. apply stream_cell_in in Hc. rewrite (At c Hc) in Hs. inversion Hs. exists c. split; auto. f_equal.
      rewrite stream_cell_in in H1, H2. destruct (in_dec Nat.eq_dec (down fdir c) (nonzero strm)) as [Hi|Hi].
      * destruct (Nat.eq_dec (down fdir c) c) as [Ed|Ed]; [rewrite H2 by auto; auto|].
        rewrite (T1 c) by auto. specialize (H1 (conj Hi Ed)). rewrite (At _ Hi) in H1. congruence.
      * rewrite H2 by auto. apply (c_tg0 C); auto.
  - rewrite (c_seg C), map_map. cbn [fst]. apply nodup_map_in; [apply (c_nd C)|]. intros; now apply (c_inj C).
  - intros s Hs. assert (Hs' := Hs). rewrite (c_seg C), map_length in Hs. destruct (c_num C Hs) as [c [Hc <-]]. exists c. split; auto.
    intros c' Hc'. destruct (in_dec Nat.eq_dec c' (nonzero strm)) as [Hi|Hi].
    + rewrite (At _ Hi) in Hc'. inversion Hc'. now apply (c_inj C).
    + apply nth_error_nth with (d := 0%Z) in Hc'. rewrite (@c_off _ _ _ _ _ _ _ C _ Hi) in Hc'. lia.
  - intros c Hc. assert (Hl : c < length strm) by (apply nth_error_Some; congruence).
    rewrite (nth_error_nth' _ 0%Z) by lia. f_equal. apply (c_off C). rewrite in_nonzero. apply nth_error_nth with (d := 0%Z) in Hc. tauto.
Qed.
