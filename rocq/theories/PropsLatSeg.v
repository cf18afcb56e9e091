(** C146, segments of MODFLOW-2005: what leaves a segment is what its own landscape brings plus what
    leaves the segments that flow into it. *)
From Verif Require Import Py Spec MFlow LGraph LAcc LAcc2 LWs LTopo LSub MStream LStream LConn PropsAcc PropsBasin
  PropsStream PropsAgree LSeg LSeg2 LSeg3 LSeg4 PropsSeg PropsSame PropsSubb PropsLat.
Set Implicit Arguments.
Unset Strict Implicit.
Local Open Scope nat_scope.
Local Open Scope list_scope.
Local Notation length := List.length.

(** ** Specification, in terms of the (node, segment, reach) rows *)
(** cell [c] belongs to segment [s] *)
Definition in_segment (rows : list (Z * Z * Z)) (c : nat) (s : Z) : Prop := exists r, In (Z.of_nat c, s, r) rows.
(** cell [c] carries the last reach of segment [s] *)
Definition last_reach (rows : list (Z * Z * Z)) (c : nat) (s : Z) : Prop :=
  exists r, In (Z.of_nat c, s, r) rows /\ forall x, ~ In (x, s, (r + 1)%Z) rows.
(** the landscape of a segment: the cells whose first stream cell belongs to it *)
Definition segment_landscape (fdir strm : list Z) (rows : list (Z * Z * Z)) (s : Z) (d : nat) : Prop :=
  exists x, in_segment rows x s /\ first_stream fdir strm d x.

Section Seg.
  Variables (fdir strm : list Z) (lim fuel : nat) (m : mf2005).
  Notation N := (length fdir).
  Hypothesis V : valid_fdir fdir.
  Hypothesis L : length strm = N.
  Hypothesis Hf : N <= fuel.
  Hypothesis E : mf2005_connectivity lim fuel true fdir strm = Ok m.
  Hypothesis NG : no_gaps fdir strm.

  Section K.
    Variables (K : list nat) (sg tg : nat -> Z) (len : nat -> nat).
    Hypothesis HK : forall c, In c K <-> In c (nonzero strm) /\ length (inflows fdir strm c) <> 1.
    Hypothesis C : conn5 fdir strm m K len sg tg.
    Hypothesis T : forall c, In c K -> In (downs fdir (S (len c)) c) (nonzero strm) ->
       In (downs fdir (S (len c)) c) K /\ tg c = sg (downs fdir (S (len c)) c).
    Definition lst (a : nat) : nat := downs fdir (len a) a.
    Definition lasts : list nat := map lst K.

    Lemma row_iff c s r : In (Z.of_nat c, s, r) (m_nsr m) <->
      exists a j, In a K /\ j <= len a /\ c = downs fdir j a /\ s = sg a /\ r = Z.of_nat (S j).
    Proof using C.
      clear V L Hf E NG. rewrite (c_nsr C), in_rows. split; intros [a [j [H1 [H2 [H3 H4]]]]]; exists a, j; repeat (split; auto); try tauto; try lia.
    Qed.

    Lemma in_segment_iff c s : in_segment (m_nsr m) c s <-> exists a j, In a K /\ j <= len a /\ c = downs fdir j a /\ s = sg a.
    Proof using C.
      clear V L Hf E NG. unfold in_segment. split.
      - intros [r H]. apply row_iff in H. destruct H as [a [j H]]. exists a, j. tauto.
      - intros [a [j H]]. exists (Z.of_nat (S j)). apply row_iff. exists a, j. tauto.
    Qed.

    Lemma last_reach_iff c s : last_reach (m_nsr m) c s <-> exists a, In a K /\ c = lst a /\ s = sg a.
    Proof using C.
      clear V L Hf E NG. unfold last_reach. split.
      - intros [r [H Hn]]. apply row_iff in H. destruct H as [a [j [Ha [Hj [-> [-> ->]]]]]]. exists a. split; auto. split; auto.
        unfold lst. f_equal. destruct (Nat.eq_dec j (len a)) as [|NE]; auto. exfalso.
        apply (Hn (Z.of_nat (downs fdir (S j) a))). apply row_iff. exists a, (S j). repeat split; auto; lia.
      - intros [a [Ha [-> ->]]]. exists (Z.of_nat (S (len a))). split; [apply row_iff; exists a, (len a); auto|].
        intros x X. assert (Q := X). rewrite (c_nsr C) in Q. apply in_rows in Q.
        destruct Q as [b [j [Hb [Hj [_ [Es Er]]]]]]. apply (c_inj C) in Es; auto. subst b. lia.
    Qed.

    Lemma lst_inj a b : In a K -> In b K -> lst a = lst b -> a = b.
    Proof using C. clear V L Hf E NG. intros Ha Hb H. unfold lst in H. apply (c_disj C) in H; auto. tauto. Qed.

    Lemma not_last a j : In a K -> j < len a -> ~ In (downs fdir j a) lasts.
    Proof using C.
      clear V L Hf E NG. intros Ha Hj H. apply in_map_iff in H. destruct H as [b [Eb Hb]]. unfold lst in Eb.
      apply (c_disj C) in Eb; auto; try lia. destruct Eb as [-> Q]. lia.
    Qed.

    Lemma last_stream b : In b lasts -> stream_cell strm b.
    Proof using C. clear V L Hf E NG. intros H. apply in_map_iff in H. destruct H as [a [<- Ha]]. apply stream_cell_in. now apply (c_node C). Qed.

    (** from a cell of a segment one first meets the last reach of that segment *)
    Lemma seg_first a j d : In a K -> j <= len a -> first_stream fdir strm d (downs fdir j a) -> first_pour fdir lasts d (lst a).
    Proof using C.
      clear V L Hf E NG. intros Ha Hj [_ [k [Ek Hk]]]. split; [now apply in_map|]. exists (k + (len a - j)). split.
      - rewrite downs_add, Ek, <- downs_add. unfold lst. f_equal. lia.
      - intros t Ht. destruct (Nat.lt_ge_cases t k) as [X|X].
        + intros H. apply (Hk t X). now apply last_stream.
        + replace t with (k + (t - k)) by lia. rewrite downs_add, Ek, <- downs_add. apply not_last; auto. lia.
    Qed.

    Lemma first_of_stream d x : stream_cell strm x -> flows_through fdir d x -> exists y, first_stream fdir strm d y /\ flows_through fdir y x.
    Proof using.
      clear. intros Sx [k Ek]. revert d Ek. induction k as [|k IH]; intros d Ek.
      - cbn in Ek. subst d. exists x. split; [split; auto; exists 0; split; auto; intros; lia|now exists 0].
      - destruct (in_dec Nat.eq_dec d (nonzero strm)) as [I|I].
        + apply stream_cell_in in I. exists d. split; [|now exists (S k)]. split; auto. exists 0. split; auto. intros; lia.
        + destruct (IH (down fdir d)) as [y [[Sy [t [Et Ht]]] F]]; [exact Ek|]. exists y. split; auto. split; auto.
          exists (S t). split; [exact Et|]. intros [|j] Hj; [cbn; now rewrite stream_cell_in|]. cbn [downs]. apply Ht. lia.
    Qed.

    Lemma closed_down c i : closed_ring fdir strm c -> closed_ring fdir strm (downs fdir i c).
    Proof using.
      clear. intros [k [Hk [Ek H]]]. exists k. split; auto. split.
      - rewrite <- downs_add, Nat.add_comm, downs_add. now rewrite Ek.
      - intros j. rewrite <- downs_add. apply H.
    Qed.

    Lemma landscape_iff a d : In a K -> (segment_landscape fdir strm (m_nsr m) (sg a) d <-> first_pour fdir lasts d (lst a)).
    Proof using V L Hf E C.
      intros Ha. split.
      - intros [x [Hx F]]. apply in_segment_iff in Hx. destruct Hx as [b [j [Hb [Hj [-> Es]]]]].
        apply (c_inj C) in Es; auto. subst b. eapply seg_first; eauto.
      - intros F. assert (F' := F). destruct F' as [Hl [k [Ek _]]].
        destruct (@first_of_stream d (lst a)) as [x [Fx [i Ei]]]; [now apply last_stream|now exists k|].
        destruct (@C42_segments_partition_the_streams fdir strm lim fuel m V L Hf E) as [_ [_ [CO _]]].
        assert (NR : ~ closed_ring fdir strm x).
        { intros R. apply (closed_down i) in R. rewrite Ei in R. revert R. apply (CO (lst a)); [now apply last_stream|].
          exists (sg a), (Z.of_nat (S (len a))). apply row_iff. exists a, (len a). auto. }
        apply (CO x (proj1 Fx)) in NR. destruct NR as [s [r R]]. apply row_iff in R.
        destruct R as [b [j [Hb [Hj [-> _]]]]].
        assert (Q := seg_first Hb Hj Fx). assert (lst b = lst a) by (eapply first_pour_unique; eauto).
        assert (b = a) by (now apply lst_inj). subst b. exists (downs fdir j a). split; auto. apply in_segment_iff. exists a, j. auto.
    Qed.

    Lemma enters_iff a q : In a K ->
      (enters fdir lasts (lst a) q <-> q <> lst a /\ exists t, last_reach (m_nsr m) q t /\ In (t, sg a) (m_seg m)).
    Proof using V L NG C T.
      clear Hf E. intros Ha. unfold enters. split.
      - intros [Hq [NE [k [K1 [K2 K3]]]]]. split; auto. apply in_map_iff in Hq. destruct Hq as [b [<- Hb]].
        exists (sg b). split; [apply last_reach_iff; eauto|].
        assert (Sd : stream_cell strm (downs fdir (S (len b)) b)).
        { replace (S (len b)) with (len b + 1) by lia. rewrite downs_add. fold (lst b).
          apply (NG (c := lst b) (k := k)); [apply last_stream; now apply in_map|rewrite K2; apply last_stream; now apply in_map|lia]. }
        apply stream_cell_in in Sd. destruct (T Hb Sd) as [HyK Et].
        assert (Ey : downs fdir (S (len b)) b = downs fdir 1 (lst b)) by (unfold lst; rewrite <- downs_add; f_equal; lia).
        set (y := downs fdir (S (len b)) b) in *.
        assert (F1 : first_pour fdir lasts y (lst y)).
        { apply (@seg_first y 0 y); auto; [lia|]. split; [now apply stream_cell_in|]. exists 0. split; auto. intros; lia. }
        assert (F2 : first_pour fdir lasts y (lst a)).
        { split; [now apply in_map|]. exists (k - 1). split.
          - rewrite Ey, <- downs_add. replace (1 + (k - 1)) with k by lia. exact K2.
          - intros j Hj. rewrite Ey, <- downs_add. apply K3. lia. }
        assert (lst y = lst a) by (eapply first_pour_unique; eauto). assert (y = a) by (now apply lst_inj).
        rewrite (c_seg C). apply in_map_iff. exists b. split; auto. rewrite Et. congruence.
      - intros [NE [t [Hq Ht]]]. apply last_reach_iff in Hq. destruct Hq as [b [Hb [-> ->]]].
        split; [now apply in_map|]. split; auto.
        rewrite (c_seg C) in Ht. apply in_map_iff in Ht. destruct Ht as [b' [Eb Hb']].
        assert (E1 := f_equal fst Eb). assert (E2 := f_equal snd Eb). cbn [fst snd] in E1, E2.
        apply (c_inj C) in E1; auto. subst b'.
        assert (R := c_rng C a Ha).
        destruct (in_dec Nat.eq_dec (downs fdir (S (len b)) b) (nonzero strm)) as [I|I]; [|apply (c_tg0 C b Hb) in I; lia].
        destruct (T Hb I) as [HyK Et]. assert (Ea : downs fdir (S (len b)) b = a) by (apply (c_inj C); auto; congruence).
        assert (Ey : downs fdir 1 (lst b) = a) by (rewrite <- Ea; unfold lst; rewrite <- downs_add; f_equal; lia).
        exists (S (len a)). split; [lia|]. split.
        + replace (S (len a)) with (1 + len a) by lia. rewrite downs_add, Ey. reflexivity.
        + intros j Hj. replace j with (1 + (j - 1)) by lia. rewrite downs_add, Ey. apply not_last; auto. lia.
    Qed.
  End K.

  Lemma segment_split c s : last_reach (m_nsr m) c s -> ~ on_cycle fdir c ->
    exists own l, NoDup own /\ (forall d, In d own <-> d < N /\ segment_landscape fdir strm (m_nsr m) s d) /\
      NoDup l /\ (forall q, In q l <-> q < N /\ q <> c /\ exists t, last_reach (m_nsr m) q t /\ In (t, s) (m_seg m)) /\
      (forall q, In q l -> ~ on_cycle fdir q) /\ c < N /\
      Permutation (shed_cells fuel fdir c) (own ++ flat_map (shed_cells fuel fdir) l).
  Proof using V L Hf E NG.
    intros Hl Hc. destruct (@grouped_result fdir strm lim fuel m V L Hf E) as [K [sg [tg [HS [HK [C [T _]]]]]]].
    set (len := slen fdir strm K) in *.
    apply (last_reach_iff C) in Hl. destruct Hl as [a [Ha [-> ->]]].
    assert (Lt : forall q, In q (lasts K len) -> q < N) by (intros q Hq; apply (stream_lt L); apply (last_stream C Hq)).
    assert (Hin : In (lst len a) (lasts K len)) by now apply in_map.
    destruct (@list_of (fun d => first_pour fdir (lasts K len) d (lst len a)) N) as [own [NDo Ho]].
    { intros d Hd. destruct (first_pour_dec V (lasts K len) Hd) as [[p Fp]|Nd].
      - destruct (Nat.eq_dec p (lst len a)) as [->|NE]; [now left|].
        right. intros F. apply NE. eapply first_pour_unique; eauto.
      - right. intros [_ [k [X _]]]. apply (Nd k). now rewrite X. }
    destruct (@first_split fdir (lasts K len) fuel own (lst len a)) as [l [NDl [Hl [OC P]]]]; auto.
    exists own, l. split; auto. split.
    { intros d. rewrite Ho, (landscape_iff C d Ha). tauto. }
    split; auto. split; [|auto]. intros q. rewrite Hl, (enters_iff C T q Ha). tauto.
  Qed.
End Seg.

(** ** C146.  Cells leaving a segment. *)
Theorem C146_segment_cells :
  forall (W : Type) (wadd : W -> W -> W) (wzero : W) (area : list W) fdir strm lim fuel m cells,
    valid_fdir fdir -> length strm = length fdir -> length area = length fdir -> S (length fdir) <= fuel ->
    no_gaps fdir strm ->
    mf2005_connectivity lim fuel true fdir strm = Ok m ->
    flow_accumulation_cells wadd wzero fuel fdir area = Ok cells ->
    forall c s, last_reach (m_nsr m) c s -> ~ on_cycle fdir c ->
      exists own inflow,
        NoDup own /\ (forall d, In d own <-> d < length fdir /\ segment_landscape fdir strm (m_nsr m) s d) /\
        sum_over Z.add 0%Z (fun q => nth q cells 0%Z)
          (fun q => q <> c /\ exists t, last_reach (m_nsr m) q t /\ In (t, s) (m_seg m)) (length fdir) inflow /\
        nth_error cells c = Some (Z.of_nat (length own) + inflow)%Z.
Proof.
  intros W wadd wzero area fdir strm lim fuel m cells V L La Hf NG E Ea c s Hs Hc.
  destruct (@segment_split fdir strm lim fuel m V L ltac:(lia) E NG c s Hs Hc) as [own [l [NDo [Ho [ND [Hl [OC [Lc P]]]]]]]].
  assert (Cell : forall q, q < length fdir -> ~ on_cycle fdir q -> nth_error cells q = Some (Z.of_nat (length (shed_cells fuel fdir q)))).
  { intros q Lq Oq. destruct (@C24_watershed_is_upstream fdir q fuel V Lq) as [o [Ew _]]; [lia|].
    rewrite (@C109_accumulation_is_watershed_size W wadd wzero fdir area fuel cells o q) by (auto; lia).
    rewrite count_where. unfold shed_cells. now rewrite Ew. }
  exists own, (wsum Z.add 0%Z (fun q => nth q cells 0%Z) l). split; auto. split; auto. split.
  - apply wsum_sum_over; auto; intros; lia.
  - rewrite (Cell c Lc Hc), (Permutation_length P), app_length, Nat2Z.inj_add. do 2 f_equal.
    rewrite <- wsum_ones, <- (@wsum_flat Z Z.add 0%Z) by (intros; lia). apply wsum_ext. intros q Hq.
    rewrite wsum_ones. symmetry. apply nth_error_nth. apply Cell; [now apply Hl|now apply OC].
Qed.

(** ** C146.  Area leaving a segment. *)
Theorem C146_segment_areas :
  forall (W : Type) (wadd : W -> W -> W) (wzero : W) (area : list W) fdir strm lim fuel m areas,
    exact_sum wadd wzero ->
    valid_fdir fdir -> length strm = length fdir -> length area = length fdir -> S (length fdir) <= fuel ->
    no_gaps fdir strm ->
    mf2005_connectivity lim fuel true fdir strm = Ok m ->
    flow_accumulation_area wadd wzero fuel fdir area = Ok areas ->
    forall c s, last_reach (m_nsr m) c s -> ~ on_cycle fdir c ->
      exists own inflow,
        sum_over wadd wzero (fun d => nth d area wzero) (segment_landscape fdir strm (m_nsr m) s) (length fdir) own /\
        sum_over wadd wzero (fun q => nth q areas wzero)
          (fun q => q <> c /\ exists t, last_reach (m_nsr m) q t /\ In (t, s) (m_seg m)) (length fdir) inflow /\
        nth_error areas c = Some (wadd own inflow).
Proof.
  intros W wadd wzero area fdir strm lim fuel m areas X V L La Hf NG E Ea c s Hs Hc.
  assert (X' := X). destruct X' as [C1 [C2 C3]].
  destruct (@segment_split fdir strm lim fuel m V L ltac:(lia) E NG c s Hs Hc) as [own [l [NDo [Ho [ND [Hl [OC [Lc P]]]]]]]].
  assert (Cell : forall q, q < length fdir -> ~ on_cycle fdir q ->
            nth_error areas q = Some (wsum wadd wzero (fun d => nth d area wzero) (shed_cells fuel fdir q))).
  { intros q Lq Oq.
    destruct (@C20_accumulated_area _ wadd wzero fdir area fuel areas X V La ltac:(lia) Ea q Lq Oq) as [r [Es S]].
    rewrite Es. f_equal. refine (sum_over_fun C3 S _).
    apply (wsum_sum_over wadd wzero C1 C2); [apply shed_nodup|]. intros d. apply in_shed; auto; lia. }
  exists (wsum wadd wzero (fun d => nth d area wzero) own), (wsum wadd wzero (fun q => nth q areas wzero) l).
  split; [|split].
  - apply (wsum_sum_over wadd wzero C1 C2); auto.
  - apply (wsum_sum_over wadd wzero C1 C2); auto.
  - rewrite (Cell c Lc Hc), (wsum_perm wadd wzero C1 C2 _ P), (wsum_app wadd wzero C1 C2 C3). do 2 f_equal.
    rewrite <- (wsum_flat wadd wzero C1 C2 C3). apply wsum_ext. intros q Hq. assert (Hq' := Hq). apply Hl in Hq'.
    symmetry. apply nth_error_nth. apply Cell; [tauto|]. now apply OC.
Qed.

(** ** the case of PropsLat: the segment of the cells 1 and 3 runs into the one of cell 5 *)
Example C146_segment_ex :
  no_gaps ExLat.fdir ExLat.strm /\ exists m, mf2005_connectivity 20 10 true ExLat.fdir ExLat.strm = Ok m /\
    m_nsr m = [(1, 1, 1); (3, 1, 2); (5, 2, 1)]%Z /\
    last_reach (m_nsr m) 3 1 /\ last_reach (m_nsr m) 5 2 /\ In (1, 2)%Z (m_seg m) /\ in_segment (m_nsr m) 1 1.
Proof.
  split; [apply ExLat.setting|].
  destruct (mf2005_connectivity 20 10 true ExLat.fdir ExLat.strm) as [m|] eqn:E; [|vm_compute in E; discriminate].
  exists m. vm_compute in E. injection E as <-. split; auto. cbn [m_nsr m_seg]. split; [reflexivity|]. split; [|split; [|split]].
  - exists 2%Z. split; [cbn; auto|]. intros x [Q|[Q|[Q|[]]]]; discriminate Q.
  - exists 1%Z. split; [cbn; auto|]. intros x [Q|[Q|[Q|[]]]]; discriminate Q.
  - cbn. auto.
  - exists 1%Z. cbn. auto.
Qed.

(** ** C146.  The landscapes of the reaches do not overlap and leave out no draining cell; what is
    accumulated at a reach is the landscapes of all reaches from which water comes. *)
Theorem C146_one_reach_each :
  forall fdir strm d,
    (exists c, stream_cell strm c /\ flows_through fdir d c) ->
    exists c, first_stream fdir strm d c /\ forall c', first_stream fdir strm d c' -> c' = c.
Proof.
  intros fdir strm d [c [Sc F]]. destruct (@first_of_stream fdir strm d c Sc F) as [y [Fy _]].
  exists y. split; auto. intros c' F'. apply first_stream_pour in Fy, F'. eapply first_pour_unique; eauto.
Qed.

Theorem C146_reach_is_sum_of_landscapes :
  forall (W : Type) (wadd : W -> W -> W) (wzero : W) (area : list W) fdir strm fuel cells (size : nat -> Z),
    valid_fdir fdir -> length strm = length fdir -> length area = length fdir -> S (length fdir) <= fuel ->
    flow_accumulation_cells wadd wzero fuel fdir area = Ok cells ->
    (forall u own, landscape fdir strm u own -> size u = Z.of_nat (length own)) ->
    forall c, stream_cell strm c -> ~ on_cycle fdir c ->
      exists s, sum_over Z.add 0%Z size (fun u => stream_cell strm u /\ flows_through fdir u c) (length fdir) s /\
                nth_error cells c = Some s.
Proof.
  intros W wadd wzero area fdir strm fuel cells size V L La Hf Ea Hs c Sc Hc.
  assert (Lc := stream_lt L Sc).
  destruct (@list_of (fun u => stream_cell strm u /\ flows_through fdir u c) (length fdir)) as [l [ND Hl]].
  { intros u Hu. destruct (in_dec Nat.eq_dec u (nonzero strm)) as [I|I]; rewrite <- stream_cell_in in I; [|tauto].
    destruct (flows_dec V c Hu); tauto. }
  assert (OW : exists f, forall u, In u l -> landscape fdir strm u (f u)).
  { assert (Sl : forall u, In u l -> stream_cell strm u) by (intros u Hu; apply Hl in Hu; tauto).
    clear Hl ND. induction l as [|u l IH]; [exists (fun _ => []); intros u []|].
    destruct IH as [f Hfn]; [intros; apply Sl; now right|].
    destruct (@own_list fdir strm V L u fuel) as [own HO]; [lia|apply Sl; now left|].
    exists (fun x => if Nat.eq_dec x u then own else f x). intros x Hx.
    destruct (Nat.eq_dec x u) as [->|NE]; auto. apply Hfn. destruct Hx; [congruence|auto]. }
  destruct OW as [f Hfn].
  assert (P : Permutation (shed_cells fuel fdir c) (flat_map f l)).
  { apply NoDup_Permutation; [apply shed_nodup| |].
    - apply nodup_flat; [exact ND|intros u Hu; apply (Hfn u Hu)|]. intros a b d Ha Hb Hda Hdb.
      apply (Hfn a Ha) in Hda. apply (Hfn b Hb) in Hdb. destruct Hda as [_ Fa], Hdb as [_ Fb].
      apply first_stream_pour in Fa, Fb. eapply first_pour_unique; eauto.
    - intros d. rewrite in_shed by (auto; lia). rewrite in_flat_map. split.
      + intros [Hd F]. destruct (@first_of_stream fdir strm d c Sc F) as [u [Fu Fuc]]. exists u.
        assert (Hu : In u l) by (apply Hl; split; [apply (stream_lt L); apply Fu|split; [apply Fu|exact Fuc]]).
        split; auto. now apply (Hfn u Hu).
      + intros [u [Hu Hd]]. apply (Hfn u Hu) in Hd. apply Hl in Hu. destruct Hd as [Hd [_ [k [Ek _]]]].
        split; auto. apply (flows_trans (b := u)); [now exists k|tauto]. }
  exists (wsum Z.add 0%Z size l). split; [apply wsum_sum_over; auto; intros; lia|].
  destruct (@C24_watershed_is_upstream fdir c fuel V Lc) as [o [Ew _]]; [lia|].
  rewrite (@C109_accumulation_is_watershed_size W wadd wzero fdir area fuel cells o c) by (auto; lia).
  rewrite count_where. unfold shed_cells in P. rewrite Ew in P. apply Permutation_length in P. rewrite P, <- wsum_ones.
  rewrite <- (@wsum_flat Z Z.add 0%Z) by (intros; lia). f_equal. apply wsum_ext. intros u Hu. rewrite wsum_ones. symmetry. now apply Hs, Hfn.
Qed.
