(** C47-C49: segment_data and reach_data of the MODFLOW-2005 stream package.

    [reach_data ncol seg_graph nsr] is the model of Sfr2005.reach_data on a grid with [ncol]
    columns; the theorems apply it to the segment graph [m_seg] and the rows [m_nsr] that
    get_stream_connectivity stores. *)
From Verif Require Import Py Spec MFlow LGraph LTopo MStream LStream LConn LSeg LSeg2 LSeg3 LSeg4 PropsSeg LReach.
Set Implicit Arguments.
Local Open Scope nat_scope.
Local Open Scope list_scope.

Lemma any_result fdir strm lim fuel grouped m : valid_fdir fdir -> length strm = length fdir -> length fdir <= fuel ->
  mf2005_connectivity lim fuel grouped fdir strm = Ok m ->
  exists K len sg tg, conn5 fdir strm m K len sg tg /\
    (forall c, In c K -> tg c = 0%Z \/ (In (downs fdir (S (len c)) c) K /\ tg c = sg (downs fdir (S (len c)) c))) /\
    (forall c, In c K -> tg c = 0%Z -> In (downs fdir (S (len c)) c) (nonzero strm) -> downs fdir (S (len c)) c = downs fdir (len c) c).
Proof.
  intros V L Hf E. destruct grouped.
  - destruct (@grouped_result fdir strm lim fuel m V L Hf E) as [K [sg [tg [HS [HK [C [T [G U]]]]]]]].
    exists K, (slen fdir strm K), sg, tg. split; auto. split; intros c Hc.
    + destruct (in_dec Nat.eq_dec (downs fdir (S (slen fdir strm K c)) c) (nonzero strm)) as [Hi|Hi].
      * right. now apply T.
      * left. now apply (c_tg0 C).
    + intros H0 Hi. destruct (T c Hc Hi) as [X Y]. apply (c_rng C) in X. lia.
  - destruct (@numbers fdir strm L) as [K [Es [NDK HK]]].
    destruct (@single_conn fdir strm V L K NDK HK lim fuel Es) as [S _]. destruct (S m E) as [sg [tg [C [_ [T1 T2]]]]].
    exists (nonzero strm), (fun _ => 0), sg, tg. split; auto. split; intros c Hc.
    + destruct (in_dec Nat.eq_dec (down fdir c) (nonzero strm)) as [Hi|Hi]; [|left; now apply (c_tg0 C)].
      destruct (Nat.eq_dec (down fdir c) c); [left; auto|right]. split; [exact Hi|]. now apply T1.
    + intros H0 Hi. destruct (Nat.eq_dec (down fdir c) c) as [X|X]; [exact X|exfalso].
      assert (Y := T1 c Hc Hi X). apply (c_rng C) in Hi. cbn [downs] in Hi. lia.
Qed.

(** ** C47 *)
Theorem C47_segment_data :
  forall fdir strm lim fuel grouped m,
    valid_fdir fdir -> length strm = length fdir -> length fdir <= fuel ->
    mf2005_connectivity lim fuel grouped fdir strm = Ok m ->
    (* the nseg column is 1, 2, ..., k *)
    map fst (segment_data (m_seg m)) = map Z.of_nat (seq 1 (length (m_seg m))) /\
    (* every row holds a segment and its outseg *)
    (forall s o, In (s, o) (segment_data (m_seg m)) <-> In (s, o) (m_seg m)).
Proof.
  intros fdir strm lim fuel grouped m V L Hf E. destruct (@any_result _ _ _ _ _ _ V L Hf E) as [K [len [sg [tg [C [T T']]]]]].
  destruct (seg_keys C) as [H1 H2]. split; [now apply sorted_items_1n|]. intros. apply sorted_items_in.
Qed.

(** ** C48 *)
Definition reach_row (r : rch) : Z * Z * Z := (r_node r, r_iseg r, r_ireach r).
(** earlier segment, or earlier reach of the same segment *)
Definition row_before (a b : rch) : Prop :=
  (r_iseg a < r_iseg b)%Z \/ (r_iseg a = r_iseg b /\ (r_ireach a < r_ireach b)%Z).

Lemma sorted_app {A} (R : A -> A -> Prop) l1 l2 : StronglySorted R l1 -> StronglySorted R l2 ->
  (forall x y, In x l1 -> In y l2 -> R x y) -> StronglySorted R (l1 ++ l2).
Proof.
  induction 1 as [|a l1 S IH F]; intros S2 H; auto. cbn [app]. constructor; [apply IH; auto; intros; apply H; auto; now right|].
  rewrite Forall_forall in *. intros x Hx. apply in_app_iff in Hx. destruct Hx; auto. apply H; auto. now left.
Qed.

Lemma sorted_F2 {A} (R : A -> A -> Prop) (Q : A -> A -> Prop) l1 l2 :
  (forall a b a' b', Q a a' -> Q b b' -> R a b -> R a' b') -> Forall2 Q l1 l2 -> StronglySorted R l1 -> StronglySorted R l2.
Proof.
  intros H F. induction F as [|a a' l l' Qa F IH]; intros S; [constructor|]. inversion S as [|? ? S1 F1]; subst. constructor; auto.
  clear S S1 IH. induction F as [|b b' l l' Qb F IH]; constructor.
  - inversion F1; subst. eapply H; eauto.
  - apply IH. now inversion F1.
Qed.

Lemma map_F2 {A B} (f : A -> B) (Q : A -> A -> Prop) l1 l2 : (forall a b, Q a b -> f b = f a) -> Forall2 Q l1 l2 -> map f l2 = map f l1.
Proof. intros H F. induction F; auto. cbn [map]. f_equal; auto. Qed.

(** what a successful call returns *)
Lemma reach_result fdir strm ncol m K len sg tg recs : conn5 fdir strm m K len sg tg ->
  (forall c, In c K -> tg c = 0%Z \/ (In (downs fdir (S (len c)) c) K /\ tg c = sg (downs fdir (S (len c)) c))) ->
  reach_data ncol (m_seg m) (m_nsr m) = Ok recs ->
  K <> [] /\ Forall2 same_rec (all_recs fdir ncol len sg tg (Ks K sg) 1) recs.
Proof.
  intros C T ER.
  assert (HK : K <> []).
  { intros ->. unfold reach_data in ER. rewrite (@reach_fold fdir strm ncol m [] len sg tg C T) in ER. cbn in ER. discriminate. }
  assert (F : Forall2 same_rec (all_recs fdir ncol len sg tg (Ks K sg) 1) recs).
  { unfold reach_data in ER. rewrite (@reach_fold fdir strm ncol m K len sg tg C T) in ER. cbn [bind] in ER.
    destruct (mapM (close_record (m_seg m) (first_ids len sg (Ks K sg) 1)) (all_recs fdir ncol len sg tg (Ks K sg) 1)) as [l|] eqn:EM; [|discriminate].
    cbn [bind] in ER. assert (El : l = recs) by (destruct l; [discriminate|congruence]). subst l. clear ER HK.
    revert EM. generalize (all_recs fdir ncol len sg tg (Ks K sg) 1). revert recs.
    intros recs l. revert recs. induction l as [|x l IH]; intros recs EM; cbn [mapM] in EM; [inversion EM; constructor|].
    apply bind_ok in EM. destruct EM as [y [Ey EM]]. apply bind_ok in EM. destruct EM as [l' [El' EM]]. inversion EM; subst. constructor; auto.
    unfold close_record in Ey. destruct (r_out x); [inversion Ey; subst; unfold same_rec; auto 12|].
    apply bind_ok in Ey. destruct Ey as [d [_ Ey]]. inversion Ey; subst. unfold same_rec. auto 12. }
  auto.
Qed.

Theorem C48_reach_data :
  forall fdir strm lim fuel grouped m ncol recs,
    valid_fdir fdir -> length strm = length fdir -> length fdir <= fuel -> (0 < ncol)%Z ->
    mf2005_connectivity lim fuel grouped fdir strm = Ok m ->
    reach_data ncol (m_seg m) (m_nsr m) = Ok recs ->
    (* one record per row, none left out *)
    Permutation (map reach_row recs) (m_nsr m) /\
    (* ordered by segment, then reach *)
    StronglySorted row_before recs /\
    (* reach IDs 1..n *)
    map r_id recs = map Z.of_nat (seq 1 (length recs)) /\
    (* row and column of the cell *)
    (forall r, In r recs -> r_node r = (r_i r * ncol + r_j r)%Z /\ (0 <= r_j r < ncol)%Z).
Proof.
  intros fdir strm lim fuel grouped m ncol recs V L Hf Hn E ER. destruct (@any_result _ _ _ _ _ _ V L Hf E) as [K [len [sg [tg [C [T T']]]]]].
  destruct (@reach_result fdir strm ncol m K len sg tg recs C T ER) as [HK F].
  split; [|split; [|split]].
  - rewrite (map_F2 reach_row (Q := same_rec) (l1 := all_recs fdir ncol len sg tg (Ks K sg) 1)); auto.
    + change reach_row with triple. rewrite all_triples by auto. rewrite (c_nsr C).
      apply Permutation_flat_map. symmetry. apply isort_perm.
    + intros a b [Q1 [_ [_ [Q4 [Q5 _]]]]]. unfold reach_row. congruence.
  - apply (sorted_F2 (R := row_before) (Q := same_rec) (l1 := all_recs fdir ncol len sg tg (Ks K sg) 1)); auto.
    { intros a b a' b' [_ [_ [_ [A4 [A5 _]]]]] [_ [_ [_ [B4 [B5 _]]]]] H. unfold row_before in *. rewrite A4, A5, B4, B5. exact H. }
    assert (S : StronglySorted (fun a b => (sg a < sg b)%Z) (Ks K sg)).
    { assert (X := zseq_sorted (length K) 1). rewrite <- (Ks_numbers C) in X. clear -X. induction (Ks K sg) as [|a l IH]; constructor.
      - apply IH. now inversion X.
      - inversion X; subst. rewrite Forall_forall in *. intros y Hy. apply H2. now apply in_map. }
    clear -S. generalize 1. induction S as [|a l S IH F]; intros id; cbn [all_recs]; [constructor|].
    apply sorted_app; auto.
    + unfold recs_of. assert (X : forall n s, StronglySorted row_before (map (rec_of fdir ncol len sg tg a id) (seq s n))).
      { induction n as [|n IHn]; intros s; cbn [seq map]; constructor; auto. apply Forall_forall. intros x Hx. apply in_map_iff in Hx.
        destruct Hx as [j [<- Hj]]. apply in_seq in Hj. right. unfold rec_of. cbn [r_iseg r_ireach]. split; auto. lia. }
      apply X.
    + intros x y Hx Hy. unfold recs_of in Hx. apply in_map_iff in Hx. destruct Hx as [j [<- Hj]].
      apply in_all in Hy. destruct Hy as [c [id' [j' [Hc [_ ->]]]]]. left. unfold rec_of. cbn [r_iseg].
      rewrite Forall_forall in F. now apply F.
  - rewrite (map_F2 r_id (Q := same_rec) (l1 := all_recs fdir ncol len sg tg (Ks K sg) 1)); auto; [|intros a b H; apply H].
    rewrite all_ids. f_equal. f_equal. clear -F. induction F; simpl; auto.
  - intros r Hr. assert (X : exists r0, In r0 (all_recs fdir ncol len sg tg (Ks K sg) 1) /\ same_rec r0 r).
    { clear -F Hr. induction F as [|a b l l' Q F IH]; [contradiction|]. destruct Hr as [->|Hr]; [exists a; split; auto; now left|].
      destruct (IH Hr) as [r0 [H1 H2]]. exists r0. split; auto. now right. }
    destruct X as [r0 [H0 [Q1 [Q2 [Q3 _]]]]]. apply in_all in H0. destruct H0 as [c [id' [j [_ [_ ->]]]]].
    rewrite Q1, Q2, Q3. unfold rec_of. cbn [r_node r_i r_j]. split; auto. now apply Z.mod_pos_bound.
Qed.

(** ** C49 *)
(** a river of two cells in a row of three: reach_data raises KeyError *)
Theorem C49_reach_data_fails_refuted :
  exists m, mf2005_connectivity 100 100 true [1; 2; 2]%Z [1; 1; 0]%Z = Ok m /\
    reach_data 3 (m_seg m) (m_nsr m) = Err KeyError.
Proof. eexists. split; vm_compute; reflexivity. Qed.

(** exactly when: the last cell of a segment with two or more reaches lies in a column whose
    number is the number of a segment without outflow *)
Theorem C49_when_reach_data_fails :
  forall fdir strm lim fuel grouped m ncol,
    valid_fdir fdir -> length strm = length fdir -> length fdir <= fuel -> (0 < ncol)%Z ->
    mf2005_connectivity lim fuel grouped fdir strm = Ok m ->
    m_seg m <> [] ->
    let clash := exists c s r, In (Z.of_nat c, s, r) (m_nsr m) /\ (1 < r)%Z /\
                   (forall x, ~ In (x, s, (r + 1)%Z) (m_nsr m)) /\
                   In ((Z.of_nat c mod ncol)%Z, 0%Z) (m_seg m) in
    (clash -> reach_data ncol (m_seg m) (m_nsr m) = Err KeyError) /\
    (~ clash -> exists recs, reach_data ncol (m_seg m) (m_nsr m) = Ok recs).
Proof.
  intros fdir strm lim fuel grouped m ncol V L Hf Hn E Hne clash. destruct (@any_result _ _ _ _ _ _ V L Hf E) as [K [len [sg [tg [C [T T']]]]]].
  assert (HK : K <> []) by (intros ->; apply Hne; rewrite (c_seg C); reflexivity).
  split.
  - intros [c [s [r [H [Hr [Hl Hz]]]]]]. rewrite (c_nsr C) in H, Hl. apply in_rows in H. destruct H as [a [j [Ha [Hj [En [-> ->]]]]]].
    apply Nat2Z.inj in En. subst c.
    assert (j = len a).
    { destruct (Nat.eq_dec j (len a)) as [X|X]; auto. exfalso. apply (Hl (Z.of_nat (downs fdir (S j) a))).
      apply in_rows. exists a, (S j). repeat split; auto; lia. }
    subst j. apply (@reach_data_err fdir strm ncol m K len sg tg C T a Ha). split; [lia|].
    rewrite (c_seg C) in Hz. apply in_map_iff in Hz. destruct Hz as [c' [Ec Hc']]. assert (E1 := f_equal fst Ec). assert (E2 := f_equal snd Ec).
    cbn [fst snd] in E1, E2. eauto.
  - intros Nc. destruct (@reach_data_ok fdir strm ncol m K len sg tg C T HK) as [recs [Er _]]; [|eauto].
    intros a Ha [Hl [c' [Hc' [Ht Es]]]]. apply Nc. exists (downs fdir (len a) a), (sg a), (Z.of_nat (S (len a))).
    rewrite (c_nsr C). split; [|split; [lia|split]].
    + apply in_rows. exists a, (len a). auto.
    + intros x X. apply in_rows in X. destruct X as [b [j [Hb [Hj [_ [Es' Er']]]]]]. apply (c_inj C) in Es'; auto. subst b. lia.
    + rewrite (c_seg C). apply in_map_iff. exists c'. split; auto. now rewrite Es, Ht.
Qed.

(** with one segment per cell reach_data always works *)
Theorem C49_ungrouped_succeeds :
  forall fdir strm lim fuel m ncol,
    valid_fdir fdir -> length strm = length fdir -> length fdir <= fuel -> (0 < ncol)%Z ->
    mf2005_connectivity lim fuel false fdir strm = Ok m -> m_seg m <> [] ->
    exists recs, reach_data ncol (m_seg m) (m_nsr m) = Ok recs.
Proof.
  intros fdir strm lim fuel m ncol V L Hf Hn E Hne.
  destruct (@C49_when_reach_data_fails fdir strm lim fuel false m ncol V L Hf Hn E Hne) as [_ H]. apply H.
  intros [c [s [r [H1 [H2 _]]]]]. destruct (@C46_ungrouped fdir strm lim fuel m V L E) as [H3 _]. apply H3 in H1.
  destruct H1 as [_ [_ [-> _]]]. lia.
Qed.

(** ** Instances: a Y-shaped network, 2 rows of 3 columns
       0 -> 1 -> 4, 2 -> 1, 4 -> 3 -> 3, 5 -> 5; cells 0, 1, 2, 4 are stream cells *)
Module Ex.
  Definition fdir := [1; 4; 1; 3; 3; 5]%Z.
  Definition strm := [1; 1; 1; 0; 1; 0]%Z.
  Example valid : valid_fdir fdir /\ length strm = length fdir.
  Proof. split; [repeat constructor; lia|reflexivity]. Qed.
  Example result : mf2005_connectivity 100 100 true fdir strm =
    Ok (Mf2005 [2; 3; 1; 0; 3; 0]%Z [(0, Some 1); (1, Some 4); (2, Some 1); (4, None)]%Z
               [(2, 3); (1, 3); (3, 0)]%Z [(0, 2, 1); (2, 1, 1); (1, 3, 1); (4, 3, 2)]%Z).
  Proof. vm_compute. reflexivity. Qed.
  Example reaches : exists recs, reach_data 3 [(2, 3); (1, 3); (3, 0)]%Z [(0, 2, 1); (2, 1, 1); (1, 3, 1); (4, 3, 2)]%Z = Ok recs /\
    map reach_row recs = [(2, 1, 1); (0, 2, 1); (1, 3, 1); (4, 3, 2)]%Z.
  Proof. eexists. split; vm_compute; reflexivity. Qed.
  Example confluence : starts_segment fdir strm 1 /\ ~ closed_ring fdir strm 1.
  Proof.
    split.
    - apply starts_iff. vm_compute. split; [auto|discriminate].
    - rewrite ring_iff. intros [k [_ [_ H]]]. destruct (H 0) as [_ X]. vm_compute in X. discriminate.
  Qed.
  Example ring : closed_ring [0; 2; 3; 3]%Z [1; 1; 1; 0]%Z 0.
  Proof. apply ring_iff. exists 1. split; [lia|]. split; auto. intros j. assert (X : downs [0; 2; 3; 3]%Z j 0 = 0) by (induction j; auto).
    rewrite X. vm_compute. auto. Qed.
End Ex.
