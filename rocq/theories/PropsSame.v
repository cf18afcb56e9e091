(** C122: the MODFLOW 6 and the MODFLOW-2005 network of the same streams describe the same river:
    the cell that receives the water of a stream cell is the same in both. *)
From Verif Require Import Py Spec MFlow LGraph MStream LStream LConn PropsStream LSeg LSeg2 LSeg3 LSeg4 PropsSeg.
Set Implicit Arguments.
Unset Strict Implicit.
Local Open Scope nat_scope.
Local Open Scope list_scope.

(** in the MODFLOW 6 network the reach in cell [c] is connected downstream to the reach in cell [d] *)
Definition runs_into6 (reach_numbers : list Z) (graph : topology) (c d : nat) : Prop :=
  exists r to, nth_error reach_numbers c = Some r /\ In (r, to) graph /\ to <> 0%Z /\ nth_error reach_numbers d = Some to.

(** in the MODFLOW-2005 network the reach in cell [c] is followed by the reach in cell [d]: the next
    reach of its segment or, after the last one, the first reach of the segment's outseg *)
Definition runs_into5 (rows : list (Z * Z * Z)) (seg_graph : topology) (c d : nat) : Prop :=
  exists s r, In (Z.of_nat c, s, r) rows /\
    (In (Z.of_nat d, s, (r + 1)%Z) rows \/
     ((forall x, ~ In (x, s, (r + 1)%Z) rows) /\ exists t, In (s, t) seg_graph /\ t <> 0%Z /\ In (Z.of_nat d, t, 1%Z) rows)).

Section S.
  Variables (fdir strm : list Z).
  Hypothesis V : valid_fdir fdir.
  Hypothesis L : length strm = length fdir.

  Lemma mf6_next lim s2 g c d : mf6_connectivity lim fdir strm = Ok (s2, g) ->
    (runs_into6 s2 g c d <-> stream_cell strm c /\ stream_cell strm d /\ d = down fdir c).
  Proof.
    intros E. destruct (@C34_reaches_number_the_cells fdir strm lim s2 g V L E) as [L2 [U [N1 [N0 [ND K]]]]].
    assert (G := @C35_graph_follows_flow fdir strm lim s2 g V L E).
    assert (SC : forall x, stream_cell strm x <-> x < length strm /\ nth_error strm x <> Some 0%Z).
    { intros x. unfold stream_cell. destruct (nth_error strm x) as [z|] eqn:Ez.
      - assert (x < length strm) by (apply nth_error_Some; congruence). split.
        + intros [y [Hy Hz]]. inversion Hy; subst. split; auto. congruence.
        + intros [_ Hz]. exists z. split; auto. congruence.
      - split; [intros [y [Hy _]]; discriminate|]. intros [Hx _]. apply nth_error_None in Ez. lia. }
    assert (UN : forall r x y, r <> 0%Z -> nth_error s2 x = Some r -> nth_error s2 y = Some r -> x = y).
    { intros r x y Hr Hx Hy.
      assert (Lx : x < length strm) by (rewrite <- L2; apply nth_error_Some; congruence).
      assert (Sx : nth_error strm x <> Some 0%Z) by (intros Q; apply N0 in Q; congruence).
      destruct (N1 x Lx Sx) as [r' [Hr' Hx']]. assert (r' = r) by congruence. subst r'.
      destruct (U r Hr') as [z [_ Hz]]. rewrite (Hz x Hx), (Hz y Hy). reflexivity. }
    assert (ON : forall x r, r <> 0%Z -> nth_error s2 x = Some r -> stream_cell strm x).
    { intros x r Hr Hx. apply SC. split; [rewrite <- L2; apply nth_error_Some; congruence|].
      intros Q. apply N0 in Q. congruence. }
    split.
    - intros [r [to [Hc [Hg [Ht Hd]]]]].
      assert (K1 : (1 <= r)%Z) by (assert (Q := Hg); apply (in_map fst) in Q; apply K in Q; cbn in Q; lia).
      apply G in Hg. destruct Hg as [c' [Lc' [Sc' [Hc' [T0 T1]]]]].
      assert (c' = c) by (apply (UN r); [lia|auto|auto]). subst c'.
      split; [apply SC; auto|]. split; [eapply ON; eauto|].
      assert (Sd : nth_error strm (down fdir c) <> Some 0%Z) by (intros Q; apply Ht; now apply T0).
      apply (UN to); auto.
    - intros [Sc [Sd ->]]. apply SC in Sc, Sd. destruct Sc as [Lc Sc], Sd as [Ld Sd].
      destruct (N1 c Lc Sc) as [r [Hr Hc]]. destruct (N1 _ Ld Sd) as [to [Ht Hd]].
      exists r, to. split; auto. split; [|split; [lia|auto]].
      apply G. exists c. repeat split; auto. intros Q. contradiction.
  Qed.

  Lemma mf5_next lim fuel m c d : length fdir <= fuel -> mf2005_connectivity lim fuel true fdir strm = Ok m ->
    (runs_into5 (m_nsr m) (m_seg m) c d <->
     stream_cell strm c /\ stream_cell strm d /\ d = down fdir c /\ ~ closed_ring fdir strm c).
  Proof.
    intros Hf E. destruct (@C42_segments_partition_the_streams fdir strm lim fuel m V L Hf E) as [RS [ND [CO RO]]].
    destruct (@C43_segment_graph fdir strm lim fuel m V L Hf E) as [NDg [KG G]].
    assert (ONE : forall x s r s' r', In (x, s, r) (m_nsr m) -> In (x, s', r') (m_nsr m) -> s = s' /\ r = r').
    { intros x s r s' r' H H'. assert (Q : (x, s, r) = (x, s', r')); [|inversion Q; auto].
      assert (F : forall l, NoDup (map (fun row : Z * Z * Z => fst (fst row)) l) -> In (x, s, r) l -> In (x, s', r') l -> (x, s, r) = (x, s', r')).
      { induction l as [|[[a b] q] l IH]; intros N I I'; [destruct I|]. cbn [map fst] in N. inversion N as [|? ? N1 N2]; subst.
        destruct I as [I|I], I' as [I'|I']; try congruence; auto.
        - exfalso. apply N1. inversion I; subst. apply in_map_iff. exists (x, s', r'). auto.
        - exfalso. apply N1. inversion I'; subst. apply in_map_iff. exists (x, s, r). auto. }
      exact (F _ ND H H'). }
    assert (UR : forall x y s r, In (x, s, r) (m_nsr m) -> In (y, s, r) (m_nsr m) -> x = y).
    { intros x y s r H H'. destruct (@grouped_result fdir strm lim fuel m V L Hf E) as [K [sg [tg [HS [HK [C _]]]]]].
      rewrite (c_nsr C) in H, H'. apply in_rows in H, H'.
      destruct H as [a [j [Ha [Hj [-> [-> ->]]]]]], H' as [a' [j' [Ha' [Hj' [-> [Es Er]]]]]].
      assert (a = a') by (now apply (c_inj C)). subst a'. f_equal. f_equal. lia. }
    assert (NAT : forall x s r, In (x, s, r) (m_nsr m) -> x = Z.of_nat (Z.to_nat x)).
    { intros x s r H. destruct (RS _ _ _ H) as [y [-> _]]. now rewrite Nat2Z.id. }
    assert (SCR : forall y s r, In (Z.of_nat y, s, r) (m_nsr m) -> stream_cell strm y).
    { intros y s r H. destruct (RS _ _ _ H) as [y' [Q S']]. apply Nat2Z.inj in Q. now subst. }
    split.
    - intros [s [r [Hc H]]]. assert (Sc := SCR _ _ _ Hc).
      assert (NR : ~ closed_ring fdir strm c) by (apply (CO c Sc); eauto).
      destruct (RO c s r Hc) as [R1 [R2 [R3 R4]]].
      destruct H as [Hd|[Hno [t [Ht [Ht0 Hd]]]]].
      + assert (Sd := SCR _ _ _ Hd). split; auto. split; auto. split; auto.
        destruct (RO d s (r + 1)%Z Hd) as [_ [_ [X _]]]. destruct X as [p [Hp Hpd]]; [lia|].
        replace (r + 1 - 1)%Z with r in Hp by lia. assert (Z.of_nat p = Z.of_nat c) by (eapply UR; eauto).
        assert (p = c) by lia. now subst.
      + assert (Sd := SCR _ _ _ Hd). split; auto. split; auto. split; auto.
        apply G in Ht. destruct Ht as [c' [r' [Hc' [Hl' [T1 T0]]]]].
        assert (c' = c).
        { (* both are the last reach of the segment *)
          destruct (@grouped_result fdir strm lim fuel m V L Hf E) as [K [sg [tg [HS [HK [C _]]]]]].
          rewrite (c_nsr C) in Hc, Hc', Hno, Hl'. apply in_rows in Hc, Hc'.
          destruct Hc as [a [j [Ha [Hj [Q1 [Q2 Q3]]]]]], Hc' as [a' [j' [Ha' [Hj' [Q1' [Q2' Q3']]]]]].
          assert (a = a') by (apply (c_inj C); congruence). subst a'.
          assert (j = j').
          { destruct (Nat.lt_trichotomy j j') as [X|[X|X]]; auto; exfalso.
            - apply (Hno (Z.of_nat (downs fdir (S j) a))). apply in_rows. exists a, (S j). repeat split; auto; lia.
            - apply (Hl' (Z.of_nat (downs fdir (S j') a))). apply in_rows. exists a, (S j'). repeat split; auto; lia. }
          subst j'. apply Nat2Z.inj in Q1, Q1'. congruence. }
        subst c'. destruct (in_dec Nat.eq_dec (down fdir c) (nonzero strm)) as [I|I].
        * apply stream_cell_in in I. specialize (T1 I). assert (Q := UR _ _ _ _ T1 Hd). lia.
        * rewrite <- stream_cell_in in I. exfalso. apply Ht0, T0, I.
    - intros [Sc [Sd [-> NR]]]. apply (CO c Sc) in NR. destruct NR as [s [r Hc]]. exists s, r. split; auto.
      destruct (RO c s r Hc) as [_ [_ [_ [X|X]]]]; [now left|].
      destruct X as [X|X]; [contradiction|]. right.
      assert (Hno : forall x, ~ In (x, s, (r + 1)%Z) (m_nsr m)).
      { intros x Hx. rewrite (NAT _ _ _ Hx) in Hx. destruct (RO _ _ _ Hx) as [_ [Y [Z _]]].
        destruct Z as [p [Hp Hpd]]; [destruct (RO c s r Hc); lia|]. replace (r + 1 - 1)%Z with r in Hp by lia.
        assert (Q := UR _ _ _ _ Hp Hc). apply Nat2Z.inj in Q. subst p. rewrite Hpd in X. apply Y in X.
        destruct (RO c s r Hc); lia. }
      split; auto.
      destruct (proj2 (CO (down fdir c) Sd)) as [t [q Hq]].
      { intros [k [_ [_ RI]]]. destruct X as [_ [l [[ND1 I1] Ll]]]. destruct (RI 0) as [_ [x [ND2 I2]]]. cbn [downs] in I2.
        apply Ll. change 1 with (length [x]). apply Nat.le_antisymm; apply NoDup_incl_length; auto; intros y Hy.
        - apply I2. now apply I1.
        - apply I1. now apply I2. }
      assert (q = 1%Z) by (destruct (RO _ _ _ Hq) as [_ [Y _]]; now apply Y). subst q.
      exists t. split; [|split; auto].
      + apply G. exists c, r. split; auto. split; auto. split; auto. intros Q. contradiction.
      + destruct (@grouped_result fdir strm lim fuel m V L Hf E) as [K [sg [tg [HS [HK [C _]]]]]].
        rewrite (c_nsr C) in Hq. apply in_rows in Hq. destruct Hq as [a [j [Ha [_ [_ [-> _]]]]]].
        assert (Q := c_rng C a Ha). lia.
  Qed.

  (** C122, segments of several reaches: off closed rings (whose cells have no MODFLOW-2005 rows,
      C45) the same cell follows in both networks *)
  Theorem C122_same_river lim lim' fuel s2 g m :
    length fdir <= fuel ->
    mf6_connectivity lim fdir strm = Ok (s2, g) -> mf2005_connectivity lim' fuel true fdir strm = Ok m ->
    forall c d, ~ closed_ring fdir strm c ->
      (runs_into6 s2 g c d <-> runs_into5 (m_nsr m) (m_seg m) c d).
  Proof.
    intros Hf E6 E5 c d NR. rewrite (mf6_next c d E6), (mf5_next c d Hf E5). tauto.
  Qed.

  (** C122, one reach per segment: the same up to the reaches that run into themselves *)
  Theorem C122_same_river_ungrouped lim lim' fuel s2 g m :
    mf6_connectivity lim fdir strm = Ok (s2, g) -> mf2005_connectivity lim' fuel false fdir strm = Ok m ->
    forall c d, c <> d -> (runs_into6 s2 g c d <-> runs_into5 (m_nsr m) (m_seg m) c d).
  Proof.
    intros E6 E5 c d NE. rewrite (mf6_next c d E6).
    destruct (@numbers fdir strm L) as [K [Es [NDK HK]]].
    destruct (@single_conn fdir strm V L K NDK HK lim' fuel Es) as [S _]. destruct (S m E5) as [sg [tg [C [_ [T1 T2]]]]].
    assert (RO : forall n s r, In (n, s, r) (m_nsr m) <-> exists x, stream_cell strm x /\ n = Z.of_nat x /\ s = sg x /\ r = 1%Z).
    { intros n s r. rewrite (c_nsr C), in_rows. split.
      - intros [x [j [Hx [Hj [-> [-> ->]]]]]]. assert (j = 0) by lia. subst j. exists x. rewrite stream_cell_in. auto.
      - intros [x [Hx [-> [-> ->]]]]. exists x, 0. rewrite <- stream_cell_in. repeat split; auto. }
    unfold runs_into5. split.
    - intros [Sc [Sd ->]]. exists (sg c), 1%Z. split; [apply RO; eauto|]. right.
      split; [intros x Hx; apply RO in Hx; destruct Hx as [_ [_ [_ [_ Q]]]]; discriminate|].
      assert (Ic := proj1 (stream_cell_in strm c) Sc). assert (Id := proj1 (stream_cell_in strm _) Sd).
      exists (sg (down fdir c)). split; [|split].
      + rewrite (c_seg C). apply in_map_iff. exists c. rewrite T1 by auto. auto.
      + assert (Q := c_rng C _ Id). lia.
      + apply RO. eauto.
    - intros [s [r [Hc H]]]. apply RO in Hc. destruct Hc as [c' [Sc [Q [-> ->]]]]. apply Nat2Z.inj in Q. subst c'.
      destruct H as [H|[_ [t [Ht [Ht0 Hd]]]]]; [apply RO in H; destruct H as [_ [_ [_ [_ Q]]]]; discriminate|].
      apply RO in Hd. destruct Hd as [d' [Sd [Q [-> _]]]]. apply Nat2Z.inj in Q. subst d'. split; auto. split; auto.
      rewrite (c_seg C) in Ht. apply in_map_iff in Ht. destruct Ht as [x [Ex Hx]]. inversion Ex as [[Q1 Q2]].
      assert (Ic := proj1 (stream_cell_in strm c) Sc). assert (Id := proj1 (stream_cell_in strm d) Sd).
      assert (x = c) by (apply (c_inj C); auto). subst x.
      destruct (Nat.eq_dec (down fdir c) c) as [Q|Q]; [rewrite T2 in Q2 by auto; congruence|].
      destruct (in_dec Nat.eq_dec (down fdir c) (nonzero strm)) as [I|I].
      + rewrite T1 in Q2 by auto. apply (c_inj C); auto.
      + assert (X := c_tg0 C c Ic). cbn [downs] in X. rewrite X in Q2 by auto. congruence.
  Qed.
End S.

(** 0 -> 1 -> 3, 2 -> 3 -> 4, 4 is the outlet, 5 is off the streams *)
Module ExS.
  Definition fdir := [1; 3; 3; 4; 4; 2]%Z.
  Definition strm := [1; 1; 1; 1; 1; 0]%Z.
  Example setting : valid_fdir fdir /\ length strm = length fdir /\ forall c, c < 6 -> ~ closed_ring fdir strm c.
  Proof.
    split; [repeat constructor; cbv; congruence|]. split; auto. intros c Hc [k [Hk [E R]]].
    (* following the flow from any cell ends at 4, which has the two inflows 3 and 4 *)
    assert (Q : downs fdir 4 c = 4) by (do 6 (destruct c as [|c]; [reflexivity|]); lia).
    destruct (R 4) as [_ [x [_ I]]]. rewrite Q in I.
    assert (S : forall i, i < 5 -> stream_cell strm i) by (intros i Hi; exists 1%Z; do 5 (destruct i as [|i]; [split; [reflexivity|discriminate]|]); lia).
    assert (I3 : In 3 [x]) by (apply I; split; [apply S; lia|reflexivity]). assert (I4 : In 4 [x]) by (apply I; split; [apply S; lia|reflexivity]).
    simpl in I3, I4. lia.
  Qed.
  Example both : exists s2 g m, mf6_connectivity 10 fdir strm = Ok (s2, g) /\ mf2005_connectivity 10 6 true fdir strm = Ok m /\
    runs_into6 s2 g 1 3 /\ runs_into5 (m_nsr m) (m_seg m) 1 3 /\ runs_into6 s2 g 0 1 /\ runs_into5 (m_nsr m) (m_seg m) 0 1.
  Proof.
    destruct (mf6_connectivity 10 fdir strm) as [[s2 g]|] eqn:E6; [|discriminate E6].
    destruct (mf2005_connectivity 10 6 true fdir strm) as [m|] eqn:E5; [|discriminate E5].
    exists s2, g, m. split; auto. split; auto.
    destruct setting as [V [L NR]]. assert (Hf : length fdir <= 6) by (simpl; lia).
    assert (S : forall i, i < 5 -> stream_cell strm i) by (intros i Hi; exists 1%Z; do 5 (destruct i as [|i]; [split; [reflexivity|discriminate]|]); lia).
    assert (A : runs_into6 s2 g 1 3) by (apply (mf6_next V L 1 3 E6); split; [apply S; lia|split; [apply S; lia|reflexivity]]).
    assert (B : runs_into6 s2 g 0 1) by (apply (mf6_next V L 0 1 E6); split; [apply S; lia|split; [apply S; lia|reflexivity]]).
    split; auto. split; [apply (C122_same_river V L Hf E6 E5); auto; apply NR; lia|]. split; auto.
    apply (C122_same_river V L Hf E6 E5); auto; apply NR; lia.
  Qed.
End ExS.
