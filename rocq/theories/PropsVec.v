(** C69: create_stream_vectors. *)
From Verif Require Import Py Spec MFlow LGraph LTopo MStream LStream LSeg LSeg2 LSeg3 LSeg4 PropsSeg PropsReach LVec.
Set Implicit Arguments.
Unset Strict Implicit.
Local Open Scope nat_scope.
Local Open Scope list_scope.

Lemma result_targets fdir strm lim fuel grouped m : valid_fdir fdir -> length strm = length fdir -> length fdir <= fuel ->
  mf2005_connectivity lim fuel grouped fdir strm = Ok m ->
  exists K len sg tg, conn5 fdir strm m K len sg tg /\
    (forall c, In c K -> tg c = 0%Z \/ (In (downs fdir (S (len c)) c) K /\ tg c = sg (downs fdir (S (len c)) c))).
Proof.
  intros V L Hf E. destruct grouped.
  - destruct (@grouped_result fdir strm lim fuel m V L Hf E) as [K [sg [tg [HS [HK [C [T [G U]]]]]]]].
    exists K, (slen fdir strm K), sg, tg. split; auto. intros c Hc.
    destruct (in_dec Nat.eq_dec (downs fdir (S (slen fdir strm K c)) c) (nonzero strm)) as [Hi|Hi].
    + right. now apply T.
    + left. now apply (c_tg0 C).
  - destruct (@numbers fdir strm L) as [K [Es [NDK HK]]].
    destruct (@single_conn fdir strm V L K NDK HK lim fuel Es) as [S _]. destruct (S m E) as [sg [tg [C [_ [T1 T2]]]]].
    exists (nonzero strm), (fun _ => 0), sg, tg. split; auto. intros c Hc.
    destruct (in_dec Nat.eq_dec (down fdir c) (nonzero strm)) as [Hi|Hi]; [|left; now apply (c_tg0 C)].
    destruct (Nat.eq_dec (down fdir c) c); [left; auto|right; split; auto; apply T1; auto].
Qed.

Section S.
  Variables (fdir strm : list Z) (m : mf2005) (K : list nat) (len : nat -> nat) (sg tg : nat -> Z).
  Hypothesis C : conn5 fdir strm m K len sg tg.
  Hypothesis TG : forall c, In c K -> tg c = 0%Z \/ (In (downs fdir (S (len c)) c) K /\ tg c = sg (downs fdir (S (len c)) c)).

  Lemma seg_nd : NoDup (map fst (m_seg m)).
  Proof. rewrite (c_seg C), map_map. simpl. assert (ND := c_nd C).
    assert (J : forall a b, In a K -> In b K -> sg a = sg b -> a = b) by (intros a b; apply (@c_inj _ _ _ _ _ _ _ C)).
    clear - ND J. induction ND as [|c l Hc ND IH]; simpl; constructor.
    - intros Hi. apply in_map_iff in Hi. destruct Hi as [x [Ex Hx]]. apply Hc.
      rewrite (J c x); auto; [now left|now right].
    - apply IH. intros; apply J; auto; now right. Qed.

  Lemma seg_key s : In s (map fst (m_seg m)) <-> exists c, In c K /\ sg c = s.
  Proof. rewrite (c_seg C), map_map, in_map_iff. simpl. split; intros [c [H1 H2]]; exists c; auto. Qed.

  Lemma seg_0 : ~ In 0%Z (map fst (m_seg m)).
  Proof. rewrite seg_key. intros [c [H1 H2]]. assert (X := @c_rng _ _ _ _ _ _ _ C c H1). lia. Qed.

  Lemma seg_t s o : In (s, o) (m_seg m) <-> exists c, In c K /\ s = sg c /\ o = tg c.
  Proof. rewrite (c_seg C), in_map_iff. split.
    - intros [c [H1 H2]]. inversion H1; subst. exists c; auto.
    - intros [c [H1 [-> ->]]]. exists c; auto. Qed.

  Lemma seg_T s o : In (s, o) (m_seg m) -> o = 0%Z \/ In o (map fst (m_seg m)).
  Proof. rewrite seg_t. intros [c [Hc [-> ->]]]. destruct (TG Hc) as [|[H1 H2]]; auto. right. rewrite seg_key. eauto. Qed.

  Lemma seg_rows c : In c K -> rows_of (m_nsr m) (sg c) = map (fun j => Z.of_nat (downs fdir j c)) (seq 0 (S (len c))).
  Proof.
    intros Hc. unfold rows_of. rewrite (c_nsr C).
    rewrite (@rows_of_seg fdir len sg K c (c_nd C)); auto; [|intros a b; apply (@c_inj _ _ _ _ _ _ _ C)].
    apply rows_cells.
  Qed.

  Lemma seg_R s : In s (map fst (m_seg m)) -> rows_of (m_nsr m) s <> [].
  Proof. rewrite seg_key. intros [c [Hc <-]]. rewrite (seg_rows Hc). discriminate. Qed.

  Lemma seg_tt c : In c K -> tt_ (m_seg m) (sg c) = tg c.
  Proof. intros Hc. apply (tt_in seg_nd). apply seg_t. exists c; auto. Qed.

  Lemma seg_line c : In c K -> line (m_seg m) (m_nsr m) (sg c) =
    map (fun j => Z.of_nat (downs fdir j c)) (seq 0 (S (len c) + if (tg c =? 0)%Z then 0 else 1)).
  Proof.
    intros Hc. unfold line. rewrite (seg_tt Hc), (seg_rows Hc). destruct (Z.eqb_spec (tg c) 0) as [|Hn].
    - now rewrite app_nil_r, Nat.add_0_r.
    - destruct (TG Hc) as [?|[H1 H2]]; [contradiction|]. rewrite H2, (seg_rows H1).
      rewrite seq_app, map_app. f_equal.
  Qed.
End S.

(** The lines trace the segments down to the first cell of the next segment. *)
Theorem C69_lines_trace_segments :
  forall fdir strm lim fuel grouped m fuel2,
    valid_fdir fdir -> length strm = length fdir -> length fdir <= fuel ->
    mf2005_connectivity lim fuel grouped fdir strm = Ok m -> 3 * length (m_seg m) < fuel2 ->
    exists v, stream_vectors fuel2 (m_seg m) (m_nsr m) = Ok v /\ NoDup (map fst v) /\
      (* a line goes down the cells of its segment, and on to the next segment *)
      (forall s l, In (s, l) v -> exists c n o, In (s, o) (m_seg m) /\
         map (fun r => fst (fst r)) (filter (fun r => snd (fst r) =? s)%Z (m_nsr m))
           = map (fun j => Z.of_nat (downs fdir j c)) (seq 0 n) /\
         l = map (fun j => Z.of_nat (downs fdir j c)) (seq 0 (if (o =? 0)%Z then n else n + 1)) /\
         (o <> 0%Z -> In (Z.of_nat (downs fdir n c), o, 1%Z) (m_nsr m)) /\ 2 <= length l) /\
      (* the segments that have a line: those below a headwater segment with two cells or an outflow *)
      (forall s, In s (map fst v) <->
         exists h o, In (s, o) (m_seg m) /\ (o <> 0%Z \/ 2 <= length (filter (fun r => snd (fst r) =? s)%Z (m_nsr m))) /\
           In h (map fst (m_seg m)) /\ (forall k, ~ In (k, h) (m_seg m)) /\ drains_into (m_seg m) h s).
Proof.
  intros fdir strm lim fuel grouped m fuel2 V L Hf E HF.
  destruct (result_targets V L Hf E) as [K [len [sg [tg [C TG]]]]].
  destruct (@vectors_spec (m_seg m) (m_nsr m) (seg_nd C) (seg_0 C) (fun s o => seg_T C TG (s:=s) (o:=o)) (fun s => seg_R C (s:=s)) fuel2 HF)
    as [v [done [EV [ND [HV [HD _]]]]]].
  exists v. split; auto. split; auto.
  assert (LL : forall c, In c K -> length (line (m_seg m) (m_nsr m) (sg c)) = S (len c) + if (tg c =? 0)%Z then 0 else 1).
  { intros c Hc. rewrite (seg_line C TG Hc), map_length, seq_length. reflexivity. }
  assert (LR : forall c, In c K -> length (filter (fun r => snd (fst r) =? sg c)%Z (m_nsr m)) = S (len c)).
  { intros c Hc. assert (X := seg_rows C Hc). unfold rows_of in X. apply (f_equal (@length Z)) in X.
    now rewrite !map_length, seq_length in X. }
  assert (DK : forall s, In s done -> exists c, In c K /\ sg c = s).
  { intros s Hs. apply HD in Hs. destruct Hs as [h [Hh [Hd Hn]]]. apply in_heads in Hh. destruct Hh as [Hh _].
    apply (seg_key C). revert Hh Hn. clear - C TG Hd. induction Hd as [a|a o b Hi Hd IH]; auto. intros _ Hn.
    destruct (seg_T C TG Hi) as [->|Ho]; [|auto]. inversion Hd; subst; [congruence|].
    exfalso. apply (seg_0 C). apply in_map_iff. exists (0%Z, o); auto. }
  split.
  - intros s l Hi. apply HV in Hi. destruct Hi as [Hs [HB ->]]. destruct (DK s Hs) as [c [Hc <-]].
    exists c, (S (len c)), (tg c). split; [apply (seg_t C); exists c; auto|].
    split; [apply (seg_rows C Hc)|]. rewrite (seg_line C TG Hc). split; [|split].
    + destruct (tg c =? 0)%Z; [now rewrite Nat.add_0_r|reflexivity].
    + intros Hn. destruct (TG c Hc) as [?|[H1 H2]]; [contradiction|]. rewrite (c_nsr C), H2.
      apply in_flat_map. exists (downs fdir (S (len c)) c). split; auto.
      unfold rows. apply in_map_iff. exists 0. split; [reflexivity|]. apply in_seq. lia.
    + unfold big in HB. apply Nat.ltb_lt in HB. rewrite (LL c Hc) in HB. rewrite map_length, seq_length. lia.
  - intros s. split.
    + intros Hs. apply in_map_iff in Hs. destruct Hs as [[s' l] [Es Hs]]. simpl in Es. subst s'.
      apply HV in Hs. destruct Hs as [Hs [HB _]]. destruct (DK s Hs) as [c [Hc <-]].
      assert (X := Hs). apply HD in X. destruct X as [h [Hh [Hd Hn]]]. apply in_heads in Hh. destruct Hh as [H1 H2].
      exists h, (tg c). split; [apply (seg_t C); exists c; auto|]. split; [|auto].
      unfold big in HB. apply Nat.ltb_lt in HB. rewrite (LL c Hc) in HB. rewrite (LR c Hc).
      destruct (Z.eqb_spec (tg c) 0); [right; lia|now left].
    + intros [h [o [Hi [Hor [H1 [H2 H3]]]]]]. apply (seg_t C) in Hi. destruct Hi as [c [Hc [-> ->]]].
      apply in_map_iff. exists (sg c, line (m_seg m) (m_nsr m) (sg c)). split; auto. apply HV. split; [|split; auto].
      * apply HD. exists h. split; [apply in_heads; auto|]. split; auto. assert (X := @c_rng _ _ _ _ _ _ _ C c Hc). lia.
      * unfold big. apply Nat.ltb_lt. rewrite (LL c Hc). rewrite (LR c Hc) in Hor. destruct (Z.eqb_spec (tg c) 0); lia.
Qed.

(** In the grouped network every segment lies below a headwater segment: a confluence has
    two inflowing segments, and they cannot all lie on cycles. *)
Lemma grouped_below_heads fdir strm lim fuel m : valid_fdir fdir -> length strm = length fdir -> length fdir <= fuel ->
  mf2005_connectivity lim fuel true fdir strm = Ok m ->
  forall s, In s (map fst (m_seg m)) ->
    exists h, In h (map fst (m_seg m)) /\ (forall k, ~ In (k, h) (m_seg m)) /\ drains_into (m_seg m) h s.
Proof.
  intros V L Hf E s0 Hs0.
  destruct (@grouped_result fdir strm lim fuel m V L Hf E) as [K [sg [tg [HS [HK [C [T [G U]]]]]]]].
  set (len := slen fdir strm K) in *.
  assert (TG : forall c, In c K -> tg c = 0%Z \/ (In (downs fdir (S (len c)) c) K /\ tg c = sg (downs fdir (S (len c)) c))).
  { intros c Hc. destruct (in_dec Nat.eq_dec (downs fdir (S (len c)) c) (nonzero strm)) as [Hi|Hi]; [right; now apply T|].
    left. now apply (c_tg0 C). }
  destruct (@vectors_spec (m_seg m) (m_nsr m) (seg_nd C) (seg_0 C) (fun s o => seg_T C TG (s:=s) (o:=o)) (fun s => seg_R C (s:=s)) _ (le_n _))
    as [v [done [_ [_ [_ [HD [HH HC]]]]]]].
  assert (ALL : forall s, In s (map fst (m_seg m)) -> In s done).
  2:{ apply ALL in Hs0. apply HD in Hs0. destruct Hs0 as [h [Hh [Hd _]]]. apply in_heads in Hh. exists h. tauto. }
  set (keys := map fst (m_seg m)) in *.
  set (R := filter (fun k => negb (memz k done)) keys).
  set (preds := fun s => filter (fun k => (tt_ (m_seg m) k =? s)%Z) keys).
  assert (RI : forall s, In s R <-> In s keys /\ ~ In s done).
  { intros s. unfold R. rewrite filter_In, negb_true_iff, memz_false. tauto. }
  assert (NDK : NoDup keys) by apply (seg_nd C).
  assert (PI : forall s k, In k (preds s) <-> In k keys /\ tt_ (m_seg m) k = s).
  { intros s k. unfold preds. rewrite filter_In, Z.eqb_eq. tauto. }
  assert (P2 : forall s, In s R -> 2 <= length (preds s)).
  { intros s Hs. apply RI in Hs. destruct Hs as [Hk Hd]. apply (seg_key C) in Hk. destruct Hk as [c [Hc <-]].
    (* inflow cells are the last cells of segments that flow to this one *)
    assert (IN : forall x, In x (inflows fdir strm c) -> exists c', In c' K /\ x = downs fdir (len c') c' /\ tg c' = sg c).
    { intros x Hx. apply inflows_spec in Hx. destruct Hx as [Hx HX]. apply stream_cell_in in Hx.
      destruct (@cover fdir strm V L K HK x Hx) as [[c' [j [Hc' [Hj ->]]]]|[k [_ [_ HL]]]].
      - assert (Ej : j = len c').
        { destruct (Nat.eq_dec j (len c')) as [|Hne]; auto. exfalso.
          assert (Y := @c_disj _ _ _ _ _ _ _ C c' c (S j) 0 Hc' Hc ltac:(fold len in Hj; lia) ltac:(lia)).
          destruct Y as [_ Y]; [rewrite downs_S; exact HX|discriminate]. }
        subst j. exists c'. split; auto. split; auto.
        assert (DN : downs fdir (S (len c')) c' = c) by (rewrite downs_S; exact HX).
        destruct (T c' Hc') as [_ X]; rewrite DN in *; auto. apply (HK c). auto.
      - exfalso. destruct (HL 1) as [_ H1]. simpl in H1. rewrite HX in H1. apply HK in Hc. tauto. }
    destruct (inflows fdir strm c) as [|x1 [|x2 r]] eqn:EI.
    - exfalso. apply Hd, HH, in_heads. split; [apply (seg_key C); eauto|].
      intros k Hk. apply (seg_t C) in Hk. destruct Hk as [c' [Hc' [-> Ht]]].
      assert (Hn : tg c' <> 0%Z) by (rewrite <- Ht; assert (X := @c_rng _ _ _ _ _ _ _ C c Hc); lia).
      destruct (TG c' Hc') as [?|[H1 H2]]; [contradiction|].
      assert (DN : downs fdir (S (len c')) c' = c).
      { apply (@c_inj _ _ _ _ _ _ _ C); auto. congruence. }
      assert (X : In (downs fdir (len c') c') (inflows fdir strm c)).
      { apply inflows_spec. split; [apply stream_cell_in, (@c_node _ _ _ _ _ _ _ C c' (len c') Hc'); lia|].
        rewrite downs_S in DN. exact DN. }
      rewrite EI in X. exact X.
    - exfalso. apply HK in Hc. destruct Hc as [_ Hc]. rewrite EI in Hc. now apply Hc.
    - destruct (IN x1) as [c1 [H1 [E1 T1]]]; [now left|]. destruct (IN x2) as [c2 [H2 [E2 T2]]]; [right; now left|].
      assert (NX : x1 <> x2).
      { assert (ND := proj1 (inflows_spec fdir strm c)). rewrite EI in ND. intros X. inversion ND as [|? ? ND1 ND2]. apply ND1. rewrite X. now left. }
      assert (Nc : c1 <> c2) by congruence.
      change 2 with (length [sg c1; sg c2]). apply NoDup_incl_length.
      + constructor; [|constructor; [easy|constructor]]. intros [X|[]]. apply Nc. symmetry. now apply (@c_inj _ _ _ _ _ _ _ C).
      + intros k [<-|[<-|[]]]; apply PI; (split; [apply (seg_key C); eauto|]); rewrite (seg_tt C); auto. }
  assert (PR : forall s k, In s R -> In k (preds s) -> In k R).
  { intros s k Hs Hk. apply PI in Hk. destruct Hk as [Hk Ek]. apply RI. split; auto. intros Hd.
    apply RI in Hs. destruct Hs as [Hs Hn]. apply Hn. rewrite <- Ek. apply HC; auto. rewrite Ek. intros ->. now apply (seg_0 C). }
  assert (NDR : NoDup R) by (now apply NoDup_filter).
  assert (CNT : 2 * length R <= length (flat_map preds R)).
  { clear PR NDR. assert (P2' : forall l, incl l R -> 2 * length l <= length (flat_map preds l)).
    { induction l as [|s l IH]; intros HI; simpl; auto. rewrite app_length.
      assert (X := P2 s (HI s (or_introl eq_refl))). assert (Y := IH (fun x Hx => HI x (or_intror Hx))). lia. }
    apply P2', incl_refl. }
  assert (NDF : NoDup (flat_map preds R)).
  { assert (G2 : forall l, NoDup l -> NoDup (flat_map preds l)).
    { induction 1 as [|s l Hs ND IH]; simpl; [constructor|].
      assert (AP : forall a b : list Z, NoDup a -> NoDup b -> (forall x, In x a -> ~ In x b) -> NoDup (a ++ b)).
      { clear. induction a as [|x a IH]; intros b Ha Hb HD; simpl; auto. inversion Ha; subst. constructor.
        - rewrite in_app_iff. intros [X|X]; [auto|]. apply (HD x); [now left|auto].
        - apply IH; auto. intros y Hy. apply HD. now right. }
      apply AP; auto; [now apply NoDup_filter|]. intros k Hk Hi. apply PI in Hk. apply in_flat_map in Hi.
      destruct Hi as [s' [Hs' Hi]]. apply PI in Hi. destruct Hk as [_ Hk], Hi as [_ Hi]. apply Hs. congruence. }
    now apply G2. }
  assert (LE : length (flat_map preds R) <= length R).
  { apply NoDup_incl_length; auto. intros k Hk. apply in_flat_map in Hk. destruct Hk as [s [Hs Hk]]. eapply PR; eauto. }
  intros s Hs. destruct (in_dec Z.eq_dec s done) as [|Hn]; auto. exfalso.
  assert (X : In s R) by (apply RI; auto). destruct R as [|r R']; [destruct X|simpl in *; lia].
Qed.

(** one cell per segment: below a headwater on cycle-free networks *)
Lemma single_below_heads fdir strm lim fuel m : valid_fdir fdir -> acyclic fdir -> length strm = length fdir -> length fdir <= fuel ->
  mf2005_connectivity lim fuel false fdir strm = Ok m ->
  forall s, In s (map fst (m_seg m)) ->
    exists h, In h (map fst (m_seg m)) /\ (forall k, ~ In (k, h) (m_seg m)) /\ drains_into (m_seg m) h s.
Proof.
  intros V AC L Hf E.
  assert (INC := @C46_segments_increase fdir strm lim fuel false m V AC L Hf E).
  destruct (@C46_ungrouped fdir strm lim fuel m V L E) as [_ [US [ND [KR [UQ _]]]]].
  assert (G : forall n s, Z.to_nat s <= n -> In s (map fst (m_seg m)) ->
    exists h, In h (map fst (m_seg m)) /\ (forall k, ~ In (k, h) (m_seg m)) /\ drains_into (m_seg m) h s).
  { induction n as [|n IH]; intros s Hn Hs; assert (Rs := proj1 (KR s) Hs); [lia|].
    destruct (in_dec Z.eq_dec s (map snd (m_seg m))) as [Hi|Hi].
    - apply in_map_iff in Hi. destruct Hi as [[k s'] [Es Hi]]. simpl in Es. subst s'.
      assert (Hk : In k (map fst (m_seg m))) by (apply in_map_iff; exists (k, s); auto).
      assert (Rk := proj1 (KR k) Hk).
      destruct (INC k s Hi) as [X|[X|X]]; [lia| |].
      + subst k. exfalso. apply US in Hi. destruct Hi as [c [H1 [H2 [H3 H4]]]].
        destruct (UQ s Rs) as [c0 [H5 H6]].
        assert (DD : stream_cell strm (down fdir c) /\ down fdir c <> c \/ (~ stream_cell strm (down fdir c) \/ down fdir c = c)).
        { destruct (Nat.eq_dec (down fdir c) c); auto.
          destruct (nth_error strm (down fdir c)) as [v|] eqn:Ev.
          - destruct (Z.eq_dec v 0) as [->|Hv]; [right; left; intros [w [W1 W2]]; congruence|left; split; auto; exists v; auto].
          - right; left; intros [w [W1 W2]]; congruence. }
        destruct DD as [DD|DD]; [|specialize (H4 DD); lia].
        assert (X := H3 DD). apply H6 in X. apply H6 in H2. destruct DD; congruence.
      + destruct (IH k) as [h [A [B D]]]; [lia|auto|]. exists h. split; auto. split; auto.
        clear - D Hi. induction D as [a|a o b Hi' D IH]; [econstructor; [exact Hi|constructor]|econstructor; eauto].
    - exists s. split; auto. split; [|constructor]. intros k Hk. apply Hi. apply in_map_iff. exists (k, s). auto. }
  intros s Hs. eapply G; eauto.
Qed.

(** Every segment has a line, except single-cell segments without outflow. *)
Theorem C69_every_segment_has_a_line :
  forall fdir strm lim fuel grouped m fuel2 v,
    valid_fdir fdir -> length strm = length fdir -> length fdir <= fuel ->
    mf2005_connectivity lim fuel grouped fdir strm = Ok m -> 3 * length (m_seg m) < fuel2 ->
    grouped = true \/ acyclic fdir ->
    stream_vectors fuel2 (m_seg m) (m_nsr m) = Ok v ->
    forall s o, In (s, o) (m_seg m) ->
      (In s (map fst v) <-> o <> 0%Z \/ 2 <= length (filter (fun r => snd (fst r) =? s)%Z (m_nsr m))).
Proof.
  intros fdir strm lim fuel grouped m fuel2 v V L Hf E HF HG EV s o Hi.
  destruct (@C69_lines_trace_segments fdir strm lim fuel grouped m fuel2 V L Hf E HF) as [v' [EV' [_ [_ HV]]]].
  assert (v' = v) by congruence. subst v'.
  destruct (result_targets V L Hf E) as [K [len [sg [tg [C TG]]]]].
  rewrite HV. split.
  - intros [h [o' [Hi' [Hor _]]]]. assert (o' = o); [|now subst].
    destruct (tt_in (seg_nd C) Hi) as [X _]. destruct (tt_in (seg_nd C) Hi') as [Y _]. congruence.
  - intros Hor. assert (Hs : In s (map fst (m_seg m))) by (apply in_map_iff; exists (s, o); auto).
    assert (BH : exists h, In h (map fst (m_seg m)) /\ (forall k, ~ In (k, h) (m_seg m)) /\ drains_into (m_seg m) h s).
    { destruct grouped.
      - eapply grouped_below_heads; eauto.
      - destruct HG as [?|HG]; [discriminate|]. eapply single_below_heads; eauto. }
    destruct BH as [h [A [B D]]]. exists h, o. auto.
Qed.

Module Ex.
  (** two headwaters 3, 4 meet in 1, which flows to 0 and out *)
  Definition fdir := [2; 0; 2; 1; 1]%Z.
  Definition strm := [1; 1; 0; 1; 1]%Z.
  Example lines : exists m, mf2005_connectivity 9 9 true fdir strm = Ok m /\
    stream_vectors 10 (m_seg m) (m_nsr m) = Ok [(2, [3; 1]); (3, [1; 0]); (1, [4; 1])]%Z.
  Proof. eexists. split; vm_compute; reflexivity. Qed.
  (** ungrouped, a ring of two stream cells has no headwater and gets no line *)
  Theorem C69_ring_has_no_line : exists m, mf2005_connectivity 9 9 false [1; 0]%Z [1; 1]%Z = Ok m /\
    m_seg m <> [] /\ stream_vectors 10 (m_seg m) (m_nsr m) = Ok [].
  Proof. eexists. split; [vm_compute; reflexivity|]. split; [discriminate|vm_compute; reflexivity]. Qed.
End Ex.
