(** C119: streams delineated in the watershed of a pour point form one network that ends at the
    pour point. *)
From Verif Require Import Py Spec MFlow LGraph LAcc LAcc2 LWs LAcc3 PropsAcc PropsAcc2 MStream LStream LConn PropsBasin PropsStream LSeg LSeg2 LSeg3 LSeg4 PropsSeg.
Set Implicit Arguments.
Unset Strict Implicit.
Local Open Scope nat_scope.
Local Open Scope list_scope.

Section Net.
  Context {W : Type} (wzero : W) (ge : W -> W -> bool).
  Variables (fdir : list Z) (areas : list W) (fuel : nat).
  Hypothesis V : valid_fdir fdir.
  Hypothesis A : acyclic fdir.
  Hypothesis Hf : length fdir <= fuel.
  Variables (t : W) (pour : nat) (basin strm : list Z).
  Hypothesis areas_len : length areas = length fdir.
  Hypothesis Mono : forall c, c < length fdir -> ge (nth c areas wzero) t = true ->
    ge (nth (down fdir c) areas wzero) t = true.
  Hypothesis Hp : pour < length fdir.
  Hypothesis EB : get_watershed_boundary fuel fdir (Z.of_nat pour) None = Ok basin.
  Hypothesis ES : delineate_streams ge areas (Scalar t) (Some basin) = Ok strm.

  Lemma ge_downs k c : c < length fdir -> ge (nth c areas wzero) t = true -> ge (nth (downs fdir k c) areas wzero) t = true.
  Proof.
    intros Hc Hg. induction k as [|k IH]; auto. rewrite downs_S. apply Mono; auto. apply downs_lt; auto.
  Qed.

  (** the stream cells are the cells above the pour point whose accumulation reaches the threshold *)
  Lemma basin_streams : length strm = length fdir /\ forall c, c < length fdir ->
    (nth_error strm c = Some 1%Z <-> flows_through fdir c pour /\ ge (nth c areas wzero) t = true) /\
    (nth_error strm c = Some 0%Z <-> ~ (flows_through fdir c pour /\ ge (nth c areas wzero) t = true)).
  Proof.
    destruct (C29_cells _ _ _ _ ES) as [L H]. rewrite areas_len in L. split; auto. intros c Hc.
    destruct (H c (nth c areas wzero)) as [x [Hx [Hi Ho]]]; [apply nth_error_nth'; rewrite areas_len; auto|].
    cbn in Hx. subst x.
    destruct (@C24_watershed_is_upstream fdir pour fuel V Hp ltac:(lia)) as [b [EB' [Lb HB]]].
    rewrite EB in EB'. injection EB' as <-. destruct (HB c Hc) as [B1 B2].
    assert (M : nth_error basin c <> Some 0%Z <-> flows_through fdir c pour).
    { destruct (flows_dec V pour Hc) as [D|D].
      - split; auto. intros _. rewrite B1 by auto. discriminate.
      - split; [|contradiction]. intros Q. exfalso. apply Q. auto. }
    assert (Y : nth_error strm c = Some 1%Z <-> flows_through fdir c pour /\ ge (nth c areas wzero) t = true).
    { rewrite Hi. split.
      - intros [Q1 Q2]. split; auto. apply M. apply Q2. reflexivity.
      - intros [Q1 Q2]. split; auto. intros b0 Q. injection Q as <-. now apply M. }
    split; auto. rewrite <- Y. destruct Ho as [Ho|Ho]; rewrite Ho; split; try congruence; intros; try discriminate.
  Qed.

  (** from a stream cell down to the pour point every cell is a stream cell; so the pour point is a
      stream cell if there is any *)
  Lemma runs_to : forall c d, c < length fdir -> nth_error strm c = Some 1%Z ->
    flows_through fdir c d -> flows_through fdir d pour -> nth_error strm d = Some 1%Z.
  Proof.
    intros c d Hc Hs [k <-] Hd. destruct basin_streams as [_ B].
    assert (Hl : downs fdir k c < length fdir) by (apply downs_lt; auto).
    apply (B _ Hl). split; auto. apply (B c Hc) in Hs. destruct Hs as [_ Hs].
    now apply ge_downs.
  Qed.

  Lemma stream_one c : c < length fdir -> nth_error strm c <> Some 0%Z -> nth_error strm c = Some 1%Z.
  Proof.
    intros Hc N. destruct basin_streams as [_ B]. destruct (B c Hc) as [B1 B2].
    destruct (C29_cells _ _ _ _ ES) as [L H]. rewrite areas_len in L.
    destruct (H c (nth c areas wzero)) as [x [Hx [Hi Ho]]]; [apply nth_error_nth'; rewrite areas_len; auto|].
    destruct Ho; congruence.
  Qed.

  (** MODFLOW 6: the reach at the pour point has the highest number, it is the only one that flows
      to no other reach, and following the connections leads from every reach to it *)
  Lemma one_outlet lim s2 g :
    mf6_connectivity lim fdir strm = Ok (s2, g) -> g <> [] ->
    let n := Z.of_nat (length g) in
    nth_error s2 pour = Some n /\
    (forall r to, In (r, to) g -> (to = 0%Z \/ to = r) <-> r = n) /\
    (forall r, (1 <= r <= n)%Z -> drains_into g r n).
  Proof.
    intros M NE n. destruct basin_streams as [Ls B].
    destruct (@C34_reaches_number_the_cells fdir strm lim s2 g V Ls M) as [H1 [H2 [H3 [H4 [H5 H6]]]]]. fold n in H2, H3, H6.
    assert (H7 := @C35_graph_follows_flow fdir strm lim s2 g V Ls M).
    assert (H8 := @C36_numbers_increase fdir strm lim s2 g V A Ls M).
    assert (Npos : (1 <= n)%Z) by (unfold n; destruct g; [congruence|cbn [length]; lia]).
    (* one link of the network *)
    assert (LK : forall c, c < length fdir -> nth_error strm c = Some 1%Z -> c <> pour ->
              exists r to, nth_error s2 c = Some r /\ nth_error s2 (down fdir c) = Some to /\ In (r, to) g /\
                nth_error strm (down fdir c) = Some 1%Z /\ (1 <= r < to)%Z /\ (to <= n)%Z).
    { intros c Hc Hs Np. assert (Fl := proj1 (proj1 (proj1 (B c Hc)) Hs)). destruct Fl as [[|k] Fk]; [cbn in Fk; congruence|].
      cbn [downs] in Fk. assert (Hd : down fdir c < length fdir) by (apply down_lt; auto).
      assert (Sd : nth_error strm (down fdir c) = Some 1%Z).
      { apply runs_to with c; auto; [exists 1; reflexivity|exists k; exact Fk]. }
      destruct (H3 c ltac:(lia) ltac:(congruence)) as [r [R1 R2]].
      destruct (H3 (down fdir c) ltac:(lia) ltac:(congruence)) as [to [T1 T2]].
      assert (IN : In (r, to) g).
      { apply H7. exists c. split; [lia|]. split; [congruence|]. split; auto. split; [congruence|auto]. }
      assert (Nd : down fdir c <> c).
      { intros X. apply Np. rewrite <- Fk. rewrite X. clear -X. induction k as [|k IH]; [reflexivity|].
        cbn [downs]. rewrite X. exact IH. }
      assert (Nr : to <> r).
      { intros X. subst to. destruct (H2 r R1) as [c0 [_ U]]. apply Nd. rewrite (U _ T2), (U _ R2). reflexivity. }
      exists r, to. do 4 (split; auto). destruct (H8 _ _ IN) as [X|[X|X]]; lia. }
    (* every reach leads to the reach at the pour point *)
    assert (P : exists c, c < length fdir /\ nth_error strm c = Some 1%Z).
    { destruct (H2 1%Z ltac:(lia)) as [c [C1 _]]. exists c.
      assert (Hc : c < length fdir) by (rewrite <- Ls, <- H1; apply nth_error_Some; congruence).
      split; auto. apply stream_one; auto. intros X. apply H4 in X. congruence. }
    destruct P as [c0 [Hc0 Sc0]].
    assert (Sp : nth_error strm pour = Some 1%Z).
    { apply runs_to with c0; auto; [apply (B c0 Hc0); auto|exists 0; reflexivity]. }
    destruct (H3 pour ltac:(lia) ltac:(congruence)) as [rp [Rp1 Rp2]].
    assert (DR : forall k c r, downs fdir k c = pour -> c < length fdir -> nth_error strm c = Some 1%Z ->
              nth_error s2 c = Some r -> drains_into g r rp).
    { induction k as [|k IH]; intros c r Hk Hc Hs Hr.
      - cbn in Hk. subst c. replace r with rp by congruence. constructor.
      - destruct (Nat.eq_dec c pour) as [->|Np]; [replace r with rp by congruence; constructor|].
        destruct (LK c Hc Hs Np) as [r' [to [Q1 [Q2 [Q3 [Q4 _]]]]]]. assert (r' = r) by congruence. subst r'.
        apply di_step with to; auto. cbn [downs] in Hk. apply (IH (down fdir c)); auto. apply down_lt; auto. }
    assert (ONE : forall r, (1 <= r <= n)%Z -> exists c, c < length fdir /\ nth_error s2 c = Some r /\ nth_error strm c = Some 1%Z).
    { intros r Hr. destruct (H2 r Hr) as [c [C1 _]]. exists c.
      assert (Hc : c < length fdir) by (rewrite <- Ls, <- H1; apply nth_error_Some; congruence).
      split; auto. split; auto. apply stream_one; auto. intros X. apply H4 in X. assert (r = 0%Z) by congruence. lia. }
    assert (NR : rp = n).
    { destruct (ONE n ltac:(lia)) as [c [C1 [C2 C3]]]. destruct (Nat.eq_dec c pour) as [->|Np]; [congruence|].
      exfalso. destruct (LK c C1 C3 Np) as [r [to [Q1 [Q2 [Q3 [Q4 [Q5 Q6]]]]]]]. assert (r = n) by congruence. lia. }
    subst rp. split; auto. split.
    - intros r to IN. assert (Hr : (1 <= r <= n)%Z) by (apply H6; apply (in_map fst) in IN; exact IN).
      apply H7 in IN. destruct IN as [c [I1 [I2 [I3 [I4 I5]]]]]. rewrite Ls in I1.
      assert (Sc := stream_one I1 I2). destruct (Nat.eq_dec c pour) as [->|Np].
      + split; [intros _; congruence|]. intros ->.
        assert (Hd : down fdir pour < length fdir) by (apply down_lt; auto).
        destruct (nth_error strm (down fdir pour)) as [z|] eqn:Ez.
        2:{ apply nth_error_None in Ez. lia. }
        destruct (Z.eq_dec z 0) as [->|Nz]; [left; auto|right].
        assert (S1 := stream_one Hd ltac:(congruence)).
        destruct (proj1 (proj1 (proj1 (B _ Hd)) S1)) as [k Hk].
        destruct (Nat.eq_dec (down fdir pour) pour) as [X|X].
        * assert (I6 := I5 ltac:(congruence)). rewrite X in I6. congruence.
        * exfalso. apply (A Hp). split; auto. exists (S k). split; [lia|exact Hk].
      + destruct (LK c I1 Sc Np) as [r' [to' [Q1 [Q2 [Q3 [Q4 [Q5 Q6]]]]]]].
        assert (to = to') by (specialize (I5 ltac:(congruence)); congruence). assert (r = r') by congruence. subst.
        split; [lia|]. intros ->. lia.
    - intros r Hr. destruct (ONE r Hr) as [c [C1 [C2 C3]]].
      destruct (proj1 (proj1 (proj1 (B _ C1)) C3)) as [k Hk]. apply (DR k c); auto.
  Qed.

  (** MODFLOW-2005: the segment that ends at the pour point has the highest number, it is the only
      one that flows to no other segment, and every segment drains into it *)
  Lemma one_segment lim sfuel m : length fdir <= sfuel ->
    mf2005_connectivity lim sfuel true fdir strm = Ok m -> m_seg m <> [] ->
    let n := Z.of_nat (length (m_seg m)) in
    (exists r, In (Z.of_nat pour, n, r) (m_nsr m) /\ forall x, ~ In (x, n, (r + 1)%Z) (m_nsr m)) /\
    (forall s to, In (s, to) (m_seg m) -> (to = 0%Z \/ to = s) <-> s = n) /\
    (forall s, (1 <= s <= n)%Z -> drains_into (m_seg m) s n).
  Proof.
    intros Hsf M NE n. destruct basin_streams as [Ls B].
    assert (INC := @C46_segments_increase fdir strm lim sfuel true m V A Ls Hsf M).
    destruct (@grouped_result fdir strm lim sfuel m V Ls Hsf M) as [K [sg [tg [HS [HK [C [T [G U]]]]]]]].
    set (len := slen fdir strm K) in *.
    assert (LK : length (m_seg m) = length K) by (rewrite (c_seg C); apply map_length).
    assert (SC : forall x, In x (nonzero strm) <-> x < length fdir /\ nth_error strm x = Some 1%Z).
    { intros x. rewrite <- stream_cell_in. split.
      - intros [v [H1 H2]]. assert (x < length fdir) by (rewrite <- Ls; apply nth_error_Some; congruence).
        split; auto. apply stream_one; congruence.
      - intros [H1 H2]. exists 1%Z. split; congruence. }
    assert (KN : forall a, In a K -> a < length fdir /\ nth_error strm a = Some 1%Z).
    { intros a Ha. apply SC. exact (@c_node _ _ _ _ _ _ _ C a 0 Ha ltac:(lia)). }
    assert (SELF : forall k x, x < length fdir -> 0 < k -> downs fdir k x = x -> down fdir x = x).
    { intros k x Hx Hk E. destruct (Nat.eq_dec (down fdir x) x) as [|Ne]; auto. exfalso. apply (A Hx). split; eauto. }
    assert (FIX : forall x, down fdir x = x -> forall k, downs fdir k x = x).
    { intros x E k. induction k as [|k IH]; auto. cbn [downs]. now rewrite E. }
    (* a segment that has not reached the pour point goes on in another *)
    assert (NXT : forall k a, In a K -> downs fdir k a = pour -> ~ k <= len a ->
              In (downs fdir (S (len a)) a) K /\ tg a = sg (downs fdir (S (len a)) a) /\
              downs fdir (k - S (len a)) (downs fdir (S (len a)) a) = pour).
    { intros k a Ha Hk Hl. assert (E : downs fdir (k - S (len a)) (downs fdir (S (len a)) a) = pour).
      { rewrite <- downs_add. replace (S (len a) + (k - S (len a))) with k by lia. auto. }
      destruct (KN a Ha) as [K1 K2].
      assert (X : In (downs fdir (S (len a)) a) (nonzero strm)).
      { apply SC. split; [apply downs_lt; auto|]. apply runs_to with a; auto; [now exists (S (len a))|eexists; exact E]. }
      destruct (T a Ha X) as [T1 T2]. auto. }
    assert (COV : forall k a, In a K -> downs fdir k a = pour -> exists b j, In b K /\ j <= len b /\ downs fdir j b = pour).
    { intros k. induction k as [k IH] using lt_wf_ind. intros a Ha Hk.
      destruct (le_lt_dec k (len a)) as [X|X]; [eauto|].
      destruct (NXT k a Ha Hk ltac:(lia)) as [N1 [N2 N3]]. apply (IH (k - S (len a))) with (downs fdir (S (len a)) a); auto. lia. }
    assert (FL : forall a, In a K -> exists k, downs fdir k a = pour).
    { intros a Ha. destruct (KN a Ha) as [K1 K2]. apply (B a K1) in K2. destruct K2 as [[k Hk] _]. eauto. }
    assert (EX : exists a, In a K).
    { destruct K as [|a K']; [exfalso; apply NE; rewrite (c_seg C); reflexivity|]. exists a. now left. }
    destruct EX as [a0 Ha0]. destruct (FL a0 Ha0) as [k0 Hk0]. destruct (COV k0 a0 Ha0 Hk0) as [ap [jp [Hap [Hjp Ep]]]].
    assert (DR : forall k a, In a K -> downs fdir k a = pour -> drains_into (m_seg m) (sg a) (sg ap)).
    { intros k. induction k as [k IH] using lt_wf_ind. intros a Ha Hk.
      destruct (le_lt_dec k (len a)) as [X|X].
      - destruct (@c_disj _ _ _ _ _ _ _ C a ap k jp) as [-> _]; auto; [congruence|constructor].
      - destruct (NXT k a Ha Hk ltac:(lia)) as [N1 [N2 N3]].
        apply di_step with (tg a); [rewrite (c_seg C); apply (in_map (fun c => (sg c, tg c))); auto|].
        rewrite N2. apply (IH (k - S (len a))); auto. lia. }
    assert (OFF : forall a, In a K -> a <> ap -> tg a <> 0%Z /\ tg a <> sg a).
    { intros a Ha Na. destruct (FL a Ha) as [k Hk].
      assert (X : ~ k <= len a).
      { intros X. apply Na. apply (@c_disj _ _ _ _ _ _ _ C a ap k jp); auto. congruence. }
      destruct (NXT k a Ha Hk X) as [N1 [N2 N3]]. rewrite N2. assert (R := @c_rng _ _ _ _ _ _ _ C _ N1). split; [lia|].
      intros E. apply (c_inj C) in E; auto. apply Na. assert (D := SELF (S (len a)) a (proj1 (KN a Ha)) ltac:(lia) E).
      rewrite (FIX a D) in Hk. subst a. apply (@c_disj _ _ _ _ _ _ _ C pour ap 0 jp); auto. lia. }
    assert (BELOW : down fdir pour < length fdir -> nth_error strm (down fdir pour) = Some 1%Z -> down fdir pour = pour).
    { intros Hd S1. destruct (proj1 (proj1 (proj1 (B _ Hd)) S1)) as [k Hk]. apply (SELF (S k)); auto. lia. }
    assert (JP : jp = len ap).
    { destruct (Nat.eq_dec jp (len ap)) as [|Nj]; auto. exfalso.
      assert (X : In (downs fdir (S jp) ap) (nonzero strm)) by (apply (c_node C); auto; lia).
      apply SC in X. rewrite downs_S, Ep in X. destruct X as [X1 X2]. assert (D := BELOW X1 X2).
      destruct (@c_disj _ _ _ _ _ _ _ C ap ap jp (S jp)) as [_ Q]; auto; try lia. rewrite downs_S, Ep. now rewrite D. }
    assert (END : tg ap = 0%Z \/ tg ap = sg ap).
    { destruct (in_dec Nat.eq_dec (downs fdir (S (len ap)) ap) (nonzero strm)) as [X|X]; [right|left; now apply (c_tg0 C)].
      destruct (T ap Hap X) as [T1 ->]. rewrite <- JP, downs_S, Ep in *. apply SC in X. destruct X as [X1 X2].
      rewrite (BELOW X1 X2) in *. f_equal. apply (@c_disj _ _ _ _ _ _ _ C pour ap 0 jp); auto; lia. }
    assert (SP : sg ap = n).
    { unfold n. rewrite LK. assert (0 < length K) by (destruct K; [contradiction|cbn; lia]).
      destruct (@c_num _ _ _ _ _ _ _ C (Z.of_nat (length K)) ltac:(lia)) as [a [Ha Ea]].
      destruct (Nat.eq_dec a ap) as [->|Na]; auto. exfalso. destruct (OFF a Ha Na) as [O1 O2].
      destruct (FL a Ha) as [k Hk].
      assert (X : ~ k <= len a).
      { intros X. apply Na. apply (@c_disj _ _ _ _ _ _ _ C a ap k jp); auto. congruence. }
      destruct (NXT k a Ha Hk X) as [N1 [N2 N3]]. assert (R := @c_rng _ _ _ _ _ _ _ C _ N1).
      destruct (INC (sg a) (tg a)) as [Q|[Q|Q]]; try contradiction; [rewrite (c_seg C); apply (in_map (fun c => (sg c, tg c))); auto|]. lia. }
    split; [|split].
    - exists (Z.of_nat (S (len ap))). rewrite (c_nsr C), <- SP. split.
      + apply in_rows. exists ap, (len ap). repeat split; auto. congruence.
      + intros x X. apply in_rows in X. destruct X as [c [j [Hc [Hj [_ [Es Er]]]]]].
        apply (c_inj C) in Es; auto. subst c. lia.
    - intros s to H. rewrite (c_seg C) in H. apply in_map_iff in H. destruct H as [a [E Ha]]. inversion E; subst s to. clear E.
      rewrite <- SP. destruct (Nat.eq_dec a ap) as [->|Na]; [tauto|]. destruct (OFF a Ha Na) as [O1 O2].
      split; [tauto|]. intros Q. apply (c_inj C) in Q; auto. contradiction.
    - intros s Hs. rewrite <- SP. unfold n in Hs. rewrite LK in Hs. destruct (@c_num _ _ _ _ _ _ _ C s Hs) as [a [Ha <-]].
      destruct (FL a Ha) as [k Hk]. apply (DR k); auto.
  Qed.
End Net.

(** what C119 says of a stream array [strm] delineated with threshold [t] from the accumulation
    [facc] in the watershed of [pour] *)
Record basin_network {W} (wzero : W) (ge : W -> W -> bool) (fdir : list Z) (facc : list W) (t : W) (pour : nat)
       (strm : list Z) : Prop := {
  (* the stream cells are the cells above the pour point whose accumulation reaches the threshold *)
  bn_cells : length strm = length fdir /\ forall c, c < length fdir ->
    (nth_error strm c = Some 1%Z <-> flows_through fdir c pour /\ ge (nth c facc wzero) t = true) /\
    (nth_error strm c = Some 0%Z <-> ~ (flows_through fdir c pour /\ ge (nth c facc wzero) t = true));
  (* from a stream cell down to the pour point every cell is a stream cell *)
  bn_runs : forall c d, c < length fdir -> nth_error strm c = Some 1%Z ->
    flows_through fdir c d -> flows_through fdir d pour -> nth_error strm d = Some 1%Z;
  (* MODFLOW 6: the reach at the pour point has the highest number, it is the only one that flows
     to no other reach, and following the connections leads from every reach to it *)
  bn_outlet : forall lim s2 g, mf6_connectivity lim fdir strm = Ok (s2, g) -> g <> [] ->
    nth_error s2 pour = Some (Z.of_nat (length g)) /\
    (forall r to, In (r, to) g -> (to = 0%Z \/ to = r) <-> r = Z.of_nat (length g)) /\
    (forall r, (1 <= r <= Z.of_nat (length g))%Z -> drains_into g r (Z.of_nat (length g)));
  (* MODFLOW-2005: the segment that ends at the pour point has the highest number, it is the only
     one that flows to no other segment, and every segment drains into it *)
  bn_segments : forall lim sfuel m, length fdir <= sfuel ->
    mf2005_connectivity lim sfuel true fdir strm = Ok m -> m_seg m <> [] ->
    let n := Z.of_nat (length (m_seg m)) in
    (exists r, In (Z.of_nat pour, n, r) (m_nsr m) /\ forall x, ~ In (x, n, (r + 1)%Z) (m_nsr m)) /\
    (forall s to, In (s, to) (m_seg m) -> (to = 0%Z \/ to = s) <-> s = n) /\
    (forall s, (1 <= s <= n)%Z -> drains_into (m_seg m) s n)
}.

(** C119 for accumulated area, in any arithmetic in which a sum is at least as large as its parts *)
Theorem C119_network_of_a_basin :
  forall (W : Type) (wadd : W -> W -> W) (wzero : W) (ge : W -> W -> bool) (ok : W -> Prop)
         (fdir : list Z) (area facc : list W) fuel t pour basin strm,
    growing wadd ge ok -> (forall a, In a area -> wadd a wzero = a) -> (forall a, In a area -> ok a) ->
    (forall a b, ok a -> ok b -> ge b a = true -> ge a t = true -> ge b t = true) ->
    valid_fdir fdir -> acyclic fdir -> length area = length fdir -> S (length fdir) <= fuel -> pour < length fdir ->
    flow_accumulation_area wadd wzero fuel fdir area = Ok facc ->
    get_watershed_boundary fuel fdir (Z.of_nat pour) None = Ok basin ->
    delineate_streams ge facc (Scalar t) (Some basin) = Ok strm ->
    basin_network wzero ge fdir facc t pour strm.
Proof.
  intros W wadd wzero ge ok fdir area facc fuel t pour basin strm G HZ Hok Tr V A La Hf Hp E EB ES.
  assert (LA : length facc = length fdir).
  { destruct (@C20_any_addition W wadd wzero fdir area fuel facc HZ V La Hf E) as [LA _]. exact LA. }
  assert (Mo : forall c, c < length fdir -> ge (nth c facc wzero) t = true -> ge (nth (down fdir c) facc wzero) t = true).
  { intros c Hc Hg. assert (Hd : down fdir c < length fdir) by (apply down_lt; auto).
    apply (@Tr (nth c facc wzero)); auto; try (apply (acc_ok G HZ V La Hf Hok E); auto).
    apply (C30_grows_downstream G HZ V La Hf Hok E); auto. }
  assert (Hf' : length fdir <= fuel) by lia.
  constructor.
  - eapply basin_streams; eauto.
  - eapply runs_to; eauto.
  - intros lim s2 g M NE. eapply one_outlet; eauto.
  - intros lim sfuel m Hs M NE. exact (@one_segment _ _ _ _ _ _ V A Hf' _ _ _ _ LA Mo Hp EB ES lim sfuel m Hs M NE).
Qed.

(** C119 for accumulation in cells *)
Theorem C119_network_of_a_basin_cells :
  forall (W : Type) (wadd : W -> W -> W) (wzero : W) fdir (area : list W) fuel facc t pour basin strm,
    valid_fdir fdir -> acyclic fdir -> length area = length fdir -> S (length fdir) <= fuel -> pour < length fdir ->
    flow_accumulation_cells wadd wzero fuel fdir area = Ok facc ->
    get_watershed_boundary fuel fdir (Z.of_nat pour) None = Ok basin ->
    delineate_streams Z.geb facc (Scalar t) (Some basin) = Ok strm ->
    basin_network 0%Z Z.geb fdir facc t pour strm.
Proof.
  intros W wadd wzero fdir area fuel facc t pour basin strm V A La Hf Hp E EB ES.
  assert (AT : forall c, c < length fdir -> exists l, upstream_cells fdir c l /\ nth_error facc c = Some (Z.of_nat (length l))).
  { intros c Hc. exact (@C19_accumulated_cells W wadd wzero fdir area fuel facc V La Hf E c Hc (A c Hc)). }
  assert (LA : length facc = length fdir).
  { destruct (@C24_watershed_is_upstream fdir pour fuel V Hp ltac:(lia)) as [b [EB' [Lb _]]].
    rewrite EB in EB'. injection EB' as <-. rewrite <- Lb.
    unfold delineate_streams in ES. apply bind_ok in ES. destruct ES as [s0 [Ea ES']]. rewrite <- (above_length _ _ _ Ea).
    destruct (Nat.eqb_spec (length basin) (length s0)) as [X|X]; [auto|discriminate]. }
  assert (Mo : forall c, c < length fdir -> Z.geb (nth c facc 0%Z) t = true -> Z.geb (nth (down fdir c) facc 0%Z) t = true).
  { intros c Hc Hg. assert (Hd : down fdir c < length fdir) by (apply down_lt; auto).
    destruct (AT c Hc) as [l [[ND Hl] Hs]]. destruct (AT _ Hd) as [l' [[ND' Hl'] Hs']].
    assert (G : length l <= length l').
    { apply NoDup_incl_length; auto. intros i Hi. apply Hl in Hi. destruct Hi as [Hi [k Hk]]. apply Hl'. split; auto.
      exists (S k). rewrite downs_S. now rewrite Hk. }
    apply (nth_error_nth _ _ 0%Z) in Hs, Hs'. rewrite Hs in Hg. rewrite Hs'. rewrite Z.geb_leb, Z.leb_le in *. lia. }
  assert (Hf' : length fdir <= fuel) by lia.
  constructor.
  - eapply basin_streams; eauto.
  - eapply runs_to; eauto.
  - intros lim s2 g M NE. eapply one_outlet; eauto.
  - intros lim sfuel m Hs M NE. exact (@one_segment _ _ _ _ _ _ V A Hf' _ _ _ _ LA Mo Hp EB ES lim sfuel m Hs M NE).
Qed.

(** nine cells, 8 the outlet; the watershed of 5 with threshold 2: cells 5, 4 and 3 *)
Example C119_ex :
  let fdir := [3; 4; 5; 4; 5; 8; 7; 8; 8]%Z in
  flow_accumulation_cells Z.add 0%Z 10 fdir (repeat 1%Z 9) = Ok [1; 1; 1; 2; 4; 6; 1; 2; 9]%Z /\
  get_watershed_boundary 10 fdir 5%Z None = Ok [1; 1; 1; 1; 1; 1; 0; 0; 0]%Z /\
  delineate_streams Z.geb [1; 1; 1; 2; 4; 6; 1; 2; 9]%Z (Scalar 2%Z) (Some [1; 1; 1; 1; 1; 1; 0; 0; 0]%Z)
    = Ok [0; 0; 0; 1; 1; 1; 0; 0; 0]%Z /\
  mf6_connectivity 20 fdir [0; 0; 0; 1; 1; 1; 0; 0; 0]%Z = Ok ([0; 0; 0; 1; 2; 3; 0; 0; 0]%Z, [(1, 2); (2, 3); (3, 0)]%Z) /\
  (exists m, mf2005_connectivity 20 20 true fdir [0; 0; 0; 1; 1; 1; 0; 0; 0]%Z = Ok m /\
     m_nsr m = [(3, 1, 1); (4, 1, 2); (5, 1, 3)]%Z /\ m_seg m = [(1, 0)]%Z).
Proof. repeat split; try (vm_compute; reflexivity). eexists. split; [vm_compute; reflexivity|]. split; reflexivity. Qed.
