(** C75-C81: lengths, gradients and elevations in the stream products, routed length of a cell
    (exact real arithmetic). *)
From Coq Require Import Reals Lra Lia List String.
From Verif Require Import Py Spec SpecGeo MFlow LGraph LTopo MStream LStream LConn LSeg LSeg2 LSeg3 LSeg4
  PropsStream PropsSeg LReach PropsReach MGeo LGeo PropsGeo MNum.
Set Implicit Arguments.
Unset Strict Implicit.
Local Notation length := List.length.
Local Open Scope R_scope.
Local Open Scope list_scope.

Lemma fold_sum_ l a : fold_left Rplus l a = a + sum l.
Proof. revert a. induction l as [|x l IH]; intro a; cbn [fold_left sum fold_right]; [lra|]. rewrite IH. unfold sum. lra. Qed.
Lemma mean_average l : mean l = average l.
Proof. unfold mean, average. rewrite fold_sum_. f_equal. lra. Qed.

Lemma down_eq fdir c : valid_fdir fdir -> (c < length fdir)%nat ->
  nth c fdir 0%Z = Z.of_nat (down fdir c) /\ (down fdir c < length fdir)%nat.
Proof.
  intros V H. unfold valid_fdir in V. rewrite Forall_forall in V. specialize (V _ (nth_In _ 0%Z H)). unfold down. lia.
Qed.

Lemma stream_cell_nz strm c : stream_cell strm c <-> (c < length strm)%nat /\ nth_error strm c <> Some 0%Z.
Proof.
  split.
  - intros [v [H N]]. split; [apply nth_error_Some; congruence|congruence].
  - intros [H N]. destruct (nth_error strm c) as [v|] eqn:E; [|apply nth_error_None in E; lia]. exists v. split; auto. congruence.
Qed.

Lemma distance_self a : distance a a = 0.
Proof. unfold distance. replace (_ + _) with 0 by ring. apply sqrt_0. Qed.

(** ** C75: MODFLOW-6 package data *)
Theorem C75_package_lengths_and_gradients :
  forall fdir strm lim s2 g centers cells dem sl,
    valid_fdir fdir -> length strm = length fdir -> distinct_centers (length fdir) centers ->
    mf6_connectivity lim fdir strm = Ok (s2, g) ->
    slopes centers dem fdir = Ok sl ->
    exists pk, packagedata_num centers cells sl dem (some_graph g) s2 = Ok pk /\
      length pk = length g /\
      (* the record of every stream cell *)
      forall c, stream_cell strm c -> exists i p q,
        nth_error pk i = Some (p, q) /\ p_node p = c /\ p_ifno p = Z.of_nat i /\ nth_error s2 c = Some (Z.of_nat i + 1)%Z /\
        (* streambed top: the elevation of the cell *)
        n_rtp q = nth c dem None /\
        let d := down fdir c in
        let far := dist (nth c centers (0, 0)) (nth d centers (0, 0)) in
        (* reach length: 1.5 times the distance to the next stream cell *)
        (stream_cell strm d -> d <> c -> n_rlen q = 3 / 2 * far /\ 0 < n_rlen q) /\
        (* gradient: the drop to the cell below along 1.5 times the distance *)
        (forall zc zd, d <> c -> nth c dem None = Some zc -> nth d dem None = Some zd ->
           (zc - zd <= 0 \/ 1 / 1000000 <= zc - zd -> n_rgrd q = (zc - zd) / (3 / 2 * far)) /\
           (0 <= zc - zd < 1 / 1000000 -> n_rgrd q = 0)) /\
        (d = c -> n_rgrd q = 0).
Proof.
  intros fdir strm lim s2 g centers cells dem sl V L DC E ES.
  destruct (@C40_packagedata fdir strm lim s2 g V L E) as (conn & pk & _ & EP & Lp & _ & HP).
  unfold packagedata_num. rewrite EP. cbn [bind]. eexists. split; [reflexivity|]. split; [now rewrite map_length|].
  intros c Hc. assert (Hc' := Hc). apply stream_cell_nz in Hc'. destruct Hc' as [Hlt Hnz].
  destruct (@C34_reaches_number_the_cells fdir strm lim s2 g V L E) as (L2 & U & N & _ & _ & Kg).
  destruct (N c Hlt Hnz) as [r [Hr Hs]].
  assert (Hi : (Z.to_nat (r - 1) < length pk)%nat) by lia.
  destruct (nth_error pk (Z.to_nat (r - 1))) as [p|] eqn:Ep; [|apply nth_error_None in Ep; lia].
  destruct (HP _ _ Ep) as (H1 & H2 & H3 & _).
  assert (Er : Z.of_nat (Z.to_nat (r - 1) + 1) = r) by lia. rewrite Er in *.
  assert (Hn : p_node p = c).
  { destruct (U r Hr) as [x [Hx Ux]]. rewrite (Ux _ H2). symmetry. now apply Ux. }
  exists (Z.to_nat (r - 1)), p, (pkg_num centers cells sl dem p).
  split; [rewrite nth_error_map, Ep; reflexivity|]. split; [auto|]. split; [lia|]. split; [rewrite Hs; f_equal; lia|].
  rewrite Hn in *. unfold pkg_num. rewrite Hn. cbn [n_rtp n_rlen n_rgrd]. split; [reflexivity|].
  set (d := down fdir c). set (far := dist (nth c centers (0, 0)) (nth d centers (0, 0))). assert (Hcf : (c < length fdir)%nat) by lia. destruct (down_eq V Hcf) as [Ed Hd]. fold d in Ed, Hd.
  split; [|split].
  - intros Hsd Hne. apply stream_cell_nz in Hsd. destruct Hsd as [Hdl Hdz].
    assert (G : exists to, In (r, to) g) by (apply Kg in Hr; apply in_map_iff in Hr; destruct Hr as [[a b] [X Y]]; cbn in X; subst; eauto).
    destruct G as [to G]. destruct (H3 to G) as [_ H3']. assert (G' := G).
    apply (@C35_graph_follows_flow fdir strm lim s2 g V L E) in G'. destruct G' as (c' & Hc1 & Hc2 & Hc3 & _ & Hc5).
    assert (c' = c). { destruct (U r Hr) as [x [Hx Ux]]. rewrite (Ux _ Hc3). symmetry. now apply Ux. } subst c'.
    destruct (N d Hdl Hdz) as [rd [Hrd Hsd]]. assert (to <> 0%Z) by (specialize (Hc5 Hdz); fold d in Hc5; rewrite Hsd in Hc5; inversion Hc5; lia).
    rewrite (H3' H). change (distance (at_ centers c) (at_ centers (down fdir c))) with (distance (nth c centers (0, 0)) (nth d centers (0, 0))).
    rewrite dist_distance. change (dist (nth c centers (0, 0)) (nth d centers (0, 0))) with far.
    assert (0 < far) by (apply dist_pos; apply DC; auto).
    destruct (Req_EM_T far 0); [lra|]. split; lra.
  - intros zc zd Hne Hzc Hzd.
    destruct (@C73_slope_of_drainage_path centers dem fdir sl c d zc zd ES Hcf Ed Hd Hzc Hzd) as (S1 & S2 & _); [apply DC; auto|].
    assert (0 < far) by (apply dist_pos; apply DC; auto). change (dist (nth c centers (0, 0)) (nth d centers (0, 0))) with far in S1. replace 1.5 with (3 / 2) by lra.
    split; intros HH; [rewrite (S1 HH)|rewrite (S2 HH)]; [|lra]. field. lra.
  - intros Hdc. rewrite (@C73_slope_zero centers dem fdir sl c ES Hcf); [lra|right; congruence|].
    exists d. rewrite Ed. apply npidx_nat. lia.
Qed.

(** ** C76: reach length at an outlet *)
Lemma dist_horizontal x y w : 0 <= w -> dist (x, y) (x + w, y) = w.
Proof.
  intro H. unfold dist, norm, dot, sub; cbn [fst snd]. replace (_ + _) with (w * w) by ring. now apply sqrt_square.
Qed.
Lemma dist_vertical x y h : 0 <= h -> dist (x, y + h) (x, y) = h.
Proof.
  intro H. unfold dist, norm, dot, sub; cbn [fst snd]. replace (_ + _) with (h * h) by ring. now apply sqrt_square.
Qed.
Lemma dist_sym a b : dist a b = dist b a.
Proof. unfold dist, norm, dot, sub; cbn [fst snd]. f_equal. ring. Qed.

Lemma edges_path a l : edges (a :: l) = path_lengths a l.
Proof.
  unfold edges. cbn [List.length]. replace (S (length l) - 1)%nat with (length l) by lia. revert a. induction l as [|b l IH]; intro a; [reflexivity|].
  cbn [List.length seq map path_lengths]. f_equal; [apply dist_distance|]. rewrite <- IH. rewrite <- (seq_shift (length l) 1), map_map.
  apply map_ext_in. intros i Hi. apply in_seq in Hi. destruct i as [|i]; [lia|]. cbn [Nat.sub]. rewrite Nat.sub_0_r. reflexivity.
Qed.

(** an outlet reach in general: 1.5 times the mean of the sides without the closing one *)
Theorem C76_outlet_length : forall centers cells sl dem p a l,
  p_node_dn p = p_node p -> nth (p_node p) cells [] = a :: l ->
  n_rlen (pkg_num centers cells sl dem p) = 3 / 2 * average (path_lengths a l).
Proof.
  intros centers cells sl dem p a l Hn Hp. unfold pkg_num. cbn [n_rlen]. rewrite Hn, distance_self, Hp.
  destruct (Req_EM_T 0 0); [|lra]. rewrite mean_average, edges_path. lra.
Qed.

(** right if the vertex list of the cell is closed *)
Theorem C76_outlet_length_closed_cell : forall centers cells sl dem p a l,
  p_node_dn p = p_node p -> nth (p_node p) cells [] = a :: l ++ [a] ->
  n_rlen (pkg_num centers cells sl dem p) = 3 / 2 * average (side_lengths (a :: l)).
Proof. intros centers cells sl dem p a l H1 H2. exact (C76_outlet_length centers sl dem H1 H2). Qed.

(** a rectangular cell of a StructuredGrid: one of the two heights is left out; the mean side
    length is used only if the cell is a square *)
Theorem C76_outlet_length_refuted : forall centers cells sl dem p x y w h,
  0 < w -> 0 < h ->
  p_node_dn p = p_node p -> nth (p_node p) cells [] = flopy_rectangle x y w h ->
  n_rlen (pkg_num centers cells sl dem p) = 3 / 2 * ((2 * w + h) / 3) /\
  average (side_lengths (flopy_rectangle x y w h)) = (w + h) / 2 /\
  (w <> h -> n_rlen (pkg_num centers cells sl dem p) <> 3 / 2 * average (side_lengths (flopy_rectangle x y w h))).
Proof.
  intros centers cells sl dem p x y w h Hw Hh Hn Hp.
  assert (E1 : n_rlen (pkg_num centers cells sl dem p) = 3 / 2 * ((2 * w + h) / 3)).
  { unfold flopy_rectangle in Hp. rewrite (C76_outlet_length centers sl dem Hn Hp). f_equal. unfold average, sum. cbn [path_lengths fold_right List.length INR].
    rewrite dist_horizontal, dist_vertical, (dist_sym (x + w, y) (x, y)), dist_horizontal by lra. lra. }
  assert (E2 : average (side_lengths (flopy_rectangle x y w h)) = (w + h) / 2).
  { unfold flopy_rectangle, average, sum, side_lengths. cbn [app path_lengths fold_right List.length INR].
    rewrite dist_horizontal, dist_vertical, (dist_sym (x + w, y) (x, y)), dist_horizontal, (dist_sym (x, y)), dist_vertical by lra. lra. }
  rewrite E1, E2. repeat split; auto. intros N X. apply N. lra.
Qed.

(** ** C77: MODFLOW-2005 reach data *)
Theorem C77_reach_lengths_and_slopes :
  forall fdir strm lim fuel grouped m ncol centers top delr delc recs,
    valid_fdir fdir -> length strm = length fdir -> (length fdir <= fuel)%nat -> (0 < ncol)%nat ->
    distinct_centers (length fdir) centers ->
    mf2005_connectivity lim fuel grouped fdir strm = Ok m ->
    reach_data_num centers top delr delc (Z.of_nat ncol) (m_seg m) (m_nsr m) = Ok recs ->
    forall r q, In (r, q) recs -> exists c, r_node r = Z.of_nat c /\ stream_cell strm c /\
      q_top q = nth c top None /\
      let d := down fdir c in
      (* the cell below is another stream cell: 1.5 times the distance, drop over length *)
      (stream_cell strm d -> d <> c ->
         q_len q = 3 / 2 * dist (nth c centers (0, 0)) (nth d centers (0, 0)) /\ 0 < q_len q /\
         (forall zc zd, nth c top None = Some zc -> nth d top None = Some zd -> q_slope q = Some ((zc - zd) / q_len q))) /\
      (* an outlet: 1.5 times the mean of the width and the height of the cell, slope 0.0001 *)
      (~ stream_cell strm d \/ d = c ->
         q_len q = 3 / 2 * ((nth (c mod ncol) delr 0 + nth (c / ncol) delc 0) / 2) /\ q_slope q = Some (1 / 10000)).
Proof.
  intros fdir strm lim fuel grouped m ncol centers top delr delc recs V L Hf Hn DC E ER r q Hin.
  destruct (@any_result _ _ _ _ _ _ V L Hf E) as [K [len [sg [tg [C [T T']]]]]].
  unfold reach_data_num in ER. apply bind_ok in ER. destruct ER as [rs [ER EQ]]. inversion EQ; subst recs; clear EQ.
  apply in_map_iff in Hin. destruct Hin as [r' [Er Hin]]. inversion Er; subst r' q; clear Er.
  destruct (@reach_result fdir strm (Z.of_nat ncol) m K len sg tg rs C T ER) as [HK F].
  assert (X : exists r0, In r0 (all_recs fdir (Z.of_nat ncol) len sg tg (Ks K sg) 1) /\ same_rec r0 r).
  { clear -F Hin. induction F as [|a b l l' Q F IH]; [contradiction|]. destruct Hin as [->|Hr]; [exists a; split; auto; now left|].
    destruct (IH Hr) as [r0 [H1 H2]]. exists r0. split; auto. now right. }
  destruct X as [r0 [H0 Q]]. apply in_all in H0. destruct H0 as [a [id [j [Ha [Hj ->]]]]]. apply Ks_in in Ha.
  destruct Q as (Q1 & Q2 & Q3 & _ & _ & _ & Q7). unfold rec_of in Q1, Q2, Q3, Q7. cbn [r_node r_i r_j r_dn] in Q1, Q2, Q3, Q7.
  set (c := downs fdir j a) in *. exists c.
  assert (Hc : In c (nonzero strm)) by (apply (c_node C); auto).
  assert (Hcl : (c < length fdir)%nat) by (apply in_nonzero in Hc; lia).
  assert (En : r_node r = Z.of_nat c) by (rewrite Q1, Z.mul_comm; symmetry; apply Z.div_mod; lia).
  split; [exact En|]. split; [now apply stream_cell_in|].
  assert (Ei : Z.to_nat (r_i r) = (c / ncol)%nat) by (rewrite Q2, <- Nat2Z.inj_div; lia).
  assert (Ej : Z.to_nat (r_j r) = (c mod ncol)%nat) by (rewrite Q3, <- Nat2Z.inj_mod; lia).
  assert (Ed : down fdir c = downs fdir (S j) a) by (unfold c; symmetry; apply (downs_S fdir)).
  set (d := down fdir c) in *.
  (* the cell the length is measured to *)
  assert (Hdn : (stream_cell strm d /\ d <> c /\ r_dn r = Some (Z.of_nat d)) \/
                ((~ stream_cell strm d \/ d = c) /\ (r_dn r = None \/ r_dn r = Some (Z.of_nat c)))).
  { rewrite Q7. rewrite stream_cell_in. destruct (Nat.eqb_spec j (len a)) as [->|Nj].
    - rewrite <- Ed. destruct (in_dec Nat.eq_dec d (nonzero strm)) as [Hi|Hi].
      + destruct (Z.eqb_spec (tg a) 0) as [Z0|Z0].
        * right. split; [right|now left]. rewrite Ed in Hi |- *. apply (T' a Ha Z0 Hi).
        * destruct (Nat.eq_dec d c) as [->|N]; [right; split; auto|left; auto].
      + right. split; [auto|]. rewrite (c_tg0 C); auto. now rewrite <- Ed.
    - rewrite <- Ed. assert (Hi : In d (nonzero strm)) by (rewrite Ed; apply (c_node C); auto; lia).
      destruct (Nat.eq_dec d c) as [->|N]; [right; split; auto|left; auto]. }
  assert (QT : q_top (reach_num centers top delr delc r) = nth c top None).
  { unfold reach_num. rewrite En, Nat2Z.id. destruct (r_dn r) as [x|]; [destruct (Z.eqb x (Z.of_nat c))|]; reflexivity. }
  split; [exact QT|]. cbv zeta. destruct Hdn as [(D1 & D2 & D3)|(D1 & D2)].
  - split; [intros _ _|intros [X|X]; contradiction].
    unfold reach_num. rewrite D3, En, !Nat2Z.id. destruct (Z.eqb_spec (Z.of_nat d) (Z.of_nat c)); [lia|]. cbn [q_len q_slope].
    change (distance (at_ centers c) (at_ centers d)) with (distance (nth c centers (0, 0)) (nth d centers (0, 0))). rewrite dist_distance.
    assert (0 < dist (nth c centers (0, 0)) (nth d centers (0, 0))) by (apply dist_pos, DC; auto; apply down_eq; auto).
    split; [lra|]. split; [lra|]. intros zc zd H1 H2. unfold level. rewrite H1, H2. reflexivity.
  - split; [intros X Y; destruct D1; contradiction|intros _].
    assert (O : reach_num centers top delr delc r = RNum (1.5 * mean [nth (c mod ncol) delr 0; nth (c / ncol) delc 0]) (level top c) (Some 0.0001)).
    { unfold reach_num. rewrite En, Nat2Z.id, Ei, Ej. destruct D2 as [->| ->]; auto. now rewrite Z.eqb_refl. }
    rewrite O. cbn [q_len q_slope]. split; [|f_equal; lra]. rewrite mean_average. unfold average, sum. cbn [fold_right List.length INR]. lra.
Qed.

(** ** C78-C80: the pyGSFLOW stream object *)
Lemma builder_gen cfg centers top (all recs : list (nat * Z)) : forall out,
  mapM (fun r => let '(node, outreach) := r in
          let ix := (outreach - 1)%Z in
          node_dn <- (if (Z.of_nat (length all) <=? ix)%Z then Ok node
                      else r' <- npget all ix ;; Ok (fst r')) ;;
          Ok (level top node, builder_slope cfg centers top node node_dn)) recs = Ok out ->
  length out = length recs /\
  forall i node o, nth_error recs i = Some (node, o) ->
    exists d, ((Z.of_nat (length all) <= o - 1)%Z -> d = node) /\
              ((o - 1 < Z.of_nat (length all))%Z -> exists k o', npidx (length all) (o - 1) = Some k /\ nth_error all k = Some (d, o')) /\
              nth_error out i = Some (level top node, builder_slope cfg centers top node d).
Proof.
  induction recs as [|[n0 o0] recs IH]; intros out H; cbn [mapM] in H.
  - inversion H; subst. split; auto. intros [|i]; discriminate.
  - apply bind_ok in H. destruct H as [y [Hy H]]. apply bind_ok in H. destruct H as [out' [H' H]]. inversion H; subst out; clear H.
    destruct (IH _ H') as [IL IN]. split; [cbn [List.length]; now f_equal|].
    intros [|i] node o Hi; [|now apply IN]. cbn [nth_error] in Hi |- *. inversion Hi; subst n0 o0; clear Hi.
    apply bind_ok in Hy. destruct Hy as [d [Hd Hy]]. inversion Hy; subst y; clear Hy. exists d.
    destruct (Z.leb_spec (Z.of_nat (length all)) (o - 1)) as [Z0|Z0].
    + inversion Hd; subst. split; auto. split; [lia|auto].
    + split; [lia|]. split; [|auto]. intros _. apply bind_ok in Hd. destruct Hd as [[d' o'] [Hd X]]. cbn [fst] in X. inversion X; subst d'; clear X.
      unfold npget in Hd. destruct (npidx (length all) (o - 1)) as [k|]; [|discriminate]. apply get_ok in Hd. eauto.
Qed.
Lemma builder_nth cfg centers top recs out : builder_reaches cfg centers top recs = Ok out ->
  length out = length recs /\
  forall i node o, nth_error recs i = Some (node, o) ->
    exists d, ((Z.of_nat (length recs) <= o - 1)%Z -> d = node) /\
              ((o - 1 < Z.of_nat (length recs))%Z -> exists k o', npidx (length recs) (o - 1) = Some k /\ nth_error recs k = Some (d, o')) /\
              nth_error out i = Some (level top node, builder_slope cfg centers top node d).
Proof. apply builder_gen. Qed.

Lemma clamp_range cfg s : min_slope cfg <= max_slope cfg -> min_slope cfg <= clamp cfg s <= max_slope cfg.
Proof.
  intro H. unfold clamp. destruct (Rlt_dec (max_slope cfg) s); [lra|]. destruct (Rlt_dec s (min_slope cfg)); lra.
Qed.
Lemma clamp_spec cfg s : min_slope cfg <= max_slope cfg -> clamp cfg s = Rmin (max_slope cfg) (Rmax (min_slope cfg) s).
Proof.
  intro H. unfold clamp, Rmin, Rmax. destruct (Rlt_dec (max_slope cfg) s).
  - destruct (Rle_dec (min_slope cfg) s); [|lra]. destruct (Rle_dec (max_slope cfg) s); lra.
  - destruct (Rlt_dec s (min_slope cfg)).
    + destruct (Rle_dec (min_slope cfg) s); [lra|]. destruct (Rle_dec (max_slope cfg) (min_slope cfg)); lra.
    + destruct (Rle_dec (min_slope cfg) s); [|lra]. destruct (Rle_dec (max_slope cfg) s); lra.
Qed.

Lemma npidx_m1 n : npidx (S n) (-1) = Some n.
Proof.
  unfold npidx. destruct (Z.leb_spec 0 (-1)); [lia|]. destruct (Z.leb_spec (- Z.of_nat (S n)) (-1)); [|lia]. f_equal. lia.
Qed.

(** with an outreach column that names the next reach (supplied by the caller): the drop to the
    next reach over the distance, kept between 0.0001 and 1 *)
Theorem C78_slope_to_the_next_reach : forall centers top recs out i j node o node' o' z z',
  builder_reaches builder_cfg centers top recs = Ok out ->
  nth_error recs i = Some (node, o) -> o = Z.of_nat (j + 1) -> nth_error recs j = Some (node', o') ->
  nth node centers (0, 0) <> nth node' centers (0, 0) ->
  nth node top None = Some z -> nth node' top None = Some z' ->
  nth_error out i = Some (Some z, Some (Rmin 1 (Rmax (1 / 10000) ((z - z') / dist (nth node centers (0, 0)) (nth node' centers (0, 0)))))).
Proof.
  intros centers top recs out i j node o node' o' z z' H Hi -> Hj Hne Hz Hz'.
  destruct (builder_nth H) as [_ HN]. destruct (HN _ _ _ Hi) as (d & _ & D2 & D3).
  assert (Hjl : (j < length recs)%nat) by (apply nth_error_Some; congruence).
  destruct D2 as (k & o2 & Hk & Hd); [lia|]. replace (Z.of_nat (j + 1) - 1)%Z with (Z.of_nat j) in Hk by lia.
  rewrite npidx_nat in Hk by auto. inversion Hk; subst k. rewrite Hj in Hd. inversion Hd; subst d o2. rewrite D3. unfold level. rewrite Hz. f_equal. f_equal.
  unfold builder_slope. change (distance (at_ centers node) (at_ centers node')) with (distance (nth node centers (0, 0)) (nth node' centers (0, 0))).
  rewrite dist_distance. assert (P := dist_pos Hne). destruct (Req_EM_T _ 0) as [X|_]; [rewrite X in P; lra|].
  unfold level. rewrite Hz, Hz'. cbn [nsub ndiv option_map]. f_equal. rewrite clamp_spec by (cbn; lra). cbn [max_slope min_slope builder_cfg].
  replace 0.0001 with (1 / 10000) by lra. reflexivity.
Qed.

(** the reach_data the method builds itself: every slope is measured to the LAST reach *)
Theorem C78_measured_to_last_reach_refuted : forall centers top recs r rlast out i z zl,
  builder_reaches builder_cfg centers top (own_reaches (recs ++ [rlast])) = Ok out ->
  nth_error (recs ++ [rlast]) i = Some r ->
  let c := Z.to_nat (r_node r) in let e := Z.to_nat (r_node rlast) in
  nth c centers (0, 0) <> nth e centers (0, 0) ->
  nth c top None = Some z -> nth e top None = Some zl ->
  nth_error out i = Some (Some z, Some (Rmin 1 (Rmax (1 / 10000) ((z - zl) / dist (nth c centers (0, 0)) (nth e centers (0, 0)))))).
Proof.
  intros centers top recs r rlast out i z zl H Hi c e Hne Hz Hzl.
  assert (HL : length (own_reaches (recs ++ [rlast])) = S (length recs)) by (unfold own_reaches; rewrite map_length, app_length; cbn; lia).
  destruct (builder_nth H) as [_ HN].
  assert (Hi' : nth_error (own_reaches (recs ++ [rlast])) i = Some (c, 0%Z)) by (unfold own_reaches; rewrite nth_error_map, Hi; reflexivity).
  destruct (HN _ _ _ Hi') as (d & _ & D2 & D3). rewrite HL in D2. destruct D2 as (k & o2 & Hk & Hd); [lia|].
  change (0 - 1)%Z with (-1)%Z in Hk. rewrite npidx_m1 in Hk. assert (k = length recs) by congruence.
  subst k. unfold own_reaches in Hd. rewrite nth_error_map, nth_error_app2, Nat.sub_diag in Hd by lia. cbn in Hd. inversion Hd; subst d o2. fold e in D3.
  rewrite D3. unfold level. rewrite Hz. f_equal. f_equal.
  unfold builder_slope. change (distance (at_ centers c) (at_ centers e)) with (distance (nth c centers (0, 0)) (nth e centers (0, 0))).
  rewrite dist_distance. assert (P := dist_pos Hne). destruct (Req_EM_T _ 0) as [X|_]; [rewrite X in P; lra|].
  unfold level. rewrite Hz, Hzl. cbn [nsub ndiv option_map]. f_equal. rewrite clamp_spec by (cbn; lra). cbn [max_slope min_slope builder_cfg].
  replace 0.0001 with (1 / 10000) by lra. reflexivity.
Qed.

(** a river of three cells in a column: the first reach drops 0.1 to the second, one unit away;
    the slope stored for it is 0.45, the drop to the third over the distance to the third *)
Theorem C78_wrong_slope_refuted :
  exists m recs, mf2005_connectivity 100 100 true [1; 2; 3; 3]%Z [1; 1; 1; 0]%Z = Ok m /\
    reach_data 1 (m_seg m) (m_nsr m) = Ok recs /\ map r_node recs = [0; 1; 2]%Z /\
    map r_dn recs = [Some 1; Some 2; None]%Z /\
    exists out, builder_reaches builder_cfg [(0, 3); (0, 2); (0, 1); (0, 0)] [Some 0.9; Some 0.8; Some 0; Some 0] (own_reaches recs) = Ok out /\
    nth_error out 0 = Some (Some 0.9, Some 0.45).
Proof.
  eexists _, _. split; [vm_compute; reflexivity|]. split; [vm_compute; reflexivity|]. split; [reflexivity|]. split; [reflexivity|].
  match goal with |- exists out, builder_reaches ?c ?ce ?t (own_reaches ?r) = _ /\ _ => set (recs := r); set (cen := ce); set (tp := t) end.
  destruct (builder_reaches builder_cfg cen tp (own_reaches recs)) as [out|] eqn:E.
  2:{ exfalso. revert E. unfold builder_reaches, own_reaches, recs. cbn [map r_node Z.to_nat Pos.to_nat Pos.iter_op Nat.add mapM bind List.length Z.of_nat Z.leb Z.sub Z.compare Z.opp Z.add npget npidx get]. discriminate. }
  exists out. split; [reflexivity|].
  assert (D : dist (nth 0 cen (0, 0)) (nth 2 cen (0, 0)) = 2).
  { unfold dist, norm, dot, sub, cen; cbn [nth fst snd]. replace (_ + _) with (2 * 2) by lra. apply sqrt_square. lra. }
  assert (X := @C78_measured_to_last_reach_refuted cen tp (firstn 2 recs) (nth 0 recs (Rch 0 0 0 0 0 0 None None)) (nth 2 recs (Rch 0 0 0 0 0 0 None None)) out 0 0.9 0 E eq_refl).
  cbv zeta in X. change (Z.to_nat (r_node (nth 0 recs (Rch 0 0 0 0 0 0 None None)))) with 0%nat in X. change (Z.to_nat (r_node (nth 2 recs (Rch 0 0 0 0 0 0 None None)))) with 2%nat in X.
  match type of X with context [dist ?a ?b] => replace (dist a b) with 2 in X by (symmetry; exact D) end. rewrite X; [| |reflexivity|reflexivity].
  - f_equal. f_equal. f_equal. replace ((0.9 - 0) / 2) with 0.45 by lra. rewrite Rmax_right by lra. apply Rmin_right. lra.
  - unfold cen; cbn [nth]. intro H. inversion H. lra.
Qed.

(** ** C79: the slopes stay between the limits *)
Theorem C79_slopes_within_limits : forall cfg centers top recs out i t s,
  min_slope cfg <= max_slope cfg ->
  builder_reaches cfg centers top recs = Ok out ->
  nth_error out i = Some (t, Some s) -> min_slope cfg <= s <= max_slope cfg.
Proof.
  intros cfg centers top recs out i t s HC H Hi. destruct (builder_nth H) as [HL HN].
  assert (X : (i < length recs)%nat) by (rewrite <- HL; apply nth_error_Some; congruence).
  destruct (nth_error recs i) as [[node o]|] eqn:E; [|apply nth_error_None in E; lia].
  destruct (HN _ _ _ E) as (d & _ & _ & D). rewrite Hi in D. inversion D as [[D1 D2]].
  unfold builder_slope in D2. destruct (if Req_EM_T _ _ then _ else _); [|discriminate]. cbn [option_map] in D2. inversion D2. now apply clamp_range.
Qed.

(** every reach gets the elevation of its cell, and NaN slopes come from NaN elevations only *)
(** a reach whose next reach lies in the same cell, or outside the table, gets the default slope
    (kept within the limits) *)
Theorem C79_default_slope : forall cfg centers top recs out i node o,
  min_slope cfg <= default_slope cfg <= max_slope cfg ->
  builder_reaches cfg centers top recs = Ok out -> nth_error recs i = Some (node, o) ->
  (Z.of_nat (length recs) < o)%Z \/
  (exists j node' o', o = Z.of_nat (j + 1) /\ nth_error recs j = Some (node', o') /\
                      nth node centers (0, 0) = nth node' centers (0, 0)) ->
  nth_error out i = Some (nth node top None, Some (default_slope cfg)).
Proof.
  intros cfg centers top recs out i node o HC H Hi HD. destruct (builder_nth H) as [HL HN].
  destruct (HN _ _ _ Hi) as (d & D1 & D2 & D3).
  assert (E : nth node centers (0, 0) = nth d centers (0, 0)).
  { destruct HD as [HD|(j & n' & o' & -> & Hj & Ec)].
    - rewrite D1 by lia. reflexivity.
    - assert (Lj : (j < length recs)%nat) by (apply nth_error_Some; congruence).
      destruct D2 as (k & o2 & Hk & Ek); [lia|]. unfold npidx in Hk.
      replace (Z.of_nat (j + 1) - 1)%Z with (Z.of_nat j) in Hk by lia.
      destruct (Z.leb_spec 0 (Z.of_nat j)); [|lia]. destruct (Z.ltb_spec (Z.of_nat j) (Z.of_nat (length recs))); [|lia].
      cbn [andb] in Hk. inversion Hk as [Hk']. rewrite Nat2Z.id in Hk'. subst k. rewrite Hj in Ek. inversion Ek; subst. exact Ec. }
  rewrite D3. unfold builder_slope, at_, level. rewrite E.
  assert (Z0 : distance (nth d centers (0, 0)) (nth d centers (0, 0)) = 0).
  { unfold distance. rewrite !Rminus_diag_eq by reflexivity. replace (0 ^ 2 + 0 ^ 2) with 0 by ring. apply sqrt_0. }
  rewrite Z0. destruct (Req_EM_T 0 0) as [_|N]; [|congruence]. cbn [option_map]. do 3 f_equal. unfold clamp.
  destruct (Rlt_dec (max_slope cfg) (default_slope cfg)); [lra|]. destruct (Rlt_dec (default_slope cfg) (min_slope cfg)); [lra|reflexivity].
Qed.

Theorem C79_elevations : forall cfg centers top recs out i node o,
  builder_reaches cfg centers top recs = Ok out -> nth_error recs i = Some (node, o) ->
  exists s, nth_error out i = Some (nth node top None, s) /\
    ((forall n, In n (map fst recs) -> nth n top None <> None) -> s <> None).
Proof.
  intros cfg centers top recs out i node o H Hi. destruct (builder_nth H) as [HL HN]. destruct (HN _ _ _ Hi) as (d & D1 & D2 & D3).
  eexists. split; [exact D3|]. intros HT. unfold builder_slope.
  destruct (Req_EM_T _ 0); [discriminate|]. unfold level.
  assert (T1 : nth node top None <> None) by (apply HT; apply nth_error_In in Hi; apply (in_map fst) in Hi; exact Hi).
  assert (T2 : nth d top None <> None).
  { destruct (Z_lt_le_dec (o - 1) (Z.of_nat (length recs))) as [Z0|Z0].
    - destruct (D2 Z0) as (k & o' & _ & Hk). apply HT. apply nth_error_In in Hk. apply (in_map fst) in Hk. exact Hk.
    - rewrite (D1 Z0). exact T1. }
  destruct (nth node top None), (nth d top None); cbn; congruence.
Qed.

(** ** C80: keyword arguments *)
Local Open Scope string_scope.
(** any keyword other than group_segments makes the call fail *)
Theorem C80_keywords_fail_refuted : forall keys k,
  In k keys -> k <> "group_segments" -> exists e, builder_kwargs keys = Err e /\ (e = ValueError \/ e = KeyError).
Proof.
  intros keys k Hk Hn. unfold builder_kwargs.
  assert (Hin : In k (filter (fun k => negb (String.eqb k "group_segments")) keys)).
  { apply filter_In. split; auto. destruct (String.eqb_spec k "group_segments"); [contradiction|reflexivity]. }
  destruct (filter _ keys) as [|k0 l]; [contradiction|]. clear. destruct k0 as [|a [|b [|c s]]]; cbn [parse_kwargs]; eauto.
  destruct (existsb _ known_names) eqn:E; eauto. exfalso. cbn in E.
  repeat (destruct (Ascii.eqb a _) in E; cbn in E). all: discriminate.
Qed.
(** in particular each documented default *)
Theorem C80_defaults_cannot_be_set_refuted : forall k, In k known_names -> builder_kwargs [k] = Err ValueError.
Proof. intros k H. unfold known_names in H. cbn [In] in H. repeat (destruct H as [<-|H]; [reflexivity|]). contradiction. Qed.
Theorem C80_group_segments_accepted : builder_kwargs ["group_segments"] = Ok tt /\ builder_kwargs [] = Ok tt.
Proof. split; reflexivity. Qed.
Local Close Scope string_scope.

(** ** C81: routed length of a cell *)
Lemma memn_In x l : memn x l = true <-> In x l.
Proof. unfold memn. rewrite existsb_exists. split; [intros [y [H1 H2]]; apply Nat.eqb_eq in H2; congruence|intro H; exists x; split; auto; apply Nat.eqb_refl]. Qed.

Lemma centroid_middle l : centroid l = middle l.
Proof. unfold centroid, middle. now rewrite !mean_average. Qed.

Lemma shared_contact verts iv0 iv1 q : NoDup iv0 -> shared_vertex verts iv0 iv1 = Ok q -> contact verts iv0 iv1 q.
Proof.
  intros ND H. unfold shared_vertex in H. exists (filter (fun iv => memn iv iv1) iv0).
  assert (HI : forall v, In v (filter (fun iv => memn iv iv1) iv0) <-> In v iv0 /\ In v iv1) by (intro v; rewrite filter_In, memn_In; tauto).
  split; [intros X; rewrite X in H; discriminate|]. split; [now apply NoDup_filter|]. split; [exact HI|].
  destruct (filter (fun iv => memn iv iv1) iv0) as [|a [|b l]]; cbn [map] in *; [discriminate| |].
  - inversion H; subst q. unfold middle, average, sum, at_. cbn [map fst snd fold_right List.length INR]. change plane with point. destruct (nth a verts (0, 0)) as [u v]. cbn [fst snd]. f_equal; lra.
  - inversion H; subst q. apply centroid_middle.
Qed.

Lemma shared_ok verts iv0 iv1 v : In v iv0 -> In v iv1 -> exists q, shared_vertex verts iv0 iv1 = Ok q.
Proof.
  intros H0 H1. unfold shared_vertex. assert (X : In v (filter (fun iv => memn iv iv1) iv0)) by (apply filter_In; split; auto; now apply memn_In).
  destruct (filter _ iv0) as [|a [|b l]]; [contradiction| |]; cbn [map]; eauto.
Qed.

Lemma sum_perm l l' : Permutation l l' -> sum l = sum l'.
Proof. induction 1; unfold sum in *; cbn [fold_right] in *; lra. Qed.

Lemma contact_unique verts iv0 iv1 q q' : contact verts iv0 iv1 q -> contact verts iv0 iv1 q' -> q = q'.
Proof.
  intros (l & _ & ND & HI & ->) (l' & _ & ND' & HI' & ->).
  assert (P : Permutation l l') by (apply NoDup_Permutation; auto; intro v; rewrite HI, HI'; tauto).
  unfold middle, average. rewrite !map_length. rewrite (Permutation_length P).
  f_equal; f_equal; apply sum_perm; apply Permutation_map, Permutation_map; exact P.
Qed.

Definition hru_step (verts : list point) (iverts : list (list nat)) (centers : list point) (fdir : list Z) (p : nat * Z) : res R :=
          let '(node, dn) := p : nat * Z in
          ivs <- get iverts node ;;
          dnivs <- npget iverts dn ;;
          first <- shared_vertex verts ivs dnivs ;;
          rest <- mapM (fun up => upivs <- get iverts up ;; shared_vertex verts ivs upivs)
                       (where_ (Z.eqb (Z.of_nat node)) fdir) ;;
          let ds := map (fun q => distance q (at_ centers node)) (first :: rest) in
          Ok (fold_left Rplus ds 0 / (INR (length ds) / 2)).

Lemma mapM_nth {A B} (f : A -> res B) l : forall out, mapM f l = Ok out ->
  length out = length l /\ forall i x, nth_error l i = Some x -> exists y, f x = Ok y /\ nth_error out i = Some y.
Proof.
  induction l as [|a l IH]; intros out H; cbn [mapM] in H.
  - inversion H. split; auto. intros [|i]; discriminate.
  - apply bind_ok in H. destruct H as [y [Hy H]]. apply bind_ok in H. destruct H as [ys [Hys H]]. inversion H; subst out.
    destruct (IH _ Hys) as [IL IN]. split; [cbn; congruence|]. intros [|i] x Hi; [|now apply IN]. cbn in Hi |- *. inversion Hi; subst x. eauto.
Qed.

Lemma mapM_F2 {A B} (f : A -> res B) l : forall out, mapM f l = Ok out -> Forall2 (fun x y => f x = Ok y) l out.
Proof.
  induction l as [|a l IH]; intros out H; cbn [mapM] in H; [inversion H; constructor|].
  apply bind_ok in H. destruct H as [y [Hy H]]. apply bind_ok in H. destruct H as [ys [Hys H]]. inversion H; subst out. constructor; auto.
Qed.

Lemma F2_impl {A B} (P Q : A -> B -> Prop) l l' : (forall x y, P x y -> Q x y) -> Forall2 P l l' -> Forall2 Q l l'.
Proof. intros H. induction 1; constructor; auto. Qed.

Lemma F2_length {A B} (P : A -> B -> Prop) l l' : Forall2 P l l' -> length l = length l'.
Proof. induction 1; cbn; auto. Qed.

Lemma nth_error_enum {A} (l : list A) c x : nth_error l c = Some x -> nth_error (combine (seq 0 (length l)) l) c = Some (c, x).
Proof.
  assert (G : forall s, nth_error l c = Some x -> nth_error (combine (seq s (length l)) l) c = Some (s + c, x)%nat).
  { revert c. induction l as [|a l IH]; intros [|c] s H; try discriminate; cbn [List.length seq combine nth_error] in *.
    - inversion H. now rewrite Nat.add_0_r.
    - rewrite IH by auto. f_equal. f_equal. lia. }
  intro H. rewrite (G 0%nat H). reflexivity.
Qed.

(** twice the mean distance from the centre to the points where water leaves and enters *)
Theorem C81_routed_length :
  forall verts iverts centers fdir hl c,
    valid_fdir fdir -> length iverts = length fdir -> Forall (@NoDup nat) iverts ->
    hru_len verts iverts centers fdir = Ok hl -> (c < length fdir)%nat ->
    exists exit ups entries,
      contact verts (nth c iverts []) (nth (down fdir c) iverts []) exit /\
      NoDup ups /\ (forall u, In u ups <-> (u < length fdir)%nat /\ down fdir u = c) /\
      Forall2 (fun u q => contact verts (nth c iverts []) (nth u iverts []) q) ups entries /\
      nth c hl 0 = 2 * average (map (dist (nth c centers (0, 0))) (exit :: entries)).
Proof.
  intros verts iverts centers fdir hl c V LI ND H Hc. change (mapM (hru_step verts iverts centers fdir) (combine (seq 0 (length fdir)) fdir) = Ok hl) in H.
  destruct (mapM_nth H) as [_ HN]. destruct (down_eq V Hc) as [Ed Hd].
  destruct (HN c (c, Z.of_nat (down fdir c))) as [y [Hy Hn]].
  { apply nth_error_enum. rewrite (nth_error_nth' fdir 0%Z Hc). now rewrite Ed. }
  unfold hru_step in Hy. apply bind_ok in Hy. destruct Hy as [ivs [Hi Hy]]. rewrite (get_nth _ [] ) in Hi by lia. inversion Hi; subst ivs; clear Hi.
  apply bind_ok in Hy. destruct Hy as [dnivs [Hi Hy]]. unfold npget in Hi. rewrite npidx_nat, (get_nth _ []) in Hi by lia. inversion Hi; subst dnivs; clear Hi.
  apply bind_ok in Hy. destruct Hy as [exit [Hex Hy]]. apply bind_ok in Hy. destruct Hy as [entries [Hen Hy]].
  assert (NDc : NoDup (nth c iverts [])) by (rewrite Forall_forall in ND; apply ND, nth_In; lia).
  exists exit, (where_ (Z.eqb (Z.of_nat c)) fdir), entries. split; [now apply shared_contact|]. split; [apply where_nodup|]. split.
  { intro u. rewrite (in_where (Z.eqb (Z.of_nat c)) fdir u). split.
    - intros [x [Hx Ex]]. assert (u < length fdir)%nat by (apply nth_error_Some; congruence). split; auto. apply Z.eqb_eq in Ex. unfold down.
      apply nth_error_nth with (d := 0%Z) in Hx. rewrite Hx. lia.
    - intros [Hu Eu]. exists (nth u fdir 0%Z). split; [now apply nth_error_nth'|]. apply Z.eqb_eq. destruct (down_eq V Hu). congruence. }
  split.
  { apply mapM_F2 in Hen. refine (F2_impl _ Hen). intros u q Hq. cbn beta in Hq. apply bind_ok in Hq. destruct Hq as [iv [Hi Hq]].
    apply get_ok in Hi. rewrite (nth_error_nth _ _ [] Hi). now apply shared_contact. }
  rewrite (nth_error_nth _ _ 0 Hn). inversion Hy. rewrite fold_sum_, Rplus_0_l.
  assert (ES : map (fun q => distance q (at_ centers c)) (exit :: entries) = map (dist (nth c centers (0, 0))) (exit :: entries)).
  { apply map_ext. intro q. rewrite dist_distance. apply dist_sym. }
  match goal with |- _ = 2 * average ?m => replace m with (map (fun q => distance q (at_ centers c)) (exit :: entries)) by exact ES end.
  unfold average. set (dd := map _ (exit :: entries)). assert (INR (length dd) <> 0) by (apply not_0_INR; unfold dd; cbn; lia).
  change (sum dd / (INR (length dd) / 2) = 2 * (sum dd / INR (length dd))). field. auto.
Qed.

(** one inflow: the length of the path from the entry through the centre to the exit *)
Theorem C81_one_inflow :
  forall verts iverts centers fdir hl c u exit entry,
    valid_fdir fdir -> length iverts = length fdir -> Forall (@NoDup nat) iverts ->
    hru_len verts iverts centers fdir = Ok hl -> (c < length fdir)%nat -> (u < length fdir)%nat ->
    (forall x, (x < length fdir)%nat -> (down fdir x = c <-> x = u)) ->
    contact verts (nth c iverts []) (nth (down fdir c) iverts []) exit ->
    contact verts (nth c iverts []) (nth u iverts []) entry ->
    nth c hl 0 = dist (nth c centers (0, 0)) entry + dist (nth c centers (0, 0)) exit.
Proof.
  intros verts iverts centers fdir hl c u exit entry V LI ND H Hc Hu HU Hex Hen.
  destruct (C81_routed_length V LI ND H Hc) as (ex & ups & ens & H1 & H2 & H3 & H4 & H5).
  assert (ups = [u]).
  { assert (P : Permutation ups [u]).
    { apply NoDup_Permutation; auto; [repeat constructor; auto|]. intro x. rewrite H3. cbn. split.
      - intros [X Y]. left. symmetry. now apply HU.
      - intros [<-|[]]. split; auto. now apply HU. }
    symmetry in P. now apply Permutation_length_1_inv in P. }
  subst ups. inversion H4 as [|? q ? ens' Hq Hr]; subst. inversion Hr; subst. rewrite H5, (contact_unique H1 Hex), (contact_unique Hq Hen).
  unfold average, sum. cbn [map fold_right List.length INR]. lra.
Qed.

(** no inflow: twice the way from the centre to the exit *)
Theorem C81_no_inflow :
  forall verts iverts centers fdir hl c exit,
    valid_fdir fdir -> length iverts = length fdir -> Forall (@NoDup nat) iverts ->
    hru_len verts iverts centers fdir = Ok hl -> (c < length fdir)%nat ->
    (forall x, (x < length fdir)%nat -> down fdir x <> c) ->
    contact verts (nth c iverts []) (nth (down fdir c) iverts []) exit ->
    nth c hl 0 = 2 * dist (nth c centers (0, 0)) exit.
Proof.
  intros verts iverts centers fdir hl c exit V LI ND H Hc HU Hex.
  destruct (C81_routed_length V LI ND H Hc) as (ex & ups & ens & H1 & H2 & H3 & H4 & H5).
  assert (ups = []) by (destruct ups as [|x ups]; auto; exfalso; destruct (proj1 (H3 x) (or_introl eq_refl)) as [X Y]; now apply (HU x)).
  subst ups. inversion H4; subst. rewrite H5, (contact_unique H1 Hex). unfold average, sum. cbn [map fold_right List.length INR]. lra.
Qed.

(** positive if the water leaves through a point other than the centre *)
Theorem C81_positive :
  forall verts iverts centers fdir hl c exit,
    valid_fdir fdir -> length iverts = length fdir -> Forall (@NoDup nat) iverts ->
    hru_len verts iverts centers fdir = Ok hl -> (c < length fdir)%nat ->
    contact verts (nth c iverts []) (nth (down fdir c) iverts []) exit -> nth c centers (0, 0) <> exit ->
    0 < nth c hl 0.
Proof.
  intros verts iverts centers fdir hl c exit V LI ND H Hc Hex Hne.
  destruct (C81_routed_length V LI ND H Hc) as (ex & ups & ens & H1 & H2 & H3 & H4 & H5).
  rewrite H5, (contact_unique H1 Hex). unfold average. cbn [map List.length]. rewrite map_length.
  assert (P := dist_pos Hne). assert (N : 0 < INR (S (length ens))) by (apply lt_0_INR; lia).
  assert (S0 : 0 <= sum (map (dist (nth c centers (0, 0))) ens)).
  { apply sum_nonneg. apply Forall_forall. intros x Hx. apply in_map_iff in Hx. destruct Hx as [y [<- _]]. apply norm_pos. }
  apply Rmult_lt_0_compat; [lra|]. apply Rdiv_lt_0_compat; auto. unfold sum in *. cbn [fold_right]. lra.
Qed.

(** a cell that drains to itself and has no other inflow: length 0, if its centre is the middle of
    its vertices (as in every rectangular or triangular cell) *)
Theorem C81_self_draining_refuted :
  forall verts iverts centers fdir hl c,
    valid_fdir fdir -> length iverts = length fdir -> Forall (@NoDup nat) iverts ->
    hru_len verts iverts centers fdir = Ok hl -> (c < length fdir)%nat ->
    (forall x, (x < length fdir)%nat -> (down fdir x = c <-> x = c)) ->
    nth c centers (0, 0) = middle (map (fun v => nth v verts (0, 0)) (nth c iverts [])) ->
    nth c hl 0 = 0.
Proof.
  intros verts iverts centers fdir hl c V LI ND H Hc HU Hm.
  assert (Dc : down fdir c = c) by (apply HU; auto).
  destruct (C81_routed_length V LI ND H Hc) as (ex & _ & _ & H1 & _). rewrite Dc in H1.
  assert (Ex : ex = nth c centers (0, 0)).
  { assert (NE : nth c iverts [] <> []).
    { destruct H1 as (l & L1 & _ & L2 & _). destruct l as [|x l]; [contradiction|]. destruct (proj1 (L2 x) (or_introl eq_refl)) as [X _].
      destruct (nth c iverts []); [contradiction|discriminate]. }
    apply (contact_unique H1). exists (nth c iverts []). split; auto. split; [rewrite Forall_forall in ND; apply ND, nth_In; lia|]. split; [tauto|exact Hm]. }
  rewrite (C81_one_inflow V LI ND H Hc Hc HU (exit := ex) (entry := ex)); [|now rewrite Dc|exact H1]. rewrite Ex.
  assert (dist (nth c centers (0, 0)) (nth c centers (0, 0)) = 0) by (rewrite <- dist_distance; apply distance_self). lra.
Qed.

(** a self-draining cell with one inflow: two thirds of the way from the entry to the centre *)
Theorem C81_outlet_two_thirds_refuted :
  forall verts iverts centers fdir hl c u entry,
    valid_fdir fdir -> length iverts = length fdir -> Forall (@NoDup nat) iverts ->
    hru_len verts iverts centers fdir = Ok hl -> (c < length fdir)%nat -> (u < length fdir)%nat -> u <> c ->
    (forall x, (x < length fdir)%nat -> (down fdir x = c <-> x = c \/ x = u)) ->
    nth c centers (0, 0) = middle (map (fun v => nth v verts (0, 0)) (nth c iverts [])) ->
    contact verts (nth c iverts []) (nth u iverts []) entry ->
    nth c hl 0 = 2 / 3 * dist (nth c centers (0, 0)) entry.
Proof.
  intros verts iverts centers fdir hl c u entry V LI ND H Hc Hu Huc HU Hm Hen.
  assert (Dc : down fdir c = c) by (apply HU; auto).
  destruct (C81_routed_length V LI ND H Hc) as (ex & ups & ens & H1 & H2 & H3 & H4 & H5). rewrite Dc in H1.
  assert (CC : forall e, contact verts (nth c iverts []) (nth c iverts []) e -> e = nth c centers (0, 0)).
  { intros e He. assert (NE : nth c iverts [] <> []).
    { destruct H1 as (l & L1 & _ & L2 & _). destruct l as [|x l]; [contradiction|]. destruct (proj1 (L2 x) (or_introl eq_refl)) as [X _].
      destruct (nth c iverts []); [contradiction|discriminate]. }
    apply (contact_unique He). exists (nth c iverts []). split; auto. split; [rewrite Forall_forall in ND; apply ND, nth_In; lia|]. split; [tauto|exact Hm]. }
  assert (D0 : dist (nth c centers (0, 0)) (nth c centers (0, 0)) = 0) by (rewrite <- dist_distance; apply distance_self).
  assert (P : Permutation ups [c; u]).
  { apply NoDup_Permutation; auto.
    - constructor; [cbn; intuition|repeat constructor; auto].
    - intro x. rewrite H3. cbn. split; [intros [X Y]; apply HU in Y; auto; intuition|].
      intros [<-|[<-|[]]]; (split; [auto|apply HU; auto]). }
  assert (HS : sum (map (dist (nth c centers (0, 0))) ens) = dist (nth c centers (0, 0)) entry /\ length ens = 2%nat).
  { split; [|rewrite <- (F2_length H4), (Permutation_length P); reflexivity].
    destruct (Permutation_length_2_inv (Permutation_sym P)) as [->| ->]; inversion H4 as [|? q1 ? r1 Q1 R1]; subst; inversion R1 as [|? q2 ? r2 Q2 R2]; subst; inversion R2; subst.
    - rewrite (CC _ Q1), (contact_unique Q2 Hen). unfold sum. cbn [map fold_right]. lra.
    - rewrite (CC _ Q2), (contact_unique Q1 Hen). unfold sum. cbn [map fold_right]. lra. }
  destruct HS as [HS HL]. rewrite H5, (CC _ H1). unfold average. cbn [map List.length]. rewrite map_length, HL. unfold sum in *. cbn [fold_right INR]. lra.
Qed.

(** always computed if every cell touches the cell it drains to *)
Theorem C81_succeeds :
  forall verts iverts centers fdir,
    valid_fdir fdir -> length iverts = length fdir ->
    (forall c, (c < length fdir)%nat -> exists v, In v (nth c iverts []) /\ In v (nth (down fdir c) iverts [])) ->
    exists hl, hru_len verts iverts centers fdir = Ok hl.
Proof.
  intros verts iverts centers fdir V LI HT. change (exists hl, mapM (hru_step verts iverts centers fdir) (combine (seq 0 (length fdir)) fdir) = Ok hl).
  destruct (@mapM_in _ _ (hru_step verts iverts centers fdir) (fun _ _ => True) (combine (seq 0 (length fdir)) fdir)) as [hl [E _]]; [|eauto].
  intros [c d] Hin. apply In_nth_error in Hin. destruct Hin as [i Hi].
  assert (Hil : (i < length fdir)%nat).
  { assert (X : (i < length (combine (seq 0 (length fdir)) fdir))%nat) by (apply nth_error_Some; congruence). rewrite combine_length, seq_length in X. lia. }
  rewrite (nth_error_enum (nth_error_nth' fdir 0%Z Hil)) in Hi. inversion Hi; subst c d; clear Hi.
  destruct (down_eq V Hil) as [Ed Hd]. unfold hru_step. rewrite (get_nth _ []) by lia. cbn [bind]. rewrite Ed. unfold npget. rewrite npidx_nat, (get_nth _ []) by lia. cbn [bind].
  destruct (HT i Hil) as [v [V1 V2]]. destruct (shared_ok verts V1 V2) as [q Hq]. rewrite Hq. cbn [bind].
  destruct (@mapM_in _ _ (fun up => upivs <- get iverts up ;; shared_vertex verts (nth i iverts []) upivs) (fun _ _ => True) (where_ (Z.eqb (Z.of_nat i)) fdir)) as [l [El _]].
  { intros u Hu. apply (in_where_nth _ _ _ 0%Z) in Hu. destruct Hu as [Hu Eu]. apply Z.eqb_eq in Eu.
    rewrite (get_nth _ []) by lia. cbn [bind]. destruct (HT u Hu) as [w [W1 W2]]. assert (down fdir u = i) by (unfold down; rewrite <- Eu; lia). rewrite H in W2.
    destruct (shared_ok verts W2 W1) as [q' Hq']. exists q'. auto. }
  rewrite El. cbn [bind]. eauto.
Qed.

(** fails as soon as one cell marked -2 (no outflow) does not touch the last cell but one *)
Theorem C81_sink_fails_refuted :
  forall verts iverts centers fdir c,
    length iverts = length fdir -> (2 <= length fdir)%nat -> (c < length fdir)%nat -> nth c fdir 0%Z = (-2)%Z ->
    (forall v, In v (nth c iverts []) -> ~ In v (nth (length fdir - 2) iverts [])) ->
    hru_len verts iverts centers fdir = Err IndexError.
Proof.
  intros verts iverts centers fdir c LI H2 Hc Hf HN. change (mapM (hru_step verts iverts centers fdir) (combine (seq 0 (length fdir)) fdir) = Err IndexError).
  assert (SE : forall a b e, shared_vertex verts a b = Err e -> e = IndexError).
  { intros a b e. unfold shared_vertex. destruct (map (at_ verts) _) as [|x [|y l]]; congruence. }
  assert (GE : forall {A} (l : list A) i e, get l i = Err e -> e = IndexError).
  { intros A l i e. unfold get. destruct (nth_error l i); congruence. }
  apply mapM_err.
  - exists (c, (-2)%Z). split.
    + rewrite <- Hf. apply (@nth_error_In _ _ c). apply nth_error_enum. now apply nth_error_nth'.
    + unfold hru_step. rewrite (get_nth _ []) by lia. cbn [bind]. unfold npget. rewrite LI, npidx_m2, (get_nth _ []) by lia. cbn [bind].
      unfold shared_vertex. assert (E : filter (fun iv => memn iv (nth (length fdir - 2) iverts [])) (nth c iverts []) = []).
      { destruct (filter _ (nth c iverts [])) as [|x l] eqn:E; auto. assert (X : In x (x :: l)) by now left. rewrite <- E in X. apply filter_In in X.
        destruct X as [X Y]. apply memn_In in Y. destruct (HN x X Y). }
      rewrite E. reflexivity.
  - intros [n d] e _ He. unfold hru_step in He.
    destruct (get iverts n) as [a|] eqn:Ea; cbn [bind] in He; [|inversion He; subst; eauto].
    unfold npget in He. destruct (npidx _ d) as [k|]; cbn [bind] in He; [|congruence].
    destruct (get iverts k) as [b|] eqn:Eb; cbn [bind] in He; [|inversion He; subst; eauto].
    destruct (shared_vertex verts a b) as [q|] eqn:Eq; cbn [bind] in He; [|inversion He; subst; eauto].
    destruct (mapM _ (where_ _ fdir)) as [qs|] eqn:Em; cbn [bind] in He; [discriminate|]. inversion He; subst. clear -Em SE GE.
    revert Em. induction (where_ (Z.eqb (Z.of_nat n)) fdir) as [|u l IH]; cbn [mapM]; [discriminate|]. intro Em.
    destruct (get iverts u) as [x|] eqn:Ex; cbn [bind] in Em; [|inversion Em; subst; eauto].
    destruct (shared_vertex verts a x) as [y|] eqn:Ey; cbn [bind] in Em; [|inversion Em; subst; eauto].
    destruct (mapM _ l); cbn [bind] in Em; [discriminate|]. inversion Em; subst. auto.
Qed.

(** ** Instances: a row of three cells, 2 wide and 1 high; 0 -> 1 -> 2 -> 2 *)
Module Ex75.
  Definition fdir := [1; 2; 2]%Z.
  Definition strm := [1; 1; 1]%Z.
  Definition centers : list point := [(1, 1 / 2); (3, 1 / 2); (5, 1 / 2)].
  Definition top := [Some 9; Some 6; Some 5].
  Definition cells : list (list point) := [flopy_rectangle 0 0 2 1; flopy_rectangle 2 0 2 1; flopy_rectangle 4 0 2 1].
  Definition verts : list point := [(0, 1); (2, 1); (4, 1); (6, 1); (0, 0); (2, 0); (4, 0); (6, 0)].
  Definition iverts := [[0; 1; 5; 4]; [1; 2; 6; 5]; [2; 3; 7; 6]]%nat.

  Example valid : valid_fdir fdir /\ length strm = length fdir /\ distinct_centers (length fdir) centers.
  Proof.
    split; [repeat constructor; lia|]. split; [reflexivity|]. intros a b Ha Hb Hab. cbn in Ha, Hb.
    destruct a as [|[|[|a]]], b as [|[|[|b]]]; try lia; cbn [nth centers]; intro X; inversion X; lra.
  Qed.
  Lemma far01 : dist (nth 0 centers (0, 0)) (nth 1 centers (0, 0)) = 2.
  Proof. unfold dist, norm, dot, sub, centers; cbn [nth fst snd]. replace (_ + _) with (2 * 2) by lra. apply sqrt_square. lra. Qed.

  (** reach 1 (cell 0): length 3, gradient 1, top 9 *)
  Example mf6 : exists s2 g sl pk p q, mf6_connectivity 100 fdir strm = Ok (s2, g) /\ slopes centers top fdir = Ok sl /\
    packagedata_num centers cells sl top (some_graph g) s2 = Ok pk /\ In (p, q) pk /\ p_node p = 0%nat /\
    n_rlen q = 3 /\ n_rgrd q = 1 /\ n_rtp q = Some 9.
  Proof.
    destruct valid as (V & L & DC).
    destruct (slopes centers top fdir) as [sl|] eqn:ES; [|exfalso; revert ES; unfold slopes; cbn; discriminate].
    destruct (mf6_connectivity 100 fdir strm) as [[s2 g]|] eqn:E; [|exfalso; revert E; vm_compute; discriminate].
    destruct (@C75_package_lengths_and_gradients fdir strm 100 s2 g centers cells top sl V L DC E ES) as (pk & EP & _ & H).
    destruct (H 0%nat) as (i & p & q & Hi & Hp & _ & _ & Ht & HL & HG & _); [exists 1%Z; split; [reflexivity|lia]|].
    change (down fdir 0) with 1%nat in *. rewrite far01 in *.
    exists s2, g, sl, pk, p, q. repeat (split; auto); [now apply nth_error_In in Hi| |].
    - destruct HL as [HL _]; [exists 1%Z; split; [reflexivity|lia]|lia|lra].
    - destruct (HG 9 6) as [HG1 _]; [lia|reflexivity|reflexivity|]. rewrite HG1; lra.
  Qed.

  (** the same network as MODFLOW-2005 reaches: length 3, slope 1 *)
  Example mf2005 : exists m recs r q, mf2005_connectivity 100 100 true fdir strm = Ok m /\
    reach_data_num centers top [2; 2; 2] [1] 3 (m_seg m) (m_nsr m) = Ok recs /\ In (r, q) recs /\ r_node r = 0%Z /\
    q_len q = 3 /\ q_slope q = Some 1 /\ q_top q = Some 9.
  Proof.
    destruct valid as (V & L & DC).
    destruct (mf2005_connectivity 100 100 true fdir strm) as [m|] eqn:E; [|exfalso; revert E; vm_compute; discriminate].
    assert (X : exists r rest, reach_data 3 (m_seg m) (m_nsr m) = Ok (r :: rest) /\ r_node r = 0%Z).
    { revert E. vm_compute. intro E. inversion E; subst. eexists _, _. split; reflexivity. }
    destruct X as (r & rest & ER & En).
    assert (EN : reach_data_num centers top [2; 2; 2] [1] 3 (m_seg m) (m_nsr m) = Ok (map (fun r => (r, reach_num centers top [2; 2; 2] [1] r)) (r :: rest))) by (unfold reach_data_num; now rewrite ER).
    exists m. eexists. exists r, (reach_num centers top [2; 2; 2] [1] r). split; [reflexivity|]. split; [exact EN|]. split; [now left|]. split; [auto|].
    destruct (@C77_reach_lengths_and_slopes fdir strm 100 100 true m 3 centers top [2; 2; 2] [1] _ V L ltac:(cbn; lia) ltac:(lia) DC E EN r (reach_num centers top [2; 2; 2] [1] r) ltac:(now left))
      as (c & Ec & _ & Ht & HL & _). assert (c = 0%nat) by lia. subst c. change (down fdir 0) with 1%nat in *. rewrite far01 in HL.
    destruct HL as (H1 & _ & H2); [exists 1%Z; split; [reflexivity|lia]|lia|]. split; [lra|]. split; [|exact Ht].
    rewrite (H2 9 6 eq_refl eq_refl), H1. f_equal. lra.
  Qed.

  (** reaches in cells 0 and 1, the first flowing to the second, the second to a reach 3 that is not in
      the table: slope 1 (the limit) and the default 0.001 *)
  Example builder : exists out, builder_reaches builder_cfg centers top [(0, 2%Z); (1, 3%Z)]%nat = Ok out /\
    nth_error out 0 = Some (Some 9, Some 1) /\ nth_error out 1 = Some (Some 6, Some 0.001).
  Proof.
    eexists. split; [reflexivity|]. split.
    - etransitivity; [apply (@C78_slope_to_the_next_reach centers top [(0, 2%Z); (1, 3%Z)]%nat _ 0 1 0 2 1 3 9 6); try reflexivity|].
      + cbn [nth centers]. intro X. inversion X. lra.
      + rewrite far01. do 3 f_equal. rewrite Rmax_right by lra. apply Rmin_left. lra.
    - apply (@C79_default_slope builder_cfg centers top [(0, 2%Z); (1, 3%Z)]%nat _ 1 1 3); [cbn; lra|reflexivity|reflexivity|]. left. cbn. lia.
  Qed.

  (** the middle cell is crossed from its left to its right side: length 2 *)
  Example routed : exists hl, hru_len verts iverts centers fdir = Ok hl /\ nth 1 hl 0 = 2.
  Proof.
    destruct valid as (V & _ & _).
    destruct (@C81_succeeds verts iverts centers fdir V eq_refl) as [hl E].
    { intros c Hc. cbn in Hc. destruct c as [|[|[|c]]]; [exists 1%nat|exists 2%nat|exists 2%nat|lia]; vm_compute; tauto. }
    exists hl. split; [exact E|].
    rewrite (@C81_one_inflow verts iverts centers fdir hl 1 0 (4, 1 / 2) (2, 1 / 2)); auto; try (cbn; lia).
    - assert (D : forall a b x, a - b = 1 \/ a - b = -1 -> dist (a, x) (b, x) = 1).
      { intros a b x H. unfold dist, norm, dot, sub; cbn [fst snd]. replace (_ + _) with (1 * 1) by (destruct H; nra). apply sqrt_square. lra. }
      change (nth 1 centers (0, 0)) with (3, 1 / 2). change (dist (3, 1/2) (2, 1/2) + dist (3, 1/2) (4, 1/2) = 2). rewrite !D by lra. lra.
    - assert (X : forall a b c d : nat, a <> b /\ a <> c /\ a <> d /\ b <> c /\ b <> d /\ c <> d -> NoDup [a; b; c; d]).
      { intros a b c d H. repeat constructor; cbn; intuition. }
      repeat constructor; apply X || idtac; cbn; intuition discriminate.
    - intros x Hx. cbn in Hx. destruct x as [|[|[|x]]]; vm_compute; split; intro; congruence || lia || auto.
    - exists [2; 6]%nat. split; [discriminate|]. split; [repeat constructor; cbn; intuition discriminate|]. split.
      + intro v. vm_compute. split; [intuition subst; auto|]. intros [H1 H2]. intuition (subst; try discriminate; auto).
      + unfold middle, average, sum. cbn. f_equal; lra.
    - exists [1; 5]%nat. split; [discriminate|]. split; [repeat constructor; cbn; intuition discriminate|]. split.
      + intro v. vm_compute. split; [intuition subst; auto|]. intros [H1 H2]. intuition (subst; try discriminate; auto).
      + unfold middle, average, sum. cbn. f_equal; lra.
  Qed.
End Ex75.
Print Assumptions C75_package_lengths_and_gradients.
Print Assumptions C80_keywords_fail_refuted.
