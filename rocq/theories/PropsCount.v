(** C140: the sizes of the stream tables.  Connections are counted twice, once at each end; segments
    are as many as headwaters and confluences; headwaters are as many as the stream's ends and the
    extra arms of its confluences. *)
From Verif Require Import Py Spec MFlow LGraph LTopo MStream LStream LConn LSeg LSeg2 LSeg3 LSeg4 PropsStream PropsSeg.
Set Implicit Arguments.
Local Open Scope nat_scope.
Local Open Scope list_scope.

(** ** Specification *)
(** [l] lists the cells with property [P], each once *)
Definition lists_cells (P : nat -> Prop) (l : list nat) : Prop := NoDup l /\ forall c, In c l <-> P c.
(** a stream cell that no stream cell flows into *)
Definition headwater (fdir strm : list Z) (c : nat) : Prop :=
  stream_cell strm c /\ forall x, stream_cell strm x -> down fdir x <> c.
(** a stream cell that two stream cells flow into (one of them may be the cell itself) *)
Definition confluence (fdir strm : list Z) (c : nat) : Prop :=
  stream_cell strm c /\ exists x y, x <> y /\ stream_cell strm x /\ stream_cell strm y /\ down fdir x = c /\ down fdir y = c.
(** a stream cell that flows to another stream cell *)
Definition runs_on (fdir strm : list Z) (c : nat) : Prop :=
  stream_cell strm c /\ stream_cell strm (down fdir c) /\ down fdir c <> c.
(** a stream cell that flows out of the streams *)
Definition leaves (fdir strm : list Z) (c : nat) : Prop := stream_cell strm c /\ ~ stream_cell strm (down fdir c).

Lemma lists_unique P l l' : lists_cells P l -> lists_cells P l' -> length l = length l'.
Proof.
  intros [N H] [N' H']. apply Nat.le_antisymm; apply NoDup_incl_length; auto; intros x X; [apply H', H|apply H, H']; auto.
Qed.

(** ** counting pairs by rows or by columns *)
Lemma sum_app l l' : list_sum (l ++ l') = list_sum l + list_sum l'.
Proof. induction l; simpl; lia. Qed.
Lemma sum_split {A} (f g : A -> nat) l : list_sum (map (fun a => f a + g a) l) = list_sum (map f l) + list_sum (map g l).
Proof. induction l; simpl; lia. Qed.
Lemma sum_ones {A} (p : A -> bool) l : list_sum (map (fun a => if p a then 1 else 0) l) = length (filter p l).
Proof. induction l as [|a l IH]; simpl; auto. destruct (p a); simpl; lia. Qed.
Lemma sum_ext_in {A} (f g : A -> nat) l : (forall a, In a l -> f a = g a) -> list_sum (map f l) = list_sum (map g l).
Proof. intros H. f_equal. now apply map_ext_in. Qed.
Lemma double_count {A B} (P : A -> B -> bool) la lb :
  list_sum (map (fun a => length (filter (P a) lb)) la) = list_sum (map (fun b => length (filter (fun a => P a b) la)) lb).
Proof.
  induction la as [|a la IH]; simpl.
  - induction lb; simpl; auto.
  - rewrite IH. rewrite <- (sum_ones (P a)), <- sum_split. apply sum_ext_in. intros b _. destruct (P a b); simpl; lia.
Qed.
Lemma filter_one {A} (dec : forall x y : A, {x = y} + {x <> y}) (p : A -> bool) l a : NoDup l -> In a l -> p a = true -> (forall x, In x l -> p x = true -> x = a) ->
  length (filter p l) = 1.
Proof.
  intros ND I T U. assert (N := NoDup_filter p ND). assert (Ia : In a (filter p l)) by (apply filter_In; auto).
  destruct (filter p l) as [|x [|y r]] eqn:E; [destruct Ia|reflexivity|]. exfalso.
  assert (X : forall z, In z (x :: y :: r) -> z = a) by (intros z Z; rewrite <- E in Z; apply filter_In in Z; now apply U).
  inversion N; subst. apply H1. rewrite (X x (or_introl eq_refl)), <- (X y (or_intror (or_introl eq_refl))). now left.
Qed.
Lemma filter_none {A} (p : A -> bool) l : (forall x, In x l -> p x = false) -> length (filter p l) = 0.
Proof. induction l as [|a l IH]; intros H; simpl; auto. rewrite (H a) by now left. apply IH. intros x X. apply H. now right. Qed.
Lemma filter_split {A} (p : A -> bool) l : length l = length (filter p l) + length (filter (fun a => negb (p a)) l).
Proof. induction l as [|a l IH]; simpl; auto. destruct (p a); simpl; lia. Qed.

(** ** connections *)
Definition is_link (e : Z * Z) : bool := negb ((snd e =? 0) || (snd e =? fst e))%Z.

Lemma connection_sum g recs : NoDup (map fst g) -> (forall r to, In (r, to) g -> (0 < r)%Z) -> network_closed g ->
  connectiondata (some_graph g) = Ok recs -> list_sum (map (fun r => length (tl r)) recs) = 2 * length (filter is_link g).
Proof.
  intros ND pos clo E.
  assert (clo' : forall r t, In (r, t) g -> t = 0%Z \/ In t (map fst g)).
  { intros r t H. destruct (clo r t H) as [->|[o Ho]]; auto. right. apply in_map_iff. exists (t, o). auto. }
  rewrite (conn_eq g ND pos clo') in E. injection E as <-. rewrite map_map. set (items := sorted_items g).
  assert (PM : Permutation g items) by apply sorted_items_perm.
  assert (LK : length (filter is_link g) = length (filter is_link items)).
  { clear - PM. induction PM; simpl; auto; repeat match goal with |- context [if ?b then _ else _] => destruct b end; simpl; lia. }
  assert (NI : NoDup (map fst items)) by (eapply Permutation_NoDup; [apply Permutation_map, PM|auto]).
  assert (NDi : NoDup items) by (eapply NoDup_map_inv; eauto).
  assert (CL : forall r t, In (r, t) items -> t = 0%Z \/ In t (map fst items)).
  { intros r t H. apply (Permutation_in _ (Permutation_sym PM)) in H. destruct (clo' r t H) as [X|X]; auto. right.
    now apply (Permutation_in _ (Permutation_map fst PM)). }
  assert (PO : forall r t, In (r, t) items -> (0 < r)%Z).
  { intros r t H. apply (Permutation_in _ (Permutation_sym PM)) in H. eauto. }
  rewrite LK. rewrite (sum_ext_in _ (fun p => length (filter (fun q => link_to (fst p) q) items) + (if is_link p then 1 else 0))).
  2:{ intros p _. unfold crecord. cbn [tl]. rewrite app_length, map_length. unfold ups. rewrite rev_length, map_length. fold items. f_equal.
      unfold is_link. destruct p as [r t]. cbn [fst snd]. destruct ((t =? 0) || (t =? r))%Z; reflexivity. }
  rewrite sum_split, sum_ones, double_count.
  rewrite (sum_ext_in _ (fun q => if is_link q then 1 else 0)); [rewrite sum_ones; lia|].
  intros [u t] Hq. unfold is_link. cbn [fst snd]. destruct (Z.eqb_spec t 0) as [Z0|Z0]; [|destruct (Z.eqb_spec t u) as [Zu|Zu]]; cbn [orb negb].
  - apply filter_none. intros [r o] Hr. cbn [fst]. unfold link_to. cbn [fst snd]. apply PO in Hr. destruct (Z.eqb_spec t r); [lia|reflexivity].
  - apply filter_none. intros [r o] Hr. cbn [fst]. unfold link_to. cbn [fst snd]. destruct (Z.eqb_spec t r) as [Etr|]; [|reflexivity].
    destruct (Z.eqb_spec u r); [reflexivity|congruence].
  - destruct (CL u t Hq) as [|Ht]; [contradiction|]. apply in_map_iff in Ht. destruct Ht as [[r o] [Er Hr]]. cbn [fst] in Er. subst r.
    apply filter_one with (a := (t, o)); auto.
    + decide equality; apply Z.eq_dec.
    + unfold link_to. cbn [fst snd]. rewrite Z.eqb_refl. destruct (Z.eqb_spec u t); [congruence|reflexivity].
    + intros [r o'] Hr' T. unfold link_to in T. cbn [fst snd] in T. apply andb_true_iff in T. destruct T as [T _]. apply Z.eqb_eq in T. subst r.
      f_equal. clear - NI Hr Hr'. induction items as [|[a b] l IH]; [destruct Hr|]. cbn in NI. inversion NI as [|? ? N1 N2]; subst.
      destruct Hr as [Hr|Hr], Hr' as [Hr'|Hr']; try congruence.
      * exfalso. injection Hr as -> ->. apply N1. apply in_map_iff. exists (t, o'). auto.
      * exfalso. injection Hr' as -> ->. apply N1. apply in_map_iff. exists (t, o). auto.
      * auto.
Qed.

(** C140: the connections of packagedata: two for every reach that runs on to another reach *)
Theorem C140_connections :
  forall fdir strm lim s2 g conn pk cells links,
    valid_fdir fdir -> length strm = length fdir ->
    mf6_connectivity lim fdir strm = Ok (s2, g) ->
    connectiondata (some_graph g) = Ok conn -> packagedata (some_graph g) s2 = Ok pk ->
    lists_cells (stream_cell strm) cells -> lists_cells (runs_on fdir strm) links ->
    length pk = length cells /\ length conn = length cells /\
    fold_right Z.add 0%Z (map p_ncon pk) = (2 * Z.of_nat (length links))%Z /\
    list_sum (map (fun r => length (tl r)) conn) = 2 * length links.
Proof.
  intros fdir strm lim s2 g conn pk cells links V L E EC EP HC HL.
  destruct (@C40_packagedata _ _ _ _ _ V L E) as [conn' [pk' [EC' [EP' [L1 [L2 H]]]]]].
  rewrite EC in EC'. injection EC' as <-. rewrite EP in EP'. injection EP' as <-.
  destruct (mf6_spec strm lim V L E) as [order R].
  assert (SC : forall c, stream_cell strm c <-> In c (nonzero strm)) by (intros c; apply stream_cell_in).
  assert (LG : length g = length cells).
  { rewrite (r_graph R), map_length. rewrite (Permutation_length (r_perm R)). apply (@lists_unique (stream_cell strm)); auto.
    split; [apply nonzero_nodup|]. intros c. now rewrite SC. }
  assert (CLO : network_closed g).
  { intros s o Ho. destruct (g_clo R _ _ Ho) as [->|X]; auto. right. apply in_map_iff in X. destruct X as [[a b] [Ea X]]. cbn in Ea. subst a. eauto. }
  assert (K := @connection_sum g conn (g_nodup R) (g_pos R) CLO EC).
  assert (LL : length (filter is_link g) = length links).
  { destruct HL as [NL HL]. set (h := fun c => (nth c s2 0%Z, nth (down fdir c) s2 0%Z)).
    assert (NDg : NoDup g) by (eapply NoDup_map_inv; apply (g_nodup R)).
    rewrite <- (map_length h links). apply Nat.le_antisymm; apply NoDup_incl_length.
    - now apply NoDup_filter.
    - intros [r t] X. apply filter_In in X. destruct X as [X Y]. apply (g_in R) in X. destruct X as [c [Hc [-> ->]]].
      apply in_map_iff. exists c. split; [reflexivity|]. apply HL. unfold is_link in Y. cbn [fst snd] in Y. apply negb_true_iff, orb_false_iff in Y.
      destruct Y as [Y1 Y2]. apply Z.eqb_neq in Y1, Y2. split; [now apply SC|]. split; [apply SC, (s2_nonzero R); auto|]. intros X. rewrite X in Y2. auto.
    - apply nodup_map_in; auto. intros a b Ha Hb X. apply HL in Ha, Hb. destruct Ha as [Ha _], Hb as [Hb _]. apply SC in Ha, Hb. apply (s2_inj R); auto.
      exact (f_equal fst X).
    - intros e X. apply in_map_iff in X. destruct X as [c [<- X]]. apply HL in X. destruct X as [Hc [Hd Hn]]. apply SC in Hc, Hd.
      apply filter_In. split; [apply (g_in R); exists c; auto|]. unfold is_link, h. cbn [fst snd].
      apply negb_true_iff, orb_false_iff. split; apply Z.eqb_neq; [now apply (s2_nonzero R)|]. intros X. apply (s2_inj R) in X; auto. }
  rewrite LL in K. split; [congruence|]. split; [congruence|]. split; [|exact K].
  assert (M : map p_ncon pk = map (fun r => Z.of_nat (length (tl r))) conn).
  { apply nth_error_ext. intros i. rewrite !nth_error_map. destruct (nth_error pk i) as [p|] eqn:Ep.
    - destruct (H i p Ep) as [_ [_ [_ [rec [Er [_ En]]]]]]. rewrite Er. cbn. now rewrite En.
    - apply nth_error_None in Ep. replace (nth_error conn i) with (@None (list Z)); [reflexivity|]. symmetry. apply nth_error_None. lia. }
  rewrite M, <- Nat2Z.inj_mul with (n := 2), <- K. clear. induction conn as [|r l IH]; simpl; [reflexivity|]. rewrite IH. lia.
Qed.

(** ** segments *)
Section Cells.
  Variables fdir strm : list Z.
  Notation infl := (inflows fdir strm).

  Lemma head_iff c : headwater fdir strm c <-> In c (nonzero strm) /\ length (infl c) = 0.
  Proof.
    unfold headwater. rewrite stream_cell_in. split; intros [H X]; split; auto.
    - destruct (infl c) as [|x l] eqn:E; [reflexivity|exfalso]. assert (I : In x (infl c)) by (rewrite E; now left).
      apply in_inflows in I. destruct I as [I D]. now apply (X x); [apply stream_cell_in|].
    - intros x Hx D. assert (I : In x (infl c)) by (apply in_inflows; split; [now apply stream_cell_in|auto]).
      destruct (infl c); [destruct I|discriminate].
  Qed.
  Lemma confl_iff c : confluence fdir strm c <-> In c (nonzero strm) /\ 2 <= length (infl c).
  Proof.
    unfold confluence. rewrite stream_cell_in. split.
    - intros [H [x [y [NE [Hx [Hy [Dx Dy]]]]]]]. split; auto. apply (@NoDup_incl_length _ [x; y]).
      + constructor; [|constructor; [easy|constructor]]. intros [X|[]]. auto.
      + intros z [<-|[<-|[]]]; apply in_inflows; split; auto; now apply stream_cell_in.
    - intros [H X]. split; auto. assert (ND := inflows_nodup fdir strm c). destruct (infl c) as [|x [|y l]] eqn:E; cbn in X; try lia.
      assert (Ix : In x (infl c)) by (rewrite E; now left). assert (Iy : In y (infl c)) by (rewrite E; right; now left).
      apply in_inflows in Ix, Iy. exists x, y. rewrite !stream_cell_in. inversion ND; subst. split; [intros ->; apply H2; now left|tauto].
  Qed.

  (** all arrivals are departures *)
  Lemma inflow_sum cells ends : lists_cells (stream_cell strm) cells -> lists_cells (leaves fdir strm) ends ->
    list_sum (map (fun c => length (infl c)) cells) + length ends = length cells.
  Proof.
    intros [NC HC] HE. unfold inflows at 1. rewrite double_count.
    assert (PN : Permutation (nonzero strm) cells).
    { apply NoDup_Permutation; auto; [apply nonzero_nodup|]. intros c. now rewrite HC, stream_cell_in. }
    rewrite (sum_ext_in _ (fun x => if memn (down fdir x) cells then 1 else 0)).
    - rewrite sum_ones. rewrite (Permutation_length (Permutation_sym PN)). rewrite (filter_split (fun x => memn (down fdir x) cells) (nonzero strm)). f_equal.
      apply (@lists_unique (leaves fdir strm)); auto. split; [apply NoDup_filter, nonzero_nodup|]. intros c. rewrite filter_In. unfold leaves.
      rewrite stream_cell_in. rewrite <- HC. rewrite negb_true_iff. destruct (memn (down fdir c) cells) eqn:M.
      + apply memn_spec in M. split; [intros [_ X]; discriminate|tauto].
      + apply memn_false in M. tauto.
    - intros x _. destruct (memn (down fdir x) cells) eqn:M.
      + apply memn_spec in M. apply filter_one with (a := down fdir x); auto using Nat.eq_dec.
        * apply Nat.eqb_refl.
        * intros y _ Y. now apply Nat.eqb_eq in Y.
      + apply memn_false in M. apply filter_none. intros y Hy. apply Nat.eqb_neq. intros <-. auto.
  Qed.
End Cells.

(** C140: headwaters are the ends of the streams and the extra arms of the confluences *)
Theorem C140_headwaters_and_confluences :
  forall fdir strm heads confl ends arms,
    lists_cells (headwater fdir strm) heads -> lists_cells (confluence fdir strm) confl -> lists_cells (leaves fdir strm) ends ->
    (forall c, In c confl -> stream_inflows fdir strm c (arms c)) ->
    length heads + length confl = length ends + list_sum (map (fun c => length (arms c)) confl).
Proof.
  intros fdir strm heads confl ends arms HH HF HE HA.
  assert (HC : lists_cells (stream_cell strm) (nonzero strm)) by (split; [apply nonzero_nodup|]; intros c; now rewrite stream_cell_in).
  assert (S := @inflow_sum fdir strm _ _ HC HE).
  rewrite (sum_ext_in _ (fun c => length (inflows fdir strm c))) by (intros c Hc; apply inflows_length; auto).
  set (d := fun c => length (inflows fdir strm c)) in *.
  assert (LH : length heads = length (filter (fun c => d c =? 0) (nonzero strm))).
  { apply (@lists_unique (headwater fdir strm)); auto. split; [apply NoDup_filter, nonzero_nodup|]. intros c.
    rewrite filter_In, head_iff, Nat.eqb_eq. tauto. }
  assert (PF : Permutation confl (filter (fun c => 2 <=? d c) (nonzero strm))).
  { destruct HF as [NF HF]. apply NoDup_Permutation; auto; [apply NoDup_filter, nonzero_nodup|]. intros c.
    rewrite HF, filter_In, confl_iff, Nat.leb_le. tauto. }
  assert (LF : length confl = length (filter (fun c => 2 <=? d c) (nonzero strm))) by now apply Permutation_length.
  assert (SF : list_sum (map d confl) = list_sum (map d (filter (fun c => 2 <=? d c) (nonzero strm)))).
  { clear - PF. induction PF; simpl; lia. }
  rewrite LF, LH, SF. clear - S. assert (G : forall l, list_sum (map d l) + length (filter (fun c => d c =? 0) l) + length (filter (fun c => 2 <=? d c) l)
     = length l + list_sum (map d (filter (fun c => 2 <=? d c) l))).
  { induction l as [|c l IH]; [reflexivity|]. unfold list_sum in *. cbn [map filter fold_right length].
    destruct (Nat.eqb_spec (d c) 0) as [D|D]; destruct (Nat.leb_spec 2 (d c)) as [D'|D']; cbn [map fold_right length]; lia. }
  specialize (G (nonzero strm)). lia.
Qed.

(** C140: grouped segments are numbered 1..(headwaters + confluences), and the (node, segment, reach) rows
    are as many as the stream cells that are on no closed ring *)
Theorem C140_segments :
  forall fdir strm lim fuel m heads confl cells,
    valid_fdir fdir -> length strm = length fdir -> length fdir <= fuel ->
    mf2005_connectivity lim fuel true fdir strm = Ok m ->
    lists_cells (headwater fdir strm) heads -> lists_cells (confluence fdir strm) confl ->
    lists_cells (fun c => stream_cell strm c /\ ~ closed_ring fdir strm c) cells ->
    length (m_seg m) = length heads + length confl /\
    (forall s, In s (map fst (m_seg m)) <-> (1 <= s <= Z.of_nat (length heads + length confl))%Z) /\
    length (m_nsr m) = length cells.
Proof.
  intros fdir strm lim fuel m heads confl cells V L Hf E HH HF HC.
  assert (P := @C42_segments_partition_the_streams _ _ _ _ _ V L Hf E). destruct P as [P1 [P2 [P3 _]]].
  destruct (@grouped_result fdir strm lim fuel m V L Hf E) as [K [sg [tg [HS [HK [C _]]]]]].
  assert (LK : length K = length heads + length confl).
  { rewrite <- app_length. apply Nat.le_antisymm; apply NoDup_incl_length.
    - apply (c_nd C).
    - intros c Hc. apply HK in Hc. apply in_app_iff. destruct HH as [_ HH], HF as [_ HF]. rewrite HH, HF, head_iff, confl_iff.
      destruct (length (inflows fdir strm c)) as [|[|k]]; [left|lia|right]; intuition lia.
    - destruct HH as [NH HH], HF as [NF HF]. clear - NH HH NF HF. assert (D : forall c, In c heads -> ~ In c confl).
      { intros c. rewrite HH, HF, head_iff, confl_iff. intros [_ X] [_ Y]. lia. }
      clear HH. induction heads as [|a l IH]; [auto|]. inversion NH; subst. cbn [app]. constructor.
      + rewrite in_app_iff. intros [X|X]; [auto|]. apply (D a); auto. now left.
      + apply IH; auto. intros c Hc. apply D. now right.
    - intros c Hc. apply in_app_iff in Hc. apply HK. destruct HH as [_ HH], HF as [_ HF]. rewrite HH, HF, head_iff, confl_iff in Hc. destruct Hc as [[X Y]|[X Y]]; (split; [exact X|lia]). }
  rewrite (c_seg C), map_length, <- LK. split; [reflexivity|]. split.
  - intros s. rewrite map_map. cbn [fst]. rewrite in_map_iff. split.
    + intros [c [<- Hc]]. now apply (c_rng C).
    + intros Hs. destruct (c_num C Hs) as [c [Hc Ec]]. eauto.
  - rewrite <- (map_length (fun row => fst (fst row)) (m_nsr m)). rewrite <- (map_length Z.of_nat cells). destruct HC as [NC HC].
    apply Nat.le_antisymm; apply NoDup_incl_length; auto.
    + intros z Hz. apply in_map_iff in Hz. destruct Hz as [[[n s] r] [<- Hz]]. cbn [fst]. destruct (P1 _ _ _ Hz) as [c [-> Hc]].
      apply in_map. apply HC. split; auto. apply P3; eauto.
    + apply FinFun.Injective_map_NoDup; auto. intros a b. apply Nat2Z.inj.
    + intros z Hz. apply in_map_iff in Hz. destruct Hz as [c [<- Hc]]. apply HC in Hc. destruct Hc as [Hc Hr]. apply (P3 c Hc) in Hr.
      destruct Hr as [s [r Hr]]. apply in_map_iff. exists (Z.of_nat c, s, r). auto.
Qed.

(** so, where no stream leaves the stream cells and every confluence has two arms (the outlet, which flows
    to itself, and the river above it count as two), there are two segments for every headwater *)
Corollary C140_two_segments_for_every_headwater :
  forall fdir strm lim fuel m heads,
    valid_fdir fdir -> length strm = length fdir -> length fdir <= fuel ->
    mf2005_connectivity lim fuel true fdir strm = Ok m ->
    lists_cells (headwater fdir strm) heads ->
    (forall c, stream_cell strm c -> stream_cell strm (down fdir c)) ->
    (forall c, confluence fdir strm c -> exists x y, stream_inflows fdir strm c [x; y]) ->
    length (m_seg m) = 2 * length heads.
Proof.
  intros fdir strm lim fuel m heads V L Hf E HH HO H2.
  set (confl := filter (fun c => 2 <=? length (inflows fdir strm c)) (nonzero strm)).
  assert (HF : lists_cells (confluence fdir strm) confl).
  { split; [apply NoDup_filter, nonzero_nodup|]. intros c. unfold confl. rewrite filter_In, confl_iff, Nat.leb_le. tauto. }
  assert (HE : lists_cells (leaves fdir strm) []).
  { split; [constructor|]. intros c. split; [intros []|]. intros [X Y]. exfalso. auto. }
  assert (SG : length (m_seg m) = length heads + length confl).
  { set (cells := map (fun row => Z.to_nat (fst (fst row))) (m_nsr m)).
    refine (proj1 (@C140_segments fdir strm lim fuel m heads confl cells V L Hf E HH HF _)).
    destruct (@C42_segments_partition_the_streams _ _ _ _ _ V L Hf E) as [P1 [P2 [P3 _]]]. split.
    - unfold cells. rewrite <- (map_map (fun row => fst (fst row)) Z.to_nat). apply nodup_map_in; auto. intros a b Ha Hb X.
      apply in_map_iff in Ha, Hb. destruct Ha as [[[n s] r] [<- Ha]], Hb as [[[n' s'] r'] [<- Hb]]. cbn [fst] in *.
      apply P1 in Ha, Hb. destruct Ha as [c [-> _]], Hb as [c' [-> _]]. rewrite !Nat2Z.id in X. congruence.
    - intros c. unfold cells. rewrite in_map_iff. split.
      + intros [[[n s] r] [<- H]]. cbn [fst]. destruct (P1 _ _ _ H) as [a [-> Ha]]. rewrite Nat2Z.id. split; auto. apply P3; eauto.
      + intros [Hc Hr]. apply (P3 c Hc) in Hr. destruct Hr as [s [r Hr]]. exists (Z.of_nat c, s, r). cbn [fst]. rewrite Nat2Z.id. auto. }
  assert (X := @C140_headwaters_and_confluences fdir strm heads confl [] (inflows fdir strm) HH HF HE (fun c _ => inflows_spec fdir strm c)).
  assert (Y : list_sum (map (fun c => length (inflows fdir strm c)) confl) = 2 * length confl).
  { rewrite (sum_ext_in _ (fun _ => 2)).
    - clear. induction confl; simpl in *; lia.
    - intros c Hc. apply HF in Hc. destruct (H2 c Hc) as [x [y Hxy]]. now rewrite <- (inflows_length Hxy). }
  cbn [length] in X. lia.
Qed.

(** A case: cells 0 and 1 are headwaters, 2 is their confluence, 3 flows on to the outlet 4, which flows to
    itself; cell 5 is no stream *)
Module ExCount.
  Definition fd : list Z := [2; 2; 3; 4; 4; 4]%Z.
  Definition st : list Z := [1; 1; 1; 1; 1; 0]%Z.
  Lemma st_cells c : stream_cell st c <-> c < 5.
  Proof. rewrite stream_cell_in. assert (X : nonzero st = seq 0 5) by (vm_compute; reflexivity). rewrite X, in_seq. lia. Qed.
  Lemma by_infl (p : nat -> bool) (P : nat -> Prop) l : (forall c, P c <-> In c (nonzero st) /\ p (length (inflows fd st c)) = true) ->
    filter (fun c => p (length (inflows fd st c))) (nonzero st) = l -> lists_cells P l.
  Proof. intros H <-. split; [apply NoDup_filter, nonzero_nodup|]. intros c. rewrite H, filter_In. tauto. Qed.
  Example heads_ex : lists_cells (headwater fd st) [0; 1].
  Proof. apply (@by_infl (fun n => n =? 0)); [|vm_compute; reflexivity]. intros c. now rewrite head_iff, Nat.eqb_eq. Qed.
  Example confl_ex : lists_cells (confluence fd st) [2; 4].
  Proof. apply (@by_infl (fun n => 2 <=? n)); [|vm_compute; reflexivity]. intros c. now rewrite confl_iff, Nat.leb_le. Qed.
  Example ends_ex : lists_cells (leaves fd st) [].
  Proof.
    split; [constructor|]. intros c. split; [intros []|]. intros [X Y]. apply st_cells in X. exfalso. apply Y, st_cells.
    destruct c as [|[|[|[|[|c]]]]]; cbn; lia.
  Qed.
  Lemma v_ex : valid_fdir fd.
  Proof. unfold valid_fdir, fd. repeat constructor; cbn; lia. Qed.
  Example segments_ex : exists m, mf2005_connectivity 100 100 true fd st = Ok m /\ length (m_seg m) = 4.
  Proof.
    destruct (@C44_connectivity_succeeds fd st 100 100 true v_ex eq_refl ltac:(cbn; lia) ltac:(cbn; lia)) as [m E]. exists m. split; [exact E|].
    apply (@C140_two_segments_for_every_headwater fd st 100 100 m [0; 1] v_ex eq_refl ltac:(cbn; lia) E heads_ex).
    - intros c. rewrite !st_cells. intros H. destruct c as [|[|[|[|[|c]]]]]; cbn; lia.
    - intros c H. apply confl_ex in H. destruct H as [<-|[<-|[]]]; [exists 0, 1|exists 3, 4]; match goal with |- stream_inflows _ _ ?c ?l =>
        replace l with (inflows fd st c) by (vm_compute; reflexivity) end; apply inflows_spec.
  Qed.
  Example links_ex : lists_cells (runs_on fd st) [0; 1; 2; 3].
  Proof.
    split; [repeat constructor; cbn; intuition lia|]. intros c. unfold runs_on. rewrite !st_cells. cbn [In]. split.
    - intros H. destruct c as [|[|[|[|c]]]]; cbn; try lia.
    - intros [H1 [H2 H3]]. destruct c as [|[|[|[|[|c]]]]]; cbn in *; lia.
  Qed.
End ExCount.
