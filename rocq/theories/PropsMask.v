(** C90: the element type of the stream array given to get_stream_connectivity. *)
From Verif Require Import Py Spec MFlow MStream MMask LGraph LTopo LStream LConn LSeg LSeg2 LSeg3 LSeg4 PropsStream.
Set Implicit Arguments.
Unset Strict Implicit.
Local Open Scope Z_scope.
Local Open Scope list_scope.

Lemma foldM_ext_in {S A} (f g : S -> A -> res S) l : (forall s x, In x l -> f s x = g s x) ->
  forall s, foldM f l s = foldM g l s.
Proof.
  induction l as [|x l IH]; intros H s; simpl; auto. rewrite H by now left. destruct (g s x); simpl; auto.
  apply IH. intros; apply H; now right.
Qed.

(** ** array types that can hold the numbers: the connectivity of [MStream] *)
Theorem C90_wide_types : forall cast fdir strm lim,
  valid_fdir fdir -> length strm = length fdir ->
  (forall z, 0 <= z <= Z.of_nat (length strm) -> cast z = z) ->
  mf6_connectivity_as cast lim fdir strm = mf6_connectivity lim fdir strm.
Proof.
  intros cast fdir strm lim V L C. unfold mf6_connectivity_as, mf6_connectivity. cbv zeta.
  assert (LN : (length (nonzero strm) <= length strm)%nat) by apply where_length.
  rewrite (@foldM_ext_in _ _ _ (fun a p => set a (snd p) (Z.of_nat (fst p)))).
  2:{ intros s p Hp. rewrite C; auto. destruct p as [i c]. apply in_combine_l in Hp. apply in_seq in Hp. cbn [fst]. lia. }
  destruct (@s1_exists fdir strm L) as [s1 [E1 S]]. change (fun (a : list Z) (p : nat * nat) => set a (snd p) (Z.of_nat (fst p))) with assign.
  rewrite E1. cbn [bind]. rewrite (@topo_eq fdir strm V L s1 S). cbn [bind].
  destruct (topo_sort lim (topo_of fdir strm s1)) as [sorted|e] eqn:ES; auto. cbn [bind].
  destruct (foldM _ (enumerate1 sorted) []) as [nm|e]; auto. cbn [bind].
  destruct (topo_sort_ok (topo_of fdir strm s1) lim (@topo_nodup fdir strm L s1 S) ES) as [v [I Hin]]. assert (ND := s_nd I).
  assert (LS : (length sorted <= length strm)%nat).
  { assert (X : (length sorted <= length (map fst (topo_of fdir strm s1)))%nat) by (apply NoDup_incl_length; auto; intros x Hx; now apply Hin in Hx).
    rewrite map_length in X. unfold topo_of in X. rewrite map_length in X. lia. }
  rewrite (@foldM_ext_in _ _ _ (fun a node => old <- get a node ;; new <- dgetE Z.eqb (enumerate1 sorted) old ;; set a node new)); auto.
  intros a c _. destruct (get a c) as [old|e]; auto. cbn [bind]. unfold dgetE.
  destruct (dget Z.eqb (enumerate1 sorted) old) as [new|] eqn:D; auto. cbn [bind]. rewrite C; auto.
  apply (dget_in Z.eqb zeqb) in D. rewrite enumerate1_eq in D by auto. apply in_combine_r in D. apply in_map_iff in D.
  destruct D as [k [<- Hk]]. apply in_seq in Hk. lia.
Qed.

(** ** boolean masks: one reach, whatever the streams *)
Lemma bool_assign nodes : forall s a, (1 <= s)%nat -> (forall c, In c nodes -> (c < length a)%nat /\ nth c a 0 = 1) ->
  foldM (fun a p => set a (snd p) (as_bool (Z.of_nat (fst p)))) (combine (seq s (length nodes)) nodes) a = Ok a.
Proof.
  induction nodes as [|x nodes IH]; intros s a Hs H; cbn [length seq combine foldM fst snd]; auto.
  destruct (H x (or_introl eq_refl)) as [Hx E]. rewrite set_lt by auto. cbn [bind].
  assert (AS : as_bool (Z.of_nat s) = 1) by (unfold as_bool; destruct (Z.eqb_spec (Z.of_nat s) 0); lia).
  rewrite AS. rewrite upd_same by (rewrite (nth_error_nth' a 0) by auto; congruence).
  apply IH; [lia|]. intros c Hc. apply H. now right.
Qed.
Lemma bool_renumber nodes a : (forall c, In c nodes -> (c < length a)%nat /\ nth c a 0 = 1) ->
  foldM (fun a node => old <- get a node ;; new <- dgetE Z.eqb [(1, 1)] old ;; set a node (as_bool new)) nodes a = Ok a.
Proof.
  induction nodes as [|x nodes IH]; intros H; cbn [foldM]; auto.
  destruct (H x (or_introl eq_refl)) as [Hx E]. rewrite (get_nth a 0) by auto. cbn [bind]. rewrite E. cbn [bind dgetE dget Z.eqb Pos.eqb].
  rewrite set_lt by auto. cbn [bind]. change (as_bool 1) with 1. rewrite upd_same by (rewrite (nth_error_nth' a 0) by auto; congruence).
  apply IH. intros c Hc. apply H. now right.
Qed.
Lemma bool_topo fdir a nodes : valid_fdir fdir -> length a = length fdir ->
  (forall c, In c nodes -> (c < length a)%nat /\ nth c a 0 = 1) -> forall t0, t0 = [] \/ (exists v, t0 = [(1, v)]) ->
  foldM (fun t node => rchid <- get a node ;; flow_to <- get fdir node ;; rchto <- npget a flow_to ;;
                       Ok (add_connection t rchid rchto)) nodes t0 =
  Ok (match nodes with [] => t0 | _ => [(1, nth (down fdir (last nodes 0%nat)) a 0)] end).
Proof.
  intros V L. induction nodes as [|x nodes IH]; intros H t0 T; [reflexivity|].
  cbn [foldM]. destruct (H x (or_introl eq_refl)) as [Hx E]. rewrite (get_nth a 0) by auto. cbn [bind].
  rewrite (get_nth fdir 0) by lia. cbn [bind]. rewrite (@fdir_down fdir V x) by lia.
  rewrite (npget_nat a 0) by (rewrite L; apply (@down_lt fdir V); lia). cbn [bind]. rewrite E.
  assert (T1 : add_connection t0 1 (nth (down fdir x) a 0) = [(1, nth (down fdir x) a 0)]).
  { destruct T as [->|[v ->]]; reflexivity. }
  rewrite T1. rewrite IH; [|intros c Hc; apply H; now right|right; eauto].
  destruct nodes; reflexivity.
Qed.

(** the result, exactly: the array is left as it was and the graph has one reach, number 1,
    which flows to itself or out of the network according to the last stream cell alone *)
Theorem C90_boolean_mask_exactly : forall fdir strm lim,
  valid_fdir fdir -> length strm = length fdir -> Forall (fun z => z = 0 \/ z = 1) strm ->
  nonzero strm <> [] -> (2 <= lim)%nat ->
  mf6_connectivity_as as_bool lim fdir strm =
    Ok (strm, [(1, nth (down fdir (last (nonzero strm) 0%nat)) strm 0)]).
Proof.
  intros fdir strm lim V L B NE LIM. unfold mf6_connectivity_as. cbv zeta.
  rewrite Forall_forall in B.
  assert (H : forall c, In c (nonzero strm) -> (c < length strm)%nat /\ nth c strm 0 = 1).
  { intros c Hc. apply in_nonzero in Hc. destruct Hc as [Hc Hz]. split; auto. destruct (B (nth c strm 0)); auto; [now apply nth_In|congruence]. }
  rewrite (@bool_assign (nonzero strm) 1 strm (le_n 1) H). cbn [bind].
  rewrite (@bool_topo fdir strm (nonzero strm) V L H [] (or_introl eq_refl)). cbn [bind].
  destruct (nonzero strm) as [|x l] eqn:EN; [congruence|]. rewrite <- EN in *. clear EN x l.
  set (q := down fdir (last (nonzero strm) 0%nat)). assert (Q : nth q strm 0 = 0 \/ nth q strm 0 = 1).
  { destruct (Nat.lt_ge_cases q (length strm)) as [X|X]; [apply B; now apply nth_In|left; now apply nth_overflow]. }
  set (b := nth q strm 0) in *. destruct lim as [|[|l]]; [lia|lia|].
  assert (TS : topo_sort (S (S l)) [(1, b)] = Ok [1]) by (destruct Q as [->| ->]; reflexivity).
  rewrite TS. cbn [bind]. change (enumerate1 [1]) with [(1, 1)].
  assert (NM : foldM (fun m kv => old_to <- dgetE Z.eqb [(1, b)] (fst kv) ;;
                        to <- (if old_to =? 0 then Ok 0 else dgetE Z.eqb [(1, 1)] old_to) ;;
                        Ok (dset Z.eqb m (snd kv) to)) [(1, 1)] [] = Ok [(1, b)]) by (destruct Q as [->| ->]; reflexivity).
  rewrite NM. cbn [bind]. rewrite (bool_renumber H). reflexivity.
Qed.

(** so a boolean mask and the same mask as integers give different networks as soon as there
    are two stream cells; the MODFLOW 6 tables have a single unconnected reach *)
Theorem C90_boolean_mask_refuted : forall fdir strm lim,
  valid_fdir fdir -> length strm = length fdir -> Forall (fun z => z = 0 \/ z = 1) strm ->
  (2 <= length (nonzero strm))%nat -> (length strm + 1 <= lim)%nat ->
  exists a g a' g',
    mf6_connectivity_as as_bool lim fdir strm = Ok (a, g) /\
    mf6_connectivity lim fdir strm = Ok (a', g') /\
    length g = 1%nat /\ length g' = length (nonzero strm) /\
    connectiondata (some_graph g) = Ok [[0]] /\
    exists n m, packagedata (some_graph g) a = Ok [Pkg 0 n m 0].
Proof.
  intros fdir strm lim V L B N2 LIM.
  assert (LN : (length (nonzero strm) <= length strm)%nat) by apply where_length.
  assert (NE : nonzero strm <> []) by (intros X; rewrite X in N2; simpl in N2; lia).
  destruct (@C34_connectivity_succeeds fdir strm lim V L LIM) as [a' [g' E']].
  set (b := nth (down fdir (last (nonzero strm) 0%nat)) strm 0).
  assert (Q : b = 0 \/ b = 1).
  { unfold b. rewrite Forall_forall in B. destruct (Nat.lt_ge_cases (down fdir (last (nonzero strm) 0%nat)) (length strm)) as [X|X];
      [apply B; now apply nth_In|left; now apply nth_overflow]. }
  exists strm, [(1, b)], a', g'. split; [apply C90_boolean_mask_exactly; auto; lia|]. split; [exact E'|]. split; [reflexivity|].
  split.
  - destruct (@mf6_spec fdir strm lim V L a' g' E') as [order R]. rewrite (r_graph R), map_length.
    apply Permutation_length. apply NoDup_Permutation; [apply (order_nodup R)|apply nonzero_nodup|]. intros c. apply (order_in R).
  - assert (CD : connectiondata (some_graph [(1, b)]) = Ok [[0]]) by (destruct Q as [->| ->]; reflexivity). split; [exact CD|].
    assert (W : exists n l, where_ (Z.eqb 1) strm = n :: l).
    { destruct (nonzero strm) as [|c l] eqn:EN; [congruence|].
      assert (Hc : In c (nonzero strm)) by (rewrite EN; now left). apply in_nonzero in Hc. destruct Hc as [Hc Hz].
      rewrite Forall_forall in B. assert (H1 : nth c strm 0 = 1) by (destruct (B (nth c strm 0)); auto; [now apply nth_In|congruence]).
      assert (X : In c (where_ (Z.eqb 1) strm)). { apply (in_where_nth _ _ _ 0). split; auto. rewrite H1. reflexivity. }
      destruct (where_ (Z.eqb 1) strm) as [|n l']; [contradiction|eauto]. }
    destruct W as [n [l W]]. unfold packagedata. rewrite CD. cbn [bind].
    change (sorted_items (some_graph [(1, b)])) with [(1, Some b)]. cbn [foldM fst snd]. unfold first_where. rewrite W. cbn [get nth_error bind].
    destruct Q as [->| ->]; cbn [bind]; exists n, n; [reflexivity|]. rewrite W. reflexivity.
Qed.

(** ** MODFLOW-2005: the array is only written, so graph, segments and records do not depend
    on its type; the stored array of segment numbers does *)
Section Mf2005.
  Variable cast : Z -> Z.
  Definition recast (s : grp) : grp := Grp (g_nsr s) (map cast (g_strm s)) (g_seg s).
  Definition lift_grp (r : res grp) : res grp := match r with Ok s => Ok (recast s) | Err e => Err e end.

  Lemma npset_map (a : list Z) k v : npset (map cast a) k (cast v) = match npset a k v with Ok a' => Ok (map cast a') | Err e => Err e end.
  Proof.
    unfold npset. rewrite map_length. destruct (npidx (length a) k) as [i|]; auto.
    f_equal. revert i. induction a as [|x a IH]; intros [|i]; cbn; auto. now rewrite IH.
  Qed.
  Lemma seg_walk_cast fuel g starts seg : forall node rch s,
    seg_walk_as cast fuel g starts seg node rch (recast s) = lift_grp (seg_walk fuel g starts seg node rch s).
  Proof.
    induction fuel as [|f IH]; intros node rch s; auto. cbn [seg_walk_as seg_walk recast g_strm g_nsr g_seg].
    rewrite npset_map. destruct (npset (g_strm s) node seg) as [a|e]; auto. cbn [bind].
    destruct (dgetE Z.eqb g node) as [[d|]|e]; cbn [bind]; auto.
    destruct (dget Z.eqb starts d); auto. apply (IH d (rch + 1) (Grp (g_nsr s ++ [(node, seg, rch)]) a (g_seg s))).
  Qed.
  Lemma foldM_lift {A} (f h : grp -> A -> res grp) l : (forall s x, h (recast s) x = lift_grp (f s x)) ->
    forall s, foldM h l (recast s) = lift_grp (foldM f l s).
  Proof.
    intros H. induction l as [|x l IH]; intros s; auto. cbn [foldM]. rewrite H. destruct (f s x); cbn [lift_grp bind]; auto.
  Qed.
  Lemma group_cast fuel g strm : group_segments_as cast fuel g (map cast strm) = lift_grp (group_segments fuel g strm).
  Proof.
    unfold group_segments_as, group_segments. cbv zeta. change (Grp [] (map cast strm) []) with (recast (Grp [] strm [])).
    apply foldM_lift. intros s x. apply seg_walk_cast.
  Qed.
  Lemma single_cast g strm : single_segments_as cast g (map cast strm) = lift_grp (single_segments g strm).
  Proof.
    unfold single_segments_as, single_segments. cbv zeta. change (Grp [] (map cast strm) []) with (recast (Grp [] strm [])).
    apply foldM_lift. intros s [node dn]. destruct (dgetE Z.eqb (number_nodes g) node) as [up|e]; auto. cbn [bind recast g_strm].
    rewrite npset_map. destruct (npset (g_strm s) node up) as [a|e]; auto. cbn [bind]. destruct dn as [d|]; auto.
    destruct (dgetE Z.eqb (number_nodes g) d) as [dn|e]; auto. cbn [bind]. destruct (dn =? up); auto.
    rewrite npset_map. destruct (npset a d dn) as [a2|e]; auto.
  Qed.
End Mf2005.

Theorem C90_mf2005_any_type : forall cast lim fuel grouped fdir strm,
  map cast strm = strm ->
  match mf2005_connectivity lim fuel grouped fdir strm, mf2005_connectivity_as cast lim fuel grouped fdir strm with
  | Ok m, Ok m' => m_graph m' = m_graph m /\ m_seg m' = m_seg m /\ m_nsr m' = m_nsr m
  | Err e, Err e' => e = e'
  | _, _ => False
  end.
Proof.
  intros cast lim fuel grouped fdir strm C. unfold mf2005_connectivity, mf2005_connectivity_as. cbv zeta.
  destruct (node_graph fdir (nonzero strm)) as [g|e]; cbn [bind]; auto.
  assert (X : (if grouped then group_segments_as cast fuel g strm else single_segments_as cast g strm) =
              lift_grp cast (if grouped then group_segments fuel g strm else single_segments g strm)).
  { destruct grouped.
    - transitivity (group_segments_as cast fuel g (map cast strm)); [now rewrite C|apply group_cast].
    - transitivity (single_segments_as cast g (map cast strm)); [now rewrite C|apply single_cast]. }
  rewrite X. destruct (if grouped then group_segments fuel g strm else single_segments g strm) as [s|e]; cbn [bind lift_grp]; auto.
  cbn [recast g_seg g_nsr g_strm].
  destruct (topo_sort lim _) as [sorted|e]; cbn [bind]; auto.
  destruct (mapM _ (g_nsr s)) as [nsr|e]; cbn [bind]; auto.
  destruct (foldM _ (g_seg s) []) as [seg|e]; cbn [bind]; auto.
Qed.

(** with a boolean mask the stored array has the same segment number on every stream cell *)
Lemma bool_array fdir strm fuel (grouped : bool) s : valid_fdir fdir -> length strm = length fdir ->
  Forall (fun z => z = 0 \/ z = 1) strm -> (length fdir <= fuel)%nat ->
  (if grouped then group_segments fuel (ng fdir strm) strm else single_segments (ng fdir strm) strm) = Ok s ->
  map as_bool (g_strm s) = strm /\ segs_ok (g_seg s) /\
  (forall n q r, In (n, q, r) (g_nsr s) -> In q (map fst (g_seg s))).
Proof.
  intros V L B FU E. rewrite Forall_forall in B.
  assert (B1 : forall c, In c (nonzero strm) -> nth c strm 0 = 1).
  { intros c Hc. apply in_nonzero in Hc. destruct Hc as [Hc Hz]. destruct (B (nth c strm 0)); auto; [now apply nth_In|congruence]. }
  assert (FIN : forall a, length a = length fdir ->
     (forall c, In c (nonzero strm) -> nth c a 0 <> 0) -> (forall c, ~ In c (nonzero strm) -> nth c a 0 = nth c strm 0) ->
     map as_bool a = strm).
  { intros a La H1 H2. apply nth_ext with (d := 0) (d' := 0); [rewrite map_length; lia|]. intros c Hc. rewrite map_length in Hc.
    change 0 with (as_bool 0) at 1. rewrite map_nth. unfold as_bool.
    destruct (in_dec Nat.eq_dec c (nonzero strm)) as [Hi|Hi].
    - rewrite (B1 c Hi). destruct (Z.eqb_spec (nth c a 0) 0); auto. now elim (H1 c Hi).
    - rewrite (H2 c Hi). assert (X : nth c strm 0 = 0); [|now rewrite X].
      destruct (Z.eq_dec (nth c strm 0) 0) as [|NZ]; auto. exfalso. apply Hi, in_nonzero. split; auto. lia. }
  destruct grouped.
  - destruct (@starts_spec fdir strm L) as [K [Es [NDK HK]]].
    destruct (@group_spec fdir strm L K NDK HK fuel FU Es) as [a [Eg [La [A1 A2]]]].
    rewrite Eg in E. inversion E; subst s. cbn [g_strm g_seg g_nsr]. split; [|split].
    + apply FIN; auto.
      * intros c Hc. destruct (@cover fdir strm V L K HK c Hc) as [[k [j [Hk [Hj ->]]]]|HL].
        -- rewrite A1 by auto. assert (X := @sno_rng fdir strm L K NDK k Hk). lia.
        -- rewrite A2; [rewrite (B1 c Hc); lia|]. intros k j Hk Hj. now apply (@lost_not_covered fdir strm L K HK c k j).
      * intros c Hc. apply A2. intros k j Hk Hj ->. apply Hc.
        destruct (@slen_segm fdir strm L K HK k Hk) as [S _]. now apply (sg_node S).
    + exact (@gseg_ok fdir strm L K NDK HK).
    + intros n q r H. apply in_flat_map in H. destruct H as [c [Hc H]]. unfold srows in H. apply in_map_iff in H.
      destruct H as [j [X _]]. inversion X; subst. apply in_map_iff. exists (segno K c, starget fdir strm K c). split; auto.
      apply in_map_iff. exists c. auto.
  - destruct (@numbers fdir strm L) as [K [En [NDK HK]]].
    destruct (@single_spec fdir strm L K NDK HK En) as [a [Eg [La [A1 A2]]]].
    rewrite Eg in E. inversion E; subst s. cbn [g_strm g_seg g_nsr]. split; [|split].
    + apply FIN; auto. intros c Hc. rewrite A1 by auto. assert (X := @sno_rng fdir strm L K NDK c (proj2 (HK c) Hc)). lia.
    + exact (@single_seg_ok fdir strm L K NDK HK).
    + intros n q r H. apply in_map_iff in H. destruct H as [c [X Hc]]. inversion X; subst. apply in_map_iff.
      exists (segno K c, stg1 fdir strm K c). split; auto. apply in_map_iff. exists c. auto.
Qed.

Theorem C90_mf2005_boolean_array_refuted : forall lim fuel grouped fdir strm m,
  valid_fdir fdir -> length strm = length fdir -> Forall (fun z => z = 0 \/ z = 1) strm -> (length fdir <= fuel)%nat ->
  mf2005_connectivity_as as_bool lim fuel grouped fdir strm = Ok m ->
  exists k, (1 <= length (m_seg m) -> 1 <= k)%nat /\ (k <= length (m_seg m))%nat /\
    forall c, (c < length strm)%nat -> nth c (m_strm m) 0 = if nth c strm 0 =? 0 then 0 else Z.of_nat k.
Proof.
  intros lim fuel grouped fdir strm m V L B FU E.
  assert (C : map as_bool strm = strm).
  { rewrite <- (map_id strm) at 2. apply map_ext_in. intros z Hz. rewrite Forall_forall in B. unfold as_bool. destruct (B z Hz) as [->| ->]; reflexivity. }
  assert (X : mf2005_connectivity_as as_bool lim fuel grouped fdir strm =
    (g <- node_graph fdir (nonzero strm) ;;
     s <- lift_grp as_bool (if grouped then group_segments fuel g strm else single_segments g strm) ;;
     finish lim g s)).
  { unfold mf2005_connectivity_as. cbv zeta. destruct (node_graph fdir (nonzero strm)) as [g|e]; cbn [bind]; auto.
    replace (lift_grp as_bool (if grouped then group_segments fuel g strm else single_segments g strm)) with
      (if grouped then group_segments_as as_bool fuel g strm else single_segments_as as_bool g strm); [reflexivity|].
    destruct grouped.
    - transitivity (group_segments_as as_bool fuel g (map as_bool strm)); [now rewrite C|apply group_cast].
    - transitivity (single_segments_as as_bool g (map as_bool strm)); [now rewrite C|apply single_cast]. }
  rewrite X in E. clear X. rewrite (@node_graph_eq fdir strm V L) in E. cbn [bind] in E.
  destruct (if grouped then group_segments fuel (ng fdir strm) strm else single_segments (ng fdir strm) strm) as [s|e] eqn:G; [|discriminate].
  cbn [lift_grp bind] in E. destruct (@bool_array fdir strm fuel grouped s V L B FU G) as [A [SO NS]].
  assert (FI := E). unfold finish in FI. cbn [recast g_seg] in FI. rewrite (@topo_same s SO) in FI.
  destruct (topo_sort lim (g_seg s)) as [sorted|e] eqn:TS; [|discriminate]. clear FI.
  destruct (@finish_spec lim (ng fdir strm) (recast as_bool s) SO NS sorted TS) as [mu [m' [E' [RN [MS [_ [SG _]]]]]]].
  rewrite E in E'. inversion E'; subst m'. cbn [recast g_seg g_strm] in *. rewrite A in MS.
  assert (LS : length (m_seg m) = length (g_seg s)) by (rewrite SG; apply map_length).
  exists (Z.to_nat (new_strm (recast as_bool s) mu 1)).
  assert (NS1 : (length (g_seg s) = 0%nat /\ new_strm (recast as_bool s) mu 1 = 0) \/
     (1 <= length (g_seg s))%nat /\ 1 <= new_strm (recast as_bool s) mu 1 <= Z.of_nat (length (g_seg s))).
  { unfold new_strm. cbn [recast g_seg]. destruct (Z.leb_spec 1 (Z.of_nat (length (g_seg s)))) as [H|H]; cbn [andb Z.leb Z.compare].
    - right. split; [lia|]. apply (rn_in RN). lia.
    - left. split; [lia|reflexivity]. }
  split; [lia|]. split; [lia|]. intros c Hc. rewrite MS. rewrite (nth_indep _ 0 (new_strm (recast as_bool s) mu 0)) by (rewrite map_length; lia).
  rewrite map_nth. rewrite Forall_forall in B. destruct (B (nth c strm 0)) as [-> | ->]; [now apply nth_In| |].
  - unfold new_strm. cbn [recast g_seg]. destruct ((_ <=? _) && _); [|reflexivity]. apply (rn_0 RN).
  - cbn [Z.eqb]. lia.
Qed.

Module Ex.
  (* a river of four cells leaving a 1 x 5 grid *)
  Definition fdir : list Z := [1; 2; 3; 4; 4].
  Definition strm : list Z := [1; 1; 1; 1; 0].
  Lemma V : valid_fdir fdir.
  Proof. unfold valid_fdir, fdir. repeat constructor; lia. Qed.
  Lemma B : Forall (fun z => z = 0 \/ z = 1) strm. Proof. unfold strm; repeat (apply Forall_cons; [auto|]); apply Forall_nil. Qed.
  Example as_int : mf6_connectivity_as (fun z => z) 100 fdir strm = Ok ([1; 2; 3; 4; 0], [(1, 2); (2, 3); (3, 4); (4, 0)]).
  Proof. vm_compute. reflexivity. Qed.
  Example as_boolean : mf6_connectivity_as as_bool 100 fdir strm = Ok ([1; 1; 1; 1; 0], [(1, 0)]).
  Proof. vm_compute. reflexivity. Qed.
  Example refuted_case := @C90_boolean_mask_refuted fdir strm 100 V eq_refl B ltac:(vm_compute; lia) ltac:(vm_compute; lia).
  Example wide_case := @C90_wide_types (fun z => z mod 256) fdir strm 100 V eq_refl
    ltac:(intros z Hz; apply Z.mod_small; cbn in Hz; lia).
  (* MODFLOW-2005, two headwaters joining: three segments, one label *)
  Definition fdir2 : list Z := [2; 2; 3; 3].
  Definition strm2 : list Z := [1; 1; 1; 0].
  Example mf2005_int : match mf2005_connectivity 100 100 true fdir2 strm2 with Ok m => m_strm m | Err _ => [] end = [2; 1; 3; 0].
  Proof. vm_compute. reflexivity. Qed.
  Example mf2005_bool : match mf2005_connectivity_as as_bool 100 100 true fdir2 strm2 with Ok m => m_strm m | Err _ => [] end = [2; 2; 2; 0].
  Proof. vm_compute. reflexivity. Qed.
End Ex.
