(** C33, C34, C44: how deep a network Topology.sort can handle.
    [lim] is the number of stack frames the interpreter still allows. *)
From Verif Require Import Py Spec MFlow LGraph LTopo LDepth MStream LStream LSeg LSeg2 LSeg3 LSeg4 PropsBasin PropsStream PropsSeg.
Set Implicit Arguments. Unset Strict Implicit.
Local Open Scope nat_scope.
Local Open Scope list_scope.

(** [s1; s2; ...]: every segment is connected to the next one; the last may be 0 *)
Inductive seg_path (t : list (Z * Z)) : list Z -> Prop :=
| sp_one : forall s, seg_path t [s]
| sp_cons : forall s o r, In (s, o) t -> seg_path t (o :: r) -> seg_path t (s :: o :: r).

(** [c] and the next [n] cells along the flow directions are distinct stream cells *)
Definition stream_run (fdir strm : list Z) (c n : nat) : Prop :=
  (forall i, i <= n -> stream_cell strm (downs fdir i c)) /\
  (forall i j, i <= n -> j <= n -> downs fdir i c = downs fdir j c -> i = j).

Lemma closed_of t : NoDup (map fst t) -> network_closed t -> closed t.
Proof.
  intros ND C k o E. apply (dget_in Z.eqb zeqb) in E. destruct (C _ _ E) as [->|[o' H]]; auto.
  right. apply in_map_iff. exists (o, o'). auto.
Qed.

Lemma chain_path t l : NoDup (map fst t) -> ~ In 0%Z (map fst t) -> tchain t l <-> (seg_path t l /\ l <> []).
Proof.
  intros ND N0. split.
  - induction 1 as [s|s o r Hs Ho H [IH _]]; split; try discriminate; constructor; auto. now apply (dget_in Z.eqb zeqb).
  - intros [H _]. induction H as [s|s o r Hs H IH]; constructor; auto.
    + intros ->. apply N0. apply in_map_iff. exists (0%Z, o). auto.
    + now apply (dget_in_nodup Z.eqb zeqb).
Qed.

Lemma leads0_drains t a b : NoDup (map fst t) -> ~ In 0%Z (map fst t) -> leads0 t a b <-> drains_into t a b.
Proof.
  intros ND N0. split.
  - induction 1 as [a|a o b Ha Ho H IH]; [constructor|]. eapply di_step; eauto. now apply (dget_in Z.eqb zeqb).
  - induction 1 as [a|a o b Ha H IH]; [constructor|]. eapply l0_step; eauto.
    + intros ->. apply N0. apply in_map_iff. exists (0%Z, o). auto.
    + now apply (dget_in_nodup Z.eqb zeqb).
Qed.

(** ** C33: exactly when the sort succeeds *)
(** The sort visits the segments in increasing order.  From [s] it descends the connections,
    one frame per segment (and one for the outlet 0), down to the first segment that some
    smaller segment has already reached. *)
Theorem C33_frames_needed :
  forall (t : list (Z * Z)) lim,
    NoDup (map fst t) -> network_closed t -> ~ In 0%Z (map fst t) ->
    (exists l, topo_sort lim t = Ok l) <->
    (forall s p, In s (map fst t) -> seg_path t (s :: p) -> NoDup (s :: p) ->
       (forall x y, In x (s :: p) -> In y (map fst t) -> drains_into t y x -> (s <= y)%Z) ->
       length (s :: p) <= lim).
Proof.
  intros t lim ND C N0. destruct (topo_sort_exact (closed_of ND C) lim ND) as [A _]. rewrite A.
  assert (NZ : forall s, In s (map fst t) -> s <> 0%Z) by (intros s Hs ->; auto).
  split; intros H s p Hs Hp NDp.
  - intros Hx. apply H; auto. { apply chain_path; auto. split; auto. discriminate. }
    intros x y Hxi Hy _ Hl. apply (Hx x y); auto. now apply leads0_drains.
  - intros Hs0 Hx. apply H; auto. { apply chain_path in Hp; tauto. }
    intros x y Hxi Hy Hl. apply (Hx x y); auto. now apply leads0_drains.
Qed.

(** the only way to fail is the recursion limit *)
Theorem C33_only_recursion_error :
  forall (t : list (Z * Z)) lim e,
    NoDup (map fst t) -> network_closed t -> topo_sort lim t = Err e -> e = RecursionError.
Proof. intros t lim e ND C. apply (topo_sort_exact (closed_of ND C) lim ND). Qed.

(** so the length of the longest path counts, not the number of segments *)
Theorem C33_path_length_suffices :
  forall (t : list (Z * Z)) lim,
    NoDup (map fst t) -> network_closed t -> ~ In 0%Z (map fst t) ->
    (forall p, seg_path t p -> NoDup p -> length p <= lim) ->
    exists l, topo_sort lim t = Ok l.
Proof. intros t lim ND C N0 H. apply C33_frames_needed; auto. Qed.

(** and the limit has no other influence *)
Theorem C33_result_independent_of_limit :
  forall (t : list (Z * Z)) lim lim' l l',
    topo_sort lim t = Ok l -> topo_sort lim' t = Ok l' -> l = l'.
Proof.
  intros t lim lim' l l' E E'. destruct (Nat.le_ge_cases lim lim') as [H|H].
  - rewrite (topo_sort_mono H E) in E'. congruence.
  - rewrite (topo_sort_mono H E') in E. congruence.
Qed.

(** ** From chains of segments to runs of cells *)
Lemma sc_in strm c : stream_cell strm c <-> In c (nonzero strm).
Proof. apply stream_cell_in. Qed.

Section Runs.
  Variables (fdir strm : list Z) (K : list nat) (len : nat -> nat) (sno tg : nat -> Z).
  Notation nodes := (nonzero strm).
  Notation it := (downs fdir).
  Notation t := (map (fun c => (sno c, tg c)) K).
  Hypothesis NDt : NoDup (map fst t).
  Hypothesis next : forall c, In c K -> tg c = 0%Z \/ (In (it (S (len c)) c) K /\ tg c = sno (it (S (len c)) c)).
  Hypothesis node : forall c j, In c K -> j <= len c -> In (it j c) nodes.
  Hypothesis disj : forall c c' j j', In c K -> In c' K -> j <= len c -> j' <= len c' -> it j c = it j' c' -> c = c' /\ j = j'.

  Lemma chain_run p : forall c, In c K -> tchain t (sno c :: p) -> NoDup (sno c :: p) ->
    exists n hs, (forall i, i <= n -> exists d j, In d K /\ j <= len d /\ it i c = it j d /\ In (sno d) (sno c :: p)) /\
      (forall i j, i <= n -> j <= n -> it i c = it j c -> i = j) /\
      NoDup hs /\ (forall h, In h hs -> In h K /\ (exists i, i <= n /\ h = it i c) /\ In (sno h) (sno c :: p)) /\
      length (sno c :: p) <= length hs + 1 /\ length hs <= S n.
  Proof.
    induction p as [|o p IH]; intros c Hc Hp ND.
    - exists 0, [c]. split; [|split; [|split; [|split; [|split]]]].
      + intros i Hi. replace i with 0 by lia. exists c, 0. simpl. repeat split; auto; lia.
      + intros; lia.
      + repeat constructor; auto.
      + intros h [<-|[]]. split; auto. split; [exists 0; auto|now left].
      + simpl. lia.
      + simpl. lia.
    - assert (Hp' : tchain t (o :: p) /\ dget Z.eqb t (sno c) = Some o) by (inversion Hp; subst; auto).
      destruct Hp' as [Hp1 Ho].
      assert (Eo : o = tg c).
      { assert (X : dget Z.eqb t (sno c) = Some (tg c)) by (apply (dget_in_nodup Z.eqb zeqb); auto; apply in_map_iff; eauto). congruence. }
      inversion ND as [|? ? N1 N2]; subst.
      destruct (next Hc) as [E0|[Hk En]].
      + (* the outlet *)
        rewrite E0 in *. assert (p = []) by (inversion Hp1; subst; auto; congruence). subst p.
        exists 0, [c]. split; [|split; [|split; [|split; [|split]]]].
        * intros i Hi. replace i with 0 by lia. exists c, 0. simpl. repeat split; auto; lia.
        * intros; lia.
        * repeat constructor; auto.
        * intros h [<-|[]]. split; auto. split; [exists 0; auto|now left].
        * simpl. lia.
        * simpl. lia.
      + rewrite En in *. set (c' := it (S (len c)) c) in *.
        destruct (IH c' Hk Hp1 N2) as [n [hs [R1 [R2 [R3 [R4 [R5 R6]]]]]]].
        assert (Split : forall i, i <= S (len c) + n -> (i <= len c) \/ (exists i', i = S (len c) + i' /\ i' <= n /\ it i c = it i' c')).
        { intros i Hi. destruct (Nat.le_gt_cases i (len c)); [now left|right]. exists (i - S (len c)).
          split; [lia|]. split; [lia|]. unfold c'. rewrite <- downs_add. f_equal. lia. }
        assert (Sep : forall i i', i <= len c -> i' <= n -> it i c <> it i' c').
        { intros i i' Hi Hi' E. destruct (R1 i' Hi') as [d [j [Hd [Hj [Ej Hin]]]]]. rewrite Ej in E.
          destruct (disj Hc Hd Hi Hj E) as [<- _]. contradiction. }
        exists (S (len c) + n), (c :: hs). split; [|split; [|split; [|split; [|split]]]].
        * intros i Hi. destruct (Split i Hi) as [H|[i' [-> [Hi' Ei]]]].
          { exists c, i. repeat split; auto. now left. }
          destruct (R1 i' Hi') as [d [j [Hd [Hj [Ej Hin]]]]]. exists d, j. rewrite Ei. repeat split; auto. now right.
        * intros i j Hi Hj E. destruct (Split i Hi) as [H1|[i' [-> [Hi' Ei]]]]; destruct (Split j Hj) as [H2|[j' [-> [Hj' Ej]]]].
          { apply (disj Hc Hc H1 H2 E). }
          { rewrite Ej in E. now apply Sep in E. }
          { rewrite Ei in E. symmetry in E. now apply Sep in E. }
          { rewrite Ei, Ej in E. rewrite (R2 _ _ Hi' Hj' E). reflexivity. }
        * constructor; auto. intros Hin. destruct (R4 _ Hin) as [_ [_ X]]. contradiction.
        * intros h [<-|Hh].
          { split; auto. split; [exists 0; split; [lia|reflexivity]|now left]. }
          destruct (R4 _ Hh) as [X [[i [Hi ->]] Y]]. split; auto. split; [|now right].
          exists (S (len c) + i). split; [lia|]. unfold c'. now rewrite downs_add.
        * cbn [length] in *. lia.
        * cbn [length]. lia.
  Qed.

  Lemma runs_enough lim :
    (forall c n hs, stream_run fdir strm c n -> NoDup hs -> (forall h, In h hs -> In h K /\ exists i, i <= n /\ h = it i c) ->
       length hs + 1 <= lim) ->
    closed t -> exists l, topo_sort lim t = Ok l.
  Proof.
    intros H C. apply topo_sort_depth; auto. intros s p Hs Hp NDp _.
    apply in_map_iff in Hs. destruct Hs as [[s' o] [<- Hs]]. apply in_map_iff in Hs. destruct Hs as [c [E Hc]]. inversion E; subst.
    cbn [fst] in *. destruct (chain_run Hc Hp NDp) as [n [hs [R1 [R2 [R3 [R4 [R5 R6]]]]]]].
    apply Nat.le_trans with (length hs + 1); auto. apply (H c n hs); auto.
    - split; auto. intros i Hi. destruct (R1 i Hi) as [d [j [Hd [Hj [-> _]]]]]. apply sc_in. now apply node.
    - intros h Hh. destruct (R4 h Hh) as [A [B _]]. auto.
  Qed.
End Runs.

(** a run has at most that many heads *)
Lemma heads_le fdir c n hs : NoDup hs -> (forall h, In h hs -> exists i, i <= n /\ h = downs fdir i c) -> length hs <= S n.
Proof.
  intros ND H. rewrite <- (seq_length (S n) 0), <- (map_length (fun i => downs fdir i c) (seq 0 (S n))).
  apply NoDup_incl_length; auto. intros h Hh. destruct (H h Hh) as [i [Hi ->]]. apply in_map_iff. exists i. split; auto. apply in_seq. lia.
Qed.

(** ** C34: the MODFLOW 6 numbering succeeds if no run of stream cells is too long *)
Theorem C34_short_rivers_succeed :
  forall fdir strm lim,
    valid_fdir fdir -> length strm = length fdir ->
    (forall c n, stream_run fdir strm c n -> n + 2 <= lim) ->
    exists s2 g, mf6_connectivity lim fdir strm = Ok (s2, g).
Proof.
  intros fdir strm lim V L H. destruct (@s1_exists fdir strm L) as [s1 [E1 S1]].
  assert (X : exists sorted, topo_sort lim (topo_of fdir strm s1) = Ok sorted).
  { unfold topo_of. apply (@runs_enough fdir strm (nonzero strm) (fun _ => 0) (fun c => nth c s1 0%Z) (fun c => nth (down fdir c) s1 0%Z)).
    - exact (@topo_nodup fdir strm L s1 S1).
    - intros c Hc. change (downs fdir 1 c) with (down fdir c).
      destruct (in_dec Nat.eq_dec (down fdir c) (nonzero strm)); auto. left. now apply S1.
    - intros c j Hc Hj. replace j with 0 by lia. exact Hc.
    - intros c c' j j' _ _ Hj Hj' E. assert (j = 0) by lia. assert (j' = 0) by lia. subst. auto.
    - intros c n hs R ND Hh. assert (Y := H c n R). assert (W := heads_le ND (fun h Hi => proj2 (Hh h Hi))). lia.
    - exact (@topo_closed fdir strm s1 S1). }
  destruct X as [sorted Es]. destruct (@mf6_from_sort fdir strm lim V L s1 sorted E1 S1 Es) as [s2 [g [order [E _]]]]. eauto.
Qed.

(** a river that starts at the lowest-numbered stream cell and is too long: RecursionError *)
Theorem C34_long_river_fails :
  forall fdir strm lim c n,
    valid_fdir fdir -> length strm = length fdir ->
    stream_run fdir strm c n -> (forall x, stream_cell strm x -> c <= x) ->
    lim <= n \/ (lim = n + 1 /\ ~ stream_cell strm (downs fdir (S n) c)) ->
    mf6_connectivity lim fdir strm = Err RecursionError.
Proof.
  intros fdir strm lim c n V L [R1 R2] Hlow Hlim. destruct (@s1_exists fdir strm L) as [s1 [E1 S1]].
  assert (ND := @topo_nodup fdir strm L s1 S1). assert (C := @topo_closed fdir strm s1 S1).
  set (t := topo_of fdir strm s1) in *. set (no := fun i => nth (downs fdir i c) s1 0%Z).
  assert (Hnode : forall i, i <= n -> In (downs fdir i c) (nonzero strm)) by (intros; now apply sc_in, R1).
  assert (Hpos : forall i, i <= n -> (0 < no i)%Z) by (intros i Hi; apply (@s1_pos fdir strm L s1 _ S1); auto).
  assert (Hget : forall i, i <= n -> dget Z.eqb t (no i) = Some (no (S i))).
  { intros i Hi. unfold no. rewrite downs_S. apply (@topo_get fdir strm L s1); auto. }
  assert (Hinj : forall i j, i <= n -> j <= n -> no i = no j -> i = j).
  { intros i j Hi Hj E. apply R2; auto. apply (@s1_inj fdir strm L s1 _ _ S1); auto. }
  (* the chain of numbers *)
  assert (Ch : forall k i tl, i + k <= n -> (tl = [] \/ (tl = [no (S (i + k))])) -> tchain t (map no (seq i (S k)) ++ tl)).
  { induction k as [|k IH]; intros i tl Hik Ht.
    - rewrite Nat.add_0_r in *. simpl. destruct Ht as [->| ->]; [constructor|]. constructor; auto; [assert (X := Hpos i Hik); lia|constructor].
    - cbn [seq map app]. cbn [seq map app] in IH. constructor; auto; [assert (X := Hpos i ltac:(lia)); lia|apply Hget; lia|].
      apply IH; [lia|]. replace (S i + k) with (i + S k) by lia. auto. }
  assert (NDn : NoDup (map no (seq 0 (S n)))).
  { apply nodup_map_in; [apply seq_NoDup|]. intros x y Hx Hy. apply in_seq in Hx. apply in_seq in Hy. apply Hinj; lia. }
  assert (Hs : exists p, tchain t (no 0 :: p) /\ NoDup (no 0 :: p) /\ lim < length (no 0 :: p)).
  { destruct Hlim as [Hl|[-> Hns]].
    - exists (map no (seq 1 n)). change (no 0 :: map no (seq 1 n)) with (map no (seq 0 (S n))). split; [|split; auto].
      + rewrite <- app_nil_r. apply Ch; auto.
      + rewrite map_length, seq_length. lia.
    - exists (map no (seq 1 n) ++ [no (S n)]). change (no 0 :: map no (seq 1 n) ++ [no (S n)]) with (map no (seq 0 (S n)) ++ [no (S n)]).
      assert (E0 : no (S n) = 0%Z) by (apply S1; intros X; apply Hns, sc_in; exact X).
      split; [|split].
      + apply Ch; auto.
      + rewrite E0. apply (Permutation_NoDup (Permutation_cons_append _ _)). constructor; auto.
        intros X. apply in_map_iff in X. destruct X as [i [Ei Hi]]. apply in_seq in Hi. assert (Y := Hpos i ltac:(lia)). lia.
      + rewrite app_length, map_length, seq_length. simpl. lia. }
  assert (Low : forall y, In y (map fst t) -> (no 0%nat <= y)%Z).
  { intros y Hy. unfold t in Hy. rewrite topo_keys in Hy. apply in_map_iff in Hy. destruct Hy as [x [<- Hx]].
    assert (Hcx : c <= x) by (apply Hlow; now apply sc_in). destruct S1 as [_ [S1 _]].
    destruct (In_nth_error _ _ (Hnode 0 ltac:(lia))) as [i Hi]. destruct (In_nth_error _ _ Hx) as [j Hj].
    unfold no. rewrite (S1 _ _ Hi), (S1 _ _ Hj). cbn [downs] in Hi.
    assert (i <= j); [|lia]. destruct (Nat.le_gt_cases i j) as [|Hlt]; auto. exfalso.
    assert (X := where_sorted (fun z => negb (z =? 0)%Z) strm).
    assert (Y : forall (l : list nat) a b x y, StronglySorted lt l -> a < b -> nth_error l a = Some x -> nth_error l b = Some y -> x < y).
    { clear. induction l as [|z l IH]; intros a b x y SS Hab Ha Hb; [destruct a; discriminate|]. inversion SS as [|? ? S2 S3]; subst.
      destruct b as [|b]; [lia|]. destruct a as [|a]; simpl in *.
      - inversion Ha; subst. rewrite Forall_forall in S3. apply S3. eapply nth_error_In; eauto.
      - apply (IH a b x y); auto; lia. }
    assert (W := Y _ _ _ _ _ X Hlt Hj Hi). lia. }
  assert (F : topo_sort lim t = Err RecursionError).
  { destruct (topo_sort_exact C lim ND) as [A B]. destruct (topo_sort lim t) as [l|e] eqn:E; [|now rewrite (B e)].
    exfalso. destruct Hs as [p [Hp [NDp Hlen]]]. assert (X := proj1 A (ex_intro _ l eq_refl) (no 0) p).
    apply (Nat.lt_irrefl lim). eapply Nat.lt_le_trans; [exact Hlen|]. apply X; auto.
    - apply (in_map fst t (no 0, no 1)). apply (dget_in Z.eqb zeqb). apply Hget. lia.
    - assert (Y := Hpos 0 ltac:(lia)). lia. }
  rewrite (@mf6_unfold fdir strm lim V L s1 E1 S1). fold t. rewrite F. reflexivity.
Qed.

(** ** C44: the same for the MODFLOW-2005 segments *)
(** [hs]: segment-starting cells (headwaters and confluences) on one run *)
Theorem C44_short_rivers_succeed :
  forall fdir strm lim fuel,
    valid_fdir fdir -> length strm = length fdir -> length fdir <= fuel ->
    (forall c n hs, stream_run fdir strm c n -> NoDup hs ->
       (forall h, In h hs -> starts_segment fdir strm h /\ exists i, i <= n /\ h = downs fdir i c) ->
       length hs + 1 <= lim) ->
    exists m, mf2005_connectivity lim fuel true fdir strm = Ok m.
Proof.
  intros fdir strm lim fuel V L Hf H. destruct (starts_spec fdir strm L) as [K [Es [NDK HK]]].
  destruct (@group_spec fdir strm L K NDK HK fuel Hf Es) as [a [Eg _]].
  rewrite mf2005_finish, (node_graph_eq strm V L). cbn [bind]. rewrite Eg. cbn [bind].
  match goal with |- exists m, finish _ _ ?e = _ => set (s := e) end.
  assert (O : segs_ok (g_seg s)) by exact (@gseg_ok fdir strm L K NDK HK).
  assert (Hn : forall n q r, In (n, q, r) (g_nsr s) -> In q (map fst (g_seg s))).
  { intros n q r Hin. cbn [s g_nsr g_seg] in *. apply in_flat_map in Hin. destruct Hin as [c [Hc Hin]].
    unfold srows in Hin. apply in_map_iff in Hin. destruct Hin as [j [Ej _]]. inversion Ej; subst.
    rewrite map_map. cbn [fst]. now apply (in_map (segno K)). }
  assert (X : exists sorted, topo_sort lim (g_seg s) = Ok sorted).
  { cbn [s g_seg]. apply (@runs_enough fdir strm K (slen fdir strm K) (segno K) (starget fdir strm K)).
    - apply (so_nd O).
    - intros c Hc. destruct (@stg_cases fdir strm L K HK c Hc) as [[_ Y]|Y]; auto.
    - intros c j Hc Hj. destruct (@slen_segm fdir strm L K HK c Hc) as [S _]. now apply (sg_node S).
    - intros c c' j j' Hc Hc' Hj Hj' E. destruct (@slen_segm fdir strm L K HK c Hc) as [S _]. destruct (@slen_segm fdir strm L K HK c' Hc') as [S' _].
      exact (@segm_disjoint fdir strm L K HK _ _ _ _ Hc Hc' S S' _ _ Hj Hj' E).
    - intros c n hs R ND Hh. apply (H c n hs); auto. intros h Hi. destruct (Hh h Hi) as [A B]. split; auto. apply starts_iff. now apply HK.
    - intros k o E. apply (dget_in Z.eqb zeqb) in E. now apply (so_val O) in E. }
  destruct X as [sorted E]. destruct (@finish_spec lim (ng fdir strm) s O Hn sorted E) as [mu [m [Em _]]]. eauto.
Qed.

Theorem C44_ungrouped_short_rivers_succeed :
  forall fdir strm lim fuel,
    valid_fdir fdir -> length strm = length fdir ->
    (forall c n, stream_run fdir strm c n -> n + 2 <= lim) ->
    exists m, mf2005_connectivity lim fuel false fdir strm = Ok m.
Proof.
  intros fdir strm lim fuel V L H. destruct (@numbers fdir strm L) as [K [Es [NDK HK]]].
  destruct (@single_spec fdir strm L K NDK HK Es) as [a [Eg _]].
  rewrite mf2005_finish, (node_graph_eq strm V L). cbn [bind]. rewrite Eg. cbn [bind].
  match goal with |- exists m, finish _ _ ?e = _ => set (s := e) end.
  assert (O : segs_ok (g_seg s)) by exact (@single_seg_ok fdir strm L K NDK HK).
  assert (Hn : forall n q r, In (n, q, r) (g_nsr s) -> In q (map fst (g_seg s))).
  { intros n q r Hin. cbn [s g_nsr g_seg] in *. apply in_map_iff in Hin. destruct Hin as [c [Ec Hc]]. inversion Ec; subst.
    rewrite map_map. cbn [fst]. now apply (in_map (segno K)). }
  assert (X : exists sorted, topo_sort lim (g_seg s) = Ok sorted).
  { cbn [s g_seg]. apply (@runs_enough fdir strm (nonzero strm) (fun _ => 0) (segno K) (stg1 fdir strm K)).
    - apply (so_nd O).
    - intros c Hc. change (downs fdir 1 c) with (down fdir c). destruct (@stg1_cases fdir strm K c Hc) as [[Y _]|[Y1 [_ Y2]]]; auto.
    - intros c j Hc Hj. replace j with 0 by lia. exact Hc.
    - intros c c' j j' _ _ Hj Hj' E. assert (j = 0) by lia. assert (j' = 0) by lia. subst. auto.
    - intros c n hs R ND Hh. assert (Y := H c n R). assert (W := heads_le ND (fun h Hi => proj2 (Hh h Hi))). lia.
    - intros k o E. apply (dget_in Z.eqb zeqb) in E. now apply (so_val O) in E. }
  destruct X as [sorted E]. destruct (@finish_spec lim (ng fdir strm) s O Hn sorted E) as [mu [m [Em _]]]. eauto.
Qed.

(** ** Worked cases *)
Module Ex.
  (* ten tributaries 1..10 of segment 11: 11 segments, but three frames are enough *)
  Definition star : list (Z * Z) := map (fun i => (Z.of_nat i, 11%Z)) (seq 1 10) ++ [(11, 0)]%Z.
  Example star_fits : topo_sort 3 star = Ok [10; 9; 8; 7; 6; 5; 4; 3; 2; 1; 11]%Z /\ topo_sort 2 star = Err RecursionError.
  Proof. vm_compute. auto. Qed.
  Lemma star_cases s o : In (s, o) star -> (s = 11 /\ o = 0)%Z \/ ((1 <= s <= 10) /\ o = 11)%Z.
  Proof.
    unfold star. rewrite in_app_iff, in_map_iff. intros [[i [E Hi]]|[E|[]]]; inversion E; subst; [right|left]; auto.
    apply in_seq in Hi. split; [lia|reflexivity].
  Qed.
  Example star_hyp : NoDup (map fst star) /\ network_closed star /\ ~ In 0%Z (map fst star) /\
    (forall p, seg_path star p -> NoDup p -> length p <= 3).
  Proof.
    split; [|split; [|split]].
    - unfold star. simpl. repeat constructor; simpl; intuition congruence.
    - intros s o H. destruct (star_cases H) as [[-> ->]|[_ ->]]; auto. right. exists 0%Z. unfold star. rewrite in_app_iff. simpl. auto.
    - unfold star. simpl. intuition congruence.
    - intros p Hp _. inversion Hp as [s|s o r Hs H2]; subst; [simpl; lia|].
      inversion H2 as [s2|s2 o2 r2 Hs2 H3]; subst; [simpl; lia|].
      destruct (star_cases Hs2) as [[-> ->]|[A ->]].
      + inversion H3 as [s3|s3 o3 r3 Hs3 H4]; subst; [simpl; lia|]. destruct (star_cases Hs3) as [[X _]|[X _]]; lia.
      + destruct (star_cases Hs) as [[_ Y]|[_ Y]]; lia.
  Qed.

  (* a comb: cells 0,1,2,3 each drain to 4 -> 5 (not a stream); the longest run has 2 cells *)
  Definition fd : list Z := [4; 4; 4; 4; 5; 5]%Z.
  Definition st : list Z := [1; 1; 1; 1; 1; 0]%Z.
  Example comb_hyp : valid_fdir fd /\ length st = length fd /\ forall c n, stream_run fd st c n -> n + 2 <= 3.
  Proof.
    split; [unfold valid_fdir, fd; simpl; repeat constructor; lia|]. split; [reflexivity|].
    intros c n [R _]. destruct (Nat.le_gt_cases n 1) as [|Hn]; [lia|]. exfalso.
    assert (H0 := R 0 ltac:(lia)). assert (H2 := R 2 ltac:(lia)).
    apply sc_in in H0. apply sc_in in H2. cbv in H0.
    repeat destruct H0 as [<-|H0]; try contradiction; cbv in H2; intuition discriminate.
  Qed.
  Example comb_ok : (exists r, mf6_connectivity 3 fd st = Ok r) /\ (exists m, mf2005_connectivity 3 6 true fd st = Ok m) /\
    mf6_connectivity 2 fd st = Err RecursionError.
  Proof. vm_compute. eauto. Qed.
  (* and a river 0 -> 1 -> 2 -> 3 (not a stream) *)
  Example river_run : stream_run [1; 2; 3; 3]%Z [1; 1; 1; 0]%Z 0 2 /\ ~ stream_cell [1; 1; 1; 0]%Z (downs [1; 2; 3; 3]%Z 3 0).
  Proof.
    split.
    - split.
      + intros i Hi. apply sc_in. destruct i as [|[|[|i]]]; [cbv; auto|cbv; auto|cbv; auto|lia].
      + intros i j Hi Hj. destruct i as [|[|[|i]]]; destruct j as [|[|[|j]]]; try lia; cbv; intros E; congruence.
    - rewrite sc_in. cbv. intuition discriminate.
  Qed.
  Example river_fails : mf6_connectivity 3 [1; 2; 3; 3]%Z [1; 1; 1; 0]%Z = Err RecursionError /\
    exists r, mf6_connectivity 4 [1; 2; 3; 3]%Z [1; 1; 1; 0]%Z = Ok r.
  Proof. vm_compute. eauto. Qed.
End Ex.
