(** C24, C25, C27, C28: watersheds and subbasins; C31-C33: topological sort.

    [fuel] bounds the iterations of the [while] loops, [lim] the number of stack frames
    available to the recursion of Topology._sort_util. *)
From Verif Require Import Py Spec MFlow LGraph LAcc LWs LTopo LSub.
Set Implicit Arguments.
Local Open Scope nat_scope.
Local Open Scope list_scope.

(** ** C24 *)
Theorem C24_watershed_is_upstream :
  forall fdir pour fuel,
    valid_fdir fdir -> pour < length fdir -> length fdir <= fuel ->
    exists out, get_watershed_boundary fuel fdir (Z.of_nat pour) None = Ok out /\
      length out = length fdir /\
      forall c, c < length fdir ->
        (flows_through fdir c pour -> nth_error out c = Some 1%Z) /\
        (~ flows_through fdir c pour -> nth_error out c = Some 0%Z).
Proof.
  intros fdir pour fuel V Hp Hf.
  destruct (watershed_spec V None Hp Hf) as [m [out [E [L [Hm [_ H]]]]]].
  - apply repeat_length.
  - apply Forall_forall. intros x Hx. apply repeat_spec in Hx. lia.
  - exists out. split; auto. split; auto. intros c Hc. cbv iota in *.
    apply repeat_spec in Hm. subst m. rewrite (nth_error_nth' out 0%Z) by lia.
    assert (R : reaches fdir (repeat 0%Z (length fdir)) pour c <-> flows_through fdir c pour).
    { split; intros [k Hk]; exists k; [tauto|]. split; auto. intros. apply nth_repeat. }
    destruct (H c Hc) as [H1 H2]. rewrite R in H1, H2. split; intros X.
    + now rewrite H1.
    + rewrite H2 by auto. now rewrite nth_repeat.
Qed.

(** ** C25: termination, with any subbasins marked before; the new basin gets the next
    label and consists of the cells that reach the pour point through unmarked cells. *)
Theorem C25_watershed_finishes :
  forall fdir pour fuel marked,
    valid_fdir fdir -> pour < length fdir -> length fdir <= fuel ->
    length marked = length fdir -> Forall (fun z => (0 <= z)%Z) marked ->
    exists m out,
      get_watershed_boundary fuel fdir (Z.of_nat pour) (Some marked) = Ok out /\
      In m marked /\ (forall x, In x marked -> (x <= m)%Z) /\
      length out = length fdir /\
      forall c, c < length fdir ->
        let new := exists k, downs fdir k c = pour /\
                     forall j, j < k -> nth_error marked (downs fdir j c) = Some 0%Z in
        (new -> nth_error out c = Some (m + 1)%Z) /\ (~ new -> nth_error out c = nth_error marked c).
Proof.
  intros fdir pour fuel marked V Hp Hf L F.
  destruct (watershed_spec V (Some marked) Hp Hf L F) as [m [out [E [Lo [Hm [Hx H]]]]]].
  exists m, out. split; auto. split; auto. split; auto. split; auto.
  intros c Hc new. rewrite (nth_error_nth' out 0%Z) by lia. rewrite (nth_error_nth' marked 0%Z) by lia.
  assert (R : reaches fdir marked pour c <-> new).
  { split; intros [k [Hk Hj]]; exists k; (split; [exact Hk|]); intros j Hjk; specialize (Hj j Hjk).
    - rewrite (nth_error_nth' marked 0%Z); [now rewrite Hj|]. rewrite L. now apply downs_lt.
    - now apply nth_error_nth with (d := 0%Z) in Hj. }
  destruct (H c Hc) as [H1 H2]. rewrite R in H1, H2. split; intros X; f_equal; auto.
Qed.

(** ** C27.  [order] lists the pour cells, each once; cell [c] gets the position of its
    first pour cell in that list. *)
Theorem C27_subbasins_first_pour :
  forall fdir pours lim fuel,
    valid_fdir fdir -> (forall p, In p pours -> p < length fdir) ->
    ~ In 0 pours ->
    (forall p q, In p pours -> In q pours -> p <> q ->
       flows_through fdir p q -> ~ flows_through fdir q p) ->
    length pours + 2 <= lim -> 2 * length fdir + 2 <= fuel ->
    exists out order,
      get_subbasins lim fuel fdir (map Z.of_nat pours) = Ok out /\
      length out = length fdir /\
      NoDup order /\ (forall p, In p order <-> In p pours) /\
      (forall i p c, nth_error order i = Some p -> c < length fdir -> first_pour fdir pours c p ->
         nth_error out c = Some (Z.of_nat (i + 1))) /\
      (forall c, c < length fdir -> (forall p, In p pours -> ~ flows_through fdir c p) ->
         nth_error out c = Some 0%Z).
Proof.
  intros fdir pours lim fuel V Hlt H0 Hc Hl Hf.
  destruct (subbasins_spec V pours Hlt (lim := lim) (fuel := fuel)) as [out [ord [E [[ND [HO _]] [L [H1 H2]]]]]]; auto.
  exists out, ord. split; auto. split; auto. split; auto. split; auto. split.
  - intros i p c Hi Hcc Hp. rewrite (nth_error_nth' out 0%Z) by lia. rewrite (H1 i p c) by auto. f_equal. lia.
  - intros c Hcc Hn. rewrite (nth_error_nth' out 0%Z) by lia. rewrite H2; auto.
    intros p [Hp [k [Hk _]]]. exfalso. apply (Hn p Hp). now exists k.
Qed.

(** every cell has a first pour cell or meets none (so C27 gives every cell's label) *)
Theorem C27_every_cell_covered :
  forall fdir pours c, valid_fdir fdir -> c < length fdir ->
    (exists p, first_pour fdir pours c p) \/ (forall p, In p pours -> ~ flows_through fdir c p).
Proof.
  intros fdir pours c V Hc. destruct (first_pour_dec V pours Hc) as [H|H]; auto.
  right. intros p Hp [k Hk]. apply (H k). now rewrite Hk.
Qed.

(** two pour cells on a common cycle: the second one keeps a single cell *)
Theorem C27_common_cycle_refuted :
  exists out, get_subbasins 100 100 [1; 2; 3; 4; 1]%Z [2; 4]%Z = Ok out /\
    (* the first pour point on the paths of cells 1 and 2 is cell 2, that of cells 3 and 4 is cell 4 *)
    first_pour [1; 2; 3; 4; 1]%Z [2; 4] 3 4 /\ first_pour [1; 2; 3; 4; 1]%Z [2; 4] 2 2 /\
    nth_error out 3 = nth_error out 2.
Proof.
  eexists. split; [vm_compute; reflexivity|]. split; [|split; [|reflexivity]].
  - split; [simpl; auto|]. exists 1. split; auto. intros [|j] Hj; [|lia]. simpl. lia.
  - split; [simpl; auto|]. exists 0. split; auto. intros; lia.
Qed.

(** ** C28 *)
(** a single pour point at cell 0: no basin at all *)
Theorem C28_pour_at_cell_0_dropped_refuted :
  get_subbasins 100 100 [0; 0; 1]%Z [0]%Z = Ok [0; 0; 0]%Z.
Proof. vm_compute. reflexivity. Qed.
(** a pour point that drains to the pour point at cell 0: an exception *)
Theorem C28_pour_above_cell_0_fails_refuted :
  get_subbasins 100 100 [0; 0; 1]%Z [0; 2]%Z = Err ValueError.
Proof. vm_compute. reflexivity. Qed.

(** ** C31 *)
Theorem C31_sort_is_permutation :
  forall (t : list (Z * Z)) lim l,
    NoDup (map fst t) -> topo_sort lim t = Ok l ->
    NoDup l /\ forall s, In s l <-> s <> 0%Z /\ exists o, In (s, o) t.
Proof.
  intros t lim l ND E. destruct (topo_sort_ok t lim ND E) as [v [I H]]. split; [apply (s_nd I)|].
  intros s. rewrite H. rewrite in_map_iff. split; intros [A B]; split; auto.
  - destruct B as [[k o] [<- B]]. eauto.
  - destruct B as [o B]. exists (s, o). auto.
Qed.

(** ** C32 *)
Lemma leads_drains t a b : leads t a b -> drains_into t a b.
Proof. induction 1; [constructor|]. eapply di_step; eauto. apply (dget_in Z.eqb zeqb). auto. Qed.

Theorem C32_sort_is_topological :
  forall (t : list (Z * Z)) lim l s o,
    NoDup (map fst t) -> topo_sort lim t = Ok l ->
    In (s, o) t -> s <> 0%Z -> o <> 0%Z -> ~ drains_into t o s ->
    precedes s o l.
Proof.
  intros t lim l s o ND E Hin Hs Ho Hd. destruct (topo_sort_ok t lim ND E) as [v [I H]].
  assert (Hg : dget Z.eqb t s = Some o) by (apply (dget_in_nodup Z.eqb zeqb); auto).
  assert (Hl : In s l) by (apply H; split; auto; apply in_map_iff; exists (s, o); auto).
  destruct (s_ord I s Hl Hg) as [X|[X|[X|X]]]; auto.
  - contradiction.
  - exfalso. subst. apply Hd. constructor.
  - exfalso. apply Hd. now apply leads_drains.
Qed.

(** ** C33: with [lim] stack frames available, the river 1 -> 2 -> ... -> lim+1 fails *)
Theorem C33_long_rivers_fail_refuted :
  forall lim, exists t,
    NoDup (map fst t) /\ network_closed t /\ length t = lim + 1 /\
    (forall s o, In (s, o) t -> (0 < s)%Z /\ (o = 0%Z \/ o = (s + 1)%Z)) /\
    topo_sort lim t = Err RecursionError.
Proof.
  intros lim. exists (river (lim + 1)). split; [apply river_nodup|].
  assert (X : forall s o, In (s, o) (river (lim + 1)) -> exists i, s = Z.of_nat i /\ (1 <= i <= lim + 1) /\
    o = (if Nat.eqb i (lim + 1) then 0 else Z.of_nat (S i))%Z).
  { intros s o H. unfold river in H. apply in_map_iff in H. destruct H as [i [E Hi]]. apply in_seq in Hi.
    inversion E. exists i. repeat split; auto; lia. }
  split; [|split; [|split]].
  - intros s o H. destruct (X _ _ H) as [i [-> [Hi ->]]]. destruct (Nat.eqb_spec i (lim + 1)); auto. right.
    assert (K : In (Z.of_nat (S i)) (map fst (river (lim + 1)))) by (apply river_keys; exists (S i); split; auto; lia).
    apply in_map_iff in K. destruct K as [[k o'] [E K]]. exists o'. simpl in E. now subst.
  - unfold river. now rewrite map_length, seq_length.
  - intros s o H. destruct (X _ _ H) as [i [-> [Hi ->]]]. split; [lia|].
    destruct (Nat.eqb_spec i (lim + 1)); auto. right. lia.
  - replace lim with (lim + 1 - 1) at 1 by lia. apply river_sort_fails. lia.
Qed.

(** with more frames than segments the sort succeeds *)
Theorem C33_sort_succeeds_partial :
  forall (t : list (Z * Z)) lim,
    NoDup (map fst t) -> network_closed t -> length t + 1 <= lim ->
    exists l, topo_sort lim t = Ok l.
Proof.
  intros t lim ND C Hl. apply topo_sort_total; auto; [|lia].
  intros k o E. apply (dget_in Z.eqb zeqb) in E. destruct (C _ _ E) as [->|[o' H]]; auto.
  right. apply in_map_iff. exists (o, o'). auto.
Qed.

(** ** Worked cases *)
Module Ex.
  (* cells 0,1 -> 3 -> 4 -> 5 (terminal), 2 -> 4; cycle 6 <-> 7 fed by 8 *)
  Definition fd : list Z := [3; 3; 4; 4; 5; 5; 7; 6; 6]%Z.
  Example fd_valid : valid_fdir fd.
  Proof. unfold valid_fdir, fd. simpl. repeat constructor; lia. Qed.
  Example ws4 : get_watershed_boundary 9 fd 4 None = Ok [1; 1; 1; 1; 1; 0; 0; 0; 0]%Z.
  Proof. vm_compute. reflexivity. Qed.
  Example ws_cycle : get_watershed_boundary 9 fd 7 None = Ok [0; 0; 0; 0; 0; 0; 1; 1; 1]%Z.
  Proof. vm_compute. reflexivity. Qed.
  Example ws_marked : get_watershed_boundary 9 fd 5 (Some [0; 0; 0; 2; 0; 0; 0; 0; 0]%Z) = Ok [0; 0; 3; 2; 3; 3; 0; 0; 0]%Z.
  Proof. vm_compute. reflexivity. Qed.
  Example subs : get_subbasins 10 30 fd [5; 3; 7]%Z = Ok [2; 2; 3; 2; 3; 3; 1; 1; 1]%Z.
  Proof. vm_compute. reflexivity. Qed.
  (* the hypotheses of C27 hold for these pour points *)
  Example subs_hyp : forall p q, In p [5; 3; 7] -> In q [5; 3; 7] -> p <> q ->
    flows_through fd p q -> ~ flows_through fd q p.
  Proof.
    assert (D5 : forall k, downs fd k 5 = 5) by (induction k; auto).
    assert (D67 : forall k, (downs fd k 6 = 6 \/ downs fd k 6 = 7) /\ (downs fd k 7 = 6 \/ downs fd k 7 = 7)).
    { induction k as [|k [A B]]; [simpl; auto|]. split; [exact B|exact A]. }
    assert (D3 : forall k, downs fd k 3 = 3 \/ downs fd k 3 = 4 \/ downs fd k 3 = 5).
    { intros [|[|k]]; simpl; auto. }
    intros p q Hp Hq Hne [i Hi] [j Hj].
    simpl in Hp, Hq. repeat destruct Hp as [<-|Hp]; try contradiction;
      repeat destruct Hq as [<-|Hq]; try contradiction; try congruence;
      try (rewrite D5 in Hi; discriminate); try (rewrite D5 in Hj; discriminate);
      try (destruct (D3 i) as [X|[X|X]]; rewrite X in Hi; discriminate);
      try (destruct (D3 j) as [X|[X|X]]; rewrite X in Hj; discriminate).
  Qed.
  Definition net : list (Z * Z) := [(1, 3); (2, 3); (3, 5); (4, 5); (5, 0); (6, 7); (7, 6)]%Z.
  Example net_nodup : NoDup (map fst net).
  Proof. simpl. repeat constructor; simpl; intuition lia. Qed.
  Example net_sorted : topo_sort 8 net = Ok [6; 7; 4; 2; 1; 3; 5]%Z.
  Proof. vm_compute. reflexivity. Qed.
  Example net_order : ~ drains_into net 5 3.
  Proof.
    assert (G : forall a b, drains_into net a b -> a = 5%Z \/ a = 0%Z -> b = 5%Z \/ b = 0%Z).
    { induction 1 as [a|a o b Hin H IH]; auto. intros Ha. apply IH. simpl in Hin.
      repeat destruct Hin as [Hin|Hin]; try contradiction; inversion Hin; subst; auto; destruct Ha; discriminate. }
    intros H. apply G in H; auto. destruct H; discriminate.
  Qed.
  (* dictionaries built by add_connection have distinct keys *)
  Example built_nodup : forall conns,
    NoDup (map fst (fold_left (fun t c => add_connection t (fst c) (snd c)) conns [])).
  Proof.
    intros conns. assert (G : forall t, NoDup (map fst t) ->
      NoDup (map fst (fold_left (fun t (c : Z * Z) => add_connection t (fst c) (snd c)) conns t))).
    { induction conns as [|c conns IH]; intros t H; auto. simpl. apply IH. apply dset_nodup; auto. apply zeqb. }
    apply G. constructor.
  Qed.
End Ex.
