(** C106: Topology.sort does not depend on the order in which connections were added.
    C107: get_subbasins, threshold_from_control_points and flow_directions do not depend on the
    order in which the points are listed, nor on repetitions. *)
From Verif Require Import Py Spec MFlow MStream MDir LTopo.
Set Implicit Arguments.
Unset Strict Implicit.
Local Open Scope nat_scope.
Local Open Scope list_scope.

(** ** dictionaries with the same entries *)
Definition same {V} (d1 d2 : list (Z * V)) : Prop := forall k, dget Z.eqb d1 k = dget Z.eqb d2 k.

Lemma same_dset {V} (d1 d2 : list (Z * V)) k v : same d1 d2 -> same (dset Z.eqb d1 k v) (dset Z.eqb d2 k v).
Proof.
  intros H x. destruct (Z.eq_dec k x) as [<-|N].
  - now rewrite !(dget_dset_eq Z.eqb zeqb).
  - rewrite !(dget_dset_neq Z.eqb zeqb) by auto. apply H.
Qed.

Lemma same_dgetE {V} (d1 d2 : list (Z * V)) k : same d1 d2 -> dgetE Z.eqb d1 k = dgetE Z.eqb d2 k.
Proof. intros H. unfold dgetE. now rewrite H. Qed.

Lemma same_keys {V} (d1 d2 : list (Z * V)) k : same d1 d2 -> In k (map fst d1) <-> In k (map fst d2).
Proof.
  intros H. pose proof (@dget_none _ V Z.eqb zeqb d1 k) as A. pose proof (@dget_none _ V Z.eqb zeqb d2 k) as B.
  rewrite (H k) in A. destruct (in_dec Z.eq_dec k (map fst d1)); destruct (in_dec Z.eq_dec k (map fst d2)); tauto.
Qed.

(** the recursion only looks entries up *)
Definition pairs_same (r1 r2 : res (list (Z * bool) * list Z)) : Prop :=
  match r1, r2 with
  | Ok (v1, s1), Ok (v2, s2) => same v1 v2 /\ s1 = s2
  | Err e1, Err e2 => e1 = e2
  | _, _ => False
  end.

Lemma sort_util_same t1 t2 : same t1 t2 -> forall lim seg v1 v2 st, same v1 v2 ->
  pairs_same (sort_util lim t1 seg v1 st) (sort_util lim t2 seg v2 st).
Proof.
  intros Ht lim. induction lim as [|lim IH]; intros seg v1 v2 st Hv; cbn; auto.
  assert (Hv' := @same_dset _ v1 v2 seg true Hv).
  destruct (seg =? 0)%Z eqn:Es.
  - cbn. rewrite (same_dgetE 0%Z Hv'). destruct (dgetE Z.eqb (dset Z.eqb v2 seg true) 0%Z) as [b|e]; cbn; auto.
    destruct b; cbn; auto.
    specialize (IH 0%Z _ _ st Hv').
    destruct (sort_util lim t1 _ _ _) as [[? ?]|?], (sort_util lim t2 _ _ _) as [[? ?]|?]; cbn in *; intuition.
  - rewrite (same_dgetE seg Ht). destruct (dgetE Z.eqb t2 seg) as [o|e]; cbn; auto.
    rewrite (same_dgetE o Hv'). destruct (dgetE Z.eqb (dset Z.eqb v2 seg true) o) as [b|e]; cbn; auto.
    destruct b; cbn; auto.
    specialize (IH o _ _ st Hv').
    destruct (sort_util lim t1 _ _ _) as [[? ?]|?], (sort_util lim t2 _ _ _) as [[? ?]|?]; cbn in *; intuition.
    subst. reflexivity.
Qed.

Lemma sorted_unique (l1 l2 : list Z) : StronglySorted Z.le l1 -> StronglySorted Z.le l2 ->
  NoDup l1 -> NoDup l2 -> (forall x, In x l1 <-> In x l2) -> l1 = l2.
Proof.
  revert l2. induction l1 as [|x l1 IH]; intros l2 S1 S2 N1 N2 H.
  - destruct l2 as [|y l2]; auto. exfalso. apply (H y). now left.
  - destruct l2 as [|y l2]; [exfalso; apply (H x); now left|].
    inversion S1 as [|? ? S1' F1]; subst. inversion S2 as [|? ? S2' F2]; subst.
    inversion N1 as [|? ? M1 N1']; subst. inversion N2 as [|? ? M2 N2']; subst.
    rewrite Forall_forall in F1, F2.
    assert (x = y).
    { destruct (proj1 (H x) (or_introl eq_refl)) as [E|E]; auto.
      destruct (proj2 (H y) (or_introl eq_refl)) as [E'|E']; auto.
      specialize (F1 _ E'). specialize (F2 _ E). lia. }
    subst y. f_equal. apply IH; auto. intros z. specialize (H z). cbn in H.
    split; intros Hz.
    + destruct (proj1 H (or_intror Hz)) as [E|E]; auto. subst. contradiction.
    + destruct (proj2 H (or_intror Hz)) as [E|E]; auto. subst. contradiction.
Qed.

Lemma isort_same (l1 l2 : list Z) : NoDup l1 -> NoDup l2 -> (forall x, In x l1 <-> In x l2) ->
  isort Z.leb l1 = isort Z.leb l2.
Proof.
  intros N1 N2 H.
  assert (T : forall l, StronglySorted Z.le (isort Z.leb l)).
  { intros l. apply isort_sorted.
    - intros x y E. apply Z.leb_le in E. exact E.
    - intros x y E. apply Z.leb_gt in E. lia.
    - intros x y z. lia. }
  apply sorted_unique; auto; try (now apply isort_nodup).
  intros x. now rewrite !isort_in.
Qed.

Lemma visited0_same (t1 t2 : topology) : forall v1 v2,
  NoDup (map fst v1) -> NoDup (map fst v2) ->
  (forall k, dget Z.eqb v1 k = Some false \/ dget Z.eqb v1 k = None) ->
  (forall k, dget Z.eqb v2 k = Some false \/ dget Z.eqb v2 k = None) ->
  (forall k, In k (map fst v1) \/ In k (map fst t1) <-> In k (map fst v2) \/ In k (map fst t2)) ->
  let w1 := fold_left (fun v (k : Z * Z) => dset Z.eqb v (fst k) false) t1 v1 in
  let w2 := fold_left (fun v (k : Z * Z) => dset Z.eqb v (fst k) false) t2 v2 in
  NoDup (map fst w1) /\ NoDup (map fst w2) /\ same w1 w2.
Proof.
  assert (G : forall (t : topology) (v : list (Z * bool)), NoDup (map fst v) ->
    (forall k, dget Z.eqb v k = Some false \/ dget Z.eqb v k = None) ->
    let w := fold_left (fun v (k : Z * Z) => dset Z.eqb v (fst k) false) t v in
    NoDup (map fst w) /\ (forall k, dget Z.eqb w k = Some false \/ dget Z.eqb w k = None) /\
    (forall k, In k (map fst w) <-> In k (map fst v) \/ In k (map fst t))).
  { induction t as [|[a b] t IH]; intros v N F; cbn [fold_left fst map].
    - cbn. split; auto. split; auto. intros; tauto.
    - destruct (IH (dset Z.eqb v a false)) as [A [B C]].
      + now apply (dset_nodup Z.eqb zeqb).
      + intros k. destruct (Z.eq_dec a k) as [<-|NE]; [rewrite (dget_dset_eq Z.eqb zeqb); auto|rewrite (dget_dset_neq Z.eqb zeqb); auto].
      + cbn zeta in *. split; auto. split; auto. intros k. rewrite C. rewrite dset_keys. 
        destruct (dhas Z.eqb v a) eqn:E.
        * apply (dhas_spec Z.eqb zeqb) in E. cbn. split; intuition. subst; auto.
        * rewrite in_app_iff. cbn. tauto. }
  intros v1 v2 N1 N2 F1 F2 H. cbn zeta.
  destruct (G t1 v1 N1 F1) as [A1 [B1 C1]]. destruct (G t2 v2 N2 F2) as [A2 [B2 C2]]. cbn zeta in *.
  split; auto. split; auto. intros k.
  pose proof (@dget_none _ bool Z.eqb zeqb (fold_left (fun v (k : Z * Z) => dset Z.eqb v (fst k) false) t1 v1) k) as D1.
  pose proof (@dget_none _ bool Z.eqb zeqb (fold_left (fun v (k : Z * Z) => dset Z.eqb v (fst k) false) t2 v2) k) as D2.
  rewrite C1 in D1. rewrite C2 in D2. specialize (H k).
  destruct (B1 k) as [E1|E1], (B2 k) as [E2|E2]; rewrite E1, E2 in *; auto; exfalso.
  - assert (X : ~ (In k (map fst v1) \/ In k (map fst t1))) by (rewrite H; tauto). apply D1 in X. discriminate.
  - assert (X : ~ (In k (map fst v2) \/ In k (map fst t2))) by (rewrite <- H; tauto). apply D2 in X. discriminate.
Qed.

Lemma topo_sort_same (lim : nat) (t1 t2 : topology) : same t1 t2 -> topo_sort lim t1 = topo_sort lim t2.
Proof.
  intros Ht. unfold topo_sort.
  destruct (@visited0_same t1 t2 [(0, false)]%Z [(0, false)]%Z) as [N1 [N2 Hv]].
  1-2: repeat constructor; cbn; tauto.
  1-2: intros k; cbn; destruct (k =? 0)%Z; auto.
  { intros k. now rewrite (same_keys k Ht). }
  cbn zeta in *.
  set (v1 := fold_left _ t1 _) in *. set (v2 := fold_left _ t2 _) in *. clearbody v1 v2.
  rewrite (isort_same N1 N2) by (intros; now apply same_keys).
  set (ks := isort Z.leb (map fst v2)). clearbody ks.
  assert (P : forall ks (v1 v2 : list (Z * bool)) (st : list Z), same v1 v2 -> pairs_same
    (foldM (fun (vs : list (Z * bool) * list Z) i => let '(visited, stack) := vs in
       if (i =? 0)%Z then Ok (visited, stack) else b <- dgetE Z.eqb visited i ;;
       if b : bool then Ok (visited, stack) else sort_util lim t1 i visited stack) ks (v1, st))
    (foldM (fun (vs : list (Z * bool) * list Z) i => let '(visited, stack) := vs in
       if (i =? 0)%Z then Ok (visited, stack) else b <- dgetE Z.eqb visited i ;;
       if b : bool then Ok (visited, stack) else sort_util lim t2 i visited stack) ks (v2, st))).
  { clear -Ht. intros ks. induction ks as [|i ks IH]; intros v1 v2 st Hv; cbn [foldM]; [cbn; auto|].
    destruct (i =? 0)%Z; [cbn; apply IH; auto|].
    rewrite (same_dgetE i Hv). destruct (dgetE Z.eqb v2 i) as [b|e]; cbn [bind]; [|cbn; auto].
    destruct b; cbn [bind]; [apply IH; auto|].
    assert (Q := sort_util_same Ht lim i st Hv).
    destruct (sort_util lim t1 i v1 st) as [[w1 s1]|e1], (sort_util lim t2 i v2 st) as [[w2 s2]|e2]; cbn in Q; try contradiction; cbn [bind].
    - destruct Q as [Q ->]. apply IH. exact Q.
    - subst. reflexivity. }
  specialize (P ks v1 v2 [] Hv).
  destruct (foldM _ ks (v1, [])) as [[? ?]|?], (foldM _ ks (v2, [])) as [[? ?]|?]; cbn in *; try contradiction; destruct P; subst; auto.
Qed.

(** ** C106 *)
(** the topology after a sequence of add_connection calls *)
Definition connect (calls : list (Z * Z)) : topology :=
  fold_left (fun t c => add_connection t (fst c) (snd c)) calls [].

(** the outflow segment given to [k] last *)
Definition latest (calls : list (Z * Z)) (k : Z) : option Z :=
  option_map snd (find (fun c => (fst c =? k)%Z) (rev calls)).

Lemma connect_get calls k : dget Z.eqb (connect calls) k = latest calls k.
Proof.
  unfold connect, latest. rewrite <- fold_left_rev_right.
  induction (rev calls) as [|[a b] l IH]; cbn; auto.
  unfold add_connection at 1. destruct (Z.eqb_spec a k) as [->|N].
  - now rewrite (dget_dset_eq Z.eqb zeqb).
  - now rewrite (dget_dset_neq Z.eqb zeqb).
Qed.

Theorem C106_sort_any_insertion_order :
  forall lim calls1 calls2,
    (forall k, latest calls1 k = latest calls2 k) ->
    topo_sort lim (connect calls1) = topo_sort lim (connect calls2).
Proof. intros lim c1 c2 H. apply topo_sort_same. intros k. rewrite !connect_get. apply H. Qed.

Lemma latest_in calls k v : NoDup (map fst calls) -> latest calls k = Some v <-> In (k, v) calls.
Proof.
  intros N. unfold latest.
  assert (G : forall l : list (Z * Z), NoDup (map fst l) ->
     (option_map snd (find (fun c => (fst c =? k)%Z) l) = Some v <-> In (k, v) l)).
  { induction l as [|[a b] l IH]; intros M; cbn; [split; [discriminate|tauto]|].
    inversion M; subst. destruct (Z.eqb_spec a k) as [->|NE]; cbn.
    - split; [intros [= ->]; auto|]. intros [[= ->]|X]; auto.
      exfalso. apply H1. change k with (fst (k, v)). now apply in_map.
    - rewrite IH by auto. split; auto. intros [[= ? ?]|X]; congruence. }
  rewrite G, <- in_rev; [reflexivity|]. rewrite map_rev. now apply (Permutation_NoDup (Permutation_rev _)).
Qed.

Corollary C106_permuted_connections :
  forall lim calls1 calls2,
    NoDup (map fst calls1) -> Permutation calls1 calls2 ->
    topo_sort lim (connect calls1) = topo_sort lim (connect calls2).
Proof.
  intros lim c1 c2 N P. apply C106_sort_any_insertion_order. intros k.
  assert (N2 : NoDup (map fst c2)) by (eapply Permutation_NoDup; [|exact N]; now apply Permutation_map).
  destruct (latest c1 k) as [v|] eqn:E1, (latest c2 k) as [w|] eqn:E2; auto.
  - apply latest_in in E1; auto. apply (Permutation_in _ P) in E1. apply latest_in in E1; auto. congruence.
  - apply latest_in in E1; auto. apply (Permutation_in _ P) in E1. apply latest_in in E1; auto. congruence.
  - apply latest_in in E2; auto. apply (Permutation_in _ (Permutation_sym P)) in E2. apply latest_in in E2; auto. congruence.
Qed.

(** ** C107: subbasins *)
Lemma sub_trace_ext fuel fdir cs1 cs2 : (forall c, In c cs1 <-> In c cs2) ->
  forall cur cell vis, sub_trace fuel fdir cs1 cur cell vis = sub_trace fuel fdir cs2 cur cell vis.
Proof.
  intros H. assert (M : forall c, memz c cs1 = memz c cs2).
  { intros c. destruct (memz c cs1) eqn:A, (memz c cs2) eqn:B; auto.
    - apply memz_spec in A. apply memz_false in B. apply H in A. contradiction.
    - apply memz_spec in B. apply memz_false in A. apply H in B. contradiction. }
  induction fuel as [|f IH]; intros cur cell vis; cbn; auto. rewrite M.
  destruct (memz cell vis); auto. destruct (negb (memz cell cs2) || (cell =? cur))%Z%bool; auto.
  destruct (negb (cell =? cur)%Z).
  - destruct (npget fdir cell); cbn; auto.
  - destruct (npget fdir cell); cbn; auto. destruct (a =? cur)%Z; auto.
Qed.

Definition graph_fold (tr : Z -> res Z) (l : list Z) (g : topology) : res topology :=
  foldM (fun g c => v <- tr c ;; Ok (dset Z.eqb g c v)) l g.

Lemma graph_fold_ok tr : forall l g, (forall c, In c l -> exists v, tr c = Ok v) ->
  exists g', graph_fold tr l g = Ok g'.
Proof.
  induction l as [|c l IH]; intros g H; cbn; [eauto|].
  destruct (H c (or_introl eq_refl)) as [v ->]. cbn. apply IH. intros; apply H; now right.
Qed.
Lemma graph_fold_get tr : forall l g g', NoDup (map fst g) -> graph_fold tr l g = Ok g' ->
  NoDup (map fst g') /\ (forall c, In c l -> exists v, tr c = Ok v) /\
  forall k, dget Z.eqb g' k = if memz k l then match tr k with Ok v => Some v | _ => None end else dget Z.eqb g k.
Proof.
  induction l as [|c l IH]; intros g g' N E; cbn in E.
  - injection E as <-. repeat split; auto. intros c [].
  - destruct (tr c) as [v|] eqn:Et; cbn in E; [|discriminate].
    destruct (IH _ _ (dset_nodup Z.eqb zeqb g c v N) E) as [A [B C]].
    split; auto. split. { intros c' [<-|Hc]; eauto. }
    intros k. rewrite C. cbn [memz existsb]. destruct (Z.eqb_spec k c) as [->|NE]; cbn.
    + rewrite Et. unfold memz. destruct (existsb (Z.eqb c) l); auto. apply (dget_dset_eq Z.eqb zeqb).
    + unfold memz. destruct (existsb (Z.eqb k) l); auto. apply (dget_dset_neq Z.eqb zeqb). auto.
Qed.

Lemma readd_get : forall (g : topology) t0 k, NoDup (map fst g) ->
  dget Z.eqb (fold_left (fun t kv => add_connection t (fst kv) (snd kv)) g t0) k =
  match dget Z.eqb g k with Some v => Some v | None => dget Z.eqb t0 k end.
Proof.
  induction g as [|[a b] g IH]; intros t0 k N; cbn; auto.
  inversion N; subst. rewrite IH by auto. unfold add_connection. 
  destruct (Z.eqb_spec k a) as [->|NE].
  - rewrite (dget_dset_eq Z.eqb zeqb). destruct (dget Z.eqb g a) eqn:E; auto.
    apply (dget_in Z.eqb zeqb) in E. exfalso. apply H1. change a with (fst (a, z)). now apply in_map.
  - rewrite (dget_dset_neq Z.eqb zeqb) by auto. reflexivity.
Qed.

Lemma list_index_spec c : forall l s, In c l -> exists i, list_index c l s = Ok (s + i) /\ nth_error l i = Some c.
Proof.
  induction l as [|y l IH]; intros s H; [destruct H|]. cbn.
  destruct (Z.eqb_spec c y) as [->|NE].
  - exists 0. rewrite Nat.add_0_r. auto.
  - destruct H as [H|H]; [congruence|]. destruct (IH (S s) H) as [i [E X]].
    exists (S i). split; auto. rewrite E. f_equal. lia.
Qed.
Lemma list_index_in c : forall l s i, list_index c l s = Ok i -> In c l.
Proof.
  induction l as [|y l IH]; intros s i E; cbn in E; [discriminate|].
  destruct (Z.eqb_spec c y) as [->|NE]; [now left|right; eauto].
Qed.

Lemma by_index (f : list Z -> Z -> res (list Z)) cs : forall order idxs,
  mapM (fun c => list_index c cs 0) order = Ok idxs ->
  forall sub, foldM (fun sub i => c <- get cs i ;; f sub c) idxs sub = foldM f order sub.
Proof.
  induction order as [|c order IH]; intros idxs E sub; cbn in E.
  - injection E as <-. reflexivity.
  - destruct (list_index c cs 0) as [i|] eqn:Ei; cbn in E; [|discriminate].
    destruct (mapM _ order) as [is|] eqn:Em; cbn in E; [|discriminate]. injection E as <-.
    destruct (@list_index_spec c cs 0 (list_index_in Ei)) as [j [Ej X]].
    rewrite Ei in Ej. injection Ej as ->. cbn. unfold get at 1. rewrite X. cbn.
    destruct (f sub c); cbn; auto.
Qed.

Lemma subbasins_one_way lim fuel fdir cs1 cs2 out : (forall c, In c cs1 <-> In c cs2) ->
  get_subbasins lim fuel fdir cs1 = Ok out -> get_subbasins lim fuel fdir cs2 = Ok out.
Proof.
  intros H. unfold get_subbasins.
  fold (graph_fold (fun c => sub_trace fuel fdir cs1 c c []) cs1 []).
  fold (graph_fold (fun c => sub_trace fuel fdir cs2 c c []) cs2 []).
  destruct (graph_fold (fun c => sub_trace fuel fdir cs1 c c []) cs1 []) as [g1|] eqn:E1; cbn [bind]; [|discriminate].
  destruct (@graph_fold_get _ cs1 [] g1 (NoDup_nil _) E1) as [N1 [T1 G1]].
  assert (T2 : forall c, In c cs2 -> exists v, sub_trace fuel fdir cs2 c c [] = Ok v).
  { intros c Hc. apply H in Hc. destruct (T1 c Hc) as [v Ev]. exists v. now rewrite <- (@sub_trace_ext _ _ _ _ H). }
  destruct (@graph_fold_ok _ cs2 [] T2) as [g2 E2]. rewrite E2. cbn [bind].
  destruct (@graph_fold_get _ cs2 [] g2 (NoDup_nil _) E2) as [N2 [_ G2]].
  assert (S : same g1 g2).
  { intros k. rewrite G1, G2. rewrite (@sub_trace_ext fuel fdir _ _ H).
    destruct (memz k cs1) eqn:A, (memz k cs2) eqn:B; auto.
    - apply memz_spec in A. apply memz_false in B. apply H in A. contradiction.
    - apply memz_spec in B. apply memz_false in A. apply H in B. contradiction. }
  assert (S' : same (add_connection (fold_left (fun t kv => add_connection t (fst kv) (snd kv)) g1 []) (-1)%Z (-1)%Z)
                    (add_connection (fold_left (fun t kv => add_connection t (fst kv) (snd kv)) g2 []) (-1)%Z (-1)%Z)).
  { apply same_dset. intros k. rewrite !readd_get by auto. now rewrite S. }
  rewrite (topo_sort_same lim S').
  destruct (topo_sort lim _) as [order|]; cbn [bind]; [|discriminate].
  set (o := removelast order). clearbody o. clear order.
  destruct (mapM (fun c => list_index c cs1 0) o) as [i1|] eqn:M1; cbn [bind]; [|discriminate].
  assert (M2 : exists i2, mapM (fun c => list_index c cs2 0) o = Ok i2).
  { clear -M1 H. revert i1 M1. induction o as [|c o IH]; intros i1 M1; cbn in *; [eauto|].
    destruct (list_index c cs1 0) as [i|] eqn:Ei; cbn in M1; [|discriminate].
    destruct (mapM _ o) as [is|] eqn:Em; cbn in M1; [|discriminate].
    destruct (@list_index_spec c cs2 0 (proj1 (H c) (list_index_in Ei))) as [j [-> _]].
    destruct (IH _ eq_refl) as [is2 ->]. cbn. eauto. }
  destruct M2 as [i2 M2]. rewrite M2. cbn [bind].
  rewrite (by_index (fun sub c => get_watershed_boundary fuel fdir c (Some sub)) M1).
  rewrite (by_index (fun sub c => get_watershed_boundary fuel fdir c (Some sub)) M2). auto.
Qed.

Theorem C107_subbasins_any_order :
  forall lim fuel fdir points1 points2 labels,
    (forall c, In c points1 <-> In c points2) ->
    get_subbasins lim fuel fdir points1 = Ok labels <-> get_subbasins lim fuel fdir points2 = Ok labels.
Proof. intros; split; apply subbasins_one_way; firstorder. Qed.

(** ** C107: control points *)
Section Control.
  Context {T : Type} (minus5 : T -> T) (isnan : T -> bool) (gt : T -> T -> bool)
          (nb : list (list nat)) (fdir : list Z) (facc : list T).

  (** the cells a walk passes, if it returns *)
  Fixpoint cp_path (fuel node : nat) : option (list nat) :=
    match fuel with
    | O => None
    | S f =>
        match get facc node, flows_in isnan nb fdir facc node with
        | Ok _, Ok [] => Some [node]
        | Ok _, Ok (p :: l) => option_map (cons node) (cp_path f (fst (argmax gt p l)))
        | _, _ => None
        end
    end.

  (** a walk writes a value that depends on the cell alone into the cells it passes *)
  Lemma cp_walk_path fuel : forall node a, length a = length facc ->
    match cp_path fuel node with
    | Some path => exists r, cp_walk minus5 isnan gt fuel nb fdir facc node a = Ok r /\ length r = length facc /\
        forall c d, nth c r d = if memn c path then minus5 (nth c facc d) else nth c a d
    | None => forall r, cp_walk minus5 isnan gt fuel nb fdir facc node a <> Ok r
    end.
  Proof.
    induction fuel as [|f IH]; intros node a L; cbn; [discriminate|].
    destruct (get facc node) as [x|] eqn:Ex; cbn; [|discriminate].
    assert (Hn := get_lt _ _ Ex). rewrite set_lt by lia. cbn.
    destruct (flows_in isnan nb fdir facc node) as [up|] eqn:Eu; cbn; [|discriminate].
    assert (U : forall c d,
      nth c (upd a node (minus5 x)) d = if Nat.eqb c node then minus5 (nth c facc d) else nth c a d).
    { intros c d. destruct (Nat.eqb_spec c node) as [->|NE].
      - rewrite nth_upd_eq by lia. apply get_ok in Ex. apply nth_error_nth with (d := d) in Ex. now rewrite Ex.
      - apply nth_upd_neq. auto. }
    destruct up as [|p l].
    - exists (upd a node (minus5 x)). split; auto. rewrite upd_length. split; auto.
      intros c d. rewrite U. cbn. now rewrite orb_false_r.
    - specialize (IH (fst (argmax gt p l)) (upd a node (minus5 x))). rewrite upd_length in IH. specialize (IH L).
      destruct (cp_path f (fst (argmax gt p l))) as [path|]; cbn.
      + destruct IH as [r [Er [Lr R]]]. exists r. split; auto. split; auto. intros c d. rewrite R.
        unfold memn. cbn [existsb]. rewrite U. destruct (Nat.eqb c node); cbn; auto. destruct (existsb _ _); auto.
      + exact IH.
  Qed.

  Lemma cp_fold_ok fuel : forall cells a r, length a = length facc ->
    foldM (fun array c => cp_walk minus5 isnan gt fuel nb fdir facc c array) cells a = Ok r ->
    (forall c, In c cells -> exists path, cp_path fuel c = Some path).
  Proof.
    induction cells as [|c cells IH]; intros a r L E x Hx; [destruct Hx|]. cbn in E.
    assert (W := @cp_walk_path fuel c a L).
    destruct (cp_path fuel c) as [path|] eqn:Ep.
    - destruct W as [r' [Er [Lr _]]]. rewrite Er in E. cbn in E. destruct Hx as [<-|Hx]; eauto.
    - destruct (cp_walk _ _ _ _ _ _ _ c a); cbn in E; [|discriminate]. exfalso. eapply W; eauto.
  Qed.

  (** the cells passed by the walks from [cells] *)
  Definition passed (fuel : nat) (cells : list nat) (x : nat) : Prop :=
    exists c path, In c cells /\ cp_path fuel c = Some path /\ In x path.

  Lemma cp_fold_get fuel : forall cells a, length a = length facc ->
    (forall c, In c cells -> exists path, cp_path fuel c = Some path) ->
    exists r, foldM (fun array c => cp_walk minus5 isnan gt fuel nb fdir facc c array) cells a = Ok r /\
      length r = length facc /\
      forall x d, (passed fuel cells x -> nth x r d = minus5 (nth x facc d)) /\
                  (~ passed fuel cells x -> nth x r d = nth x a d).
  Proof.
    intros cells. induction cells as [|c cells IH] using rev_ind; intros a L H.
    - exists a. split; auto. split; auto. intros x d. split; auto. intros [c [p [[] _]]].
    - destruct (IH a L) as [r [E [Lr R]]]. { intros; apply H. apply in_or_app; auto. }
      rewrite foldM_app, E. cbn [bind foldM].
      destruct (H c) as [path P]. { apply in_or_app; right; now left. }
      assert (W := @cp_walk_path fuel c r Lr). rewrite P in W.
      destruct W as [r' [E' [Lr' R']]]. rewrite E'. cbn [bind]. exists r'. split; auto. split; auto.
      intros x d. rewrite R'. split.
      + intros [c' [path' [Hc [Hp Hx]]]]. destruct (memn x path) eqn:Em; auto.
        apply in_app_or in Hc. destruct Hc as [Hc|[<-|[]]].
        * apply R. exists c', path'. auto.
        * rewrite P in Hp. injection Hp as <-. apply memn_false in Em. contradiction.
      + intros Hn. destruct (memn x path) eqn:Em.
        * exfalso. apply Hn. exists c, path. apply memn_spec in Em. split; auto. apply in_or_app; right; now left.
        * apply R. intros [c' [p' [Hc X]]]. apply Hn. exists c', p'. split; auto. apply in_or_app; auto.
  Qed.

  Lemma passed_dec fuel : forall cells x, passed fuel cells x \/ ~ passed fuel cells x.
  Proof.
    induction cells as [|c cells IH]; intros x; [right; intros [c [p [[] _]]]|].
    destruct (IH x) as [[c' [p [Hc Hp]]]|N]; [left; exists c', p; split; [now right|auto]|].
    destruct (cp_path fuel c) as [p|] eqn:E.
    - destruct (in_dec Nat.eq_dec x p) as [I|I]; [left; exists c, p; split; [now left|auto]|].
      right. intros [c' [p' [[<-|Hc] [Hp Hx]]]]; [congruence|]. apply N. exists c', p'. auto.
    - right. intros [c' [p' [[<-|Hc] [Hp Hx]]]]; [congruence|]. apply N. exists c', p'. auto.
  Qed.

  Theorem C107_control_points_any_order :
    forall fuel points1 points2 threshold array,
      (forall c, In c points1 <-> In c points2) ->
      control_thresholds minus5 isnan gt fuel nb fdir facc points1 threshold = Ok array <->
      control_thresholds minus5 isnan gt fuel nb fdir facc points2 threshold = Ok array.
  Proof.
    assert (G : forall fuel p1 p2 t a, (forall c, In c p1 <-> In c p2) ->
      control_thresholds minus5 isnan gt fuel nb fdir facc p1 t = Ok a ->
      control_thresholds minus5 isnan gt fuel nb fdir facc p2 t = Ok a).
    { intros fuel p1 p2 t a H E. unfold control_thresholds in *.
      assert (L : length (repeat t (length facc)) = length facc) by apply repeat_length.
      assert (P1 := cp_fold_ok L E).
      assert (P2 : forall c, In c p2 -> exists path, cp_path fuel c = Some path) by (intros; apply P1; now apply H).
      destruct (cp_fold_get L P1) as [r1 [E1 [L1 R1]]]. rewrite E in E1. injection E1 as <-.
      destruct (cp_fold_get L P2) as [r2 [E2 [L2 R2]]]. rewrite E2. f_equal.
      destruct r2 as [|z0 r2'] eqn:EF. { destruct a; [auto|cbn in *; lia]. }
      rewrite <- EF in *. apply nth_ext with (d := z0) (d' := z0); [lia|]. intros x Hx.
      destruct (R1 x z0) as [A1 B1]. destruct (R2 x z0) as [A2 B2].
      assert (Q : passed fuel p1 x <-> passed fuel p2 x).
      { split; intros [c [q [Hc X]]]; exists c, q; (split; [now apply H|exact X]). }
      destruct (passed_dec fuel p2 x) as [D|D].
      - now rewrite A2, A1 by tauto.
      - now rewrite B2, B1 by tauto. }
    intros; split; apply G; firstorder.
  Qed.
End Control.

(** ** C107: terminal cells *)
Section Terminals.
  Context {T : Type} (tsub tdiv : T -> T -> T) (tlt teq : T -> T -> bool) (tzero tbig : T).

  Lemma terminals_fold : forall (ts : list nat) (a : list Z), (forall t, In t ts -> t < length a) ->
    exists r, foldM (fun a tc => npset a tc tc) (map Z.of_nat ts) a = Ok r /\ length r = length a /\
      forall x, nth x r 0%Z = if memn x ts then Z.of_nat x else nth x a 0%Z.
  Proof.
    induction ts as [|t ts IH]; intros a H; cbn [map foldM].
    - exists a. auto.
    - rewrite npset_nat by (apply H; now left). cbn [bind].
      destruct (IH (upd a t (Z.of_nat t))) as [r [E [L R]]].
      { intros x Hx. rewrite upd_length. apply H; now right. }
      exists r. rewrite upd_length in L. split; auto. split; auto. intros x. rewrite R.
      unfold memn. cbn [existsb]. destruct (Nat.eqb_spec x t) as [->|NE]; cbn.
      + rewrite nth_upd_eq by (apply H; now left). destruct (existsb _ _); auto.
      + rewrite nth_upd_neq by auto. reflexivity.
  Qed.

  Theorem C107_terminal_cells_any_order :
    forall fuel dist (dem : list (option T)) nb thr terminals1 terminals2,
      (forall c, In c terminals1 -> c < length dem) ->
      (forall c, In c terminals1 <-> In c terminals2) ->
      flow_directions tsub tdiv tlt teq tzero tbig fuel dist dem nb thr (map Z.of_nat terminals1) =
      flow_directions tsub tdiv tlt teq tzero tbig fuel dist dem nb thr (map Z.of_nat terminals2).
  Proof.
    intros fuel dist dem nb thr t1 t2 B H. unfold flow_directions.
    destruct (min_cells tlt teq tbig dem) as [mins|]; cbn [bind]; auto.
    assert (S : start_fdir (length dem) mins (map Z.of_nat t1) = start_fdir (length dem) mins (map Z.of_nat t2)).
    { unfold start_fdir. destruct (foldM _ mins _) as [a|] eqn:E; cbn [bind]; auto.
      assert (La : length a = length dem).
      { assert (X : forall l (a r : list Z), foldM (fun a c => set a c (Z.of_nat c)) l a = Ok r -> length r = length a).
        { induction l as [|c l IH]; intros u r Er; cbn in Er; [congruence|].
          destruct (set u c (Z.of_nat c)) as [u'|] eqn:Es; cbn in Er; [|discriminate].
          apply set_ok in Es. destruct Es as [_ ->]. rewrite (IH _ _ Er). apply upd_length. }
        rewrite (X _ _ _ E). apply repeat_length. }
      destruct (@terminals_fold t1 a) as [r1 [-> [L1 R1]]]. { rewrite La. exact B. }
      destruct (@terminals_fold t2 a) as [r2 [-> [L2 R2]]]. { rewrite La. intros t Ht. apply B. now apply H. }
      f_equal. apply nth_ext with (d := 0%Z) (d' := 0%Z); [lia|]. intros x _. rewrite R1, R2.
      destruct (memn x t1) eqn:M1, (memn x t2) eqn:M2; auto.
      - apply memn_spec in M1. apply memn_false in M2. apply H in M1. contradiction.
      - apply memn_spec in M2. apply memn_false in M1. apply H in M2. contradiction. }
    rewrite S. reflexivity.
  Qed.
End Terminals.

(** ** concrete cases *)
(** a confluence: 3 and 5 flow to 1, 1 to 0; inserted in two orders *)
Example C106_ex :
  topo_sort 10 (connect [(3, 1); (5, 1); (1, 0)]%Z) = Ok [5; 3; 1]%Z /\
  topo_sort 10 (connect [(1, 7); (1, 0); (5, 1); (3, 1)]%Z) = Ok [5; 3; 1]%Z.
Proof. split; vm_compute; reflexivity. Qed.

(** a chain 4 -> 3 -> 2 -> 1 -> 0, pour points 1 and 3 *)
Example C107_ex :
  get_subbasins 20 40 [0; 0; 1; 2; 3]%Z [1; 3]%Z = get_subbasins 20 40 [0; 0; 1; 2; 3]%Z [3; 1; 3]%Z /\
  get_subbasins 20 40 [0; 0; 1; 2; 3]%Z [3; 1; 3]%Z = Ok [0; 2; 2; 1; 1]%Z.
Proof. split; vm_compute; reflexivity. Qed.
