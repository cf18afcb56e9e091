(** Proofs about [MFill.identify_edge_nodes]. *)
From Verif Require Import Py Spec MHeap MFill.
Set Implicit Arguments.

Lemma edge_eqb_eq a b : edge_eqb a b = true <-> a = b.
Proof. destruct a, b; unfold edge_eqb; simpl. rewrite andb_true_iff, !Nat.eqb_eq.
  split; [intros [-> ->]; auto|intros H; inversion H; auto]. Qed.

Lemma norm_edge_iff a b c d : norm_edge a b = norm_edge c d <-> (a = c /\ b = d \/ a = d /\ b = c).
Proof. unfold norm_edge. destruct (Nat.leb_spec a b), (Nat.leb_spec c d); split; intros H';
  try (inversion H'; subst); intuition (try lia); subst; try f_equal; lia. Qed.

Lemma poly_edges_spec p es : poly_edges p = Ok es ->
  forall e, In e es <-> exists a b, e = norm_edge a b /\ side p a b.
Proof.
  unfold poly_edges, side, open_ring. destruct p as [|v0 p']; [discriminate|].
  set (r := if Nat.eqb v0 (last (v0 :: p') v0) then removelast (v0 :: p') else v0 :: p').
  intros H. injection H as <-. intros e. rewrite in_map_iff. split.
  - intros [v [Ev Hv]]. apply in_seq in Hv. simpl in Hv.
    destruct v as [|u].
    + exists (nth (length r - 1) r 0), (nth 0 r 0). split; auto.
      exists (length r - 1). split; [lia|].
      replace (S (length r - 1)) with (length r) by lia. rewrite Nat.mod_same by lia. auto.
    + exists (nth u r 0), (nth (S u) r 0). split; auto. exists u. split; [lia|].
      rewrite Nat.mod_small by lia. auto.
  - intros [a [b [-> [i [Hi Hor]]]]].
    destruct (Nat.eq_dec (S i) (length r)) as [Hl|Hl].
    + rewrite Hl, Nat.mod_same in Hor by lia. exists 0. split; [|apply in_seq; lia].
      replace (length r - 1) with i by lia. apply norm_edge_iff. intuition.
    + rewrite Nat.mod_small in Hor by lia. exists (S i). split; [|apply in_seq; lia].
      apply norm_edge_iff. intuition.
Qed.

Lemma poly_edges_ok p : p <> [] -> exists es, poly_edges p = Ok es.
Proof. destruct p; [congruence|]. simpl. eauto. Qed.

Lemma set_add_in x y l : In x (set_add y l) <-> x = y \/ In x l.
Proof. unfold set_add. destruct (memn y l) eqn:E.
  - apply memn_spec in E. intuition. now subst.
  - rewrite in_app_iff. simpl. intuition. Qed.

Lemma set_add_nodup y l : NoDup l -> NoDup (set_add y l).
Proof. unfold set_add. destruct (memn y l) eqn:E; auto. intros H.
  apply memn_false in E. apply (Permutation_NoDup (Permutation_cons_append l y)). now constructor. Qed.

Definition ev (d : list ((nat * nat) * list nat)) k :=
  match dget edge_eqb d k with Some s => s | None => [] end.

Lemma ev_dset d k v k' : ev (dset edge_eqb d k v) k' = if edge_eqb k k' then v else ev d k'.
Proof. unfold ev. destruct (edge_eqb k k') eqn:E.
  - apply edge_eqb_eq in E. subst. now rewrite (dget_dset_eq _ edge_eqb_eq).
  - rewrite (dget_dset_neq _ edge_eqb_eq); auto. intros ->.
    rewrite (proj2 (edge_eqb_eq k' k') eq_refl) in E. discriminate. Qed.

Lemma edge_dict_spec (es : list ((nat * nat) * nat)) d :
  NoDup (map fst d) -> (forall k, NoDup (ev d k)) ->
  let d' := fold_left (fun d en =>
                 dset edge_eqb d (fst en)
                   (set_add (snd en) (match dget edge_eqb d (fst en) with
                                      | Some s => s | None => [] end))) es d in
  NoDup (map fst d') /\ (forall k, NoDup (ev d' k)) /\
  forall k n, In n (ev d' k) <-> In n (ev d k) \/ In (k, n) es.
Proof.
  revert d; induction es as [|[k0 n0] es IH]; intros d Hk Hn; simpl.
  - split; auto. split; auto. intuition.
  - fold (ev d k0). destruct (IH (dset edge_eqb d k0 (set_add n0 (ev d k0)))) as [H1 [H2 H3]].
    + apply dset_nodup; auto. apply edge_eqb_eq.
    + intros k. rewrite ev_dset. destruct (edge_eqb k0 k); auto. now apply set_add_nodup.
    + split; auto. split; auto. intros k n. rewrite H3, ev_dset.
      destruct (edge_eqb k0 k) eqn:E.
      * apply edge_eqb_eq in E. subst k. rewrite set_add_in. intuition; subst; auto.
        match goal with H : (_, _) = (_, _) |- _ => inversion H; auto end.
      * assert (k0 <> k) by (intros ->; rewrite (proj2 (edge_eqb_eq k k) eq_refl) in E; discriminate).
        intuition.
        match goal with H : (_, _) = (_, _) |- _ => inversion H; subst; contradiction end.
Qed.

Lemma singles_spec (d : list ((nat * nat) * list nat)) acc : NoDup acc ->
  let r := fold_left (fun acc kv => match snd kv with [n] => set_add n acc | _ => acc end) d acc in
  NoDup r /\ forall n, In n r <-> In n acc \/ exists k, In (k, [n]) d.
Proof.
  revert acc; induction d as [|[k l] d IH]; intros acc Ha; simpl.
  - split; auto. intros n. split; auto. intros [H|[k []]]; auto.
  - destruct l as [|a [|b l]].
    + destruct (IH acc Ha) as [H1 H2]. split; auto. intros n. rewrite H2.
      split; intros [H|[k' H]]; auto; right; exists k'; auto. destruct H as [H|H]; [inversion H|auto].
    + destruct (IH (set_add a acc) (set_add_nodup a Ha)) as [H1 H2]. split; auto.
      intros n. rewrite H2, set_add_in. split.
      * intros [[->|H]|[k' H]]; eauto.
      * intros [H|[k' [H|H]]]; eauto. inversion H; subst. auto.
    + destruct (IH acc Ha) as [H1 H2]. split; auto. intros n. rewrite H2.
      split; intros [H|[k' H]]; auto; right; exists k'; auto. destruct H as [H|H]; [inversion H|auto].
Qed.

Lemma single_nodup (l : list nat) n : NoDup l -> (l = [n] <-> In n l /\ forall m, In m l -> m = n).
Proof. intros H. split.
  - intros ->. split; [now left|]. intros m [->|[]]; auto.
  - intros [H1 H2]. destruct l as [|a l]; [destruct H1|].
    assert (a = n) by (apply H2; now left). subst a. f_equal. destruct l as [|b l]; auto.
    assert (b = n) by (apply H2; right; now left). subst b.
    inversion H as [|? ? H3 H4]; subst. exfalso. apply H3. now left. Qed.

Lemma geoms_spec iverts s : Forall (fun p => p <> []) iverts ->
  exists gs, mapM (fun ip => es <- poly_edges (snd ip) ;; Ok (map (fun e => (e, fst ip)) es))
                (combine (seq s (length iverts)) iverts) = Ok gs /\
  forall e n, In (e, n) (concat gs) <-> s <= n /\ exists p a b,
    nth_error iverts (n - s) = Some p /\ e = norm_edge a b /\ side p a b.
Proof.
  revert s; induction iverts as [|p iv IH]; intros s H; simpl.
  - exists []. split; auto. simpl. intros e n. split; [tauto|].
    intros [_ [p [a [b [H1 _]]]]]. destruct (n - s); discriminate.
  - inversion H as [|? ? Hp Hiv]; subst. destruct (poly_edges_ok Hp) as [es Ees].
    rewrite Ees. simpl. destruct (IH (S s) Hiv) as [gs [Egs Hgs]]. rewrite Egs. simpl.
    eexists. split; [reflexivity|]. intros e n. simpl. rewrite in_app_iff, Hgs. split.
    + intros [Hi|[H1 [q [a [b [H2 [H3 H4]]]]]]].
      * apply in_map_iff in Hi. destruct Hi as [e' [E1 Hi]]. inversion E1; subst.
        apply (poly_edges_spec _ Ees) in Hi. destruct Hi as [a [b [E2 Hs]]].
        split; auto. exists p, a, b. rewrite Nat.sub_diag. auto.
      * split; [lia|]. exists q, a, b. replace (n - s) with (S (n - S s)) by lia. auto.
    + intros [H1 [q [a [b [H2 [H3 H4]]]]]]. destruct (Nat.eq_dec s n) as [->|Hne].
      * left. rewrite Nat.sub_diag in H2. simpl in H2. inversion H2; subst q.
        apply in_map_iff. exists e. split; auto. apply (poly_edges_spec _ Ees). eauto.
      * right. split; [lia|]. exists q, a, b. replace (n - s) with (S (n - S s)) in H2 by lia. auto.
Qed.

Theorem identify_edge_nodes_spec iverts : Forall (fun p => p <> []) iverts ->
  exists l, identify_edge_nodes iverts = Ok l /\ StronglySorted lt l /\
    forall n, In n l <-> boundary_cell iverts n.
Proof.
  intros H. unfold identify_edge_nodes. destruct (geoms_spec 0 H) as [gs [Egs Hgs]].
  rewrite Egs. cbv beta iota zeta delta [bind].
  destruct (@edge_dict_spec (concat gs) []) as [D1 [D2 D3]]; [constructor|constructor|].
  set (d := fold_left _ (concat gs) []) in *.
  destruct (@singles_spec d [] ltac:(constructor)) as [S1 S2].
  set (r := fold_left _ d []) in *.
  eexists. split; [reflexivity|]. split.
  - assert (Hs : StronglySorted le (isort Nat.leb r)).
    { apply isort_sorted; [intros x y; apply Nat.leb_le|intros x y Hx; apply Nat.leb_gt in Hx; lia|].
      intros; lia. }
    assert (Hnd := isort_nodup Nat.leb S1). revert Hs Hnd. clear.
    induction 1 as [|x l Hl IH Hx]; intros Hnd; constructor.
    + apply IH. now inversion Hnd.
    + inversion Hnd as [|? ? Hn1 Hn2]; subst. rewrite Forall_forall in *. intros y Hy.
      specialize (Hx y Hy). assert (x <> y) by (intros ->; contradiction). lia.
  - intros n. rewrite isort_in, S2. simpl.
    assert (Hk : (False \/ exists k, In (k, [n]) d) <-> exists k, ev d k = [n]).
    { split.
      - intros [[]|[k Hk]]. exists k. unfold ev. erewrite dget_in_nodup; eauto using edge_eqb_eq.
      - intros [k Hk]. right. exists k. unfold ev in Hk. destruct (dget edge_eqb d k) eqn:E; [|discriminate].
        subst l. eapply dget_in; eauto using edge_eqb_eq. }
    rewrite Hk. clear Hk. unfold boundary_cell.
    assert (HE : forall k m, In m (ev d k) <-> exists p a b, nth_error iverts m = Some p /\
       k = norm_edge a b /\ side p a b).
    { intros k m. rewrite D3. unfold ev at 1. simpl. rewrite Hgs, Nat.sub_0_r. intuition lia. }
    split.
    + intros [k Hk]. apply (single_nodup _ (D2 k)) in Hk. destruct Hk as [H1 H2].
      apply HE in H1. destruct H1 as [p [a [b [P1 [P2 P3]]]]]. exists p, a, b.
      split; auto. split; auto. intros m q Q1 Q2. apply H2. apply HE. exists q, a, b. auto.
    + intros [p [a [b [P1 [P2 P3]]]]]. exists (norm_edge a b). apply single_nodup; auto.
      split.
      * apply HE. exists p, a, b; auto.
      * intros m Hm. apply HE in Hm. destruct Hm as [q [a' [b' [Q1 [Q2 Q3]]]]].
        apply (P3 m q Q1). apply norm_edge_iff in Q2. destruct Q2 as [[-> ->]|[-> ->]]; auto.
        destruct Q3 as [i [Hi Hor]]. exists i. split; auto. simpl in *. tauto.
Qed.

Lemma boundary_lt iverts n : boundary_cell iverts n -> n < length iverts.
Proof. intros [p [a [b [H _]]]]. apply nth_error_Some. congruence. Qed.
