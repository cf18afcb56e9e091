(** The renumbering at the end of the MODFLOW-2005 connectivity, and single-cell segments. *)
From Verif Require Import Py Spec MFlow LGraph LTopo MStream LStream LSeg LSeg2.
Set Implicit Arguments.
Local Open Scope nat_scope.
Local Open Scope list_scope.

(** lines 286-312 *)
Definition finish (lim : nat) (g : ngraph) (s : grp) : res mf2005 :=
  let topo := fold_left (fun t kv => add_connection t (fst kv) (snd kv)) (g_seg s) [] in
  sorted <- topo_sort lim topo ;;
  let mapper := dset Z.eqb (enumerate1 sorted) 0%Z 0%Z in
  nsr <- mapM (fun r => let '(node, seg, rch) := r in
                        new <- dgetE Z.eqb mapper seg ;; Ok (node, new, rch)) (g_nsr s) ;;
  seg <- foldM (fun t kv => a <- dgetE Z.eqb mapper (fst kv) ;;
                            b <- dgetE Z.eqb mapper (snd kv) ;;
                            Ok (dset Z.eqb t a b)) (g_seg s) [] ;;
  let arr := fold_left (fun a kv =>
                 map (fun p => if (fst p =? fst kv)%Z then snd kv else snd p)
                     (combine (g_strm s) a))
               mapper (repeat 0%Z (length (g_strm s))) in
  Ok (Mf2005 arr g seg nsr).

Lemma mf2005_finish lim fuel grouped fdir strm :
  mf2005_connectivity lim fuel grouped fdir strm =
  (g <- node_graph fdir (nonzero strm) ;;
   s <- (if grouped then group_segments fuel g strm else single_segments g strm) ;;
   finish lim g s).
Proof. reflexivity. Qed.

Record segs_ok (t : topology) : Prop := {
  so_nd : NoDup (map fst t);
  so_key : forall x, In x (map fst t) <-> (1 <= x <= Z.of_nat (length t))%Z;
  so_val : forall a b, In (a, b) t -> b = 0%Z \/ In b (map fst t)
}.

(** a renumbering of 1..k that fixes 0 *)
Record renum (mu : Z -> Z) (k : Z) : Prop := {
  rn_0 : mu 0%Z = 0%Z;
  rn_in : forall x, (1 <= x <= k)%Z -> (1 <= mu x <= k)%Z;
  rn_inj : forall x y, (1 <= x <= k)%Z -> (1 <= y <= k)%Z -> mu x = mu y -> x = y;
  rn_surj : forall y, (1 <= y <= k)%Z -> exists x, (1 <= x <= k)%Z /\ mu x = y
}.

Lemma array_fold (s : list Z) (d : list (Z * Z)) : forall a, length a = length s -> NoDup (map fst d) ->
  let r := fold_left (fun a kv => map (fun p => if (fst p =? fst kv)%Z then snd kv else snd p) (combine s a)) d a in
  length r = length s /\
  forall i, i < length s -> nth i r 0%Z = match dget Z.eqb d (nth i s 0%Z) with Some v => v | None => nth i a 0%Z end.
Proof.
  induction d as [|[k v] d IH]; intros a La ND; cbn [fold_left dget]; [auto|].
  inversion ND as [|? ? N1 N2]; subst.
  set (a' := map (fun p => if (fst p =? fst (k, v))%Z then snd (k, v) else snd p) (combine s a)).
  assert (La' : length a' = length s) by (unfold a'; rewrite map_length, combine_length; lia).
  destruct (IH a' La' N2) as [L1 H1]. split; auto. intros i Hi. rewrite H1 by auto.
  assert (Ea : nth i a' 0%Z = if (nth i s 0 =? k)%Z then v else nth i a 0%Z).
  { unfold a'. apply nth_error_nth. rewrite nth_error_map.
    assert (Ec : nth_error (combine s a) i = Some (nth i s 0%Z, nth i a 0%Z)) by (apply nth_error_combine; split; apply nth_error_nth'; lia).
    rewrite Ec. reflexivity. }
  rewrite Ea. cbn [dget fst snd]. destruct (Z.eqb_spec (nth i s 0%Z) k) as [E|E].
  - rewrite (proj2 (dget_none Z.eqb zeqb d (nth i s 0%Z))); auto. now rewrite E.
  - reflexivity.
Qed.

Section Fin.
  Variables (lim : nat) (g : ngraph) (s : grp).
  Notation t := (g_seg s).
  Notation k := (Z.of_nat (length t)).
  Hypothesis O : segs_ok t.
  Hypothesis H_nsr : forall n q r, In (n, q, r) (g_nsr s) -> In q (map fst t).

  Lemma topo_same : fold_left (fun t kv => add_connection t (fst kv) (snd kv)) t [] = t.
  Proof.
    unfold add_connection. rewrite (@fold_dset_fresh (Z * Z) Z fst snd); auto; [|apply (so_nd O)].
    rewrite app_nil_l. rewrite <- (map_id t) at 2. apply map_ext. now intros [a b].
  Qed.

  Lemma fin_closed : closed t.
  Proof. intros a b H. apply (dget_in Z.eqb zeqb) in H. now apply (so_val O) in H. Qed.

  Definition new_strm (mu : Z -> Z) (z : Z) : Z := if ((0 <=? z) && (z <=? k))%Z then mu z else 0%Z.

  Lemma finish_spec sorted : topo_sort lim t = Ok sorted ->
    exists mu m, finish lim g s = Ok m /\ renum mu k /\
      m_strm m = map (new_strm mu) (g_strm s) /\ m_graph m = g /\
      m_seg m = map (fun kv => (mu (fst kv), mu (snd kv))) t /\
      m_nsr m = map (fun r => (fst (fst r), mu (snd (fst r)), snd r)) (g_nsr s) /\
      (forall a b, In (a, b) t -> b <> 0%Z -> b <> a -> ~ leads t b a -> (mu a < mu b)%Z).
  Proof.
    intros Es. destruct (topo_sort_ok t lim (so_nd O) Es) as [v [I Hin]]. assert (ND := s_nd I).
    assert (Hs : forall x, In x sorted <-> (1 <= x <= k)%Z).
    { intros x. rewrite Hin, (so_key O). lia. }
    assert (Ls : length sorted = length t).
    { apply Nat.le_antisymm.
      - rewrite <- (map_length fst t). apply NoDup_incl_length; auto. intros x Hx. apply (so_key O). now apply Hs.
      - rewrite <- (map_length fst t). apply NoDup_incl_length; [apply (so_nd O)|]. intros x Hx. apply Hs. now apply (so_key O). }
    set (mapper := dset Z.eqb (enumerate1 sorted) 0%Z 0%Z).
    assert (Em : mapper = enumerate1 sorted ++ [(0, 0)]%Z).
    { unfold mapper. apply dset_fresh. rewrite enumerate1_keys by auto. rewrite Hs. lia. }
    set (mu := fun x => match dget Z.eqb mapper x with Some y => y | None => 0%Z end).
    assert (M0 : dget Z.eqb mapper 0%Z = Some 0%Z) by (unfold mapper; apply (dget_dset_eq Z.eqb zeqb)).
    assert (Mi : forall i x, nth_error sorted i = Some x -> dget Z.eqb mapper x = Some (Z.of_nat (S i))).
    { intros i x Hx. unfold mapper. rewrite (dget_dset_neq Z.eqb zeqb); [now apply enumerate1_get|].
      intros <-. apply nth_error_In in Hx. apply Hs in Hx. lia. }
    assert (Mx : forall x, (0 <= x <= k)%Z -> dget Z.eqb mapper x = Some (mu x)).
    { intros x Hx. unfold mu. destruct (Z.eq_dec x 0) as [->|Nx]; [now rewrite M0|].
      assert (X : In x sorted) by (apply Hs; lia). apply In_nth_error in X. destruct X as [i Hi]. now rewrite (Mi _ _ Hi). }
    assert (Mn : forall x, ~ (0 <= x <= k)%Z -> dget Z.eqb mapper x = None).
    { intros x Hx. apply (dget_none Z.eqb zeqb). rewrite Em, map_app, enumerate1_keys by auto. rewrite in_app_iff, Hs. simpl. lia. }
    assert (Mu : forall i x, nth_error sorted i = Some x -> mu x = Z.of_nat (S i)).
    { intros i x Hx. unfold mu. now rewrite (Mi _ _ Hx). }
    assert (R : renum mu k).
    { constructor.
      - unfold mu. now rewrite M0.
      - intros x Hx. apply Hs, In_nth_error in Hx. destruct Hx as [i Hi]. rewrite (Mu _ _ Hi).
        assert (i < length sorted) by (apply nth_error_Some; congruence). lia.
      - intros x y Hx Hy E. apply Hs, In_nth_error in Hx. apply Hs, In_nth_error in Hy. destruct Hx as [i Hi]. destruct Hy as [j Hj].
        rewrite (Mu _ _ Hi), (Mu _ _ Hj) in E. assert (i = j) by lia. congruence.
      - intros y Hy. destruct (nth_error sorted (Z.to_nat y - 1)) as [x|] eqn:Ex; [|apply nth_error_None in Ex; lia].
        exists x. split; [apply Hs; eapply nth_error_In; eauto|]. rewrite (Mu _ _ Ex). lia. }
    unfold finish. rewrite topo_same, Es. cbn [bind]. cbv zeta. fold mapper.
    assert (E1 : mapM (fun r => let '(node, seg, rch) := r in new <- dgetE Z.eqb mapper seg ;; Ok (node, new, rch)) (g_nsr s)
                 = Ok (map (fun r => (fst (fst r), mu (snd (fst r)), snd r)) (g_nsr s))).
    { apply mapM_ok. intros [[n q] r] Hr. apply H_nsr in Hr. apply (so_key O) in Hr. unfold dgetE. rewrite Mx by lia. reflexivity. }
    rewrite E1. cbn [bind].
    assert (E2 : foldM (fun t kv => a <- dgetE Z.eqb mapper (fst kv) ;; b <- dgetE Z.eqb mapper (snd kv) ;; Ok (dset Z.eqb t a b)) t []
                 = Ok ([] ++ map (fun kv => (mu (fst kv), mu (snd kv))) t)).
    { apply (@foldM_dset_fresh (Z * Z) Z _ (fun kv => mu (fst kv)) (fun kv => mu (snd kv))).
      - intros [a b] d Hab. cbn [fst snd]. unfold dgetE.
        assert (Ha : In a (map fst t)) by (apply in_map_iff; exists (a, b); auto). apply (so_key O) in Ha.
        assert (Hb := so_val O _ _ Hab). rewrite (so_key O) in Hb. rewrite !Mx by lia. reflexivity.
      - rewrite <- (map_map fst mu). apply nodup_map_in; [apply (so_nd O)|]. intros x y Hx Hy.
        apply (so_key O) in Hx. apply (so_key O) in Hy. now apply (rn_inj R).
      - auto. }
    rewrite E2. cbn [bind]. rewrite app_nil_l.
    assert (NDm : NoDup (map fst mapper)) by (unfold mapper; apply (dset_nodup Z.eqb zeqb); now rewrite enumerate1_keys).
    destruct (@array_fold (g_strm s) mapper (repeat 0%Z (length (g_strm s)))) as [La Ha]; [apply repeat_length|auto|].
    eexists mu, _. split; [reflexivity|]. split; auto. cbn [m_strm m_graph m_seg m_nsr]. repeat split.
    - apply nth_error_ext. intros i. destruct (Nat.lt_ge_cases i (length (g_strm s))) as [Hi|Hi].
      + rewrite (nth_error_nth' _ 0%Z) by lia. rewrite Ha by auto. rewrite nth_error_map, (nth_error_nth' (g_strm s) 0%Z) by auto.
        cbn [option_map]. f_equal. unfold new_strm.
        destruct (Z.leb_spec 0 (nth i (g_strm s) 0%Z)); destruct (Z.leb_spec (nth i (g_strm s) 0%Z) k); cbn [andb].
        * now rewrite Mx by lia.
        * rewrite Mn by lia. apply nth_repeat.
        * rewrite Mn by lia. apply nth_repeat.
        * rewrite Mn by lia. apply nth_repeat.
      + rewrite (proj2 (nth_error_None _ i)) by lia. symmetry. apply nth_error_None. now rewrite map_length.
    - intros a b Hab Nb Nba Hl. assert (Ha' : In a (map fst t)) by (apply in_map_iff; exists (a, b); auto).
      assert (Hb' : In b (map fst t)) by (destruct (so_val O _ _ Hab); [contradiction|auto]).
      apply (so_key O), Hs, In_nth_error in Ha'. destruct Ha' as [i Hi].
      apply (so_key O), Hs, In_nth_error in Hb'. destruct Hb' as [j Hj].
      rewrite (Mu _ _ Hi), (Mu _ _ Hj).
      assert (Hab' : dget Z.eqb t a = Some b) by (apply (dget_in_nodup Z.eqb zeqb); auto; apply (so_nd O)).
      destruct (s_ord I a (nth_error_In _ _ Hi) Hab') as [X|[X|[X|X]]]; try contradiction.
      assert (Hij := @before_index [] [] eq_refl Z a b sorted i j ND X Hi Hj). lia.
  Qed.

  Lemma finish_total : S (length t) <= lim -> exists m, finish lim g s = Ok m.
  Proof.
    intros Hl. destruct (topo_sort_total (so_nd O) fin_closed Hl) as [sorted E].
    destruct (finish_spec E) as [mu [m [Em _]]]. eauto.
  Qed.

  Lemma finish_inv m : finish lim g s = Ok m -> exists mu, renum mu k /\
      m_strm m = map (new_strm mu) (g_strm s) /\ m_graph m = g /\
      m_seg m = map (fun kv => (mu (fst kv), mu (snd kv))) t /\
      m_nsr m = map (fun r => (fst (fst r), mu (snd (fst r)), snd r)) (g_nsr s) /\
      (forall a b, In (a, b) t -> b <> 0%Z -> b <> a -> ~ leads t b a -> (mu a < mu b)%Z).
  Proof.
    intros E. destruct (topo_sort lim t) as [sorted|e] eqn:Es.
    - destruct (finish_spec Es) as [mu [m' [Em R]]]. rewrite Em in E. inversion E; subst. eauto.
    - unfold finish in E. rewrite topo_same, Es in E. discriminate.
  Qed.
End Fin.
