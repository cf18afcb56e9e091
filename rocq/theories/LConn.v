(** Lemmas about connectiondata and packagedata. *)
From Verif Require Import Py Spec MFlow LGraph LTopo MStream LStream.
Set Implicit Arguments.
Local Open Scope Z_scope.
Local Open Scope list_scope.

Lemma isort_zlt l : NoDup l -> StronglySorted Z.lt (isort Z.leb l).
Proof.
  intros ND. assert (S : StronglySorted Z.le (isort Z.leb l)).
  { apply isort_sorted; intros; [now apply Z.leb_le| |lia]. apply Z.leb_gt in H. lia. }
  assert (ND' := isort_nodup Z.leb ND). clear ND. induction S as [|x r S IH F]; constructor.
  - apply IH. now inversion ND'.
  - inversion ND'; subst. rewrite Forall_forall in *. intros y Hy. specialize (F y Hy).
    assert (x <> y) by congruence. lia.
Qed.

Lemma insert_key {V} (x : Z * V) l : map fst (insert (fun a b : Z * V => fst a <=? fst b) x l) = insert Z.leb (fst x) (map fst l).
Proof. induction l as [|y l IH]; simpl; auto. destruct (fst x <=? fst y); simpl; auto. now rewrite IH. Qed.

Lemma sorted_items_keys {V} (g : list (Z * V)) : map fst (sorted_items g) = isort Z.leb (map fst g).
Proof. unfold sorted_items. induction g as [|x g IH]; simpl; auto. now rewrite insert_key, IH. Qed.

Lemma sorted_items_in {V} (g : list (Z * V)) x : In x (sorted_items g) <-> In x g.
Proof. apply isort_in. Qed.

Lemma sorted_items_perm {V} (g : list (Z * V)) : Permutation g (sorted_items g).
Proof. apply isort_perm. Qed.

Lemma sorted_items_map {V W} (f : V -> W) (g : list (Z * V)) :
  sorted_items (map (fun kv => (fst kv, f (snd kv))) g) = map (fun kv => (fst kv, f (snd kv))) (sorted_items g).
Proof.
  unfold sorted_items. induction g as [|x g IH]; simpl; auto. rewrite IH. generalize (isort (fun a b : Z * V => fst a <=? fst b) g).
  intros l. induction l as [|y l IHl]; simpl; auto. destruct (fst x <=? fst y); simpl; auto. now rewrite IHl.
Qed.

Lemma dset_keys_in {V} (d : list (Z * V)) k v : In k (map fst d) -> map fst (dset Z.eqb d k v) = map fst d.
Proof. intros H. rewrite (dset_keys Z.eqb). apply (dhas_spec Z.eqb zeqb) in H. now rewrite H. Qed.

Lemma dget_some_key {V} (d : list (Z * V)) k v : dget Z.eqb d k = Some v -> In k (map fst d).
Proof. intros H. apply (dget_in Z.eqb zeqb) in H. apply in_map_iff. exists (k, v). auto. Qed.

Lemma dget_key_some {V} (d : list (Z * V)) k : In k (map fst d) -> exists v, dget Z.eqb d k = Some v.
Proof. intros H. destruct (dget Z.eqb d k) eqn:E; eauto. apply (dget_none Z.eqb zeqb) in E. contradiction. Qed.

Section Conn.
  Variable g : topology.
  Hypothesis ND : NoDup (map fst g).
  Hypothesis pos : forall r t, In (r, t) g -> 0 < r.
  Hypothesis clo : forall r t, In (r, t) g -> t = 0 \/ In t (map fst g).

  Notation items := (sorted_items g).

  Definition link_to (k : Z) (p : Z * Z) : bool := (snd p =? k) && negb (fst p =? k).
  Definition ups (done : topology) (k : Z) : list Z := rev (map fst (filter (link_to k) done)).
  Definition dns (done : topology) (k : Z) : list Z :=
    match dget Z.eqb done k with
    | Some t => if (t =? 0) || (t =? k) then [] else [-1 * t]
    | None => []
    end.

  Definition cstep (d : list (Z * list Z)) (kv : Z * option Z) : res (list (Z * list Z)) :=
         let '(reach, to) := kv : Z * option Z in
         match to with
         | None => Err TypeError
         | Some reach_to =>
             if reach_to =? 0 then Ok d
             else if reach_to =? reach then Ok d
             else
               l1 <- dgetE Z.eqb d reach ;;
               let d1 := dset Z.eqb d reach (l1 ++ [-1 * reach_to]) in
               l2 <- dgetE Z.eqb d1 reach_to ;;
               Ok (dset Z.eqb d1 reach_to (reach :: l2))
         end.

  Definition cinv (done : topology) (d : list (Z * list Z)) : Prop :=
    map fst d = isort Z.leb (map fst g) /\
    forall k, In k (map fst g) -> dget Z.eqb d k = Some (ups done k ++ dns done k).

  Lemma items_nodup : NoDup (map fst items).
  Proof. rewrite sorted_items_keys. now apply isort_nodup. Qed.

  Lemma ups_snoc done r t k : ups (done ++ [(r, t)]) k = if link_to k (r, t) then r :: ups done k else ups done k.
  Proof. unfold ups. rewrite filter_app. simpl. destruct (link_to k (r, t)); rewrite map_app, rev_app_distr; reflexivity. Qed.

  Lemma dget_snoc {V} (d : list (Z * V)) r t k : dget Z.eqb (d ++ [(r, t)]) k =
    match dget Z.eqb d k with Some v => Some v | None => if k =? r then Some t else None end.
  Proof. induction d as [|[k' v'] d IH]; simpl; [destruct (k =? r); auto|]. destruct (k =? k'); auto. Qed.

  Lemma conn_fold : exists d, foldM cstep (map (fun kv => (fst kv, Some (snd kv))) items)
      (fold_left (fun d k => dset Z.eqb d k []) (isort Z.leb (map fst g)) []) = Ok d /\ cinv items d.
  Proof.
    assert (NDs : NoDup (isort Z.leb (map fst g))) by (now apply isort_nodup).
    assert (E0 : fold_left (fun d k => dset Z.eqb d k []) (isort Z.leb (map fst g)) []
                 = map (fun k => (k, @nil Z)) (isort Z.leb (map fst g))).
    { rewrite (@fold_dset_fresh Z (list Z) (fun k => k) (fun _ => [])); auto. now rewrite map_id. }
    rewrite E0.
    assert (I0 : cinv [] (map (fun k => (k, @nil Z)) (isort Z.leb (map fst g)))).
    { split; [rewrite map_map; apply map_id|]. intros k Hk. unfold ups, dns. simpl.
      apply (dget_in_nodup Z.eqb zeqb); [rewrite map_map; simpl; now rewrite map_id|].
      apply in_map_iff. exists k. split; auto. now apply isort_in. }
    assert (G : forall todo done d, items = done ++ todo -> cinv done d ->
       exists d', foldM cstep (map (fun kv => (fst kv, Some (snd kv))) todo) d = Ok d' /\ cinv items d').
    { induction todo as [|[r t] todo IH]; intros done d E I.
      - exists d. split; auto. rewrite app_nil_r in E. now rewrite E.
      - assert (Hin : In (r, t) g).
        { apply sorted_items_in. rewrite E. apply in_app_iff. right. now left. }
        assert (Hr : In r (map fst g)) by (apply in_map_iff; exists (r, t); auto).
        assert (NDi := items_nodup). rewrite E, map_app in NDi. simpl in NDi.
        assert (Hnd : ~ In r (map fst done)).
        { intros X. apply NoDup_remove_2 in NDi. apply NDi. apply in_app_iff. now left. }
        assert (Hg0 : dget Z.eqb done r = None) by (now apply (dget_none Z.eqb zeqb)).
        assert (Hstep : exists d1, cstep d (r, Some t) = Ok d1 /\ cinv (done ++ [(r, t)]) d1).
        { destruct I as [I1 I2]. unfold cstep. destruct (Z.eqb_spec t 0) as [->|Ht0].
          - exists d. split; auto. split; auto. intros k Hk. rewrite (I2 k Hk). f_equal. rewrite ups_snoc.
            unfold link_to. cbn [fst snd]. assert (Pk : 0 < k) by (apply in_map_iff in Hk; destruct Hk as [[a b] [<- Hk]]; eapply pos; eauto).
            destruct (Z.eqb_spec 0 k); [lia|]. cbn [andb]. f_equal. unfold dns. rewrite dget_snoc.
            destruct (Z.eqb_spec k r); [subst; now rewrite Hg0|]. destruct (dget Z.eqb done k); auto.
          - destruct (Z.eqb_spec t r) as [->|Htr].
            + exists d. split; auto. split; auto. intros k Hk. rewrite (I2 k Hk). f_equal. rewrite ups_snoc.
              unfold link_to. cbn [fst snd]. destruct (Z.eqb_spec r k); cbn [andb negb]; f_equal; unfold dns; rewrite dget_snoc.
              * subst. rewrite Hg0, Z.eqb_refl, Z.eqb_refl. now rewrite orb_true_r.
              * destruct (Z.eqb_spec k r); [congruence|]. destruct (dget Z.eqb done k); auto.
            + assert (Ht : In t (map fst g)) by (destruct (clo _ _ Hin); [contradiction|auto]).
              unfold dgetE at 1. rewrite (I2 r Hr). cbn [bind]. cbv zeta.
              unfold dgetE. rewrite (dget_dset_neq Z.eqb zeqb) by congruence. rewrite (I2 t Ht). cbn [bind].
              eexists. split; [reflexivity|].
              assert (K : map fst (dset Z.eqb d r ((ups done r ++ dns done r) ++ [-1 * t])) = map fst d).
              { apply dset_keys_in. rewrite I1. now apply isort_in. }
              split; [rewrite dset_keys_in; [congruence|]; rewrite K, I1; now apply isort_in|].
              intros k Hk. rewrite ups_snoc. unfold link_to. cbn [fst snd].
              destruct (Z.eq_dec k t) as [->|Nkt].
              * rewrite (dget_dset_eq Z.eqb zeqb). rewrite Z.eqb_refl. destruct (Z.eqb_spec r t); [congruence|]. cbn [andb negb].
                rewrite <- app_comm_cons. do 2 f_equal. f_equal. unfold dns. rewrite dget_snoc.
                destruct (Z.eqb_spec t r); [congruence|]. destruct (dget Z.eqb done t); auto.
              * rewrite (dget_dset_neq Z.eqb zeqb) by congruence. destruct (Z.eqb_spec t k); [congruence|]. cbn [andb].
                destruct (Z.eq_dec k r) as [->|Nkr].
                -- rewrite (dget_dset_eq Z.eqb zeqb). f_equal. rewrite <- app_assoc. f_equal. unfold dns.
                   rewrite dget_snoc, Hg0, Z.eqb_refl. destruct (Z.eqb_spec t 0); [congruence|]. destruct (Z.eqb_spec t r); [congruence|]. reflexivity.
                -- rewrite (dget_dset_neq Z.eqb zeqb) by congruence. rewrite (I2 k Hk). do 2 f_equal. unfold dns. rewrite dget_snoc.
                   destruct (Z.eqb_spec k r); [congruence|]. destruct (dget Z.eqb done k); auto. }
        destruct Hstep as [d1 [E1 I1]]. cbn [map foldM fst snd]. rewrite E1. cbn [bind].
        apply (IH (done ++ [(r, t)]) d1); auto. now rewrite <- app_assoc. }
    apply (G items [] _); auto.
  Qed.

  Definition crecord (r t : Z) : list Z :=
    (r - 1) :: map (fun u => u - 1) (ups items r) ++ (if (t =? 0) || (t =? r) then [] else [1 - t]).

  Lemma map_dict {V W} (f : Z * V -> W) (d : list (Z * V)) (l : topology) (h : Z * Z -> W) :
    NoDup (map fst d) -> map fst d = map fst l ->
    (forall k v t, dget Z.eqb d k = Some v -> In (k, t) l -> f (k, v) = h (k, t)) -> map f d = map h l.
  Proof.
    intros NDd E H.
    assert (G : forall d' l', map fst d' = map fst l' -> (forall x, In x d' -> In x d) -> (forall x, In x l' -> In x l) -> map f d' = map h l').
    { induction d' as [|[k v] d' IH]; intros [|[k' t] l'] E' Hd Hl; try discriminate; auto.
      simpl in E'. inversion E'; subst k'. simpl. f_equal.
      - apply H; [|apply Hl; now left]. apply (dget_in_nodup Z.eqb zeqb); auto. apply Hd. now left.
      - apply IH; auto; intros; [apply Hd|apply Hl]; now right. }
    apply G; auto.
  Qed.

  Lemma conn_eq : connectiondata (some_graph g) = Ok (map (fun p => crecord (fst p) (snd p)) items).
  Proof.
    unfold connectiondata. fold cstep. unfold some_graph.
    rewrite (sorted_items_map (@Some Z) g). rewrite map_map. cbn [fst].
    rewrite (map_ext (fun x : Z * Z => fst x) fst) by reflexivity.
    destruct conn_fold as [d [E [I1 I2]]]. rewrite E. cbn [bind]. f_equal.
    apply map_dict.
    - rewrite I1. now apply isort_nodup.
    - rewrite I1. symmetry. apply sorted_items_keys.
    - intros k v t Hv Ht. apply (proj1 (sorted_items_in g (k, t))) in Ht.
      assert (Hk : In k (map fst g)) by (apply in_map_iff; exists (k, t); auto).
      rewrite (I2 k Hk) in Hv. inversion Hv; subst v. cbn [fst snd]. unfold crecord. f_equal. rewrite map_app. f_equal.
      + apply map_ext_in. intros u Hu. unfold ups in Hu. apply in_rev in Hu. apply in_map_iff in Hu.
        destruct Hu as [[u' t'] [<- Hu]]. apply filter_In in Hu. destruct Hu as [Hu _]. apply (proj1 (sorted_items_in g _)) in Hu.
        apply pos in Hu. cbn [fst]. destruct (Z.ltb_spec 0 u'); lia.
      + unfold dns. rewrite (dget_in_nodup Z.eqb zeqb items k t); [|apply items_nodup|now apply sorted_items_in].
        destruct ((t =? 0) || (t =? k)) eqn:Et; auto. cbn [map]. f_equal.
        apply orb_false_iff in Et. destruct Et as [Et _]. apply Z.eqb_neq in Et.
        destruct (clo _ _ Ht) as [|X]; [contradiction|]. apply in_map_iff in X. destruct X as [[a b] [<- X]]. apply pos in X. cbn [fst] in *.
        destruct (Z.ltb_spec 0 (-1 * a)); lia.
  Qed.

  Lemma ups_in k u : In u (ups items k) <-> In (u, k) g /\ u <> k.
  Proof.
    unfold ups. rewrite <- in_rev, in_map_iff. split.
    - intros [[a b] [<- H]]. apply filter_In in H. destruct H as [H1 H2]. apply (proj1 (sorted_items_in g _)) in H1.
      unfold link_to in H2. cbn [fst snd] in *. apply andb_prop in H2. destruct H2 as [H2 H3]. apply Z.eqb_eq in H2.
      apply negb_true_iff, Z.eqb_neq in H3. subst. auto.
    - intros [H1 H2]. exists (u, k). split; auto. apply filter_In. split; [now apply sorted_items_in|].
      unfold link_to. cbn [fst snd]. rewrite Z.eqb_refl. destruct (Z.eqb_spec u k); [contradiction|auto].
  Qed.

  Lemma sorted_filter {A} (R : A -> A -> Prop) (f : A -> bool) l : StronglySorted R l -> StronglySorted R (filter f l).
  Proof. induction 1 as [|x l S IH F]; simpl; [constructor|]. destruct (f x); auto. constructor; auto.
    rewrite Forall_forall in *. intros y Hy. apply filter_In in Hy. now apply F. Qed.

  Lemma sorted_map_key (l : topology) (f : Z * Z -> bool) : StronglySorted Z.lt (map fst l) -> StronglySorted Z.lt (map fst (filter f l)).
  Proof. induction l as [|x l IH]; simpl; intros S; [constructor|]. inversion S as [|? ? S1 F]; subst.
    destruct (f x); simpl; auto. constructor; auto. rewrite Forall_forall in *. intros y Hy. apply F.
    apply in_map_iff in Hy. destruct Hy as [z [<- Hz]]. apply filter_In in Hz. apply in_map. tauto. Qed.

  Lemma sorted_snoc {A} (R : A -> A -> Prop) l x : StronglySorted R l -> Forall (fun y => R y x) l -> StronglySorted R (l ++ [x]).
  Proof. induction 1 as [|y l S IH F]; intros Fx; simpl; [repeat constructor|]. inversion Fx; subst. constructor; auto.
    apply Forall_app. split; auto. Qed.

  Lemma sorted_rev l : StronglySorted Z.lt l -> StronglySorted Z.gt (rev l).
  Proof. induction 1 as [|x l S IH F]; simpl; [constructor|]. apply sorted_snoc; auto.
    rewrite Forall_forall in *. intros y Hy. apply in_rev in Hy. specialize (F y Hy). lia. Qed.

  Lemma ups_sorted k : StronglySorted Z.gt (ups items k).
  Proof. unfold ups. apply sorted_rev, sorted_map_key. rewrite sorted_items_keys. now apply isort_zlt. Qed.
End Conn.

(** ** packagedata *)
Section Pkg.
  Variables (g : topology) (strm : list Z) (cell : Z -> nat).
  Hypothesis ND : NoDup (map fst g).
  Hypothesis pos : forall r t, In (r, t) g -> 0 < r.
  Hypothesis clo : forall r t, In (r, t) g -> t = 0 \/ In t (map fst g).
  Hypothesis Hcell : forall r, In r (map fst g) -> first_where r strm = Ok (cell r).

  Definition prec (p : Z * Z) : pkg :=
    Pkg (fst p - 1) (cell (fst p)) (if snd p =? 0 then cell (fst p) else cell (snd p))
        (Z.of_nat (length (crecord g (fst p) (snd p))) - 1).

  Lemma packagedata_eq : packagedata (some_graph g) strm = Ok (map prec (sorted_items g)).
  Proof.
    unfold packagedata. rewrite (conn_eq g ND pos clo). cbn [bind]. unfold some_graph.
    rewrite (sorted_items_map (@Some Z) g).
    set (conn := map (fun p : Z * Z => crecord g (fst p) (snd p)) (sorted_items g)).
    match goal with |- bind (foldM ?F _ _) _ = _ => set (f := F) end.
    assert (G : forall todo done, sorted_items g = done ++ todo ->
      foldM f (map (fun kv => (fst kv, Some (snd kv))) todo) (map prec done, length done)
      = Ok (map prec (sorted_items g), length (sorted_items g))).
    { induction todo as [|[r t] todo IH]; intros done E.
      - simpl. rewrite app_nil_r in E. now rewrite E.
      - cbn [map foldM fst snd].
        assert (Hin : In (r, t) g).
        { apply sorted_items_in. rewrite E. apply in_app_iff. right. now left. }
        assert (Hr : In r (map fst g)) by (apply in_map_iff; exists (r, t); auto).
        assert (Hc : get conn (length done) = Ok (crecord g r t)).
        { apply get_ok. unfold conn. rewrite nth_error_map, E. rewrite nth_error_app2 by lia. now rewrite Nat.sub_diag. }
        assert (Ef : f (map prec done, length done) (r, Some t) = Ok (map prec done ++ [prec (r, t)], S (length done))).
        { unfold f. cbn [fst snd]. rewrite (Hcell _ Hr). cbn [bind].
          destruct (Z.eqb_spec t 0) as [->|Nt].
          - cbn [bind]. rewrite Hc. cbn [bind]. reflexivity.
          - assert (Ht : In t (map fst g)) by (destruct (clo _ _ Hin); [contradiction|auto]).
            replace (match t with 0 => Ok (cell r) | _ => first_where t strm end) with (Ok (cell t))
              by (rewrite <- (Hcell _ Ht); destruct t; auto; congruence).
            cbn [bind]. rewrite Hc. cbn [bind]. unfold prec. cbn [fst snd]. destruct (Z.eqb_spec t 0); [contradiction|]. reflexivity. }
        rewrite Ef. cbn [bind]. specialize (IH (done ++ [(r, t)])). rewrite map_app, app_length in IH.
        replace (length done + length [(r, t)])%nat with (S (length done)) in IH by (simpl; lia).
        apply IH. now rewrite <- app_assoc. }
    specialize (G (sorted_items g) [] eq_refl). cbn [map length] in G. rewrite G. reflexivity.
  Qed.
End Pkg.

(** ** the graph made by mf6_connectivity *)
Section Graph6.
  Variables (fdir strm : list Z) (s2 : list Z) (g : topology) (order : list nat).
  Hypothesis R : mf6_result fdir strm s2 g order.
  Notation nodes := (nonzero strm).

  Lemma order_in c : In c order <-> In c nodes.
  Proof. split; apply Permutation_in; [|symmetry]; apply (r_perm R). Qed.
  Lemma order_nodup : NoDup order.
  Proof. apply (Permutation_NoDup (Permutation_sym (r_perm R))), nonzero_nodup. Qed.
  Lemma g_keys : map fst g = map Z.of_nat (seq 1 (length order)).
  Proof.
    rewrite (r_graph R), map_map. cbn [fst]. apply nth_error_ext. intros i. rewrite !nth_error_map.
    destruct (nth_error order i) as [c|] eqn:E.
    - rewrite nth_error_seq by (apply nth_error_Some; congruence). simpl. f_equal. now apply (r_at R).
    - apply nth_error_None in E. replace (nth_error (seq 1 (length order)) i) with (@None nat); auto.
      symmetry. apply nth_error_None. now rewrite seq_length.
  Qed.
  Lemma g_nodup : NoDup (map fst g).
  Proof. rewrite g_keys. apply FinFun.Injective_map_NoDup; [|apply seq_NoDup]. intros a b. apply Nat2Z.inj. Qed.
  Lemma g_pos r t : In (r, t) g -> 0 < r.
  Proof. intros H. assert (X : In r (map fst g)) by (apply in_map_iff; exists (r, t); auto). rewrite g_keys in X.
    apply in_map_iff in X. destruct X as [k [<- X]]. apply in_seq in X. lia. Qed.
  Lemma g_in r t : In (r, t) g <-> exists c, In c nodes /\ r = nth c s2 0 /\ t = nth (down fdir c) s2 0.
  Proof.
    rewrite (r_graph R), in_map_iff. split; intros [c H]; exists c.
    - destruct H as [E H]. inversion E. split; [now apply order_in|auto].
    - destruct H as [H [-> ->]]. split; auto. now apply order_in.
  Qed.
  Lemma g_clo r t : In (r, t) g -> t = 0 \/ In t (map fst g).
  Proof.
    intros H. apply g_in in H. destruct H as [c [Hc [-> ->]]].
    destruct (in_dec Nat.eq_dec (down fdir c) nodes) as [Hd|Hd].
    - right. apply in_map_iff. exists (nth (down fdir c) s2 0, nth (down fdir (down fdir c)) s2 0).
      split; auto. apply g_in. eauto.
    - left. now apply (r_off R).
  Qed.
  Lemma s2_pos c : In c nodes -> 0 < nth c s2 0.
  Proof. intros H. apply order_in, In_nth_error in H. destruct H as [i Hi]. rewrite (r_at R _ Hi). lia. Qed.
  Lemma s2_inj c c' : In c nodes -> In c' nodes -> nth c s2 0 = nth c' s2 0 -> c = c'.
  Proof. intros H H' E. apply order_in, In_nth_error in H. apply order_in, In_nth_error in H'.
    destruct H as [i Hi], H' as [j Hj]. rewrite (r_at R _ Hi), (r_at R _ Hj) in E. assert (i = j) by lia. congruence. Qed.
  Lemma s2_nonzero c : In c nodes <-> nth c s2 0 <> 0.
  Proof. destruct (in_dec Nat.eq_dec c nodes) as [H|H]; split; intros X; auto.
    - assert (P := s2_pos _ H). lia.
    - exfalso. apply X. now apply (r_off R). Qed.
  Definition cell6 (r : Z) : nat := nth (Z.to_nat r - 1) order O.
  Lemma cell6_eq c : In c nodes -> cell6 (nth c s2 0) = c.
  Proof. intros H. apply order_in, In_nth_error in H. destruct H as [i Hi]. rewrite (r_at R _ Hi). unfold cell6.
    rewrite Nat2Z.id. replace (S i - 1)%nat with i by lia. now apply nth_error_nth. Qed.
  Lemma g_sorted : sorted_items g = g.
  Proof.
    assert (S : StronglySorted Z.lt (map fst g)).
    { rewrite g_keys. generalize (length order) 1%nat. induction n as [|n IH]; intros s; simpl; constructor; auto.
      apply Forall_forall. intros x Hx. apply in_map_iff in Hx. destruct Hx as [k [<- Hk]]. apply in_seq in Hk. lia. }
    unfold sorted_items. clear -S. induction g as [|x l IH]; auto. simpl in S. inversion S as [|? ? S1 F]; subst. simpl.
    rewrite IH by auto. destruct l as [|y l]; auto. simpl. inversion F; subst. destruct (Z.leb_spec (fst x) (fst y)); [auto|lia].
  Qed.
  Hypothesis L : length strm = length fdir.
  Lemma first_where6 c : In c nodes -> first_where (nth c s2 0) s2 = Ok c.
  Proof.
    intros H. unfold first_where. assert (W : where_ (Z.eqb (nth c s2 0)) s2 = [c]).
    { apply sorted_lt_ext; [apply where_sorted|repeat constructor|]. intros x.
      rewrite (in_where_nth _ _ _ 0). rewrite Z.eqb_eq. simpl. split.
      - intros [Hx E]. left. apply s2_inj; auto. apply s2_nonzero. rewrite <- E. assert (P := s2_pos _ H). lia.
      - intros [<-|[]]. split; auto. rewrite (r_len R). apply in_nonzero in H. lia. }
    rewrite W. reflexivity.
  Qed.
End Graph6.
