(** Lemmas about the MODFLOW-2005 segment grouping. *)
From Verif Require Import Py Spec MFlow LGraph LTopo MStream LStream.
Set Implicit Arguments.
Local Open Scope nat_scope.
Local Open Scope list_scope.

(** ** dictionaries that number their keys 1, 2, 3, ... *)
Definition enum (K : list Z) : list (Z * Z) := combine K (map Z.of_nat (seq 1 (length K))).

Lemma enum_keys K : map fst (enum K) = K.
Proof. unfold enum. apply map_fst_combine. now rewrite map_length, seq_length. Qed.

Lemma enum_length K : length (enum K) = length K.
Proof. unfold enum. rewrite combine_length, map_length, seq_length. lia. Qed.

Lemma combine_app {A B} (l1 l2 : list A) (m1 m2 : list B) : length l1 = length m1 ->
  combine (l1 ++ l2) (m1 ++ m2) = combine l1 m1 ++ combine l2 m2.
Proof. revert m1; induction l1 as [|x l1 IH]; intros [|y m1] H; simpl in *; try discriminate; auto. f_equal. auto. Qed.

Lemma enum_snoc K x : enum (K ++ [x]) = enum K ++ [(x, Z.of_nat (S (length K)))].
Proof.
  unfold enum. rewrite app_length. simpl. replace (length K + 1) with (S (length K)) by lia.
  rewrite seq_S, map_app. rewrite combine_app by (now rewrite map_length, seq_length). reflexivity.
Qed.

Lemma enum_dset K x : ~ In x K -> dset Z.eqb (enum K) x (Z.of_nat (S (length K))) = enum (K ++ [x]).
Proof. intros H. rewrite dset_fresh by (now rewrite enum_keys). now rewrite enum_snoc. Qed.

Lemma enum_get K i x : NoDup K -> nth_error K i = Some x -> dget Z.eqb (enum K) x = Some (Z.of_nat (S i)).
Proof.
  intros ND H. apply (dget_in_nodup Z.eqb zeqb); [now rewrite enum_keys|].
  apply nth_error_In with (n := i). apply nth_error_combine. split; auto.
  rewrite nth_error_map. rewrite nth_error_seq; auto. apply nth_error_Some. congruence.
Qed.

Lemma enum_get_none K x : ~ In x K -> dget Z.eqb (enum K) x = None.
Proof. intros H. apply (dget_none Z.eqb zeqb). now rewrite enum_keys. Qed.

Lemma enum_has K x : dhas Z.eqb (enum K) x = memz x K.
Proof.
  destruct (memz x K) eqn:E.
  - apply memz_spec in E. apply (dhas_spec Z.eqb zeqb). now rewrite enum_keys.
  - apply memz_false in E. destruct (dhas Z.eqb (enum K) x) eqn:D; auto. apply (dhas_spec Z.eqb zeqb) in D. rewrite enum_keys in D. contradiction.
Qed.

(** ** the node graph *)
Section Seg.
  Variables (fdir strm : list Z).
  Hypothesis V : valid_fdir fdir.
  Hypothesis L : length strm = length fdir.
  Notation nodes := (nonzero strm).
  Notation N := (length fdir).
  Notation dn := (down fdir).

  Definition nx (c : nat) : option nat := if memn (dn c) nodes then Some (dn c) else None.

  Definition ng : ngraph := map (fun c => (Z.of_nat c, option_map Z.of_nat (nx c))) nodes.

  Lemma nlt c : In c nodes -> c < N.
  Proof. rewrite in_nonzero. lia. Qed.

  Lemma memz_nat c l : memz (Z.of_nat c) (map Z.of_nat l) = memn c l.
  Proof.
    destruct (memn c l) eqn:E.
    - apply memn_spec in E. apply memz_spec. now apply in_map.
    - apply memn_false in E. apply memz_false. intros H. apply in_map_iff in H. destruct H as [x [Hx H]].
      apply Nat2Z.inj in Hx. now subst.
  Qed.

  Lemma in_zmap c l : In (Z.of_nat c) (map Z.of_nat l) <-> In c l.
  Proof. split; [|apply in_map]. intros H. apply in_map_iff in H. destruct H as [x [Hx H]]. apply Nat2Z.inj in Hx. now subst. Qed.

  Lemma nodup_zmap l : NoDup l -> NoDup (map Z.of_nat l).
  Proof. apply FinFun.Injective_map_NoDup. intros a b. apply Nat2Z.inj. Qed.

  Lemma node_graph_eq : node_graph fdir nodes = Ok ng.
  Proof.
    unfold node_graph, ng.
    rewrite (@foldM_dset_fresh nat (option Z) _ (fun c => Z.of_nat c) (fun c => option_map Z.of_nat (nx c))); auto.
    - intros c d Hc. rewrite (get_nth fdir 0%Z) by (now apply nlt). cbn [bind].
      rewrite (@fdir_down fdir V c) by (now apply nlt). rewrite memz_nat. unfold nx. destruct (memn (dn c) nodes); reflexivity.
    - apply nodup_zmap, nonzero_nodup.
  Qed.

  Lemma ng_keys : map fst ng = map Z.of_nat nodes.
  Proof. unfold ng. now rewrite map_map. Qed.

  Lemma ng_get c : In c nodes -> dget Z.eqb ng (Z.of_nat c) = Some (option_map Z.of_nat (nx c)).
  Proof.
    intros H. apply (dget_in_nodup Z.eqb zeqb); [rewrite ng_keys; apply nodup_zmap, nonzero_nodup|].
    unfold ng. apply in_map_iff. eauto.
  Qed.

  (** the stream cells that flow into [c] *)
  Definition inflows (c : nat) : list nat := filter (fun x => Nat.eqb (dn x) c) nodes.

  Lemma in_inflows c x : In x (inflows c) <-> In x nodes /\ dn x = c.
  Proof. unfold inflows. rewrite filter_In, Nat.eqb_eq. tauto. Qed.

  Lemma inflows_nodup c : NoDup (inflows c).
  Proof. apply NoDup_filter, nonzero_nodup. Qed.

  Definition dlist : list nat := filter (fun d => memn d nodes) (map dn nodes).

  Lemma nodes_dn_eq : nodes_dn ng = map Z.of_nat dlist.
  Proof.
    unfold ng, dlist, nodes_dn, nx. generalize nodes at 1 3. intros l0 . induction nodes as [|c l IH]; auto.
    simpl. rewrite IH. destruct (memn (dn c) l0); simpl; auto.
  Qed.

  Lemma in_dlist d : In d dlist <-> In d nodes /\ inflows d <> [].
  Proof.
    unfold dlist. rewrite filter_In, memn_spec, in_map_iff. split.
    - intros [[x [Ex Hx]] Hd]. split; auto. intros E. assert (X : In x (inflows d)) by (apply in_inflows; auto). now rewrite E in X.
    - intros [Hd Hn]. split; auto. destruct (inflows d) as [|x r] eqn:E; [contradiction|].
      assert (X : In x (inflows d)) by (rewrite E; now left). apply in_inflows in X. exists x. tauto.
  Qed.

  Lemma filter_filter_len {A} (f g : A -> bool) l : (forall x, In x l -> f x = true -> g x = true) ->
    length (filter f (filter g l)) = length (filter f l).
  Proof. induction l as [|x l IH]; intros H; simpl; auto. destruct (g x) eqn:G; simpl.
    - destruct (f x); simpl; rewrite IH; auto; intros; apply H; simpl; auto.
    - destruct (f x) eqn:F; [rewrite H in G; simpl; auto; discriminate|]. apply IH. intros; apply H; simpl; auto. Qed.

  Lemma filter_map_len {A B} (f : B -> bool) (h : A -> B) l : length (filter f (map h l)) = length (filter (fun x => f (h x)) l).
  Proof. induction l as [|x l IH]; simpl; auto. destruct (f (h x)); simpl; auto. Qed.

  Lemma count_dlist d : In d nodes -> length (filter (Z.eqb (Z.of_nat d)) (map Z.of_nat dlist)) = length (inflows d).
  Proof.
    intros Hd. rewrite filter_map_len. unfold dlist. rewrite filter_filter_len.
    - rewrite filter_map_len. unfold inflows. f_equal. apply filter_ext. intros c.
      destruct (Nat.eqb_spec (dn c) d) as [->|E]; [apply Z.eqb_refl|]. apply Z.eqb_neq. intros X. apply Nat2Z.inj in X. congruence.
    - intros x _ E. apply Z.eqb_eq, Nat2Z.inj in E. subst. now apply memn_spec.
  Qed.

  (** ** segment starts *)
  Definition heads : list nat := filter (fun c => negb (memn c dlist)) nodes.

  Definition hstep (dns : list Z) (si : list (Z * Z) * Z) (node : Z) : list (Z * Z) * Z :=
    if memz node dns then si else (dset Z.eqb (fst si) node (snd si), (snd si + 1)%Z).

  Lemma heads_fold l : forall K, NoDup l -> (forall x, In x l -> ~ In x K) ->
    fold_left (hstep (map Z.of_nat dlist)) (map Z.of_nat l) (enum (map Z.of_nat K), Z.of_nat (S (length K)))
    = let K' := K ++ filter (fun c => negb (memn c dlist)) l in (enum (map Z.of_nat K'), Z.of_nat (S (length K'))).
  Proof.
    induction l as [|c l IH]; intros K ND H; cbn [map fold_left filter]; [now rewrite app_nil_r|].
    inversion ND as [|? ? N1 N2]; subst. unfold hstep at 2. rewrite memz_nat.
    destruct (memn c dlist); cbn [negb].
    - rewrite IH; auto. intros x Hx. apply H. now right.
    - cbn [fst snd]. replace (Z.of_nat (S (length K))) with (Z.of_nat (S (length (map Z.of_nat K)))) by (now rewrite map_length).
      rewrite enum_dset.
      + rewrite map_length. replace (Z.of_nat (S (length K)) + 1)%Z with (Z.of_nat (S (length (K ++ [c])))) by (rewrite app_length; simpl; lia).
        replace (map Z.of_nat K ++ [Z.of_nat c]) with (map Z.of_nat (K ++ [c])) by (now rewrite map_app).
        specialize (IH (K ++ [c])). rewrite IH; auto.
        * cbv zeta. now rewrite <- app_assoc.
        * intros x Hx. rewrite in_app_iff. intros [X|[<-|[]]]; [|contradiction]. apply (H x); auto. now right.
      + rewrite in_zmap. apply H. now left.
  Qed.

  Definition cstep' (dns : list Z) (si : list (Z * Z) * Z) (node : Z) : list (Z * Z) * Z :=
    if (1 <? length (filter (Z.eqb node) dns)) then
      if dhas Z.eqb (fst si) node then si
      else (dset Z.eqb (fst si) node (snd si), (snd si + 1)%Z)
    else si.

  Lemma confs_fold l : forall K, NoDup K -> (forall x, In x l -> In x nodes) ->
    exists K', fold_left (cstep' (map Z.of_nat dlist)) (map Z.of_nat l) (enum (map Z.of_nat K), Z.of_nat (S (length K)))
      = (enum (map Z.of_nat K'), Z.of_nat (S (length K'))) /\ NoDup K' /\
      (forall x, In x K' <-> In x K \/ (In x l /\ 1 < length (inflows x))).
  Proof.
    induction l as [|c l IH]; intros K ND H; cbn [map fold_left].
    - exists K. split; auto. split; auto. intros x. simpl. tauto.
    - unfold cstep' at 2. rewrite count_dlist by (apply H; now left).
      destruct (Nat.ltb_spec 1 (length (inflows c))) as [Hc|Hc].
      + cbn [fst snd]. rewrite enum_has, memz_nat. destruct (memn c K) eqn:M.
        * apply memn_spec in M. destruct (IH K ND) as [K' [E [ND' HK]]]; [intros; apply H; now right|].
          exists K'. split; auto. split; auto. intros x. rewrite HK. simpl. split; [tauto|].
          intros [X|[[<-|X] Y]]; auto.
        * apply memn_false in M.
          replace (Z.of_nat (S (length K))) with (Z.of_nat (S (length (map Z.of_nat K)))) by (now rewrite map_length).
          rewrite enum_dset by (now rewrite in_zmap). rewrite map_length.
          replace (Z.of_nat (S (length K)) + 1)%Z with (Z.of_nat (S (length (K ++ [c])))) by (rewrite app_length; simpl; lia).
          replace (map Z.of_nat K ++ [Z.of_nat c]) with (map Z.of_nat (K ++ [c])) by (now rewrite map_app).
          destruct (IH (K ++ [c])) as [K' [E [ND' HK]]].
          -- apply (Permutation_NoDup (Permutation_cons_append K c)). now constructor.
          -- intros; apply H; now right.
          -- exists K'. split; auto. split; auto. intros x. rewrite HK, in_app_iff. simpl. split.
             ++ intros [[X|[<-|[]]]|[X Y]]; auto.
             ++ intros [X|[[<-|X] Y]]; auto.
      + destruct (IH K ND) as [K' [E [ND' HK]]]; [intros; apply H; now right|].
        exists K'. split; auto. split; auto. intros x. rewrite HK. simpl. split; [tauto|].
        intros [X|[[<-|X] Y]]; auto. lia.
  Qed.

  (** a segment starts at the stream cells that do not have exactly one inflow *)
  Lemma starts_spec : exists K, seg_starts ng = enum (map Z.of_nat K) /\ NoDup K /\
    (forall c, In c K <-> In c nodes /\ length (inflows c) <> 1).
  Proof.
    unfold seg_starts. rewrite ng_keys, nodes_dn_eq.
    change (fun (si : list (Z * Z) * Z) (node : Z) => if memz node (map Z.of_nat dlist) then si else (dset Z.eqb (fst si) node (snd si), (snd si + 1)%Z))
      with (hstep (map Z.of_nat dlist)).
    assert (E := @heads_fold nodes [] (nonzero_nodup strm) (fun _ _ H => H)). cbn [map length app] in E.
    change (enum []) with (@nil (Z * Z)) in E. change (Z.of_nat 1) with 1%Z in E. rewrite E. cbv zeta. clear E.
    change (fun (si : list (Z * Z) * Z) (node : Z) => if 1 <? length (filter (Z.eqb node) (map Z.of_nat dlist)) then if dhas Z.eqb (fst si) node then si else (dset Z.eqb (fst si) node (snd si), (snd si + 1)%Z) else si)
      with (cstep' (map Z.of_nat dlist)).
    fold heads. destruct (@confs_fold dlist heads) as [K [E [ND HK]]].
    - apply NoDup_filter, nonzero_nodup.
    - intros x Hx. now apply in_dlist in Hx.
    - rewrite E. cbn [fst]. exists K. split; auto. split; auto. intros c. rewrite HK.
      unfold heads. rewrite filter_In, negb_true_iff, memn_false, in_dlist. split.
      + intros [[H1 H2]|[[H1 H2] H3]]; split; auto; [|lia]. intros X. apply H2. split; auto. intros Y. now rewrite Y in X.
      + intros [H1 H2]. destruct (inflows c) as [|x [|y r]] eqn:E1.
        * left. split; auto. intros [_ X]. now apply X.
        * simpl in H2. lia.
        * right. split; [|simpl; lia]. split; auto. discriminate.
  Qed.
End Seg.
