(** Lemmas about MStream: thresholds and MODFLOW 6 reach numbering. *)
From Verif Require Import Py Spec MFlow LGraph LTopo MStream.
Set Implicit Arguments.
Local Open Scope nat_scope.
Local Open Scope list_scope.

Lemma dset_fresh {V} (d : list (Z * V)) k v : ~ In k (map fst d) -> dset Z.eqb d k v = d ++ [(k, v)].
Proof.
  induction d as [|[k' v'] d IH]; intros H; simpl in *; auto.
  destruct (Z.eqb_spec k k'); [subst; exfalso; auto|]. rewrite IH; auto.
Qed.

(** building a dictionary from fresh keys *)
Lemma fold_dset_fresh {A V} (key : A -> Z) (val : A -> V) l : forall d,
  NoDup (map key l) -> (forall x, In x l -> ~ In (key x) (map fst d)) ->
  fold_left (fun m x => dset Z.eqb m (key x) (val x)) l d = d ++ map (fun x => (key x, val x)) l.
Proof.
  induction l as [|x l IH]; intros d ND H; simpl; [now rewrite app_nil_r|].
  inversion ND as [|? ? N1 N2]; subst. rewrite dset_fresh by (apply H; now left).
  rewrite IH; auto.
  - rewrite <- app_assoc. reflexivity.
  - intros y Hy. rewrite map_app, in_app_iff. intros [X|[X|[]]].
    + apply (H y); auto. now right.
    + simpl in X. apply N1. rewrite X. now apply in_map.
Qed.

Lemma foldM_dset_fresh {A V} (f : list (Z * V) -> A -> res (list (Z * V))) (key : A -> Z) (val : A -> V) l : forall d,
  (forall x d, In x l -> f d x = Ok (dset Z.eqb d (key x) (val x))) ->
  NoDup (map key l) -> (forall x, In x l -> ~ In (key x) (map fst d)) ->
  foldM f l d = Ok (d ++ map (fun x => (key x, val x)) l).
Proof.
  induction l as [|x l IH]; intros d Hf ND H; simpl; [now rewrite app_nil_r|].
  inversion ND as [|? ? N1 N2]; subst. rewrite Hf by (now left). simpl.
  rewrite dset_fresh by (apply H; now left).
  rewrite IH; auto.
  - rewrite <- app_assoc. reflexivity.
  - intros; apply Hf; now right.
  - intros y Hy. rewrite map_app, in_app_iff. intros [X|[X|[]]].
    + apply (H y); auto. now right.
    + simpl in X. apply N1. rewrite X. now apply in_map.
Qed.

Lemma nth_error_combine {A B} (l1 : list A) (l2 : list B) i a b :
  nth_error (combine l1 l2) i = Some (a, b) <-> nth_error l1 i = Some a /\ nth_error l2 i = Some b.
Proof.
  revert l2 i; induction l1 as [|x l1 IH]; intros [|y l2] [|i]; simpl; try (split; [discriminate|intros [? ?]; discriminate]).
  - split; [intros E; inversion E; auto|intros [E1 E2]; now inversion E1; inversion E2].
  - apply IH.
Qed.

Lemma nth_error_seq s n i : i < n -> nth_error (seq s n) i = Some (s + i).
Proof. intros H. rewrite (nth_error_nth' _ 0) by (now rewrite seq_length). now rewrite seq_nth. Qed.

Lemma nodup_nth_inj {A} (l : list A) i j x : NoDup l -> nth_error l i = Some x -> nth_error l j = Some x -> i = j.
Proof. intros ND Hi Hj. apply (proj1 (NoDup_nth_error l) ND); [apply nth_error_Some; congruence|congruence]. Qed.

Lemma map_fst_combine {A B} (l1 : list A) (l2 : list B) : length l1 <= length l2 -> map fst (combine l1 l2) = l1.
Proof. revert l2; induction l1 as [|x l1 IH]; intros [|y l2] H; simpl in *; auto; try lia. f_equal. apply IH. lia. Qed.
Lemma map_snd_combine {A B} (l1 : list A) (l2 : list B) : length l2 <= length l1 -> map snd (combine l1 l2) = l2.
Proof. revert l2; induction l1 as [|x l1 IH]; intros [|y l2] H; simpl in *; auto; try lia. f_equal. apply IH. lia. Qed.

Lemma enumerate1_eq l : NoDup l -> enumerate1 l = combine l (map Z.of_nat (seq 1 (length l))).
Proof.
  intros ND. unfold enumerate1.
  rewrite (@fold_dset_fresh (nat * Z) Z (fun p => snd p) (fun p => Z.of_nat (fst p))); simpl; auto.
  - generalize 1 at 1 2. clear ND. induction l as [|x l IH]; intros s; simpl; auto. now rewrite IH.
  - rewrite map_snd_combine; auto. now rewrite seq_length.
Qed.

Lemma enumerate1_get l i x : NoDup l -> nth_error l i = Some x ->
  dget Z.eqb (enumerate1 l) x = Some (Z.of_nat (S i)).
Proof.
  intros ND H. rewrite enumerate1_eq by auto.
  apply (dget_in_nodup Z.eqb zeqb).
  - rewrite map_fst_combine; auto. now rewrite map_length, seq_length.
  - apply nth_error_In with (n := i). apply nth_error_combine. split; auto.
    rewrite nth_error_map. rewrite nth_error_seq; auto. apply nth_error_Some. congruence.
Qed.

Lemma enumerate1_keys l : NoDup l -> map fst (enumerate1 l) = l.
Proof. intros ND. rewrite enumerate1_eq by auto. apply map_fst_combine. now rewrite map_length, seq_length. Qed.

(** ** numbering the stream cells *)
Lemma in_nonzero s c : In c (nonzero s) <-> c < length s /\ nth c s 0%Z <> 0%Z.
Proof.
  unfold nonzero. rewrite (in_where_nth _ _ _ 0%Z). destruct (Z.eqb_spec (nth c s 0%Z) 0); simpl; intuition congruence.
Qed.

Lemma nonzero_nodup s : NoDup (nonzero s). Proof. apply where_nodup. Qed.

Definition assign (a : list Z) (p : nat * nat) : res (list Z) := set a (snd p) (Z.of_nat (fst p)).

Lemma assign_spec nodes : forall s a, NoDup nodes -> (forall c, In c nodes -> c < length a) ->
  exists a', foldM assign (combine (seq s (length nodes)) nodes) a = Ok a' /\ length a' = length a /\
    (forall k c, nth_error nodes k = Some c -> nth c a' 0%Z = Z.of_nat (s + k)) /\
    (forall c, ~ In c nodes -> nth c a' 0%Z = nth c a 0%Z).
Proof.
  induction nodes as [|x nodes IH]; intros s a ND H; simpl.
  - exists a. repeat split; auto. intros [|k] c; discriminate.
  - inversion ND as [|? ? N1 N2]; subst. unfold assign at 1. simpl. rewrite set_lt by (apply H; now left). simpl.
    destruct (IH (S s) (upd a x (Z.of_nat s)) N2) as [a' [E [L [H1 H2]]]].
    { intros c Hc. rewrite upd_length. apply H. now right. }
    exists a'. split; auto. split; [rewrite L; apply upd_length|]. split.
    + intros [|k] c Hk; simpl in Hk.
      * inversion Hk; subst c. rewrite H2 by auto. rewrite nth_upd_eq by (apply H; now left). f_equal. lia.
      * rewrite (H1 _ _ Hk). f_equal. lia.
    + intros c Hc. rewrite H2 by tauto. apply nth_upd_neq. tauto.
Qed.

Lemma assign_same nodes : forall s a b, NoDup nodes -> length a = length b ->
  (forall c, In c nodes -> c < length a) ->
  (forall c, ~ In c nodes -> nth c a 0%Z = nth c b 0%Z) ->
  foldM assign (combine (seq s (length nodes)) nodes) a = foldM assign (combine (seq s (length nodes)) nodes) b.
Proof.
  intros s a b ND L H He.
  destruct (assign_spec s a ND H) as [a' [E1 [L1 [A1 B1]]]].
  destruct (assign_spec s b ND) as [b' [E2 [L2 [A2 B2]]]]; [intros; rewrite <- L; auto|].
  rewrite E1, E2. f_equal. apply nth_ext with (d := 0%Z) (d' := 0%Z); [lia|].
  intros c Hc. destruct (in_dec Nat.eq_dec c nodes) as [Hi|Hi].
  - apply In_nth_error in Hi. destruct Hi as [k Hk]. rewrite (A1 _ _ Hk), (A2 _ _ Hk). auto.
  - rewrite B1, B2 by auto. auto.
Qed.

(** the renumbering loop *)
Lemma renumber_spec (mapper : list (Z * Z)) nodes : forall a, NoDup nodes ->
  (forall c, In c nodes -> c < length a /\ exists v, dget Z.eqb mapper (nth c a 0%Z) = Some v) ->
  exists a', foldM (fun a node => old <- get a node ;; new <- dgetE Z.eqb mapper old ;; set a node new) nodes a = Ok a' /\
    length a' = length a /\
    (forall c, In c nodes -> dget Z.eqb mapper (nth c a 0%Z) = Some (nth c a' 0%Z)) /\
    (forall c, ~ In c nodes -> nth c a' 0%Z = nth c a 0%Z).
Proof.
  induction nodes as [|x nodes IH]; intros a ND H.
  - exists a. simpl. repeat split; auto. intros c [].
  - inversion ND as [|? ? N1 N2]; subst. destruct (H x (or_introl eq_refl)) as [Hx [v Hv]].
    simpl. rewrite (get_nth a 0%Z Hx). simpl. unfold dgetE. rewrite Hv. simpl. rewrite set_lt by auto. simpl.
    destruct (IH (upd a x v) N2) as [a' [E [L [H1 H2]]]].
    { intros c Hc. rewrite upd_length. assert (c <> x) by (intros ->; auto).
      rewrite nth_upd_neq by auto. apply H. now right. }
    exists a'. split; auto. split; [rewrite L; apply upd_length|]. split.
    + intros c [<-|Hc].
      * rewrite H2 by auto. rewrite nth_upd_eq by auto. auto.
      * rewrite <- H1 by auto. rewrite nth_upd_neq; auto. intros ->; auto.
    + intros c Hc. simpl in Hc. rewrite H2 by tauto. apply nth_upd_neq. tauto.
Qed.

Section Mf6.
  Variables (fdir strm : list Z) (lim : nat).
  Hypothesis V : valid_fdir fdir.
  Hypothesis L : length strm = length fdir.
  Notation nodes := (nonzero strm).
  Notation N := (length fdir).

  Lemma node_lt c : In c nodes -> c < N.
  Proof. rewrite in_nonzero. lia. Qed.

  (** the initial numbering *)
  Definition s1_of (s1 : list Z) : Prop :=
    length s1 = N /\ (forall k c, nth_error nodes k = Some c -> nth c s1 0%Z = Z.of_nat (S k)) /\
    (forall c, ~ In c nodes -> nth c s1 0%Z = 0%Z).

  Lemma s1_exists : exists s1, foldM assign (combine (seq 1 (length nodes)) nodes) strm = Ok s1 /\ s1_of s1.
  Proof.
    destruct (assign_spec 1 strm (nonzero_nodup strm)) as [s1 [E [L1 [H1 H2]]]].
    - intros c Hc. apply in_nonzero in Hc. lia.
    - exists s1. split; auto. split; [lia|]. split; [exact H1|].
      intros c Hc. rewrite H2 by auto. destruct (Nat.lt_ge_cases c (length strm)).
      + destruct (Z.eq_dec (nth c strm 0%Z) 0); auto. exfalso. apply Hc, in_nonzero. auto.
      + now apply nth_overflow.
  Qed.

  Definition topo_of (s1 : list Z) : topology := map (fun c => (nth c s1 0%Z, nth (down fdir c) s1 0%Z)) nodes.

  Lemma s1_inj s1 c c' : s1_of s1 -> In c nodes -> In c' nodes -> nth c s1 0%Z = nth c' s1 0%Z -> c = c'.
  Proof.
    intros [_ [H _]] Hc Hc' E. apply In_nth_error in Hc. apply In_nth_error in Hc'.
    destruct Hc as [k Hk], Hc' as [k' Hk']. rewrite (H _ _ Hk), (H _ _ Hk') in E.
    assert (k = k') by lia. congruence.
  Qed.

  Lemma s1_pos s1 c : s1_of s1 -> In c nodes -> (0 < nth c s1 0)%Z.
  Proof. intros [_ [H _]] Hc. apply In_nth_error in Hc. destruct Hc as [k Hk]. rewrite (H _ _ Hk). lia. Qed.

  Lemma nodup_map_in {A B} (f : A -> B) (l : list A) : NoDup l -> (forall x y, In x l -> In y l -> f x = f y -> x = y) -> NoDup (map f l).
  Proof.
    induction 1 as [|x l H ND IH]; intros Hf; simpl; constructor.
    - rewrite in_map_iff. intros [y [E Hy]]. apply H. rewrite <- (Hf y x); simpl; auto.
    - apply IH. intros; apply Hf; simpl; auto.
  Qed.

  Lemma topo_eq s1 : s1_of s1 ->
    foldM (fun t node =>
                   rchid <- get s1 node ;;
                   flow_to <- get fdir node ;;
                   rchto <- npget s1 flow_to ;;
                   Ok (add_connection t rchid rchto)) nodes [] = Ok (topo_of s1).
  Proof.
    intros S. assert (L1 : length s1 = N) by apply S.
    rewrite (@foldM_dset_fresh nat Z _ (fun c => nth c s1 0%Z) (fun c => nth (down fdir c) s1 0%Z)); auto.
    - intros c d Hc. assert (Hl := node_lt _ Hc).
      rewrite (get_nth s1 0%Z) by lia. simpl. rewrite (get_nth fdir 0%Z) by lia. simpl.
      rewrite (@fdir_down fdir V c) by auto. rewrite (npget_nat s1 0%Z); [reflexivity|].
      rewrite L1. now apply (@down_lt fdir V).
    - apply nodup_map_in; [apply nonzero_nodup|]. intros. eapply s1_inj; eauto.
  Qed.

  Lemma topo_keys s1 : map fst (topo_of s1) = map (fun c => nth c s1 0%Z) nodes.
  Proof. unfold topo_of. now rewrite map_map. Qed.

  Lemma topo_nodup s1 : s1_of s1 -> NoDup (map fst (topo_of s1)).
  Proof. intros S. rewrite topo_keys. apply nodup_map_in; [apply nonzero_nodup|]. intros. eapply s1_inj; eauto. Qed.

  Lemma topo_get s1 c : s1_of s1 -> In c nodes ->
    dget Z.eqb (topo_of s1) (nth c s1 0%Z) = Some (nth (down fdir c) s1 0%Z).
  Proof.
    intros S Hc. apply (dget_in_nodup Z.eqb zeqb); [now apply topo_nodup|].
    unfold topo_of. apply in_map_iff. exists c. auto.
  Qed.

  Lemma topo_closed s1 : s1_of s1 -> closed (topo_of s1).
  Proof.
    intros S k o H. apply (dget_in Z.eqb zeqb) in H. unfold topo_of in H. apply in_map_iff in H.
    destruct H as [c [E Hc]]. inversion E; subst.
    destruct (in_dec Nat.eq_dec (down fdir c) nodes) as [Hi|Hi].
    - right. rewrite topo_keys. apply in_map_iff. eauto.
    - left. destruct S as [_ [_ S]]. now apply S.
  Qed.

  (** following the initial numbering is following the flow directions *)
  Lemma topo_leads s1 a b : s1_of s1 -> leads (topo_of s1) a b -> forall c, In c nodes -> a = nth c s1 0%Z ->
    forall c', In c' nodes -> b = nth c' s1 0%Z -> flows_through fdir c c'.
  Proof.
    intros S. induction 1 as [a|a o b Ho Hl IH]; intros c Hc -> c' Hc' Eb.
    - apply (s1_inj _ _ S Hc Hc') in Eb. subst. now exists 0.
    - rewrite (topo_get _ S Hc) in Ho. inversion Ho; subst o.
      destruct (in_dec Nat.eq_dec (down fdir c) nodes) as [Hi|Hi].
      + destruct (IH (down fdir c) Hi eq_refl c' Hc' Eb) as [k Hk]. exists (Datatypes.S k). exact Hk.
      + exfalso. assert (Z0 : nth (down fdir c) s1 0%Z = 0%Z) by (destruct S as [_ [_ S]]; now apply S).
        rewrite Z0 in Hl. assert (P := s1_pos _ S Hc'). inversion Hl as [x Ex Ex2|x o' y Hx]; subst; [lia|].
        apply (dget_in Z.eqb zeqb) in Hx. unfold topo_of in Hx. apply in_map_iff in Hx.
        destruct Hx as [c2 [E2 Hc2]]. inversion E2. assert (P2 := s1_pos _ S Hc2). lia.
  Qed.

  Record mf6_result (s2 : list Z) (g : topology) (order : list nat) : Prop := {
    r_perm : Permutation order nodes;
    r_len : length s2 = N;
    r_at : forall i c, nth_error order i = Some c -> nth c s2 0%Z = Z.of_nat (S i);
    r_off : forall c, ~ In c nodes -> nth c s2 0%Z = 0%Z;
    r_graph : g = map (fun c => (nth c s2 0%Z, nth (down fdir c) s2 0%Z)) order;
    r_ord : forall c, In c nodes -> In (down fdir c) nodes -> ~ flows_through fdir (down fdir c) c ->
              (nth c s2 0 < nth (down fdir c) s2 0)%Z
  }.

  Lemma mf6_unfold s1 : foldM assign (combine (seq 1 (length nodes)) nodes) strm = Ok s1 -> s1_of s1 ->
    mf6_connectivity lim fdir strm =
      (sorted <- topo_sort lim (topo_of s1) ;;
       let mapper := enumerate1 sorted in
       new_map <- foldM (fun m kv =>
                      old_to <- dgetE Z.eqb (topo_of s1) (fst kv) ;;
                      to <- (if (old_to =? 0)%Z then Ok 0%Z else dgetE Z.eqb mapper old_to) ;;
                      Ok (dset Z.eqb m (snd kv) to)) mapper [] ;;
       s2 <- foldM (fun a node =>
                 old <- get a node ;;
                 new <- dgetE Z.eqb mapper old ;;
                 set a node new) nodes s1 ;;
       Ok (s2, new_map)).
  Proof.
    intros E S. unfold mf6_connectivity. cbv zeta. fold assign in *.
    change (fun (a : list Z) (p : nat * nat) => set a (snd p) (Z.of_nat (fst p))) with assign.
    rewrite E. cbn [bind]. rewrite (topo_eq S). reflexivity.
  Qed.

  Lemma before_index {A} (x y : A) l i j : NoDup l -> before x y l -> nth_error l i = Some x -> nth_error l j = Some y -> i < j.
  Proof.
    intros ND [a [b [c ->]]] Hi Hj.
    assert (i = length a). { eapply (nodup_nth_inj _ _ ND); eauto. rewrite nth_error_app2 by lia. now rewrite Nat.sub_diag. }
    assert (j = S (length a + length b)). { eapply (nodup_nth_inj _ _ ND); eauto. rewrite nth_error_app2 by lia.
      replace (S (length a + length b) - length a) with (S (length b)) by lia. simpl.
      rewrite nth_error_app2 by lia. now rewrite Nat.sub_diag. }
    lia.
  Qed.

  Lemma mf6_from_sort s1 sorted : foldM assign (combine (seq 1 (length nodes)) nodes) strm = Ok s1 -> s1_of s1 ->
    topo_sort lim (topo_of s1) = Ok sorted ->
    exists s2 g order, mf6_connectivity lim fdir strm = Ok (s2, g) /\ mf6_result s2 g order.
  Proof.
    intros E1 S Es. rewrite (mf6_unfold E1 S), Es. cbn [bind]. cbv zeta.
    destruct (topo_sort_ok (topo_of s1) lim (topo_nodup S) Es) as [v [I Hin]]. assert (ND := s_nd I).
    assert (Hkeys : forall x, In x sorted <-> exists c, In c nodes /\ x = nth c s1 0%Z).
    { intros x. rewrite Hin, topo_keys, in_map_iff. split.
      - intros [_ [c [<- Hc]]]. eauto.
      - intros [c [Hc ->]]. split; [assert (P := s1_pos _ S Hc); lia|eauto]. }
    assert (Hm : forall c, In c nodes -> exists i, nth_error sorted i = Some (nth c s1 0%Z)).
    { intros c Hc. apply In_nth_error. apply Hkeys. eauto. }
    (* the renumbered array *)
    destruct (@renumber_spec (enumerate1 sorted) nodes s1 (nonzero_nodup _)) as [s2 [E2 [L2 [A2 B2]]]].
    { intros c Hc. split; [destruct S as [S _]; rewrite S; now apply node_lt|].
      destruct (Hm c Hc) as [i Hi]. exists (Z.of_nat (Datatypes.S i)). now apply enumerate1_get. }
    assert (L1 : length s1 = N) by apply S.
    assert (A3 : forall c i, In c nodes -> nth_error sorted i = Some (nth c s1 0%Z) -> nth c s2 0%Z = Z.of_nat (Datatypes.S i)).
    { intros c i Hc Hi. assert (X := A2 c Hc). rewrite (enumerate1_get i ND Hi) in X. now inversion X. }
    assert (B3 : forall c, ~ In c nodes -> nth c s2 0%Z = 0%Z).
    { intros c Hc. rewrite B2 by auto. now apply S. }
    set (cell := fun old : Z => nth (Z.to_nat old - 1) nodes 0).
    assert (Hcell : forall c, In c nodes -> cell (nth c s1 0%Z) = c).
    { intros c Hc. destruct (In_nth_error _ _ Hc) as [k Hk]. unfold cell.
      destruct S as [_ [S _]]. rewrite (S _ _ Hk). rewrite Nat2Z.id. replace (Datatypes.S k - 1) with k by lia.
      now apply nth_error_nth. }
    set (order := map cell sorted).
    assert (Hcs : forall x, In x sorted -> In (cell x) nodes /\ x = nth (cell x) s1 0%Z).
    { intros x Hx. apply Hkeys in Hx. destruct Hx as [c [Hc ->]]. rewrite Hcell; auto. }
    assert (Eg : foldM (fun m kv =>
                      old_to <- dgetE Z.eqb (topo_of s1) (fst kv) ;;
                      to <- (if (old_to =? 0)%Z then Ok 0%Z else dgetE Z.eqb (enumerate1 sorted) old_to) ;;
                      Ok (dset Z.eqb m (snd kv) to)) (enumerate1 sorted) []
              = Ok ([] ++ map (fun kv => (snd kv, nth (down fdir (cell (fst kv))) s2 0%Z)) (enumerate1 sorted))).
    { apply (@foldM_dset_fresh (Z * Z) Z _ (fun kv => snd kv) (fun kv => nth (down fdir (cell (fst kv))) s2 0%Z)).
      - intros [k i] d Hk. cbn [fst snd].
        assert (Hks : In k sorted).
        { rewrite <- (enumerate1_keys ND). apply in_map_iff. exists (k, i). auto. }
        destruct (Hcs k Hks) as [Hc Ek]. set (c := cell k) in *.
        rewrite Ek. unfold dgetE at 1. rewrite (topo_get _ S Hc). cbn [bind].
        destruct (in_dec Nat.eq_dec (down fdir c) nodes) as [Hd|Hd].
        + assert (P := s1_pos _ S Hd). destruct (Z.eqb_spec (nth (down fdir c) s1 0%Z) 0); [lia|].
          unfold dgetE. rewrite A2 by auto. reflexivity.
        + assert (Z0 : nth (down fdir c) s1 0%Z = 0%Z) by (now apply S). rewrite Z0. simpl.
          rewrite B3 by auto. reflexivity.
      - rewrite enumerate1_eq by auto. rewrite map_snd_combine by (rewrite map_length, seq_length; auto).
        apply FinFun.Injective_map_NoDup; [|apply seq_NoDup]. intros a b. apply Nat2Z.inj.
      - auto. }
    rewrite Eg. cbn [bind]. rewrite E2. cbn [bind]. rewrite app_nil_l.
    assert (Hord_at : forall i c, nth_error order i = Some c -> In c nodes /\ nth_error sorted i = Some (nth c s1 0%Z)).
    { intros i c Hi. unfold order in Hi. rewrite nth_error_map in Hi. destruct (nth_error sorted i) as [x|] eqn:Ex; [|discriminate].
      simpl in Hi. inversion Hi. destruct (Hcs x (nth_error_In _ _ Ex)) as [Hc Hx]. split; auto. now rewrite Hx at 1. }
    eexists s2, _, order. split; [reflexivity|]. constructor; auto; try lia.
    - apply NoDup_Permutation; [|apply nonzero_nodup|].
      + unfold order. apply nodup_map_in; auto. intros x y Hx Hy Exy.
        destruct (Hcs x Hx) as [_ X], (Hcs y Hy) as [_ Y]. congruence.
      + intros c. unfold order. rewrite in_map_iff. split.
        * intros [x [<- Hx]]. now apply Hcs.
        * intros Hc. exists (nth c s1 0%Z). split; auto. apply Hkeys. eauto.
    - intros i c Hi. destruct (Hord_at i c Hi) as [Hc Hs]. now apply A3.
    - unfold order. rewrite map_map. rewrite enumerate1_eq by auto.
      apply nth_error_ext. intros i. rewrite !nth_error_map.
      destruct (nth_error sorted i) as [x|] eqn:Ex.
      + destruct (Hcs x (nth_error_In _ _ Ex)) as [Hc Hx].
        assert (Ec : nth_error (combine sorted (map Z.of_nat (seq 1 (length sorted)))) i = Some (x, Z.of_nat (Datatypes.S i))).
        { apply nth_error_combine. split; auto. rewrite nth_error_map, nth_error_seq; [reflexivity|]. apply nth_error_Some. congruence. }
        rewrite Ec. simpl. f_equal. f_equal. symmetry. apply A3; auto. now rewrite <- Hx.
      + simpl. assert (Hl : length sorted <= i) by (now apply nth_error_None).
        replace (nth_error (combine sorted (map Z.of_nat (seq 1 (length sorted)))) i) with (@None (Z * Z)); auto.
        symmetry. apply nth_error_None. rewrite combine_length. lia.
    - intros c Hc Hd Hn. destruct (Hm c Hc) as [i Hi]. destruct (Hm _ Hd) as [j Hj].
      rewrite (A3 c i Hc Hi), (A3 _ j Hd Hj).
      assert (Pd := s1_pos _ S Hd).
      assert (B : before (nth c s1 0%Z) (nth (down fdir c) s1 0%Z) sorted).
      { destruct (s_ord I (nth c s1 0%Z) (nth_error_In _ _ Hi) (topo_get _ S Hc)) as [X|[X|[X|X]]]; auto.
        - lia.
        - exfalso. apply (s1_inj _ _ S) in X; auto. apply Hn. exists 0. exact X.
        - exfalso. apply Hn. eapply (topo_leads S X _ Hd); eauto. }
      assert (i < j) by (eapply before_index; eauto). lia.
  Qed.

  Lemma mf6_spec s2 g : mf6_connectivity lim fdir strm = Ok (s2, g) -> exists order, mf6_result s2 g order.
  Proof.
    intros E. destruct s1_exists as [s1 [E1 S]]. assert (E' := E). rewrite (mf6_unfold E1 S) in E'.
    apply bind_ok in E'. destruct E' as [sorted [Es _]].
    destruct (mf6_from_sort E1 S Es) as [s2' [g' [order [E2 R]]]].
    rewrite E in E2. inversion E2; subst. eauto.
  Qed.

  Lemma mf6_total : S (length nodes) <= lim -> exists s2 g, mf6_connectivity lim fdir strm = Ok (s2, g).
  Proof.
    intros Hl. destruct s1_exists as [s1 [E1 S]].
    destruct (@topo_sort_total (topo_of s1) lim (topo_nodup S) (topo_closed S)) as [sorted Es].
    { unfold topo_of. rewrite map_length. auto. }
    destruct (mf6_from_sort E1 S Es) as [s2' [g' [order [E2 R]]]]. eauto.
  Qed.
End Mf6.

(** the numbering depends on the set of stream cells only *)
Lemma mf6_same lim fdir a b : length a = length b ->
  (forall c, nth c a 0%Z = 0%Z <-> nth c b 0%Z = 0%Z) ->
  mf6_connectivity lim fdir a = mf6_connectivity lim fdir b.
Proof.
  intros L H. unfold mf6_connectivity. cbv zeta.
  assert (En : nonzero a = nonzero b).
  { apply sorted_lt_ext; try apply where_sorted. intros c. rewrite !in_nonzero. rewrite L, H. tauto. }
  rewrite En. change (fun (a : list Z) (p : nat * nat) => set a (snd p) (Z.of_nat (fst p))) with assign.
  rewrite (@assign_same (nonzero b) 1 a b (nonzero_nodup b) L); auto.
  - intros c Hc. apply in_nonzero in Hc. lia.
  - intros c Hc. assert (nth c b 0%Z = 0%Z).
    { destruct (Nat.lt_ge_cases c (length b)); [|now apply nth_overflow].
      destruct (Z.eq_dec (nth c b 0%Z) 0); auto. exfalso. apply Hc, in_nonzero. auto. }
    rewrite H0. now apply H.
Qed.

(** a rank that decreases along every link rules out cycles *)
Lemma acyclic_rank fdir (rk : nat -> nat) : valid_fdir fdir ->
  (forall n, n < length fdir -> down fdir n <> n -> rk (down fdir n) < rk n) -> acyclic fdir.
Proof.
  intros V H n Hn [Hd [[|k] [Hk E]]]; [lia|]. simpl in E.
  assert (G : forall k c, c < length fdir -> rk (downs fdir k c) <= rk c).
  { clear -V H. induction k as [|k IH]; intros c Hc; auto. simpl.
    assert (Hd := down_lt V Hc). specialize (IH _ Hd). destruct (Nat.eq_dec (down fdir c) c) as [X|X].
    - now rewrite X in *. - specialize (H c Hc X). lia. }
  specialize (G k (down fdir n) (down_lt V Hn)). rewrite E in G. specialize (H n Hn Hd). lia.
Qed.
