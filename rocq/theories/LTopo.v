(** Topology.sort. *)
From Verif Require Import Py Spec MFlow.
Set Implicit Arguments.
Local Open Scope Z_scope.
Local Open Scope list_scope.

(** [x] stands before [y] in [l] *)
Definition before {A} (x y : A) (l : list A) : Prop :=
  exists l1 l2 l3, l = l1 ++ x :: l2 ++ y :: l3.

Lemma before_cons {A} (x y z : A) l : before x y l -> before x y (z :: l).
Proof. intros [a [b [c ->]]]. exists (z :: a), b, c. reflexivity. Qed.
Lemma before_snoc {A} (x y z : A) l : before x y l -> before x y (l ++ [z]).
Proof. intros [a [b [c ->]]]. exists a, b, (c ++ [z]). repeat rewrite <- ?app_assoc, <- ?app_comm_cons. reflexivity. Qed.
Lemma before_head {A} (x y : A) l : In y l -> before x y (x :: l).
Proof. intros H. apply in_split in H. destruct H as [a [b ->]]. exists [], a, b. reflexivity. Qed.

Notation tget t x := (dget Z.eqb t x).

(** following the connections from [a] leads to [b] *)
Inductive leads (t : topology) : Z -> Z -> Prop :=
| ld_refl : forall a, leads t a a
| ld_step : forall a o b, tget t a = Some o -> leads t o b -> leads t a b.

Lemma leads_snoc t a b o : leads t a b -> tget t b = Some o -> leads t a o.
Proof. induction 1; intros E; [eapply ld_step; [exact E|constructor]|]. eapply ld_step; eauto. Qed.

Lemma zeqb x y : Z.eqb x y = true <-> x = y. Proof. apply Z.eqb_eq. Qed.

Section Sort.
  Variable t : topology.

  (** what is known of the stack: [P] are the segments whose call is still open *)
  Record sinv (P : list Z) (v : list (Z * bool)) (st : list Z) : Prop := {
    s_nd : NoDup st;
    s_nz : ~ In 0 st;
    s_key : forall x, In x st -> exists o, tget t x = Some o;
    s_vis : forall x, tget v x = Some true <-> In x st \/ In x P \/ (x = 0 /\ tget v 0 = Some true);
    s_ord : forall x o, In x st -> tget t x = Some o -> o = 0 \/ o = x \/ before x o st \/ leads t o x
  }.

  Lemma sort_util_spec lim : forall P seg v st v' st',
    sinv P v st -> tget v seg = Some false -> Forall (fun p => leads t p seg) P -> NoDup P ->
    (forall p, In p P -> ~ In p st) ->
    (seg = 0 -> True) ->
    sort_util lim t seg v st = Ok (v', st') ->
    sinv P v' st' /\ (seg <> 0 -> In seg st') /\ (forall x, In x st -> In x st') /\
    (forall x, In x P -> ~ In x st') /\
    (forall x, (exists b, tget v' x = Some b) <-> (exists b, tget v x = Some b)) /\
    (forall x, tget v x = Some true -> tget v' x = Some true).
  Proof.
    induction lim as [|lim IH]; intros P seg v st v' st' I Hs HP NP HPst _ E; [discriminate|].
    cbn [sort_util] in E. set (v1 := dset Z.eqb v seg true) in *.
    assert (V1 : forall x, tget v1 x = if Z.eq_dec seg x then Some true else tget v x).
    { intros x. unfold v1. destruct (Z.eq_dec seg x) as [<-|Hne].
      - apply dget_dset_eq. intros; apply Z.eqb_eq.
      - apply dget_dset_neq; auto. intros; apply Z.eqb_eq. }
    assert (Hsst : ~ In seg st).
    { intros H. assert (X := proj2 (s_vis I seg) (or_introl H)). congruence. }
    assert (HsP : ~ In seg P).
    { intros H. assert (X := proj2 (s_vis I seg) (or_intror (or_introl H))). congruence. }
    assert (K1 : forall x, (exists b, tget v1 x = Some b) <-> (exists b, tget v x = Some b)).
    { intros x. rewrite V1. destruct (Z.eq_dec seg x) as [<-|]; [|tauto]. split; intros _; eauto. }
    destruct (Z.eqb_spec seg 0) as [E0|E0].
    - (* seg = 0 *)
      subst seg. cbn [bind] in E. unfold dgetE in E. rewrite V1 in E. destruct (Z.eq_dec 0 0); [|congruence].
      cbn [bind] in E. inversion E; subst v' st'. split; [|split; [congruence|split; [auto|split; [auto|split; [exact K1|]]]]].
      + constructor; try apply I. intros x. rewrite !V1. destruct (Z.eq_dec 0 0); [|congruence].
        destruct (Z.eq_dec 0 x) as [<-|Hx]; [tauto|]. rewrite (s_vis I x). intuition congruence.
      + intros x Hx. rewrite V1. destruct (Z.eq_dec 0 x); auto.
    - unfold dgetE in E. destruct (tget t seg) as [o|] eqn:Eo; cbn [bind] in E; [|discriminate].
      destruct (tget v1 o) as [b|] eqn:Eb; cbn [bind] in E; [|discriminate].
      assert (I1 : sinv (seg :: P) v1 st).
      { constructor; try apply I. intros x. rewrite !V1. destruct (Z.eq_dec seg 0); [contradiction|].
        destruct (Z.eq_dec seg x) as [<-|Hx]; [split; auto; intros _; right; left; now left|].
        rewrite (s_vis I x). simpl. intuition congruence. }
      (* the state after the possible recursive call *)
      assert (G : exists v2 st2, (if b then Ok (v1, st) else sort_util lim t o v1 st) = Ok (v2, st2) /\
         sinv (seg :: P) v2 st2 /\ (o = 0 \/ o = seg \/ In o st2 \/ In o P) /\ (forall x, In x st -> In x st2) /\
         (forall x, In x (seg :: P) -> ~ In x st2) /\
         (forall x, (exists b, tget v2 x = Some b) <-> (exists b, tget v1 x = Some b)) /\
         (forall x, tget v1 x = Some true -> tget v2 x = Some true)).
      { destruct b.
        - exists v1, st. split; auto. split; auto. split; [|split; [auto|split; [|split; [tauto|auto]]]].
          + destruct (proj1 (s_vis I1 o) Eb) as [H|[[H|H]|[H _]]]; auto.
          + intros x [<-|Hx]; auto.
        - destruct (sort_util lim t o v1 st) as [[v2 st2]|] eqn:E2; [|discriminate].
          exists v2, st2. split; auto.
          destruct (IH (seg :: P) o v1 st v2 st2) as [H1 [H2 [H3 [H4 [H5 H6]]]]]; auto.
          + constructor.
            * eapply ld_step; [exact Eo|constructor].
            * eapply Forall_impl; [|exact HP]. cbv beta; intros p Hp; apply (leads_snoc Hp Eo).
          + constructor; auto.
          + intros p [<-|Hp]; auto.
          + split; auto. split; [|split; auto]. destruct (Z.eq_dec o 0); auto. }
      destruct G as [v2 [st2 [E2 [I2 [Ho [Hsub [HP2 [HK2 HT2]]]]]]]]. rewrite E2 in E. cbn [bind] in E.
      assert (Hseg2 : ~ In seg st2) by (apply HP2; now left).
      assert (KK : forall x, (exists b, tget v2 x = Some b) <-> (exists b, tget v x = Some b)).
      { intros x. rewrite HK2. apply K1. }
      assert (TT : forall x, tget v x = Some true -> tget v2 x = Some true).
      { intros x Hx. apply HT2. rewrite V1. destruct (Z.eq_dec seg x); auto. }
      (* pushing seg, in front or at the end *)
      assert (Push : forall st3, (st3 = st2 ++ [seg] /\ o = 0) \/ st3 = seg :: st2 ->
         sinv P v2 st3 /\ In seg st3 /\ (forall x, In x st -> In x st3) /\ (forall x, In x P -> ~ In x st3)).
      { intros st3 H3.
        assert (M : forall x, In x st3 <-> x = seg \/ In x st2).
        { intros x. destruct H3 as [[-> _]| ->]; [rewrite in_app_iff; simpl; intuition congruence|simpl; intuition congruence]. }
        split; [|split; [apply M; auto|split]].
        - constructor.
          + destruct H3 as [[-> _]| ->].
            * apply (Permutation_NoDup (Permutation_cons_append st2 seg)). constructor; auto. apply (s_nd I2).
            * constructor; auto. apply (s_nd I2).
          + rewrite M. intros [H|H]; [congruence|]. now apply (s_nz I2).
          + intros x Hx. apply M in Hx. destruct Hx as [->|Hx]; [eauto|]. now apply (s_key I2).
          + intros x. rewrite (s_vis I2 x), M. simpl. intuition congruence.
          + intros x ox Hx Ex. apply M in Hx. destruct (Z.eq_dec x seg) as [->|Hxs].
            * rewrite Eo in Ex. inversion Ex; subst ox. destruct H3 as [[_ ->]| ->]; auto.
              destruct Ho as [Ho|[Ho|[Ho|Ho]]]; auto.
              -- right. right. left. now apply before_head.
              -- right. right. right. rewrite Forall_forall in HP. auto.
            * destruct Hx as [|Hx]; [contradiction|].
              destruct (s_ord I2 x Hx Ex) as [H|[H|[H|H]]]; auto.
              right. right. left. destruct H3 as [[-> _]| ->]; [now apply before_snoc|now apply before_cons].
        - intros x Hx. apply M. auto.
        - intros x Hx Hx3. apply M in Hx3. destruct Hx3 as [->|Hx3]; [contradiction|]. apply (HP2 x); [now right|auto]. }
      destruct (Z.eqb_spec o 0) as [Ez|Ez]; inversion E; subst v' st'.
      + destruct (Push (st2 ++ [seg])) as [A1 [A2 [A3 A4]]]; [auto 6|].
        repeat (split; [solve [auto]|]); auto.
      + destruct (Push (seg :: st2)) as [A1 [A2 [A3 A4]]]; [auto 6|].
        repeat (split; [solve [auto]|]); auto.
  Qed.

  (** *** the initial dictionary *)
  Definition vis0 : list (Z * bool) := fold_left (fun v k => dset Z.eqb v (fst k) false) t [(0, false)].

  Lemma vis0_fold l : forall v, NoDup (map fst v) ->
    let v' := fold_left (fun v (k : Z * Z) => dset Z.eqb v (fst k) false) l v in
    NoDup (map fst v') /\ (forall x, In x (map fst v') <-> In x (map fst v) \/ In x (map fst l)) /\
    ((forall x b, tget v x = Some b -> b = false) -> forall x b, tget v' x = Some b -> b = false).
  Proof.
    induction l as [|[k o] l IH]; intros v ND; cbn [fold_left map fst].
    - split; auto. split; [simpl; tauto|auto].
    - destruct (IH (dset Z.eqb v k false)) as [H1 [H2 H3]]; [apply dset_nodup; auto; apply zeqb|].
      split; auto. split.
      + intros x. rewrite H2, dset_keys. destruct (dhas Z.eqb v k) eqn:E.
        * apply (dhas_spec Z.eqb zeqb) in E. simpl. intuition (subst; auto).
        * rewrite in_app_iff. simpl. tauto.
      + intros Hv. apply H3. intros x b. destruct (Z.eq_dec k x) as [<-|Hne].
        * rewrite (dget_dset_eq _ zeqb). congruence.
        * rewrite (dget_dset_neq _ zeqb) by auto. apply Hv.
  Qed.

  Lemma vis0_spec : NoDup (map fst vis0) /\ (forall x, In x (map fst vis0) <-> x = 0 \/ In x (map fst t)) /\
    (forall x, x = 0 \/ In x (map fst t) -> tget vis0 x = Some false) /\
    (forall x, tget vis0 x <> Some true).
  Proof.
    destruct (@vis0_fold t [(0, false)]) as [H1 [H2 H3]]; [repeat constructor; auto|].
    fold vis0 in *.
    assert (H4 : forall x b, tget vis0 x = Some b -> b = false).
    { apply H3. simpl. intros x b. destruct (x =? 0); congruence. }
    split; auto. split; [intros x; rewrite H2; simpl; intuition congruence|]. split.
    - intros x Hx. destruct (tget vis0 x) as [b|] eqn:E; [now rewrite (H4 _ _ E)|].
      apply (dget_none Z.eqb zeqb) in E. exfalso. apply E. apply H2. simpl. intuition congruence.
    - intros x Hx. apply H4 in Hx. discriminate.
  Qed.

  Definition step (lim : nat) (vs : list (Z * bool) * list Z) (i : Z) : res (list (Z * bool) * list Z) :=
    let '(visited, stack) := vs in
    if i =? 0 then Ok (visited, stack)
    else
      b <- dgetE Z.eqb visited i ;;
      if b : bool then Ok (visited, stack) else sort_util lim t i visited stack.

  Lemma topo_sort_ok lim l : NoDup (map fst t) -> topo_sort lim t = Ok l ->
    exists v, sinv [] v l /\ (forall x, In x l <-> x <> 0 /\ In x (map fst t)).
  Proof.
    intros ND E. unfold topo_sort in E. fold vis0 in E.
    change (bind (foldM (step lim) (isort Z.leb (map fst vis0)) (vis0, [])) (fun '(_, stack) => Ok stack) = Ok l) in E.
    destruct (foldM (step lim) (isort Z.leb (map fst vis0)) (vis0, [])) as [[v st]|] eqn:EF; [|discriminate].
    cbn [bind] in E. inversion E; subst st. clear E.
    destruct vis0_spec as [N0 [K0 [F0 T0]]].
    assert (Inv : forall ks v1 st1 v2 st2, sinv [] v1 st1 ->
       (forall x, (exists b, tget v1 x = Some b) <-> (x = 0 \/ In x (map fst t))) ->
       foldM (step lim) ks (v1, st1) = Ok (v2, st2) ->
       sinv [] v2 st2 /\ (forall x, In x ks -> x <> 0 -> In x st2) /\ (forall x, In x st1 -> In x st2) ).
    { induction ks as [|k ks IH]; intros v1 st1 v2 st2 I1 HK EF1; cbn [foldM] in EF1.
      - inversion EF1; subst. split; auto. split; [intros x []|auto].
      - apply bind_ok in EF1. destruct EF1 as [[v3 st3] [E3 EF1]]. unfold step in E3.
        destruct (Z.eqb_spec k 0) as [E0|E0].
        + inversion E3; subst v3 st3. destruct (IH _ _ _ _ I1 HK EF1) as [J1 [J2 J3]].
          split; auto. split; auto. intros x [<-|Hx] H; [contradiction|auto].
        + unfold dgetE in E3. destruct (tget v1 k) as [b|] eqn:Eb; cbn [bind] in E3; [|discriminate].
          destruct b.
          * inversion E3; subst v3 st3. destruct (IH _ _ _ _ I1 HK EF1) as [J1 [J2 J3]].
            split; auto. split; auto. intros x [<-|Hx] H; [|auto].
            apply (s_vis I1) in Eb. destruct Eb as [Eb|[[]|[Eb _]]]; [auto|contradiction].
          * destruct (@sort_util_spec lim [] k v1 st1 v3 st3) as [J1 [J2 [J3 [J4 [J5 J6]]]]]; auto; [constructor|].
            destruct (IH v3 st3 v2 st2) as [Q1 [Q2 Q3]]; auto.
            { intros x. rewrite J5. apply HK. }
            split; auto. split; [|auto]. intros x [<-|Hx] H; auto. }
    exists v. destruct (Inv (isort Z.leb (map fst vis0)) vis0 [] v l) as [J1 [J2 J3]]; auto.
    - constructor; simpl; try tauto; [constructor|]. intros x. split; [intros H; destruct (T0 _ H)|].
      intros [[]|[[]|[_ H]]]. destruct (T0 _ H).
    - intros x. split.
      + intros [b Hb]. apply (dget_in Z.eqb zeqb) in Hb. apply K0. apply in_map with (f := fst) in Hb. exact Hb.
      + intros Hx. exists false. auto.
    - split; auto. intros x. split.
      + intros Hx. split; [intros ->; now apply (s_nz J1)|]. destruct (s_key J1 _ Hx) as [o Ho].
        apply (dget_in Z.eqb zeqb) in Ho. apply in_map with (f := fst) in Ho. exact Ho.
      + intros [H1 H2]. apply J2; auto. apply isort_in. apply K0. auto.
  Qed.

  (** *** success *)
  Definition closed : Prop := forall k o, tget t k = Some o -> o = 0 \/ In o (map fst t).

  Definition unvisited (v : list (Z * bool)) : nat := length (filter (fun p => negb (snd p)) v).

  Lemma unvisited_dset v x : NoDup (map fst v) -> tget v x = Some false ->
    unvisited v = S (unvisited (dset Z.eqb v x true)).
  Proof.
    unfold unvisited. induction v as [|[k b] v IH]; intros ND E; simpl in *; [discriminate|].
    inversion ND; subst. destruct (x =? k) eqn:Ek.
    - inversion E; subst. simpl. reflexivity.
    - simpl. destruct b; simpl; rewrite <- IH; auto.
  Qed.

  Lemma unvisited_pos v x : tget v x = Some false -> (0 < unvisited v)%nat.
  Proof.
    unfold unvisited. induction v as [|[k b] v IH]; simpl; [discriminate|]. destruct (x =? k).
    - intros E. inversion E. simpl. lia.
    - intros E. apply IH in E. destruct (negb b); simpl; lia.
  Qed.

  Lemma sort_util_total lim : closed -> forall seg v st, NoDup (map fst v) ->
    (forall x, (exists b, tget v x = Some b) <-> (x = 0 \/ In x (map fst t))) ->
    tget v seg = Some false -> (unvisited v <= lim)%nat ->
    exists v' st', sort_util lim t seg v st = Ok (v', st') /\ NoDup (map fst v') /\
      (forall x, (exists b, tget v' x = Some b) <-> (x = 0 \/ In x (map fst t))) /\ (unvisited v' <= unvisited v)%nat.
  Proof.
    intros C. induction lim as [|lim IH]; intros seg v st ND HK Hs Hl.
    - assert (X := unvisited_pos v _ Hs). lia.
    - cbn [sort_util]. set (v1 := dset Z.eqb v seg true).
      assert (U := unvisited_dset v _ ND Hs). fold v1 in U.
      assert (ND1 : NoDup (map fst v1)) by (apply dset_nodup; auto; apply zeqb).
      assert (V1 : forall x, tget v1 x = if Z.eq_dec seg x then Some true else tget v x).
      { intros x. unfold v1. destruct (Z.eq_dec seg x) as [<-|Hne].
        - apply dget_dset_eq. intros; apply Z.eqb_eq.
        - apply dget_dset_neq; auto. intros; apply Z.eqb_eq. }
      assert (HK1 : forall x, (exists b, tget v1 x = Some b) <-> (x = 0 \/ In x (map fst t))).
      { intros x. rewrite <- HK, V1. destruct (Z.eq_dec seg x) as [<-|]; [|tauto]. split; intros _; eauto. }
      destruct (Z.eqb_spec seg 0) as [E0|E0].
      + subst seg. cbn [bind]. unfold dgetE. rewrite V1. destruct (Z.eq_dec 0 0); [|congruence]. cbn [bind].
        exists v1, st. repeat split; auto; try apply HK1; lia.
      + assert (Hk : In seg (map fst t)).
        { destruct (proj1 (HK seg)) as [H|H]; eauto. contradiction. }
        unfold dgetE. destruct (tget t seg) as [o|] eqn:Eo; cbn [bind].
        2:{ exfalso. apply (dget_none Z.eqb zeqb) in Eo. contradiction. }
        assert (Hov : exists b, tget v1 o = Some b) by (apply HK1; eapply C; eauto).
        destruct Hov as [b Hb]. rewrite Hb. cbn [bind]. destruct b.
        * cbn [bind]. eexists v1, _. split; [reflexivity|]. repeat split; auto; try apply HK1; lia.
        * destruct (IH o v1 st) as [v2 [st2 [E2 [ND2 [HK2 U2]]]]]; auto; [lia|].
          rewrite E2. cbn [bind]. eexists v2, _. split; [reflexivity|]. repeat split; auto; try apply HK2; lia.
  Qed.

  Lemma topo_sort_total lim : NoDup (map fst t) -> closed -> (S (length t) <= lim)%nat ->
    exists l, topo_sort lim t = Ok l.
  Proof.
    intros ND C Hl. unfold topo_sort. fold vis0.
    change (exists l, bind (foldM (step lim) (isort Z.leb (map fst vis0)) (vis0, [])) (fun '(_, stack) => Ok stack) = Ok l).
    destruct vis0_spec as [N0 [K0 [F0 T0]]].
    assert (HK : forall x, (exists b, tget vis0 x = Some b) <-> (x = 0 \/ In x (map fst t))).
    { intros x. split.
      - intros [b Hb]. apply (dget_in Z.eqb zeqb) in Hb. apply K0. apply in_map with (f := fst) in Hb. exact Hb.
      - intros Hx. exists false. auto. }
    assert (U0 : (unvisited vis0 <= S (length t))%nat).
    { assert (A1 : (length (map fst vis0) <= length (0%Z :: map fst t))%nat).
      { apply (NoDup_incl_length N0). intros x Hx. apply K0 in Hx. simpl. intuition congruence. }
      simpl in A1. rewrite !map_length in A1. unfold unvisited.
      assert (A2 : forall v : list (Z * bool), (length (filter (fun p => negb (snd p)) v) <= length v)%nat).
      { clear. induction v as [|p v IH]; simpl; [lia|]. destruct (negb (snd p)); simpl; lia. }
      specialize (A2 vis0). lia. }
    assert (G : forall ks v st, (forall x, In x ks -> x = 0 \/ In x (map fst t)) -> NoDup (map fst v) ->
      (forall x, (exists b, tget v x = Some b) <-> (x = 0 \/ In x (map fst t))) -> (unvisited v <= lim)%nat ->
      exists v' st', foldM (step lim) ks (v, st) = Ok (v', st')).
    { induction ks as [|k ks IH]; intros v st Hks NDv HKv Uv; cbn [foldM]; [eauto|].
      unfold step at 1. destruct (Z.eqb_spec k 0) as [E0|E0].
      - cbn [bind]. apply IH; auto. intros; apply Hks; now right.
      - destruct (proj2 (HKv k)) as [b Hb]; [apply Hks; now left|]. unfold dgetE. rewrite Hb. cbn [bind].
        destruct b; cbn [bind].
        + apply IH; auto. intros; apply Hks; now right.
        + destruct (@sort_util_total lim C k v st NDv HKv Hb Uv) as [v2 [st2 [E2 [ND2 [HK2 U2]]]]].
          rewrite E2. cbn [bind]. apply IH; auto; [intros; apply Hks; now right|lia]. }
    destruct (G (isort Z.leb (map fst vis0)) vis0 []) as [v' [st' EF]]; auto.
    - intros x Hx. apply isort_in in Hx. now apply K0.
    - lia.
    - rewrite EF. cbn [bind]. eauto.
  Qed.
End Sort.

(** ** A chain longer than the recursion limit *)
Definition river (n : nat) : topology :=
  map (fun i => (Z.of_nat i, if Nat.eqb i n then 0 else Z.of_nat (S i))) (seq 1 n).

Lemma river_get n i : (1 <= i <= n)%nat -> tget (river n) (Z.of_nat i) = Some (if Nat.eqb i n then 0 else Z.of_nat (S i)).
Proof.
  intros H. apply (dget_in_nodup Z.eqb zeqb).
  - unfold river. rewrite map_map. simpl. apply FinFun.Injective_map_NoDup; [|apply seq_NoDup].
    intros a b Hab. now apply Nat2Z.inj.
  - unfold river. apply in_map_iff. exists i. split; auto. apply in_seq. lia.
Qed.

Lemma river_keys n x : In x (map fst (river n)) <-> exists i, x = Z.of_nat i /\ (1 <= i <= n)%nat.
Proof.
  unfold river. rewrite map_map. simpl. rewrite in_map_iff. split.
  - intros [i [<- Hi]]. apply in_seq in Hi. exists i. split; auto. lia.
  - intros [i [-> Hi]]. exists i. split; auto. apply in_seq. lia.
Qed.

Lemma river_nodup n : NoDup (map fst (river n)).
Proof. unfold river. rewrite map_map. simpl. apply FinFun.Injective_map_NoDup; [|apply seq_NoDup].
  intros a b Hab. now apply Nat2Z.inj. Qed.

Lemma river_fail n : forall lim i v st, (1 <= i <= n)%nat -> (lim <= n - i)%nat ->
  (forall j, (i <= j <= n)%nat -> tget v (Z.of_nat j) = Some false) ->
  sort_util lim (river n) (Z.of_nat i) v st = Err RecursionError.
Proof.
  induction lim as [|lim IH]; intros i v st Hi Hl Hv; auto.
  cbn [sort_util]. destruct (Z.eqb_spec (Z.of_nat i) 0); [lia|].
  unfold dgetE. rewrite river_get by auto. cbn [bind].
  destruct (Nat.eqb_spec i n); [lia|].
  rewrite (dget_dset_neq _ zeqb) by lia. rewrite Hv by lia. cbn [bind].
  rewrite IH; auto; try lia. intros j Hj. rewrite (dget_dset_neq _ zeqb) by lia. apply Hv. lia.
Qed.

Lemma isort_min (l : list Z) x : In x l -> (forall y, In y l -> x <= y) ->
  exists r, isort Z.leb l = x :: r.
Proof.
  intros Hx Hm.
  assert (S : StronglySorted Z.le (isort Z.leb l)).
  { apply isort_sorted.
    - intros a b H. now apply Z.leb_le.
    - intros a b H. apply Z.leb_gt in H. lia.
    - intros a b c. lia. }
  destruct (isort Z.leb l) as [|y r] eqn:E.
  - assert (X : In x (isort Z.leb l)) by now apply isort_in. rewrite E in X. destruct X.
  - assert (X : In x (isort Z.leb l)) by now apply isort_in. rewrite E in X.
    assert (Y : x <= y) by (apply Hm; apply (isort_in Z.leb); rewrite E; now left).
    inversion S as [|? ? S1 S2]; subst. rewrite Forall_forall in S2. destruct X as [->|X]; [eauto|].
    assert (y <= x) by auto. assert (x = y) by lia. subst. eauto.
Qed.

Lemma river_sort_fails n : (0 < n)%nat -> topo_sort (n - 1) (river n) = Err RecursionError.
Proof.
  intros Hn. unfold topo_sort. fold (vis0 (river n)).
  change (bind (foldM (step (river n) (n - 1)) (isort Z.leb (map fst (vis0 (river n)))) (vis0 (river n), []))
            (fun '(_, stack) => Ok stack) = Err RecursionError).
  destruct (vis0_spec (river n)) as [N0 [K0 [F0 T0]]].
  assert (S : StronglySorted Z.lt (isort Z.leb (map fst (vis0 (river n))))).
  { assert (S1 : StronglySorted Z.le (isort Z.leb (map fst (vis0 (river n))))).
    { apply isort_sorted.
      - intros a b H. now apply Z.leb_le.
      - intros a b H. apply Z.leb_gt in H. lia.
      - intros a b c. lia. }
    assert (N1 := isort_nodup Z.leb N0). revert S1 N1. generalize (isort Z.leb (map fst (vis0 (river n)))).
    induction 1 as [|a l H1 IH H2]; intros ND; constructor; inversion ND; subst; auto.
    rewrite Forall_forall in *. intros b Hb. specialize (H2 b Hb). assert (a <> b) by (intros ->; contradiction). lia. }
  assert (M : forall x, In x (isort Z.leb (map fst (vis0 (river n)))) <-> x = 0 \/ exists i, x = Z.of_nat i /\ (1 <= i <= n)%nat).
  { intros x. rewrite isort_in, K0, river_keys. tauto. }
  destruct (isort Z.leb (map fst (vis0 (river n)))) as [|a [|b r]] eqn:E.
  - exfalso. apply (M 0). auto.
  - exfalso. assert (X := proj2 (M 0) (or_introl eq_refl)). assert (Y := proj2 (M 1) (or_intror (ex_intro _ 1%nat (conj eq_refl (conj (le_n 1) Hn))))).
    destruct X as [X|[]], Y as [Y|[]]. lia.
  - inversion S as [|? ? S1 S2]; subst. inversion S1 as [|? ? S3 S4]; subst. rewrite Forall_forall in *.
    assert (Ha : a = 0).
    { assert (X := proj2 (M 0) (or_introl eq_refl)). destruct X as [|X]; auto. specialize (S2 _ X).
      destruct (proj1 (M a) (or_introl eq_refl)) as [|[i [-> _]]]; auto. lia. }
    assert (Hb : b = 1).
    { assert (Y := proj2 (M 1) (or_intror (ex_intro _ 1%nat (conj eq_refl (conj (le_n 1) Hn))))).
      destruct Y as [Y|[Y|Y]]; [lia|auto|]. specialize (S4 _ Y). assert (Q := S2 b (or_introl eq_refl)). lia. }
    subst a b. cbn [foldM]. unfold step at 1. cbn [Z.eqb bind]. cbn [foldM].
    unfold step at 1. cbn [Z.eqb]. unfold dgetE. rewrite F0.
    2:{ right. apply river_keys. exists 1%nat. split; [auto|lia]. }
    cbn [bind]. change 1 with (Z.of_nat 1). rewrite river_fail; auto; try lia.
    intros j Hj. apply F0. right. apply river_keys. exists j. auto.
Qed.
