(** How many stack frames Topology.sort needs. *)
From Verif Require Import Py Spec MFlow LTopo.
Set Implicit Arguments. Unset Strict Implicit.
Local Open Scope Z_scope.
Local Open Scope list_scope.

(** consecutive segments linked by [t]; 0 (the outlet) can only come last *)
Inductive tchain (t : topology) : list Z -> Prop :=
| tc_one : forall s, tchain t [s]
| tc_cons : forall s o r, s <> 0 -> tget t s = Some o -> tchain t (o :: r) -> tchain t (s :: o :: r).

Section Depth.
  Variable t : topology.
  Hypothesis C : closed t.

  Notation kset v := (forall x, (exists b, tget v x = Some b) <-> (x = 0 \/ In x (map fst t))).

  Lemma vset (v : list (Z * bool)) seg x : tget (dset Z.eqb v seg true) x = if Z.eq_dec seg x then Some true else tget v x.
  Proof.
    destruct (Z.eq_dec seg x) as [<-|Hne]; [apply (dget_dset_eq _ zeqb)|now apply (dget_dset_neq _ zeqb)].
  Qed.

  Lemma kset_dset v seg : kset v -> (seg = 0 \/ In seg (map fst t)) -> kset (dset Z.eqb v seg true).
  Proof.
    intros HK Hs x. rewrite vset. destruct (Z.eq_dec seg x) as [<-|]; [|apply HK]. split; eauto.
  Qed.

  (** one call succeeds exactly if there are enough frames for the unvisited chain below *)
  Lemma sort_util_exact lim : forall seg v st, kset v -> tget v seg = Some false ->
    (exists r, sort_util lim t seg v st = Ok r) <->
    (forall p, tchain t (seg :: p) -> NoDup (seg :: p) -> (forall x, In x (seg :: p) -> tget v x = Some false) ->
       (length (seg :: p) <= lim)%nat).
  Proof.
    induction lim as [|lim IH]; intros seg v st HK Hs.
    - split; [intros [r E]; discriminate|]. intros H. exfalso.
      assert (X := H [] (tc_one t seg)). simpl in X. lapply X; [|repeat constructor; auto].
      intros Y. specialize (Y ltac:(intros x [<-|[]]; auto)). lia.
    - cbn [sort_util].
      assert (Hks : seg = 0 \/ In seg (map fst t)) by (apply HK; eauto).
      assert (HK1 := kset_dset HK Hks).
      destruct (Z.eqb_spec seg 0) as [E0|E0].
      + subst seg. cbn [bind]. unfold dgetE. rewrite vset. destruct (Z.eq_dec 0 0); [|congruence]. cbn [bind].
        split; [|eauto]. intros _ p Hp _ _. inversion Hp; subst; [simpl; lia|congruence].
      + destruct Hks as [|Hk]; [contradiction|].
        unfold dgetE. destruct (tget t seg) as [o|] eqn:Eo; cbn [bind].
        2:{ exfalso. apply (dget_none Z.eqb zeqb) in Eo. contradiction. }
        destruct (proj2 (HK1 o)) as [b Hb]; [eapply C; eauto|]. rewrite Hb. cbn [bind]. destruct b.
        * cbn [bind]. split; [|eauto]. intros _ p Hp ND Hv. destruct p as [|o' p]; [simpl; lia|].
          inversion Hp; subst. assert (o' = o) by congruence. subst o'.
          rewrite vset in Hb. destruct (Z.eq_dec seg o) as [<-|].
          { inversion ND as [|? ? N1 N2]. exfalso. apply N1. now left. }
          assert (X := Hv o ltac:(right; now left)). congruence.
        * assert (Hne : seg <> o) by (intros <-; rewrite vset in Hb; destruct (Z.eq_dec seg seg); congruence).
          assert (Q := IH o (dset Z.eqb v seg true) st HK1 Hb).
          transitivity (exists r, sort_util lim t o (dset Z.eqb v seg true) st = Ok r).
          { split.
            - intros [r E]. destruct (sort_util lim t o (dset Z.eqb v seg true) st) as [r2|]; [eauto|discriminate].
            - intros [[v2 st2] E]. rewrite E. cbn [bind]. eauto. }
          rewrite Q. split.
          { intros H p Hp ND Hv. destruct p as [|o' p]; [simpl; lia|].
            inversion Hp; subst. assert (o' = o) by congruence. subst o'.
            inversion ND as [|? ? N1 N2]; subst. cbn [length]. apply le_n_S. apply (H p); auto.
            intros x Hx. rewrite vset. destruct (Z.eq_dec seg x) as [->|]; [contradiction|]. apply Hv. now right. }
          { intros H p Hp ND Hv. apply le_S_n. apply (H (o :: p)).
            - constructor; auto.
            - constructor; auto. intros Hin. specialize (Hv _ Hin). rewrite vset in Hv. destruct (Z.eq_dec seg seg); congruence.
            - intros x [<-|Hx]; auto. specialize (Hv _ Hx). rewrite vset in Hv. destruct (Z.eq_dec seg x); congruence. }
  Qed.

  (** the only error is RecursionError *)
  Lemma sort_util_err lim : forall seg v st e, kset v -> tget v seg = Some false ->
    sort_util lim t seg v st = Err e -> e = RecursionError.
  Proof.
    induction lim as [|lim IH]; intros seg v st e HK Hs; [simpl; congruence|].
    cbn [sort_util].
    assert (Hks : seg = 0 \/ In seg (map fst t)) by (apply HK; eauto).
    assert (HK1 := kset_dset HK Hks).
    destruct (Z.eqb_spec seg 0) as [E0|E0].
    - subst seg. cbn [bind]. unfold dgetE. rewrite vset. destruct (Z.eq_dec 0 0); [|congruence]. cbn [bind]. discriminate.
    - destruct Hks as [|Hk]; [contradiction|].
      unfold dgetE. destruct (tget t seg) as [o|] eqn:Eo; cbn [bind].
      2:{ exfalso. apply (dget_none Z.eqb zeqb) in Eo. contradiction. }
      destruct (proj2 (HK1 o)) as [b Hb]; [eapply C; eauto|]. rewrite Hb. cbn [bind]. destruct b.
      + cbn [bind]. discriminate.
      + destruct (sort_util lim t o (dset Z.eqb v seg true) st) as [[v2 st2]|e2] eqn:E2; cbn [bind]; [discriminate|].
        intros X. inversion X; subst. eapply IH; eauto.
  Qed.

  (** what a call visits *)
  Lemma sort_util_visits lim : forall seg v st v' st', kset v -> tget v seg = Some false ->
    sort_util lim t seg v st = Ok (v', st') ->
    kset v' /\
    (forall x, tget v' x = Some true <-> tget v x = Some true \/
       exists p, tchain t (seg :: p) /\ NoDup (seg :: p) /\ (forall y, In y (seg :: p) -> tget v y = Some false) /\
                 last (seg :: p) 0 = x).
  Proof.
    induction lim as [|lim IH]; intros seg v st v' st' HK Hs E; [discriminate|].
    cbn [sort_util] in E.
    assert (Hks : seg = 0 \/ In seg (map fst t)) by (apply HK; eauto).
    assert (HK1 := kset_dset HK Hks).
    assert (Self : exists p, tchain t (seg :: p) /\ NoDup (seg :: p) /\ (forall y, In y (seg :: p) -> tget v y = Some false) /\
                 last (seg :: p) 0 = seg).
    { exists []. split; [constructor|]. split; [repeat constructor; auto|]. split; [|reflexivity]. intros y [<-|[]]; auto. }
    destruct (Z.eqb_spec seg 0) as [E0|E0].
    - subst seg. cbn [bind] in E. unfold dgetE in E. rewrite vset in E. destruct (Z.eq_dec 0 0); [|congruence]. cbn [bind] in E.
      inversion E; subst. split; auto. intros x. rewrite vset. destruct (Z.eq_dec 0 x) as [<-|Hx].
      + split; auto.
      + split; auto. intros [H|[p [Hp [_ [_ El]]]]]; auto. exfalso. inversion Hp; subst; [simpl in *; congruence|congruence].
    - destruct Hks as [|Hk]; [contradiction|].
      unfold dgetE in E. destruct (tget t seg) as [o|] eqn:Eo; cbn [bind] in E.
      2:{ exfalso. apply (dget_none Z.eqb zeqb) in Eo. contradiction. }
      destruct (proj2 (HK1 o)) as [b Hb]; [eapply C; eauto|]. rewrite Hb in E. cbn [bind] in E. destruct b.
      + cbn [bind] in E. inversion E; subst. split; auto. intros x. rewrite vset. destruct (Z.eq_dec seg x) as [<-|Hx].
        * split; auto.
        * split; auto. intros [H|[p [Hp [ND [Hv El]]]]]; auto. exfalso.
          destruct p as [|o' p]; [simpl in El; congruence|]. inversion Hp; subst. assert (o' = o) by congruence. subst o'.
          rewrite vset in Hb. destruct (Z.eq_dec seg o) as [<-|].
          { inversion ND as [|? ? N1 N2]. apply N1. now left. }
          assert (X := Hv o ltac:(right; now left)). congruence.
      + destruct (sort_util lim t o (dset Z.eqb v seg true) st) as [[v2 st2]|e2] eqn:E2; cbn [bind] in E; [|discriminate].
        inversion E; subst. destruct (IH _ _ _ _ _ HK1 Hb E2) as [HK2 HV]. split; auto. intros x. rewrite HV, vset.
        assert (Hne : seg <> o) by (intros <-; rewrite vset in Hb; destruct (Z.eq_dec seg seg); congruence).
        split.
        * intros [H|[p [Hp [ND [Hv El]]]]].
          { destruct (Z.eq_dec seg x) as [<-|]; auto. }
          right. exists (o :: p). split; [constructor; auto|]. split.
          { constructor; auto. intros Hin. specialize (Hv _ Hin). rewrite vset in Hv. destruct (Z.eq_dec seg seg); congruence. }
          split; [|exact El]. intros y [<-|Hy]; auto. specialize (Hv _ Hy). rewrite vset in Hv. destruct (Z.eq_dec seg y); congruence.
        * destruct (Z.eq_dec seg x) as [<-|Hx]; auto. intros [H|[p [Hp [ND [Hv El]]]]]; auto. right.
          destruct p as [|o' p]; [simpl in El; congruence|]. inversion Hp; subst. assert (o' = o) by congruence. subst o'.
          inversion ND as [|? ? N1 N2]; subst. exists p. split; auto. split; auto. split; [|reflexivity].
          intros y Hy. rewrite vset. destruct (Z.eq_dec seg y) as [->|]; [contradiction|]. apply Hv. now right.
  Qed.

  (** *** reachability; [leads0] stops at 0 *)
  Inductive leads0 : Z -> Z -> Prop :=
  | l0_refl : forall a, leads0 a a
  | l0_step : forall a o b, a <> 0 -> tget t a = Some o -> leads0 o b -> leads0 a b.

  Lemma leads0_trans a b c : leads0 a b -> leads0 b c -> leads0 a c.
  Proof. induction 1; auto. intros H2. econstructor; eauto. Qed.

  Lemma chain_leads s p x : tchain t (s :: p) -> In x (s :: p) -> leads0 s x.
  Proof.
    revert s. induction p as [|o p IH]; intros s Hc Hx.
    - destruct Hx as [<-|[]]. constructor.
    - inversion Hc; subst. destruct Hx as [<-|Hx]; [constructor|]. econstructor; eauto.
  Qed.

  (** a reachable node is at the end of a chain without repetition *)
  Lemma leads_chain s x : leads0 s x -> exists p, tchain t (s :: p) /\ NoDup (s :: p) /\ last (s :: p) 0 = x.
  Proof.
    induction 1 as [a|a o b Ha Ho _ [p [Hp [ND El]]]].
    - exists []. split; [constructor|]. split; [repeat constructor; auto|reflexivity].
    - destruct (in_dec Z.eq_dec a (o :: p)) as [Hi|Hi].
      + apply in_split in Hi. destruct Hi as [l1 [l2 E]]. rewrite E in *. exists l2. split; [|split].
        * clear -Hp. assert (G : forall l1, tchain t (l1 ++ a :: l2) -> tchain t (a :: l2)).
          { clear. induction l1 as [|x l1 IH]; auto. intros H. apply IH. simpl in H. inversion H; subst.
            - destruct l1; discriminate.
            - congruence. }
          now apply (G l1).
        * clear -ND. induction l1 as [|z l1 IH]; auto. simpl in ND. inversion ND; auto.
        * rewrite <- El. clear. induction l1 as [|x l1 IH]; auto. rewrite IH. simpl. destruct (l1 ++ a :: l2) eqn:E; auto.
          destruct l1; discriminate.
      + exists (o :: p). split; [now constructor|]. split; [now constructor|exact El].
  Qed.
  
  Lemma tchain_prefix l1 : forall l2, l1 <> [] -> tchain t (l1 ++ l2) -> tchain t l1.
  Proof.
    induction l1 as [|x l1 IH]; [congruence|]. intros l2 _ H. destruct l1 as [|y l1]; [constructor|].
    simpl in H. inversion H; subst. constructor; auto. apply (IH l2); auto. discriminate.
  Qed.

  (** *** the loop over the sorted segments *)
  Definition dclosed (v : list (Z * bool)) : Prop :=
    forall x o, x <> 0 -> tget v x = Some true -> tget t x = Some o -> tget v o = Some true.

  Lemma dclosed_leads v x y : dclosed v -> leads0 x y -> tget v x = Some true -> tget v y = Some true.
  Proof. intros D. induction 1; auto. intros H2. apply IHleads0. eapply D; eauto. Qed.

  Lemma visits_top lim seg v st v' st' : kset v -> dclosed v -> tget v seg = Some false ->
    sort_util lim t seg v st = Ok (v', st') ->
    kset v' /\ dclosed v' /\ (forall x, tget v' x = Some true <-> tget v x = Some true \/ leads0 seg x).
  Proof.
    intros HK D Hs E. destruct (sort_util_visits HK Hs E) as [HK' HV].
    assert (X : forall x, tget v' x = Some true <-> tget v x = Some true \/ leads0 seg x).
    { intros x. rewrite HV. split.
      - intros [H|[p [Hp [_ [_ El]]]]]; auto. right. apply (chain_leads (p := p)); auto. rewrite <- El. clear.
        generalize seg. induction p as [|y p IH]; intros s; [now left|]. right. simpl. apply IH.
      - intros [H|H]; auto. destruct (tget v x) as [[|]|] eqn:Ex; auto.
        + right. destruct (leads_chain H) as [p [Hp [ND El]]]. exists p. split; auto. split; auto. split; auto.
          intros y Hy. destruct (tget v y) as [[|]|] eqn:Ey; auto; exfalso.
          * assert (L : leads0 y x).
            { clear -Hp Hy El. revert seg Hp Hy El. induction p as [|o p IH]; intros s Hp Hy El.
              - destruct Hy as [<-|[]]. simpl in El. subst. constructor.
              - assert (Hl : last (o :: p) 0 = x) by exact El. destruct Hy as [<-|Hy].
                + apply (chain_leads (p := o :: p)); auto. rewrite <- Hl. right. clear. revert o. induction p as [|z p IH]; intros o; [now left|]. right. apply IH.
                + inversion Hp; subst. eapply IH; eauto. }
            rewrite (dclosed_leads D L Ey) in Ex. discriminate.
          * assert (Hk : y = 0 \/ In y (map fst t)).
            { assert (L : leads0 seg y) by (eapply chain_leads; eauto).
              clear -C L Hs HK. assert (G : seg = 0 \/ In seg (map fst t)) by (apply HK; eauto).
              revert G. clear HK Hs. induction L as [a|a o b Ha Ho L IH]; auto. intros _. apply IH. eapply C; eauto. }
            apply HK in Hk. destruct Hk; congruence.
        + exfalso. assert (Hk : x = 0 \/ In x (map fst t)).
            { clear -C H Hs HK. assert (G : seg = 0 \/ In seg (map fst t)) by (apply HK; eauto).
              revert G. clear HK Hs. induction H as [a|a o b Ha Ho L IH]; auto. intros _. apply IH. eapply C; eauto. }
            apply HK in Hk. destruct Hk; congruence. }
    split; auto. split; auto.
    intros x o Hx Hv Ho. apply X in Hv. apply X. destruct Hv as [Hv|Hv].
    - left. eapply D; eauto.
    - right. eapply leads0_trans; eauto. econstructor; eauto. constructor.
  Qed.

  (** the loop succeeds exactly if every call does *)
  Definition fits (lim : nat) (done : list Z) (s : Z) : Prop :=
    forall p, tchain t (s :: p) -> NoDup (s :: p) ->
      (forall x y, In x (s :: p) -> In y done -> y <> 0 -> ~ leads0 y x) -> (length (s :: p) <= lim)%nat.

  Lemma loop_exact lim : forall ks done v st,
    kset v -> dclosed v -> (forall x, tget v x = Some true <-> exists y, In y done /\ y <> 0 /\ leads0 y x) ->
    (forall x, In x ks -> x = 0 \/ In x (map fst t)) ->
    ((exists r, foldM (step t lim) ks (v, st) = Ok r) <->
     (forall k1 k k2, ks = k1 ++ k :: k2 -> k <> 0 -> fits lim (done ++ k1) k)) /\
    (forall e, foldM (step t lim) ks (v, st) = Err e -> e = RecursionError).
  Proof.
    induction ks as [|k ks IH]; intros done v st HK D HV Hks; cbn [foldM].
    - split; [|discriminate]. split; [|eauto]. intros _ [|] ? ? E; discriminate.
    - unfold step at 1 3. destruct (Z.eqb_spec k 0) as [E0|E0].
      + subst k. cbn [bind]. destruct (IH done v st HK D HV) as [A B]; [intros; apply Hks; now right|]. split; auto.
        rewrite A. split.
        * intros H [|x k1] k k2 E Hk; inversion E; subst; [congruence|]. 
          assert (F := H k1 k k2 eq_refl Hk). intros p Hp ND Hx. apply F; auto. intros y z Hy Hz. apply Hx; auto.
          rewrite in_app_iff in *. simpl. tauto.
        * intros H k1 k k2 E Hk. assert (F := H (0 :: k1) k k2 ltac:(simpl; congruence) Hk).
          intros p Hp ND Hx. apply F; auto. intros y z Hy Hz Hz0. apply Hx; auto. rewrite in_app_iff in *. simpl in Hz. intuition congruence.
      + assert (Hkk : k = 0 \/ In k (map fst t)) by (apply Hks; now left).
        destruct (proj2 (HK k) Hkk) as [b Hb]. unfold dgetE. rewrite Hb. cbn [bind]. destruct b; cbn [bind].
        * (* already visited *)
          assert (HV' : forall x, tget v x = Some true <-> exists y, In y (done ++ [k]) /\ y <> 0 /\ leads0 y x).
          { intros x. rewrite HV. split.
            - intros [y [H1 H2]]. exists y. rewrite in_app_iff. auto.
            - intros [y [H1 [H2 H3]]]. apply in_app_iff in H1. destruct H1 as [H1|[<-|[]]]; [eauto|].
              apply HV in Hb. destruct Hb as [z [Hz [Hz0 Hl]]]. exists z. split; auto. split; auto. eapply leads0_trans; eauto. }
          destruct (IH (done ++ [k]) v st HK D HV') as [A B]; [intros; apply Hks; now right|]. split; auto.
          rewrite A. split.
          { intros H [|x k1] k' k2 E Hk; inversion E; subst.
            - intros p Hp ND Hx. exfalso. apply HV in Hb. destruct Hb as [z [Hz [Hz0 Hl]]].
              apply (Hx k' z); auto; [now left|]. rewrite in_app_iff. auto.
            - specialize (H k1 k' k2 eq_refl Hk). rewrite <- app_assoc in H. exact H. }
          { intros H k1 k' k2 E Hk. rewrite <- app_assoc. apply (H (k :: k1) k' k2); auto. simpl. congruence. }
        * assert (Q := sort_util_exact lim st HK Hb).
          assert (Hv0 : forall x, (x = 0 \/ In x (map fst t)) -> (tget v x = Some false <-> forall y, In y done -> y <> 0 -> ~ leads0 y x)).
          { intros x Hx. apply HK in Hx. destruct Hx as [b Hx]. rewrite Hx. split.
            - intros Ef y Hy Hy0 Hl. inversion Ef; subst. assert (X := proj2 (HV x) (ex_intro _ y (conj Hy (conj Hy0 Hl)))). congruence.
            - intros H. destruct b; auto. apply HV in Hx. destruct Hx as [y [H1 [H2 H3]]]. destruct (H y H1 H2 H3). }
          assert (Hch : forall p x, tchain t (k :: p) -> In x (k :: p) -> x = 0 \/ In x (map fst t)).
          { intros p x Hp Hx. assert (L := chain_leads Hp Hx). clear -C L Hkk. induction L as [a|a o b Ha Ho L IH]; auto. apply IH. eapply C; eauto. }
          assert (Q' : (exists r, sort_util lim t k v st = Ok r) <-> fits lim done k).
          { rewrite Q. split.
            - intros H p Hp ND Hx. apply H; auto. intros x Hxi. apply Hv0; eauto.
            - intros H p Hp ND Hx. apply H; auto. intros x y Hxi Hy Hy0. specialize (Hx x Hxi). rewrite Hv0 in Hx by eauto. auto. }
          destruct (sort_util lim t k v st) as [[v2 st2]|e2] eqn:E2; cbn [bind].
          { destruct (visits_top HK D Hb E2) as [HK2 [D2 HV2]].
            destruct (IH (done ++ [k]) v2 st2 HK2 D2) as [A B].
            - intros x. rewrite HV2, HV. split.
              + intros [[y [H1 H2]]|H]; [exists y|exists k]; rewrite in_app_iff; simpl; auto.
              + intros [y [H1 [H2 H3]]]. apply in_app_iff in H1. destruct H1 as [H1|[<-|[]]]; eauto.
            - intros; apply Hks; now right.
            - split; auto. rewrite A. split.
              + intros H [|x k1] k' k2 E Hk; inversion E; subst.
                * rewrite app_nil_r. apply Q'. eauto.
                * specialize (H k1 k' k2 eq_refl Hk). rewrite <- app_assoc in H. exact H.
              + intros H k1 k' k2 E Hk. rewrite <- app_assoc. apply (H (k :: k1) k' k2); auto. simpl. congruence. }
          { split.
            - split; [intros [r E]; discriminate|]. intros H. exfalso.
              assert (X := H [] k ks eq_refl E0). rewrite app_nil_r in X. apply Q' in X. destruct X; discriminate.
            - intros e E. inversion E; subst. eapply sort_util_err; eauto. }
  Qed.

  Lemma topo_sort_exact lim : NoDup (map fst t) ->
    ((exists l, topo_sort lim t = Ok l) <->
     (forall s p, In s (map fst t) -> tchain t (s :: p) -> NoDup (s :: p) -> s <> 0 ->
        (forall x y, In x (s :: p) -> In y (map fst t) -> y <> 0 -> leads0 y x -> s <= y) -> (length (s :: p) <= lim)%nat)) /\
    (forall e, topo_sort lim t = Err e -> e = RecursionError).
  Proof.
    intros ND. unfold topo_sort. fold (vis0 t).
    change (fun (vs : list (Z * bool) * list Z) (i : Z) =>
      let '(visited, stack) := vs in
      if i =? 0 then Ok (visited, stack)
      else b <- dgetE Z.eqb visited i;; (if b : bool then Ok (visited, stack) else sort_util lim t i visited stack)) with (step t lim).
    destruct (vis0_spec t) as [N0 [K0 [F0 T0]]].
    assert (HK : kset (vis0 t)).
    { intros x. split.
      - intros [b Hb]. apply (dget_in Z.eqb zeqb) in Hb. apply K0. apply in_map with (f := fst) in Hb. exact Hb.
      - intros Hx. exists false. auto. }
    set (ks := isort Z.leb (map fst (vis0 t))).
    assert (SS : StronglySorted Z.lt ks).
    { assert (S1 : StronglySorted Z.le ks).
      { apply isort_sorted.
        - intros a b H. now apply Z.leb_le.
        - intros a b H. apply Z.leb_gt in H. lia.
        - intros a b c. lia. }
      assert (N1 : NoDup ks) by exact (isort_nodup Z.leb N0). revert S1 N1. generalize ks.
      clear. induction 1 as [|a l H1 IH H2]; intros ND; constructor; inversion ND; subst; auto.
      rewrite Forall_forall in *. intros b Hb. specialize (H2 b Hb). assert (a <> b) by (intros ->; contradiction). lia. }
    assert (M : forall x, In x ks <-> x = 0 \/ In x (map fst t)) by (intros x; unfold ks; rewrite isort_in; apply K0).
    destruct (@loop_exact lim ks [] (vis0 t) [] HK) as [A B].
    - intros x o _ Hx. exfalso. destruct (proj1 (HK x)) as [H|H]; [eauto| |]; rewrite F0 in Hx; auto; discriminate.
    - intros x. split.
      + intros Hx. exfalso. assert (H : x = 0 \/ In x (map fst t)) by (apply HK; eauto). rewrite F0 in Hx; auto; discriminate.
      + intros [y [[] _]].
    - intros x Hx. now apply M.
    - split.
      + transitivity (exists r, foldM (step t lim) ks (vis0 t, []) = Ok r).
        { split.
          - intros [l E]. destruct (foldM (step t lim) ks (vis0 t, [])) as [r|]; [eauto|discriminate].
          - intros [[v st] E]. rewrite E. cbn [bind]. eauto. }
        rewrite A. split.
        * intros H s p Hs Hp NDp Hs0 Hx. assert (Hin : In s ks) by (apply M; auto).
          apply in_split in Hin. destruct Hin as [k1 [k2 E]]. apply (H k1 s k2 E Hs0 p); auto.
          intros x y Hxi Hy Hy0 Hl. simpl in Hy.
          assert (Hyk : In y (map fst t)).
          { destruct (proj1 (M y)) as [->|]; auto; [rewrite E, in_app_iff; auto|congruence]. }
          assert (X := Hx x y Hxi Hyk Hy0 Hl). rewrite E in SS. clear -SS Hy X.
          induction k1 as [|a k1 IH]; [destruct Hy|]. simpl in SS. inversion SS as [|? ? S1 S2]; subst.
          destruct Hy as [<-|Hy]; [|auto]. rewrite Forall_forall in S2. specialize (S2 s ltac:(rewrite in_app_iff; simpl; auto)). lia.
        * intros H k1 k k2 E Hk p Hp NDp Hx. simpl in Hx.
          assert (Hkk : In k (map fst t)).
          { destruct (proj1 (M k)) as [->|]; auto; [rewrite E, in_app_iff; simpl; auto|congruence]. }
          apply H; auto. intros x y Hxi Hy Hy0 Hl.
          destruct (Z.le_gt_cases k y) as [|Hlt]; auto. exfalso. apply (Hx x y Hxi); auto.
          assert (Hyi : In y ks) by (apply M; auto). rewrite E in Hyi, SS. clear -Hyi SS Hlt.
          apply in_app_iff in Hyi. destruct Hyi as [|[->|Hyi]]; auto; [lia|]. exfalso.
          induction k1 as [|a k1 IH].
          { simpl in SS. inversion SS as [|? ? S1 S2]; subst. rewrite Forall_forall in S2. specialize (S2 y Hyi). lia. }
          simpl in SS. inversion SS; subst; auto.
      + intros e E. destruct (foldM (step t lim) ks (vis0 t, [])) as [[v st]|e2] eqn:E2; cbn [bind] in E; [discriminate|].
        inversion E; subst. now apply B.
  Qed.

  (** enough frames for every chain *)
  Lemma topo_sort_depth lim : NoDup (map fst t) ->
    (forall s p, In s (map fst t) -> tchain t (s :: p) -> NoDup (s :: p) -> s <> 0 -> (length (s :: p) <= lim)%nat) ->
    exists l, topo_sort lim t = Ok l.
  Proof. intros ND H. apply (topo_sort_exact lim ND). intros; auto. Qed.
End Depth.

(** more frames change nothing *)
Lemma sort_util_mono t lim : forall lim' seg v st r, (lim <= lim')%nat -> sort_util lim t seg v st = Ok r -> sort_util lim' t seg v st = Ok r.
Proof.
  induction lim as [|lim IH]; intros lim' seg v st r Hl E; [discriminate|].
  destruct lim' as [|lim']; [lia|]. cbn [sort_util] in *.
  destruct (if seg =? 0 then Ok 0 else dgetE Z.eqb t seg) as [o|]; cbn [bind] in *; [|discriminate].
  destruct (dgetE Z.eqb (dset Z.eqb v seg true) o) as [[|]|]; cbn [bind] in *; auto.
  destruct (sort_util lim t o (dset Z.eqb v seg true) st) as [r2|] eqn:E2; [|discriminate].
  rewrite (IH lim' _ _ _ r2) by (auto; lia). exact E.
Qed.

Lemma topo_sort_mono t lim lim' l : (lim <= lim')%nat -> topo_sort lim t = Ok l -> topo_sort lim' t = Ok l.
Proof.
  intros Hl E. unfold topo_sort in *. fold (vis0 t) in *.
  set (f := fun (lim : nat) (vs : list (Z * bool) * list Z) (i : Z) =>
      let '(visited, stack) := vs in
      if i =? 0 then Ok (visited, stack)
      else b <- dgetE Z.eqb visited i;; (if b : bool then Ok (visited, stack) else sort_util lim t i visited stack)) in *.
  assert (G : forall ks s r, foldM (f lim) ks s = Ok r -> foldM (f lim') ks s = Ok r).
  { induction ks as [|k ks IH]; intros s r; cbn [foldM]; auto.
    destruct (f lim s k) as [s2|] eqn:E2; cbn [bind]; [|discriminate]. intros E3.
    assert (X : f lim' s k = Ok s2).
    { unfold f in *. destruct s as [v st]. destruct (k =? 0); auto. destruct (dgetE Z.eqb v k) as [[|]|]; cbn [bind] in *; auto.
      eapply sort_util_mono; eauto. }
    rewrite X. cbn [bind]. auto. }
  change (bind (foldM (f lim) (isort Z.leb (map fst (vis0 t))) (vis0 t, [])) (fun '(_, stack) => Ok stack) = Ok l) in E.
  change (bind (foldM (f lim') (isort Z.leb (map fst (vis0 t))) (vis0 t, [])) (fun '(_, stack) => Ok stack) = Ok l).
  destruct (foldM (f lim) (isort Z.leb (map fst (vis0 t))) (vis0 t, [])) as [r|] eqn:E2; [|discriminate].
  now rewrite (G _ _ _ E2).
Qed.
