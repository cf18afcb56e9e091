(** get_subbasins. *)
From Verif Require Import Py Spec MFlow LGraph LAcc LWs LTopo.
Set Implicit Arguments.
Local Open Scope nat_scope.
Local Open Scope list_scope.

Lemma split_unique {A} (y : A) : forall a b c d, NoDup (a ++ y :: b) -> a ++ y :: b = c ++ y :: d -> a = c.
Proof.
  induction a as [|h a IH]; intros b c d ND E; destruct c as [|g c]; auto; simpl in *; inversion E; subst.
  - inversion ND; subst. exfalso. apply H1, in_app_iff. right. now left.
  - inversion ND; subst. exfalso. apply H1, in_app_iff. right. now left.
  - f_equal. inversion ND; subst. eapply IH; eauto.
Qed.

Lemma nodup_app_l {A} (l1 l2 : list A) : NoDup (l1 ++ l2) -> NoDup l1.
Proof. induction l1; simpl; intros H; constructor; inversion H; subst; auto. intros Hi. apply H2, in_app_iff. auto. Qed.

Section Sub.
  Variable fdir : list Z.
  Notation N := (length fdir).
  Hypothesis V : valid_fdir fdir.
  Variable pours : list nat.
  Hypothesis Hlt : forall p, In p pours -> p < N.
  Notation ids := (map Z.of_nat pours).
  Notation it := (downs fdir).

  Lemma ids_in c : In (Z.of_nat c) ids <-> In c pours.
  Proof. rewrite in_map_iff. split; [intros [x [E H]]; apply Nat2Z.inj in E; now subst|]. intros H. exists c. auto. Qed.

  (** *** the trace from one pour point to the next *)
  (** the next pour point strictly below [cur] *)
  Definition next_pour (cur q : nat) : Prop :=
    In q pours /\ q <> cur /\ exists k, 0 < k /\ it k cur = q /\
      forall j, 0 < j < k -> In (it j cur) pours -> it j cur = cur.
  Definition no_next (cur : nat) : Prop := forall k, In (it k cur) pours -> it k cur = cur.

  Definition tr_val (cur : nat) (z : Z) : Prop :=
    (exists q, z = Z.of_nat q /\ next_pour cur q) \/ (z = (-1)%Z /\ no_next cur).

  Lemma trace_spec cur : cur < N -> forall fuel i vis,
    (forall j, 0 < j < i -> In (it j cur) pours -> it j cur = cur) ->
    NoDup vis -> (forall x, In x vis <-> exists j, 0 < j < i /\ x = Z.of_nat (it j cur) /\ it j cur <> cur) ->
    2 * (N - length vis) + (if Nat.eq_dec (it i cur) cur then 1 else 0) < fuel ->
    exists z, sub_trace fuel fdir ids (Z.of_nat cur) (Z.of_nat (it i cur)) vis = Ok z /\ tr_val cur z.
  Proof.
    intros Hc. induction fuel as [|f IH]; intros i vis Hno ND Hvis Hf; [lia|].
    cbn [sub_trace]. assert (Hi : it i cur < N) by now apply downs_lt.
    destruct (memz (Z.of_nat (it i cur)) vis) eqn:Em.
    - (* periodic *)
      exists (-1)%Z. split; auto. right. split; auto. apply memz_spec, Hvis in Em.
      destruct Em as [j [Hj [Ej _]]]. apply Nat2Z.inj in Ej.
      intros k. induction k as [k IHk] using lt_wf_ind. intros Hp.
      destruct (le_lt_dec i k) as [H|H].
      + assert (Ek : it k cur = it (j + (k - i)) cur).
        { replace k with (i + (k - i)) at 1 by lia. now rewrite !downs_add, Ej. }
        rewrite Ek in *. apply IHk; auto. lia.
      + destruct k as [|k]; auto. apply Hno; auto. lia.
    - apply memz_false in Em.
      assert (Hget : npget fdir (Z.of_nat (it i cur)) = Ok (Z.of_nat (it (S i) cur))).
      { rewrite (npget_nat fdir 0%Z) by auto. now rewrite (fdir_down V), downs_S by auto. }
      destruct (Z.eqb_spec (Z.of_nat (it i cur)) (Z.of_nat cur)) as [E|E].
      + (* at the start cell *)
        rewrite orb_true_r. cbn [negb]. rewrite Hget. cbn [bind]. apply Nat2Z.inj in E.
        destruct (Z.eqb_spec (Z.of_nat (it (S i) cur)) (Z.of_nat cur)) as [E1|E1].
        * exists (-1)%Z. split; auto. right. split; auto. apply Nat2Z.inj in E1.
          assert (T : forall k, it k cur = cur).
          { intros k. assert (D : down fdir cur = cur) by (rewrite downs_S, E in E1; auto).
            induction k; auto. rewrite downs_S, IHk. auto. }
          intros k _. apply T.
        * apply IH; auto.
          -- intros j Hj Hp. destruct (Nat.eq_dec j i) as [->|]; auto. apply Hno; auto. lia.
          -- intros x. rewrite Hvis. split; intros [j [Hj [Ex Hne]]]; exists j; (split; [|split; auto]); [lia|].
             destruct (Nat.eq_dec j i) as [->|]; [congruence|lia].
          -- destruct (Nat.eq_dec (it i cur) cur); [|congruence].
             destruct (Nat.eq_dec (it (S i) cur) cur) as [E2|E2]; [congruence|lia].
      + rewrite orb_false_r. destruct (memz (Z.of_nat (it i cur)) ids) eqn:Ep; cbn [negb].
        * exists (Z.of_nat (it i cur)). split; auto. left. exists (it i cur). split; auto.
          apply memz_spec, ids_in in Ep. split; auto. split; [intros Heq; apply E; congruence|].
          exists i. split; [|split; auto]. destruct i; [|lia]. simpl in E. congruence.
        * apply memz_false in Ep. rewrite ids_in in Ep. rewrite Hget. cbn [bind].
          assert (Hne : it i cur <> cur) by (intros Heq; apply E; congruence).
          assert (Hi0 : 0 < i) by (destruct i; [simpl in Hne; congruence|lia]).
          assert (NDx : NoDup (Z.of_nat (it i cur) :: vis)) by (constructor; auto).
          assert (Lx : length (Z.of_nat (it i cur) :: vis) <= N).
          { apply (NoDup_incl_length (l' := map Z.of_nat (seq 0 N))) in NDx.
            - now rewrite map_length, seq_length in NDx.
            - intros x [<-|Hx]; [apply in_map, in_seq; lia|]. apply Hvis in Hx. destruct Hx as [j [_ [-> _]]].
              apply in_map, in_seq. assert (X := downs_lt V j Hc). lia. }
          apply IH.
          -- intros j Hj Hp. destruct (Nat.eq_dec j i) as [->|]; [contradiction|]. apply Hno; auto. lia.
          -- apply (Permutation_NoDup (Permutation_cons_append vis (Z.of_nat (it i cur)))). auto.
          -- intros x. rewrite in_app_iff, Hvis. simpl. split.
             ++ intros [[j [Hj [Ex Hn]]]|[<-|[]]]; [exists j; split; [lia|auto]|exists i; split; [lia|auto]].
             ++ intros [j [Hj [Ex Hn]]]. destruct (Nat.eq_dec j i) as [->|]; auto. left. exists j. split; [lia|auto].
          -- rewrite app_length. simpl in Lx |- *. destruct (Nat.eq_dec (it i cur) cur); [congruence|].
             destruct (Nat.eq_dec _ cur); lia.
  Qed.

  (** *** the order in which the pour points are processed *)
  Definition order_of (l : list nat) : Prop :=
    NoDup l /\ (forall p, In p l <-> In p pours) /\
    forall D p R, l = D ++ p :: R -> forall r, In r pours -> r <> p -> flows_through fdir r p -> In r D.

  Section Topo.
    Variable t : topology.
    Hypothesis NDt : NoDup (map fst t).
    Hypothesis Hkeys : forall k, In k (map fst t) <-> k = (-1)%Z \/ exists p, k = Z.of_nat p /\ In p pours.
    Hypothesis Ht : forall p z, In p pours -> tget t (Z.of_nat p) = Some z -> tr_val p z.
    Hypothesis Hm1 : tget t (-1)%Z = Some (-1)%Z.
    Hypothesis Hno0 : ~ In 0 pours.
    Hypothesis Hcyc : forall p q, In p pours -> In q pours -> p <> q ->
      flows_through fdir p q -> flows_through fdir q p -> False.

    Lemma t_nz k o : tget t k = Some o -> o <> 0%Z.
    Proof.
      intros E. assert (Hk : In k (map fst t)).
      { apply (dget_in Z.eqb zeqb) in E. apply in_map with (f := fst) in E. exact E. }
      apply Hkeys in Hk. destruct Hk as [->|[p [-> Hp]]]; [congruence|].
      destruct (@Ht _ _ Hp E) as [[q [-> [Hq _]]]|[-> _]]; [|lia].
      intros H. apply Hno0. replace 0 with q by lia. auto.
    Qed.

    Lemma t_closed : closed t.
    Proof.
      intros k o E. assert (Hk : In k (map fst t)).
      { apply (dget_in Z.eqb zeqb) in E. apply in_map with (f := fst) in E. exact E. }
      right. apply Hkeys. apply Hkeys in Hk. destruct Hk as [->|[p [-> Hp]]]; [left; congruence|].
      destruct (@Ht _ _ Hp E) as [[q [-> [Hq _]]]|[-> _]]; eauto.
    Qed.

    Lemma util_front lim : forall seg v st v' st', seg <> 0%Z ->
      sort_util lim t seg v st = Ok (v', st') -> exists pre, st' = pre ++ st.
    Proof.
      induction lim as [|lim IH]; intros seg v st v' st' Hs E; [discriminate|].
      cbn [sort_util] in E. destruct (Z.eqb_spec seg 0); [contradiction|].
      unfold dgetE in E. destruct (tget t seg) as [o|] eqn:Eo; cbn [bind] in E; [|discriminate].
      destruct (tget (dset Z.eqb v seg true) o) as [b|] eqn:Eb; cbn [bind] in E; [|discriminate].
      assert (Ho := t_nz _ Eo).
      destruct b.
      - cbn [bind] in E. destruct (Z.eqb_spec o 0); [contradiction|]. inversion E; subst. exists [seg]. reflexivity.
      - destruct (sort_util lim t o (dset Z.eqb v seg true) st) as [[v2 st2]|] eqn:E2; cbn [bind] in E; [|discriminate].
        destruct (Z.eqb_spec o 0); [contradiction|]. inversion E; subst.
        destruct (IH _ _ _ _ _ Ho E2) as [pre ->]. exists (seg :: pre). reflexivity.
    Qed.

    Lemma fold_front lim : forall ks vs vs', foldM (step t lim) ks vs = Ok vs' ->
      exists pre, snd vs' = pre ++ snd vs.
    Proof.
      induction ks as [|k ks IH]; intros vs vs' E; cbn [foldM] in E.
      - inversion E; subst. exists []. reflexivity.
      - apply bind_ok in E. destruct E as [[v1 st1] [E1 E2]]. destruct (IH _ _ E2) as [pre Hpre]. rewrite Hpre.
        simpl snd. destruct vs as [v st]. unfold step in E1. destruct (Z.eqb_spec k 0).
        + inversion E1; subst. exists pre. reflexivity.
        + apply bind_ok in E1. destruct E1 as [b [_ E1]]. destruct b.
          * inversion E1; subst. exists pre. reflexivity.
          * destruct (util_front _ _ _ n E1) as [pre1 ->]. exists (pre ++ pre1). apply app_assoc.
    Qed.

    Lemma sort_last lim l : topo_sort lim t = Ok l -> exists l', l = l' ++ [(-1)%Z].
    Proof.
      intros E. unfold topo_sort in E. fold (vis0 t) in E.
      change (bind (foldM (step t lim) (isort Z.leb (map fst (vis0 t))) (vis0 t, [])) (fun '(_, stack) => Ok stack) = Ok l) in E.
      destruct (vis0_spec t) as [N0 [K0 [F0 T0]]].
      destruct (@isort_min (map fst (vis0 t)) (-1)%Z) as [r Er].
      - apply K0. right. apply Hkeys. auto.
      - intros y Hy. apply K0 in Hy. destruct Hy as [->|Hy]; [lia|]. apply Hkeys in Hy.
        destruct Hy as [->|[p [-> _]]]; lia.
      - rewrite Er in E. cbn [foldM] in E.
        destruct (step t lim (vis0 t, []) (-1)%Z) as [[v1 st1]|] eqn:E1; cbn [bind] in E; [|discriminate].
        destruct (foldM (step t lim) r (v1, st1)) as [[v2 st2]|] eqn:E2; cbn [bind] in E; [|discriminate].
        inversion E; subst st2. destruct (fold_front _ _ _ E2) as [pre Hpre]. simpl in Hpre. exists pre. rewrite Hpre. f_equal.
        unfold step in E1. cbn [Z.eqb] in E1. unfold dgetE in E1. rewrite F0 in E1 by (right; apply Hkeys; auto).
        cbn [bind] in E1. destruct lim as [|lim]; [discriminate|]. cbn [sort_util] in E1. cbn [Z.eqb] in E1.
        unfold dgetE in E1. rewrite Hm1 in E1. cbn [bind] in E1. rewrite (dget_dset_eq _ zeqb) in E1. cbn [bind] in E1.
        cbn [Z.eqb] in E1. inversion E1. reflexivity.
    Qed.

    Lemma leads_m1 z : leads t (-1)%Z z -> z = (-1)%Z.
    Proof. assert (G : forall a, leads t a z -> a = (-1)%Z -> z = (-1)%Z).
      { clear - Hm1. induction 1 as [a|a o b E H IH]; intros Ha; auto. apply IH. rewrite Ha, Hm1 in E. congruence. }
      intros H. eapply G; eauto. Qed.

    Lemma leads_flows a b : leads t a b -> forall p q, a = Z.of_nat p -> b = Z.of_nat q -> In p pours ->
      flows_through fdir p q.
    Proof.
      induction 1 as [a|a o b E H IH]; intros p q -> Hb Hp.
      - apply Nat2Z.inj in Hb. subst. exists 0. reflexivity.
      - destruct (@Ht _ _ Hp E) as [[r [-> [Hr [_ [k [_ [Hk _]]]]]]]|[-> _]].
        + eapply flows_trans; [exists k; exact Hk|]. apply IH; auto.
        + apply leads_m1 in H. lia.
    Qed.

    Lemma before_prefix (l : list Z) D p R x y : NoDup l -> l = D ++ p :: R -> before x y l -> (y = p \/ In y D) -> In x D.
    Proof.
      intros ND E [a [b [c Hl]]] Hy. rewrite E in Hl.
      assert (Hp : In y (D ++ [p])) by (apply in_app_iff; simpl; destruct Hy; auto).
      (* split D ++ [p] at y *)
      apply in_split in Hp. destruct Hp as [u [w Hu]].
      assert (E2 : l = u ++ y :: (w ++ R)).
      { rewrite E. change (D ++ p :: R) with (D ++ [p] ++ R). rewrite app_assoc, Hu, <- app_assoc. reflexivity. }
      assert (E3 : l = (a ++ x :: b) ++ y :: c) by (rewrite E, Hl, <- app_assoc; reflexivity).
      assert (Eu : u = a ++ x :: b).
      { apply (@split_unique Z y u (w ++ R) (a ++ x :: b) c); congruence. }
      subst u. assert (Hx : In x (D ++ [p])) by (rewrite Hu; apply in_app_iff; left; apply in_app_iff; right; now left).
      apply in_app_iff in Hx. destruct Hx as [|[<-|[]]]; auto.
      (* x = p would come after y *)
      exfalso. assert (NDp : NoDup (D ++ [p])).
      { rewrite E in ND. change (D ++ p :: R) with (D ++ [p] ++ R) in ND. rewrite app_assoc in ND. eapply nodup_app_l; eauto. }
      rewrite Hu in NDp. rewrite <- app_assoc in Hu.
      assert (Hl2 : last (D ++ [p]) 0%Z = p) by apply last_last.
      assert (Hin : In p (b ++ y :: w)).
      { rewrite Hu in Hl2. simpl in Hl2. destruct (b ++ y :: w) as [|h z] eqn:Eb; [destruct b; discriminate|].
        rewrite <- Hl2. rewrite <- Eb.
        assert (L : forall (s1 : list Z) s2, s2 <> [] -> last (s1 ++ s2) 0%Z = last s2 0%Z).
        { clear. induction s1 as [|h s1 IHs]; intros s2 Hs; auto. simpl. destruct (s1 ++ s2) as [|g0 g] eqn:E; [destruct s1, s2; simpl in *; congruence|].
          rewrite <- E. auto. }
        change (a ++ p :: b ++ y :: w) with (a ++ ([p] ++ (b ++ y :: w))). rewrite app_assoc, L by (rewrite Eb; discriminate).
        destruct (@exists_last _ (b ++ y :: w)) as [s [e Es]]; [rewrite Eb; discriminate|]. rewrite Es, last_last.
        apply in_app_iff. right. now left. }
      rewrite <- app_assoc in NDp. simpl in NDp. apply NoDup_remove_2 in NDp. apply NDp. apply in_app_iff. auto.
    Qed.

    Lemma sort_order lim l : topo_sort lim t = Ok l -> exists l', l = map Z.of_nat l' ++ [(-1)%Z] /\ order_of l'.
    Proof.
      intros E. destruct (topo_sort_ok t lim NDt E) as [v [I HI]]. destruct (sort_last _ E) as [lz El].
      assert (NDl := s_nd I). rewrite El in NDl.
      assert (Hlz : forall z, In z lz <-> exists p, z = Z.of_nat p /\ In p pours).
      { intros z. split.
        - intros Hz. assert (X : In z l) by (rewrite El; apply in_app_iff; auto). apply HI in X. destruct X as [_ X].
          apply Hkeys in X. destruct X as [->|X]; auto. exfalso. apply NoDup_remove_2 in NDl. apply NDl. now rewrite app_nil_r.
        - intros [p [-> Hp]]. assert (X : In (Z.of_nat p) l).
          { apply HI. split; [|apply Hkeys; eauto]. intros H. apply Hno0. replace 0 with p by lia. auto. }
          rewrite El in X. apply in_app_iff in X. destruct X as [X|[X|[]]]; auto. lia. }
      exists (map Z.to_nat lz).
      assert (Em : map Z.of_nat (map Z.to_nat lz) = lz).
      { rewrite map_map. rewrite <- (map_id lz) at 2. apply map_ext_in. intros z Hz. apply Hlz in Hz.
        destruct Hz as [p [-> _]]. now rewrite Nat2Z.id. }
      split; [now rewrite Em|]. split; [|split].
      - apply (NoDup_map_inv Z.of_nat). rewrite Em. apply NoDup_remove_1 in NDl. now rewrite app_nil_r in NDl.
      - intros p. rewrite in_map_iff. split.
        + intros [z [<- Hz]]. apply Hlz in Hz. destruct Hz as [q [-> Hq]]. now rewrite Nat2Z.id.
        + intros Hp. exists (Z.of_nat p). rewrite Nat2Z.id. split; auto. apply Hlz. eauto.
      - intros D p R HD r Hr Hrp [k Hk].
        assert (Hp : In p pours).
        { assert (X : In p (map Z.to_nat lz)) by (rewrite HD; apply in_app_iff; right; now left).
          apply in_map_iff in X. destruct X as [z [<- Hz]]. apply Hlz in Hz. destruct Hz as [q [-> Hq]]. now rewrite Nat2Z.id. }
        assert (ElD : l = map Z.of_nat D ++ Z.of_nat p :: (map Z.of_nat R ++ [(-1)%Z])).
        { rewrite El, <- Em, HD, map_app, <- app_assoc. reflexivity. }
        revert r Hr Hrp Hk. induction k as [k IH] using lt_wf_ind. intros r Hr Hrp Hk.
        assert (Hkr : exists z, tget t (Z.of_nat r) = Some z).
        { destruct (tget t (Z.of_nat r)) eqn:Eg; eauto. apply (dget_none Z.eqb zeqb) in Eg. exfalso. apply Eg, Hkeys. eauto. }
        destruct Hkr as [z Hz]. destruct (@Ht _ _ Hr Hz) as [[q [-> Hq]]|[-> Hnn]].
        2:{ exfalso. apply Hrp. rewrite <- Hk. symmetry. apply Hnn. now rewrite Hk. }
        destruct Hq as [Hqp [Hqr [i [Hi [Hiq Hbet]]]]].
        (* q reaches p in fewer steps *)
        assert (Hq : q = p \/ In q D).
        { destruct (Nat.eq_dec q p) as [|Hqp']; auto. right.
          assert (Hik : i <= k).
          { destruct (le_lt_dec i k) as [|L]; auto. exfalso. destruct k as [|k]; [simpl in Hk; congruence|].
            apply Hrp. rewrite <- Hk. symmetry. apply Hbet; [lia|]. now rewrite Hk. }
          apply (IH (k - i)); auto; [lia|]. rewrite <- Hiq, <- downs_add. rewrite <- Hk. f_equal. lia. }
        assert (Hbf : before (Z.of_nat r) (Z.of_nat q) l).
        { assert (Hrl : In (Z.of_nat r) l) by (rewrite El; apply in_app_iff; left; apply Hlz; eauto).
          destruct (s_ord I _ Hrl Hz) as [H|[H|[H|H]]]; auto.
          - destruct (t_nz _ Hz H).
          - apply Nat2Z.inj in H. congruence.
          - exfalso. apply (@Hcyc r q); auto; [exists i; auto|]. eapply leads_flows; eauto. }
        assert (X : In (Z.of_nat r) (map Z.of_nat D)).
        { eapply before_prefix; [apply (s_nd I)|exact ElD|exact Hbf|]. destruct Hq as [->|Hq]; auto. right. now apply in_map. }
        apply in_map_iff in X. destruct X as [x [Ex Hx]]. apply Nat2Z.inj in Ex. now subst.
    Qed.
  End Topo.

  (** *** the labelling *)
  Definition labels (D : list nat) (sub : list Z) : Prop :=
    length sub = N /\
    (forall i p c, nth_error D i = Some p -> c < N -> first_pour fdir pours c p -> nth c sub 0%Z = Z.of_nat (S i)) /\
    (forall c, c < N -> (forall p, first_pour fdir pours c p -> ~ In p D) -> nth c sub 0%Z = 0%Z).

  Lemma first_pour_unique c p q : first_pour fdir pours c p -> first_pour fdir pours c q -> p = q.
  Proof.
    intros [Hp [k [Hk Hj]]] [Hq [i [Hi Hji]]]. destruct (lt_eq_lt_dec k i) as [[L|L]|L].
    - exfalso. apply (Hji k L). now rewrite Hk.
    - congruence.
    - exfalso. apply (Hj i L). now rewrite Hi.
  Qed.

  Lemma first_pour_dec c : c < N -> (exists p, first_pour fdir pours c p) \/
    (forall k, ~ In (it k c) pours).
  Proof.
    intros Hc.
    assert (G : forall m, (exists p, first_pour fdir pours c p) \/ (forall k, k < m -> ~ In (it k c) pours)).
    { induction m as [|m [IH|IH]]; [right; intros; lia|auto|].
      destruct (in_dec Nat.eq_dec (it m c) pours) as [H|H].
      - left. exists (it m c). split; auto. exists m. auto.
      - right. intros k Hk. destruct (Nat.eq_dec k m) as [->|]; auto. apply IH. lia. }
    destruct (G (S N)) as [H|H]; auto. right. intros k Hk.
    destruct (flows_bound V Hc (n := it k c)) as [k' [Hk' E]]; [now exists k|].
    apply (H k'); [lia|]. now rewrite E.
  Qed.

  Lemma labels_in D sub c : labels D sub -> c < N -> nth c sub 0%Z = 0%Z \/
    exists i p, nth_error D i = Some p /\ first_pour fdir pours c p /\ nth c sub 0%Z = Z.of_nat (S i).
  Proof.
    intros [L [H1 H2]] Hc. destruct (first_pour_dec Hc) as [[p Hp]|Hn].
    - destruct (in_dec Nat.eq_dec p D) as [Hi|Hi].
      + apply In_nth_error in Hi. destruct Hi as [i Hi]. right. exists i, p. split; auto. split; auto. eapply H1; eauto.
      + left. apply H2; auto. intros q Hq. now rewrite (first_pour_unique Hq Hp).
    - left. apply H2; auto. intros p [Hp [k [Hk _]]]. exfalso. apply (Hn k). now rewrite Hk.
  Qed.

  Lemma self_pour p : In p pours -> first_pour fdir pours p p.
  Proof. intros H. split; auto. exists 0. split; auto. intros; lia. Qed.

  Lemma label_step fuel D p R sub : order_of (D ++ p :: R) -> labels D sub -> N <= fuel ->
    exists sub', get_watershed_boundary fuel fdir (Z.of_nat p) (Some sub) = Ok sub' /\ labels (D ++ [p]) sub'.
  Proof.
    intros [ND [HO Hup]] HL Hf.
    assert (Hp : In p pours) by (apply HO, in_app_iff; right; now left).
    assert (HpN := Hlt _ Hp).
    assert (HDp : ~ In p D) by (apply NoDup_remove_2 in ND; intros H; apply ND, in_app_iff; auto).
    assert (L := proj1 HL).
    assert (Hpos : forall c, c < N -> (0 <= nth c sub 0 <= Z.of_nat (length D))%Z).
    { intros c Hc. destruct (labels_in HL Hc) as [->|[i [q [Hi [_ ->]]]]]; [lia|].
      assert (i < length D) by (apply nth_error_Some; congruence). lia. }
    destruct (watershed_spec V (fuel := fuel) (pour := p) (Some sub)) as [m [out [E [Lo [Hm [Hmax Hout]]]]]]; auto.
    { apply Forall_forall. intros z Hz. apply (In_nth _ _ 0%Z) in Hz. destruct Hz as [c [Hc <-]].
      rewrite L in Hc. apply Hpos in Hc. lia. }
    exists out. split; auto.
    assert (Em : m = Z.of_nat (length D)).
    { apply (In_nth _ _ 0%Z) in Hm. destruct Hm as [c [Hc Em]]. rewrite L in Hc. assert (A1 := Hpos c Hc). rewrite Em in A1.
      assert (A2 : (Z.of_nat (length D) <= m)%Z).
      { destruct (length D) as [|n] eqn:En; [lia|].
        destruct (nth_error D n) as [q|] eqn:Eq; [|apply nth_error_None in Eq; lia].
        assert (Hq : In q pours) by (apply HO, in_app_iff; left; eapply nth_error_In; eauto).
        apply Hmax. assert (X := proj1 (proj2 HL) n q q Eq (Hlt _ Hq) (self_pour _ Hq)). rewrite <- X. apply nth_In. rewrite L. auto. }
      lia. }
    (* exactly the cells whose first pour point is p are marked *)
    assert (Hre : forall c, c < N -> reaches fdir sub p c <-> first_pour fdir pours c p).
    { intros c Hc. split.
      - intros [k [Hk Hj]]. destruct (first_pour_dec Hc) as [[q Hq]|Hn].
        2:{ exfalso. apply (Hn k). now rewrite Hk. }
        destruct (Nat.eq_dec q p) as [<-|Hqp]; auto. exfalso. destruct Hq as [Hqi [i [Hi Hji]]].
        destruct (le_lt_dec k i) as [Lk|Lk].
        + destruct (Nat.eq_dec k i) as [->|]; [congruence|]. apply (Hji k); [lia|]. now rewrite Hk.
        + assert (HqD : In q D).
          { apply (Hup D p R eq_refl); auto. exists (k - i). rewrite <- Hi, <- downs_add. rewrite <- Hk. f_equal. lia. }
          apply In_nth_error in HqD. destruct HqD as [x Hx].
          assert (X := proj1 (proj2 HL) x q q Hx (Hlt _ Hqi) (self_pour _ Hqi)). specialize (Hj i Lk). rewrite Hi in Hj. rewrite X in Hj. lia.
      - intros [_ [k [Hk Hj]]]. exists k. split; auto. intros j Hjk.
        apply (proj2 (proj2 HL)); [now apply downs_lt|]. intros q Hq.
        assert (Hf2 : first_pour fdir pours (it j c) p).
        { split; auto. exists (k - j). split; [rewrite <- downs_add; rewrite <- Hk; f_equal; lia|].
          intros i Hi. rewrite <- downs_add. apply Hj. lia. }
        now rewrite (first_pour_unique Hq Hf2). }
    split; auto. split.
    - intros i q c Hi Hc Hq. destruct (lt_dec i (length D)) as [Li|Li].
      + rewrite nth_error_app1 in Hi by auto.
        assert (Hqp : q <> p) by (intros ->; apply HDp; eapply nth_error_In; eauto).
        rewrite (proj2 (Hout c Hc)); [eapply (proj1 (proj2 HL)); eauto|].
        rewrite Hre by auto. intros Hpp. apply Hqp. eapply first_pour_unique; eauto.
      + rewrite nth_error_app2 in Hi by lia. destruct (i - length D) as [|x] eqn:Ei; [|destruct x; discriminate].
        simpl in Hi. inversion Hi; subst q. rewrite (proj1 (Hout c Hc)) by (apply Hre; auto). lia.
    - intros c Hc Hq. assert (Hnp : ~ first_pour fdir pours c p).
      { intros H. apply (Hq p H), in_app_iff. right. now left. }
      rewrite (proj2 (Hout c Hc)) by (rewrite Hre; auto). apply (proj2 (proj2 HL)); auto.
      intros q Hfq HD. apply (Hq q Hfq), in_app_iff. auto.
  Qed.

  (** *** the whole call *)
  Lemma list_index_ok : forall l s p, In p l -> exists i, list_index (Z.of_nat p) (map Z.of_nat l) s = Ok (s + i) /\
    nth_error l i = Some p.
  Proof.
    induction l as [|x l IH]; intros s p Hp; [destruct Hp|]. simpl. destruct (Z.eqb_spec (Z.of_nat p) (Z.of_nat x)) as [E|E].
    - apply Nat2Z.inj in E. subst. exists 0. rewrite Nat.add_0_r. auto.
    - destruct Hp as [->|Hp]; [congruence|]. destruct (IH (S s) p Hp) as [i [H1 H2]]. exists (S i).
      rewrite H1. split; auto. f_equal. lia.
  Qed.

  Lemma graph_fold fuel : 2 * N + 1 < fuel -> forall l g, (forall p, In p l -> In p pours) -> NoDup (map fst g) ->
    (forall k z, tget g k = Some z -> exists p, k = Z.of_nat p /\ In p pours /\ tr_val p z) ->
    exists g', foldM (fun g c => v <- sub_trace fuel fdir ids c c [] ;; Ok (dset Z.eqb g c v)) (map Z.of_nat l) g = Ok g' /\
      NoDup (map fst g') /\ (forall k z, tget g' k = Some z -> exists p, k = Z.of_nat p /\ In p pours /\ tr_val p z) /\
      (forall k, In k (map fst g') <-> In k (map fst g) \/ In k (map Z.of_nat l)).
  Proof.
    intros Hf. induction l as [|p l IH]; intros g Hl ND Hg.
    - exists g. simpl. repeat split; auto; tauto.
    - assert (Hp : In p pours) by (apply Hl; now left). cbn [map foldM].
      destruct (@trace_spec p (Hlt _ Hp) fuel 0 []) as [z [Ez Hz]].
      + intros; lia.
      + constructor.
      + intros x. split; [intros []|]. intros [j [Hj _]]. lia.
      + simpl. destruct (Nat.eq_dec p p); lia.
      + simpl downs in Ez. rewrite Ez. cbn [bind].
        destruct (IH (dset Z.eqb g (Z.of_nat p) z)) as [g' [E [ND' [Hg' Hk']]]].
        * intros; apply Hl; now right.
        * apply dset_nodup; auto. apply zeqb.
        * intros k z'. destruct (Z.eq_dec (Z.of_nat p) k) as [<-|Hne].
          -- rewrite (dget_dset_eq _ zeqb). intros X. inversion X; subst. eauto.
          -- rewrite (dget_dset_neq _ zeqb) by auto. apply Hg.
        * exists g'. split; auto. split; auto. split; auto. intros k. rewrite Hk', dset_keys. cbn [map].
          destruct (dhas Z.eqb g (Z.of_nat p)) eqn:Eh.
          -- apply (dhas_spec Z.eqb zeqb) in Eh. simpl. intuition (subst; auto).
          -- rewrite in_app_iff. simpl. tauto.
  Qed.

  Lemma topo_fold l : forall t0, NoDup (map fst l) -> NoDup (map fst t0) ->
    let t1 := fold_left (fun t (kv : Z * Z) => add_connection t (fst kv) (snd kv)) l t0 in
    NoDup (map fst t1) /\ (forall k, In k (map fst t1) <-> In k (map fst t0) \/ In k (map fst l)) /\
    (forall k, tget t1 k = match tget l k with Some z => Some z | None => tget t0 k end).
  Proof.
    induction l as [|[k z] l IH]; intros t0 NDl ND0; cbn [fold_left map fst snd].
    - simpl. repeat split; auto; tauto.
    - inversion NDl as [|? ? Hk NDl']; subst.
      destruct (IH (add_connection t0 k z)) as [H1 [H2 H3]]; auto; [apply dset_nodup; auto; apply zeqb|].
      split; auto. split.
      + intros k'. rewrite H2. unfold add_connection. rewrite dset_keys.
        destruct (dhas Z.eqb t0 k) eqn:Eh.
        * apply (dhas_spec Z.eqb zeqb) in Eh. simpl. intuition (subst; auto).
        * rewrite in_app_iff. simpl. tauto.
      + intros k'. rewrite H3. unfold add_connection. cbn [dget]. destruct (Z.eqb_spec k' k) as [->|Hne].
        * assert (X : tget l k = None) by (now apply (dget_none Z.eqb zeqb)). rewrite X. apply (dget_dset_eq _ zeqb).
        * destruct (tget l k'); auto. apply (dget_dset_neq _ zeqb). auto.
  Qed.

  Theorem subbasins_spec lim fuel :
    ~ In 0 pours ->
    (forall p q, In p pours -> In q pours -> p <> q -> flows_through fdir p q -> flows_through fdir q p -> False) ->
    length pours + 2 <= lim -> 2 * N + 2 <= fuel ->
    exists out order, get_subbasins lim fuel fdir ids = Ok out /\ order_of order /\ labels order out.
  Proof.
    intros Hno0 Hcyc Hlim Hfuel. unfold get_subbasins.
    destruct (@graph_fold fuel ltac:(lia) pours []) as [g [Eg [NDg [Hg Hgk]]]]; auto.
    { constructor. } { intros k z H. discriminate. }
    rewrite Eg. cbn [bind].
    destruct (@topo_fold g [] NDg (NoDup_nil _)) as [ND1 [K1 G1]].
    set (t1 := fold_left (fun t (kv : Z * Z) => add_connection t (fst kv) (snd kv)) g []) in *.
    assert (Hm1g : ~ In (-1)%Z (map fst t1)).
    { rewrite K1, Hgk. simpl. intros [[]|[[]|H]]. apply in_map_iff in H. destruct H as [x [Hx _]]. lia. }
    set (t := add_connection t1 (-1)%Z (-1)%Z).
    assert (NDt : NoDup (map fst t)) by (apply dset_nodup; auto; apply zeqb).
    assert (Hkeys : forall k, In k (map fst t) <-> k = (-1)%Z \/ exists p, k = Z.of_nat p /\ In p pours).
    { intros k. unfold t, add_connection. rewrite dset_keys. destruct (dhas Z.eqb t1 (-1)%Z) eqn:Eh.
      { apply (dhas_spec Z.eqb zeqb) in Eh. contradiction. }
      rewrite in_app_iff, K1, Hgk. simpl. rewrite in_map_iff. split.
      - intros [[[]|[[]|[p [<- Hp]]]]|[<-|[]]]; eauto.
      - intros [->|[p [-> Hp]]]; auto. left. right. right. eauto. }
    assert (Ht : forall p z, In p pours -> tget t (Z.of_nat p) = Some z -> tr_val p z).
    { intros p z Hp. unfold t, add_connection. rewrite (dget_dset_neq _ zeqb) by lia. rewrite G1.
      destruct (tget g (Z.of_nat p)) as [z'|] eqn:E; simpl; [|discriminate]. intros X. inversion X; subst.
      destruct (Hg _ _ E) as [q [Eq [_ Hq]]]. apply Nat2Z.inj in Eq. now subst. }
    assert (Hm1 : tget t (-1)%Z = Some (-1)%Z) by (apply (dget_dset_eq _ zeqb)).
    assert (Hlen : length t <= S (length pours)).
    { rewrite <- (map_length fst t). apply (NoDup_incl_length (l' := (-1)%Z :: ids)) in NDt.
      - simpl in NDt. rewrite !map_length in NDt. rewrite map_length. lia.
      - intros k Hk. apply Hkeys in Hk. simpl. destruct Hk as [->|[p [-> Hp]]]; auto. right. now apply in_map. }
    destruct (@topo_sort_total t lim NDt (@t_closed t Hkeys Ht Hm1)) as [l El]; [lia|].
    rewrite El. cbn [bind].
    destruct (@sort_order t NDt Hkeys Ht Hm1 Hno0 Hcyc lim l El) as [ord [-> HO]].
    rewrite removelast_last.
    (* indices *)
    assert (Hidx : exists idxs, mapM (fun c => list_index c ids 0) (map Z.of_nat ord) = Ok idxs /\
                     Forall2 (fun i p => nth_error pours i = Some p) idxs ord).
    { destruct HO as [_ [HO _]]. assert (Hsub : forall p, In p ord -> In p pours) by (intros; now apply HO). clear HO.
      clear El. induction ord as [|p ord IH]; simpl; [exists []; split; auto|].
      destruct (@list_index_ok pours 0 p) as [i [Hi Hn]]; [apply Hsub; now left|]. rewrite Hi. cbn [bind].
      destruct IH as [idxs [E2 F2]]; [intros; apply Hsub; now right|]. rewrite E2. cbn [bind].
      exists (0 + i :: idxs). split; auto. }
    destruct Hidx as [idxs [Ei Fi]]. rewrite Ei. cbn [bind].
    assert (G : forall done todo is, ord = done ++ todo -> Forall2 (fun i p => nth_error pours i = Some p) is todo ->
      forall sub, labels done sub -> exists out,
        foldM (fun sub i => c <- get ids i ;; get_watershed_boundary fuel fdir c (Some sub)) is sub = Ok out /\ labels ord out).
    { intros done todo. revert done. induction todo as [|p todo IH]; intros done is Eo F sub HL; inversion F; subst; cbn [foldM].
      - exists sub. split; auto. now rewrite app_nil_r.
      - assert (Eg2 : get ids x = Ok (Z.of_nat p)) by (apply get_ok; rewrite nth_error_map, H2; auto). rewrite Eg2. cbn [bind].
        destruct (@label_step fuel done p todo sub HO HL ltac:(lia)) as [sub' [E1 L1]]. rewrite E1. cbn [bind].
        apply (IH (done ++ [p])); auto. now rewrite <- app_assoc. }
    destruct (G [] ord idxs eq_refl Fi (repeat 0%Z N)) as [out [Eo Lo]].
    - split; [apply repeat_length|]. split; [intros [|i] p c H; discriminate|]. intros c Hc _. apply nth_repeat.
    - exists out, ord. auto.
  Qed.
End Sub.
