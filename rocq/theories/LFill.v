(** Proofs about the priority flood ([MFill.priority_flood]). *)
From Verif Require Import Py Spec MHeap LHeap MFill.
Set Implicit Arguments.

Section PF.
  Context {T : Type} (E : elev T) (ok : T -> Prop) (rk : T -> Z) (eps : T).
  Hypothesis LAWS : elev_laws E ok rk eps.
  Variable nb : list (list nat).
  Variable dem0 : list T.
  Variable seed : list nat.
  Let N := length dem0.
  Let d0 := e_zero E.
  Let z0 n := nth n dem0 d0.
  Hypothesis okdem : Forall ok dem0.
  Hypothesis nb_len : N <= length nb.
  Hypothesis seed_nodup : NoDup seed.
  Hypothesis seed_lt : forall s, In s seed -> s < N.

  Notation up x := (e_add E x eps).
  Definition z (s : pf (T := T)) n := nth n (pf_dem s) d0.
  Definition cl (s : pf (T := T)) n := nth n (pf_closed s) false = true.
  Notation elt := (entry_lt E).
  Notation LK := (link nb N).
  Notation SD := (fun s => In s seed).

  Lemma ok_z0 n : n < N -> ok (z0 n).
  Proof. intros H. rewrite Forall_forall in okdem. apply okdem. unfold z0. now apply nth_In. Qed.

  (** entries *)
  Definition Pe (p : T * nat) := ok (fst p).
  Lemma elt_spec a b : Pe a -> Pe b ->
    elt a b = true <-> (rk (fst a) < rk (fst b) \/ rk (fst a) = rk (fst b) /\ (snd a < snd b)%nat)%Z.
  Proof.
    destruct a as [x i], b as [y j]; unfold Pe, entry_lt; simpl; intros Hx Hy.
    rewrite (l_eq LAWS), (l_lt LAWS) by auto.
    destruct (Z.eqb_spec (rk x) (rk y)).
    - rewrite Nat.ltb_lt. lia.
    - rewrite Z.ltb_lt. lia.
  Qed.
  Lemma elt_false a b : Pe a -> Pe b ->
    elt a b = false <-> (rk (fst b) < rk (fst a) \/ rk (fst a) = rk (fst b) /\ (snd b <= snd a)%nat)%Z.
  Proof.
    intros Ha Hb. rewrite <- not_true_iff_false, elt_spec by auto. lia.
  Qed.
  Lemma elt_lt_le x y : Pe x -> Pe y -> elt x y = true -> elt y x = false.
  Proof. intros Hx Hy H. apply elt_spec in H; auto. apply elt_false; auto. lia. Qed.
  Lemma elt_le_trans x y w : Pe x -> Pe y -> Pe w -> elt y x = false -> elt w y = false -> elt w x = false.
  Proof. intros Hx Hy Hw H1 H2. apply elt_false in H1; auto. apply elt_false in H2; auto.
    apply elt_false; auto. lia. Qed.
  Lemma elt_le_refl x : Pe x -> elt x x = false.
  Proof. intros H. now apply elt_false; auto. Qed.
  Hint Resolve elt_lt_le elt_le_trans elt_le_refl : core.

  (** ** the drainage forest built by the flood *)
  Inductive tr (zz : nat -> T) (D C : nat -> Prop) : nat -> Prop :=
  | tr_seed : forall s, In s seed -> tr zz D C s
  | tr_pit : forall c n, tr zz D C c -> D c -> LK c n -> C n ->
      (rk (z0 n) <= rk (zz c))%Z -> zz n = up (zz c) -> tr zz D C n
  | tr_heap : forall c n, tr zz D C c -> D c -> LK c n -> C n ->
      (rk (zz c) < rk (zz n))%Z -> zz n = z0 n -> tr zz D C n.

  Lemma tr_mono zz zz' (D D' C C' : nat -> Prop) n :
    (forall m, D m -> D' m /\ zz' m = zz m) ->
    (forall m, C m -> ~ In m seed -> zz' m = zz m) ->
    (forall m, C m -> C' m) ->
    tr zz D C n -> tr zz' D' C' n.
  Proof.
    intros HD HC HC'. induction 1 as [s Hs|c n H IH Hd Hl Hc Hr He|c n H IH Hd Hl Hc Hr He].
    - now constructor.
    - destruct (in_dec Nat.eq_dec n seed); [now constructor|].
      destruct (HD _ Hd) as [Hd' Ed]. eapply tr_pit; eauto. { now rewrite Ed. }
      rewrite Ed, HC; auto.
    - destruct (in_dec Nat.eq_dec n seed); [now constructor|].
      destruct (HD _ Hd) as [Hd' Ed]. eapply tr_heap; eauto.
      + now rewrite Ed, HC. + now rewrite HC.
  Qed.

  Definition waiting (s : pf (T := T)) := pf_pit s ++ map snd (pf_open s).
  Definition D (s : pf (T := T)) n := cl s n /\ ~ In n (waiting s).

  Record InvA (cur : list nat) (Dn : nat -> Prop) (s : pf (T := T)) : Prop := {
    a_len : length (pf_dem s) = N;
    a_clen : length (pf_closed s) = N;
    a_ok : forall n, n < N -> ok (z s n);
    a_ge : forall n, n < N -> (rk (z0 n) <= rk (z s n))%Z;
    a_nodup : NoDup (cur ++ waiting s);
    a_act : forall n, In n (cur ++ waiting s) -> n < N /\ cl s n;
    a_open : forall e h, In (e, h) (pf_open s) -> e = z s h /\ e = z0 h;
    a_heap : heap elt (pf_open s);
    a_unclosed : forall n, n < N -> ~ cl s n -> z s n = z0 n;
    a_seed : forall n, In n seed -> cl s n;
    a_tree : forall n, n < N -> cl s n -> tr (z s) Dn (cl s) n;
    a_front : forall c n, c < N -> cl s c -> ~ In c (cur ++ waiting s) -> LK c n -> cl s n
  }.

  Lemma cl_dec s n : {cl s n} + {~ cl s n}.
  Proof. unfold cl. apply bool_dec. Qed.

  Lemma open_waiting s e h : In (e, h) (pf_open s) -> In h (waiting s).
  Proof. intros H. unfold waiting. apply in_or_app. right. change h with (snd (e, h)).
    now apply in_map. Qed.

  Lemma pit_waiting s p : In p (pf_pit s) -> In p (waiting s).
  Proof. intros H. unfold waiting. apply in_or_app. now left. Qed.

  Lemma open_Pall cur Dn s : InvA cur Dn s -> Pall Pe (pf_open s).
  Proof. intros I. apply Forall_forall. intros [e h] H. unfold Pe; simpl.
    destruct (a_open I _ _ H) as [X _]. rewrite X. apply (a_ok I).
    apply (a_act I h). apply in_or_app. right. eapply open_waiting; eauto. Qed.

  (** ** one visit *)
  Lemma visit_spec strm c n s :
    length (pf_dem s) = N -> length (pf_closed s) = N -> c < N ->
    (forall m, In m seed -> cl s m) ->
    pf_visit E eps strm seed c s n =
      if N <=? n then Ok s else if nth n (pf_closed s) false then Ok s else
      if e_le E (z s n) (z s c)
      then Ok (PF (upd (pf_dem s) n (up (z s c))) (upd (pf_closed s) n true) (pf_open s) (pf_pit s ++ [n]))
      else Ok (PF (pf_dem s) (upd (pf_closed s) n true) (heappush elt (pf_open s) (z s n, n)) (pf_pit s)).
  Proof.
    intros L1 L2 Hc Hs. unfold pf_visit. rewrite L1.
    destruct (Nat.leb_spec N n) as [H|H]; auto.
    rewrite (get_nth _ false) by lia. simpl.
    destruct (nth n (pf_closed s) false) eqn:Ec; auto.
    rewrite set_lt by lia. simpl.
    rewrite (get_nth (pf_dem s) d0) by lia. simpl.
    rewrite (get_nth (pf_dem s) (i := c) d0) by lia. simpl.
    fold (z s n) (z s c).
    destruct (e_le E (z s n) (z s c)); auto.
    rewrite set_lt by lia. simpl.
    assert (Hn : memn n seed = false).
    { apply memn_false. intros Hi. apply Hs in Hi. unfold cl in Hi. congruence. }
    rewrite Hn. destruct strm; auto. destruct (memn c seed); auto.
  Qed.

  Lemma close_inv c n s s' : InvA [c] (D s) s -> n < N -> ~ cl s n -> LK c n ->
    length (pf_dem s') = N -> length (pf_closed s') = N ->
    (forall m, cl s' m <-> m = n \/ cl s m) ->
    (forall m, m <> n -> z s' m = z s m) ->
    Permutation (waiting s') (n :: waiting s) ->
    ok (z s' n) ->
    ((rk (z0 n) <= rk (z s c))%Z /\ z s' n = up (z s c) \/
     (rk (z s c) < rk (z s' n))%Z /\ z s' n = z0 n) ->
    (forall e h, In (e, h) (pf_open s') -> e = z s' h /\ e = z0 h) ->
    heap elt (pf_open s') ->
    InvA [c] (D s') s'.
  Proof.
    intros I Hn Hcn Hlk L1 L2 Hcl Hz Hw Hok Hval Hopen Hheap.
    destruct (a_act I c ltac:(left; auto)) as [Hc Hcc].
    assert (Hnc : n <> c) by (intros ->; contradiction).
    assert (HDc : D s c).
    { split; auto. assert (H := a_nodup I). simpl in H. now inversion H. }
    assert (Hnw : ~ In n (waiting s)).
    { intros H. apply Hcn. apply (a_act I). now right. }
    assert (Hw' : forall m, In m (waiting s') <-> m = n \/ In m (waiting s)).
    { intros m. split; intros H.
      - apply (Permutation_in _ Hw) in H. destruct H; auto.
      - apply (Permutation_in _ (Permutation_sym Hw)). destruct H; [left|right]; auto. }
    assert (HD : forall m, D s m -> D s' m /\ z s' m = z s m).
    { intros m [H1 H2]. assert (m <> n) by (intros ->; contradiction).
      split; [split|]; auto. - apply Hcl; auto. - rewrite Hw'. tauto. }
    constructor; auto.
    - intros m Hm. destruct (Nat.eq_dec m n); [subst; auto|]. rewrite Hz by auto. now apply (a_ok I).
    - intros m Hm. destruct (Nat.eq_dec m n).
      + subst m. destruct Hval as [[H1 H2]|[H1 H2]]; rewrite H2; [|lia].
        assert (H3 := l_up LAWS _ (a_ok I Hc)). lia.
      + rewrite Hz by auto. now apply (a_ge I).
    - assert (H := a_nodup I). simpl in H. inversion H as [|? ? H1 H2]; subst.
      simpl. constructor. + rewrite Hw'. intros [X|X]; [congruence|contradiction].
      + apply (Permutation_NoDup (Permutation_sym Hw)). constructor; auto.
    - intros m Hm. rewrite Hcl. simpl in Hm. rewrite Hw' in Hm.
      destruct Hm as [<-|[->|Hm]]; [auto|auto|].
      destruct (a_act I m) as [X Y]; [right; auto|auto].
    - intros m Hm Hc'. assert (m <> n /\ ~ cl s m) as [X Y].
      { rewrite Hcl in Hc'. tauto. }
      rewrite Hz by auto. now apply (a_unclosed I).
    - intros m Hm. apply Hcl. right. now apply (a_seed I).
    - intros m Hm Hcm.
      assert (HT : forall k, k < N -> cl s k -> tr (z s') (D s') (cl s') k).
      { intros k Hk Hck. eapply tr_mono; [exact HD| | |apply (a_tree I); auto].
        - intros j Hj _. apply Hz. intros ->. contradiction.
        - intros j Hj. apply Hcl; auto. }
      rewrite Hcl in Hcm. destruct Hcm as [->|Hcm]; [|auto].
      destruct Hval as [[H1 H2]|[H1 H2]].
      + apply tr_pit with c; auto. * now apply HD. * apply Hcl; auto.
        * rewrite Hz by auto. exact H1. * rewrite H2, Hz by auto. auto.
      + apply tr_heap with c; auto. * now apply HD. * apply Hcl; auto.
        * rewrite (Hz c) by auto. exact H1.
    - intros c' n' Hc' Hcc' Hni Hl. simpl in Hni. rewrite Hw' in Hni. apply Hcl. right.
      rewrite Hcl in Hcc'. apply (a_front I) with c'; auto; [tauto|simpl; tauto].
  Qed.

  Definition mu (s : pf (T := T)) :=
    count_occ bool_dec (pf_closed s) false + length (waiting s).

  Lemma count_upd (l : list bool) n : n < length l -> nth n l false = false ->
    S (count_occ bool_dec (upd l n true) false) = count_occ bool_dec l false.
  Proof.
    revert n; induction l as [|b l IH]; intros [|n] H1 H2; simpl in *; try lia.
    - subst b. reflexivity.
    - destruct (bool_dec b false); [f_equal|]; apply IH; auto; lia.
  Qed.

  Lemma visitA strm c n s : InvA [c] (D s) s -> adjacent nb c n ->
    exists s', pf_visit E eps strm seed c s n = Ok s' /\ InvA [c] (D s') s' /\
      (forall m, cl s m -> cl s' m /\ z s' m = z s m) /\ (n < N -> cl s' n) /\ mu s' = mu s.
  Proof.
    intros I Hadj. destruct (a_act I c ltac:(left; auto)) as [Hc Hcc].
    rewrite visit_spec; auto; try apply I.
    destruct (Nat.leb_spec N n) as [Hn|Hn].
    { exists s. split; [auto|split; [auto|split; [auto|split; [lia|auto]]]]. }
    destruct (nth n (pf_closed s) false) eqn:Ec.
    { exists s. split; [auto|split; [auto|split; [auto|split; auto]]]. }
    assert (Hcn : ~ cl s n) by (unfold cl; congruence).
    assert (L1 := a_len I). assert (L2 := a_clen I).
    assert (Hlk : LK c n) by (split; auto).
    assert (Hzn := a_unclosed I Hn Hcn).
    assert (Hclu : forall m, nth m (upd (pf_closed s) n true) false = true <-> m = n \/ cl s m).
    { intros m. rewrite nth_upd by lia. unfold cl. destruct (Nat.eq_dec n m); intuition. }
    assert (Hcnt := @count_upd (pf_closed s) n ltac:(lia) Ec).
    rewrite (l_le LAWS) by (apply (a_ok I); auto).
    destruct (Z.leb_spec (rk (z s n)) (rk (z s c))) as [Hle|Hlt].
    - eexists. split; [reflexivity|].
      set (s' := PF _ _ _ _).
      assert (Hz' : forall m, m <> n -> z s' m = z s m).
      { intros m Hm. unfold z, s'. simpl. apply nth_upd_neq. auto. }
      assert (Hzn' : z s' n = up (z s c)).
      { unfold z at 1, s'. simpl. apply nth_upd_eq. lia. }
      assert (Hw : Permutation (waiting s') (n :: waiting s)).
      { unfold waiting, s'. simpl. rewrite <- app_assoc. symmetry. apply Permutation_middle. }
      split; [|split; [|split]].
      + apply close_inv with (n := n) (s := s); auto.
        * unfold s'. simpl. rewrite upd_length. auto.
        * unfold s'. simpl. rewrite upd_length. auto.
        * rewrite Hzn'. apply (l_ok LAWS). apply (a_ok I); auto.
        * left. split; auto. congruence.
        * intros e h Hi. destruct (a_open I e h Hi) as [X Y]. split; auto.
          rewrite Hz'; auto. intros ->. apply Hcn. apply (a_act I). right.
          eapply open_waiting; exact Hi.
        * apply I.
      + intros m Hm. split; [apply Hclu; auto|]. apply Hz'. intros ->; contradiction.
      + intros _. apply Hclu; auto.
      + unfold mu. rewrite (Permutation_length Hw). simpl. lia.
    - eexists. split; [reflexivity|].
      set (s' := PF _ _ _ _).
      assert (Hp : Permutation (pf_open s') ((z s n, n) :: pf_open s)) by apply push_perm.
      assert (Hw : Permutation (waiting s') (n :: waiting s)).
      { unfold waiting. rewrite Hp. simpl. symmetry. apply Permutation_middle. }
      split; [|split; [|split]].
      + apply close_inv with (n := n) (s := s); auto.
        * unfold s'. simpl. rewrite upd_length. auto.
        * apply (a_ok I); auto.
        * intros e h Hi. apply (Permutation_in _ Hp) in Hi. destruct Hi as [Hi|Hi].
          -- inversion Hi. subst. auto.
          -- apply (a_open I e h Hi).
        * apply push_heap with (P := Pe); [exact elt_lt_le|exact elt_le_trans| | |].
          -- apply I. -- eapply open_Pall; eauto. -- unfold Pe; simpl. apply (a_ok I); auto.
      + intros m Hm. split; [apply Hclu; auto|]. auto.
      + intros _. apply Hclu; auto.
      + unfold mu. rewrite (Permutation_length Hw). simpl. lia.
  Qed.

  (** ** the neighbour loop *)
  Lemma visitsA strm c ns s : nth_error nb c = Some ns -> InvA [c] (D s) s ->
    exists s', foldM (pf_visit E eps strm seed c) ns s = Ok s' /\ InvA [] (D s') s' /\
      (forall m, cl s m -> cl s' m /\ z s' m = z s m) /\ mu s' = mu s.
  Proof.
    intros Hnb I.
    destruct (@foldM_inv _ _ (pf_visit E eps strm seed c)
      (fun done s' => InvA [c] (D s') s' /\ (forall m, cl s m -> cl s' m /\ z s' m = z s m) /\
          (forall n, In n done -> n < N -> cl s' n) /\ mu s' = mu s) ns) with (s := s)
      as [s' [E1 [I' [H1 [H2 H3]]]]].
    - intros done x todo s1 Hl [I1 [H1 [H2 H3]]].
      destruct (@visitA strm c x s1 I1) as [s2 [E2 [I2 [H4 [H5 H6]]]]].
      { exists ns. split; auto. rewrite Hl. apply in_or_app. right. left. auto. }
      exists s2. split; auto. split; auto. split; [|split].
      + intros m Hm. destruct (H1 m Hm) as [X Y]. destruct (H4 m X) as [X2 Y2].
        split; auto. congruence.
      + intros n Hn Hlt. apply in_app_or in Hn. destruct Hn as [Hn|[<-|[]]]; auto.
        apply H4. now apply H2.
      + congruence.
    - split; [auto|split; [auto|split; [|auto]]]. intros n [].
    - exists s'. split; auto. split; [|split; auto].
      assert (HN := a_nodup I'). simpl in HN. inversion HN as [|? ? HN1 HN2]; subst.
      constructor; try apply I'; auto.
      + intros n Hn. apply (a_act I'). now right.
      + intros c' n Hc' Hcc Hni Hlk. destruct (Nat.eq_dec c c') as [<-|Hne].
        * destruct Hlk as [[l [El Hin]] Hlt]. rewrite Hnb in El. inversion El; subst.
          now apply H2.
        * apply (a_front I') with c'; auto. simpl. simpl in Hni. tauto.
  Qed.

  (** ** taking the next cell *)
  Definition pop (s : pf (T := T)) : option (nat * pf (T := T)) :=
    match pf_pit s with
    | c :: p => Some (c, PF (pf_dem s) (pf_closed s) (pf_open s) p)
    | [] => match heappop elt (pf_open s) with
            | None => None
            | Some ((_, c), o) => Some (c, PF (pf_dem s) (pf_closed s) o [])
            end
    end.

  Lemma pf_loop_eq fuel strm s :
    pf_loop E fuel nb eps strm seed s =
      match pop s with
      | None => Ok s
      | Some (c, s1) => match fuel with
                        | O => Err OutOfFuel
                        | S f => s' <- pf_step E nb eps strm seed c s1 ;;
                                 pf_loop E f nb eps strm seed s'
                        end
      end.
  Proof.
    destruct fuel as [|f]; simpl; unfold pop; destruct (pf_pit s); auto;
      destruct (heappop elt (pf_open s)) as [[[e c] o]|]; auto.
  Qed.

  Lemma popA s c s1 : InvA [] (D s) s -> pop s = Some (c, s1) ->
    InvA [c] (fun n => D s1 n /\ n <> c) s1 /\ mu s = S (mu s1) /\
    pf_dem s1 = pf_dem s /\ pf_closed s1 = pf_closed s /\
    ((exists p, pf_pit s = c :: p /\ pf_pit s1 = p /\ pf_open s1 = pf_open s) \/
     (pf_pit s = [] /\ pf_pit s1 = [] /\ In (z0 c, c) (pf_open s) /\
       Permutation (pf_open s) ((z0 c, c) :: pf_open s1) /\
       forall e h, In (e, h) (pf_open s) -> (rk (z0 c) <= rk e)%Z)).
  Proof.
    intros I Hp.
    assert (G : pf_dem s1 = pf_dem s -> pf_closed s1 = pf_closed s ->
      Permutation (waiting s) (c :: waiting s1) -> heap elt (pf_open s1) ->
      (forall x, In x (pf_open s1) -> In x (pf_open s)) ->
      InvA [c] (fun n => D s1 n /\ n <> c) s1 /\ mu s = S (mu s1)).
    { intros E1 E2 Hw Hh Ho.
      assert (Ez : forall n, z s1 n = z s n) by (intros; unfold z; now rewrite E1).
      assert (Ec : forall n, cl s1 n <-> cl s n) by (intros; unfold cl; now rewrite E2).
      assert (Hw' : forall m, In m (waiting s) <-> m = c \/ In m (waiting s1)).
      { intros m. split; intros H.
        - apply (Permutation_in _ Hw) in H. destruct H; auto.
        - apply (Permutation_in _ (Permutation_sym Hw)). destruct H; [left|right]; auto. }
      split.
      - constructor.
        + rewrite E1. apply I.
        + rewrite E2. apply I.
        + intros n Hn. rewrite Ez. now apply (a_ok I).
        + intros n Hn. rewrite Ez. now apply (a_ge I).
        + apply (Permutation_NoDup Hw). apply (a_nodup I).
        + intros n Hn. rewrite Ec. apply (a_act I). simpl. simpl in Hn. rewrite Hw'. intuition.
        + intros e h Hi. rewrite Ez. apply (a_open I). auto.
        + auto.
        + intros n Hn Hc. rewrite Ez. apply (a_unclosed I); auto. now rewrite <- Ec.
        + intros n Hn. apply Ec. now apply (a_seed I).
        + intros n Hn Hc. apply Ec in Hc. eapply tr_mono; [| | |apply (a_tree I); auto].
          * intros m [H1 H2]. rewrite Hw' in H2. split; [|apply Ez].
            split; [split|]; [now apply Ec|tauto|tauto].
          * intros; apply Ez.
          * intros; now apply Ec.
        + intros c' n Hc' Hcc Hni Hl. apply Ec. apply (a_front I) with c'; auto.
          * now apply Ec. * simpl. rewrite Hw'. simpl in Hni. intuition.
      - unfold mu. rewrite E2. rewrite (Permutation_length Hw). simpl. lia. }
    unfold pop in Hp. destruct (pf_pit s) as [|c' p] eqn:Ep.
    - destruct (heappop elt (pf_open s)) as [[[e c'] o]|] eqn:Eh; [|discriminate].
      inversion Hp; subst c' s1; clear Hp. simpl in *.
      destruct (pop_spec elt_lt_le elt_le_trans elt_le_refl Eh (a_heap I) (open_Pall I))
        as [P1 [P2 P3]].
      assert (Hin : In (e, c) (pf_open s)).
      { apply (Permutation_in _ (Permutation_sym P1)). now left. }
      destruct (a_open I e c Hin) as [X Y].
      destruct G as [G1 G2]; auto.
      { unfold waiting. rewrite Ep. simpl. rewrite P1. auto. }
      { intros x Hx. apply (Permutation_in _ (Permutation_sym P1)). now right. }
      split; [auto|split; [auto|split; [auto|split; [auto|right]]]].
      split; [auto|split; [auto|]]. rewrite <- Y. split; [auto|split; [auto|]].
      intros e' h Hi. rewrite Forall_forall in P3. specialize (P3 _ Hi). simpl in P3.
      assert (HP := open_Pall I). unfold Pall in HP. rewrite Forall_forall in HP.
      apply elt_false in P3; [|now apply HP|now apply HP]. simpl in P3. lia.
    - inversion Hp; subst c' s1; clear Hp. simpl in *.
      destruct G as [G1 G2]; auto.
      { unfold waiting. rewrite Ep. simpl. auto. }
      { apply I. }
      split; [auto|split; [auto|split; [auto|split; [auto|left]]]]. eauto.
  Qed.

  Lemma pop_none_waiting s : pop s = None <-> waiting s = [].
  Proof.
    unfold pop, waiting. destruct (pf_pit s) as [|c p]; simpl.
    - destruct (heappop elt (pf_open s)) as [[[e c] o]|] eqn:Eh.
      + split; [discriminate|]. intros H. apply map_eq_nil in H. rewrite H in Eh. discriminate.
      + apply pop_none in Eh. rewrite Eh. split; auto.
    - split; discriminate.
  Qed.

  (** ** stream burning *)
  Lemma amin_in x l : In (amin E x l) (x :: l).
  Proof.
    unfold amin. revert x. induction l as [|y l IH]; intros x; simpl; auto.
    match goal with |- context [fold_left ?f l ?m] => destruct (IH m) as [H|H]; auto end.
    rewrite <- H. destruct (negb (e_eq E x x)); auto. destruct (negb (e_eq E y y) || e_lt E y x); auto.
  Qed.

  Lemma burn_spec c ns (s : pf (T := T)) : c < N -> length (pf_dem s) = N ->
    (forall n, n < N -> ok (z s n)) ->
    exists dem', pf_burn E eps seed c ns (pf_dem s) = Ok dem' /\
      (dem' = pf_dem s \/ In c seed /\ exists y, dem' = upd (pf_dem s) c y /\ ok y /\
         (rk (z s c) < rk y)%Z).
  Proof.
    intros Hc L Hok. unfold pf_burn. destruct (memn c seed) eqn:Em; [|eauto].
    apply memn_spec in Em.
    rewrite (@mapM_ok _ _ _ (z s)).
    2:{ intros n Hn. apply filter_In in Hn. destruct Hn as [_ Hn]. apply memn_spec in Hn.
        unfold z. apply get_nth. rewrite L. auto. }
    cbv beta iota delta [bind].
    set (l := filter (fun n => memn n seed) ns).
    assert (Hl : forall y, In y (map (z s) l) -> ok y).
    { intros y Hy. apply in_map_iff in Hy. destruct Hy as [n [<- Hn]]. apply filter_In in Hn.
      destruct Hn as [_ Hn]. apply memn_spec in Hn. auto. }
    destruct (map (z s) l) as [|x [|y r]]; eauto.
    rewrite (get_nth _ d0) by lia. fold (z s c).
    assert (Hm := amin_in x (y :: r)). set (m := amin E x (y :: r)) in *.
    rewrite (l_lt LAWS) by auto.
    destruct (Z.ltb_spec (rk (z s c)) (rk m)); [|eauto].
    rewrite set_lt by lia. eexists. split; [reflexivity|right].
    split; auto. eexists. split; [reflexivity|]. split; [apply (l_ok LAWS); auto|].
    assert (H1 := l_up LAWS m (Hl _ Hm)). lia.
  Qed.

  Lemma burnA c s dem' : InvA [c] (fun n => D s n /\ n <> c) s ->
    (dem' = pf_dem s \/ In c seed /\ exists y, dem' = upd (pf_dem s) c y /\ ok y /\
         (rk (z s c) < rk y)%Z) ->
    let s' := PF dem' (pf_closed s) (pf_open s) (pf_pit s) in
    InvA [c] (D s') s'.
  Proof.
    intros I Hb s'.
    destruct (a_act I c ltac:(left; auto)) as [Hc Hcc].
    assert (Hcw : ~ In c (waiting s)).
    { assert (H := a_nodup I). simpl in H. now inversion H. }
    assert (HD : forall n, D s' n <-> D s n) by (intros; reflexivity).
    assert (L := a_len I).
    assert (Hz : forall m, m <> c -> z s' m = z s m).
    { intros m Hm. destruct Hb as [->|[_ [y [-> _]]]]; unfold z; simpl; auto.
      apply nth_upd_neq; auto. }
    assert (Hzc : ok (z s' c) /\ (rk (z s c) <= rk (z s' c))%Z /\ (~ In c seed -> z s' c = z s c)).
    { destruct Hb as [->|[Hs [y [-> [Hy Hr]]]]].
      - split; [apply (a_ok I); auto|]. split; [apply Z.le_refl|auto].
      - assert (Ey : z s' c = y) by (unfold z, s'; simpl; apply nth_upd_eq; lia).
        rewrite Ey. split; auto. split; [lia|tauto]. }
    destruct Hzc as [Hok [Hge Heq]].
    constructor; try apply I.
    - simpl. destruct Hb as [->|[_ [y [-> _]]]]; auto. now rewrite upd_length.
    - intros n Hn. destruct (Nat.eq_dec n c); [subst; auto|]. rewrite Hz by auto. now apply (a_ok I).
    - intros n Hn. assert (H := a_ge I Hn). destruct (Nat.eq_dec n c); [subst; lia|].
      rewrite Hz by auto. auto.
    - intros e h Hi. rewrite Hz; [now apply (a_open I)|]. intros ->. apply Hcw.
      eapply open_waiting; exact Hi.
    - intros n Hn Hcn. rewrite Hz; [now apply (a_unclosed I)|]. intros ->. contradiction.
    - intros n Hn Hcn. eapply tr_mono; [| | |apply (a_tree I); auto].
      + intros m [H1 H2]. split; auto.
      + intros m Hm Hs. destruct (Nat.eq_dec m c); [subst; auto|auto].
      + auto.
  Qed.

  Lemma stepA strm c s : InvA [c] (fun n => D s n /\ n <> c) s ->
    exists s', pf_step E nb eps strm seed c s = Ok s' /\ InvA [] (D s') s' /\ mu s' = mu s /\
      (forall m, cl s m -> cl s' m) /\
      (forall m, cl s m -> m <> c \/ strm = false \/ ~ In c seed -> z s' m = z s m).
  Proof.
    intros I. destruct (a_act I c ltac:(left; auto)) as [Hc Hcc].
    unfold pf_step.
    destruct (nth_error nb c) as [ns|] eqn:En.
    2:{ apply nth_error_None in En. lia. }
    cbv beta iota delta [bind].
    assert (Hb : exists dem', (if strm then pf_burn E eps seed c ns (pf_dem s) else Ok (pf_dem s)) = Ok dem'
      /\ (dem' = pf_dem s \/ (In c seed /\ strm = true) /\ exists y, dem' = upd (pf_dem s) c y /\ ok y /\
         (rk (z s c) < rk y)%Z)).
    { destruct strm; [|eauto]. destruct (burn_spec ns s Hc (a_len I) (a_ok I)) as [dem' [E1 E2]].
      exists dem'. split; auto. tauto. }
    destruct Hb as [dem' [-> Hb]].
    assert (I2 := @burnA c s dem' I ltac:(tauto)). simpl in I2.
    destruct (@visitsA strm c ns _ En I2) as [s' [E' [I' [H1 H2]]]].
    exists s'. split; auto. split; auto. split; [|split].
    - rewrite H2. reflexivity.
    - intros m Hm. apply (H1 m). exact Hm.
    - intros m Hm Hor. destruct (H1 m Hm) as [_ ->].
      destruct Hb as [->|[[Hs ->] [y [-> _]]]]; auto. unfold z; simpl. apply nth_upd_neq.
      destruct Hor as [|[|]]; auto; congruence.
  Qed.

  (** ** the main loop *)
  Lemma loopA strm (J : pf (T := T) -> Prop) :
    (forall s c s1 s', InvA [] (D s) s -> J s -> pop s = Some (c, s1) ->
        InvA [c] (fun n => D s1 n /\ n <> c) s1 ->
        pf_step E nb eps strm seed c s1 = Ok s' -> InvA [] (D s') s' -> J s') ->
    forall fuel s, InvA [] (D s) s -> J s -> mu s <= fuel ->
      exists s', pf_loop E fuel nb eps strm seed s = Ok s' /\ InvA [] (D s') s' /\ J s' /\
        waiting s' = [].
  Proof.
    intros HJ. induction fuel as [|f IH]; intros s I Hj Hm; rewrite pf_loop_eq.
    - destruct (pop s) as [[c s1]|] eqn:Ep.
      + destruct (popA I Ep) as [_ [X _]]. lia.
      + apply pop_none_waiting in Ep. eauto.
    - destruct (pop s) as [[c s1]|] eqn:Ep.
      + destruct (popA I Ep) as [I1 [X _]].
        destruct (@stepA strm c s1 I1) as [s' [E' [I' [Hmu _]]]]. rewrite E'.
        cbv beta iota delta [bind]. apply IH; [auto|exact (HJ _ _ _ _ I Hj Ep I1 E' I')|lia].
      + apply pop_none_waiting in Ep. eauto.
  Qed.

  (** ** initial state *)
  Lemma init_open l h : (forall n, In n l -> n < N) -> Pall Pe h -> heap elt h ->
    exists h', foldM (fun h n => e <- get dem0 n ;; Ok (heappush elt h (e, n))) l h = Ok h' /\
      Permutation h' (map (fun n => (z0 n, n)) l ++ h) /\ heap elt h'.
  Proof.
    revert h; induction l as [|n l IH]; intros h Hl HP Hh; simpl; [eauto|].
    rewrite (get_nth dem0 d0) by (apply Hl; left; auto). simpl. fold (z0 n).
    assert (Hok : Pe (z0 n, n)) by (apply ok_z0; apply Hl; left; auto).
    destruct (IH (heappush elt h (z0 n, n))) as [h' [E1 [P1 H1]]].
    - intros; apply Hl; now right.
    - unfold Pall. rewrite (push_perm elt h (z0 n, n)). constructor; auto.
    - apply push_heap with (P := Pe); [exact elt_lt_le|exact elt_le_trans|auto|auto|auto].
    - exists h'. split; auto. split; auto. rewrite P1. rewrite push_perm.
      simpl. symmetry. apply Permutation_middle.
  Qed.

  Lemma init_closed l cs : (forall n, In n l -> n < length cs) -> NoDup l ->
    (forall n, In n l -> nth n cs false = false) ->
    exists cs', foldM (fun c n => set c n true) l cs = Ok cs' /\ length cs' = length cs /\
      (forall m, nth m cs' false = true <-> In m l \/ nth m cs false = true) /\
      count_occ bool_dec cs' false + length l = count_occ bool_dec cs false.
  Proof.
    revert cs; induction l as [|n l IH]; intros cs Hl Hnd Hf; simpl.
    - exists cs. split; auto. split; auto. split; [intuition|lia].
    - rewrite set_lt by (apply Hl; left; auto). simpl.
      inversion Hnd as [|? ? Hn1 Hn2]; subst.
      destruct (IH (upd cs n true)) as [cs' [E1 [E2 [E3 E4]]]]; auto.
      + intros m Hm. rewrite upd_length. apply Hl; now right.
      + intros m Hm. rewrite nth_upd_neq by (intros ->; contradiction). apply Hf; now right.
      + exists cs'. split; auto. rewrite upd_length in E2. split; auto. split.
        * intros m. rewrite E3. rewrite nth_upd by (apply Hl; left; auto).
          destruct (Nat.eq_dec n m); intuition.
        * assert (H := @count_upd cs n ltac:(apply Hl; left; auto) ltac:(apply Hf; left; auto)). lia.
  Qed.

  Lemma initA : exists s, pf_init E dem0 seed = Ok s /\ InvA [] (D s) s /\ mu s = N /\
    pf_dem s = dem0 /\ pf_pit s = [] /\ (forall m, cl s m <-> In m seed) /\
    Permutation (map snd (pf_open s)) seed.
  Proof.
    unfold pf_init.
    destruct (@init_open seed [] seed_lt) as [h [E1 [P1 H1]]].
    { constructor. } { intros i d Hi Hl. simpl in Hl. inversion Hl. }
    rewrite E1. rewrite app_nil_r in P1.
    destruct (@init_closed seed (repeat false N)) as [cs [E2 [E3 [E4 E5]]]]; auto.
    { intros n Hn. rewrite repeat_length. auto. }
    { intros n Hn. apply nth_repeat. }
    cbv beta iota delta [bind]. unfold N in E2. rewrite E2.
    eexists. split; [reflexivity|]. set (s := PF _ _ _ _).
    rewrite repeat_length in E3.
    assert (Hcl : forall m, cl s m <-> In m seed).
    { intros m. unfold cl, s; simpl. rewrite E4. rewrite nth_repeat. intuition congruence. }
    assert (Hw : Permutation (waiting s) seed).
    { unfold waiting, s; simpl. rewrite P1, map_map. simpl. rewrite map_id. auto. }
    assert (Hw' : forall m, In m (waiting s) <-> In m seed).
    { intros m; split; apply Permutation_in; auto. now symmetry. }
    split; [|split; [|split; [|split; [|split]]]]; auto.
    - constructor; auto.
      + intros n Hn. now apply ok_z0.
      + intros n Hn. unfold z, s, z0; simpl. lia.
      + simpl. apply (Permutation_NoDup (Permutation_sym Hw)). auto.
      + intros n Hn. simpl in Hn. rewrite Hw' in Hn. rewrite Hcl. auto.
      + intros e k Hi. unfold s in Hi; simpl in Hi. apply (Permutation_in _ P1) in Hi.
        apply in_map_iff in Hi. destruct Hi as [n [E6 Hn]]. inversion E6; subst.
        unfold z, s; simpl. auto.
      + intros n Hn. now apply Hcl.
      + intros n Hn Hc. constructor. now apply Hcl.
      + intros c n Hc Hcc Hni Hl. simpl in Hni. rewrite Hw' in Hni. rewrite Hcl in Hcc. contradiction.
    - unfold mu. rewrite (Permutation_length Hw). unfold s; simpl.
      replace (count_occ bool_dec (repeat false N) false) with N in E5; auto.
      clear. induction N; simpl; auto.
  Qed.

  (** ** consequences for any run *)
  Lemma tr_path s n : (forall m, m < N -> ok (z s m)) -> (forall m, m < N -> (rk (z0 m) <= rk (z s m))%Z) ->
    forall DD, tr (z s) DD (cl s) n -> n < N /\
    exists s0 l, In s0 seed /\ gpath LK s0 n l /\ forall m, In m l -> m < N /\ (rk (z0 m) <= rk (z s n))%Z.
  Proof.
    intros Hok Hge DD. induction 1 as [s0 Hs|c n H IH Hd Hl Hc Hr He|c n H IH Hd Hl Hc Hr He].
    - split; [auto|]. exists s0, [s0]. split; auto. split; [constructor|].
      intros m [<-|[]]. auto.
    - destruct Hl as [Ha Hn]. split; auto.
      destruct IH as [Hc' [s0 [l [Hs [Hp Hm]]]]].
      exists s0, (n :: l). split; auto. split; [econstructor; eauto; split; auto|].
      assert (H1 := l_up LAWS _ (Hok _ Hc')). rewrite <- He in H1.
      intros m [<-|Hi]; [split; auto; lia|]. destruct (Hm _ Hi). split; auto. lia.
    - destruct Hl as [Ha Hn]. split; auto.
      destruct IH as [Hc' [s0 [l [Hs [Hp Hm]]]]].
      exists s0, (n :: l). split; auto. split; [econstructor; eauto; split; auto|].
      intros m [<-|Hi]; [split; auto|]. destruct (Hm _ Hi). split; auto. lia.
  Qed.

  (** closed = reachable, once nothing is waiting *)
  Lemma closed_reachable s : InvA [] (D s) s -> waiting s = [] ->
    forall n, n < N -> (cl s n <-> reachable LK SD n).
  Proof.
    intros I W n Hn. split.
    - intros Hc. destruct (tr_path (a_ok I) (a_ge I) (a_tree I Hn Hc)) as [_ [s0 [l [H1 [H2 _]]]]].
      exists s0, l. auto.
    - intros [s0 [l [Hs Hp]]]. clear Hn.
      assert (G : n < N /\ cl s n); [|tauto].
      induction Hp as [|c n l Hp IH Hl].
      + split; auto. now apply (a_seed I).
      + destruct IH as [Hc Hcc]. split; [apply Hl|].
        apply (a_front I) with c; auto. simpl. rewrite W. auto.
  Qed.

  (** ** extra invariants over the neighbour loop *)
  Lemma visits_ind strm c ns s s' (K : pf (T := T) -> Prop) :
    nth_error nb c = Some ns -> InvA [c] (D s) s -> K s ->
    (forall n s1 s2, InvA [c] (D s1) s1 -> K s1 -> adjacent nb c n ->
       pf_visit E eps strm seed c s1 n = Ok s2 -> K s2) ->
    foldM (pf_visit E eps strm seed c) ns s = Ok s' -> K s'.
  Proof.
    intros Hnb I HK Hstep Hf.
    assert (G : InvA [c] (D s') s' /\ K s'); [|tauto].
    refine (@foldM_pinv _ _ _ (fun _ s1 => InvA [c] (D s1) s1 /\ K s1) ns _ s s' (conj I HK) Hf).
    intros done x todo s1 s2 Hl [I1 K1] E1.
    assert (Ha : adjacent nb c x).
    { exists ns. split; auto. rewrite Hl. apply in_or_app. right. left. auto. }
    destruct (visitA strm I1 Ha) as [s3 [E3 [I3 _]]].
    assert (s3 = s2) by congruence. subst s3. exact (conj I3 (Hstep x s1 s2 I1 K1 Ha E1)).
  Qed.

  Lemma step_false c s1 s' : pf_step E nb eps false seed c s1 = Ok s' -> c < N ->
    exists ns, nth_error nb c = Some ns /\ foldM (pf_visit E eps false seed c) ns s1 = Ok s'.
  Proof.
    unfold pf_step. intros H Hc. destruct (nth_error nb c) as [ns|] eqn:En.
    - exists ns. split; auto. simpl in H. destruct s1. exact H.
    - apply nth_error_None in En. lia.
  Qed.

  Lemma DnD s c : InvA [c] (fun n => D s n /\ n <> c) s -> InvA [c] (D s) s.
  Proof. intros I. assert (H := @burnA c s (pf_dem s) I (or_introl eq_refl)). destruct s. exact H. Qed.

  (** *** levels *)
  Definition lowp (x : T) (n : nat) : Prop := forall s0 l, In s0 seed -> gpath LK s0 n l ->
    exists m, In m l /\ m < N /\ (rk x <= rk (z0 m))%Z.
  Definition ncl (s : pf (T := T)) := count_occ bool_dec (pf_closed s) true.
  Notation at_ k x := (add_times E eps k x).
  Definition bndx (s : pf (T := T)) (x : T) (n : nat) : Prop :=
    exists k, k < ncl s /\ (rk (z s n) <= rk (at_ k x))%Z /\ (rk x <= rk (z s n))%Z /\ lowp x n.
  Definition bnd s n := exists x, ok x /\ bndx s x n.
  Definition opge (s : pf (T := T)) (x : T) := forall e h, In (e, h) (pf_open s) -> (rk x <= rk e)%Z.
  Record JB (s : pf (T := T)) : Prop := {
    j_bnd : forall n, n < N -> cl s n -> bnd s n;
    j_lev : pf_pit s = [] \/ exists x, ok x /\ opge s x /\ forall p, In p (pf_pit s) -> bndx s x p
  }.
  Record KB (c : nat) (x : T) (s : pf (T := T)) : Prop := {
    k_bnd : forall n, n < N -> cl s n -> bnd s n;
    k_ok : ok x;
    k_op : opge s x;
    k_pit : forall p, In p (pf_pit s) -> bndx s x p;
    k_c : bndx s x c
  }.

  Lemma ok_at k x : ok x -> ok (at_ k x).
  Proof. induction k; simpl; auto. intros. apply (l_ok LAWS). auto. Qed.

  Lemma gpath_head s0 n l : gpath LK s0 n l -> In n l.
  Proof. destruct 1; simpl; auto. Qed.

  Lemma frontier_low c x s : InvA [c] (D s) s -> KB c x s -> forall n, ~ cl s n -> lowp x n.
  Proof.
    intros I K n Hn s0 l Hs Hp.
    assert (G : n < N /\ (cl s n \/ exists m, In m l /\ m < N /\ (rk x <= rk (z0 m))%Z)).
    { clear Hn. induction Hp as [|c' n l Hp IH Hl].
      - split; auto. left. now apply (a_seed I).
      - split; [apply Hl|]. destruct IH as [Hc' [IH|[m [H1 [H2 H3]]]]].
        + destruct (cl_dec s n) as [|Hun]; auto. right.
          destruct (in_dec Nat.eq_dec c' ([c] ++ waiting s)) as [Hin|Hout].
          * assert (HB : bndx s x c' \/ (rk x <= rk (z0 c'))%Z).
            { simpl in Hin; destruct Hin as [Hin|Hin]; [subst c'; left; apply (k_c K)|].
              unfold waiting in Hin. apply in_app_or in Hin. destruct Hin as [Hin|Hin].
              - left. now apply (k_pit K).
              - right. apply in_map_iff in Hin. destruct Hin as [[e h] [Eh Hin]].
                simpl in Eh. subst h. destruct (a_open I _ _ Hin) as [_ X]. rewrite <- X.
                now apply (k_op K) with c'. }
            destruct HB as [[k [_ [_ [_ HB]]]]|HB].
            -- destruct (HB s0 l Hs Hp) as [m [H1 H2]]. exists m. split; [now right|auto].
            -- exists c'. split; [right; eapply gpath_head; eauto|auto].
          * exfalso. apply Hun. apply (a_front I) with c'; auto.
        + right. exists m. split; [now right|auto]. }
    destruct G as [_ [G|G]]; [contradiction|auto].
  Qed.

  Lemma count_upd_true (l : list bool) n : n < length l -> nth n l false = false ->
    count_occ bool_dec (upd l n true) true = S (count_occ bool_dec l true).
  Proof.
    revert n; induction l as [|b l IH]; intros [|n] H1 H2; simpl in *; try lia.
    - subst b. reflexivity.
    - destruct (bool_dec b true); [f_equal|]; apply IH; auto; lia.
  Qed.

  Lemma visitB c x n s1 s2 : InvA [c] (D s1) s1 -> KB c x s1 -> adjacent nb c n ->
    pf_visit E eps false seed c s1 n = Ok s2 -> KB c x s2.
  Proof.
    intros I K Ha Hv. destruct (a_act I c ltac:(left; auto)) as [Hc Hcc].
    rewrite visit_spec in Hv; auto; try apply I.
    destruct (Nat.leb_spec N n) as [Hn|Hn]; [inversion Hv; subst; auto|].
    destruct (nth n (pf_closed s1) false) eqn:Ec; [inversion Hv; subst; auto|].
    assert (Hcn : ~ cl s1 n) by (unfold cl; congruence).
    assert (L1 := a_len I). assert (L2 := a_clen I).
    assert (Hlow := frontier_low I K Hcn).
    assert (Hnc : n <> c) by (intros ->; contradiction).
    rewrite (l_le LAWS) in Hv by (apply (a_ok I); auto).
    assert (Hinc := @count_upd_true (pf_closed s1) n ltac:(lia) Ec).
    destruct (k_c K) as [kc [Hk1 [Hk2 [Hk3 Hk4]]]].
    assert (Hclu : forall m, nth m (upd (pf_closed s1) n true) false = true <-> m = n \/ cl s1 m).
    { intros m. rewrite nth_upd by lia. unfold cl. destruct (Nat.eq_dec n m); intuition. }
    assert (Hmono : ncl s2 = S (ncl s1) -> (forall m, m <> n -> z s2 m = z s1 m) ->
        forall y m, m <> n -> bndx s1 y m -> bndx s2 y m).
    { intros X Y y m Hm [k [H1 [H2 [H3 H4]]]]. exists k. rewrite X, Y by auto.
      split; [lia|auto]. }
    destruct (Z.leb_spec (rk (z s1 n)) (rk (z s1 c))) as [Hle|Hlt]; inversion Hv; clear Hv; subst s2.
    - set (s' := PF _ _ _ _) in *.
      assert (Hz' : forall m, m <> n -> z s' m = z s1 m).
      { intros m Hm. unfold z, s'. simpl. apply nth_upd_neq. auto. }
      assert (Hzn' : z s' n = up (z s1 c)).
      { unfold z at 1, s'. simpl. apply nth_upd_eq. lia. }
      assert (Hx : bndx s' x n).
      { exists (S kc). rewrite Hzn'. split; [unfold ncl, s' in *; simpl in *; lia|].
        split; [|split; auto].
        - simpl. apply (l_mono LAWS); auto. apply (a_ok I); auto. apply ok_at. apply K.
        - assert (H := l_up LAWS _ (a_ok I Hc)). lia. }
      specialize (Hmono Hinc Hz').
      constructor.
      + intros m Hm Hcm. destruct (Nat.eq_dec m n) as [->|Hne].
        * exists x. split; auto. apply K.
        * apply Hclu in Hcm. destruct Hcm as [|Hcm]; [contradiction|].
          destruct (k_bnd K Hm Hcm) as [y [Hy By]]. exists y. split; auto.
      + apply K.
      + intros e h Hi. apply (k_op K) with h. exact Hi.
      + intros p Hp. simpl in Hp. apply in_app_or in Hp. destruct Hp as [Hp|[<-|[]]]; auto.
        apply Hmono; [|now apply (k_pit K)]. intros ->. apply Hcn.
        apply (a_act I). right. now apply pit_waiting.
      + apply Hmono; [auto|]. apply (k_c K).
    - set (s' := PF _ _ _ _) in *.
      assert (Hz' : forall m, m <> n -> z s' m = z s1 m) by reflexivity.
      specialize (Hmono Hinc Hz').
      assert (Hzn := a_unclosed I Hn Hcn).
      constructor.
      + intros m Hm Hcm. destruct (Nat.eq_dec m n) as [->|Hne].
        * exists (z0 n). split; [now apply ok_z0|]. exists 0. unfold ncl, s' in *; simpl in *.
          split; [lia|]. change (z {| pf_dem := _ |} n) with (z s1 n). rewrite Hzn.
          split; [lia|]. split; [lia|]. intros s0 l Hs Hp. exists n.
          split; [eapply gpath_head; eauto|]. split; [auto|lia].
        * apply Hclu in Hcm. destruct Hcm as [|Hcm]; [contradiction|].
          destruct (k_bnd K Hm Hcm) as [y [Hy By]]. exists y. split; auto.
      + apply K.
      + intros e h Hi. simpl in Hi. apply (Permutation_in _ (push_perm elt _ _)) in Hi.
        destruct Hi as [Hi|Hi]; [inversion Hi; subst; lia|]. now apply (k_op K) with h.
      + intros p Hp. simpl in Hp. apply Hmono; [|now apply (k_pit K)]. intros ->. apply Hcn.
        apply (a_act I). right. now apply pit_waiting.
      + apply Hmono; [auto|]. apply (k_c K).
  Qed.

  Lemma stepB s c s1 s' : InvA [] (D s) s -> JB s -> pop s = Some (c, s1) ->
        InvA [c] (fun n => D s1 n /\ n <> c) s1 ->
        pf_step E nb eps false seed c s1 = Ok s' -> InvA [] (D s') s' -> JB s'.
  Proof.
    intros I J Hp I1 Hst I'.
    destruct (popA I Hp) as [_ [_ [Ed [Ec Hor]]]].
    destruct (a_act I1 c ltac:(left; auto)) as [Hc Hcc].
    assert (Ez : forall n, z s1 n = z s n) by (intros; unfold z; now rewrite Ed).
    assert (Ecl : forall n, cl s1 n <-> cl s n) by (intros; unfold cl; now rewrite Ec).
    assert (Eb : forall y n, bndx s y n -> bndx s1 y n).
    { intros y n [k [H1 H2]]. exists k. unfold ncl. rewrite Ec, Ez. auto. }
    assert (HB : forall n, n < N -> cl s1 n -> bnd s1 n).
    { intros n Hn Hcn. destruct (j_bnd J Hn (proj1 (Ecl n) Hcn)) as [y [Hy By]]. exists y; auto. }
    assert (K : exists x, KB c x s1).
    { destruct Hor as [[p [E1 [E2 E3]]]|[E1 [E2 [Hin [Hperm Hmin]]]]].
      - destruct (j_lev J) as [X|[x [Hx [Ho Hpit]]]]; [congruence|].
        exists x. constructor; auto.
        + intros e h. rewrite E3. apply Ho.
        + intros q. rewrite E2. intros Hq. apply Eb, Hpit. rewrite E1. now right.
        + apply Eb, Hpit. rewrite E1. now left.
      - exists (z0 c). constructor; auto.
        + now apply ok_z0.
        + intros e h Hi. apply Hmin with h. apply (Permutation_in _ (Permutation_sym Hperm)). now right.
        + intros q. rewrite E2. intros [].
        + destruct (HB c Hc Hcc) as [y [_ [k [Hk _]]]]. exists 0. split; [lia|].
          rewrite Ez. destruct (a_open I _ _ Hin) as [<- _]. simpl. split; [lia|]. split; [lia|].
          intros s0 l Hs Hpa. exists c. split; [eapply gpath_head; eauto|]. split; [auto|lia]. }
    destruct K as [x K].
    destruct (step_false _ Hst Hc) as [ns [En Hf]].
    assert (K' : KB c x s').
    { revert Hf. apply visits_ind; auto. - now apply DnD. - intros n sa sb. apply visitB. }
    constructor; [apply K'|]. right. exists x. split; [apply K'|]. split; apply K'.
  Qed.

  Lemma count_true_pos (l : list bool) n : nth n l false = true -> 0 < count_occ bool_dec l true.
  Proof. revert n; induction l as [|b l IH]; intros [|n] H; simpl in *; try discriminate.
    - subst b. simpl. lia.
    - specialize (IH _ H). destruct (bool_dec b true); lia. Qed.

  Lemma count_true_le (l : list bool) : count_occ bool_dec l true <= length l.
  Proof. induction l as [|b l IH]; simpl; auto. destruct (bool_dec b true); lia. Qed.

  Lemma initB s : pf_init E dem0 seed = Ok s -> JB s.
  Proof.
    intros H. destruct initA as [s' [E1 [I [_ [E2 [E3 [E4 _]]]]]]].
    assert (s' = s) by congruence. subst s'. constructor; auto.
    intros n Hn Hc. exists (z0 n). split; [now apply ok_z0|]. exists 0. unfold z. rewrite E2.
    fold (z0 n). simpl. split; [eapply count_true_pos; exact Hc|]. split; [lia|]. split; [lia|].
    intros s0 l Hs Hpa. exists n. split; [eapply gpath_head; eauto|]. split; [auto|lia].
  Qed.

  (** *** already drained terrain *)
  Definition JU (s : pf (T := T)) := pf_pit s = [] /\ pf_dem s = dem0.

  Section Drained.
    Hypothesis drained : forall n, n < N -> reachable LK SD n -> drains (e_lt E) LK SD dem0 n.

    Lemma stepU s c s1 s' : InvA [] (D s) s -> JU s -> pop s = Some (c, s1) ->
        InvA [c] (fun n => D s1 n /\ n <> c) s1 ->
        pf_step E nb eps false seed c s1 = Ok s' -> InvA [] (D s') s' -> JU s'.
    Proof.
      intros I [Jp Jd] Hp I1 Hst I'.
      destruct (popA I Hp) as [_ [_ [Ed [Ec Hor]]]].
      destruct (a_act I1 c ltac:(left; auto)) as [Hc Hcc].
      destruct Hor as [[p [E1 _]]|[_ [E2 [_ [Hperm Hmin]]]]]; [congruence|].
      destruct (step_false _ Hst Hc) as [ns [En Hf]].
      set (K := fun s : pf (T := T) => JU s /\ opge s (z0 c)).
      assert (K' : K s'); [|apply K'].
      revert Hf. apply visits_ind; auto.
      - now apply DnD.
      - split; [split; congruence|]. intros e h Hi. apply Hmin with h.
        apply (Permutation_in _ (Permutation_sym Hperm)). now right.
      - clear - LAWS okdem nb_len seed_nodup seed_lt drained. intros n s1 s2 I [[Kp Kd] Ko] Ha Hv.
        destruct (a_act I c ltac:(left; auto)) as [Hc Hcc].
        rewrite visit_spec in Hv; auto; try apply I.
        destruct (Nat.leb_spec N n) as [Hn|Hn]; [inversion Hv; subst; split; [split|]; auto|].
        destruct (nth n (pf_closed s1) false) eqn:Ecn; [inversion Hv; subst; split; [split|]; auto|].
        assert (Hcn : ~ cl s1 n) by (unfold cl; congruence).
        assert (Ez : forall m, z s1 m = z0 m) by (intros; unfold z, z0; now rewrite Kd).
        assert (G : forall m, drains (e_lt E) LK SD dem0 m -> m < N /\ (cl s1 m \/ (rk (z0 c) < rk (z0 m))%Z)).
        { induction 1 as [s0 Hs|c' m x y H IH Hl Hx Hy Hlt].
          - split; auto. left. now apply (a_seed I).
          - split; [apply Hl|]. destruct IH as [Hc' IH].
            assert (Hlt' : (rk (z0 c') < rk (z0 m))%Z).
            { apply (nth_error_nth _ _ d0) in Hx. apply (nth_error_nth _ _ d0) in Hy.
              fold (z0 c') in Hx. fold (z0 m) in Hy. subst x y.
              rewrite (l_lt LAWS) in Hlt by (apply ok_z0; auto; apply Hl). now apply Z.ltb_lt in Hlt. }
            destruct IH as [IH|IH]; [|right; lia].
            destruct (cl_dec s1 m) as [|Hun]; auto. right.
            destruct (in_dec Nat.eq_dec c' ([c] ++ waiting s1)) as [Hin|Hout].
            + simpl in Hin; destruct Hin as [Hin|Hin]; [subst c'; auto|]. unfold waiting in Hin. rewrite Kp in Hin. simpl in Hin.
              apply in_map_iff in Hin. destruct Hin as [[e h] [Eh Hin]].
              simpl in Eh. subst h. destruct (a_open I _ _ Hin) as [_ X]. apply Ko in Hin. subst e. lia.
            + exfalso. apply Hun. apply (a_front I) with c'; auto. }
        assert (Hr : reachable LK SD n).
        { destruct (tr_path (a_ok I) (a_ge I) (a_tree I Hc Hcc)) as [_ [s0 [l [H1 [H2 _]]]]].
          exists s0, (n :: l). split; auto. econstructor; eauto. split; auto. }
        destruct (G n (drained Hn Hr)) as [_ [X|X]]; [contradiction|].
        rewrite (l_le LAWS) in Hv by (apply (a_ok I); auto). rewrite !Ez in Hv.
        destruct (Z.leb_spec (rk (z0 n)) (rk (z0 c))) as [Hle|_]; [lia|].
        inversion Hv; subst s2. split; [split; auto|].
        intros e h Hi. simpl in Hi. apply (Permutation_in _ (push_perm elt _ _)) in Hi.
        destruct Hi as [Hi|Hi]; [inversion Hi; subst; lia|]. now apply Ko with h.
    Qed.
  End Drained.
End PF.
