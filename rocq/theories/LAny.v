(** What the priority flood does whatever the comparisons and the addition are: no law of
    arithmetic is used, so the results hold for NaN and infinite elevations and for any eps.
    (The laws-based results are in LFill.) *)
From Verif Require Import Py Spec MHeap LHeap MFill.
Set Implicit Arguments.

Section Pop.
  Context {A : Type} (lt : A -> A -> bool).
  (** heappop takes out exactly the entry it returns, even if the heap order is broken *)
  Lemma pop_perm h x h' : heappop lt h = Some (x, h') -> Permutation h (x :: h').
  Proof.
    intros E. destruct h as [|a l]; [discriminate|].
    unfold heappop in E. set (h := a :: l) in *.
    assert (Hne : h <> []) by discriminate.
    assert (D := @removelast_last _ h a Hne).
    destruct (removelast h) as [|r rest] eqn:R.
    - injection E as E1 E2. subst x h'. simpl in D. rewrite D at 1. auto.
    - set (le_ := last h a) in *. set (h0 := le_ :: rest) in *.
      assert (E1 : r = x) by congruence.
      assert (E2 : siftup lt (length h0) h0 0 le_ = h') by congruence.
      clear E. subst x h'.
      assert (H0 : Permutation (siftup lt (length h0) h0 0 le_) (upd h0 0 le_)).
      { apply siftup_perm. simpl. lia. }
      rewrite H0. simpl. rewrite D at 1. simpl. constructor.
      symmetry. apply Permutation_cons_append.
  Qed.
End Pop.

Section Any.
  Context {T : Type} (E : elev T) (eps : T).
  Variable nb : list (list nat).
  Variable dem0 : list T.
  Variable seed : list nat.
  Let N := length dem0.
  Let d0 := e_zero E.
  Let z0 n := nth n dem0 d0.
  Hypothesis nb_len : N <= length nb.
  Hypothesis seed_nodup : NoDup seed.
  Hypothesis seed_lt : forall s, In s seed -> s < N.

  Notation up x := (e_add E x eps).
  Definition z (s : pf (T := T)) n := nth n (pf_dem s) d0.
  Definition cl (s : pf (T := T)) n := nth n (pf_closed s) false = true.
  Notation elt := (entry_lt E).
  Notation LK := (link nb N).
  Notation SD := (fun s => In s seed).

  (** a stream cell that was raised (perhaps): each time above something higher than itself *)
  Inductive lifted : T -> T -> Prop :=
  | lf_same : forall x, lifted x x
  | lf_up : forall x y m, lifted x y -> e_lt E y m = true -> lifted x (up m).

  (** ** the drainage forest built by the flood *)
  Inductive tr (zz : nat -> T) (D C : nat -> Prop) : nat -> Prop :=
  | tr_seed : forall s, In s seed -> tr zz D C s
  | tr_pit : forall c n, tr zz D C c -> D c -> LK c n -> C n -> ~ In n seed ->
      e_le E (z0 n) (zz c) = true -> zz n = up (zz c) -> tr zz D C n
  | tr_heap : forall c n, tr zz D C c -> D c -> LK c n -> C n -> ~ In n seed ->
      e_le E (z0 n) (zz c) = false -> zz n = z0 n -> tr zz D C n.

  Lemma tr_mono zz zz' (D D' C C' : nat -> Prop) n :
    (forall m, D m -> D' m /\ zz' m = zz m) ->
    (forall m, C m -> ~ In m seed -> zz' m = zz m) ->
    (forall m, C m -> C' m) ->
    tr zz D C n -> tr zz' D' C' n.
  Proof.
    intros HD HC HC'. induction 1 as [s Hs|c n H IH Hd Hl Hc Hs Hr He|c n H IH Hd Hl Hc Hs Hr He].
    - now constructor.
    - destruct (HD _ Hd) as [Hd' Ed]. eapply tr_pit; eauto. { now rewrite Ed. }
      rewrite Ed, HC; auto.
    - destruct (HD _ Hd) as [Hd' Ed]. eapply tr_heap; eauto.
      + now rewrite Ed. + now rewrite HC.
  Qed.

  Definition waiting (s : pf (T := T)) := pf_pit s ++ map snd (pf_open s).
  Definition D (s : pf (T := T)) n := cl s n /\ ~ In n (waiting s).

  Record InvA (cur : list nat) (Dn : nat -> Prop) (s : pf (T := T)) : Prop := {
    a_len : length (pf_dem s) = N;
    a_clen : length (pf_closed s) = N;
    a_nodup : NoDup (cur ++ waiting s);
    a_act : forall n, In n (cur ++ waiting s) -> n < N /\ cl s n;
    a_lift : forall n, In n seed -> lifted (z0 n) (z s n);
    a_unclosed : forall n, n < N -> ~ cl s n -> z s n = z0 n;
    a_seed : forall n, In n seed -> cl s n;
    a_tree : forall n, n < N -> cl s n -> tr (z s) Dn (cl s) n;
    a_front : forall c n, c < N -> cl s c -> ~ In c (cur ++ waiting s) -> LK c n -> cl s n
  }.

  Lemma open_waiting s e h : In (e, h) (pf_open s) -> In h (waiting s).
  Proof. intros H. unfold waiting. apply in_or_app. right. change h with (snd (e, h)).
    now apply in_map. Qed.

  (** ** one visit *)
  Lemma visit_spec strm c n s :
    length (pf_dem s) = N -> length (pf_closed s) = N -> c < N ->
    (forall m, In m seed -> cl s m) ->
    pf_visit E eps strm seed c s n =
      if N <=? n then Ok s else if nth n (pf_closed s) false then Ok s else
      if e_le E (z s n) (z s c)
      then Ok (PF (upd (pf_dem s) n (up (z s c))) (upd (pf_closed s) n true) (pf_open s) (pf_pit s ++ [n]))
      else Ok (PF (pf_dem s) (upd (pf_closed s) n true) (heappush elt (pf_open s) (z s n, n)) (pf_pit s)).
  Proof.
    intros L1 L2 Hc Hs. unfold pf_visit. rewrite L1.
    destruct (Nat.leb_spec N n) as [H|H]; auto.
    rewrite (get_nth _ false) by lia. simpl.
    destruct (nth n (pf_closed s) false) eqn:Ec; auto.
    rewrite set_lt by lia. simpl.
    rewrite (get_nth (pf_dem s) d0) by lia. simpl.
    rewrite (get_nth (pf_dem s) (i := c) d0) by lia. simpl.
    fold (z s n) (z s c).
    destruct (e_le E (z s n) (z s c)); auto.
    rewrite set_lt by lia. simpl.
    assert (Hn : memn n seed = false).
    { apply memn_false. intros Hi. apply Hs in Hi. unfold cl in Hi. congruence. }
    rewrite Hn. destruct strm; auto. destruct (memn c seed); auto.
  Qed.

  Lemma close_inv c n s s' : InvA [c] (D s) s -> n < N -> ~ cl s n -> LK c n ->
    length (pf_dem s') = N -> length (pf_closed s') = N ->
    (forall m, cl s' m <-> m = n \/ cl s m) ->
    (forall m, m <> n -> z s' m = z s m) ->
    Permutation (waiting s') (n :: waiting s) ->
    (e_le E (z0 n) (z s c) = true /\ z s' n = up (z s c) \/
     e_le E (z0 n) (z s c) = false /\ z s' n = z0 n) ->
    InvA [c] (D s') s'.
  Proof.
    intros I Hn Hcn Hlk L1 L2 Hcl Hz Hw Hval.
    destruct (a_act I c ltac:(left; auto)) as [Hc Hcc].
    assert (Hnc : n <> c) by (intros ->; contradiction).
    assert (Hns : ~ In n seed) by (intros H; apply Hcn; now apply (a_seed I)).
    assert (HDc : D s c).
    { split; auto. assert (H := a_nodup I). simpl in H. now inversion H. }
    assert (Hnw : ~ In n (waiting s)).
    { intros H. apply Hcn. apply (a_act I). now right. }
    assert (Hw' : forall m, In m (waiting s') <-> m = n \/ In m (waiting s)).
    { intros m. split; intros H.
      - apply (Permutation_in _ Hw) in H. destruct H; auto.
      - apply (Permutation_in _ (Permutation_sym Hw)). destruct H; [left|right]; auto. }
    assert (HD : forall m, D s m -> D s' m /\ z s' m = z s m).
    { intros m [H1 H2]. assert (m <> n) by (intros ->; contradiction).
      split; [split|]; auto. - apply Hcl; auto. - rewrite Hw'. tauto. }
    constructor; auto.
    - assert (H := a_nodup I). simpl in H. inversion H as [|? ? H1 H2]; subst.
      simpl. constructor. + rewrite Hw'. intros [X|X]; [congruence|contradiction].
      + apply (Permutation_NoDup (Permutation_sym Hw)). constructor; auto.
    - intros m Hm. rewrite Hcl. simpl in Hm. rewrite Hw' in Hm.
      destruct Hm as [<-|[->|Hm]]; [auto|auto|].
      destruct (a_act I m) as [X Y]; [right; auto|auto].
    - intros m Hm. rewrite Hz by (intros ->; contradiction). now apply (a_lift I).
    - intros m Hm Hc'. assert (m <> n /\ ~ cl s m) as [X Y].
      { rewrite Hcl in Hc'. tauto. }
      rewrite Hz by auto. now apply (a_unclosed I).
    - intros m Hm. apply Hcl. right. now apply (a_seed I).
    - intros m Hm Hcm.
      assert (HT : forall k, k < N -> cl s k -> tr (z s') (D s') (cl s') k).
      { intros k Hk Hck. eapply tr_mono; [exact HD| | |apply (a_tree I); auto].
        - intros j Hj _. apply Hz. intros ->. contradiction.
        - intros j Hj. apply Hcl; auto. }
      rewrite Hcl in Hcm. destruct Hcm as [->|Hcm]; [|auto].
      destruct Hval as [[H1 H2]|[H1 H2]].
      + apply tr_pit with c; auto. * now apply HD. * apply Hcl; auto.
        * rewrite Hz by auto. exact H1. * rewrite H2, Hz by auto. auto.
      + apply tr_heap with c; auto. * now apply HD. * apply Hcl; auto.
        * rewrite (Hz c) by auto. exact H1.
    - intros c' n' Hc' Hcc' Hni Hl. simpl in Hni. rewrite Hw' in Hni. apply Hcl. right.
      rewrite Hcl in Hcc'. apply (a_front I) with c'; auto; [tauto|simpl; tauto].
  Qed.

  Definition mu (s : pf (T := T)) :=
    count_occ bool_dec (pf_closed s) false + length (waiting s).

  Lemma count_upd (l : list bool) n : n < length l -> nth n l false = false ->
    S (count_occ bool_dec (upd l n true) false) = count_occ bool_dec l false.
  Proof.
    revert n; induction l as [|b l IH]; intros [|n] H1 H2; simpl in *; try lia.
    - subst b. reflexivity.
    - destruct (bool_dec b false); [f_equal|]; apply IH; auto; lia.
  Qed.

  Lemma visitA strm c n s : InvA [c] (D s) s -> adjacent nb c n ->
    exists s', pf_visit E eps strm seed c s n = Ok s' /\ InvA [c] (D s') s' /\
      (forall m, cl s m -> cl s' m /\ z s' m = z s m) /\ (n < N -> cl s' n) /\ mu s' = mu s.
  Proof.
    intros I Hadj. destruct (a_act I c ltac:(left; auto)) as [Hc Hcc].
    rewrite visit_spec; auto; try apply I.
    destruct (Nat.leb_spec N n) as [Hn|Hn].
    { exists s. split; [auto|split; [auto|split; [auto|split; [lia|auto]]]]. }
    destruct (nth n (pf_closed s) false) eqn:Ec.
    { exists s. split; [auto|split; [auto|split; [auto|split; auto]]]. }
    assert (Hcn : ~ cl s n) by (unfold cl; congruence).
    assert (L1 := a_len I). assert (L2 := a_clen I).
    assert (Hlk : LK c n) by (split; auto).
    assert (Hzn := a_unclosed I Hn Hcn).
    assert (Hclu : forall m, nth m (upd (pf_closed s) n true) false = true <-> m = n \/ cl s m).
    { intros m. rewrite nth_upd by lia. unfold cl. destruct (Nat.eq_dec n m); intuition. }
    assert (Hcnt := @count_upd (pf_closed s) n ltac:(lia) Ec).
    destruct (e_le E (z s n) (z s c)) eqn:Hle.
    - eexists. split; [reflexivity|].
      set (s' := PF _ _ _ _).
      assert (Hz' : forall m, m <> n -> z s' m = z s m).
      { intros m Hm. unfold z, s'. simpl. apply nth_upd_neq. auto. }
      assert (Hzn' : z s' n = up (z s c)).
      { unfold z at 1, s'. simpl. apply nth_upd_eq. lia. }
      assert (Hw : Permutation (waiting s') (n :: waiting s)).
      { unfold waiting, s'. simpl. rewrite <- app_assoc. symmetry. apply Permutation_middle. }
      split; [|split; [|split]].
      + apply close_inv with (n := n) (s := s); auto.
        * unfold s'. simpl. rewrite upd_length. auto.
        * unfold s'. simpl. rewrite upd_length. auto.
        * left. split; auto. congruence.
      + intros m Hm. split; [apply Hclu; auto|]. apply Hz'. intros ->; contradiction.
      + intros _. apply Hclu; auto.
      + unfold mu. rewrite (Permutation_length Hw). simpl. lia.
    - eexists. split; [reflexivity|].
      set (s' := PF _ _ _ _).
      assert (Hp : Permutation (pf_open s') ((z s n, n) :: pf_open s)) by apply push_perm.
      assert (Hw : Permutation (waiting s') (n :: waiting s)).
      { unfold waiting. rewrite Hp. simpl. symmetry. apply Permutation_middle. }
      split; [|split; [|split]].
      + apply close_inv with (n := n) (s := s); auto.
        * unfold s'. simpl. rewrite upd_length. auto.
        * right. split; auto. congruence.
      + intros m Hm. split; [apply Hclu; auto|]. auto.
      + intros _. apply Hclu; auto.
      + unfold mu. rewrite (Permutation_length Hw). simpl. lia.
  Qed.

  (** ** the neighbour loop *)
  Lemma visitsA strm c ns s : nth_error nb c = Some ns -> InvA [c] (D s) s ->
    exists s', foldM (pf_visit E eps strm seed c) ns s = Ok s' /\ InvA [] (D s') s' /\
      (forall m, cl s m -> cl s' m /\ z s' m = z s m) /\ mu s' = mu s.
  Proof.
    intros Hnb I.
    destruct (@foldM_inv _ _ (pf_visit E eps strm seed c)
      (fun done s' => InvA [c] (D s') s' /\ (forall m, cl s m -> cl s' m /\ z s' m = z s m) /\
          (forall n, In n done -> n < N -> cl s' n) /\ mu s' = mu s) ns) with (s := s)
      as [s' [E1 [I' [H1 [H2 H3]]]]].
    - intros done x todo s1 Hl [I1 [H1 [H2 H3]]].
      destruct (@visitA strm c x s1 I1) as [s2 [E2 [I2 [H4 [H5 H6]]]]].
      { exists ns. split; auto. rewrite Hl. apply in_or_app. right. left. auto. }
      exists s2. split; auto. split; auto. split; [|split].
      + intros m Hm. destruct (H1 m Hm) as [X Y]. destruct (H4 m X) as [X2 Y2].
        split; auto. congruence.
      + intros n Hn Hlt. apply in_app_or in Hn. destruct Hn as [Hn|[<-|[]]]; auto.
        apply H4. now apply H2.
      + congruence.
    - split; [auto|split; [auto|split; [|auto]]]. intros n [].
    - exists s'. split; auto. split; [|split; auto].
      assert (HN := a_nodup I'). simpl in HN. inversion HN as [|? ? HN1 HN2]; subst.
      constructor; try apply I'; auto.
      + intros n Hn. apply (a_act I'). now right.
      + intros c' n Hc' Hcc Hni Hlk. destruct (Nat.eq_dec c c') as [<-|Hne].
        * destruct Hlk as [[l [El Hin]] Hlt]. rewrite Hnb in El. inversion El; subst.
          now apply H2.
        * apply (a_front I') with c'; auto. simpl. simpl in Hni. tauto.
  Qed.

  (** ** taking the next cell *)
  Definition pop (s : pf (T := T)) : option (nat * pf (T := T)) :=
    match pf_pit s with
    | c :: p => Some (c, PF (pf_dem s) (pf_closed s) (pf_open s) p)
    | [] => match heappop elt (pf_open s) with
            | None => None
            | Some ((_, c), o) => Some (c, PF (pf_dem s) (pf_closed s) o [])
            end
    end.

  Lemma pf_loop_eq fuel strm s :
    pf_loop E fuel nb eps strm seed s =
      match pop s with
      | None => Ok s
      | Some (c, s1) => match fuel with
                        | O => Err OutOfFuel
                        | S f => s' <- pf_step E nb eps strm seed c s1 ;;
                                 pf_loop E f nb eps strm seed s'
                        end
      end.
  Proof.
    destruct fuel as [|f]; simpl; unfold pop; destruct (pf_pit s); auto;
      destruct (heappop elt (pf_open s)) as [[[e c] o]|]; auto.
  Qed.

  Lemma popA s c s1 : InvA [] (D s) s -> pop s = Some (c, s1) ->
    InvA [c] (fun n => D s1 n /\ n <> c) s1 /\ mu s = S (mu s1).
  Proof.
    intros I Hp.
    assert (G : pf_dem s1 = pf_dem s -> pf_closed s1 = pf_closed s ->
      Permutation (waiting s) (c :: waiting s1) ->
      InvA [c] (fun n => D s1 n /\ n <> c) s1 /\ mu s = S (mu s1)).
    { intros E1 E2 Hw.
      assert (Ez : forall n, z s1 n = z s n) by (intros; unfold z; now rewrite E1).
      assert (Ec : forall n, cl s1 n <-> cl s n) by (intros; unfold cl; now rewrite E2).
      assert (Hw' : forall m, In m (waiting s) <-> m = c \/ In m (waiting s1)).
      { intros m. split; intros H.
        - apply (Permutation_in _ Hw) in H. destruct H; auto.
        - apply (Permutation_in _ (Permutation_sym Hw)). destruct H; [left|right]; auto. }
      split.
      - constructor.
        + rewrite E1. apply I.
        + rewrite E2. apply I.
        + apply (Permutation_NoDup Hw). apply (a_nodup I).
        + intros n Hn. rewrite Ec. apply (a_act I). simpl. simpl in Hn. rewrite Hw'. intuition.
        + intros n Hn. rewrite Ez. now apply (a_lift I).
        + intros n Hn Hc. rewrite Ez. apply (a_unclosed I); auto. now rewrite <- Ec.
        + intros n Hn. apply Ec. now apply (a_seed I).
        + intros n Hn Hc. apply Ec in Hc. eapply tr_mono; [| | |apply (a_tree I); auto].
          * intros m [H1 H2]. rewrite Hw' in H2. split; [|apply Ez].
            split; [split|]; [now apply Ec|tauto|tauto].
          * intros; apply Ez.
          * intros; now apply Ec.
        + intros c' n Hc' Hcc Hni Hl. apply Ec. apply (a_front I) with c'; auto.
          * now apply Ec. * simpl. rewrite Hw'. simpl in Hni. intuition.
      - unfold mu. rewrite E2. rewrite (Permutation_length Hw). simpl. lia. }
    unfold pop in Hp. destruct (pf_pit s) as [|c' p] eqn:Ep.
    - destruct (heappop elt (pf_open s)) as [[[e c'] o]|] eqn:Eh; [|discriminate].
      inversion Hp; subst c' s1; clear Hp. simpl in *. apply pop_perm in Eh.
      apply G; auto. unfold waiting. rewrite Ep. simpl. rewrite Eh. auto.
    - inversion Hp; subst c' s1; clear Hp. simpl in *.
      apply G; auto. unfold waiting. rewrite Ep. simpl. auto.
  Qed.

  Lemma pop_none_waiting s : pop s = None <-> waiting s = [].
  Proof.
    unfold pop, waiting. destruct (pf_pit s) as [|c p]; simpl.
    - destruct (heappop elt (pf_open s)) as [[[e c] o]|] eqn:Eh.
      + split; [discriminate|]. intros H. apply map_eq_nil in H. rewrite H in Eh. discriminate.
      + apply pop_none in Eh. rewrite Eh. split; auto.
    - split; discriminate.
  Qed.

  (** ** stream burning *)
  Lemma burn_spec c ns (s : pf (T := T)) : c < N -> length (pf_dem s) = N ->
    exists dem', pf_burn E eps seed c ns (pf_dem s) = Ok dem' /\
      (dem' = pf_dem s \/ In c seed /\ exists m, dem' = upd (pf_dem s) c (up m) /\
         e_lt E (z s c) m = true).
  Proof.
    intros Hc L. unfold pf_burn. destruct (memn c seed) eqn:Em; [|eauto].
    apply memn_spec in Em.
    rewrite (@mapM_ok _ _ _ (z s)).
    2:{ intros n Hn. apply filter_In in Hn. destruct Hn as [_ Hn]. apply memn_spec in Hn.
        unfold z. apply get_nth. rewrite L. auto. }
    cbv beta iota delta [bind].
    set (l := filter (fun n => memn n seed) ns).
    destruct (map (z s) l) as [|x [|y r]]; eauto.
    rewrite (get_nth _ d0) by lia. fold (z s c).
    set (m := amin E x (y :: r)) in *.
    destruct (e_lt E (z s c) m) eqn:El; [|eauto].
    rewrite set_lt by lia. eexists. split; [reflexivity|right].
    split; auto. exists m. auto.
  Qed.

  Lemma burnA c s dem' : InvA [c] (fun n => D s n /\ n <> c) s ->
    (dem' = pf_dem s \/ In c seed /\ exists m, dem' = upd (pf_dem s) c (up m) /\
         e_lt E (z s c) m = true) ->
    let s' := PF dem' (pf_closed s) (pf_open s) (pf_pit s) in
    InvA [c] (D s') s'.
  Proof.
    intros I Hb s'.
    destruct (a_act I c ltac:(left; auto)) as [Hc Hcc].
    assert (L := a_len I).
    assert (Hz : forall m, m <> c -> z s' m = z s m).
    { intros m Hm. destruct Hb as [->|[_ [y [-> _]]]]; unfold z; simpl; auto.
      apply nth_upd_neq; auto. }
    assert (Hzc : (In c seed -> lifted (z0 c) (z s' c)) /\ (~ In c seed -> z s' c = z s c)).
    { destruct Hb as [->|[Hs [y [-> Hy]]]].
      - split; auto. intros Hs. exact (a_lift I c Hs).
      - assert (Ey : z s' c = up y) by (unfold z, s'; simpl; apply nth_upd_eq; lia).
        rewrite Ey. split; [|tauto]. intros _. eapply lf_up; [|exact Hy]. now apply (a_lift I). }
    destruct Hzc as [Hlf Heq].
    constructor; try apply I.
    - simpl. destruct Hb as [->|[_ [y [-> _]]]]; auto. now rewrite upd_length.
    - intros n Hn. destruct (Nat.eq_dec n c); [subst; auto|]. rewrite Hz by auto. now apply (a_lift I).
    - intros n Hn Hcn. rewrite Hz; [now apply (a_unclosed I)|]. intros ->. contradiction.
    - intros n Hn Hcn. eapply tr_mono; [| | |apply (a_tree I); auto].
      + intros m [H1 H2]. split; auto.
      + intros m Hm Hs. destruct (Nat.eq_dec m c); [subst; auto|auto].
      + auto.
  Qed.

  Lemma stepA strm c s : InvA [c] (fun n => D s n /\ n <> c) s ->
    exists s', pf_step E nb eps strm seed c s = Ok s' /\ InvA [] (D s') s' /\ mu s' = mu s /\
      (strm = false -> forall m, cl s m -> z s' m = z s m) /\ (forall m, cl s m -> cl s' m).
  Proof.
    intros I. destruct (a_act I c ltac:(left; auto)) as [Hc Hcc].
    unfold pf_step.
    destruct (nth_error nb c) as [ns|] eqn:En.
    2:{ apply nth_error_None in En. lia. }
    cbv beta iota delta [bind].
    assert (Hb : exists dem', (if strm then pf_burn E eps seed c ns (pf_dem s) else Ok (pf_dem s)) = Ok dem'
      /\ (dem' = pf_dem s \/ (In c seed /\ strm = true) /\ exists y, dem' = upd (pf_dem s) c (up y) /\
         e_lt E (z s c) y = true)).
    { destruct strm; [|eauto]. destruct (burn_spec ns s Hc (a_len I)) as [dem' [E1 E2]].
      exists dem'. split; auto. tauto. }
    destruct Hb as [dem' [-> Hb]].
    assert (I2 := @burnA c s dem' I ltac:(tauto)). simpl in I2.
    destruct (@visitsA strm c ns _ En I2) as [s' [E' [I' [H1 H2]]]].
    exists s'. split; auto. split; auto. split; [rewrite H2; reflexivity|]. split.
    - intros -> m Hm. destruct (H1 m Hm) as [_ ->].
      destruct Hb as [->|[[Hs ?] _]]; [reflexivity|discriminate].
    - intros m Hm. apply (H1 m). exact Hm.
  Qed.

  (** ** the main loop *)
  Lemma loopA strm : forall fuel s, InvA [] (D s) s -> mu s <= fuel ->
      exists s', pf_loop E fuel nb eps strm seed s = Ok s' /\ InvA [] (D s') s' /\ waiting s' = [] /\
        (strm = false -> forall m, cl s m -> z s' m = z s m).
  Proof.
    induction fuel as [|f IH]; intros s I Hm; rewrite pf_loop_eq.
    - destruct (pop s) as [[c s1]|] eqn:Ep.
      + destruct (popA I Ep) as [_ X]. lia.
      + apply pop_none_waiting in Ep. eauto 6.
    - destruct (pop s) as [[c s1]|] eqn:Ep.
      + destruct (popA I Ep) as [I1 X].
        destruct (@stepA strm c s1 I1) as [s' [E' [I' [Hmu [Hz Hcl]]]]]. rewrite E'.
        cbv beta iota delta [bind].
        assert (E0 : pf_dem s1 = pf_dem s /\ pf_closed s1 = pf_closed s).
        { unfold pop in Ep. destruct (pf_pit s); [destruct (heappop elt (pf_open s)) as [[[? ?] ?]|]|];
            inversion Ep; subst; auto. }
        destruct E0 as [E1 E2].
        destruct (IH s' I' ltac:(lia)) as [s2 [F1 [F2 [F3 F4]]]]. exists s2. split; [auto|split; [auto|split; [auto|]]].
        intros Hs m Hc. assert (Hc1 : cl s1 m) by (unfold cl in *; now rewrite E2).
        rewrite (F4 Hs m (Hcl m Hc1)), (Hz Hs m Hc1). unfold z. now rewrite E1.
      + apply pop_none_waiting in Ep. eauto 6.
  Qed.

  (** ** initial state *)
  Lemma init_open l h : (forall n, In n l -> n < N) ->
    exists h', foldM (fun h n => e <- get dem0 n ;; Ok (heappush elt h (e, n))) l h = Ok h' /\
      Permutation h' (map (fun n => (z0 n, n)) l ++ h).
  Proof.
    revert h; induction l as [|n l IH]; intros h Hl; simpl; [eauto|].
    rewrite (get_nth dem0 d0) by (apply Hl; left; auto). simpl. fold (z0 n).
    destruct (IH (heappush elt h (z0 n, n))) as [h' [E1 P1]].
    - intros; apply Hl; now right.
    - exists h'. split; auto. rewrite P1. rewrite push_perm.
      simpl. symmetry. apply Permutation_middle.
  Qed.

  Lemma init_closed l cs : (forall n, In n l -> n < length cs) -> NoDup l ->
    (forall n, In n l -> nth n cs false = false) ->
    exists cs', foldM (fun c n => set c n true) l cs = Ok cs' /\ length cs' = length cs /\
      (forall m, nth m cs' false = true <-> In m l \/ nth m cs false = true) /\
      count_occ bool_dec cs' false + length l = count_occ bool_dec cs false.
  Proof.
    revert cs; induction l as [|n l IH]; intros cs Hl Hnd Hf; simpl.
    - exists cs. split; auto. split; auto. split; [intuition|lia].
    - rewrite set_lt by (apply Hl; left; auto). simpl.
      inversion Hnd as [|? ? Hn1 Hn2]; subst.
      destruct (IH (upd cs n true)) as [cs' [E1 [E2 [E3 E4]]]]; auto.
      + intros m Hm. rewrite upd_length. apply Hl; now right.
      + intros m Hm. rewrite nth_upd_neq by (intros ->; contradiction). apply Hf; now right.
      + exists cs'. split; auto. rewrite upd_length in E2. split; auto. split.
        * intros m. rewrite E3. rewrite nth_upd by (apply Hl; left; auto).
          destruct (Nat.eq_dec n m); intuition.
        * assert (H := @count_upd cs n ltac:(apply Hl; left; auto) ltac:(apply Hf; left; auto)). lia.
  Qed.

  Lemma initA : exists s, pf_init E dem0 seed = Ok s /\ InvA [] (D s) s /\ mu s = N /\
    pf_dem s = dem0 /\ (forall m, cl s m <-> In m seed).
  Proof.
    unfold pf_init.
    destruct (@init_open seed [] seed_lt) as [h [E1 P1]].
    rewrite E1. rewrite app_nil_r in P1.
    destruct (@init_closed seed (repeat false N)) as [cs [E2 [E3 [E4 E5]]]]; auto.
    { intros n Hn. rewrite repeat_length. auto. }
    { intros n Hn. apply nth_repeat. }
    cbv beta iota delta [bind]. unfold N in E2. rewrite E2.
    eexists. split; [reflexivity|]. set (s := PF _ _ _ _).
    rewrite repeat_length in E3.
    assert (Hcl : forall m, cl s m <-> In m seed).
    { intros m. unfold cl, s; simpl. rewrite E4. rewrite nth_repeat. intuition congruence. }
    assert (Hw : Permutation (waiting s) seed).
    { unfold waiting, s; simpl. rewrite P1, map_map. simpl. rewrite map_id. auto. }
    assert (Hw' : forall m, In m (waiting s) <-> In m seed).
    { intros m; split; apply Permutation_in; auto. now symmetry. }
    split; [|split; [|split]]; auto.
    - constructor; auto.
      + simpl. apply (Permutation_NoDup (Permutation_sym Hw)). auto.
      + intros n Hn. simpl in Hn. rewrite Hw' in Hn. rewrite Hcl. auto.
      + intros n Hn. apply lf_same.
      + intros n Hn. now apply Hcl.
      + intros n Hn Hc. constructor. now apply Hcl.
      + intros c n Hc Hcc Hni Hl. simpl in Hni. rewrite Hw' in Hni. rewrite Hcl in Hcc. contradiction.
    - unfold mu. rewrite (Permutation_length Hw). unfold s; simpl.
      replace (count_occ bool_dec (repeat false N) false) with N in E5; auto.
      clear. induction N; simpl; auto.
  Qed.

  Lemma tr_reach zz DD CC n : tr zz DD CC n -> reachable LK SD n.
  Proof.
    induction 1 as [s0 Hs|c n H IH Hd Hl Hc Hs Hr He|c n H IH Hd Hl Hc Hs Hr He].
    - exists s0, [s0]. split; auto. constructor.
    - destruct IH as [s0 [l [A B]]]. exists s0, (n :: l). split; auto. econstructor; eauto.
    - destruct IH as [s0 [l [A B]]]. exists s0, (n :: l). split; auto. econstructor; eauto.
  Qed.

  (** the result of the flood, for any comparisons and any addition *)
  Theorem flood_any strm fuel : N <= fuel ->
    exists out, priority_flood E fuel nb dem0 eps seed strm = Ok out /\ length out = N /\
      (forall n, In n seed -> lifted (z0 n) (nth n out d0)) /\
      (forall n, In n seed -> strm = false -> nth n out d0 = z0 n) /\
      (forall n, n < N -> ~ reachable LK SD n -> nth n out d0 = z0 n) /\
      (forall n, n < N -> reachable LK SD n -> tr (fun m => nth m out d0) (fun _ => True) (fun _ => True) n).
  Proof.
    intros Hf. destruct initA as [s0 [E0 [I0 [M0 [D0 C0]]]]].
    destruct (@loopA strm fuel s0 I0 ltac:(lia)) as [s [E1 [I [W Z]]]].
    unfold priority_flood. rewrite E0. cbn [bind]. rewrite E1. cbn [bind].
    exists (pf_dem s). split; [reflexivity|]. split; [apply I|].
    assert (CR : forall n, n < N -> cl s n <-> reachable LK SD n).
    { intros n Hn. split.
      - intros Hc. exact (tr_reach (a_tree I Hn Hc)).
      - intros [s1 [l [Hs Hp]]]. clear Hn.
        assert (G : n < N /\ cl s n); [|tauto].
        induction Hp as [|c n l Hp IH Hl].
        + split; auto. now apply (a_seed I).
        + destruct IH as [Hc Hcc]. split; [apply Hl|].
          apply (a_front I) with c; auto. simpl. rewrite W. auto. }
    split; [|split; [|split]].
    - intros n Hn. exact (a_lift I n Hn).
    - intros n Hn Hs. transitivity (z s0 n); [apply (Z Hs); now apply C0|]. unfold z. now rewrite D0.
    - intros n Hn Hr. apply (a_unclosed I Hn). rewrite CR; auto.
    - intros n Hn Hr. rewrite <- CR in Hr by auto. eapply tr_mono; [| | |exact (a_tree I Hn Hr)]; auto.
  Qed.

  (** the same for one cell: untouched, or in the forest *)
  Theorem flood_cases strm fuel out n : N <= fuel -> priority_flood E fuel nb dem0 eps seed strm = Ok out -> n < N ->
    nth n out d0 = z0 n \/ tr (fun m => nth m out d0) (fun _ => True) (fun _ => True) n.
  Proof.
    intros Hf R Hn. destruct initA as [s0 [E0 [I0 [M0 [D0 C0]]]]].
    destruct (@loopA strm fuel s0 I0 ltac:(lia)) as [s [E1 [I [W Z]]]].
    unfold priority_flood in R. rewrite E0 in R. cbn [bind] in R. rewrite E1 in R. cbn [bind] in R.
    injection R as <-. destruct (bool_dec (nth n (pf_closed s) false) true) as [Hc|Hc].
    - right. eapply tr_mono; [| | |exact (a_tree I Hn Hc)]; auto.
    - left. exact (a_unclosed I Hn Hc).
  Qed.
End Any.
