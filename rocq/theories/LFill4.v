(** Drain fill against the spill elevation; heap histories. *)
From Coq Require Import String.
From Verif Require Import Py Spec MHeap LHeap MFill LFill LDrain LEdge LFill2 LFill3.
Set Implicit Arguments.
Local Open Scope nat_scope.
Local Open Scope list_scope.
Local Notation length := List.length.

Section DrainSpill.
  Context {T : Type} (E : elev T) (ok : T -> Prop) (rk : T -> Z).
  Variables (nb : list (list nat)) (dem out : list T) (eps : T) (rim : nat -> Prop).
  Notation N := (length dem).
  Hypothesis LAWS : elev_laws E ok rk eps.
  Hypothesis okdem : Forall ok dem.
  Hypothesis okout : Forall ok out.
  Hypothesis Lout : length out = N.
  Hypothesis Hrim : forall n, rim n -> nth_error out n = nth_error dem n.
  Hypothesis Hfix : forall c w x y y', nth_error dem c = Some x -> nth_error out c = Some y -> adjacent nb c w ->
        nth_error out w = Some y' -> e_le E y x = true \/ e_le E y (e_add E y' eps) = true.

  Lemma nth_ok l n x : Forall ok l -> nth_error l n = Some x -> ok x.
  Proof. intros H Hn. rewrite Forall_forall in H. apply H. eapply nth_error_In; eauto. Qed.

  Lemma at_ge k x : ok x -> (rk x <= rk (add_times E eps k x))%Z.
  Proof. intros Hx. induction k; simpl; [lia|]. assert (X := l_up LAWS _ (ok_at LAWS k x Hx)). lia. Qed.

  Lemma drain_upper v s n l : ok v -> rim s -> s < N ->
    gpath (fun w n => adjacent nb n w /\ n < N) s n l ->
    (forall m x, In m l -> nth_error dem m = Some x -> e_le E x v = true) ->
    n < N /\ forall y, nth_error out n = Some y -> (rk y <= rk (add_times E eps (length l) v))%Z.
  Proof.
    intros Hv Hs HsN Hp. induction Hp as [|w n l Hp IH Hl]; intros Hall.
    - split; auto. intros y Hy. rewrite Hrim in Hy by auto.
      assert (X := Hall s y (or_introl eq_refl) Hy). assert (O := nth_ok _ okdem Hy).
      rewrite (l_le LAWS) in X by auto. apply Z.leb_le in X. simpl. assert (Y := l_up LAWS _ Hv). lia.
    - destruct Hl as [Ha Hn]. split; auto. intros y Hy.
      destruct IH as [Hw IH]. { intros m x Hm. apply Hall. now right. }
      destruct (nth_error out w) as [y'|] eqn:Ew.
      2:{ apply nth_error_None in Ew. lia. }
      destruct (nth_error dem n) as [x|] eqn:Ex.
      2:{ apply nth_error_None in Ex. lia. }
      assert (Ox := nth_ok _ okdem Ex). assert (Oy := nth_ok _ okout Hy). assert (Oy' := nth_ok _ okout Ew).
      specialize (IH y' eq_refl).
      assert (Hxv := Hall n x (or_introl eq_refl) Ex).
      rewrite (l_le LAWS) in Hxv by auto. apply Z.leb_le in Hxv.
      assert (Oat := ok_at LAWS (length l) v Hv).
      destruct (@Hfix _ _ _ _ _ Ex Hy Ha Ew) as [H|H]; rewrite (l_le LAWS) in H; auto; try (apply (l_ok LAWS); auto);
        apply Z.leb_le in H; simpl.
      + assert (X := at_ge (length l) Hv).
        assert (Y := l_up LAWS _ Oat). lia.
      + assert (X := l_mono LAWS _ _ Oy' Oat IH). lia.
  Qed.

  Lemma at_null (Hnull : eps_null E ok eps) k x : ok x -> rk (add_times E eps k x) = rk x.
  Proof.
    intros Hx. induction k; simpl; auto. rewrite <- IHk.
    assert (O := ok_at LAWS k x Hx). assert (X := Hnull _ O).
    rewrite (l_eq LAWS) in X; [now apply Z.eqb_eq in X|apply (l_ok LAWS)|]; auto.
  Qed.

  (** with eps = 0 every path has a cell at least as high as the result *)
  Lemma drain_low (Hnull : eps_null E ok eps) s n l y : rim s -> s < N ->
    gpath (fun w n => adjacent nb n w /\ n < N) s n l -> nth_error out n = Some y ->
    exists m x, In m l /\ nth_error dem m = Some x /\ e_le E y x = true.
  Proof.
    intros Hs HsN Hp. revert y. assert (G : n < N /\ forall y, nth_error out n = Some y ->
      exists m x, In m l /\ nth_error dem m = Some x /\ e_le E y x = true); [|apply G].
    induction Hp as [|w n l Hp IH Hl].
    - split; auto. intros y Hy. exists s, y. rewrite Hrim in Hy by auto. split; [now left|]. split; auto.
      assert (O := nth_ok _ okdem Hy). rewrite (l_le LAWS) by auto. apply Z.leb_le. lia.
    - destruct Hl as [Ha Hn]. split; auto. intros y Hy. destruct IH as [Hw IH].
      destruct (nth_error out w) as [y'|] eqn:Ew.
      2:{ apply nth_error_None in Ew. lia. }
      destruct (nth_error dem n) as [x|] eqn:Ex.
      2:{ apply nth_error_None in Ex. lia. }
      assert (Ox := nth_ok _ okdem Ex). assert (Oy := nth_ok _ okout Hy). assert (Oy' := nth_ok _ okout Ew).
      destruct (@Hfix _ _ _ _ _ Ex Hy Ha Ew) as [H|H].
      + exists n, x. split; [now left|auto].
      + destruct (IH y' eq_refl) as [m [x' [Hm [Hx' Hle]]]]. exists m, x'. split; [now right|]. split; auto.
        assert (Ox' := nth_ok _ okdem Hx').
        rewrite (l_le LAWS) in *; auto; try (apply (l_ok LAWS); auto). apply Z.leb_le in H, Hle.
        assert (X := at_null Hnull 1 Oy'). simpl in X. apply Z.leb_le. lia.
  Qed.

  (** a drained cell has a path below the result *)
  Lemma drain_path (Hge : Forall2 (fun x y => e_le E x y = true) dem out) n :
    (forall s, rim s -> s < N) ->
    drains (fun x y => e_le E (e_add E x eps) y) (fun w n => adjacent nb n w) rim out n -> n < N /\
    exists s l, rim s /\ gpath (fun w n => adjacent nb n w /\ n < N) s n l /\
      forall m x y, In m l -> nth_error dem m = Some x -> nth_error out n = Some y -> (rk x <= rk y)%Z.
  Proof.
    intros Hlt.
    assert (Hge' : forall n x y, nth_error dem n = Some x -> nth_error out n = Some y -> (rk x <= rk y)%Z).
    { intros m x y Hx Hy. assert (X : e_le E x y = true).
      { clear - Hge Hx Hy. revert m Hx Hy. induction Hge; intros [|m] Hx Hy; simpl in *; try discriminate.
        - congruence. - eauto. }
      assert (O1 := nth_ok _ okdem Hx). assert (O2 := nth_ok _ okout Hy).
      rewrite (l_le LAWS) in X by auto. now apply Z.leb_le. }
    induction 1 as [s Hs|w n y' y Hd IH Ha Hw Hn Hle].
    - split; auto. exists s, [s]. split; auto. split; [constructor|].
      intros m x y [<-|[]] Hx Hy. eapply Hge'; eauto.
    - destruct IH as [HwN [s [l [Hs [Hp Hall]]]]].
      assert (HnN : n < N) by (rewrite <- Lout; apply nth_error_Some; congruence).
      split; auto. exists s, (n :: l). split; auto. split; [econstructor; eauto|].
      intros m x y2 Hm Hx Hy2. assert (y2 = y) by congruence. subst y2.
      destruct Hm as [<-|Hm]; [eapply Hge'; eauto|].
      assert (X := Hall m x y' Hm Hx Hw). assert (Oy' := nth_ok _ okout Hw). assert (Oy := nth_ok _ okout Hn).
      rewrite (l_le LAWS) in Hle; auto; [|apply (l_ok LAWS); auto]. apply Z.leb_le in Hle.
      assert (Y := l_up LAWS _ Oy'). lia.
  Qed.
End DrainSpill.

Lemma gpath_sub (E F : nat -> nat -> Prop) s n l : (forall a b, E a b -> F a b) ->
  gpath E s n l -> gpath F s n l.
Proof. intros H. induction 1; [constructor|econstructor; eauto]. Qed.

(** ** histories of the priority queue *)
Section PQ.
  Context {A : Type} (lt : A -> A -> bool) (P : A -> Prop).
  Hypothesis lt_le : forall x y, P x -> P y -> lt x y = true -> lt y x = false.
  Hypothesis le_trans : forall x y z, P x -> P y -> P z -> lt y x = false -> lt z y = false -> lt z x = false.
  Hypothesis le_refl : forall x, P x -> lt x x = false.

  Lemma heap_history_spec ops : forall h pend,
    Forall (fun o => match o with Some x => P x | None => True end) ops ->
    heap lt h -> Pall P h -> Permutation h pend -> pq_spec lt ops pend (heap_history lt ops h).
  Proof.
    induction ops as [|[x|] ops IH]; intros h pend Hops Hh HP Hperm; simpl; inversion Hops; subst.
    - constructor.
    - constructor. apply IH; auto.
      + apply push_heap with (P := P); auto.
      + unfold Pall. rewrite (push_perm lt h x). constructor; auto.
      + rewrite push_perm. now constructor.
    - destruct (heappop lt h) as [[x h']|] eqn:Eh.
      + destruct (pop_spec lt_le le_trans le_refl Eh Hh HP) as [P1 [P2 P3]].
        apply pq_pop with h'.
        * now rewrite <- Hperm.
        * intros y Hy. rewrite Forall_forall in P3. apply P3. apply (Permutation_in _ (Permutation_sym Hperm)). auto.
        * apply IH; auto. unfold Pall in *. rewrite P1 in HP. now inversion HP.
      + apply pop_none in Eh. subst h. apply Permutation_nil in Hperm. subst pend.
        constructor. apply IH; auto.
  Qed.
End PQ.
