(** Lemmas about the session model (MWorld.v): calls write only to arrays they have just made. *)
From Verif Require Import Py MFlow MDir MObj MStream MSobj MWorld.
Set Implicit Arguments.
Unset Strict Implicit.
Local Open Scope nat_scope.
Local Open Scope list_scope.

Lemma get_app_old {A} (h k : list A) r c : get h r = Ok c -> get (h ++ k) r = Ok c.
Proof. rewrite !get_ok. intros H. rewrite nth_error_app1; auto. apply nth_error_Some. congruence. Qed.
Lemma get_app_new {A} (h : list A) c : get (h ++ [c]) (length h) = Ok c.
Proof. apply get_ok. now rewrite nth_error_app2, Nat.sub_diag by lia. Qed.
Lemma upd_app_new {A} (h : list A) c d : upd (h ++ [c]) (length h) d = h ++ [d].
Proof. induction h; simpl; auto. now rewrite IHh. Qed.
Lemma upd_app_old {A} (h k : list A) r d : r < length h -> upd (h ++ k) r d = upd h r d ++ k.
Proof. revert r. induction h; simpl; intros r L; [lia|]. destruct r; simpl; auto. rewrite IHh; auto. lia. Qed.

Section Keeps.
  Context {T W S : Type}.
  Notation heap := (@heap T W).
  Notation M := (@M T W S).

  (** started on a heap of at least [n] arrays, [m] leaves the first [n] alone; results satisfy [Q] *)
  Definition keeps {A} (n : nat) (m : M A) (Q : A -> Prop) : Prop :=
    forall h s h' s' x, n <= length h -> m h s = (h', s', x) ->
      length h <= length h' /\ (forall r, r < n -> nth_error h' r = nth_error h r) /\ (forall a, x = Ok a -> Q a).

  Lemma keeps_weaken {A} n (m : M A) (Q Q' : A -> Prop) : keeps n m Q -> (forall a, Q a -> Q' a) -> keeps n m Q'.
  Proof. intros H I h s h' s' x L E. destruct (H _ _ _ _ _ L E) as [? [? ?]]. auto. Qed.
  Lemma keeps_ret {A} n (x : A) (Q : A -> Prop) : Q x -> keeps n (ret x) Q.
  Proof. intros H h s h' s' y L E. inversion E; subst. repeat split; auto. intros a X. inversion X; now subst. Qed.
  Lemma keeps_fail {A} n e (Q : A -> Prop) : keeps n (fail e) Q.
  Proof. intros h s h' s' y L E. inversion E; subst. repeat split; auto. discriminate. Qed.
  Lemma keeps_bind {A B} n (m : M A) (f : A -> M B) Q Q' :
    keeps n m Q -> (forall a, Q a -> keeps n (f a) Q') -> keeps n (mbind m f) Q'.
  Proof.
    intros Hm Hf h s h' s' x L E. unfold mbind in E. destruct (m h s) as [[h1 s1] [a|e]] eqn:Em.
    - destruct (Hm _ _ _ _ _ L Em) as [L1 [K1 P1]].
      destruct (Hf a (P1 a eq_refl) _ _ _ _ _ (Nat.le_trans _ _ _ L L1) E) as [L2 [K2 P2]].
      repeat split; auto; [lia|]. intros r Hr. rewrite K2, K1; auto.
    - inversion E; subst. destruct (Hm _ _ _ _ _ L Em) as [L1 [K1 P1]]. repeat split; auto. discriminate.
  Qed.
  Lemma keeps_liftr {A} n (r : res A) : keeps n (liftr r) (fun _ => True).
  Proof. intros h s h' s' y L E. inversion E; subst. repeat split; auto. Qed.
  Lemma keeps_this n : keeps n (@this T W S) (fun _ => True).
  Proof. intros h s h' s' y L E. inversion E; subst. repeat split; auto. Qed.
  Lemma keeps_store n s0 : keeps n (@store T W S s0) (fun _ => True).
  Proof. intros h s h' s' y L E. inversion E; subst. repeat split; auto. Qed.
  Lemma keeps_read n r : keeps n (@read T W S r) (fun _ => True).
  Proof. intros h s h' s' y L E. inversion E; subst. repeat split; auto. Qed.
  Lemma keeps_alloc n c : keeps n (@alloc T W S c) (fun r => n <= r).
  Proof.
    intros h s h' s' y L E. inversion E; subst. rewrite app_length. repeat split; simpl; [lia| |].
    - intros r Hr. rewrite nth_error_app1; auto. lia.
    - intros a X. inversion X; now subst.
  Qed.
  Lemma keeps_write n r c : n <= r -> keeps n (@write T W S r c) (fun _ => True).
  Proof.
    intros Hr h s h' s' y L E. inversion E; subst. rewrite upd_length. repeat split; auto.
    intros r' Hr'. apply nth_error_upd_neq. lia.
  Qed.
  Lemma keeps_copy n r : keeps n (@copy T W S r) (fun r' => n <= r').
  Proof. apply keeps_bind with (Q := fun _ => True); [apply keeps_read|]. intros; apply keeps_alloc. Qed.
End Keeps.

Ltac keeps_tac :=
  repeat (match goal with
  | |- keeps _ (mbind (copy _) _) _ => eapply keeps_bind; [apply keeps_copy|intros ? ?]
  | |- keeps _ (mbind (alloc _) _) _ => eapply keeps_bind; [apply keeps_alloc|intros ? ?]
  | |- keeps _ (mbind (write _ _) _) _ => eapply keeps_bind; [apply keeps_write; assumption|intros ? _]
  | |- keeps _ (mbind (liftr _) _) _ => eapply keeps_bind; [apply keeps_liftr|intros ? _]
  | |- keeps _ (mbind this _) _ => eapply keeps_bind; [apply keeps_this|intros ? _]
  | |- keeps _ (mbind (store _) _) _ => eapply keeps_bind; [apply keeps_store|intros ? _]
  | |- keeps _ (mbind (read _) _) _ => eapply keeps_bind; [apply keeps_read|intros ? _]
  | |- keeps _ (mbind (mbind _ _) _) _ => eapply keeps_bind with (Q := fun _ => True); [|intros ? _]
  | |- keeps _ (mbind (match ?x with _ => _ end) _) _ => eapply keeps_bind with (Q := fun _ => True); [destruct x|intros ? _]
  | |- keeps _ (mbind (ret _) _) _ => eapply keeps_bind with (Q := fun _ => True); [apply keeps_ret; exact I|intros ? _]
  | |- keeps _ (mbind (fail _) _) _ => eapply keeps_bind with (Q := fun _ => True); [apply keeps_fail|intros ? _]
  | |- keeps _ (match ?x with _ => _ end) _ => destruct x
  | |- keeps _ (copy _) (fun _ => True) => eapply keeps_weaken; [apply keeps_copy|auto]
  | |- keeps _ (alloc _) (fun _ => True) => eapply keeps_weaken; [apply keeps_alloc|auto]
  | |- keeps _ (copy _) _ => apply keeps_copy
  | |- keeps _ (alloc _) _ => apply keeps_alloc
  | |- keeps _ (write _ _) _ => apply keeps_write; assumption
  | |- keeps _ (liftr _) _ => apply keeps_liftr
  | |- keeps _ this _ => apply keeps_this
  | |- keeps _ (store _) _ => apply keeps_store
  | |- keeps _ (read _) _ => apply keeps_read
  | |- keeps _ (fail _) _ => apply keeps_fail
  | |- keeps _ (ret _) _ => apply keeps_ret; auto
  end).

Section Calls.
  Context {T W : Type}.
  Variables (tsub tdiv : T -> T -> T) (tlt teq : T -> T -> bool) (tzero tbig : T).
  Variables (wadd : W -> W -> W) (wzero : W).
  Variables (fone : T) (fabs : T -> T) (fsum : list T -> T) (fdiv : T -> T -> option T)
            (fle0 fkeep : T -> bool).
  Variable vge : Z + W -> Z + W -> bool.
  Variables (fuel lim : nat) (ncol : Z).
  Variables (dist : nat -> nat -> T) (areas : list W) (nb0 : list (list nat)) (thr0 : T).
  Notation any := (fun _ => True).

  Section Reads.
    Context {S : Type}.
    Lemma keeps_ints n r : keeps n (@ints T W S r) any. Proof. unfold ints. keeps_tac. Qed.
    Lemma keeps_elevs n r : keeps n (@elevs T W S r) any. Proof. unfold elevs. keeps_tac. Qed.
    Lemma keeps_accs n r : keeps n (@accs T W S r) any. Proof. unfold accs. keeps_tac. Qed.
    Lemma keeps_area_vals n r : keeps n (@area_vals T W S r) any. Proof. unfold area_vals. keeps_tac. Qed.
    Lemma keeps_dict n r : keeps n (@dict T W S r) any. Proof. unfold dict. keeps_tac. Qed.
  End Reads.

  Ltac reads := repeat (keeps_tac; try match goal with
    | |- keeps _ (mbind (ints _) _) _ => eapply keeps_bind; [apply keeps_ints|intros ? _]
    | |- keeps _ (mbind (elevs _) _) _ => eapply keeps_bind; [apply keeps_elevs|intros ? _]
    | |- keeps _ (mbind (accs _) _) _ => eapply keeps_bind; [apply keeps_accs|intros ? _]
    | |- keeps _ (mbind (area_vals _) _) _ => eapply keeps_bind; [apply keeps_area_vals|intros ? _]
    | |- keeps _ (mbind (dict _) _) _ => eapply keeps_bind; [apply keeps_dict|intros ? _]
    | |- keeps _ (ints _) _ => apply keeps_ints
    | |- keeps _ (elevs _) _ => apply keeps_elevs
    | |- keeps _ (dict _) _ => apply keeps_dict
    end).

  Lemma keeps_fdir n : keeps n (@w_fdir T W) any.
  Proof. unfold w_fdir. reads. Qed.
  Lemma keeps_reverse n : keeps n (@w_reverse T W) any.
  Proof.
    unfold w_reverse. reads. eapply keeps_bind; [apply keeps_fdir|intros ? _]. reads.
  Qed.
  Lemma keeps_watershed_into n z c : n <= z -> keeps n (@w_watershed_into T W fuel z c) any.
  Proof.
    intros L. unfold w_watershed_into. eapply keeps_bind; [apply keeps_reverse|intros ? _].
    eapply keeps_bind; [apply keeps_fdir|intros ? _]. reads.
  Qed.
  Lemma keeps_sub_loop n z cs idxs : n <= z -> keeps n (@w_sub_loop T W fuel z cs idxs) any.
  Proof.
    intros L. induction idxs as [|i idxs IH]; simpl; reads.
    eapply keeps_bind; [now apply keeps_watershed_into|intros ? _]. apply IH.
  Qed.

  Lemma keeps_fcall n c :
    keeps n (w_fcall tsub tdiv tlt teq tzero tbig wadd wzero fuel lim dist c) any.
  Proof.
    destruct c; simpl.
    - unfold w_flow_directions. reads.
    - apply keeps_fdir.
    - reads.
    - reads.
    - reads.
    - unfold w_nidp. eapply keeps_bind; [apply keeps_fdir|intros ? _]. reads.
    - unfold w_accumulation. eapply keeps_bind; [apply keeps_fdir|intros ? _]. reads.
    - unfold w_watershed. eapply keeps_bind; [apply keeps_reverse|intros ? _].
      eapply keeps_bind; [apply keeps_fdir|intros ? _]. reads.
      eapply keeps_bind; [now apply keeps_watershed_into|intros ? _]. reads.
    - unfold w_subbasins. reads.
      eapply keeps_bind; [now apply keeps_sub_loop|intros ? _]. reads.
  Qed.

  Lemma keeps_pick n a : keeps n (@w_pick T W a) any.
  Proof. unfold w_pick. reads. Qed.
  Lemma keeps_run6 n a : keeps n (@w_run6 T W lim a) any.
  Proof. unfold w_run6. eapply keeps_bind; [apply keeps_pick|intros ? _]. reads. Qed.
  Lemma keeps_run2005 n a b : keeps n (@w_run2005 T W fuel lim a b) any.
  Proof. unfold w_run2005. eapply keeps_bind; [apply keeps_pick|intros ? _]. reads. Qed.
  Lemma keeps_graph_of n g : keeps n (@w_graph_of T W g) any.
  Proof. unfold w_graph_of. destruct g; reads. Qed.
  Lemma keeps_top n tp : keeps n (@w_top T W tp) any.
  Proof. unfold w_top. destruct tp; reads. Qed.
  Lemma keeps_segs n a b : keeps n (@w_segs T W fuel lim a b) any.
  Proof.
    unfold w_segs. eapply keeps_bind; [apply keeps_pick|intros ? _]. reads.
    eapply keeps_bind; [apply keeps_run2005|intros ? _]. reads.
  Qed.
  Lemma keeps_prms n a b : keeps n (@w_prms_connect T W fuel lim a b) any.
  Proof. unfold w_prms_connect. destruct b; [apply keeps_run2005|apply keeps_run6]. Qed.

  Ltac go := repeat (reads; try match goal with
    | |- keeps _ (mbind (w_pick _) _) _ => eapply keeps_bind; [apply keeps_pick|intros ? _]
    | |- keeps _ (mbind (w_run6 _ _) _) _ => eapply keeps_bind; [apply keeps_run6|intros ? _]
    | |- keeps _ (mbind (w_run2005 _ _ _ _) _) _ => eapply keeps_bind; [apply keeps_run2005|intros ? _]
    | |- keeps _ (mbind (w_graph_of _) _) _ => eapply keeps_bind; [apply keeps_graph_of|intros ? _]
    | |- keeps _ (mbind (w_top _) _) _ => eapply keeps_bind; [apply keeps_top|intros ? _]
    | |- keeps _ (mbind (w_segs _ _ _ _) _) _ => eapply keeps_bind; [apply keeps_segs|intros ? _]
    | |- keeps _ (mbind (w_prms_connect _ _ _ _) _) _ => eapply keeps_bind; [apply keeps_prms|intros ? _]
    | |- keeps _ (w_graph_of _) _ => apply keeps_graph_of
    | |- keeps _ (w_pick _) _ => apply keeps_pick
    | |- keeps _ (w_run6 _ _) _ => apply keeps_run6
    end).

  Lemma keeps_delineate n c b : keeps n (@w_delineate T W vge c b) (fun r => n <= r).
  Proof.
    unfold w_delineate. reads.
    eapply keeps_bind with (Q := any).
    { unfold w_threshold. destruct c; reads. }
    intros ? _. reads.
  Qed.

  Lemma keeps_scall n k tp fa c :
    keeps n (w_scall tsub tdiv tlt tzero tbig fone fabs fsum fdiv fle0 fkeep vge fuel lim ncol dist k tp fa c) any.
  Proof.
    assert (HV : forall a b, keeps n (@w_vectors T W fuel lim a b) any).
    { intros a b. unfold w_vectors. eapply keeps_bind with (Q := any); [destruct a; go|]. intros ? _. go. }
    assert (HD : forall a b, keeps n (mbind (@w_delineate T W vge a b) (fun r => ret (@ARef T r))) any).
    { intros. eapply keeps_bind; [apply keeps_delineate|]. intros; reads. }
    assert (HS : forall a, keeps n (mbind (@w_set T W a) (fun _ => ret (@ANothing T))) any).
    { intros. unfold w_set. eapply keeps_bind with (Q := any); [reads|]. intros; reads. }
    assert (HC : keeps n (mbind (@w_pick T W None) (fun r => mbind (copy r) (fun r' => ret (@ARef T r')))) any) by go.
    destruct k, c; cbn [w_scall]; auto using keeps_fail; go.
    - unfold w_conndata. go.
    - unfold w_pkgdata. go.
    - unfold w_segdata. go.
    - unfold w_reachdata. go.
    - unfold w_irunbnd. go.
    - unfold w_cascades. go.
      all: eapply keeps_bind with (Q := any); [unfold opt_ints; destruct basin; go|intros ? _]; go.
  Qed.

  Lemma keeps_fill n g d : keeps n (@w_fill T W g d) any.
  Proof. unfold w_fill. reads. Qed.
  Lemma keeps_new_flow n t d b : keeps n (w_new_flow tlt teq tbig areas nb0 t d b) any.
  Proof. unfold w_new_flow. reads. Qed.

  Notation step := (step tsub tdiv tlt teq tzero tbig wadd wzero fone fabs fsum fdiv fle0 fkeep vge fuel lim ncol
                         dist areas nb0 thr0).

  Lemma step_keeps w c w' x : step w c = (w', x) -> (forall r e, c <> Edit r e) ->
    length (w_heap w) <= length (w_heap w') /\
    forall r a, nth_error (w_heap w) r = Some a -> nth_error (w_heap w') r = Some a.
  Proof.
    destruct w as [h tp fs ss]. intros E NE.
    assert (Happ : forall c0, length h <= length (h ++ [c0]) /\
                   forall r (a : cell), nth_error h r = Some a -> nth_error (h ++ [c0]) r = Some a).
    { intros c0. rewrite app_length. split; [lia|]. intros r a Hr. rewrite nth_error_app1; auto.
      apply nth_error_Some. congruence. }
    assert (Hk : forall S A (m : M S A) Q s h' s' y, keeps (length h) m Q -> m h s = (h', s', y) ->
              length h <= length h' /\ forall r a, nth_error h r = Some a -> nth_error h' r = Some a).
    { intros S A m Q s h' s' y K Em. destruct (K _ _ _ _ _ (le_n _) Em) as [L [K1 _]]. split; auto.
      intros r a Hr. rewrite K1; auto. apply nth_error_Some. congruence. }
    destruct c; simpl in E.
    - inversion E; subst. apply Happ.
    - exfalso. eapply NE; reflexivity.
    - destruct (w_fill g dem h tt) as [[h1 s1] y] eqn:Em. inversion E; subst. simpl. eapply Hk; eauto. apply keeps_fill.
    - destruct (w_new_flow tlt teq tbig areas nb0 thr0 dem check h tt) as [[h1 s1] [y|y]] eqn:Em;
        inversion E; subst; simpl; (eapply Hk; eauto; apply keeps_new_flow).
    - destruct (nth_error fs i) as [f|]; [|inversion E; subst; simpl; auto].
      destruct (w_fcall _ _ _ _ _ _ _ _ _ _ _ c h f) as [[h1 s1] y] eqn:Em. inversion E; subst. simpl.
      eapply Hk; eauto. apply keeps_fcall.
    - destruct (nth_error fs i) as [f|]; [|inversion E; subst; simpl; auto].
      destruct (get h (f_dem f)) as [d|]; [|inversion E; subst; simpl; auto].
      destruct (f_fdir f); [destruct (f_acc f)|]; inversion E; subst; simpl; apply Happ.
    - destruct (nth_error ss j) as [s|]; [|inversion E; subst; simpl; auto].
      destruct (args_ok h c); [|inversion E; subst; simpl; auto].
      destruct (w_scall _ _ _ _ _ _ _ _ _ _ _ _ _ _ _ _ _ _ _ c h s) as [[h1 s1] y] eqn:Em.
      inversion E; subst. simpl. eapply Hk; eauto. apply keeps_scall.
    - destruct tp as [r|]; [|inversion E; subst; simpl; auto].
      destruct (get h r) as [d|]; inversion E; subst; simpl; auto.
  Qed.
End Calls.
