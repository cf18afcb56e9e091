(** Which arrays the objects of a session (MWorld.v) hold, and what a call may add to them. *)
From Verif Require Import Py MFlow MDir MObj MStream MSobj MWorld LWorld LWorld2 LWorld3 LWorld4.
Set Implicit Arguments.
Unset Strict Implicit.
Local Open Scope nat_scope.
Local Open Scope list_scope.
Local Arguments mbind : simpl never.

(** the arrays and dictionaries an object keeps as attributes *)
Definition holds_f {T} (f : @flow T) (r : ref) : Prop :=
  r = f_dem f \/ r = f_area f \/ f_fdir f = Some r \/ f_acc f = Some r.
Definition holds_s (s : strm) (r : ref) : Prop :=
  r = s_fdir s \/ r = s_facc s \/ s_strm s = Some r \/ s_graph s = Some (inl r) \/ s_seg s = Some r.

Section Logic.
  Context {T W S : Type}.
  Notation M := (@M T W S).

  (** started with at least [n] arrays and attributes in [I], [m] ends so, with a result in [Q] *)
  Definition kp {A} (n : nat) (I : S -> Prop) (m : M A) (Q : A -> Prop) : Prop :=
    forall h s h' s' x, n <= length h -> I s -> m h s = (h', s', x) ->
      n <= length h' /\ I s' /\ (forall a, x = Ok a -> Q a).

  Lemma kp_weaken {A} n I (m : M A) (Q Q' : A -> Prop) : kp n I m Q -> (forall a, Q a -> Q' a) -> kp n I m Q'.
  Proof. intros H J h s h' s' x L P E. destruct (H _ _ _ _ _ L P E) as [? [? ?]]. auto. Qed.
  Lemma kp_ret {A} n I (x : A) (Q : A -> Prop) : Q x -> kp n I (ret x) Q.
  Proof. intros H h s h' s' y L P E. inversion E; subst. repeat split; auto. intros a X. inversion X; now subst. Qed.
  Lemma kp_fail {A} n I e (Q : A -> Prop) : kp n I (fail e) Q.
  Proof. intros h s h' s' y L P E. inversion E; subst. repeat split; auto. discriminate. Qed.
  Lemma kp_bind {A B} n I (m : M A) (f : A -> M B) Q Q' :
    kp n I m Q -> (forall a, Q a -> kp n I (f a) Q') -> kp n I (mbind m f) Q'.
  Proof.
    intros Hm Hf h s h' s' x L P E. unfold mbind in E. destruct (m h s) as [[h1 s1] [a|e]] eqn:Em.
    - destruct (Hm _ _ _ _ _ L P Em) as [L1 [K1 P1]]. exact (Hf a (P1 a eq_refl) _ _ _ _ _ L1 K1 E).
    - inversion E; subst. destruct (Hm _ _ _ _ _ L P Em) as [L1 [K1 P1]]. repeat split; auto. discriminate.
  Qed.
  Lemma kp_liftr {A} n I (r : res A) : kp n I (liftr r) (fun _ => True).
  Proof. intros h s h' s' y L P E. inversion E; subst. repeat split; auto. Qed.
  Lemma kp_this n I : kp n I (@this T W S) I.
  Proof. intros h s h' s' y L P E. inversion E; subst. repeat split; auto. intros a X. inversion X; now subst. Qed.
  Lemma kp_store n (I : S -> Prop) s0 : I s0 -> kp n I (@store T W S s0) (fun _ => True).
  Proof. intros H h s h' s' y L P E. inversion E; subst. repeat split; auto. Qed.
  Lemma kp_read n I r : kp n I (@read T W S r) (fun _ => True).
  Proof. intros h s h' s' y L P E. inversion E; subst. repeat split; auto. Qed.
  Lemma kp_alloc n I c : kp n I (@alloc T W S c) (fun r => n <= r).
  Proof.
    intros h s h' s' y L P E. inversion E; subst. rewrite app_length. repeat split; simpl; auto; [lia|].
    intros a X. inversion X; now subst.
  Qed.
  Lemma kp_write n I r c : kp n I (@write T W S r c) (fun _ => True).
  Proof. intros h s h' s' y L P E. inversion E; subst. rewrite upd_length. repeat split; auto. Qed.
  Lemma kp_copy n I r : kp n I (@copy T W S r) (fun r' => n <= r').
  Proof. apply kp_bind with (Q := fun _ => True); [apply kp_read|]. intros; apply kp_alloc. Qed.
  Lemma kp_ints n I r : kp n I (@ints T W S r) (fun _ => True).
  Proof. eapply kp_bind; [apply kp_read|intros; apply kp_liftr]. Qed.
  Lemma kp_elevs n I r : kp n I (@elevs T W S r) (fun _ => True).
  Proof. eapply kp_bind; [apply kp_read|intros; apply kp_liftr]. Qed.
  Lemma kp_accs n I r : kp n I (@accs T W S r) (fun _ => True).
  Proof. eapply kp_bind; [apply kp_read|intros; apply kp_liftr]. Qed.
  Lemma kp_area_vals n I r : kp n I (@area_vals T W S r) (fun _ => True).
  Proof. eapply kp_bind; [apply kp_read|intros; apply kp_liftr]. Qed.
  Lemma kp_dict n I r : kp n I (@dict T W S r) (fun _ => True).
  Proof. eapply kp_bind; [apply kp_read|intros; apply kp_liftr]. Qed.
  Lemma kp_opt_ints n I r : kp n I (@opt_ints T W S r) (fun _ => True).
  Proof.
    destruct r; simpl; [|now apply kp_ret]. eapply kp_bind; [apply kp_ints|intros; now apply kp_ret].
  Qed.
End Logic.

(** [fin] solves the obligations of stores *)
Ltac kp_go fin :=
  repeat (match goal with
  | |- kp _ _ (mbind (copy _) _) _ => eapply kp_bind; [apply kp_copy|intros ? ?]
  | |- kp _ _ (mbind (alloc _) _) _ => eapply kp_bind; [apply kp_alloc|intros ? ?]
  | |- kp _ _ (mbind (write _ _) _) _ => eapply kp_bind; [apply kp_write|intros ? _]
  | |- kp _ _ (mbind (liftr _) _) _ => eapply kp_bind; [apply kp_liftr|intros ? _]
  | |- kp _ _ (mbind this _) _ => eapply kp_bind; [apply kp_this|intros ? ?]
  | |- kp _ _ (mbind (store _) _) _ => eapply kp_bind; [apply kp_store; solve [fin]|intros ? _]
  | |- kp _ _ (mbind (read _) _) _ => eapply kp_bind; [apply kp_read|intros ? _]
  | |- kp _ _ (mbind (ints _) _) _ => eapply kp_bind; [apply kp_ints|intros ? _]
  | |- kp _ _ (mbind (elevs _) _) _ => eapply kp_bind; [apply kp_elevs|intros ? _]
  | |- kp _ _ (mbind (accs _) _) _ => eapply kp_bind; [apply kp_accs|intros ? _]
  | |- kp _ _ (mbind (area_vals _) _) _ => eapply kp_bind; [apply kp_area_vals|intros ? _]
  | |- kp _ _ (mbind (dict _) _) _ => eapply kp_bind; [apply kp_dict|intros ? _]
  | |- kp _ _ (mbind (opt_ints _) _) _ => eapply kp_bind; [apply kp_opt_ints|intros ? _]
  | |- kp _ _ (mbind (mbind _ _) _) _ => eapply kp_bind with (Q := fun _ => True); [|intros ? _]
  | |- kp _ _ (mbind (match ?x with _ => _ end) _) _ => eapply kp_bind with (Q := fun _ => True); [destruct x|intros ? _]
  | |- kp _ _ (mbind (ret _) _) _ => eapply kp_bind with (Q := fun _ => True); [apply kp_ret; exact I|intros ? _]
  | |- kp _ _ (mbind (fail _) _) _ => eapply kp_bind with (Q := fun _ => True); [apply kp_fail|intros ? _]
  | |- kp _ _ (match ?x with _ => _ end) _ => destruct x
  | |- kp _ _ (copy _) (fun _ => True) => eapply kp_weaken; [apply kp_copy|auto]
  | |- kp _ _ (alloc _) (fun _ => True) => eapply kp_weaken; [apply kp_alloc|auto]
  | |- kp _ _ (copy _) _ => apply kp_copy
  | |- kp _ _ (alloc _) _ => apply kp_alloc
  | |- kp _ _ (write _ _) _ => apply kp_write
  | |- kp _ _ (liftr _) _ => apply kp_liftr
  | |- kp _ _ this _ => apply kp_this
  | |- kp _ _ (store _) _ => apply kp_store; solve [fin]
  | |- kp _ _ (read _) _ => apply kp_read
  | |- kp _ _ (ints _) _ => apply kp_ints
  | |- kp _ _ (elevs _) _ => apply kp_elevs
  | |- kp _ _ (dict _) _ => apply kp_dict
  | |- kp _ _ (fail _) _ => apply kp_fail
  | |- kp _ _ (ret _) _ => apply kp_ret; solve [auto]
  end).

Section Calls.
  Context {T W : Type}.
  Variables (tsub tdiv : T -> T -> T) (tlt teq : T -> T -> bool) (tzero tbig : T).
  Variables (wadd : W -> W -> W) (wzero : W).
  Variables (fone : T) (fabs : T -> T) (fsum : list T -> T) (fdiv : T -> T -> option T)
            (fle0 fkeep : T -> bool).
  Variable vge : Z + W -> Z + W -> bool.
  Variables (fuel lim : nat) (ncol : Z).
  Variables (dist : nat -> nat -> T) (areas : list W) (nb0 : list (list nat)) (thr0 : T).
  Notation any := (fun _ => True).
  Notation flow := (@flow T).
  Notation fcall_in := (w_fcall tsub tdiv tlt teq tzero tbig wadd wzero fuel lim dist).
  Notation scall_in := (w_scall tsub tdiv tlt tzero tbig fone fabs fsum fdiv fle0 fkeep vge fuel lim ncol dist).

  (** ** FlowDirections objects *)
  Definition fgrown (n : nat) (f0 f : flow) : Prop := forall r, holds_f f r -> holds_f f0 r \/ n <= r.
  (** everything but the reverse flow directions is as before *)
  Definition fsame (f0 f : flow) : Prop :=
    f_dem f = f_dem f0 /\ f_area f = f_area f0 /\ f_mins f = f_mins f0 /\ f_nb f = f_nb f0 /\ f_thr f = f_thr f0 /\
    f_fdir f = f_fdir f0 /\ f_acc f = f_acc f0.
  (** the elevations, neighbours and burn threshold are as before *)
  Definition slopes_same (f0 f : flow) : Prop :=
    f_dem f = f_dem f0 /\ f_nb f = f_nb f0 /\ f_thr f = f_thr f0.

  Lemma fsame_grown n f0 f : fsame f0 f -> fgrown n f0 f.
  Proof. intros (A & B & C & D & E & F & G) r. unfold holds_f. rewrite A, B, F, G. auto. Qed.

  Ltac fsame_tac := match goal with H : fsame _ _ |- _ => destruct H as (?&?&?&?&?&?&?) end; repeat split; simpl; congruence.

  Lemma kp_fdir n (I : flow -> Prop) : kp n I (@w_fdir T W) any.
  Proof. unfold w_fdir. kp_go idtac. Qed.
  Lemma kp_reverse n f0 : kp n (fsame f0) (@w_reverse T W) any.
  Proof.
    unfold w_reverse. kp_go fsame_tac. eapply kp_bind; [apply kp_fdir|intros ? _]. kp_go fsame_tac.
  Qed.
  Lemma kp_watershed_into n f0 z c : kp n (fsame f0) (@w_watershed_into T W fuel z c) any.
  Proof.
    unfold w_watershed_into. eapply kp_bind; [apply kp_reverse|intros ? _].
    eapply kp_bind; [apply kp_fdir|intros ? _]. kp_go fsame_tac.
  Qed.
  Lemma kp_sub_loop n f0 z cs idxs : kp n (fsame f0) (@w_sub_loop T W fuel z cs idxs) any.
  Proof.
    induction idxs as [|i idxs IH]; simpl; kp_go fsame_tac.
    eapply kp_bind; [apply kp_watershed_into|intros ? _]. apply IH.
  Qed.

  (** get_nidp, get_watershed_boundary and get_subbasins return new arrays *)
  Definition maps (c : @fcommand T) : Prop :=
    match c with WNidp | WWatershed _ | WSubbasins _ => True | _ => False end.
  Lemma kp_maps n f0 c : maps c -> kp n (fsame f0) (fcall_in c) (fun r => n <= r).
  Proof. clear.
    destruct c; simpl; try tauto; intros _.
    - unfold w_nidp. eapply kp_bind; [apply kp_fdir|intros ? _]. kp_go fsame_tac.
    - unfold w_watershed. eapply kp_bind; [apply kp_reverse|intros ? _].
      eapply kp_bind; [apply kp_fdir|intros ? _]. kp_go fsame_tac.
      eapply kp_bind; [apply kp_watershed_into|intros ? _]. kp_go fsame_tac.
    - unfold w_subbasins. kp_go fsame_tac.
      eapply kp_bind; [apply kp_sub_loop|intros ? _]. kp_go fsame_tac.
  Qed.

  Definition getter (c : @fcommand T) : Prop :=
    match c with WFlowDirectionArray | WFlowAccumulationArray | WDem | WArea => True | _ => False end.
  Lemma kp_getter n f0 c : getter c -> kp n (eq f0) (fcall_in c) (fun r => holds_f f0 r).
  Proof.
    intros G h s h' s' x L <- E. unfold holds_f.
    destruct c; simpl in G; try tauto; simpl in E; unfold w_fdir in E; rewrite ?do_this in E.
    - destruct (f_fdir f0) eqn:Ed; inversion E; subst; repeat split; auto; intros a X; inversion X; subst; auto.
    - destruct (f_acc f0) eqn:Ed; inversion E; subst; repeat split; auto; intros a X; inversion X; subst; auto.
    - inversion E; subst; repeat split; auto; intros a X; inversion X; subst; auto.
    - inversion E; subst; repeat split; auto; intros a X; inversion X; subst; auto.
  Qed.

  Ltac fgrown_tac := idtac;
    match goal with H : fgrown _ _ _ |- _ =>
      unfold fgrown, holds_f in *; simpl; intros ? [? | [? | [? | ?]]]; subst;
      repeat match goal with X : Some _ = Some _ |- _ => inversion X; subst; clear X end; try discriminate; eauto 8
    end.
  Lemma kp_grown n f0 c : kp n (fgrown n f0) (fcall_in c) any.
  Proof.
    assert (R : kp n (fgrown n f0) (@w_reverse T W) any).
    { unfold w_reverse. kp_go fgrown_tac. eapply kp_bind; [apply kp_fdir|intros ? _]. kp_go fgrown_tac. }
    assert (WI : forall z c, kp n (fgrown n f0) (@w_watershed_into T W fuel z c) any).
    { intros z c'. unfold w_watershed_into. eapply kp_bind; [apply R|intros ? _].
      eapply kp_bind; [apply kp_fdir|intros ? _]. kp_go fgrown_tac. }
    destruct c; simpl.
    - unfold w_flow_directions. kp_go fgrown_tac.
    - apply kp_fdir.
    - kp_go fgrown_tac.
    - kp_go fgrown_tac.
    - kp_go fgrown_tac.
    - unfold w_nidp. eapply kp_bind; [apply kp_fdir|intros ? _]. kp_go fgrown_tac.
    - unfold w_accumulation. eapply kp_bind; [apply kp_fdir|intros ? _]. kp_go idtac.
      eapply kp_bind; [apply kp_store|intros ? _; kp_go idtac].
      destruct as_cells; fgrown_tac.
    - unfold w_watershed. eapply kp_bind; [apply R|intros ? _].
      eapply kp_bind; [apply kp_fdir|intros ? _]. kp_go fgrown_tac.
      eapply kp_bind; [apply WI|intros ? _]. kp_go fgrown_tac.
    - unfold w_subbasins. kp_go fgrown_tac.
      eapply kp_bind with (Q := any); [|intros ? _; kp_go fgrown_tac].
      match goal with |- kp _ _ (w_sub_loop _ _ _ ?l) _ => induction l as [|i l IH] end; simpl; kp_go fgrown_tac.
      eapply kp_bind; [apply WI|intros ? _]. apply IH.
  Qed.

  (** only flow_directions changes what the slopes are computed from *)
  Lemma kp_slopes n f0 c : (forall t ts, c <> WFlowDirections t ts) -> kp n (slopes_same f0) (fcall_in c) any.
  Proof. clear.
    intros N.
    assert (Hf : forall c, maps c -> kp n (slopes_same f0) (fcall_in c) any).
    { intros c' Hc h s h' s' x L P E.
      assert (Hs : fsame s s) by repeat split.
      destruct (@kp_maps n s c' Hc h s h' s' x L Hs E) as (A & (B1 & _ & _ & B2 & B3 & _) & _).
      split; auto. split; auto. destruct P as (P1 & P2 & P3). repeat split; congruence. }
    destruct c; try (now apply Hf); simpl.
    - exfalso. eapply N; reflexivity.
    - apply kp_fdir.
    - kp_go idtac.
    - kp_go idtac.
    - kp_go idtac.
    - unfold w_accumulation. eapply kp_bind; [apply kp_fdir|intros ? _]. 
      kp_go ltac:(match goal with H : slopes_same _ _ |- _ => destruct H as (?&?&?) end; repeat split; simpl; congruence).
  Qed.

  (** flow_directions and flow_accumulation store the array they return *)
  Lemma fcall_stored c h f h' f' r : fcall_in c h f = (h', f', Ok r) ->
    match c with
    | WFlowDirections _ _ | WFlowDirectionArray => f_fdir f' = Some r
    | WAccumulation _ | WFlowAccumulationArray => f_acc f' = Some r
    | WDem => f_dem f' = r
    | WArea => f_area f' = r
    | _ => True
    end.
  Proof.
    destruct c; simpl; auto.
    - unfold w_flow_directions. rewrite do_this. unfold mbind at 1. destruct (elevs _ h f) as [[h1 f1] [d|e]]; [|discriminate].
      rewrite do_store, do_alloc. destruct (flow_directions_from _ _ _ _ _ _ _ _ _ _ _ _ _) as [p|e]; [|discriminate].
      rewrite do_ok, do_write, do_store. intros E. now inversion E.
    - unfold w_fdir. rewrite do_this. destruct (f_fdir f) eqn:Ed; intros E; inversion E; subst; congruence.
    - rewrite do_this. destruct (f_acc f) eqn:Ed; intros E; inversion E; subst; congruence.
    - rewrite do_this. intros E; inversion E; now subst.
    - rewrite do_this. intros E; inversion E; now subst.
    - unfold w_accumulation. unfold mbind at 1. destruct (w_fdir h f) as [[h1 f1] [d|e]]; [|discriminate].
      unfold mbind at 1. destruct (ints d h1 f1) as [[h2 f2] [fd|e]]; [|discriminate]. rewrite do_this, do_alloc.
      unfold mbind at 1. destruct (copy _ _ f2) as [[h3 f3] [ra|e]]; [|discriminate].
      unfold mbind at 1. destruct (area_vals _ _ f3) as [[h4 f4] [ar|e]]; [|discriminate].
      destruct (acc_run _ _ _ _ _) as [a|e]; [|discriminate]. rewrite do_ok, do_write, do_write, do_store.
      intros E. now inversion E.
  Qed.

  (** ** stream objects *)
  Definition sgrown (n : nat) (s0 : strm) (a : option ref) (s : strm) : Prop :=
    forall r, holds_s s r -> holds_s s0 r \/ n <= r \/ a = Some r.

  Ltac sgrown_tac := idtac;
    match goal with H : sgrown _ _ _ _ |- _ =>
      unfold sgrown, holds_s in *; simpl; intros ? [? | [? | [? | [? | ?]]]]; subst;
      repeat match goal with X : Some _ = Some _ |- _ => inversion X; subst; clear X end; try discriminate; eauto 10
    end.
  Lemma kp_pick n (I : strm -> Prop) a : kp n I (@w_pick T W a) any.
  Proof. unfold w_pick. kp_go idtac. Qed.
  Lemma kp_run6 n s0 b a : kp n (sgrown n s0 b) (@w_run6 T W lim a) any.
  Proof. unfold w_run6. eapply kp_bind; [apply kp_pick|intros ? _]. kp_go sgrown_tac. Qed.
  Lemma kp_run2005 n s0 b a g : kp n (sgrown n s0 b) (@w_run2005 T W fuel lim a g) any.
  Proof. unfold w_run2005. eapply kp_bind; [apply kp_pick|intros ? _]. kp_go sgrown_tac. Qed.
  Lemma kp_graph_of n I g : kp n I (@w_graph_of T W g) any.
  Proof. unfold w_graph_of. destruct g; kp_go idtac. Qed.
  Lemma kp_top n I tp : kp n I (@w_top T W tp) any.
  Proof. unfold w_top. destruct tp; kp_go idtac. Qed.
  Lemma kp_segs n s0 b a g : kp n (sgrown n s0 b) (@w_segs T W fuel lim a g) any.
  Proof.
    unfold w_segs. eapply kp_bind; [apply kp_pick|intros ? _]. kp_go sgrown_tac.
    eapply kp_bind; [apply kp_run2005|intros ? _]. kp_go sgrown_tac.
  Qed.
  Lemma kp_prms n s0 b a g : kp n (sgrown n s0 b) (@w_prms_connect T W fuel lim a g) any.
  Proof. unfold w_prms_connect. destruct g; [apply kp_run2005|apply kp_run6]. Qed.

  Ltac go := repeat (kp_go sgrown_tac; try match goal with
    | |- kp _ _ (mbind (w_pick _) _) _ => eapply kp_bind; [apply kp_pick|intros ? _]
    | |- kp _ _ (mbind (w_run6 _ _) _) _ => eapply kp_bind; [apply kp_run6|intros ? _]
    | |- kp _ _ (mbind (w_run2005 _ _ _ _) _) _ => eapply kp_bind; [apply kp_run2005|intros ? _]
    | |- kp _ _ (mbind (w_graph_of _) _) _ => eapply kp_bind; [apply kp_graph_of|intros ? _]
    | |- kp _ _ (mbind (w_top _) _) _ => eapply kp_bind; [apply kp_top|intros ? _]
    | |- kp _ _ (mbind (w_segs _ _ _ _) _) _ => eapply kp_bind; [apply kp_segs|intros ? _]
    | |- kp _ _ (mbind (w_prms_connect _ _ _ _) _) _ => eapply kp_bind; [apply kp_prms|intros ? _]
    | |- kp _ _ (w_graph_of _) _ => apply kp_graph_of
    | |- kp _ _ (w_pick _) _ => apply kp_pick
    | |- kp _ _ (w_run6 _ _) _ => apply kp_run6
    end).

  Definition given_array (c : @wcall W) : option ref := match c with WSetStreamArray a => Some a | _ => None end.

  Lemma kp_scall n s0 k tp fa c : kp n (sgrown n s0 (given_array c)) (scall_in k tp fa c) any.
  Proof.
    assert (HV : forall o a b, kp n (sgrown n s0 o) (@w_vectors T W fuel lim a b) any).
    { intros o a b. unfold w_vectors. eapply kp_bind with (Q := any); [destruct a; go|]. intros ? _. go. }
    assert (HD : forall o a b, kp n (sgrown n s0 o) (mbind (@w_delineate T W vge a b) (fun r => ret (@ARef T r))) any).
    { intros o a b. eapply kp_bind with (Q := any); [|intros; go]. unfold w_delineate. go.
      eapply kp_bind with (Q := any).
      { unfold w_threshold. destruct a; go. }
      intros ? _. go. }
    assert (HS : forall a, kp n (sgrown n s0 (Some a)) (mbind (@w_set T W a) (fun _ => ret (@ANothing T))) any).
    { intros a. unfold w_set. eapply kp_bind with (Q := any); [go|]. intros; go. }
    assert (HC : forall o, kp n (sgrown n s0 o) (mbind (@w_pick T W None) (fun r => mbind (copy r) (fun r' => ret (@ARef T r')))) any).
    { intros o. go. }
    destruct k, c; cbn [w_scall given_array]; auto using kp_fail; go.
    - unfold w_conndata. go.
    - unfold w_pkgdata. go.
    - unfold w_segdata. go.
    - unfold w_reachdata. go.
    - unfold w_irunbnd. go.
    - unfold w_cascades. go.
  Qed.

  Lemma holds_f_lt (h : @heap T W) (f : flow) r : fwf h f -> holds_f f r -> r < length h.
  Proof.
    intros ([d A] & [a B] & C & D) [-> | [-> | [E|E]]]; eauto using get_lt.
    - rewrite E in C. destruct C as [l C]. eauto using get_lt.
    - rewrite E in D. destruct D as [l D]. eauto using get_lt.
  Qed.
  Lemma holds_s_lt (h : @heap T W) s r : swf h s -> holds_s s r -> r < length h.
  Proof.
    intros ([d A] & [a B] & C & D & F) [-> | [-> | [E|[E|E]]]]; eauto using get_lt.
    - rewrite E in C. destruct C as [l C]. eauto using get_lt.
    - rewrite E in D. destruct D as [l D]. eauto using get_lt.
    - rewrite E in F. destruct F as [l F]. eauto using get_lt.
  Qed.
End Calls.
