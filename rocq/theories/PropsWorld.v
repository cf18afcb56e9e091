(** C94-C98: sessions in which several objects share one modelgrid and the arrays it hands out. *)
From Verif Require Import Py MFlow MDir MObj MStream MSobj MWorld LWorld LWorld2 LWorld3 LWorld4 LWorld5.
Set Implicit Arguments.
Unset Strict Implicit.
Local Open Scope nat_scope.
Local Open Scope list_scope.
Local Arguments mbind : simpl never.

Section World.
  Context {T W : Type}.
  Variables (tsub tdiv : T -> T -> T) (tlt teq : T -> T -> bool) (tzero tbig : T).
  Variables (wadd : W -> W -> W) (wzero : W).
  Variables (fone : T) (fabs : T -> T) (fsum : list T -> T) (fdiv : T -> T -> option T)
            (fle0 fkeep : T -> bool).
  Variable vge : Z + W -> Z + W -> bool.
  Variables (fuel lim : nat) (ncol : Z).
  Variables (dist : nat -> nat -> T) (areas : list W) (nb0 : list (list nat)) (thr0 : T).
  Notation world := (@world T W).
  Notation cmd := (@cmd T W).
  Notation heap := (@heap T W).
  Notation cell := (@cell T W).
  Notation step := (step tsub tdiv tlt teq tzero tbig wadd wzero fone fabs fsum fdiv fle0 fkeep vge fuel lim ncol
                         dist areas nb0 thr0).
  Notation run := (run tsub tdiv tlt teq tzero tbig wadd wzero fone fabs fsum fdiv fle0 fkeep vge fuel lim ncol
                         dist areas nb0 thr0).
  Notation fcall_in := (w_fcall tsub tdiv tlt teq tzero tbig wadd wzero fuel lim dist).
  Notation scall_in := (w_scall tsub tdiv tlt tzero tbig fone fabs fsum fdiv fle0 fkeep vge fuel lim ncol dist).
  Notation reply := (reply tsub tdiv tlt teq tzero tbig wadd wzero fone fabs fsum fdiv fle0 fkeep vge fuel lim ncol
                         dist areas nb0 thr0).

  (** the worlds a session can be in *)
  Definition reachable (w : world) : Prop := exists cs, w = run (@empty_world T W) cs.
  (** the array or dictionary [r] contains [c] *)
  Definition shows (w : world) (r : ref) (c : cell) : Prop := nth_error (w_heap w) r = Some c.

  Lemma run_app w cs cs' : run w (cs ++ cs') = run (run w cs) cs'.
  Proof. unfold MWorld.run. now rewrite fold_left_app. Qed.
  Lemma reachable_step w c : reachable w -> reachable (fst (step w c)).
  Proof. intros [cs ->]. exists (cs ++ [c]). now rewrite run_app. Qed.
  Lemma reachable_run w cs : reachable w -> reachable (run w cs).
  Proof. intros [cs0 ->]. exists (cs0 ++ cs). now rewrite run_app. Qed.
  Lemma reachable_wf w : reachable w -> wf w.
  Proof. intros [cs ->]. apply run_wf. apply empty_wf. Qed.

  (** ** C94: no call writes into an array that existed before it *)
  Theorem C94_calls_leave_arrays_alone w c r a :
    (forall r e, c <> Edit r e) -> shows w r a -> shows (fst (step w c)) r a.
  Proof.
    intros N H. destruct (step w c) as [w' x] eqn:E. destruct (step_keeps E N) as [_ K]. now apply K.
  Qed.

  (** an array changes only by the user's own edits of that array *)
  Theorem C94_only_own_edits_change_an_array cs : forall w r a,
    (forall e, ~ In (Edit r e) cs) -> shows w r a -> shows (run w cs) r a.
  Proof.
    induction cs as [|c cs IH]; intros w r a N H; auto. apply IH; [intros e I; apply (N e); now right|].
    assert (D : (exists r' e, c = Edit r' e) \/ (forall r' e, c <> Edit r' e)).
    { destruct c; try (right; intros; discriminate). left; eauto. }
    destruct D as [[r' [e ->]]|D]; [|now apply C94_calls_leave_arrays_alone].
    destruct w as [h tp fs ss]. unfold shows in *. simpl in *. destruct (get h r') as [c|]; simpl; auto.
    destruct (apply_edit c e) as [c'|] eqn:Ee; simpl; auto.
    rewrite nth_error_upd_neq; auto. intros ->. apply (N e). now left.
  Qed.

  (** ** C95: objects do not influence each other *)
  Lemma get_upd_other (h : heap) r c r' d : get h r' = Ok d -> r' <> r -> get (upd h r c) r' = Ok d.
  Proof. intros E N. apply get_ok. rewrite nth_error_upd_neq by auto. now apply get_ok. Qed.

  Lemma srep_edit (h : heap) (s : strm) d a o r c : ~ holds_s s r -> srep h s d a o -> srep (upd h r c) s d a o.
  Proof.
    intros N (A & B & C & D & E & F). unfold holds_s in N.
    repeat split; auto.
    - apply get_upd_other; auto.
    - apply get_upd_other; auto.
    - unfold rep_ints in *. destruct (s_strm s), (so_strm o); auto. apply get_upd_other; auto.
      intros ->. apply N. auto.
    - unfold rep_graph in *. destruct (s_graph s) as [[]|], (so_graph o); auto. destruct D as [t [D1 D2]]. exists t.
      split; auto. apply get_upd_other; auto. intros ->. apply N. auto.
    - unfold rep_dict in *. destruct (s_seg s), (so_seg o); auto. apply get_upd_other; auto.
      intros ->. apply N. auto 6.
  Qed.
  Lemma frep_edit (h : heap) f d a o r c : ~ holds_f f r -> frep h f d a o -> frep (upd h r c) f d a o.
  Proof.
    intros N (A & B & C & D & E & F). unfold holds_f in N.
    repeat split; auto.
    - apply get_upd_other; auto.
    - apply get_upd_other; auto.
    - unfold rep_ints in *. destruct (f_fdir f), (fo_fdir o); auto. apply get_upd_other; auto.
      intros ->. apply N. auto.
    - unfold rep_acc in *. destruct (f_acc f), (fo_acc o); auto. apply get_upd_other; auto.
      intros ->. apply N. auto.
  Qed.

  Lemma step_ext w c : (forall r e, c <> Edit r e) -> ext (w_heap w) (w_heap (fst (step w c))).
  Proof.
    intros N r a H. apply get_ok. apply get_ok in H. now apply (C94_calls_leave_arrays_alone (w := w)).
  Qed.

  Lemma edit_or_not (c : cmd) : (exists r e, c = Edit r e) \/ (forall r e, c <> Edit r e).
  Proof. destruct c; try (right; intros; discriminate). left; eauto. Qed.

  (** other commands leave a stream object as it is *)
  Lemma stream_same w c j s : (forall c', c <> StreamCall j c') -> nth_error (w_streams w) j = Some s ->
    nth_error (w_streams (fst (step w c))) j = Some s.
  Proof.
    intros N H. destruct w as [h tp fs ss]. destruct c; simpl in *; auto.
    - destruct (get h r); simpl; auto. destruct (apply_edit _ e); simpl; auto.
    - destruct (w_fill g dem h tt) as [[? ?] ?]. auto.
    - destruct (w_new_flow _ _ _ _ _ _ _ _ h tt) as [[? ?] [?|?]]; auto.
    - destruct (nth_error fs i); simpl; auto. destruct (fcall_in c h f) as [[? ?] ?]; auto.
    - destruct (nth_error fs i); simpl; auto. destruct (get h _); simpl; auto.
      destruct (f_fdir f); [destruct (f_acc f)|]; simpl; auto.
      rewrite nth_error_app1; auto. apply nth_error_Some. congruence.
    - destruct (nth_error ss j0) as [s0|] eqn:E; simpl; auto. destruct (args_ok h c); simpl; auto.
      destruct (scall_in _ _ _ c h s0) as [[? ?] ?]. simpl. rewrite nth_error_upd_neq; auto.
      intros ->. now apply (N c).
    - destruct tp; simpl; auto. destruct (get h r); simpl; auto.
  Qed.
  Lemma flow_same w c i f : (forall c', c <> FlowCall i c') -> nth_error (w_flows w) i = Some f ->
    nth_error (w_flows (fst (step w c))) i = Some f.
  Proof.
    intros N H. destruct w as [h tp fs ss]. destruct c; simpl in *; auto.
    - destruct (get h r); simpl; auto. destruct (apply_edit _ e); simpl; auto.
    - destruct (w_fill g dem h tt) as [[? ?] ?]. auto.
    - destruct (w_new_flow _ _ _ _ _ _ _ _ h tt) as [[? ?] [?|?]]; simpl; auto.
      rewrite nth_error_app1; auto. apply nth_error_Some. congruence.
    - destruct (nth_error fs i0) eqn:E; simpl; auto. destruct (fcall_in c h f0) as [[? ?] ?]; simpl; auto.
      rewrite nth_error_upd_neq; auto. intros ->. now apply (N c).
    - destruct (nth_error fs i0); simpl; auto. destruct (get h _); simpl; auto.
      destruct (f_fdir f0); [destruct (f_acc f0)|]; simpl; auto.
    - destruct (nth_error ss j) as [s0|] eqn:E; simpl; auto. destruct (args_ok h c); simpl; auto.
      destruct (scall_in _ _ _ c h s0) as [[? ?] ?]. simpl. auto.
    - destruct tp; simpl; auto. destruct (get h r); simpl; auto.
  Qed.

  Lemma stream_other w c j s d a o : (forall c', c <> StreamCall j c') ->
    (forall r e, c = Edit r e -> ~ holds_s s r) ->
    nth_error (w_streams w) j = Some s -> srep (w_heap w) s d a o ->
    nth_error (w_streams (fst (step w c))) j = Some s /\ srep (w_heap (fst (step w c))) s d a o.
  Proof.
    intros N NE H R. split; [now apply stream_same|]. destruct (edit_or_not c) as [[r [e ->]]|D].
    - destruct w as [h tp fs ss]. simpl in *. destruct (get h r); simpl; auto. destruct (apply_edit _ e); simpl; auto.
      apply srep_edit; auto. eapply NE; eauto.
    - eapply srep_ext; [|exact R]. now apply step_ext.
  Qed.
  Lemma flow_other w c i f d a o : (forall c', c <> FlowCall i c') ->
    (forall r e, c = Edit r e -> ~ holds_f f r) ->
    nth_error (w_flows w) i = Some f -> frep (w_heap w) f d a o ->
    nth_error (w_flows (fst (step w c))) i = Some f /\ frep (w_heap (fst (step w c))) f d a o.
  Proof.
    intros N NE H R. split; [now apply flow_same|]. destruct (edit_or_not c) as [[r [e ->]]|D].
    - destruct w as [h tp fs ss]. simpl in *. destruct (get h r); simpl; auto. destruct (apply_edit _ e); simpl; auto.
      apply frep_edit; auto. eapply NE; eauto.
    - eapply frep_ext; [|exact R]. now apply step_ext.
  Qed.

  (** *** stream objects *)
  Notation step_of fdir fa sl fnb :=
    (scall_step vge fone fabs fsum fdiv fle0 fkeep lim fuel ncol fdir (fvals fa) sl fnb).
  Notation calls_of fdir fa sl fnb :=
    (scalls vge fone fabs fsum fdiv fle0 fkeep lim fuel ncol fdir (fvals fa) sl fnb).
  (** the answer of a lone stream object (MSobj.v) after the calls [h] *)
  Notation answer_of fdir fa sl fnb :=
    (sreply vge fone fabs fsum fdiv fle0 fkeep lim fuel ncol fdir (fvals fa) sl fnb).

  (** [stream_history j w cs ps]: in the session [cs] started in [w], the calls made on stream
      object [j], with the contents of their array arguments at that moment, are [ps]; user code
      edits no array the object holds at that moment.  Anything else may happen in between. *)
  Inductive stream_history (j : nat) : world -> list cmd -> list (@scall (Z + W)) -> Prop :=
  | sh_nil w : stream_history j w [] []
  | sh_call w c p cs ps : resolves (w_heap w) c p ->
      stream_history j (fst (step w (StreamCall j c))) cs ps ->
      stream_history j w (StreamCall j c :: cs) (p :: ps)
  | sh_bad w c cs ps : args_ok (w_heap w) c = false ->
      stream_history j (fst (step w (StreamCall j c))) cs ps ->
      stream_history j w (StreamCall j c :: cs) ps
  | sh_other w c cs ps : (forall c', c <> StreamCall j c') ->
      (forall r e s, c = Edit r e -> nth_error (w_streams w) j = Some s -> ~ holds_s s r) ->
      stream_history j (fst (step w c)) cs ps ->
      stream_history j w (c :: cs) ps.

  Lemma state_without_slopes d a sl fnb sl' fnb' k o c :
    fst (step_of d a sl fnb k o c) = fst (step_of d a sl' fnb' k o c).
  Proof.
    assert (H : forall x b m g, fst (do_cascades fone fabs fsum fdiv fle0 fkeep lim fuel d sl fnb o x b m g) =
                fst (do_cascades fone fabs fsum fdiv fle0 fkeep lim fuel d sl' fnb' o x b m g)).
    { intros. unfold do_cascades, lift. destruct (pick o x); auto. destruct (so_graph o); auto.
      unfold andthen. destruct (prms_connect lim fuel d o (Some a0) g) as [[o' g']|]; auto. destruct (pick o' None); auto. }
    destruct k, c; simpl; auto.
  Qed.
  Lemma history_without_slopes d a sl fnb sl' fnb' k ps : calls_of d a sl fnb k ps = calls_of d a sl' fnb' k ps.
  Proof.
    unfold scalls. generalize new_streams. induction ps as [|p ps IH]; intros o; simpl; auto.
    rewrite (state_without_slopes d a sl fnb sl' fnb' k o p). apply IH.
  Qed.

  Definition many_cascades (p : @scall (Z + W)) : Prop :=
    match p with Cascades _ _ true _ => True | _ => False end.
  Lemma answer_without_slopes d a sl fnb sl' fnb' k ps p : ~ many_cascades p ->
    answer_of d a sl fnb k ps p = answer_of d a sl' fnb' k ps p.
  Proof.
    intros N. unfold sreply. rewrite (history_without_slopes d a sl fnb sl' fnb' k ps).
    destruct p; try (destruct k; reflexivity). destruct many2many; [exfalso; now apply N|]. destruct k; reflexivity.
  Qed.

  Lemma own_step w j s c p d a o : wf w -> nth_error (w_streams w) j = Some s -> srep (w_heap w) s d a o ->
    resolves (w_heap w) c p ->
    exists fa dem s', nth_error (w_flows w) (s_fa s) = Some fa /\ shows w (f_dem fa) (CElevs dem) /\
      nth_error (w_streams (fst (step w (StreamCall j c)))) j = Some s' /\
      same_base s s' /\
      let p' := step_of d a (w_slopes tsub tdiv tlt tzero tbig dist fa dem) (w_fnb fa dem) (s_kind s) o p in
      srep (w_heap (fst (step w (StreamCall j c)))) s' d a (fst p') /\
      sagrees (w_heap (fst (step w (StreamCall j c)))) (reply w (StreamCall j c)) (snd p').
  Proof.
    intros H Ej R Rs. destruct w as [h tp fs ss]. pose proof H as [Hf Hs Ha Ht Hh Hp]. simpl in *.
    unfold MWorld.reply. simpl. rewrite Ej, (resolve_args Rs).
    destruct tp as [tr|]; [|exfalso; apply Hh; auto; destruct ss; [destruct j; discriminate|discriminate]].
    destruct (nth_error fs (s_fa s)) as [fa|] eqn:Efa.
    2:{ apply nth_error_None in Efa. specialize (Ha _ _ Ej). lia. }
    destruct (Ht _ eq_refl) as [top Et]. destruct (Hf _ _ Efa) as ([dem Ed] & _).
    destruct (@sim_scall T W tsub tdiv tlt teq tzero tbig fone fabs fsum fdiv fle0 fkeep vge fuel lim ncol dist
                (s_kind s) h s d a o c p tr top fa dem R Rs Et Ed) as (h2 & s2 & y & E2 & X & R2 & B & Ag).
    exists fa, dem. change (option nat) with (option ref) in E2.
    destruct (scall_in (s_kind s) (Some tr) (Some fa) c h s) as [[h1 s1] y1] eqn:Em.
    pose proof (eq_trans (eq_sym Em) E2) as E3. inversion E3; subst. simpl.
    exists s2. split; [reflexivity|]. split; [now apply get_ok|].
    split; [apply nth_error_upd_eq; apply nth_error_Some; congruence|]. split; [exact B|]. split; [exact R2|exact Ag].
  Qed.

  Lemma history_state j : forall w cs ps, stream_history j w cs ps -> forall s d a o, wf w ->
    nth_error (w_streams w) j = Some s -> srep (w_heap w) s d a o ->
    exists s', nth_error (w_streams (run w cs)) j = Some s' /\ same_base s s' /\
      forall sl fnb, srep (w_heap (run w cs)) s' d a (fold_left (fun o c => fst (step_of d a sl fnb (s_kind s) o c)) ps o).
  Proof.
    induction 1 as [w|w c p cs ps Rs H IH|w c cs ps Rs H IH|w c cs ps N NE H IH]; intros s d a o Hw Ej R.
    - exists s. repeat split; auto; apply R.
    - destruct (own_step Hw Ej R Rs) as (fa & dem & s1 & _ & _ & E1 & B1 & R1 & _).
      destruct (IH s1 d a _ (step_wf _ _ _ _ _ _ _ _ _ _ _ _ _ _ _ _ _ _ _ _ _ _ _ Hw) E1 R1) as (s2 & E2 & B2 & R2).
      exists s2. split; [exact E2|]. split; [eapply same_base_trans; eauto|]. intros sl fnb. simpl.
      specialize (R2 sl fnb). destruct B1 as (K1 & _). rewrite K1 in R2.
      rewrite (state_without_slopes d a sl fnb (w_slopes tsub tdiv tlt tzero tbig dist fa dem) (w_fnb fa dem)). exact R2.
    - assert (Hsame : fst (step w (StreamCall j c)) = w).
      { destruct w as [h tp fs ss]. simpl in *. rewrite Ej. simpl in *. now rewrite Rs. }
      rewrite Hsame in *. destruct (IH s d a o Hw Ej R) as (s2 & E2 & B2 & R2).
      change (run w (StreamCall j c :: cs)) with (run (fst (step w (StreamCall j c))) cs). rewrite Hsame. eauto.
    - destruct (@stream_other w c j s d a o N) as [E1 R1]; auto.
      { intros r e E. eapply NE; eauto. }
      destruct (IH s d a o (step_wf _ _ _ _ _ _ _ _ _ _ _ _ _ _ _ _ _ _ _ _ _ _ _ Hw) E1 R1) as (s2 & E2 & B2 & R2). eauto.
  Qed.

  (** what the constructor of a stream object does *)
  Lemma new_streams_spec w k i w1 x : step w (NewStreams k i) = (w1, Ok x) ->
    exists f rd ra, nth_error (w_flows w) i = Some f /\ f_fdir f = Some rd /\ f_acc f = Some ra /\
      nth_error (w_streams w1) (length (w_streams w)) = Some (Strm k i rd ra None None None []) /\
      w_flows w1 = w_flows w /\ exists c, w_heap w1 = w_heap w ++ [c] /\ get (w_heap w) (f_dem f) = Ok c /\
      w_grid_top w1 = Some (length (w_heap w)).
  Proof.
    destruct w as [h tp fs ss]. simpl. destruct (nth_error fs i) as [f|]; [|discriminate].
    destruct (get h (f_dem f)) as [d|] eqn:Ed; [|discriminate].
    destruct (f_fdir f) as [rd|] eqn:E1; [|discriminate]. destruct (f_acc f) as [ra|] eqn:E2; [|discriminate].
    intros E. inversion E; subst. exists f, rd, ra. repeat split; auto.
    - simpl. rewrite nth_error_app2 by lia. now rewrite Nat.sub_diag.
    - exists d. auto.
  Qed.

  Lemma ask_array w i r f : nth_error (w_flows w) i = Some f ->
    reply w (FlowCall i WFlowDirectionArray) = Ok (ARef r) -> f_fdir f = Some r.
  Proof.
    intros E. destruct w as [h tp fs ss]. unfold MWorld.reply. simpl in *. rewrite E. unfold w_fdir. rewrite do_this.
    destruct (f_fdir f); simpl; intros X; inversion X; auto.
  Qed.
  Lemma ask_acc w i r f : nth_error (w_flows w) i = Some f ->
    reply w (FlowCall i WFlowAccumulationArray) = Ok (ARef r) -> f_acc f = Some r.
  Proof.
    intros E. destruct w as [h tp fs ss]. unfold MWorld.reply. simpl in *. rewrite E. rewrite do_this.
    destruct (f_acc f); simpl; intros X; inversion X; auto.
  Qed.

  (** A stream object built from FlowDirections object [i] when its arrays showed [d] and [a]:
      whatever the session does afterwards (other objects, new flow directions on [i], edits of
      arrays this object does not hold), each answer of the object is the answer a lone object
      with directions [d] and accumulation [a] gives after the same calls.  The slopes of
      many-to-many cascades are those of FlowDirections object [i] at the time of the call. *)
  Theorem C95_streams_answer_as_if_alone w k i w1 x rd d ra a cs ps c p :
    reachable w -> step w (NewStreams k i) = (w1, Ok x) ->
    reply w (FlowCall i WFlowDirectionArray) = Ok (ARef rd) -> shows w rd (CInts d) ->
    reply w (FlowCall i WFlowAccumulationArray) = Ok (ARef ra) -> shows w ra (CAcc a) ->
    let j := length (w_streams w) in
    stream_history j w1 cs ps ->
    let w2 := run w1 cs in
    resolves (w_heap w2) c p ->
    exists fa dem, nth_error (w_flows w2) i = Some fa /\ shows w2 (f_dem fa) (CElevs dem) /\
      sagrees (w_heap (fst (step w2 (StreamCall j c)))) (reply w2 (StreamCall j c))
        (answer_of d a (w_slopes tsub tdiv tlt tzero tbig dist fa dem) (w_fnb fa dem) k ps p).
  Proof.
    intros Hr Hn Hd Sd Ha Sa j Hh w2 Hp.
    destruct (new_streams_spec Hn) as (f & rd' & ra' & Ef & Erd & Era & Es & Efs & c0 & Eh & _ & _).
    pose proof (ask_array Ef Hd) as X1. rewrite Erd in X1. inversion X1; subst rd'.
    pose proof (ask_acc Ef Ha) as X2. rewrite Era in X2. inversion X2; subst ra'.
    assert (Hr1 : reachable w1) by (replace w1 with (fst (step w (NewStreams k i))) by (now rewrite Hn); now apply reachable_step).
    assert (R1 : srep (w_heap w1) (Strm k i rd ra None None None []) d a new_streams).
    { rewrite Eh. repeat split; simpl; auto; apply get_app_old; now apply get_ok. }
    destruct (history_state Hh (reachable_wf Hr1) Es R1) as (s2 & E2 & (K1 & K2 & _) & R2).
    simpl in K1, K2. specialize (R2 [] []). fold j in E2. fold w2 in E2, R2.
    assert (Hw2 : wf w2) by (apply reachable_wf; now apply reachable_run).
    destruct (own_step Hw2 E2 R2 Hp) as (fa & dem & s3 & Efa & Edem & _ & _ & _ & Ag).
    rewrite K2 in Efa. rewrite K1 in Ag. exists fa, dem. split; [exact Efa|]. split; [exact Edem|].
    unfold sreply. erewrite history_without_slopes. exact Ag.
  Qed.

  (** ... and apart from many-to-many cascades the answer does not depend on the FlowDirections
      object any more *)
  Corollary C95_streams_forget_the_flow_object w k i w1 x rd d ra a cs ps c p sl fnb :
    reachable w -> step w (NewStreams k i) = (w1, Ok x) ->
    reply w (FlowCall i WFlowDirectionArray) = Ok (ARef rd) -> shows w rd (CInts d) ->
    reply w (FlowCall i WFlowAccumulationArray) = Ok (ARef ra) -> shows w ra (CAcc a) ->
    let j := length (w_streams w) in
    stream_history j w1 cs ps ->
    let w2 := run w1 cs in
    resolves (w_heap w2) c p -> ~ many_cascades p ->
    sagrees (w_heap (fst (step w2 (StreamCall j c)))) (reply w2 (StreamCall j c)) (answer_of d a sl fnb k ps p).
  Proof.
    intros Hr Hn Hd Sd Ha Sa j Hh w2 Hp N.
    destruct (C95_streams_answer_as_if_alone Hr Hn Hd Sd Ha Sa Hh Hp) as (fa & dem & _ & _ & Ag).
    erewrite answer_without_slopes; [exact Ag|exact N].
  Qed.

  (** *** FlowDirections objects *)
  Notation fcall_of dem := (call tsub tdiv tlt teq tzero tbig wadd wzero fuel lim dist dem areas).
  Notation fcalls_of dem := (calls tsub tdiv tlt teq tzero tbig wadd wzero fuel lim dist dem areas).
  Notation fanswer_of dem := (answer tsub tdiv tlt teq tzero tbig wadd wzero fuel lim dist dem areas).

  Inductive flow_history (i : nat) : world -> list cmd -> list (@fcall T) -> Prop :=
  | fh_nil w : flow_history i w [] []
  | fh_call w c p cs ps : pure c = Some p ->
      flow_history i (fst (step w (FlowCall i c))) cs ps ->
      flow_history i w (FlowCall i c :: cs) (p :: ps)
  | fh_get w c cs ps : c = WDem \/ c = WArea ->       (* fd.dem and fd.area change nothing *)
      flow_history i (fst (step w (FlowCall i c))) cs ps ->
      flow_history i w (FlowCall i c :: cs) ps
  | fh_other w c cs ps : (forall c', c <> FlowCall i c') ->
      (forall r e f, c = Edit r e -> nth_error (w_flows w) i = Some f -> ~ holds_f f r) ->
      flow_history i (fst (step w c)) cs ps ->
      flow_history i w (c :: cs) ps.

  Definition fwagrees (w : world) (x : res (@wanswer T)) (y : res (@fanswer W)) : Prop :=
    match x, y with
    | Ok (ARef r), Ok a => fshow (w_heap w) r = Some a
    | Err e, Err e' => e = e'
    | _, _ => False
    end.

  Lemma own_fstep w i f c p d o : nth_error (w_flows w) i = Some f -> frep (w_heap w) f d areas o ->
    min_cells tlt teq tbig d = Ok (f_mins f) -> pure c = Some p ->
    exists f', nth_error (w_flows (fst (step w (FlowCall i c)))) i = Some f' /\ f_mins f' = f_mins f /\
      frep (w_heap (fst (step w (FlowCall i c)))) f' d areas (fst (fcall_of d o p)) /\
      fwagrees (fst (step w (FlowCall i c))) (reply w (FlowCall i c)) (snd (fcall_of d o p)).
  Proof.
    intros Ei R Hm Hp. destruct w as [h tp fs ss]. simpl in *. unfold MWorld.reply. simpl. rewrite Ei.
    destruct (@sim_fcall T W tsub tdiv tlt teq tzero tbig wadd wzero fuel lim dist h f d areas o c p R Hp)
      as (h2 & f2 & y & E2 & R2 & (P1 & P2 & P3) & Ag); auto.
    rewrite E2. simpl. exists f2. split; [apply nth_error_upd_eq; apply nth_error_Some; congruence|].
    split; [exact P3|]. split; [exact R2|]. destruct y as [r|e]; simpl; unfold fagrees in Ag; exact Ag.
  Qed.

  Lemma fhistory_state i : forall w cs ps, flow_history i w cs ps -> forall f d o,
    nth_error (w_flows w) i = Some f -> frep (w_heap w) f d areas o -> min_cells tlt teq tbig d = Ok (f_mins f) ->
    exists f', nth_error (w_flows (run w cs)) i = Some f' /\ f_mins f' = f_mins f /\
      frep (w_heap (run w cs)) f' d areas (fcalls_of d o ps).
  Proof.
    induction 1 as [w|w c p cs ps Hp H IH|w c cs ps Hc H IH|w c cs ps N NE H IH]; intros f d o Ei R Hm.
    - exists f. auto.
    - destruct (own_fstep Ei R Hm Hp) as (f1 & E1 & M1 & R1 & _).
      destruct (IH f1 d _ E1 R1) as (f2 & E2 & M2 & R2); [congruence|].
      exists f2. split; [exact E2|]. split; [congruence|exact R2].
    - assert (Hsame : nth_error (w_flows (fst (step w (FlowCall i c)))) i = Some f /\ w_heap (fst (step w (FlowCall i c))) = w_heap w).
      { destruct w as [h tp fs ss]. simpl in *. rewrite Ei. destruct Hc as [-> | ->]; simpl;
          (split; [apply nth_error_upd_eq; apply nth_error_Some; congruence|reflexivity]). }
      destruct Hsame as [E1 E2]. destruct (IH f d o E1) as (f2 & E3 & M3 & R3); [now rewrite E2|auto|]. eauto.
    - assert (NE' : forall r e, c = Edit r e -> ~ holds_f f r) by (intros r e E; eapply NE; eauto).
      destruct (@flow_other w c i f d areas o N NE' Ei R) as [E1 R1].
      destruct (IH f d o E1 R1 Hm) as (f2 & E2 & B2 & R2). eauto.
  Qed.

  (** A FlowDirections object built from an array that showed [d]: whatever the session does
      (editing that array included: the object has its own copy), each answer is the answer of a
      lone object on [d] after the same calls *)
  Theorem C95_flow_answers_as_if_alone w r check w1 x d cs ps c p :
    step w (NewFlow r check) = (w1, Ok x) -> shows w r (CElevs d) ->
    let i := length (w_flows w) in
    flow_history i w1 cs ps ->
    let w2 := run w1 cs in
    pure c = Some p ->
    fwagrees (fst (step w2 (FlowCall i c))) (reply w2 (FlowCall i c)) (fanswer_of d (fcalls_of d (new_object nb0) ps) p).
  Proof.
    intros Hn Sd i Hh w2 Hp. destruct w as [h tp fs ss]. unfold shows in Sd. simpl in Sd, Hn. subst i. simpl in Hh.
    destruct (w_new_flow tlt teq tbig areas nb0 thr0 r check h tt) as [[h1 s1] [f|e]] eqn:Em; [|discriminate].
    inversion Hn; subst. pose proof (new_flow_spec Em) as Sp. simpl in Sp.
    destruct Sp as (d' & mins & E1 & E2 & _ & -> & ->).
    assert (d' = d) as -> by (apply get_ok in Sd; congruence).
    assert (Ei : nth_error (fs ++ [Flow (length (h ++ [CAcc (Areas areas)])) (length h) mins nb0 thr0 None None None])
                   (length fs) = Some (Flow (length (h ++ [CAcc (Areas areas)])) (length h) mins nb0 thr0 None None None)).
    { rewrite nth_error_app2 by lia. now rewrite Nat.sub_diag. }
    assert (R : frep ((h ++ [CAcc (Areas areas)]) ++ [CElevs d])
                  (Flow (length (h ++ [CAcc (Areas areas)])) (length h) mins nb0 thr0 None None None) d areas (new_object nb0)).
    { repeat split; simpl; auto; [apply get_app_new|apply get_app_old, get_app_new]. }
    destruct (@fhistory_state (length fs) _ _ _ Hh _ d (new_object nb0) Ei R E2) as (f2 & E3 & M3 & R3).
    destruct (@own_fstep w2 (length fs) f2 c p d _ E3 R3) as (f3 & _ & _ & _ & Ag); auto.
    simpl in *. congruence.
  Qed.
End World.
