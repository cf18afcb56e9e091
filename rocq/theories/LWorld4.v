(** Invariants of the worlds a session can reach (MWorld.v). *)
From Verif Require Import Py MFlow MDir MObj MStream MSobj MWorld LWorld LWorld2 LWorld3.
Set Implicit Arguments.
Unset Strict Implicit.
Local Open Scope nat_scope.
Local Open Scope list_scope.
Local Arguments mbind : simpl never.

Section Inv.
  Context {T W : Type}.
  Variables (tsub tdiv : T -> T -> T) (tlt teq : T -> T -> bool) (tzero tbig : T).
  Variables (wadd : W -> W -> W) (wzero : W).
  Variables (fone : T) (fabs : T -> T) (fsum : list T -> T) (fdiv : T -> T -> option T)
            (fle0 fkeep : T -> bool).
  Variable vge : Z + W -> Z + W -> bool.
  Variables (fuel lim : nat) (ncol : Z).
  Variables (dist : nat -> nat -> T) (areas : list W) (nb0 : list (list nat)) (thr0 : T).
  Notation world := (@world T W).
  Notation cmd := (@cmd T W).
  Notation heap := (@heap T W).
  Notation cell := (@cell T W).
  Notation step := (step tsub tdiv tlt teq tzero tbig wadd wzero fone fabs fsum fdiv fle0 fkeep vge fuel lim ncol
                         dist areas nb0 thr0).
  Notation run := (run tsub tdiv tlt teq tzero tbig wadd wzero fone fabs fsum fdiv fle0 fkeep vge fuel lim ncol
                         dist areas nb0 thr0).
  Notation fcall_in := (w_fcall tsub tdiv tlt teq tzero tbig wadd wzero fuel lim dist).
  Notation scall_in := (w_scall tsub tdiv tlt tzero tbig fone fabs fsum fdiv fle0 fkeep vge fuel lim ncol dist).

  (** contents may change, kinds do not *)
  Definition kin (c c' : cell) : Prop :=
    match c, c' with
    | CInts _, CInts _ | CElevs _, CElevs _ | CAcc (Cells _), CAcc (Cells _) | CAcc (Areas _), CAcc (Areas _)
    | CDict _, CDict _ => True
    | _, _ => False
    end.
  Definition kept (h h' : heap) : Prop := forall r c, get h r = Ok c -> exists c', get h' r = Ok c' /\ kin c c'.
  Lemma kin_refl c : kin c c. Proof. destruct c as [| |[]|]; simpl; auto. Qed.
  Lemma ext_kept h h' : ext h h' -> kept h h'.
  Proof. intros E r c H. exists c. auto using kin_refl. Qed.

  Definition is_ints (h : heap) (r : ref) := exists l, get h r = Ok (CInts l).
  Definition is_elevs (h : heap) (r : ref) := exists l, get h r = Ok (CElevs l).
  Definition is_acc (h : heap) (r : ref) := exists l, get h r = Ok (CAcc l).
  Definition is_areas (h : heap) (r : ref) := exists l, get h r = Ok (CAcc (Areas l)).
  Definition is_dict (h : heap) (r : ref) := exists l, get h r = Ok (CDict l).
  Ltac kept_tac := clear; intros K [l E]; destruct (K _ _ E) as [[l'|l'|[l'|l']|l'] [E' Hk]]; simpl in Hk; try tauto; try (eexists; eassumption).
  Lemma kept_ints h h' r : kept h h' -> is_ints h r -> is_ints h' r. Proof. kept_tac. Qed.
  Lemma kept_elevs h h' r : kept h h' -> is_elevs h r -> is_elevs h' r. Proof. kept_tac. Qed.
  Lemma kept_acc h h' r : kept h h' -> is_acc h r -> is_acc h' r.
  Proof. clear.
    intros K [[l|l] E]; destruct (K _ _ E) as [[l'|l'|[l'|l']|l'] [E' Hk]]; simpl in Hk; try tauto; eexists; eassumption.
  Qed.
  Lemma kept_areas h h' r : kept h h' -> is_areas h r -> is_areas h' r. Proof. kept_tac. Qed.
  Lemma kept_dict h h' r : kept h h' -> is_dict h r -> is_dict h' r. Proof. kept_tac. Qed.

  Definition opt (P : ref -> Prop) (r : option ref) : Prop := match r with Some r => P r | None => True end.
  Definition fwf (h : heap) (f : flow) : Prop :=
    is_elevs h (@f_dem T f) /\ is_areas h (f_area f) /\ opt (is_ints h) (f_fdir f) /\ opt (is_acc h) (f_acc f).
  Definition swf (h : heap) (s : strm) : Prop :=
    is_ints h (s_fdir s) /\ is_acc h (s_facc s) /\ opt (is_ints h) (s_strm s) /\
    match s_graph s with Some (inl r) => is_dict h r | _ => True end /\ opt (is_dict h) (s_seg s).

  Lemma fwf_kept h h' f : kept h h' -> fwf h f -> fwf h' f.
  Proof. clear.
    intros K (A & B & C & D). repeat split; eauto using kept_elevs, kept_areas.
    - destruct (f_fdir f); simpl in *; eauto using kept_ints.
    - destruct (f_acc f); simpl in *; eauto using kept_acc.
  Qed.
  Lemma swf_kept h h' s : kept h h' -> swf h s -> swf h' s.
  Proof. clear.
    intros K (A & B & C & D & E). repeat split; eauto using kept_ints, kept_acc.
    - destruct (s_strm s); simpl in *; eauto using kept_ints.
    - destruct (s_graph s) as [[]|]; simpl in *; eauto using kept_dict.
    - destruct (s_seg s); simpl in *; eauto using kept_dict.
  Qed.

  Lemma fwf_frep h f : fwf h f <-> exists d a o, frep h f d a o.
  Proof. clear.
    split.
    - intros ([d A] & [a B] & C & D).
      assert (exists lf, rep_ints h (f_fdir f) lf) as [lf C'].
      { destruct (f_fdir f) as [r|]; simpl in C; [destruct C as [l C]; exists (Some l)|exists None]; simpl; auto. }
      assert (exists la, rep_acc h (f_acc f) la) as [la D'].
      { destruct (f_acc f) as [r|]; simpl in D; [destruct D as [l D]; exists (Some l)|exists None]; simpl; auto. }
      exists d, a, (FObj (f_nb f) lf (f_rev f) la). repeat split; auto.
    - intros (d & a & o & A & B & _ & _ & C & D). repeat split; [now exists d|now exists a| |].
      + unfold rep_ints in C. destruct (f_fdir f); simpl; auto. destruct (fo_fdir o); [|tauto]. eexists; eauto.
      + unfold rep_acc in D. destruct (f_acc f); simpl; auto. destruct (fo_acc o); [|tauto]. eexists; eauto.
  Qed.
  Lemma swf_srep h s : swf h s <-> exists d a o, srep h s d a o.
  Proof. clear.
    split.
    - intros ([d A] & [a B] & C & D & E).
      assert (exists l, rep_ints h (s_strm s) l) as [l C'].
      { destruct (s_strm s) as [r|]; simpl in C; [destruct C as [l C]; exists (Some l)|exists None]; simpl; auto. }
      assert (exists g, rep_graph h (s_graph s) g) as [g D'].
      { destruct (s_graph s) as [[r|g]|]; simpl in D; [destruct D as [t D]; exists (Some (some_graph t))|exists (Some g)|exists None]; simpl; eauto. }
      assert (exists g, rep_dict h (s_seg s) g) as [g' E'].
      { destruct (s_seg s) as [r|]; simpl in E; [destruct E as [t E]; exists (Some t)|exists None]; simpl; auto. }
      exists d, a, (SObj l g g' (s_nsr s)). repeat split; auto.
    - intros (d & a & o & A & B & C & D & E & _). repeat split; [now exists d|now exists a| | |].
      + unfold rep_ints in C. destruct (s_strm s); simpl; auto. destruct (so_strm o); [|tauto]. eexists; eauto.
      + unfold rep_graph in D. destruct (s_graph s) as [[]|]; simpl; auto. destruct (so_graph o); [|tauto].
        destruct D as [t [D _]]. eexists; eauto.
      + unfold rep_dict in E. destruct (s_seg s); simpl; auto. destruct (so_seg o); [|tauto]. eexists; eauto.
  Qed.

  Record wf (w : world) : Prop := Wf {
    wf_flows : forall i f, nth_error (w_flows w) i = Some f -> fwf (w_heap w) f;
    wf_streams : forall j s, nth_error (w_streams w) j = Some s -> swf (w_heap w) s;
    wf_fa : forall j s, nth_error (w_streams w) j = Some s -> s_fa s < length (w_flows w);
    wf_top : forall r, w_grid_top w = Some r -> is_elevs (w_heap w) r;
    wf_has_top : w_streams w <> [] -> w_grid_top w <> None;
    wf_private : forall i f r, nth_error (w_flows w) i = Some f -> w_grid_top w = Some r -> f_dem f <> r }.

  Lemma ext_of_keeps {S A} (m : @M T W S A) Q h s h' s' x :
    (forall n, keeps n m Q) -> m h s = (h', s', x) -> ext h h'.
  Proof.
    intros K E r c H. destruct (K (length h) h s h' s' x (le_n _) E) as [_ [K1 _]].
    apply get_ok. rewrite K1; [now apply get_ok|]. eapply get_lt; eauto.
  Qed.

  (** a call on a FlowDirections object keeps it well formed *)
  Lemma flow_directions_wf h f thr ts h' f' x : fwf h f ->
    w_flow_directions tsub tdiv tlt teq tzero tbig fuel dist thr ts h f = (h', f', x) ->
    fwf h' f' /\ same_parts f f' /\ match x with Ok r => is_ints h' r | _ => True end.
  Proof. clear fabs fsum fdiv fle0 fkeep vge ncol.
    intros (A & B & C & D) E. assert (X : ext h h').
    { eapply ext_of_keeps; [|exact E]. intros n.
      apply (@keeps_fcall T W tsub tdiv tlt teq tzero tbig wadd wzero fuel lim dist n (WFlowDirections thr ts)). }
    pose proof (ext_kept X) as K.
    destruct A as [d A]. unfold w_flow_directions in E. rewrite do_this, (do_elevs _ _ A), do_store, do_alloc in E.
    destruct (flow_directions_from _ _ _ _ _ _ _ _ _ _ _ _ _) as [[fd nb]|e] eqn:Ef.
    - rewrite do_ok, do_write, do_store, upd_app_new in E. inversion E; subst.
      assert (Hn : is_ints (h ++ [CInts fd]) (length h)) by (exists fd; apply get_app_new).
      split; [|split; [repeat split|exact Hn]]. repeat split; simpl; auto.
      + exists d. now apply get_app_old.
      + eauto using kept_areas.
      + destruct (f_acc f); simpl in *; eauto using kept_acc.
    - rewrite do_err in E. inversion E; subst. split; [|split; [repeat split|exact I]]. repeat split; simpl; auto.
      + exists d. now apply get_app_old.
      + eauto using kept_areas.
      + destruct (f_acc f); simpl in *; eauto using kept_acc.
  Qed.

  Definition handed (h : heap) (r : ref) : Prop := is_ints h r \/ is_acc h r \/ is_elevs h r.

  Lemma fcall_wf h f c h' f' x : fwf h f -> fcall_in c h f = (h', f', x) ->
    fwf h' f' /\ same_parts f f' /\
    match x with Ok r => is_ints h' r \/ is_acc h' r \/ (r = f_dem f /\ c = WDem) | _ => True end.
  Proof. clear fabs fsum fdiv fle0 fkeep vge ncol.
    intros H E. destruct (pure c) as [pc|] eqn:Ep.
    2:{ destruct c; try discriminate; simpl in E; rewrite do_this in E; inversion E; subst;
        (split; [exact H|]; split; [repeat split|]); auto.
        right; left. destruct H as (_ & [l B] & _). exists (Areas l). auto. }
    destruct c as [thr ts| | | | | | | |]; try discriminate;
      try (destruct (proj1 (fwf_frep h f) H) as (d & a & o & R);
           destruct (@sim_fcall T W tsub tdiv tlt teq tzero tbig wadd wzero fuel lim dist h f d a o _ pc R Ep) as (h2 & f2 & y & E2 & R2 & P & Ag);
           [intros; discriminate|]; rewrite E in E2; inversion E2; subst;
           split; [apply fwf_frep; eauto|]; split; [exact P|]; destruct y as [r|]; auto;
           match type of Ag with fagrees _ _ ?t => destruct t as [an|] end; simpl in Ag; [|tauto]; unfold fshow in Ag;
           destruct (get h2 r) as [[l|l|l|l]|] eqn:Eg; try discriminate; [left|right; left]; eexists; eassumption).
    simpl in E. destruct (flow_directions_wf H E) as (A & B & C). split; [exact A|]. split; [exact B|]. destruct x; auto.
  Qed.

  Lemma holds_ints (h : heap) a : holds_ok (@as_ints T W) h a = true -> exists l, res_ints h a l.
  Proof.
    unfold holds_ok. destruct a as [r|]; [|exists None; exact I]. destruct (get h r) as [[l|l|l|l]|] eqn:E; simpl; try discriminate.
    intros _. exists (Some l). exact E.
  Qed.
  Lemma holds_dict (h : heap) a : holds_ok (@as_dict T W) h a = true -> exists l, rep_dict h a l.
  Proof.
    unfold holds_ok. destruct a as [r|]; [|exists None; exact I]. destruct (get h r) as [[l|l|l|l]|] eqn:E; simpl; try discriminate.
    intros _. exists (Some l). exact E.
  Qed.
  Lemma args_resolve (h : heap) c : args_ok h c = true -> exists p, resolves h c p.
  Proof.
    destruct c; cbn [args_ok]; rewrite ?andb_true_iff; intros H; repeat match goal with H : _ /\ _ |- _ => destruct H end;
      repeat match goal with
      | H : holds_ok (@as_ints _ _) _ _ = true |- _ => apply holds_ints in H; destruct H
      | H : holds_ok (@as_dict _ _) _ _ = true |- _ => apply holds_dict in H; destruct H
      end.
    - destruct contrib as [v|r]; [exists (DelineateStreams (Scalar v) x); split; auto|].
      unfold holds_ok in H. destruct (get h r) as [[l|l|l|l]|] eqn:E; simpl in H; try discriminate.
      exists (DelineateStreams (PerCell (fvals l)) x). split; auto. exists l. auto.
    - destruct x as [l|]; [|contradiction]. now exists (SetStreamArray l).
    - now exists StreamArray.
    - exists (StreamConnectivity x grouped). split; auto.
    - exists (CreateStreamVectors x grouped). split; auto.
    - now exists (ConnectionData x).
    - now exists (PackageData x).
    - exists (SegmentData x grouped). split; auto.
    - exists (ReachData x grouped). split; auto.
    - match goal with A : res_ints _ _ ?u, B : rep_dict _ _ ?v |- _ => exists (Irunbnd u v grouped) end. repeat split; auto.
    - match goal with A : res_ints _ a ?u, B : res_ints _ basin ?v |- _ => exists (Cascades u v many2many grouped) end. repeat split; auto.
  Qed.
  Lemma resolve_args (h : heap) c p : resolves h c p -> args_ok h c = true.
  Proof. clear.
    destruct c, p; simpl; try tauto; unfold res_ints, rep_ints, rep_dict, holds_ok; intros H;
      repeat match goal with
      | H : _ /\ _ |- _ => destruct H
      | |- context [match ?x with inl _ => _ | inr _ => _ end] => destruct x
      | H : match ?x with Some _ => _ | None => _ end |- _ => destruct x
      | H : match ?x with Scalar _ => _ | PerCell _ => _ end |- _ => destruct x
      | H : exists _, _ |- _ => destruct H
      | H : False |- _ => contradiction
      | H : get _ _ = Ok _ |- _ => rewrite H; clear H
      end; auto.
  Qed.

  Lemma scall_wf k h s c h' s' x tr fa : swf h s -> is_elevs h tr -> fwf h fa -> args_ok h c = true ->
    scall_in k (Some tr) (Some fa) c h s = (h', s', x) ->
    swf h' s' /\ same_base s s' /\ match x with Ok (ARef r) => is_ints h' r \/ is_dict h' r | _ => True end.
  Proof. 
    intros Hs [top Ht] ([dem Hd] & _) Ha E. destruct (proj1 (swf_srep h s) Hs) as (d & a & o & R).
    destruct (args_resolve Ha) as [p Hp].
    destruct (@sim_scall T W tsub tdiv tlt teq tzero tbig fone fabs fsum fdiv fle0 fkeep vge fuel lim ncol dist
                k h s d a o c p tr top fa dem R Hp Ht Hd) as (h2 & s2 & y & E2 & X & R2 & B & Ag).
    pose proof (eq_trans (eq_sym E) E2) as E3. inversion E3; subst. split; [apply swf_srep; eauto|]. split; [exact B|].
    destruct y as [[r| | |]|]; auto. match type of Ag with sagrees _ _ ?t => destruct t end; simpl in Ag; [|tauto].
    destruct (get h2 r) as [[l|l|l|l]|] eqn:Eg; try discriminate; [left|right]; eexists; eassumption.
  Qed.

  Lemma upd_nth {A} (l : list A) i x j y : nth_error (upd l i x) j = Some y ->
    (j = i /\ y = x) \/ (j <> i /\ nth_error l j = Some y).
  Proof.
    destruct (Nat.eq_dec j i) as [->|N].
    - destruct (Nat.lt_ge_cases i (length l)) as [L|L].
      + rewrite nth_error_upd_eq by auto. intros E. inversion E; auto.
      + rewrite upd_oob by auto. intros E. assert (i < length l) by (apply nth_error_Some; congruence). lia.
    - rewrite nth_error_upd_neq by auto. auto.
  Qed.

  Lemma edit_kin c e c' : apply_edit c e = Ok c' -> kin c c'.
  Proof.
    destruct c as [l|l|[l|l]|l], e; simpl; try discriminate;
      try (destruct (npset l i v); simpl; [|discriminate]); intros E; inversion E; subst; simpl; auto.
  Qed.
  Lemma edit_kept h r c c' : get h r = Ok c -> kin c c' -> kept h (upd h r c').
  Proof.
    intros E K r' d E'. destruct (Nat.eq_dec r r') as [<-|N].
    - exists c'. rewrite E in E'. inversion E'; subst. split; auto. apply get_ok, nth_error_upd_eq. eapply get_lt; eauto.
    - exists d. split; [|apply kin_refl]. apply get_ok. rewrite nth_error_upd_neq by auto. now apply get_ok.
  Qed.

  (** a world with the same objects and top whose arrays keep their kinds *)
  Lemma wf_kept h h' tp fs ss : kept h h' -> wf (World h tp fs ss) -> wf (World h' tp fs ss).
  Proof.
    intros K [A B C D E F]. constructor; simpl in *; eauto using fwf_kept, swf_kept, kept_elevs.
  Qed.

  Lemma new_flow_spec h dem check h' s' x : w_new_flow tlt teq tbig areas nb0 thr0 dem check h tt = (h', s', x) ->
    match x with
    | Err _ => ext h h'
    | Ok f => exists d mins, get h dem = Ok (CElevs d) /\ min_cells tlt teq tbig d = Ok mins /\
        (check = true -> length mins <= 1) /\
        h' = (h ++ [CAcc (Areas areas)]) ++ [CElevs d] /\
        f = Flow (length (h ++ [CAcc (Areas areas)])) (length h) mins nb0 thr0 None None None
    end.
  Proof.
    intros E. unfold w_new_flow in E. unfold elevs, mbind at 1, mbind at 1, read in E.
    destruct (get h dem) as [[l|l|l|l]|] eqn:Ed; simpl in E; try (inversion E; subst; apply ext_refl).
    rewrite do_alloc in E. rewrite (do_copy _ _ (get_app_old _ Ed)) in E.
    destruct (min_cells tlt teq tbig l) as [mins|e] eqn:Em.
    2:{ rewrite do_err in E. inversion E; subst. apply ext_app2. }
    rewrite do_ok in E. destruct (check && (1 <? length mins)) eqn:Ec; inversion E; subst.
    - apply ext_app2.
    - exists l, mins. repeat split; auto. intros ->. simpl in Ec. apply Nat.ltb_ge in Ec. lia.
  Qed.

  Lemma fill_spec g dem (h : heap) h' s' x : w_fill g dem h tt = (h', s', x) ->
    ext h h' /\ match x with Ok r => r = length h /\ exists d out, get h dem = Ok (CElevs d) /\ g d = Ok out /\ get h' r = Ok (CElevs out) | _ => True end.
  Proof.
    intros E. assert (X : ext h h') by (eapply ext_of_keeps; [|exact E]; intros n; apply keeps_fill). split; auto.
    unfold w_fill in E. destruct (get h dem) as [c|e] eqn:Ed.
    - rewrite (do_copy _ _ Ed) in E. destruct c as [l|l|l|l];
        try (unfold elevs, mbind, read in E; rewrite get_app_new in E; simpl in E; inversion E; subst; exact I).
      rewrite (do_elevs _ _ (get_app_new _ _)) in E. destruct (g l) as [out|e] eqn:Eg.
      + rewrite do_ok, do_write, upd_app_new in E. inversion E; subst. split; auto. exists l, out. repeat split; auto.
        apply get_app_new.
      + rewrite do_err in E. inversion E; subst. exact I.
    - unfold copy, mbind, read in E. rewrite Ed in E. inversion E; subst. exact I.
  Qed.

  Lemma nth_snoc {A} (l : list A) x i y : nth_error (l ++ [x]) i = Some y ->
    nth_error l i = Some y \/ (i = length l /\ y = x).
  Proof.
    destruct (Nat.lt_ge_cases i (length l)) as [L|L].
    - rewrite nth_error_app1 by auto. auto.
    - rewrite nth_error_app2 by auto. destruct (i - length l) eqn:E; simpl; [|destruct n; discriminate].
      intros X. inversion X; subst. right. split; auto. lia.
  Qed.

  Theorem step_wf w c : wf w -> wf (fst (step w c)).
  Proof.
    destruct w as [h tp fs ss]. intros H. pose proof H as [Hf Hs Ha Ht Hh Hp]. simpl in Hf, Hs, Ha, Ht, Hh, Hp.
    destruct c; cbn [MWorld.step fst].
    - eapply wf_kept; [|exact H]. apply ext_kept, ext_app.
    - destruct (get h r) as [c|] eqn:Eg; simpl; auto. destruct (apply_edit c e) as [c'|] eqn:Ee; simpl; auto.
      eapply wf_kept; [|exact H]. eapply edit_kept; eauto using edit_kin.
    - destruct (w_fill g dem h tt) as [[h1 s1] y] eqn:Em. simpl. eapply wf_kept; [|exact H].
      apply ext_kept. eapply fill_spec; eauto.
    - destruct (w_new_flow tlt teq tbig areas nb0 thr0 dem check h tt) as [[h1 s1] [f|e]] eqn:Em; cbn [fst];
        pose proof (new_flow_spec Em) as Sp; simpl in Sp.
      + destruct Sp as (d & mins & E1 & E2 & _ & -> & ->).
        assert (K : kept h ((h ++ [CAcc (Areas areas)]) ++ [CElevs d])) by (apply ext_kept, ext_app2).
        constructor; simpl.
        * intros i f E. apply nth_snoc in E. destruct E as [E|[_ ->]]; eauto using fwf_kept. repeat split; simpl; auto.
          -- exists d. apply get_app_new.
          -- exists areas. apply get_app_old, get_app_new.
        * eauto using swf_kept.
        * intros j s E. rewrite app_length. simpl. specialize (Ha j s E). lia.
        * eauto using kept_elevs.
        * auto.
        * intros i f r E Er. apply nth_snoc in E. destruct E as [E|[_ ->]]; eauto. simpl.
          destruct (Ht r Er) as [l El]. apply get_lt in El. rewrite app_length. simpl. lia.
      + eapply wf_kept; [|exact H]. now apply ext_kept.
    - destruct (nth_error fs i) as [f|] eqn:Ef; cbn [fst]; auto.
      destruct (fcall_in c h f) as [[h1 f1] y] eqn:Em. cbn [fst].
      assert (K : kept h h1) by (apply ext_kept; eapply ext_of_keeps; [|exact Em]; intros n; apply keeps_fcall).
      destruct (fcall_wf (Hf _ _ Ef) Em) as (A & (P1 & P2 & P3) & _).
      constructor; simpl.
      + intros i' f' E. apply upd_nth in E. destruct E as [[_ ->]|[_ E]]; eauto using fwf_kept.
      + eauto using swf_kept.
      + intros j s E. rewrite upd_length. eauto.
      + eauto using kept_elevs.
      + auto.
      + intros i' f' r E Er. apply upd_nth in E. destruct E as [[_ ->]|[_ E]]; eauto. rewrite P1. eauto.
    - destruct (nth_error fs i) as [f|] eqn:Ef; cbn [fst]; auto.
      destruct (Hf _ _ Ef) as ([d Ed] & Far & Ffd & Fac). rewrite Ed.
      assert (K : kept h (h ++ [CElevs d])) by apply ext_kept, ext_app.
      assert (Ktop : forall r, Some (length h) = Some r -> is_elevs (h ++ [CElevs d]) r).
      { intros r E. inversion E; subst. exists d. apply get_app_new. }
      assert (Kp : forall i f r, nth_error fs i = Some f -> Some (length h) = Some r -> f_dem f <> r).
      { intros i' f' r E Er X. inversion Er; subst. destruct (Hf _ _ E) as ([d' Ed'] & _).
        apply get_lt in Ed'. lia. }
      assert (Bad : wf (World (h ++ [CElevs d]) (Some (length h)) fs ss)).
      { constructor; simpl; eauto using fwf_kept, swf_kept. discriminate. }
      destruct (f_fdir f) as [rd|] eqn:E1; [|exact Bad]. destruct (f_acc f) as [ra|] eqn:E2; [|exact Bad].
      simpl in Ffd, Fac. constructor; simpl; eauto using fwf_kept.
      + intros j s E. apply nth_snoc in E. destruct E as [E|[_ ->]]; eauto using swf_kept.
        repeat split; simpl; eauto using kept_ints, kept_acc.
      + intros j s E. apply nth_snoc in E. destruct E as [E|[_ ->]]; eauto. simpl. apply nth_error_Some. congruence.
      + discriminate.
    - destruct (nth_error ss j) as [s|] eqn:Es; cbn [fst]; auto.
      destruct (args_ok h c) eqn:Eargs; cbn [fst]; auto.
      destruct tp as [tr|]; [|exfalso; apply Hh; auto; destruct ss; [destruct j; discriminate|discriminate]].
      destruct (nth_error fs (s_fa s)) as [fa|] eqn:Efa.
      2:{ apply nth_error_None in Efa. specialize (Ha _ _ Es). lia. }
      destruct (scall_in (s_kind s) (Some tr) (Some fa) c h s) as [[h1 s1] y] eqn:Em. cbn [fst].
      assert (K : kept h h1) by (apply ext_kept; eapply ext_of_keeps; [|exact Em]; intros n; apply keeps_scall).
      destruct (scall_wf (Hs _ _ Es) (Ht _ eq_refl) (Hf _ _ Efa) Eargs Em) as (A & (P1 & P2 & P3 & P4) & _).
      constructor; simpl; eauto using fwf_kept, kept_elevs.
      + intros j' s' E. apply upd_nth in E. destruct E as [[_ ->]|[_ E]]; eauto using swf_kept.
      + intros j' s' E. apply upd_nth in E. destruct E as [[_ ->]|[_ E]]; eauto. rewrite P2. eauto.
      + discriminate.
    - destruct tp as [r|]; cbn [fst]; auto. destruct (get h r) as [c|]; cbn [fst]; auto.
      eapply wf_kept; [|exact H]. apply ext_kept, ext_app.
  Qed.

  Lemma empty_wf : wf (@empty_world T W).
  Proof.
    constructor; simpl; try (intros [|]; discriminate); auto; try discriminate.
  Qed.
  Theorem run_wf cs : forall w, wf w -> wf (run w cs).
  Proof. induction cs as [|c cs IH]; simpl; intros w H; auto. apply IH. now apply step_wf. Qed.
End Inv.
