(** C96, C97: who owns the arrays of a session (MWorld.v), and the elevations of the records. *)
From Verif Require Import Py MFlow MDir MObj MStream MSobj MWorld LWorld LWorld2 LWorld3 LWorld4 LWorld5 PropsWorld.
Set Implicit Arguments.
Unset Strict Implicit.
Local Open Scope nat_scope.
Local Open Scope list_scope.
Local Arguments mbind : simpl never.

Section World.
  Context {T W : Type}.
  Variables (tsub tdiv : T -> T -> T) (tlt teq : T -> T -> bool) (tzero tbig : T).
  Variables (wadd : W -> W -> W) (wzero : W).
  Variables (fone : T) (fabs : T -> T) (fsum : list T -> T) (fdiv : T -> T -> option T)
            (fle0 fkeep : T -> bool).
  Variable vge : Z + W -> Z + W -> bool.
  Variables (fuel lim : nat) (ncol : Z).
  Variables (dist : nat -> nat -> T) (areas : list W) (nb0 : list (list nat)) (thr0 : T).
  Notation world := (@world T W).
  Notation cmd := (@cmd T W).
  Notation heap := (@heap T W).
  Notation cell := (@cell T W).
  Notation step := (step tsub tdiv tlt teq tzero tbig wadd wzero fone fabs fsum fdiv fle0 fkeep vge fuel lim ncol
                         dist areas nb0 thr0).
  Notation run := (run tsub tdiv tlt teq tzero tbig wadd wzero fone fabs fsum fdiv fle0 fkeep vge fuel lim ncol
                         dist areas nb0 thr0).
  Notation reply := (reply tsub tdiv tlt teq tzero tbig wadd wzero fone fabs fsum fdiv fle0 fkeep vge fuel lim ncol
                         dist areas nb0 thr0).
  Notation reachable := (reachable tsub tdiv tlt teq tzero tbig wadd wzero fone fabs fsum fdiv fle0 fkeep vge fuel lim ncol
                         dist areas nb0 thr0).
  Notation fcall_in := (w_fcall tsub tdiv tlt teq tzero tbig wadd wzero fuel lim dist).
  Notation scall_in := (w_scall tsub tdiv tlt tzero tbig fone fabs fsum fdiv fle0 fkeep vge fuel lim ncol dist).

  (** some object, or the modelgrid, keeps the array [r] *)
  Definition held (w : world) (r : ref) : Prop :=
    (exists i f, nth_error (w_flows w) i = Some f /\ holds_f f r) \/
    (exists j s, nth_error (w_streams w) j = Some s /\ holds_s s r) \/
    w_grid_top w = Some r.

  Lemma held_lt w r : wf w -> held w r -> r < length (w_heap w).
  Proof.
    intros [A B _ D _ _] [(i & f & E & H)|[(j & s & E & H)|E]].
    - eapply holds_f_lt; eauto.
    - eapply holds_s_lt; eauto.
    - destruct (D _ E) as [l El]. eapply get_lt; eauto.
  Qed.

  (** ** an array the caller owns stays the caller's until passed to set_stream_array *)
  Lemma step_unheld w c r : r < length (w_heap w) -> ~ held w r -> (forall j, c <> StreamCall j (WSetStreamArray r)) ->
    ~ held (fst (step w c)) r.
  Proof.
    intros L N NS H. apply N. destruct w as [h tp fs ss]. unfold held in *. simpl in L, N. destruct c; simpl in H |- *.
    - exact H.
    - destruct (get h r0); simpl in H; auto. destruct (apply_edit _ e); simpl in H; auto.
    - destruct (w_fill g dem h tt) as [[? ?] ?]. exact H.
    - destruct (w_new_flow tlt teq tbig areas nb0 thr0 dem check h tt) as [[h1 s1] [f|e]] eqn:Em; simpl in H; auto.
      destruct H as [(i & f' & E & Hf)|H]; [|right; exact H]. apply nth_snoc in E. destruct E as [E|[_ ->]]; [left; eauto|].
      pose proof (new_flow_spec Em) as Sp. simpl in Sp. destruct Sp as (d & mins & _ & _ & _ & _ & ->).
      exfalso. unfold holds_f in Hf. simpl in Hf. rewrite app_length in Hf. simpl in Hf.
      destruct Hf as [Hf|[Hf|[Hf|Hf]]]; [lia|lia|discriminate|discriminate].
    - destruct (nth_error fs i) as [f|] eqn:Ei; simpl in H; auto.
      destruct (fcall_in c h f) as [[h1 f1] y] eqn:Em. simpl in H.
      destruct H as [(i' & f' & E & Hf)|H]; [|right; exact H]. apply upd_nth in E. destruct E as [[_ ->]|[_ E]]; [|left; eauto].
      assert (G : fgrown (length h) f f) by (intros x X; auto).
      destruct (kp_grown (n := length h) (le_n _) G Em) as (_ & G' & _).
      destruct (G' _ Hf) as [X|X]; [left; eauto|lia].
    - destruct (nth_error fs i) as [f|] eqn:Ei; simpl in H; auto. destruct (get h (f_dem f)) as [d|]; simpl in H; auto.
      assert (Ht : Some (length h) <> Some r) by (intros X; inversion X; lia).
      assert (Bad : (exists i f, nth_error fs i = Some f /\ holds_f f r) \/
                    (exists j s, nth_error ss j = Some s /\ holds_s s r) \/ Some (length h) = Some r ->
                    (exists i f, nth_error fs i = Some f /\ holds_f f r) \/
                    (exists j s, nth_error ss j = Some s /\ holds_s s r) \/ tp = Some r) by tauto.
      destruct (f_fdir f) as [rd|] eqn:E1; [|now apply Bad]. destruct (f_acc f) as [ra|] eqn:E2; [|now apply Bad].
      simpl in H. destruct H as [H|[(j & s & E & Hs)|H]]; [left; exact H| |tauto].
      apply nth_snoc in E. destruct E as [E|[_ ->]]; [right; left; eauto|]. left. exists i, f. split; auto.
      unfold holds_s in Hs. simpl in Hs. unfold holds_f. rewrite E1, E2.
      destruct Hs as [->|[->|[X|[X|X]]]]; auto; discriminate.
    - destruct (nth_error ss j) as [s|] eqn:Ej; simpl in H; auto. destruct (args_ok h c); simpl in H; auto.
      destruct (scall_in (s_kind s) tp (nth_error fs (s_fa s)) c h s) as [[h1 s1] y] eqn:Em. simpl in H.
      destruct H as [H|[(j' & s' & E & Hs)|H]]; [left; exact H| |right; right; exact H].
      apply upd_nth in E. destruct E as [[_ ->]|[_ E]]; [|right; left; eauto].
      assert (G : sgrown (length h) s (given_array c) s) by (intros x X; auto).
      destruct (kp_scall (n := length h) (le_n _) G Em) as (_ & G' & _).
      destruct (G' _ Hs) as [X|[X|X]]; [right; left; eauto|lia|].
      exfalso. unfold given_array in X. destruct c; try discriminate. inversion X; subst. now apply (NS j).
    - destruct tp as [t|]; simpl in H; auto. destruct (get h t); simpl in H; auto.
  Qed.

  Lemma step_length w c : length (w_heap w) <= length (w_heap (fst (step w c))).
  Proof.
    destruct (edit_or_not c) as [[r [e ->]]|D].
    - destruct w as [h tp fs ss]. simpl. destruct (get h r); simpl; auto. destruct (apply_edit _ e); simpl; auto.
      rewrite upd_length. auto.
    - destruct (step w c) as [w' x] eqn:E. eapply step_keeps; eauto.
  Qed.

  Theorem C96_unheld_stays_unheld cs : forall w r, r < length (w_heap w) -> ~ held w r ->
    (forall j, ~ In (StreamCall j (WSetStreamArray r)) cs) -> ~ held (run w cs) r.
  Proof.
    induction cs as [|c cs IH]; intros w r L N NS; auto. apply IH.
    - pose proof (step_length w c). lia.
    - apply step_unheld; auto. intros j ->. apply (NS j). now left.
    - intros j I. apply (NS j). now right.
  Qed.

  (** ** C96: results that are copies *)
  (** fill_sinks, fill_nan_values, modelgrid.top, get_nidp, get_watershed_boundary, get_subbasins,
      stream_array and irunbnd *)
  Definition copying (c : cmd) : Prop :=
    match c with
    | Fill _ _ | Top | FlowCall _ WNidp | FlowCall _ (WWatershed _) | FlowCall _ (WSubbasins _)
    | StreamCall _ WStreamArray | StreamCall _ (WIrunbnd _ _ _) => True
    | _ => False
    end.

  Lemma irunbnd_fresh (h : heap) s x g b h' s' (r : ref) : swf h s ->
    args_ok h (WIrunbnd x g b) = true ->
    w_irunbnd (T := T) fuel lim x g b h s = (h', s', Ok (ARef r)) -> length h <= r /\ ~ holds_s s' r.
  Proof.
    intros Hs Ha E. destruct (proj1 (swf_srep h s) Hs) as (d & a & o & R).
    destruct (args_resolve Ha) as [[] Hp]; simpl in Hp; try contradiction. destruct Hp as (Hx & _ & _).
    unfold w_irunbnd in E. pose proof (sim_pick R Hx) as P. destruct (pick o _) as [l|e]; simpl in P.
    2:{ rewrite (mbind_err _ P) in E. discriminate. }
    destruct P as [r0 [P1 P2]]. rewrite (mbind_ok _ P2), do_this in E.
    assert (Tail : forall h1 s1 r1 y, swf h1 s1 -> length h <= length h1 -> get h1 (s_fdir s1) = Ok (CInts d) -> s_fdir s1 = s_fdir s ->
      mbind (copy r1) (fun r' => mbind (ints r') (fun l => mbind (ints (s_fdir s)) (fun fdir =>
        mbind (liftr (irunbnd fuel fdir l)) (fun out => mbind (alloc (CInts out)) (fun o => ret (@ARef T o)))))) h1 s1 = (h', s', Ok y) ->
      y = ARef r -> length h <= r /\ ~ holds_s s' r).
    { intros h1 s1 r1 y H1 L1 F1 Es E1 ->. destruct (get h1 r1) as [c|e] eqn:Eg.
      2:{ unfold copy, mbind at 1, mbind at 1, read in E1. rewrite Eg in E1. discriminate. }
      rewrite (do_copy _ _ Eg) in E1. destruct c as [l'|l'|l'|l'];
        try (unfold ints, mbind, read in E1; rewrite get_app_new in E1; simpl in E1; discriminate).
      rewrite (do_ints _ _ (get_app_new _ _)), <- Es, (do_ints _ _ (get_app_old _ F1)) in E1.
      destruct (irunbnd fuel d l') as [out|e]; [|discriminate].
      rewrite do_ok, do_alloc in E1. inversion E1; subst. rewrite app_length. simpl. split; [lia|].
      intros X. apply (holds_s_lt H1) in X. lia. }
    destruct g as [g|].
    - rewrite do_ret in E. eapply Tail; eauto. apply R.
    - destruct (s_seg s) as [sg|] eqn:Esg.
      + rewrite do_ret in E. eapply Tail; eauto. apply R.
      + rewrite do_assoc in E.
        destruct (@sim_run2005 T W fuel lim h s d a o (Some r0) (Some l) b R P1) as (h2 & s2 & B2 & X2 & P).
        destruct (run2005 lim fuel d o (Some l) b) as [[o' m]|e].
        * destruct P as [rg [P3 [P4 [P5 P6]]]]. rewrite (mbind_ok _ P3) in E.
          unfold mbind at 1 in E. destruct (w_pick None h2 s2) as [[h3 s3] [r3|e]] eqn:Ep; [|discriminate].
          assert (h3 = h2 /\ s3 = s2) as [-> ->].
          { unfold w_pick in Ep. rewrite do_this in Ep. destruct (s_strm s2); inversion Ep; auto. }
          destruct B2 as (B1 & B2 & B3 & B4).
          eapply (Tail h2 s2 r3); eauto.
          -- apply swf_srep. eauto.
          -- destruct (@keeps_run2005 T W fuel lim (length h) (Some r0) b h s h2 s2 (Ok rg) (le_n _) P3) as [L _]. exact L.
          -- apply P4.
        * destruct P as [P3 ->]. rewrite (mbind_err _ P3) in E. discriminate.
  Qed.

  Theorem C96_copies_belong_to_the_caller w c w' r :
    reachable w -> copying c -> step w c = (w', Ok (ARef r)) -> (forall a, ~ shows w r a) /\ ~ held w' r.
  Proof.
    intros Hr Hc E. assert (Hw : wf w) by now apply reachable_wf in Hr.
    destruct w as [h tp fs ss]. pose proof Hw as [Hf Hs Ha Ht Hh Hp]. simpl in *.
    assert (Old : length h <= r -> (forall a, ~ nth_error h r = Some a) /\ ~ held (World h tp fs ss) r).
    { intros L. split; [intros a X; assert (r < length h) by (apply nth_error_Some; congruence); lia|].
      intros X. apply (held_lt Hw) in X. simpl in X. lia. }
    unfold shows. simpl. destruct c; simpl in Hc; try contradiction.
    - simpl in E. destruct (w_fill g dem h tt) as [[h1 s1] [r1|e]] eqn:Em; inversion E; subst.
      apply fill_spec in Em. destruct Em as [_ [-> _]]. apply Old. auto.
    - destruct c; try contradiction; simpl in E.
      all: destruct (nth_error fs i) as [f|] eqn:Ei; [|discriminate].
      1: destruct (w_nidp h f) as [[h1 f1] [r1|e]] eqn:Em.
      3: destruct (w_watershed fuel c h f) as [[h1 f1] [r1|e]] eqn:Em.
      5: destruct (w_subbasins fuel lim cs h f) as [[h1 f1] [r1|e]] eqn:Em.
      all: inversion E; subst.
      all: assert (G : fsame f f) by (repeat split).
      1: change (fcall_in WNidp h f = (h1, f1, Ok r)) in Em; destruct (kp_maps (c := WNidp) I (le_n (length h)) G Em) as (_ & G' & L).
      2: change (fcall_in (WWatershed c) h f = (h1, f1, Ok r)) in Em; destruct (kp_maps (c := WWatershed c) I (le_n (length h)) G Em) as (_ & G' & L).
      3: change (fcall_in (WSubbasins cs) h f = (h1, f1, Ok r)) in Em; destruct (kp_maps (c := WSubbasins cs) I (le_n (length h)) G Em) as (_ & G' & L).
      all: specialize (L _ eq_refl); destruct (Old L) as [O1 O2]; split; [exact O1|].
      all: intros [(i' & f' & E' & Hf')|H]; apply O2; [left|right; exact H].
      all: simpl in E'; apply upd_nth in E'; destruct E' as [[_ ->]|[_ E']]; [|eauto].
      all: exists i, f; split; auto; destruct (@fsame_grown T (S r) f f1 G' r Hf') as [X|X]; [exact X|lia].
    - destruct c; try contradiction; simpl in E.
      + destruct (nth_error ss j) as [s|] eqn:Ej; [|discriminate]. 
        assert (E2 : mbind (w_pick None) (fun r => mbind (copy r) (fun r' => ret (@ARef T r'))) h s =
                     scall_in (s_kind s) tp (nth_error fs (s_fa s)) WStreamArray h s) by (destruct (s_kind s); reflexivity).
        rewrite <- E2 in E. unfold w_pick in E. rewrite do_assoc, do_this in E.
        destruct (s_strm s) as [rs|] eqn:Es; [|discriminate]. rewrite do_ret in E.
        destruct (Hs _ _ Ej) as (_ & _ & Cs & _). rewrite Es in Cs. destruct Cs as [l Cs].
        rewrite (do_copy _ _ Cs) in E. inversion E; subst. destruct (Old (le_n _)) as [O1 O2]. split; auto.
        intros [H|[(j' & s' & E' & Hs')|H]]; apply O2; [left; exact H| |right; right; exact H].
        right; left. simpl in E'. apply upd_nth in E'. destruct E' as [[_ ->]|[_ E']]; eauto.
      + destruct (nth_error ss j) as [s|] eqn:Ej; [|discriminate].
        destruct (holds_ok _ h a && holds_ok _ h g) eqn:Eargs; [|discriminate].
        destruct (s_kind s) eqn:Ek; try discriminate. cbn [w_scall] in E.
        destruct (w_irunbnd fuel lim a g grouped h s) as [[h1 s1] y] eqn:Em. inversion E; subst.
        destruct (irunbnd_fresh (Hs _ _ Ej) Eargs Em) as [L N]. destruct (Old L) as [O1 O2]. split; auto.
        intros [H|[(j' & s' & E' & Hs')|H]]; [apply O2; left; exact H| |apply O2; right; right; exact H].
        simpl in E'. apply upd_nth in E'. destruct E' as [[_ ->]|[_ E']]; [contradiction|]. apply O2. right; left; eauto.
    - simpl in E. destruct tp as [t|]; [|discriminate]. destruct (get h t) as [c|]; [|discriminate].
      inversion E; subst. apply Old. auto.
  Qed.

  (** ** C96: results that are not copies *)
  (** the property that shows the array a call returned *)
  Definition shown_by (c : @fcommand T) : option (@fcommand T) :=
    match c with
    | WFlowDirections _ _ | WFlowDirectionArray => Some WFlowDirectionArray
    | WAccumulation _ | WFlowAccumulationArray => Some WFlowAccumulationArray
    | WDem => Some WDem
    | WArea => Some WArea
    | _ => None
    end.

  Lemma edit_ok w r e w' x : step w (Edit r e) = (w', Ok x) -> exists a b,
    shows w r a /\ apply_edit a e = Ok b /\
    w' = World (upd (w_heap w) r b) (w_grid_top w) (w_flows w) (w_streams w) /\ shows w' r b.
  Proof.
    destruct w as [h tp fs ss]. simpl. destruct (get h r) as [a|] eqn:E; simpl; [|discriminate].
    destruct (apply_edit a e) as [b|] eqn:Ee; [|discriminate]. intros X. inversion X; subst.
    exists a, b. unfold shows. simpl. split; [now apply get_ok|]. split; auto. split; auto.
    apply nth_error_upd_eq. eapply get_lt; eauto.
  Qed.

  (** flow_directions, flow_accumulation, flow_direction_array, flow_accumulation_array, dem and
      area hand out the object's own array: what the caller writes there the object shows *)
  Theorem C96_flow_results_are_live_refuted w i c p w1 r e w2 x :
    step w (FlowCall i c) = (w1, Ok (ARef r)) -> shown_by c = Some p -> step w1 (Edit r e) = (w2, Ok x) ->
    exists a b, shows w1 r a /\ apply_edit a e = Ok b /\ reply w2 (FlowCall i p) = Ok (ARef r) /\ shows w2 r b.
  Proof.
    intros E Hp Ee. destruct (edit_ok Ee) as (a & b & A & B & -> & D). exists a, b. split; auto. split; auto. split; auto.
    destruct w as [h tp fs ss]. simpl in E. destruct (nth_error fs i) as [f|] eqn:Ei; [|discriminate].
    destruct (fcall_in c h f) as [[h1 f1] [r1|e1]] eqn:Em; [|discriminate]. inversion E; subst.
    pose proof (fcall_stored Em) as St. unfold MWorld.reply. simpl.
    rewrite nth_error_upd_eq by (apply nth_error_Some; congruence).
    destruct c; inversion Hp; subst; simpl; unfold w_fdir; rewrite ?do_this; simpl; first [rewrite St; reflexivity | reflexivity].
  Qed.

  Lemma delineate_stored t b (h : heap) s h' s' r : w_delineate (T := T) vge t b h s = (h', s', Ok r) -> s_strm s' = Some r.
  Proof.
    unfold w_delineate. rewrite do_this. unfold mbind at 1.
    destruct (w_threshold t h s) as [[h1 s1] [th|e]]; [|discriminate].
    unfold mbind at 1. destruct (accs (s_facc s) h1 s1) as [[h2 s2] [f|e]]; [|discriminate].
    destruct (delineate_streams vge (fvals f) th None) as [l|e]; [|discriminate]. rewrite do_ok, do_alloc.
    unfold mbind at 1.
    match goal with |- context [match ?m with (_, _) => _ end] => destruct m as [[h3 s3] [u|e]] end; [|discriminate].
    rewrite do_store. intros E. now inversion E.
  Qed.

  Lemma ask_stream_array w j s r l : nth_error (w_streams w) j = Some s -> s_strm s = Some r -> shows w r (CInts l) ->
    exists r2, reply w (StreamCall j WStreamArray) = Ok (ARef r2) /\
      shows (fst (step w (StreamCall j WStreamArray))) r2 (CInts l).
  Proof.
    destruct w as [h tp fs ss]. unfold MWorld.reply, shows. simpl. intros Ej Es Eg. rewrite Ej. cbn [args_ok].
    exists (length h). apply get_ok in Eg.
    assert (E2 : scall_in (s_kind s) tp (nth_error fs (s_fa s)) WStreamArray h s = (h ++ [CInts l], s, Ok (ARef (length h)))).
    { assert (E3 : mbind (w_pick None) (fun r => mbind (copy r) (fun r' => ret (@ARef T r'))) h s = (h ++ [CInts l], s, Ok (ARef (length h)))).
      { unfold w_pick. rewrite do_assoc, do_this, Es, do_ret, (do_copy _ _ Eg). reflexivity. }
      destruct (s_kind s); exact E3. }
    rewrite E2. simpl. split; auto. apply get_ok. apply get_app_new.
  Qed.

  (** delineate_streams returns the stored array, set_stream_array stores the caller's: what the
      caller writes there later is what stream_array gives *)
  Theorem C96_stream_array_is_live_refuted w j c w1 x r l i v l' :
    step w (StreamCall j c) = (w1, Ok x) ->
    (x = ARef r /\ exists t b, c = WDelineate t b) \/ c = WSetStreamArray r ->
    shows w1 r (CInts l) -> npset l i v = Ok l' ->
    let w2 := fst (step w1 (Edit r (SetInt i v))) in
    exists r2, reply w2 (StreamCall j WStreamArray) = Ok (ARef r2) /\
      shows (fst (step w2 (StreamCall j WStreamArray))) r2 (CInts l').
  Proof.
    intros E Hc Sl Hv w2.
    assert (Hs : exists s, nth_error (w_streams w1) j = Some s /\ s_strm s = Some r).
    { destruct w as [h tp fs ss]. simpl in E. destruct (nth_error ss j) as [s|] eqn:Ej; [|discriminate].
      destruct (args_ok h c); [|discriminate].
      destruct (scall_in (s_kind s) tp (nth_error fs (s_fa s)) c h s) as [[h1 s1] y] eqn:Em. inversion E; subst. simpl.
      exists s1. split; [apply nth_error_upd_eq; apply nth_error_Some; congruence|].
      destruct Hc as [[-> (t & b & ->)] | ->].
      - assert (E2 : mbind (w_delineate vge t b) (fun r => ret (@ARef T r)) h s = (h1, s1, Ok (ARef r))) by (destruct (s_kind s); exact Em).
        unfold mbind in E2. destruct (w_delineate vge t b h s) as [[h2 s2] [r2|e]] eqn:E3; inversion E2; subst.
        eapply delineate_stored; eauto.
      - assert (E2 : mbind (w_set r) (fun _ => ret (@ANothing T)) h s = (h1, s1, Ok x)) by (destruct (s_kind s); exact Em).
        unfold w_set in E2. rewrite do_assoc, do_this, do_assoc in E2. unfold mbind at 1 in E2.
        destruct (ints r h s) as [[h2 s2] [l0|e]]; [|discriminate]. rewrite do_assoc in E2. unfold mbind at 1 in E2.
        destruct (ints (s_fdir s) h2 s2) as [[h3 s3] [l1|e]]; [|discriminate].
        destruct (negb _); [discriminate|]. rewrite do_store in E2. inversion E2; subst. reflexivity. }
    destruct Hs as (s & Ej & Es).
    destruct (step w1 (Edit r (SetInt i v))) as [w2' y] eqn:Ee.
    assert (exists z, y = Ok z) as [z ->].
    { destruct w1 as [h tp fs ss]. unfold shows in Sl. simpl in Sl, Ee. apply get_ok in Sl. rewrite Sl in Ee. simpl in Ee.
      rewrite Hv in Ee. simpl in Ee. inversion Ee; subst. eauto. }
    destruct (edit_ok Ee) as (a & b & A & B & -> & D).
    assert (b = CInts l') as ->.
    { unfold shows in A, Sl. rewrite Sl in A. inversion A; subst. simpl in B. rewrite Hv in B. simpl in B. now inversion B. }
    subst w2. simpl. eapply ask_stream_array; eauto.
  Qed.

  (** the dictionary Sfr6.stream_connectivity returns is the one connectiondata uses later *)
  Theorem C96_connectivity_is_live_refuted w j s a b w1 g t k v :
    nth_error (w_streams w) j = Some s -> s_kind s = KSfr6 ->
    step w (StreamCall j (WConnectivity a b)) = (w1, Ok (ARef g)) -> shows w1 g (CDict t) ->
    let w2 := fst (step w1 (Edit g (SetKey k v))) in
    reply w2 (StreamCall j (WConnectionData None)) =
      (c <- connectiondata (some_graph (dset Z.eqb t k v)) ;; Ok (APlain (AConn c))).
  Proof.
    intros Ej Ek E Sg w2. destruct w as [h tp fs ss]. simpl in E, Ej. rewrite Ej, Ek in E.
    destruct (holds_ok _ h a); [|discriminate]. cbn [w_scall] in E.
    assert (Hs : exists h1 s1, w_run6 (T := T) lim a h s = (h1, s1, Ok g) /\ w1 = World h1 tp fs (upd ss j s1)).
    { unfold mbind in E. destruct (w_run6 lim a h s) as [[h1 s1] [r|e]]; inversion E; subst. eauto. }
    destruct Hs as (h1 & s1 & Er & ->). unfold shows in Sg. simpl in Sg. apply get_ok in Sg.
    assert (Hg : s_graph s1 = Some (inl g) /\ s_kind s1 = s_kind s).
    { unfold w_run6 in Er. unfold mbind at 1 in Er. destruct (w_pick a h s) as [[h2 s2] [r|e]] eqn:Ep; [|discriminate].
      assert (s2 = s) as ->.
      { unfold w_pick in Ep. rewrite do_this in Ep. destruct a, (s_strm s); inversion Ep; auto. }
      rewrite do_this in Er. unfold mbind at 1 in Er. destruct (copy r h2 s) as [[h3 s3] [r'|e]]; [|discriminate].
      unfold mbind at 1 in Er. destruct (ints r' h3 s3) as [[h4 s4] [l|e]]; [|discriminate].
      unfold mbind at 1 in Er. destruct (ints (s_fdir s) h4 s4) as [[h5 s5] [fd|e]]; [|discriminate].
      destruct (mf6_connectivity lim fd l) as [p|e]; [|discriminate]. rewrite do_ok, do_write, do_alloc, do_store in Er.
      inversion Er; subst. auto. }
    destruct Hg as [Hg Hk]. subst w2. simpl. rewrite Sg. simpl. unfold MWorld.reply. simpl.
    rewrite nth_error_upd_eq by (apply nth_error_Some; congruence).
    rewrite Hk, Ek. cbn [w_scall]. unfold w_conndata. rewrite do_assoc, do_this, Hg. unfold w_graph_of.
    assert (Eg : get (upd h1 g (CDict (dset Z.eqb t k v))) g = Ok (CDict (dset Z.eqb t k v))).
    { apply get_ok, nth_error_upd_eq. eapply get_lt; eauto. }
    rewrite do_assoc, (do_dict _ _ Eg), do_ret. destruct (connectiondata _); reflexivity.
  Qed.

  Notation answer_of fdir fa sl fnb :=
    (sreply vge fone fabs fsum fdiv fle0 fkeep lim fuel ncol fdir (fvals fa) sl fnb).

  (** a stream object works on the FlowDirections object's own array: what the caller writes there
      after building the stream object, the stream object uses *)
  Theorem C96_streams_share_the_flow_array_refuted w k i w1 x rd d ra a n v d' c p sl fnb :
    reachable w -> step w (NewStreams k i) = (w1, Ok x) ->
    reply w (FlowCall i WFlowDirectionArray) = Ok (ARef rd) -> shows w rd (CInts d) ->
    reply w (FlowCall i WFlowAccumulationArray) = Ok (ARef ra) -> shows w ra (CAcc a) ->
    npset d n v = Ok d' ->
    let j := length (w_streams w) in
    let w2 := fst (step w1 (Edit rd (SetInt n v))) in
    resolves (w_heap w2) c p -> ~ many_cascades p ->
    sagrees (w_heap (fst (step w2 (StreamCall j c)))) (reply w2 (StreamCall j c)) (answer_of d' a sl fnb k [] p).
  Proof.
    intros Hr Hn Hd Sd Ha Sa Hv j w2 Hp N.
    destruct (new_streams_spec Hn) as (f & rd' & ra' & Ef & Erd & Era & Es & Efs & c0 & Eh & _ & _).
    pose proof (ask_array Ef Hd) as X1. rewrite Erd in X1. inversion X1; subst rd'.
    pose proof (ask_acc Ef Ha) as X2. rewrite Era in X2. inversion X2; subst ra'.
    assert (Hr1 : reachable w1) by (replace w1 with (fst (step w (NewStreams k i))) by (now rewrite Hn); now apply reachable_step).
    assert (Hr2 : reachable w2) by now apply reachable_step.
    unfold shows in Sd, Sa. apply get_ok in Sd. apply get_ok in Sa.
    assert (E2 : w2 = World (upd (w_heap w1) rd (CInts d')) (w_grid_top w1) (w_flows w1) (w_streams w1)).
    { subst w2. destruct w1 as [h1 tp1 fs1 ss1]. simpl in *. subst h1. rewrite (get_app_old _ Sd). simpl. rewrite Hv. reflexivity. }
    assert (R2 : srep (w_heap w2) (Strm k i rd ra None None None []) d' a new_streams).
    { rewrite E2, Eh. simpl. repeat split; simpl; auto.
      - apply get_ok, nth_error_upd_eq. rewrite app_length. apply get_lt in Sd. lia.
      - apply get_upd_other; [now apply get_app_old|]. intros X. subst ra. rewrite Sd in Sa. discriminate. }
    assert (E3 : nth_error (w_streams w2) j = Some (Strm k i rd ra None None None [])) by (rewrite E2; exact Es).
    destruct (@own_step T W tsub tdiv tlt teq tzero tbig wadd wzero fone fabs fsum fdiv fle0 fkeep vge fuel lim ncol dist areas nb0 thr0
                w2 j _ c p d' a _ (reachable_wf Hr2) E3 R2 Hp) as (fa & dem & s3 & Efa & Edem & _ & _ & _ & Ag).
    simpl in Ag. erewrite answer_without_slopes by exact N. exact Ag.
  Qed.

  (** ** the modelgrid's own top array is never handed out *)
  Definition olist (r : option ref) : list ref := match r with Some r => [r] | None => [] end.
  Definition wcall_refs (c : @wcall W) : list ref :=
    match c with
    | WDelineate t b => (match t with inl _ => [] | inr r => [r] end) ++ olist b
    | WSetStreamArray a => [a]
    | WStreamArray => []
    | WConnectivity a _ | WVectors a _ | WConnectionData a | WPackageData a | WSegmentData a _ | WReachData a _ => olist a
    | WIrunbnd a g _ => olist a ++ olist g
    | WCascades a b _ _ => olist a ++ olist b
    end.
  Definition cmd_refs (c : cmd) : list ref :=
    match c with
    | Edit r _ => [r]
    | Fill _ d => [d]
    | NewFlow d _ => [d]
    | StreamCall _ c => wcall_refs c
    | _ => []
    end.
  Definition result_refs (x : res (@wanswer T)) : list ref := match x with Ok (ARef r) => [r] | _ => [] end.

  (** sessions that use only arrays they were given: [honest cs w known] *)
  Inductive honest : list cmd -> world -> list ref -> Prop :=
  | honest_start : honest [] (@empty_world T W) []
  | honest_more cs w known c : honest cs w known -> incl (cmd_refs c) known ->
      honest (cs ++ [c]) (fst (step w c)) (known ++ result_refs (reply w c)).

  Lemma honest_run cs w known : honest cs w known -> w = run (@empty_world T W) cs.
  Proof. induction 1 as [|cs w known c H IH Hc]; auto. now rewrite run_app, <- IH. Qed.
  Lemma honest_reachable cs w known : honest cs w known -> reachable w.
  Proof. intros H. exists cs. eapply honest_run; eauto. Qed.

  Lemma result_spec w c r : wf w -> reply w c = Ok (ARef r) ->
    r < length (w_heap (fst (step w c))) /\ w_grid_top (fst (step w c)) <> Some r.
  Proof.
    intros Hw E. pose proof (@step_wf T W tsub tdiv tlt teq tzero tbig wadd wzero fone fabs fsum fdiv fle0 fkeep vge fuel
      lim ncol dist areas nb0 thr0 w c Hw) as Hw'.
    destruct w as [h tp fs ss]. pose proof Hw as [Hf Hs Ha Ht Hh Hp]. unfold MWorld.reply in E. simpl in Hf, Hs, Ha, Ht, Hh, Hp.
    assert (Tlt : forall t, tp = Some t -> t < length h).
    { intros t Et. destruct (Ht _ Et) as [l El]. eapply get_lt; eauto. }
    assert (NotTop : forall h' : heap, is_ints h' r \/ is_acc h' r \/ is_dict h' r ->
              (forall t, tp = Some t -> is_elevs h' t) -> tp <> Some r).
    { intros h' [[l X]|[[l X]|[l X]]] Y Z; destruct (Y _ Z) as [l' El]; rewrite El in X; discriminate. }
    destruct c; simpl in *.
    - inversion E; subst. rewrite app_length. simpl. split; [lia|]. intros X. apply Tlt in X. lia.
    - destruct (get h r0); simpl in E; [|discriminate]. destruct (apply_edit _ e); discriminate.
    - destruct (w_fill g dem h tt) as [[h1 s1] [r1|e]] eqn:Em; simpl in *; [|discriminate]. inversion E; subst.
      apply fill_spec in Em. destruct Em as [_ [-> (d & out & _ & _ & Eo)]]. split; [eapply get_lt; eauto|].
      intros X. apply Tlt in X. lia.
    - destruct (w_new_flow tlt teq tbig areas nb0 thr0 dem check h tt) as [[h1 s1] [f|e]]; discriminate.
    - destruct (nth_error fs i) as [f|] eqn:Ei; [|discriminate].
      destruct (fcall_in c h f) as [[h1 f1] [r1|e]] eqn:Em; simpl in *; [|discriminate]. inversion E; subst.
      destruct (fcall_wf (Hf _ _ Ei) Em) as (A & (P1 & P2 & P3) & Hr). destruct Hw' as [Hf' _ _ Ht' _ Hp']. simpl in *.
      destruct Hr as [Hr|[Hr|[-> ->]]].
      + split; [destruct Hr as [l Hr]; eapply get_lt; eauto|]. eapply NotTop; eauto.
      + split; [destruct Hr as [l Hr]; eapply get_lt; eauto|]. eapply NotTop; eauto.
      + split; [destruct A as ([l A] & _); rewrite P1 in A; eapply get_lt; eauto|]. intros X. eapply Hp; eauto.
    - destruct (nth_error fs i) as [f|]; [|discriminate]. destruct (get h (f_dem f)); [|discriminate].
      destruct (f_fdir f); [destruct (f_acc f)|]; discriminate.
    - destruct (nth_error ss j) as [s|] eqn:Ej; [|discriminate]. destruct (args_ok h c) eqn:Eargs; [|discriminate].
      destruct tp as [tr|]; [|exfalso; apply Hh; auto; destruct ss; [destruct j; discriminate|discriminate]].
      destruct (nth_error fs (s_fa s)) as [fa|] eqn:Efa.
      2:{ apply nth_error_None in Efa. specialize (Ha _ _ Ej). lia. }
      destruct (scall_in (s_kind s) (Some tr) (Some fa) c h s) as [[h1 s1] y] eqn:Em. simpl in *. subst y.
      destruct (@scall_wf T W tsub tdiv tlt teq tzero tbig wadd wzero fone fabs fsum fdiv fle0 fkeep vge fuel lim ncol dist
                  _ _ _ _ _ _ _ _ _ (Hs _ _ Ej) (Ht _ eq_refl) (Hf _ _ Efa) Eargs Em) as (A & _ & Hr).
      destruct Hw' as [_ _ _ Ht' _ _]. simpl in *. destruct Hr as [Hr|Hr].
      + split; [destruct Hr as [l Hr]; eapply get_lt; eauto|]. eapply NotTop; eauto.
      + split; [destruct Hr as [l Hr]; eapply get_lt; eauto|]. eapply NotTop; eauto.
    - destruct tp as [t|]; [|discriminate]. destruct (get h t) as [c|]; simpl in *; [|discriminate]. inversion E; subst.
      rewrite app_length. simpl. split; [lia|]. intros X. apply Tlt in X. lia.
  Qed.

  Lemma step_top w c : w_grid_top (fst (step w c)) = w_grid_top w \/
    (exists k i, c = NewStreams k i) /\ w_grid_top (fst (step w c)) = Some (length (w_heap w)).
  Proof.
    destruct w as [h tp fs ss]. destruct c; simpl; auto.
    - destruct (get h r); simpl; auto. destruct (apply_edit _ e); auto.
    - destruct (w_fill g dem h tt) as [[? ?] ?]. auto.
    - destruct (w_new_flow tlt teq tbig areas nb0 thr0 dem check h tt) as [[? ?] [?|?]]; auto.
    - destruct (nth_error fs i) as [f|]; auto. destruct (fcall_in c h f) as [[? ?] ?]; auto.
    - destruct (nth_error fs i) as [f|]; auto. destruct (get h (f_dem f)); auto.
      destruct (f_fdir f); [destruct (f_acc f)|]; simpl; eauto.
    - destruct (nth_error ss j) as [s|]; auto. destruct (args_ok h c); auto.
      destruct (scall_in (s_kind s) tp (nth_error fs (s_fa s)) c h s) as [[? ?] ?]; auto.
    - destruct tp as [t|]; auto. destruct (get h t); auto.
  Qed.

  Lemma honest_known cs w known : honest cs w known ->
    forall r, In r known -> r < length (w_heap w) /\ w_grid_top w <> Some r.
  Proof.
    induction 1 as [|cs w known c H IH Hc]; intros r I; [destruct I|]. apply in_app_iff in I. destruct I as [I|I].
    - destruct (IH _ I) as [L N]. pose proof (step_length w c). split; [lia|].
      destruct (step_top w c) as [->|[_ ->]]; auto. intros X. inversion X; lia.
    - unfold result_refs in I. destruct (reply w c) as [[r0| | |]|] eqn:E; simpl in I; try tauto. destruct I as [->|[]].
      apply result_spec; auto. eapply reachable_wf, honest_reachable; eauto.
  Qed.
  Theorem C96_grid_top_is_never_handed_out cs w known r : honest cs w known -> w_grid_top w = Some r -> ~ In r known.
  Proof. intros H E I. now apply (honest_known H I). Qed.

  (** ** C97: the elevations in the records *)
  Lemma honest_last cs c w known : honest (cs ++ [c]) w known -> exists w0 k0,
    honest cs w0 k0 /\ incl (cmd_refs c) k0 /\ w = fst (step w0 c).
  Proof.
    intros H. inversion H as [E|cs' w' k' c' H' Hc E]; [destruct cs; discriminate|].
    apply app_inj_tail in E. destruct E as [-> ->]. eauto.
  Qed.

  (** after the last construction of a stream object (on FlowDirections object [i], whose
      elevations were [d]), the modelgrid's top is [d] *)
  Theorem C97_grid_top_is_the_last_dem cs1 k i : forall cs2 w known r d,
    honest (cs1 ++ NewStreams k i :: cs2) w known ->
    (forall k' i', ~ In (NewStreams k' i') cs2) ->
    let w1 := run (@empty_world T W) cs1 in
    reply w1 (FlowCall i WDem) = Ok (ARef r) -> shows w1 r (CElevs d) ->
    exists t, w_grid_top w = Some t /\ shows w t (CElevs d).
  Proof.
    intros cs2. induction cs2 as [|c cs2 IH] using rev_ind; intros w known r d H N w1 E S.
    - apply honest_last in H. destruct H as (w0 & k0 & H0 & _ & ->). rewrite (honest_run H0) in *. fold w1 in H0 |- *.
      destruct w1 as [h tp fs ss]. unfold shows in *. unfold MWorld.reply in E. simpl in *.
      destruct (nth_error fs i) as [f|]; [|discriminate]. inversion E; subst.
      apply get_ok in S. rewrite S. exists (length h).
      destruct (f_fdir f); [destruct (f_acc f)|]; simpl; (split; [reflexivity|]); apply get_ok, get_app_new.
    - rewrite app_comm_cons, app_assoc in H. apply honest_last in H. destruct H as (w0 & k0 & H0 & Hc & ->).
      destruct (IH w0 k0 r d H0) as (t & Et & St); auto.
      { intros k' i' I. apply (N k' i'). apply in_app_iff. auto. }
      exists t. destruct (step_top w0 c) as [->|[(k' & i' & ->) _]].
      2:{ exfalso. apply (N k' i'). apply in_app_iff. right. now left. }
      split; auto. destruct (edit_or_not c) as [[r' [e ->]]|D].
      + assert (r' <> t). { intros ->. eapply C96_grid_top_is_never_handed_out; eauto. apply Hc. now left. }
        apply (@C94_only_own_edits_change_an_array T W tsub tdiv tlt teq tzero tbig wadd wzero fone fabs fsum fdiv fle0 fkeep
                 vge fuel lim ncol dist areas nb0 thr0 [Edit r' e] w0 t); auto.
        intros e' [X|[]]. inversion X; congruence.
      + now apply C94_calls_leave_arrays_alone.
  Qed.

  (** the stream-top elevations of a list of records, given the elevations [d] *)
  Definition tops_from (d : list (option T)) (a : @sanswer T) : option (list (option T)) :=
    match a with
    | APkg recs => Some (map (fun p => nth (p_node p) d None) recs)
    | AReach recs => Some (map (fun p => nth (Z.to_nat (r_node p)) d None) recs)
    | _ => None
    end.

  Lemma levels_tail {A B} tp (m : @M T W strm A) (f : A -> res B) (k : A -> B -> @sanswer T) (lv : B -> list (option T) -> list (option T))
        h s h' s' a tops :
    (forall n, keeps n m (fun _ => True)) ->
    (forall q b top, tops_from top (k q b) = Some (lv b top)) ->
    mbind m (fun q => mbind (w_top tp) (fun top => mbind (liftr (f q)) (fun b => ret (ALevels (k q b) (lv b top))))) h s
      = (h', s', Ok (ALevels a tops)) ->
    (forall t, tp = Some t -> exists top, get h t = Ok (CElevs top)) ->
    exists t top, tp = Some t /\ get h t = Ok (CElevs top) /\ tops_from top a = Some tops.
  Proof.
    intros K Hk E Ht. unfold mbind at 1 in E. destruct (m h s) as [[h1 s1] [q|e]] eqn:Em; [|discriminate].
    destruct tp as [t|]; [|discriminate]. destruct (Ht _ eq_refl) as [top Et]. exists t, top. split; auto. split; auto.
    unfold w_top in E. assert (Et1 : get h1 t = Ok (CElevs top)) by (eapply ext_of_keeps; eauto).
    rewrite (do_elevs _ _ Et1) in E. destruct (f q) as [b|e]; [|discriminate].
    rewrite do_ok in E. inversion E; subst. apply Hk.
  Qed.

  Theorem C97_records_use_the_grid_top w j c a tops : reachable w ->
    reply w (StreamCall j c) = Ok (ALevels a tops) ->
    exists t d, w_grid_top w = Some t /\ shows w t (CElevs d) /\ tops_from d a = Some tops.
  Proof.
    intros Hr E. pose proof (reachable_wf Hr) as [_ _ _ Ht _ _]. destruct w as [h tp fs ss]. unfold MWorld.reply in E. simpl in *.
    destruct (nth_error ss j) as [s|]; [|discriminate]. destruct (args_ok h c); [|discriminate].
    destruct (scall_in (s_kind s) tp (nth_error fs (s_fa s)) c h s) as [[h1 s1] y] eqn:Em. simpl in E. subst y.
    assert (NoRef : forall (m : @M T W strm ref) h s h' s', mbind m (fun r => ret (ARef r)) h s = (h', s', Ok (ALevels a tops)) -> False).
    { intros m h0 s0 h' s' X. unfold mbind in X. destruct (m h0 s0) as [[? ?] [?|?]]; discriminate. }
    assert (Concl : (exists t d, tp = Some t /\ get h t = Ok (CElevs d) /\ tops_from d a = Some tops) ->
      exists t d, tp = Some t /\ shows (World h tp fs ss) t (CElevs d) /\ tops_from d a = Some tops).
    { intros (t & d & A & B & C). exists t, d. split; auto. split; auto. now apply get_ok. }
    assert (NoVec : forall x b (h : heap) s h' s', w_vectors (T := T) fuel lim x b h s = (h', s', Ok (ALevels a tops)) -> False).
    { intros x b h0 s0 h' s' X. unfold w_vectors in X. unfold mbind at 1 in X.
      match type of X with match ?m with (_, _) => _ end = _ => destruct m as [[h2 s2] [a'|e]] end; [|discriminate].
      unfold mbind at 1 in X. destruct (w_run2005 fuel lim a' b h2 s2) as [[h3 s3] [g|e]]; [|discriminate].
      unfold mbind at 1 in X. destruct (dict g h3 s3) as [[h4 s4] [sg|e]]; [|discriminate]. rewrite do_this in X.
      destruct (stream_vectors fuel sg (s_nsr s4)); discriminate. }
    assert (NoSet : forall x h s h' s', mbind (@w_set T W x) (fun _ => ret (@ANothing T)) h s = (h', s', Ok (ALevels a tops)) -> False).
    { intros x h0 s0 h' s' X. unfold mbind in X. destruct (w_set x h0 s0) as [[? ?] [?|?]]; discriminate. }
    assert (NoArr : forall (h : heap) s h' s', mbind (@w_pick T W None) (fun r => mbind (copy r) (fun r' => ret (@ARef T r'))) h s = (h', s', Ok (ALevels a tops)) -> False).
    { intros h0 s0 h' s' X. unfold mbind at 1 in X. destruct (w_pick None h0 s0) as [[? ?] [?|?]]; [|discriminate]. eapply NoRef; eauto. }
    destruct (s_kind s), c; cbn [w_scall] in Em; try discriminate Em; try (exfalso; eauto; fail).
    - exfalso. unfold w_conndata in Em. unfold mbind at 1 in Em.
      match type of Em with match ?m with (_, _) => _ end = _ => destruct m as [[h2 s2] [a'|e]] end; [|discriminate].
      destruct (connectiondata a'); discriminate.
    - apply Concl. unfold w_pkgdata in Em.
      eapply (@levels_tail _ _ tp _ (fun q => packagedata (fst q) (snd q)) (fun _ b => APkg b) (fun b top => map (fun p => nth (p_node p) top None) b));
        [| |exact Em|exact Ht]; [|reflexivity]. intros n.
      eapply keeps_weaken with (Q := fun _ => True); [|auto].
      destruct a0 as [r|].
      + eapply keeps_bind; [apply keeps_run6|intros ? _]. eapply keeps_bind; [apply keeps_graph_of|intros ? _].
        eapply keeps_bind; [apply keeps_ints|intros ? _]. now apply keeps_ret.
      + eapply keeps_bind; [apply keeps_this|intros s0 _].
        eapply keeps_bind with (Q := fun _ => True).
        { destruct (s_graph s0); [apply keeps_graph_of|]. eapply keeps_bind; [apply keeps_run6|intros ? _]. apply keeps_graph_of. }
        intros ? _. eapply keeps_bind; [apply keeps_pick|intros ? _]. eapply keeps_bind; [apply keeps_copy|intros ? _].
        eapply keeps_bind; [apply keeps_ints|intros ? _]. now apply keeps_ret.
    - exfalso. unfold w_segdata in Em. unfold mbind in Em. destruct (w_segs fuel lim a0 grouped h s) as [[? ?] [?|?]]; discriminate.
    - apply Concl. unfold w_reachdata in Em.
      eapply (@levels_tail _ _ tp _ (fun q => reach_data ncol (fst q) (snd q)) (fun _ b => AReach b) (fun b top => map (fun p => nth (Z.to_nat (r_node p)) top None) b));
        [| |exact Em|exact Ht]; [|reflexivity]. intros n. apply keeps_segs.
    - exfalso. unfold w_irunbnd in Em.
      repeat (unfold mbind at 1 in Em;
              match type of Em with match ?m with (_, _) => _ end = _ => destruct m as [[? ?] [?|?]]; [|discriminate] end).
      discriminate.
    - exfalso. unfold w_cascades in Em.
      repeat (unfold mbind at 1 in Em;
              match type of Em with match ?m with (_, _) => _ end = _ => destruct m as [[? ?] [?|?]]; [|discriminate] end).
      discriminate.
  Qed.

  (** the elevations in packagedata and reach_data are those of the DEM of the FlowDirections
      object the last stream object was built from *)
  Theorem C97_records_show_the_last_dem cs1 k i cs2 w known r d j c a tops :
    honest (cs1 ++ NewStreams k i :: cs2) w known ->
    (forall k' i', ~ In (NewStreams k' i') cs2) ->
    let w1 := run (@empty_world T W) cs1 in
    reply w1 (FlowCall i WDem) = Ok (ARef r) -> shows w1 r (CElevs d) ->
    reply w (StreamCall j c) = Ok (ALevels a tops) ->
    tops_from d a = Some tops.
  Proof.
    intros H N w1 E S Er.
    destruct (C97_grid_top_is_the_last_dem H N E S) as (t & Et & St).
    destruct (C97_records_use_the_grid_top (honest_reachable H) Er) as (t' & d' & Et' & St' & Ht').
    rewrite Et in Et'. inversion Et'; subst. unfold shows in *. rewrite St in St'. inversion St'; subst. exact Ht'.
  Qed.

  (** deciding [honest] *)
  Fixpoint subset (l known : list ref) : bool :=
    match l with [] => true | r :: l => existsb (Nat.eqb r) known && subset l known end.
  Lemma subset_incl l known : subset l known = true -> incl l known.
  Proof.
    induction l as [|r l IH]; simpl; intros H x []; apply andb_true_iff in H; destruct H as [A B].
    - subst. apply existsb_exists in A. destruct A as [y [I E]]. apply Nat.eqb_eq in E. now subst.
    - now apply IH.
  Qed.
  Fixpoint play (w : world) (known : list ref) (cs : list cmd) : option (world * list ref) :=
    match cs with
    | [] => Some (w, known)
    | c :: cs => if subset (cmd_refs c) known then play (fst (step w c)) (known ++ result_refs (reply w c)) cs else None
    end.
  Lemma play_honest cs : forall done w known w' known', honest done w known -> play w known cs = Some (w', known') ->
    honest (done ++ cs) w' known'.
  Proof.
    induction cs as [|c cs IH]; simpl; intros done w known w' known' H E.
    - inversion E; subst. now rewrite app_nil_r.
    - destruct (subset (cmd_refs c) known) eqn:Es; [|discriminate].
      replace (done ++ c :: cs) with ((done ++ [c]) ++ cs) by now rewrite <- app_assoc.
      eapply IH; eauto. apply honest_more; auto. now apply subset_incl.
  Qed.
End World.
