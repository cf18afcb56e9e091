(** C143: a catchment can be modelled on its own.  When the terrain outside the watershed of a
    cell is blanked (NaN), flow directions, accumulation and the watershed inside stay as they
    were, whatever the arithmetic. *)
From Coq Require Import QArith.
From Verif Require Import Py Spec MFlow MDir MStream LGraph LAcc LAcc2 LWs LDir LDir2 LDir3 LDir4 PropsAcc PropsBasin PropsDir PropsStream PropsEdit PropsEdit2.
Set Implicit Arguments.
Unset Strict Implicit.
Local Open Scope nat_scope.
Local Open Scope list_scope.
Local Notation length := List.length.

(** the terrain blanked where the watershed array is 0 *)
Definition clip {T} (ws : list Z) (dem : list (option T)) : list (option T) :=
  map (fun q => if Z.eqb (fst q) 0 then None else snd q) (combine ws dem).

Lemma clip_length {T} ws (dem : list (option T)) : length ws = length dem -> length (clip ws dem) = length dem.
Proof. intros H. unfold clip. rewrite map_length, combine_length. lia. Qed.

Lemma clip_nth {T} (ws : list Z) (dem : list (option T)) c w e :
  nth_error ws c = Some w -> nth_error dem c = Some e ->
  nth_error (clip ws dem) c = Some (if Z.eqb w 0 then None else e).
Proof.
  unfold clip. revert dem c. induction ws as [|x ws IH]; intros [|y dem] [|c] A B; cbn in *; try discriminate.
  - injection A as ->. injection B as ->. reflexivity.
  - now apply IH.
Qed.

Section Clip.
  Context {T : Type} (O : slope_ops T) (ok : T -> Prop).
  Hypothesis OL : order_laws O ok.
  Variables (thr : T) (dist : nat -> nat -> T) (dem : list (option T)) (nb : list (list nat)) (terminals terminals' : list Z).
  Variables (fuel wfuel : nat) (fdir fdir' : list Z) (nb1 nb2 : list (list nat)) (p : nat) (ws : list Z).
  Notation N := (length dem).
  Hypothesis TR : terrain_ok O ok thr dist dem nb terminals.
  Hypothesis FU : enough_steps nb fuel.
  Hypothesis ND : forall l, In l nb -> NoDup l.
  Hypothesis NS : forall c, ~ adjacent nb c c.
  Hypothesis Hrun : run O fuel dist dem nb thr terminals = Ok (fdir, nb1).
  Hypothesis V : valid_fdir fdir.
  Hypothesis (Hp : p < N) (Vp : is_valid dem p).
  Hypothesis (Hw : N <= wfuel) (Hws : get_watershed_boundary wfuel fdir (Z.of_nat p) None = Ok ws).
  (** inside the watershed water flows to the only steepest neighbour, which is lower *)
  Hypothesis STEEP : forall c, c < N -> flows_through fdir c p -> c <> p ->
    below O dem (down fdir c) c = true /\ forall n, steepest O thr dist dem nb c n -> n = down fdir c.
  (** the run on the clipped terrain; a terminal cell may be given at [p] *)
  Hypothesis TR' : terrain_ok O ok thr dist (clip ws dem) nb terminals'.
  Hypothesis TERM : forall c, In (Z.of_nat c) terminals' -> flows_through fdir c p -> c = p.
  Hypothesis Hrun' : run O fuel dist (clip ws dem) nb thr terminals' = Ok (fdir', nb2).

  Lemma len_fdir : length fdir = N.
  Proof using OL TR FU Hrun.
    destruct (C61_always_computed OL TR FU) as [f [n [E [L _]]]]. rewrite Hrun in E. now inversion E.
  Qed.

  Lemma fd_range c : c < N -> (0 <= nth c fdir 0 < Z.of_nat N)%Z.
  Proof using OL TR FU Hrun V.
    clear Hp Hw. intros Hc. assert (L := len_fdir). rewrite <- L. unfold valid_fdir in V. rewrite Forall_forall in V. apply V, nth_In. lia.
  Qed.

  Lemma ws_in : length ws = N /\ forall c, c < N ->
    (flows_through fdir c p -> nth_error ws c = Some 1%Z) /\ (~ flows_through fdir c p -> nth_error ws c = Some 0%Z).
  Proof using OL TR FU Hrun V Hp Hw Hws.
    assert (L := len_fdir). destruct (@C24_watershed_is_upstream fdir p wfuel V) as [o [E [Lo H]]]; try lia.
    rewrite Hws in E. injection E as <-. split; [lia|]. intros c Hc. apply H. lia.
  Qed.

  Lemma clip_in c : flows_through fdir c p -> nth_error (clip ws dem) c = nth_error dem c.
  Proof using OL TR FU Hrun V Hp Hw Hws.
    intros F. destruct ws_in as [Lw W]. destruct (nth_error dem c) as [e|] eqn:E.
    - assert (Hc : c < N) by (apply nth_error_Some; congruence).
      now rewrite (clip_nth (proj1 (W c Hc) F) E).
    - apply nth_error_None in E. apply nth_error_None. rewrite clip_length by auto. lia.
  Qed.

  Lemma clip_out c : c < N -> ~ flows_through fdir c p -> nth_error (clip ws dem) c = Some None.
  Proof using OL TR FU Hrun V Hp Hw Hws.
    intros Hc F. destruct ws_in as [Lw W]. destruct (nth_error dem c) as [e|] eqn:E; [|apply nth_error_None in E; lia].
    now rewrite (clip_nth (proj2 (W c Hc) F) E).
  Qed.

  Lemma clip_valid c : is_valid (clip ws dem) c <-> is_valid dem c /\ flows_through fdir c p.
  Proof using OL TR FU Hrun V Hp Hw Hws.
    assert (Lf := len_fdir). destruct ws_in as [Lw _]. split.
    - intros [z Hz]. assert (Hc : c < N) by (rewrite <- (clip_length Lw); apply nth_error_Some; congruence).
      destruct (@flows_dec fdir V c p) as [F|F]; [lia| |].
      + rewrite (clip_in F) in Hz. split; [now exists z|auto].
      + rewrite (clip_out Hc F) in Hz. discriminate.
    - intros [[z Hz] F]. exists z. now rewrite (clip_in F).
  Qed.

  Lemma clip_slope c n s : slope_to O thr dist (clip ws dem) c n s <->
    slope_to O thr dist dem c n s /\ flows_through fdir c p /\ flows_through fdir n p.
  Proof using OL TR FU Hrun V Hp Hw Hws.
    split.
    - intros [zc [zn [Hc [Hn E]]]].
      destruct (proj1 (clip_valid c)) as [_ Fc]; [now exists zc|]. destruct (proj1 (clip_valid n)) as [_ Fn]; [now exists zn|].
      rewrite (clip_in Fc) in Hc. rewrite (clip_in Fn) in Hn. split; [now exists zc, zn|auto].
    - intros [[zc [zn [Hc [Hn E]]]] [Fc Fn]]. exists zc, zn. now rewrite (clip_in Fc), (clip_in Fn).
  Qed.

  Lemma ft_down c : flows_through fdir c p -> c <> p -> flows_through fdir (down fdir c) p.
  Proof using. intros [[|k] E] NE; [cbn in E; congruence|]. now exists k. Qed.

  (** the only steepest neighbour stays the only one *)
  Lemma in_steepest c : c < N -> flows_through fdir c p -> c <> p -> is_valid dem c /\ steepest O thr dist dem nb c (down fdir c).
  Proof using OL TR FU Hrun V Hp Hw Hws STEEP.
    intros Hc F NE. destruct (STEEP Hc F NE) as [B U]. unfold below in B.
    destruct (nth (down fdir c) dem None) as [zd|] eqn:Ed; [|discriminate]. destruct (nth c dem None) as [zc|] eqn:Ec; [|discriminate].
    apply nth_opt in Ed, Ec. assert (Vc : is_valid dem c) by now exists zc. split; auto.
    assert (Lf := len_fdir).
    destruct (C59_steepest_neighbour OL TR FU Hrun Hc) as [[E _]|[[E _]|[n [E S]]]]; apply (nth_error_nth _ _ 0%Z) in E.
    - exfalso. destruct F as [k Ek]. apply NE. rewrite <- Ek. assert (D : down fdir c = c) by (unfold down; rewrite E; apply Nat2Z.id).
      clear - D. induction k; cbn; auto. now rewrite D.
    - exfalso. assert (Q := @fd_range c ltac:(assumption)). lia.
    - assert (D : down fdir c = n) by (unfold down; rewrite E; apply Nat2Z.id). now rewrite D.
  Qed.

  Lemma in_steepest' c : c < N -> flows_through fdir c p -> c <> p ->
    steepest O thr dist (clip ws dem) nb c (down fdir c) /\
    forall n, steepest O thr dist (clip ws dem) nb c n -> n = down fdir c.
  Proof using OL TR FU Hrun V Hp Hw Hws STEEP.
    intros Hc F NE. destruct (in_steepest Hc F NE) as [Vc [A [s [S M]]]]. assert (Fd := ft_down F NE).
    assert (S' : slope_to O thr dist (clip ws dem) c (down fdir c) s) by (apply clip_slope; auto).
    split.
    - split; auto. exists s. split; auto. intros n' s' A' H'. apply clip_slope in H'. now apply (M n' s').
    - intros n [A' [s1 [S1 M1]]]. apply (proj2 (STEEP Hc F NE)). split; auto. assert (S1' := proj1 (clip_slope c n s1) S1).
      exists s1. split; [tauto|]. intros n' s' An Sn. destruct (o_lt O s' s1) eqn:E; auto. exfalso.
      destruct (ol_neg OL (tr_slopes TR An Sn) (tr_slopes TR A' (proj1 S1')) (tr_slopes TR A S) E) as [X|X].
      + rewrite (M n' s' An Sn) in X. discriminate.
      + rewrite (M1 _ s A S') in X. discriminate.
  Qed.

  (** [p] is the lowest cell of its watershed *)
  Lemma p_below c : c < N -> flows_through fdir c p -> c <> p -> below O dem p c = true.
  Proof using OL TR STEEP.
    intros Hc [k E]. revert c Hc E. induction k as [|k IH]; intros c Hc E NE; [cbn in E; congruence|].
    assert (F : flows_through fdir c p) by (now exists (S k)).
    destruct (STEEP Hc F NE) as [B _]. cbn in E. destruct (Nat.eq_dec (down fdir c) p) as [D|D]; [now rewrite D in B|].
    assert (Hd : down fdir c < N).
    { unfold below in B. destruct (nth (down fdir c) dem None) eqn:Ed; [|discriminate]. apply nth_opt in Ed.
      apply nth_error_Some. congruence. }
    assert (X := IH _ Hd E D). unfold below in *. destruct (nth p dem None) as [zp|] eqn:Ep; [|discriminate].
    destruct (nth (down fdir c) dem None) as [zd|] eqn:Ed; [|discriminate]. destruct (nth c dem None) as [zc|] eqn:Ec; [|discriminate].
    exact (lt_trans OL (elev_ok TR Ep) (elev_ok TR Ed) (elev_ok TR Ec) X B).
  Qed.

  Lemma p_start : start_cell O (clip ws dem) terminals' p.
  Proof using OL TR FU Hrun V Hp Hw Hws STEEP Vp.
    left. destruct Vp as [zp Ep]. assert (Fp : flows_through fdir p p) by now exists 0.
    exists zp. split; [now rewrite (clip_in Fp)|]. intros c z Hz.
    destruct (proj1 (clip_valid c)) as [_ Fc]; [now exists z|]. rewrite (clip_in Fc) in Hz.
    destruct (Nat.eq_dec c p) as [->|NE].
    - rewrite Ep in Hz. injection Hz as <-. apply (lt_irr OL (tr_elev TR Ep)).
    - assert (Hc : c < N) by (apply nth_error_Some; congruence). assert (B := p_below Hc Fc NE). unfold below in B.
      rewrite (nth_error_nth dem p None Ep), (nth_error_nth dem c None Hz) in B.
      exact (ol_asym OL (tr_elev TR Ep) (tr_elev TR Hz) B).
  Qed.

  Lemma others_free c : flows_through fdir c p -> c <> p -> ~ start_cell O (clip ws dem) terminals' c.
  Proof using OL TR FU Hrun V Hp Hw Hws STEEP Vp TERM.
    intros F NE [[z [Hz M]]|I]; [|apply NE; now apply TERM].
    destruct Vp as [zp Ep]. assert (Fp : flows_through fdir p p) by now exists 0.
    rewrite (clip_in F) in Hz. assert (Hc : c < N) by (apply nth_error_Some; congruence). assert (X := M p zp). rewrite (clip_in Fp) in X. specialize (X Ep).
    assert (B := p_below Hc F NE). unfold below in B.
    rewrite (nth_error_nth dem p None Ep), (nth_error_nth dem c None Hz) in B. congruence.
  Qed.

  (** the directions on the clipped terrain *)
  Lemma clip_dirs c : c < N ->
    (flows_through fdir c p -> c <> p -> down fdir' c = down fdir c /\ nth_error fdir' c = nth_error fdir c) /\
    (c = p \/ ~ flows_through fdir c p -> down fdir' c = c /\ nth_error fdir' c = Some (Z.of_nat c)).
  Proof using OL TR FU Hrun V Hp Hw Hws STEEP Vp TERM TR' Hrun' ND NS.
    intros Hc. destruct ws_in as [Lw _]. assert (Lf := len_fdir).
    assert (D : forall f n, nth_error f c = Some (Z.of_nat n) -> down f c = n)
      by (intros f n E; unfold down; rewrite (nth_error_nth _ _ 0%Z E); apply Nat2Z.id).
    split.
    - intros F NE. destruct (in_steepest Hc F NE) as [Vc S0]. destruct (in_steepest' Hc F NE) as [S1 U1].
      assert (E := C60_unique_steepest_wins OL TR' FU Hrun' ND (proj2 (clip_valid c) (conj Vc F)) (others_free F NE) S1 U1).
      split; [now apply D|]. rewrite E. symmetry. rewrite (nth_error_nth' fdir 0%Z) by lia. f_equal.
      unfold down. assert (Q := @fd_range c ltac:(assumption)).
      now rewrite Z2Nat.id.
    - intros H. assert (E : nth_error fdir' c = Some (Z.of_nat c)); [|split; [now apply D|exact E]].
      destruct H as [->|F].
      + apply (C63_uncontested_outlet_partial OL TR' FU Hrun' ND); [rewrite clip_length; lia|exact p_start|].
        intros [x [n [NE [S1 S2]]]]. destruct (Nat.eq_dec x p) as [->|NX]; [now apply (NS (proj1 S1))|].
        destruct (proj1 (clip_valid x) (proj1 (steep_valid S1))) as [Vx Fx].
        destruct (in_steepest' (val_lt Vx) Fx NX) as [_ U]. apply NE. rewrite (U n S2). symmetry. now apply U.
      + apply (C62_nan_cells_isolated OL TR' FU Hrun'). now apply clip_out.
  Qed.

  Lemma len_fdir' : length fdir' = N.
  Proof using OL TR FU Hrun V Hp Hw Hws TR' Hrun'.
    destruct ws_in as [Lw _]. destruct (C61_always_computed OL TR' FU) as [f [n [E [L _]]]].
    rewrite Hrun' in E. inversion E; subst. now rewrite clip_length in L.
  Qed.

  Theorem C143_clipped_directions : forall c, c < N ->
    nth_error fdir' c =
      (if Nat.eq_dec c p then Some (Z.of_nat c)
       else match nth_error ws c with Some 1%Z => nth_error fdir c | _ => Some (Z.of_nat c) end).
  Proof using OL TR FU Hrun V Hp Hw Hws STEEP Vp TERM TR' Hrun' ND NS.
    intros c Hc. destruct (clip_dirs Hc) as [A B]. destruct ws_in as [_ W]. destruct (W c Hc) as [W1 W2].
    assert (Lf := len_fdir). destruct (Nat.eq_dec c p) as [->|NE]; [now apply B; left|].
    destruct (@flows_dec fdir V c p) as [F|F]; [lia| |].
    - rewrite (W1 F). now apply A.
    - rewrite (W2 F). apply B. now right.
  Qed.

  Lemma valid' : valid_fdir fdir'.
  Proof using OL TR FU Hrun V Hp Hw Hws STEEP Vp TERM TR' Hrun' ND NS.
    assert (Lf := len_fdir). assert (Lf' := len_fdir'). apply Forall_forall. intros d Hd.
    apply (In_nth _ _ 0%Z) in Hd. destruct Hd as [c [Hc <-]].
    assert (E := C143_clipped_directions (c := c)). rewrite (nth_error_nth' fdir' 0%Z) in E by lia. specialize (E ltac:(lia)).
    rewrite Lf' in Hc. assert (Q := fd_range Hc).
    assert (F0 : nth_error fdir c = Some (nth c fdir 0%Z)) by (apply nth_error_nth'; lia).
    destruct (Nat.eq_dec c p); [injection E as ->; lia|].
    destruct (nth_error ws c) as [[|[q|q|]|q]|]; try (injection E as ->; lia). rewrite F0 in E. injection E as ->. lia.
  Qed.

  Hypothesis NC : ~ on_cycle fdir p.

  Lemma clip_untouched n : flows_through fdir n p -> untouched fdir fdir' n.
  Proof using OL TR FU Hrun V Hp Hw Hws STEEP Vp TERM TR' Hrun' ND NS NC.
    intros Fn e R NE. assert (Lf := len_fdir). assert (Lf' := len_fdir').
    assert (He : e < N).
    { destruct (Nat.lt_ge_cases e N) as [H|H]; auto. exfalso. apply R.
      rewrite (proj2 (nth_error_None fdir e)), (proj2 (nth_error_None fdir' e)); auto; lia. }
    destruct (clip_dirs He) as [A B].
    assert (TD : down fdir' e = e -> ~ flows_through fdir' e n).
    { intros D [k E]. apply NE. rewrite <- E. clear -D. induction k; cbn; auto. now rewrite D. }
    destruct (Nat.eq_dec e p) as [->|NP].
    - split; [|apply TD; now apply B; left]. intros F. apply NC. destruct F as [k Ek], Fn as [j Ej].
      assert (NT : down fdir p <> p).
      { intros D. apply NE. rewrite <- Ek. clear -D. induction k; cbn; auto. now rewrite D. }
      split; auto. destruct k as [|k]; [cbn in Ek; congruence|]. exists (S k + j). split; [lia|]. now rewrite downs_add, Ek.
    - assert (NF : ~ flows_through fdir e p) by (intros F; apply R; symmetry; now apply A).
      split; [intros F; apply NF; eapply flows_trans; eauto|apply TD; apply B; now right].
  Qed.

  (** same watershed *)
  Theorem C143_clipped_watershed :
    get_watershed_boundary wfuel fdir' (Z.of_nat p) None = Ok ws.
  Proof using OL TR FU Hrun V Hp Hw Hws STEEP Vp TERM TR' Hrun' ND NS NC.
    rewrite <- Hws. assert (Lf := len_fdir). assert (Lf' := len_fdir').
    apply C113_watershed_untouched; auto; try lia; [exact valid'|]. apply clip_untouched. now exists 0.
  Qed.

  (** same accumulation, for any addition *)
  Theorem C143_clipped_accumulation :
    forall (W : Type) (wadd : W -> W -> W) (wzero : W) (area : list W) afuel afuel' cells cells' areas areas',
      length area = N -> (exists b, b < N /\ b <> p /\ flows_through fdir b p) ->
      flow_accumulation_cells wadd wzero afuel fdir area = Ok cells ->
      flow_accumulation_cells wadd wzero afuel' fdir' area = Ok cells' ->
      flow_accumulation_area wadd wzero afuel fdir area = Ok areas ->
      flow_accumulation_area wadd wzero afuel' fdir' area = Ok areas' ->
      forall c, nth_error ws c = Some 1%Z ->
        nth_error cells' c = nth_error cells c /\ nth_error areas' c = nth_error areas c.
  Proof using OL TR FU Hrun V Hp Hw Hws STEEP Vp TERM TR' Hrun' ND NS NC.
    intros W wadd wzero area af af' cells cells' areas areas' La [b [Hb [NB Fb]]] Ec Ec' Ea Ea' c Hc.
    assert (Lf := len_fdir). assert (Lf' := len_fdir'). destruct ws_in as [Lw WS].
    assert (Lc : c < N) by (rewrite <- Lw; apply nth_error_Some; congruence).
    assert (Fc : flows_through fdir c p).
    { destruct (@flows_dec fdir V c p) as [F|F]; [lia|auto|]. rewrite (proj2 (WS c Lc) F) in Hc. discriminate. }
    refine (@C113_any_addition_untouched W wadd wzero fdir fdir' area area af af' cells cells' areas areas' c
      V valid' _ _ _ _ Ec Ec' Ea Ea' (clip_untouched Fc) _ (fun _ _ => eq_refl)); try lia.
    intros R. destruct (Nat.eq_dec c p) as [->|NE].
    - assert (TP : down fdir' p = p) by (apply (clip_dirs Lc); now left).
      split; [exact NC|]. split; [intros [X _]; contradiction|]. split.
      + intros X. unfold terminal in X. apply R. rewrite (proj2 (proj2 (clip_dirs Lc) (or_introl eq_refl))).
        rewrite (nth_error_nth' fdir 0%Z) by lia. f_equal. rewrite <- X at 2. unfold down.
        assert (Q := @fd_range p ltac:(assumption)). lia.
      + intros _. clear - Fb NB V Hb Lf. destruct Fb as [k E]. revert b NB Hb E. induction k as [|k IH]; intros b NB Hb E; [cbn in E; congruence|].
        cbn in E. destruct (Nat.eq_dec (down fdir b) p) as [D|D]; [exists b; split; [lia|exact D]|].
        apply (IH (down fdir b)); auto. rewrite <- Lf. apply (@down_lt fdir V). lia.
    - exfalso. apply R. symmetry. now apply (clip_dirs Lc).
  Qed.

  (** same streams of the basin: [delineate_streams] with the watershed as basin gives the same
      array, whatever the threshold and the comparison *)
  Theorem C143_clipped_streams :
    forall (W : Type) (wadd : W -> W -> W) (wzero : W) (ge : W -> W -> bool) (area : list W) afuel afuel' areas areas' t out out',
      length area = N -> (exists b, b < N /\ b <> p /\ flows_through fdir b p) ->
      flow_accumulation_area wadd wzero afuel fdir area = Ok areas ->
      flow_accumulation_area wadd wzero afuel' fdir' area = Ok areas' ->
      delineate_streams ge areas t (Some ws) = Ok out ->
      delineate_streams ge areas' t (Some ws) = Ok out' ->
      out' = out.
  Proof using OL TR FU Hrun V Hp Hw Hws STEEP Vp TERM TR' Hrun' ND NS NC.
    intros W wadd wzero ge area af af' areas areas' t out out' La B Ea Ea' D D'.
    assert (Lf := len_fdir). assert (Lf' := len_fdir'). destruct ws_in as [Lw WS].
    assert (EC : exists cells, flow_accumulation_cells wadd wzero af fdir area = Ok cells).
    { unfold flow_accumulation_cells, flow_accumulation_area in *. destruct (acc_run wadd wzero af fdir area); [|discriminate]. eexists. reflexivity. }
    assert (EC' : exists cells, flow_accumulation_cells wadd wzero af' fdir' area = Ok cells).
    { unfold flow_accumulation_cells, flow_accumulation_area in *. destruct (acc_run wadd wzero af' fdir' area); [|discriminate]. eexists. reflexivity. }
    destruct EC as [cells Ec], EC' as [cells' Ec'].
    assert (EQ := C143_clipped_accumulation La B Ec Ec' Ea Ea').
    destruct (C29_cells _ _ _ _ D) as [L1 H1]. destruct (C29_cells _ _ _ _ D') as [L1' H1'].
    assert (LA : length areas = N /\ length areas' = N).
    { unfold flow_accumulation_area in *.
      destruct (acc_run wadd wzero af fdir area) as [t1|] eqn:E1; [|discriminate].
      destruct (acc_run wadd wzero af' fdir' area) as [t2|] eqn:E2; [|discriminate].
      injection Ea as <-. injection Ea' as <-.
      destruct (@acc_same W wadd wzero wzero N (fun _ => True) (fun _ _ => or_introl I) fdir fdir V Lf V Lf
        (fun c _ A => False_ind _ (A I)) (fun c _ A => False_ind _ (A I)) (fun _ => false) (fun c _ _ _ => or_introl eq_refl)
        ltac:(intros; discriminate) af af area area t1 t1 La La (fun _ _ _ => eq_refl) E1 E1) as [[_ [G _]] _].
      destruct (@acc_same W wadd wzero wzero N (fun _ => True) (fun _ _ => or_introl I) fdir' fdir' valid' Lf' valid' Lf'
        (fun c _ A => False_ind _ (A I)) (fun c _ A => False_ind _ (A I)) (fun _ => false) (fun c _ _ _ => or_introl eq_refl)
        ltac:(intros; discriminate) af' af' area area t2 t2 La La (fun _ _ _ => eq_refl) E2 E2) as [[_ [G' _]] _].
      auto. }
    destruct LA as [LA LA']. apply nth_error_ext. intros c. destruct (Nat.lt_ge_cases c N) as [Hc|Hc].
    - destruct (nth_error areas c) as [a|] eqn:Na; [|apply nth_error_None in Na; lia].
      destruct (nth_error areas' c) as [a'|] eqn:Na'; [|apply nth_error_None in Na'; lia].
      destruct (H1 c a Na) as [x [X [I1 O1]]]. destruct (H1' c a' Na') as [x' [X' [I1' O1']]].
      assert (XX : x' = x) by (destruct t; cbn in X, X'; congruence). subst x'.
      destruct (WS c Hc) as [W1 W2]. destruct (@flows_dec fdir V c p) as [F|F]; [lia| |].
      + destruct (EQ c (W1 F)) as [_ Q]. assert (a' = a) by congruence. subst a'.
        destruct O1 as [O1|O1], O1' as [O1'|O1']; try congruence; [apply I1' in O1'; apply I1 in O1'|apply I1 in O1; apply I1' in O1]; congruence.
      + assert (Z : ~ (forall b, Some ws = Some b -> nth_error b c <> Some 0%Z)) by (intros H; exact (H ws eq_refl (W2 F))).
        destruct O1 as [O1|O1]; [|apply I1 in O1; tauto]. destruct O1' as [O1'|O1']; [congruence|apply I1' in O1'; tauto].
    - rewrite (proj2 (nth_error_None out c)), (proj2 (nth_error_None out' c)); auto; lia.
  Qed.
End Clip.

(** ** a concrete case: the watershed of the middle cell of a 3x3 grid *)
Module Ex.
  Import PropsDir.Ex.
  Local Open Scope nat_scope.
  Definition demc : list (option Q) := z [20; 19; 18; 17; 5; 9; 16; 15; 1]%Z.
  Definition fd : list Z := [4; 4; 4; 4; 8; 8; 4; 8; 8]%Z.
  Definition fdc : list Z := [4; 4; 4; 4; 4; 5; 4; 7; 8]%Z.
  Definition wsc : list Z := [1; 1; 1; 1; 1; 0; 1; 0; 0]%Z.
  Example terrainc : terrain_ok Qops (fun _ => True) thr one demc nb33 [].
  Proof. apply terrain_checked. vm_compute. reflexivity. Qed.
  Example terrainc' : terrain_ok Qops (fun _ => True) thr one (clip wsc demc) nb33 [4%Z].
  Proof. apply terrain_checked. vm_compute. reflexivity. Qed.
  Example runc : exists nb1, run Qops 103 one demc nb33 thr [] = Ok (fd, nb1).
  Proof. eexists. vm_compute. reflexivity. Qed.
  Example runc' : exists nb2, run Qops 103 one (clip wsc demc) nb33 thr [4%Z] = Ok (fdc, nb2).
  Proof. eexists. vm_compute. reflexivity. Qed.
  Example wsc_ok : get_watershed_boundary 20 fd 4 None = Ok wsc. Proof. vm_compute. reflexivity. Qed.
  Lemma validc : valid_fdir fd. Proof. repeat constructor; cbn; lia. Qed.
  Lemma in4 c : c < 9 -> flows_through fd c 4 -> c = 4 \/ In c [0; 1; 2; 3; 6].
  Proof.
    intros Hc [k E]. assert (Q : forall j, downs fd j 8 = 8) by (induction j; auto).
    do 5 (destruct c as [|c]; [cbn; tauto|]).
    destruct c as [|c]; [destruct k as [|k]; [discriminate|cbn in E; rewrite Q in E; discriminate]|].
    destruct c as [|c]; [cbn; tauto|].
    destruct c as [|c]; [destruct k as [|k]; [discriminate|cbn in E; rewrite Q in E; discriminate]|].
    destruct c as [|c]; [rewrite Q in E; discriminate|lia].
  Qed.
  Lemma steepc c n : In c [0; 1; 2; 3; 6] -> steepest Qops thr one demc nb33 c n -> n = 4.
  Proof.
    intros I S. assert (Vc := proj1 (steep_valid S)). apply (tg_steep Qlaws terrainc n Vc) in S.
    cbn in I. repeat destruct I as [<-|I]; try contradiction; vm_compute in S; intuition lia.
  Qed.
  (** C143 applies: cells 5, 7 and 8 are blanked, cell 4 becomes an outlet, the rest is unchanged *)
  Example C143_case :
    (forall c, c < 9 -> nth_error fdc c =
       (if Nat.eq_dec c 4 then Some (Z.of_nat c)
        else match nth_error wsc c with Some 1%Z => nth_error fd c | _ => Some (Z.of_nat c) end)) /\
    get_watershed_boundary 20 fdc 4 None = Ok wsc.
  Proof.
    destruct runc as [nb1 R1]. destruct runc' as [nb2 R2].
    assert (NS : forall c, ~ adjacent nb33 c c).
    { intros c [l [E I]]. do 9 (destruct c as [|c]; [injection E as <-; vm_compute in I; intuition lia|]). destruct c; discriminate. }
    assert (ST : forall c, c < length demc -> flows_through fd c 4 -> c <> 4 ->
       below Qops demc (down fd c) c = true /\ forall n, steepest Qops thr one demc nb33 c n -> n = down fd c).
    { intros c Hc F NE. destruct (in4 Hc F) as [->|I]; [congruence|]. split.
      - cbn in I. repeat destruct I as [<-|I]; try contradiction; vm_compute; reflexivity.
      - intros n S. rewrite (steepc I S). cbn in I. repeat destruct I as [<-|I]; try contradiction; reflexivity. }
    assert (TM : forall c, In (Z.of_nat c) [4%Z] -> flows_through fd c 4 -> c = 4) by (intros c [H|[]] _; lia).
    split.
    - refine (C143_clipped_directions Qlaws terrainc steps33 nodup33 NS R1 validc (p := 4) (wfuel := 20) _ _ _ wsc_ok ST terrainc' TM R2).
      + cbn. lia.
      + eexists. vm_compute. reflexivity.
      + cbn. lia.
    - refine (C143_clipped_watershed Qlaws terrainc steps33 nodup33 NS R1 validc (p := 4) (wfuel := 20) _ _ _ wsc_ok ST terrainc' TM R2 _).
      + cbn. lia.
      + eexists. vm_compute. reflexivity.
      + cbn. lia.
      + intros [_ [k [Hk E]]]. destruct k as [|k]; [lia|]. cbn in E. assert (Q : forall j, downs fd j 8 = 8) by (induction j; auto).
        rewrite Q in E. discriminate.
  Qed.
End Ex.
