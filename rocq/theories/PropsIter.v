(** C07, the work of the priority flood: the main loop of _priority_flood
    (dem_conditioning.py 188-224) takes every cell that can be reached from a
    seed exactly once, and no other cell; [fuel] counts its iterations. *)
From Coq Require Import String.
From Verif Require Import Py Spec MHeap LHeap MFill LFill LFill2 LFill3 Grids PropsFill.
Set Implicit Arguments.
Unset Strict Implicit.

(** [floods s l s']: the main loop goes from state [s] to its end in state [s'],
    taking the cells [l] in this order: from the pit list if there is one there,
    otherwise the smallest entry of the heap. *)
Section Run.
  Context {T : Type} (E : elev T) (nb : list (list nat)) (eps : T) (strm : bool) (seed : list nat).
  Inductive floods : pf (T := T) -> list nat -> pf (T := T) -> Prop :=
  | floods_end : forall s, pf_pit s = [] -> heappop (entry_lt E) (pf_open s) = None -> floods s [] s
  | floods_pit : forall dem cl op c pit s' l s'',
      pf_step E nb eps strm seed c (PF dem cl op pit) = Ok s' -> floods s' l s'' ->
      floods (PF dem cl op (c :: pit)) (c :: l) s''
  | floods_heap : forall dem cl op e c op' s' l s'',
      heappop (entry_lt E) op = Some ((e, c), op') ->
      pf_step E nb eps strm seed c (PF dem cl op' []) = Ok s' -> floods s' l s'' ->
      floods (PF dem cl op []) (c :: l) s''.
End Run.

Section Iter.
  Context {T : Type} (E : elev T) (ok : T -> Prop) (rk : T -> Z) (eps : T).
  Hypothesis LAWS : elev_laws E ok rk eps.
  Variable nb : list (list nat).
  Variable dem0 : list T.
  Variable seed : list nat.
  Let N := List.length dem0.
  Hypothesis okdem : Forall ok dem0.
  Hypothesis nb_len : N <= List.length nb.
  Hypothesis seed_nodup : NoDup seed.
  Hypothesis seed_lt : forall s, In s seed -> s < N.

  Notation elt := (entry_lt E).
  Notation LK := (link nb N).
  Notation SD := (fun s => In s seed).
  Notation Inv := (InvA E ok rk eps nb dem0 seed).
  Notation state := (pf (T := T)).

  Definition grew (s s' : state) :=
    (forall x, cl s x -> cl s' x) /\
    (forall x, In x (waiting s') <-> In x (waiting s) \/ (cl s' x /\ ~ cl s x)).

  Lemma grew_refl s : grew s s.
  Proof. split; [auto|]. intros x. tauto. Qed.
  Lemma grew_trans a b c : grew a b -> grew b c -> grew a c.
  Proof.
    intros [M1 W1] [M2 W2]. split; [auto|]. intros x. rewrite W2, W1. destruct (cl_dec b x); split; intuition.
  Qed.
  Lemma visit_grew strm c n s s' : Inv [c] (D s) s -> adjacent nb c n ->
    pf_visit E eps strm seed c s n = Ok s' -> grew s s'.
  Proof using okdem nb_len.
    intros I A. destruct (a_act I c ltac:(left; auto)) as [Hc _].
    rewrite (@visit_spec _ E eps nb dem0 seed nb_len); [|apply I|apply I|exact Hc|apply I].
    destruct (Nat.leb_spec (List.length dem0) n) as [Hn|Hn]; [intros [= <-]; apply grew_refl|].
    destruct (nth n (pf_closed s) false) eqn:Ec; [intros [= <-]; apply grew_refl|].
    assert (Hcn : ~ cl s n) by (unfold cl; congruence).
    assert (Hclu : forall m, nth m (upd (pf_closed s) n true) false = true <-> m = n \/ cl s m).
    { intros m. rewrite nth_upd by (rewrite (a_clen I); exact Hn). unfold cl. destruct (Nat.eq_dec n m); intuition. }
    destruct (e_le E (z E s n) (z E s c)); intros [= <-]; (split; [intros x Hx; apply Hclu; now right|]); intros x.
    - assert (Hw : forall y, In y (waiting (PF (upd (pf_dem s) n (e_add E (z E s c) eps)) (upd (pf_closed s) n true) (pf_open s) (pf_pit s ++ [n]))) <-> y = n \/ In y (waiting s)).
      { intros y. unfold waiting. cbn [pf_pit pf_open]. rewrite !in_app_iff. cbn [In]. intuition. }
      rewrite Hw. unfold cl at 1. cbn [pf_closed]. rewrite Hclu. split; [intros [->|]|intros [|[[->|] ?]]]; auto; try contradiction.
    - assert (Hw : forall y, In y (waiting (PF (pf_dem s) (upd (pf_closed s) n true) (heappush elt (pf_open s) (z E s n, n)) (pf_pit s))) <-> y = n \/ In y (waiting s)).
      { intros y. unfold waiting. cbn [pf_pit pf_open]. rewrite !in_app_iff.
        assert (P := Permutation_map snd (push_perm elt (pf_open s) (z E s n, n))). cbn [map snd] in P.
        split.
        - intros [H|H]; [auto|]. apply (Permutation_in _ P) in H. destruct H; auto.
        - intros [H|[H|H]]; [right|auto|right]; apply (Permutation_in _ (Permutation_sym P)); [left|right]; auto. }
      rewrite Hw. unfold cl at 1. cbn [pf_closed]. rewrite Hclu. split; [intros [->|]|intros [|[[->|] ?]]]; auto; try contradiction.
  Qed.

  Lemma step_grew strm c s s' : Inv [c] (fun n => D s n /\ n <> c) s ->
    pf_step E nb eps strm seed c s = Ok s' -> grew s s'.
  Proof using LAWS okdem nb_len seed_nodup seed_lt.
    intros I. destruct (a_act I c ltac:(left; auto)) as [Hc Hcc]. unfold pf_step.
    destruct (nth_error nb c) as [ns|] eqn:En; [|discriminate].
    cbv beta iota delta [bind].
    assert (Hb : exists dem', (if strm then pf_burn E eps seed c ns (pf_dem s) else Ok (pf_dem s)) = Ok dem'
      /\ (dem' = pf_dem s \/ (In c seed /\ exists y, dem' = upd (pf_dem s) c y /\ ok y /\ (rk (z E s c) < rk y)%Z))).
    { destruct strm; [|eauto]. destruct (burn_spec LAWS nb dem0 seed nb_len seed_lt ns s Hc (a_len I) (a_ok I)) as [dem' [E1 E2]].
      exists dem'. split; auto. }
    destruct Hb as [dem' [-> Hb]].
    assert (I2 := burnA nb_len I Hb). simpl in I2.
    intros F. refine (@visits_ind _ E ok rk eps LAWS nb dem0 seed nb_len strm c ns _ s' (fun s2 => grew s s2) En I2 _ _ F).
    - exact (grew_refl s).
    - intros n s1 s2 I1 K1 A V. apply (grew_trans K1). exact (visit_grew I1 A V).
  Qed.

  Lemma pop_perm s c s1 : Inv [] (D s) s -> pop E s = Some (c, s1) -> Permutation (waiting s) (c :: waiting s1).
  Proof.
    intros I P. destruct (popA LAWS nb_len I P) as [_ [_ [_ [_ HP]]]]. unfold waiting.
    destruct HP as [(p & P1 & P2 & P3)|(P1 & P2 & _ & P4 & _)].
    - rewrite P1, P2, P3. reflexivity.
    - rewrite P1, P2. cbn [app]. apply (Permutation_map snd P4).
  Qed.
  Lemma taken s c s1 s' strm : Inv [] (D s) s -> pop E s = Some (c, s1) ->
    pf_step E nb eps strm seed c s1 = Ok s' -> forall x, D s' x <-> D s x \/ x = c.
  Proof.
    intros I P St x. destruct (popA LAWS nb_len I P) as [I1 [_ [Ed [Ec _]]]].
    destruct (step_grew I1 St) as [M W].
    assert (Hw := pop_perm I P).
    assert (Hin : forall y, In y (waiting s) <-> y = c \/ In y (waiting s1)).
    { intros y. split; intros H.
      - apply (Permutation_in _ Hw) in H. destruct H; auto.
      - apply (Permutation_in _ (Permutation_sym Hw)). destruct H; [left|right]; auto. }
    assert (Ecl : forall y, cl s1 y <-> cl s y) by (intros; unfold cl; now rewrite Ec).
    assert (NI : ~ In c (waiting s1)).
    { assert (X := a_nodup I1). cbn [app] in X. inversion X. assumption. }
    assert (Cc : cl s c) by (apply (a_act I c), Hin; now left).
    unfold D. rewrite W, Hin. rewrite <- !Ecl in *. destruct (cl_dec s1 x) as [Y|Y].
    - assert (cl s' x) by auto. destruct (Nat.eq_dec x c) as [->|NE]; split; intuition.
    - split; [intros [A B]; exfalso; tauto|]. intros [[A _]| ->]; tauto.
  Qed.

  Lemma loop_takes strm : forall k s, Inv [] (D s) s -> mu s <= k ->
    exists l s'', floods E nb eps strm seed s l s'' /\ NoDup l /\ Inv [] (D s'') s'' /\ waiting s'' = [] /\
      (forall x, In x l <-> cl s'' x /\ ~ D s x) /\ (forall x, cl s x -> cl s'' x) /\
      forall fuel, pf_loop E fuel nb eps strm seed s = if List.length l <=? fuel then Ok s'' else Err OutOfFuel.
  Proof.
    induction k as [|k IH]; intros s I Hm.
    - exists [], s. destruct (pop E s) as [[c s1]|] eqn:Ep.
      { destruct (popA LAWS nb_len I Ep) as [_ [X _]]. lia. }
      assert (W := proj1 (pop_none_waiting E s) Ep).
      assert (DC : forall x, cl s x -> D s x) by (intros x H; split; [exact H|rewrite W; auto]).
      split; [|split; [constructor|split; [exact I|split; [exact W|split; [|split; [auto|]]]]]].
      + unfold pop in Ep. destruct (pf_pit s) eqn:E1; [|discriminate]. constructor; [exact E1|].
        destruct (heappop elt (pf_open s)) as [[[e c] o]|]; [discriminate|reflexivity].
      + intros x. split; [intros []|]. intros [A B]. exact (B (DC x A)).
      + intros fuel. rewrite pf_loop_eq, Ep. reflexivity.
    - destruct (pop E s) as [[c s1]|] eqn:Ep.
      2:{ assert (W := proj1 (pop_none_waiting E s) Ep).
        assert (DC : forall x, cl s x -> D s x) by (intros x H; split; [exact H|rewrite W; auto]).
        exists [], s. split; [|split; [constructor|split; [exact I|split; [exact W|split; [|split; [auto|]]]]]].
        - unfold pop in Ep. destruct (pf_pit s) eqn:E1; [|discriminate]. constructor; [exact E1|].
          destruct (heappop elt (pf_open s)) as [[[e c] o]|]; [discriminate|reflexivity].
        - intros x. split; [intros []|]. intros [A B]. exact (B (DC x A)).
        - intros fuel. rewrite pf_loop_eq, Ep. reflexivity. }
      destruct (popA LAWS nb_len I Ep) as [I1 [X _]].
      destruct (stepA LAWS nb_len seed_lt strm I1) as [s' [E' [I' [Hmu _]]]].
      assert (TK := taken I Ep E').
      destruct (IH s' I' ltac:(lia)) as (l & s'' & FL & ND & I'' & W & CH & M & FU).
      destruct (step_grew I1 E') as [M' _]. assert (Ec := proj1 (proj2 (proj2 (proj2 (popA LAWS nb_len I Ep))))).
      assert (M1 : forall x, cl s x -> cl s'' x) by (intros x Hx; apply M, M'; unfold cl in *; now rewrite Ec).
      exists (c :: l), s''. split; [|split; [|split; [exact I''|split; [exact W|split; [|split; [exact M1|]]]]]].
      + destruct s as [dm cs op pit]. unfold pop in Ep. cbn [pf_pit pf_open pf_dem pf_closed] in Ep.
        destruct pit as [|c' pit].
        * destruct (heappop elt op) as [[[e c'] o]|] eqn:EH; [|discriminate]. injection Ep as -> <-.
          eapply floods_heap; eauto.
        * injection Ep as -> <-. eapply floods_pit; eauto.
      + constructor; [|exact ND]. rewrite CH. intros [_ A]. apply A, TK. now right.
      + intros x. cbn [In]. rewrite CH, TK. assert (Hc : cl s c /\ ~ D s c).
        { assert (Hw := pop_perm I Ep). assert (IC : In c (waiting s)) by (apply (Permutation_in _ (Permutation_sym Hw)); now left).
          split; [apply (a_act I c IC)|]. intros [_ Y]. exact (Y IC). }
        destruct (Nat.eq_dec c x) as [<-|NE]; [|intuition congruence]. split; [intros _; split; [apply M1|]; tauto|now left].
      + intros fuel. rewrite pf_loop_eq, Ep. destruct fuel as [|f]; [reflexivity|]. rewrite E'. cbn [bind]. rewrite FU. reflexivity.
  Qed.
End Iter.

Section Top.
  Context {T : Type} (E : elev T) (ok : T -> Prop) (rk : T -> Z).
  Variable iverts : list (list nat).
  Variable nb : list (list nat).
  Variable dem : list T.
  Variable eps : T.
  Let N := List.length dem.

  (** the loop makes one iteration for each cell that can be reached from the
      rim (from the streams, with a mask): no fewer iterations suffice, and it
      takes each of these cells once and no other *)
  Theorem C07_each_cell_once mask method :
    elev_laws E ok rk (step_eps E method eps) -> Forall ok dem ->
    grid_of iverts nb N -> mask_fits mask N -> flood_method method mask ->
    exists cells out, NoDup cells /\
      (forall c, In c cells <-> c < N /\ reachable (link nb N) (source iverts mask) c) /\
      (forall fuel, fill_sinks E fuel iverts nb dem eps mask method =
         if List.length cells <=? fuel then Ok out else Err OutOfFuel) /\
      exists seeds start finish, (forall s, In s seeds <-> source iverts mask s) /\
        pf_init E dem seeds = Ok start /\ pf_dem finish = out /\
        floods E nb (step_eps E method eps) (match mask with None => false | Some _ => true end) seeds start cells finish.
  Proof.
    intros L O G M F. destruct (flood_dispatch E dem eps G M F) as [seed [strm [Er [Hnd [Hlt [Hsrc Hst]]]]]].
    assert (NB : N <= List.length nb) by (destruct G as (G1 & G2 & G3); unfold N in *; lia).
    destruct (initA L nb O NB Hnd Hlt) as (s0 & Ei & I0 & Hmu & Ed & Ep & Hcl & Hpm).
    destruct (@loop_takes _ E ok rk _ L nb dem seed O NB Hnd Hlt strm (mu s0) s0 I0 (le_n _)) as (l & s'' & FL & ND & I'' & W & CH & MO & FU).
    exists l, (pf_dem s''). split; [exact ND|]. split; [|split].
    - intros c. assert (D0 : ~ D s0 c).
      { intros [A B]. apply B. unfold waiting. rewrite Ep. cbn [app]. apply (Permutation_in _ (Permutation_sym Hpm)). now apply Hcl. }
      assert (RE : forall P Q, (forall x : nat, P x <-> Q x) -> reachable (link nb N) P c <-> reachable (link nb N) Q c).
      { intros P Q PQ. unfold reachable. split; intros (s & p & A & B); exists s, p; (split; [now apply PQ|exact B]). }
      rewrite CH. assert (LT : cl s'' c -> c < N).
      { intros H. destruct (Nat.lt_ge_cases c N) as [X|X]; [exact X|]. unfold cl in H. rewrite nth_overflow in H; [discriminate|]. rewrite (a_clen I''). exact X. }
      rewrite <- (RE _ _ Hsrc). split.
      + intros [A _]. split; [now apply LT|]. apply (closed_reachable L NB Hlt I'' W); [now apply LT|exact A].
      + intros [A B]. split; [|exact D0]. apply (closed_reachable L NB Hlt I'' W A). exact B.
    - intros fuel. rewrite Er. unfold priority_flood. rewrite Ei. cbn [bind]. rewrite FU. destruct (List.length l <=? fuel); reflexivity.
    - exists seed, s0, s''. split; [exact Hsrc|]. split; [exact Ei|]. split; [reflexivity|]. rewrite <- Hst. exact FL.
  Qed.
End Top.

(** A 4x4 grid with a pit: 16 iterations, no fewer. *)
Module Ex.
  Example C07_once_case : (exists out, fill_sinks Zelev 16 PropsFill.Ex.iv PropsFill.Ex.nb PropsFill.Ex.dem 1%Z None "priority"%string = Ok out) /\
    fill_sinks Zelev 15 PropsFill.Ex.iv PropsFill.Ex.nb PropsFill.Ex.dem 1%Z None "priority"%string = Err OutOfFuel.
  Proof. split; [eexists|]; vm_compute; reflexivity. Qed.
End Ex.
