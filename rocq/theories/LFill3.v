(** From [fill_sinks] to the two algorithms. *)
From Coq Require Import String.
From Verif Require Import Py Spec MHeap LHeap MFill LFill LDrain LEdge LFill2.
Set Implicit Arguments.
Local Open Scope nat_scope.
Local Open Scope list_scope.
Local Notation length := List.length.

Lemma flood_dispatch {T} (E : elev T) iverts nb dem eps mask method :
  grid_of iverts nb (length dem) -> mask_fits mask (length dem) -> flood_method method mask ->
  exists seed strm, (forall fuel, fill_sinks E fuel iverts nb dem eps mask method =
      priority_flood E fuel nb dem (step_eps E method eps) seed strm) /\
    NoDup seed /\ (forall s, In s seed -> s < length dem) /\
    (forall s, In s seed <-> source iverts mask s) /\
    strm = (match mask with None => false | Some _ => true end).
Proof.
  intros [G1 [G2 G3]] Hm Hfl. destruct (identify_edge_nodes_spec G2) as [rim [Er [Hs Hb]]].
  destruct mask as [m|].
  - exists (where_ (fun v => (0 <? v)%Z) m), true. split; [|split; [|split; [|split]]].
    + intros fuel. unfold fill_sinks. rewrite Er. cbn [bind]. unfold step_eps.
      destruct (String.eqb (lower method) "priority") eqn:E1; cbn [orb].
      * rewrite E1. cbn [orb]. reflexivity.
      * destruct (String.eqb (lower method) "complete") eqn:E2.
        -- rewrite E1, E2. reflexivity.
        -- reflexivity.
    + apply where_nodup.
    + intros s H. apply in_where in H. destruct H as [x [H _]]. simpl in Hm. rewrite <- Hm.
      apply nth_error_Some. congruence.
    + intros s. rewrite in_where. simpl. split; intros [x [H1 H2]]; exists x; split; auto.
      * now apply Z.ltb_lt. * now apply Z.ltb_lt.
    + auto.
  - exists rim, false. split; [|split; [|split; [|split]]].
    + intros fuel. unfold fill_sinks. rewrite Er. cbn [bind]. unfold step_eps.
      destruct (String.eqb_spec (lower method) "priority") as [E1|E1]; cbn [orb]; auto.
      destruct (String.eqb_spec (lower method) "complete") as [E2|E2]; auto.
      destruct Hfl as [|[|]]; congruence.
    + now apply sorted_lt_nodup.
    + intros s H. apply Hb in H. apply boundary_lt in H. congruence.
    + exact Hb.
    + auto.
Qed.

Lemma drain_dispatch {T} (E : elev T) iverts nb dem eps method :
  grid_of iverts nb (length dem) -> ~ flood_method method None ->
  exists seed, (forall fuel, fill_sinks E fuel iverts nb dem eps None method =
      flood_and_drain E fuel nb dem eps seed) /\
    (forall s, In s seed -> s < length dem) /\ (forall s, In s seed <-> boundary_cell iverts s).
Proof.
  intros [G1 [G2 G3]] Hfl. destruct (identify_edge_nodes_spec G2) as [rim [Er [Hs Hb]]].
  exists rim. split; [|split].
  - intros fuel. unfold fill_sinks. rewrite Er. cbn [bind].
    destruct (String.eqb_spec (lower method) "priority") as [E1|E1]; cbn [orb].
    { exfalso. apply Hfl. now left. }
    destruct (String.eqb_spec (lower method) "complete") as [E2|E2]; auto.
    exfalso. apply Hfl. right. now left.
  - intros s H. apply Hb in H. apply boundary_lt in H. congruence.
  - exact Hb.
Qed.

Section Flood.
  Context {T : Type} (E : elev T) (ok : T -> Prop) (rk : T -> Z).
  Variables (iverts nb : list (list nat)) (dem : list T) (eps : T).
  Variables (mask : option (list Z)) (method : string) (fuel : nat).
  Notation N := (length dem).
  Notation e := (step_eps E method eps).
  Hypothesis LAWS : elev_laws E ok rk e.
  Hypothesis okdem : Forall ok dem.
  Hypothesis G : grid_of iverts nb N.
  Hypothesis M : mask_fits mask N.
  Hypothesis FL : flood_method method mask.
  Hypothesis FU : N <= fuel.
  Notation run := (fill_sinks E fuel iverts nb dem eps mask method).
  Notation LK := (link nb N).
  Notation SRC := (source iverts mask).

  Lemma flood_facts : exists out, run = Ok out /\ length out = N /\ Forall ok out /\
    Forall2 (fun x y => e_le E x y = true) dem out /\
    (forall n, n < N -> ~ reachable LK SRC n -> nth_error out n = nth_error dem n) /\
    (forall R, (forall x y, In x out -> In y out -> (y = e_add E x e \/ e_lt E x y = true) -> R x y = true) ->
       forall n, n < N -> reachable LK SRC n -> drains R LK SRC out n) /\
    (mask = None -> forall n, boundary_cell iverts n -> nth_error out n = nth_error dem n) /\
    (forall n v y, n < N -> reachable LK SRC n -> ok v -> is_spill (e_le E) LK SRC dem n v ->
       nth_error out n = Some y -> e_le E v y = true) /\
    (mask = None -> forall n v y, n < N -> reachable LK SRC n -> ok v -> is_spill (e_le E) LK SRC dem n v ->
       nth_error out n = Some y -> e_le E y (add_times E e N v) = true) /\
    (mask = None -> eps_null E ok e -> forall n y, n < N -> reachable LK SRC n ->
       nth_error out n = Some y -> is_spill (e_le E) LK SRC dem n y).
  Proof.
    destruct (flood_dispatch E dem eps G M FL) as [seed [strm [Er [Hnd [Hlt [Hsrc Hst]]]]]].
    destruct G as [G1 [G2 G3]].
    destruct (pf_run LAWS nb okdem G3 Hnd Hlt strm FU) as [s [Hr [I [W [HJ Hseed]]]]].
    exists (pf_dem s). rewrite Er. split; [exact Hr|].
    split; [eapply fin_len; eauto|]. split; [eapply fin_ok; eauto|].
    split; [eapply fin_ge; eauto|].
    assert (HR : forall n, reachable LK SRC n <-> reachable LK (fun s => In s seed) n).
    { intros n. apply reachable_iff. intros; symmetry; apply Hsrc. }
    assert (HS : forall n v, is_spill (e_le E) LK SRC dem n v -> is_spill (e_le E) LK (fun s => In s seed) dem n v).
    { intros n v. apply is_spill_iff. intros; symmetry; apply Hsrc. }
    assert (Hoky : forall n y, nth_error (pf_dem s) n = Some y -> ok y).
    { intros n y Hy. apply (fin_nth I) in Hy. destruct Hy as [-> Hn]. now apply (a_ok I). }
    split; [|split; [|split; [|split; [|split]]]].
    - intros n Hn Hnr. rewrite HR in Hnr. eapply fin_unreach; eauto.
    - intros R HRR n Hn Hre. apply HR in Hre. eapply drains_iff; [apply Hsrc|].
      eapply fin_drains; eauto.
    - intros -> n Hb. apply Hsrc in Hb. rewrite (fin_get I (Hlt _ Hb)).
      rewrite Hseed by auto. symmetry. apply nth_error_nth'. auto.
    - intros n v y Hn Hre Hv Hsp Hy. assert (Oy := Hoky _ _ Hy). apply (fin_nth I) in Hy.
      destruct Hy as [-> _]. rewrite (l_le LAWS) by auto. apply Z.leb_le.
      eapply fin_spill_le; eauto. now apply HR.
    - intros -> n v y Hn Hre Hv Hsp Hy. assert (Oy := Hoky _ _ Hy). apply (fin_nth I) in Hy.
      destruct Hy as [-> _]. rewrite (l_le LAWS); auto.
      + apply Z.leb_le. eapply fin_spill_ge; eauto. now apply HR.
      + eapply ok_at; eauto.
    - intros -> Hnull n y Hn Hre Hy. apply (fin_nth I) in Hy. destruct Hy as [-> _].
      apply is_spill_iff with (P := fun s => In s seed); [apply Hsrc|].
      eapply fin_spill_exact; eauto. now apply HR.
  Qed.

  Lemma flood_unchanged : mask = None ->
    (forall n, n < N -> reachable LK SRC n -> drains (e_lt E) LK SRC dem n) -> run = Ok dem.
  Proof.
    intros Hmask Hdr. destruct (flood_dispatch E dem eps G M FL) as [seed [strm [Er [Hnd [Hlt [Hsrc Hst]]]]]].
    destruct G as [G1 [G2 G3]]. rewrite Er. rewrite Hmask in Hst. subst strm.
    apply (pf_run_drained LAWS okdem G3 Hnd Hlt FU).
    intros n Hn Hre. eapply drains_iff; [intros s; apply Hsrc|]. apply Hdr; auto.
    eapply reachable_iff; [|exact Hre]. intros; symmetry; apply Hsrc.
  Qed.
End Flood.

(** more fuel does not change a result *)
Lemma pf_loop_mono {T} (E : elev T) nb eps strm seed f : forall s s',
  pf_loop E f nb eps strm seed s = Ok s' -> pf_loop E (S f) nb eps strm seed s = Ok s'.
Proof.
  induction f as [|f IH]; intros s s' H.
  - simpl in H. destruct s as [d c o [|p pit]]; simpl in *; [|discriminate].
    destruct (heappop (entry_lt E) o) as [[[x c'] o']|]; [discriminate|auto].
  - remember (S f) as f1. rewrite Heqf1 in H. simpl in H. simpl.
    destruct (pf_pit s) as [|p pit].
    + destruct (heappop (entry_lt E) (pf_open s)) as [[[x c'] o']|]; auto.
      destruct (pf_step E nb eps strm seed c' _) as [s1|]; simpl in *; [|discriminate].
      subst f1. now apply IH.
    + destruct (pf_step E nb eps strm seed p _) as [s1|]; simpl in *; [|discriminate].
      subst f1. now apply IH.
Qed.

Lemma pf_fuel {T} (E : elev T) nb dem eps strm seed f out : forall f', f <= f' ->
  priority_flood E f nb dem eps seed strm = Ok out -> priority_flood E f' nb dem eps seed strm = Ok out.
Proof.
  intros f' Hle. induction Hle as [|f' Hle IH]; auto. intros H. specialize (IH H). clear H.
  unfold priority_flood in *. destruct (pf_init E dem seed) as [s0|]; [|discriminate].
  cbn [bind] in *. destruct (pf_loop E f' nb eps strm seed s0) as [s|] eqn:El; [|discriminate].
  apply pf_loop_mono in El. now rewrite El.
Qed.

Section DrainTop.
  Context {T : Type} (E : elev T) (ok : T -> Prop) (rk : T -> Z).
  Variables (iverts nb : list (list nat)) (dem : list T) (eps : T) (method : string).
  Notation N := (length dem).
  Hypothesis LAWS : elev_laws E ok rk eps.
  Hypothesis okdem : Forall ok dem.
  Hypothesis G : grid_of iverts nb N.
  Hypothesis NI : neighbours_in nb N.
  Hypothesis FL : ~ flood_method method None.
  Notation rim := (boundary_cell iverts).

  (** links in the direction the drain method looks: water runs from [n] to [w] *)
  Lemma drain_facts : exists f0 out, (forall fuel, f0 <= fuel -> fill_sinks E fuel iverts nb dem eps None method = Ok out) /\
    length out = N /\ Forall ok out /\
    (Forall (fun x => e_le E x (e_big E) = true) dem -> Forall2 (fun x y => e_le E x y = true) dem out) /\
    (forall n, rim n -> nth_error out n = nth_error dem n) /\
    (forall n x, nth_error out n = Some x -> e_lt E x (e_big E) = true ->
       drains (fun x y => e_le E (e_add E x eps) y) (fun w n => adjacent nb n w) rim out n) /\
    (forall n x, ~ rim n -> nth_error out n = Some x -> e_le E x (e_big E) = true) /\
    (forall c w x y y', nth_error dem c = Some x -> nth_error out c = Some y -> adjacent nb c w ->
        nth_error out w = Some y' -> e_le E y x = true \/ e_le E y (e_add E y' eps) = true).
  Proof.
    destruct (drain_dispatch E dem eps G FL) as [seed [Er [Hlt Hrim]]]. destruct G as [G1 [G2 G3]].
    assert (Hin : forall c l n, c < N -> nth_error nb c = Some l -> In n l -> n < N).
    { intros c l n Hc El Hn. apply (NI Hc). exists l. auto. }
    destruct (drain_spec LAWS nb seed okdem G3 Hin Hlt) as [f0 [out [HW [Hset Hrun]]]].
    exists f0, out. split; [intros f Hf; rewrite Er; auto|].
    set (d0 := e_zero E) in *.
    assert (Hnth : forall n y, nth_error out n = Some y -> n < N /\ y = nth n out d0 /\ ok y).
    { intros n y Hy. assert (Hn : n < N).
      { assert (X := w_len HW). rewrite <- X. apply nth_error_Some. congruence. }
      apply (nth_error_nth _ _ d0) in Hy. split; auto. split; auto. subst y. apply (w_ok HW); auto. }
    assert (Hdem : forall n y, nth_error dem n = Some y -> n < N /\ y = nth n dem d0 /\ ok y).
    { intros n y Hy. assert (Hn : n < N) by (apply nth_error_Some; congruence).
      split; auto. split; [symmetry; now apply nth_error_nth|].
      rewrite Forall_forall in okdem. apply okdem. eapply nth_error_In; eauto. }
    split; [apply (w_len HW)|]. split.
    { apply Forall_forall. intros y Hy. apply In_nth_error in Hy. destruct Hy as [n Hy]. now apply Hnth in Hy. }
    split.
    { intros Hb. apply Forall2_nth; [symmetry; apply (w_len HW)|].
      intros n x y Hx Hy. destruct (Hnth _ _ Hy) as [Hn [Ey Oy]]. destruct (Hdem _ _ Hx) as [_ [Ex Ox]].
      rewrite (l_le LAWS) by auto. apply Z.leb_le. subst x y. apply (w_ge HW); auto.
      rewrite Forall_forall in Hb. specialize (Hb _ (nth_error_In _ _ Hx)).
      rewrite (l_le LAWS) in Hb; auto; [now apply Z.leb_le|apply (l_big LAWS)]. }
    split.
    { intros n Hn. apply Hrim in Hn. assert (X := w_seed HW _ Hn). assert (Y := Hlt _ Hn).
      rewrite (nth_error_nth' out d0) by (rewrite (w_len HW); auto).
      rewrite (nth_error_nth' dem d0) by auto. now f_equal. }
    split.
    { intros n x Hx Hb. destruct (Hnth _ _ Hx) as [Hn [Ex Ox]].
      rewrite (l_lt LAWS) in Hb; [|auto|apply (l_big LAWS)]. apply Z.ltb_lt in Hb.
      assert (HD := w_dtr HW Hn ltac:(subst x; exact Hb)). clear Hx Hb Ex Ox x Hn.
      induction HD as [s Hs|w n Hw IH Ha Hn Hle]; [apply dr_seed; now apply Hrim|].
      assert (Hwn := dtr_lt Hlt Hw).
      apply dr_down with w (nth w out d0) (nth n out d0); auto.
      - apply nth_error_nth'. now rewrite (w_len HW).
      - apply nth_error_nth'. now rewrite (w_len HW).
      - rewrite (l_le LAWS); [now apply Z.leb_le|apply (l_ok LAWS)|]; apply (w_ok HW); auto. }
    split.
    { intros n x Hn Hx. destruct (Hnth _ _ Hx) as [Hlt' [Ex Ox]].
      rewrite (l_le LAWS); [|auto|apply (l_big LAWS)]. apply Z.leb_le. subst x. apply (w_big HW); auto.
      now rewrite Hrim. }
    intros c w x y y' Hx Hy Ha Hy'. destruct (Hnth _ _ Hy) as [Hc [Ey Oy]].
    destruct (Hnth _ _ Hy') as [_ [Ey' Oy']]. destruct (Hdem _ _ Hx) as [_ [Ex Ox]].
    rewrite !(l_le LAWS) by (auto; apply (l_ok LAWS); auto). rewrite !Z.leb_le. subst x y y'.
    destruct (Hset c Hc) as [H|H]; auto.
  Qed.
End DrainTop.
