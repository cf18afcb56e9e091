(** Properties C01-C17: DEM conditioning (dany/dem_conditioning.py).
    Every theorem is about the entry points [fill_sinks], [fill_nan],
    [identify_edge_nodes] of the model and the notions of [Spec].
    The elevation arithmetic is any [E] with the laws [elev_laws]; they hold for the
    integers ([Grids.Zlaws]) and for IEEE binary64 ([LFloat.b64_laws]). *)
From Coq Require Import String QArith.
From Verif Require Import Py Spec MHeap LHeap MFill LFill LDrain LEdge LFill2 LFill3 LFill4 LNan MNanQ Grids.
Set Implicit Arguments.
Local Open Scope nat_scope.
Local Open Scope list_scope.
Local Notation length := List.length.

Section Props.
  Context {T : Type} (E : elev T) (ok : T -> Prop) (rk : T -> Z).
  Variables (iverts nb : list (list nat)) (dem : list T) (eps : T).
  Notation N := (length dem).

  (** C01 (priority, complete, with or without a stream mask) *)
  Theorem C01_flood_never_lowers mask method fuel :
    elev_laws E ok rk (step_eps E method eps) -> Forall ok dem ->
    grid_of iverts nb N -> mask_fits mask N -> flood_method method mask -> N <= fuel ->
    exists out, fill_sinks E fuel iverts nb dem eps mask method = Ok out /\
      length out = N /\ Forall2 (fun x y => e_le E x y = true) dem out.
  Proof.
    intros L O G M F U.
    destruct (flood_facts eps L O G M F U) as [out H]. exists out. tauto.
  Qed.

  (** C01 (drain): the DEM lies below the flood level 1e10 *)
  Theorem C01_drain_never_lowers method :
    elev_laws E ok rk eps -> Forall ok dem -> grid_of iverts nb N -> neighbours_in nb N ->
    ~ flood_method method None -> Forall (fun x => e_le E x (e_big E) = true) dem ->
    exists f0 out, (forall fuel, f0 <= fuel -> fill_sinks E fuel iverts nb dem eps None method = Ok out) /\
      length out = N /\ Forall2 (fun x y => e_le E x y = true) dem out.
  Proof.
    intros L O G NI F B. destruct (drain_facts L O G NI F) as [f0 [out H]]. exists f0, out. tauto.
  Qed.

  (** C02: the rim keeps its elevation; cells that cannot be reached from the rim too *)
  Theorem C02_flood_keeps_rim method fuel :
    elev_laws E ok rk (step_eps E method eps) -> Forall ok dem ->
    grid_of iverts nb N -> flood_method method None -> N <= fuel ->
    exists out, fill_sinks E fuel iverts nb dem eps None method = Ok out /\
      (forall n, boundary_cell iverts n -> nth_error out n = nth_error dem n) /\
      (forall n, n < N -> ~ reachable (link nb N) (boundary_cell iverts) n ->
         nth_error out n = nth_error dem n).
  Proof.
    intros L O G F U. destruct (flood_facts eps L O G (mask := None) I F U) as [out H].
    exists out. split; [tauto|]. split; [apply H; reflexivity|apply H].
  Qed.

  Theorem C02_drain_keeps_rim method :
    elev_laws E ok rk eps -> Forall ok dem -> grid_of iverts nb N -> neighbours_in nb N ->
    ~ flood_method method None ->
    exists f0 out, (forall fuel, f0 <= fuel -> fill_sinks E fuel iverts nb dem eps None method = Ok out) /\
      forall n, boundary_cell iverts n -> nth_error out n = nth_error dem n.
  Proof.
    intros L O G NI F. destruct (drain_facts L O G NI F) as [f0 [out H]]. exists f0, out. tauto.
  Qed.

  (** C03: chains to the rim; strict when eps is effective on the elevations involved *)
  Theorem C03_priority_removes_sinks method fuel :
    elev_laws E ok rk (step_eps E method eps) -> Forall ok dem ->
    grid_of iverts nb N -> flood_method method None -> N <= fuel ->
    exists out, fill_sinks E fuel iverts nb dem eps None method = Ok out /\
      (forall n, n < N -> reachable (link nb N) (boundary_cell iverts) n ->
         drains (e_le E) (link nb N) (boundary_cell iverts) out n) /\
      ((forall x, In x out -> e_lt E x (e_add E x (step_eps E method eps)) = true) ->
       forall n, n < N -> reachable (link nb N) (boundary_cell iverts) n ->
         drains (e_lt E) (link nb N) (boundary_cell iverts) out n).
  Proof.
    intros L O G F U. destruct (flood_facts eps L O G (mask := None) I F U) as [out H].
    destruct H as [H1 [H2 [H3 [_ [_ [HR _]]]]]]. rewrite Forall_forall in H3.
    exists out. split; auto. split.
    - apply HR. intros x y Hx Hy [->|H].
      + rewrite (l_le L) by auto. apply Z.leb_le. apply (l_up L); auto.
      + rewrite (l_lt L) in H by auto. rewrite (l_le L) by auto. apply Z.leb_le. apply Z.ltb_lt in H. lia.
    - intros Heff. apply HR. intros x y Hx Hy [->|H]; auto.
  Qed.

  (** C04: 'complete' gives exactly the spill elevation *)
  Theorem C04_complete_is_spill method fuel :
    lower method = "complete"%string ->
    elev_laws E ok rk (e_zero E) -> eps_null E ok (e_zero E) -> Forall ok dem ->
    grid_of iverts nb N -> N <= fuel ->
    exists out, fill_sinks E fuel iverts nb dem eps None method = Ok out /\ length out = N /\
      forall n y, reachable (link nb N) (boundary_cell iverts) n -> nth_error out n = Some y ->
        is_spill (e_le E) (link nb N) (boundary_cell iverts) dem n y.
  Proof.
    intros Em L NU O G U.
    assert (F : flood_method method None) by (right; now left).
    assert (Ee : step_eps E method eps = e_zero E) by (unfold step_eps; now rewrite Em).
    rewrite <- Ee in L, NU.
    destruct (flood_facts eps L O G (mask := None) I F U) as [out H].
    exists out. split; [tauto|]. split; [tauto|]. intros n y Hr Hy.
    assert (Hn : n < N) by (destruct H as [_ [<- _]]; apply nth_error_Some; congruence).
    destruct H as [_ [_ [_ [_ [_ [_ [_ [_ [_ H]]]]]]]]]. apply H; auto.
  Qed.

  (** C05: between the spill elevation and the spill elevation plus N * eps *)
  Theorem C05_overfill_bounded method fuel :
    elev_laws E ok rk (step_eps E method eps) -> Forall ok dem ->
    grid_of iverts nb N -> flood_method method None -> N <= fuel ->
    exists out, fill_sinks E fuel iverts nb dem eps None method = Ok out /\
      forall n v y, reachable (link nb N) (boundary_cell iverts) n -> ok v ->
        is_spill (e_le E) (link nb N) (boundary_cell iverts) dem n v ->
        nth_error out n = Some y ->
        e_le E v y = true /\ e_le E y (add_times E (step_eps E method eps) N v) = true.
  Proof.
    intros L O G F U. destruct (flood_facts eps L O G (mask := None) I F U) as [out H].
    exists out. split; [tauto|]. intros n v y Hr Hv Hs Hy.
    assert (Hn : n < N) by (destruct H as [_ [<- _]]; apply nth_error_Some; congruence).
    destruct H as [_ [_ [_ [_ [_ [_ [_ [H1 [H2 _]]]]]]]]]. split; [eapply H1|eapply H2]; eauto.
  Qed.

  (** C06: a drained DEM is returned unchanged *)
  Theorem C06_drained_unchanged method fuel :
    elev_laws E ok rk (step_eps E method eps) -> Forall ok dem ->
    grid_of iverts nb N -> flood_method method None -> N <= fuel ->
    (forall n, n < N -> reachable (link nb N) (boundary_cell iverts) n ->
       drains (e_lt E) (link nb N) (boundary_cell iverts) dem n) ->
    fill_sinks E fuel iverts nb dem eps None method = Ok dem.
  Proof. intros L O G F U D. apply (flood_unchanged eps L O G (mask := None) I F U); auto. Qed.
End Props.

Section Props2.
  Context {T : Type} (E : elev T) (ok : T -> Prop) (rk : T -> Z).
  Variables (iverts nb : list (list nat)) (dem : list T) (eps : T).
  Notation N := (length dem).

  (** C06: filling twice = filling once (effective eps) *)
  Theorem C06_idempotent method fuel out :
    elev_laws E ok rk (step_eps E method eps) -> Forall ok dem ->
    grid_of iverts nb N -> flood_method method None -> N <= fuel ->
    fill_sinks E fuel iverts nb dem eps None method = Ok out ->
    (forall x, In x out -> e_lt E x (e_add E x (step_eps E method eps)) = true) ->
    fill_sinks E fuel iverts nb out eps None method = Ok out.
  Proof.
    intros L O G F U R Heff.
    destruct (C03_priority_removes_sinks eps L O G F U) as [out' [R' [_ H]]].
    destruct (flood_facts eps L O G (mask := None) I F U) as [out'' [R'' [Hl [Ho _]]]].
    assert (out' = out) by congruence. assert (out'' = out) by congruence. subst.
    apply C06_drained_unchanged with (ok := ok) (rk := rk); auto; rewrite Hl; auto.
  Qed.

  (** the spill elevation of a spill surface is itself: needed for 'complete' twice *)
  Lemma spill_fix (LK : nat -> nat -> Prop) (S : nat -> Prop) (out : list T) n y z :
    elev_laws E ok rk (e_zero E) -> Forall ok dem -> Forall ok out ->
    Forall2 (fun x y => e_le E x y = true) dem out ->
    (forall c m, LK c m -> m < N) -> (forall s, S s -> s < N) ->
    (forall m w, reachable LK S m -> nth_error out m = Some w -> is_spill (e_le E) LK S dem m w) ->
    nth_error out n = Some y -> reachable LK S n -> ok z ->
    is_spill (e_le E) LK S out n z -> e_eq E z y = true.
  Proof.
    intros L O O' F2 HLK HS Hsp Hy Hr Hz Hz'.
    assert (Len : length out = N) by (clear - F2; induction F2; simpl; congruence).
    assert (Oy : ok y) by (eapply (@nth_ok T ok out); eauto).
    rewrite (l_eq L) by auto. apply Z.eqb_eq.
    assert (Hge : forall m x w, nth_error dem m = Some x -> nth_error out m = Some w -> (rk x <= rk w)%Z).
    { intros m x w Hx Hw. assert (X : e_le E x w = true).
      { clear - F2 Hx Hw. revert m Hx Hw. induction F2; intros [|m] Hx Hw; simpl in *; try discriminate; [congruence|eauto]. }
      rewrite (l_le L) in X; [now apply Z.leb_le|eapply (@nth_ok T ok dem); eauto|eapply (@nth_ok T ok out); eauto]. }
    destruct Hz' as [[s [l [Hs [Hp Hall]]]] Hmin].
    assert (A : (rk y <= rk z)%Z).
    { assert (X : In n l) by (inversion Hp; subst; now left).
      specialize (Hall _ _ X Hy). rewrite (l_le L) in Hall by auto. now apply Z.leb_le. }
    destruct (Hsp n y Hr Hy) as [[s' [l' [Hs' [Hp' Hall']]]] _].
    destruct (Hmin s' l' Hs' Hp') as [m [w [Hm [Hw Hle]]]].
    assert (Ow : ok w) by (eapply (@nth_ok T ok out); eauto).
    rewrite (l_le L) in Hle by auto. apply Z.leb_le in Hle.
    (* m is on a path whose input elevations are <= y, hence its spill is <= y *)
    assert (B : (rk w <= rk y)%Z).
    { assert (Hm2 : exists l2, gpath LK s' m l2 /\ forall a, In a l2 -> In a l').
      { clear - Hp' Hm. induction Hp' as [|c n l Hp IH Hl].
        - destruct Hm as [<-|[]]. exists [s']. split; [constructor|auto].
        - destruct Hm as [<-|Hm].
          + exists (n :: l). split; [econstructor; eauto|auto].
          + destruct (IH Hm) as [l2 [H1 H2]]. exists l2. split; auto. intros a Ha. right. auto. }
      destruct Hm2 as [l2 [Hp2 Hsub]].
      destruct (Hsp m w) as [_ Hmin2]; auto. { exists s', l2. auto. }
      destruct (Hmin2 s' l2 Hs' Hp2) as [q [x [Hq [Hx Hle2]]]].
      assert (Ox : ok x) by (eapply (@nth_ok T ok dem); eauto).
      assert (Hxy := Hall' q x (Hsub _ Hq) Hx).
      rewrite (l_le L) in Hle2, Hxy by auto. apply Z.leb_le in Hle2, Hxy. lia. }
    lia.
  Qed.

  (** C06: 'complete' twice = 'complete' once, up to == *)
  Theorem C06_complete_idempotent method fuel :
    lower method = "complete"%string ->
    elev_laws E ok rk (e_zero E) -> eps_null E ok (e_zero E) -> Forall ok dem ->
    grid_of iverts nb N -> N <= fuel ->
    exists out out2, fill_sinks E fuel iverts nb dem eps None method = Ok out /\
      fill_sinks E fuel iverts nb out eps None method = Ok out2 /\
      Forall2 (fun x y => e_eq E x y = true) out2 out.
  Proof.
    intros Em L NU O G U.
    assert (F : flood_method method None) by (right; now left).
    assert (Ee : step_eps E method eps = e_zero E) by (unfold step_eps; now rewrite Em).
    assert (L' := L). rewrite <- Ee in L'.
    destruct (flood_facts eps L' O G (mask := None) I F U) as [out [R [Hl [Ho [Hge [Hun _]]]]]].
    destruct (C04_complete_is_spill (iverts := iverts) (nb := nb) eps _ Em L NU O G U) as [o1 [R1 [_ Hsp]]].
    assert (o1 = out) by congruence. subst o1. clear R1.
    assert (G' : grid_of iverts nb (length out)) by now rewrite Hl.
    assert (U' : length out <= fuel) by lia.
    destruct (flood_facts eps L' Ho G' (mask := None) I F U') as [out2 [R2 [Hl2 [Ho2 [Hge2 [Hun2 _]]]]]].
    destruct (C04_complete_is_spill (iverts := iverts) (nb := nb) eps _ Em L NU Ho G' U') as [o1 [R1 [_ Hsp2]]].
    assert (o1 = out2) by congruence. subst o1. clear R1.
    exists out, out2. split; auto. split; auto.
    apply Forall2_nth; auto. intros n x y Hx Hy.
    assert (Hn : n < N) by (rewrite <- Hl; apply nth_error_Some; congruence).
    assert (Ox : ok x) by (eapply (@nth_ok T ok out2); eauto).
    assert (Oy : ok y) by (eapply (@nth_ok T ok out); eauto).
    rewrite Hl in *.
    destruct (e_eq E x y) eqn:Exy; auto. exfalso.
    cut (~ reachable (link nb N) (boundary_cell iverts) n).
    2:{ intros Hr. cut (e_eq E x y = true); [congruence|]. apply (@spill_fix (link nb N) (boundary_cell iverts) out n y x); auto.
      + intros c m [_ H]; auto.
      + intros s Hs. apply boundary_lt in Hs. destruct G as [<- _]. auto. }
    intros Hr. assert (X := Hun2 n Hn Hr). rewrite X in Hx. assert (x = y) by congruence. subst.
      rewrite (l_eq L) in Exy by auto. apply Z.eqb_neq in Exy. auto.
  Qed.
End Props2.

Section Props3.
  Context {T : Type} (E : elev T) (ok : T -> Prop) (rk : T -> Z).
  Variables (iverts nb : list (list nat)) (dem : list T) (eps : T).
  Notation N := (length dem).

  (** C07: [fuel] bounds the iterations of the main loop; N iterations suffice and a
      larger bound changes nothing.  Any neighbour table is allowed. *)
  Theorem C07_flood_terminates mask method :
    elev_laws E ok rk (step_eps E method eps) -> Forall ok dem ->
    grid_of iverts nb N -> mask_fits mask N -> flood_method method mask ->
    exists out, forall fuel, N <= fuel -> fill_sinks E fuel iverts nb dem eps mask method = Ok out.
  Proof.
    intros L O G M F. destruct (flood_facts eps L O G M F (le_n N)) as [out [R _]].
    exists out. intros fuel U. destruct (flood_dispatch E dem eps G M F) as [seed [strm [Er _]]].
    rewrite Er in *. eapply pf_fuel; eauto.
  Qed.

  (** C08: with a stream mask everything reachable drains to a stream cell *)
  Theorem C08_streams_drain m method fuel :
    elev_laws E ok rk (step_eps E method eps) -> Forall ok dem ->
    grid_of iverts nb N -> length m = N -> N <= fuel ->
    let streams := fun n => exists v, nth_error m n = Some v /\ (0 < v)%Z in
    exists out, fill_sinks E fuel iverts nb dem eps (Some m) method = Ok out /\
      (forall n, n < N -> reachable (link nb N) streams n ->
         drains (e_le E) (link nb N) streams out n) /\
      ((forall x, In x out -> e_lt E x (e_add E x (step_eps E method eps)) = true) ->
       forall n, n < N -> reachable (link nb N) streams n ->
         drains (e_lt E) (link nb N) streams out n).
  Proof.
    intros L O G M U streams.
    assert (F : flood_method method (Some m)) by (right; right; discriminate).
    destruct (flood_facts eps L O G (mask := Some m) M F U) as [out H].
    destruct H as [H1 [H2 [H3 [_ [_ [HR _]]]]]]. rewrite Forall_forall in H3.
    exists out. split; auto. split.
    - apply HR. intros x y Hx Hy [->|H].
      + rewrite (l_le L) by auto. apply Z.leb_le. apply (l_up L); auto.
      + rewrite (l_lt L) in H by auto. rewrite (l_le L) by auto. apply Z.leb_le. apply Z.ltb_lt in H. lia.
    - intros Heff. apply HR. intros x y Hx Hy [->|H]; auto.
  Qed.

  (** C10 *)
  Theorem C10_drain_terminates method :
    elev_laws E ok rk eps -> Forall ok dem -> grid_of iverts nb N -> neighbours_in nb N ->
    ~ flood_method method None ->
    exists f0 out, forall fuel, f0 <= fuel -> fill_sinks E fuel iverts nb dem eps None method = Ok out.
  Proof.
    intros L O G NI F. destruct (drain_facts L O G NI F) as [f0 [out H]]. exists f0, out. tauto.
  Qed.

  (** C11: a cell below the flood level drains to the rim in steps of at least eps *)
  Theorem C11_drain_removes_sinks method :
    elev_laws E ok rk eps -> Forall ok dem -> grid_of iverts nb N -> neighbours_in nb N ->
    ~ flood_method method None ->
    exists f0 out, (forall fuel, f0 <= fuel -> fill_sinks E fuel iverts nb dem eps None method = Ok out) /\
      (forall n x, nth_error out n = Some x -> e_lt E x (e_big E) = true ->
         drains (fun x y => e_le E (e_add E x eps) y) (fun w n => adjacent nb n w)
                (boundary_cell iverts) out n) /\
      (* and a cell is assigned (ends below the flood level) when some path of cells to
         the rim stays below an elevation v with v + (length of path)*eps < 1e10 *)
      (forall s n l v y, ok v -> boundary_cell iverts s ->
         gpath (fun w n => adjacent nb n w /\ n < N) s n l ->
         (forall m x, In m l -> nth_error dem m = Some x -> e_le E x v = true) ->
         e_lt E (add_times E eps (length l) v) (e_big E) = true ->
         nth_error out n = Some y -> e_lt E y (e_big E) = true).
  Proof.
    intros L O G NI F. destruct (drain_facts L O G NI F) as [f0 [out H]]. exists f0, out.
    destruct H as [H1 [H2 [H3 [H4 [H5 [H6 [H7 H8]]]]]]]. split; auto. split; auto.
    intros s n l v y Hv Hs Hp Hall Hlt Hy.
    assert (HsN : s < N) by (apply boundary_lt in Hs; destruct G as [<- _]; auto).
    destruct (drain_upper (boundary_cell iverts) L O H3 H2 H5 H8 _ Hv Hs HsN Hp Hall) as [_ X]. specialize (X y Hy).
    assert (Oy : ok y) by (eapply (@nth_ok T ok out); eauto).
    assert (Oa : ok (add_times E eps (length l) v)) by (eapply ok_at; eauto).
    rewrite (l_lt L) in *; auto; try apply (l_big L). apply Z.ltb_lt in Hlt. apply Z.ltb_lt. lia.
  Qed.

  (** C12: with eps = 0, drain = complete = spill elevation (symmetric neighbour table,
      DEM below the flood level) *)
  Theorem C12_drain_is_complete method cmethod fuel :
    ~ flood_method method None -> lower cmethod = "complete"%string ->
    elev_laws E ok rk (e_zero E) -> eps_null E ok (e_zero E) -> Forall ok dem ->
    grid_of iverts nb N -> neighbours_in nb N -> symmetric_grid nb -> N <= fuel ->
    Forall (fun x => e_le E x (e_big E) = true) dem ->
    exists f0 out cout,
      (forall fuel, f0 <= fuel -> fill_sinks E fuel iverts nb dem (e_zero E) None method = Ok out) /\
      fill_sinks E fuel iverts nb dem eps None cmethod = Ok cout /\
      forall n y z, reachable (link nb N) (boundary_cell iverts) n ->
        nth_error out n = Some y -> nth_error cout n = Some z ->
        is_spill (e_le E) (link nb N) (boundary_cell iverts) dem n y /\ e_eq E y z = true.
  Proof.
    intros F Em L NU O G NI SY U B.
    destruct (drain_facts L O G NI F) as [f0 [out H]].
    destruct H as [H1 [H2 [H3 [H4 [H5 [H6 [H7 H8]]]]]]]. specialize (H4 B).
    destruct (C04_complete_is_spill (iverts := iverts) (nb := nb) eps _ Em L NU O G U) as [cout [R [Hlc Hsp]]].
    exists f0, out, cout. split; auto. split; auto. intros n y z Hr Hy Hz.
    assert (Hsp' := Hsp n z Hr Hz).
    assert (Oy : ok y) by (eapply (@nth_ok T ok out); eauto).
    assert (Hbl : forall s, boundary_cell iverts s -> s < N).
    { intros s Hs. apply boundary_lt in Hs. destruct G as [<- _]. auto. }
    assert (Oz : ok z).
    { assert (L' : elev_laws E ok rk (step_eps E cmethod eps)) by (unfold step_eps; rewrite Em; exact L).
      destruct (flood_facts eps L' O G (mask := None) I (or_intror (or_introl Em)) U) as [o [R' [_ [Ho _]]]].
      assert (o = cout) by congruence. subst o. eapply (@nth_ok T ok cout); eauto. }
    assert (Hfwd : forall a b, link nb N a b -> adjacent nb b a /\ b < N).
    { intros a b [Ha Hb]. split; auto. }
    assert (Hbwd : forall a b, adjacent nb b a /\ b < N -> link nb N a b).
    { intros a b [Ha Hb]. split; auto. }
    (* lower half: every path has a cell >= y *)
    assert (Hlow : forall s l, boundary_cell iverts s -> gpath (link nb N) s n l ->
       exists m x, In m l /\ nth_error dem m = Some x /\ e_le E y x = true).
    { intros s l Hs Hp. apply (gpath_sub _ Hfwd) in Hp.
      eapply (drain_low (boundary_cell iverts) L O H3 H2 H5 H8 NU Hs (Hbl _ Hs) Hp Hy); eauto. }
    (* upper half: y <= z *)
    destruct Hsp' as [[s [l [Hs [Hp Hall]]]] Hmin].
    assert (Hyz : (rk y <= rk z)%Z).
    { destruct (drain_upper (boundary_cell iverts) L O H3 H2 H5 H8 _ Oz Hs (Hbl _ Hs) (gpath_sub _ Hfwd Hp) Hall) as [_ X].
      specialize (X y Hy). rewrite (at_null L NU) in X by auto. auto. }
    assert (Hzy : (rk z <= rk y)%Z).
    { destruct (Z.ltb_spec (rk y) (rk (e_big E))) as [Hlt|Hge].
      - assert (D := H6 n y Hy). rewrite (l_lt L) in D; auto; [|apply (l_big L)].
        specialize (D (proj2 (Z.ltb_lt _ _) Hlt)).
        destruct (drain_path L O H3 H2 H4 Hbl D) as [_ [s' [l' [Hs' [Hp' Hx]]]]].
        destruct (Hmin s' l' Hs' (gpath_sub _ Hbwd Hp')) as [m [x [Hm [Hx' Hle]]]].
        specialize (Hx m x y Hm Hx' Hy).
        assert (Ox : ok x) by (eapply (@nth_ok T ok dem); eauto).
        rewrite (l_le L) in Hle by auto. apply Z.leb_le in Hle. lia.
      - destruct (Hmin s l Hs Hp) as [m [x [Hm [Hx' Hle]]]].
        assert (Ox : ok x) by (eapply (@nth_ok T ok dem); eauto).
        rewrite Forall_forall in B. assert (X := B x (nth_error_In _ _ Hx')).
        rewrite (l_le L) in Hle, X; auto; try apply (l_big L). apply Z.leb_le in Hle, X. lia. }
    split.
    - split; auto. exists s, l. split; auto. split; auto. intros m x Hm Hx.
      assert (Ox : ok x) by (eapply (@nth_ok T ok dem); eauto).
      assert (X := Hall m x Hm Hx). rewrite (l_le L) in * by auto. apply Z.leb_le in X. apply Z.leb_le. lia.
    - rewrite (l_eq L) by auto. apply Z.eqb_eq. lia.
  Qed.
End Props3.

(** C13 *)
Theorem C13_edge_cells iverts : Forall (fun p => p <> []) iverts ->
  exists l, identify_edge_nodes iverts = Ok l /\ StronglySorted lt l /\
    forall n, In n l <-> boundary_cell iverts n.
Proof. apply identify_edge_nodes_spec. Qed.

(** C14: NaN filling returns iff every NaN cell has a neighbour that is valid or is a
    NaN cell with a larger number; otherwise it never returns (and with mean/median, or
    when no cell is isolated, it runs for ever). *)
Section Nan.
  Context {T : Type} (a : aggs T).
  Variables (nb : list (list nat)) (dem : list (option T)) (method : string).
  Definition known_method : Prop :=
    In (lower method) ["mean"; "median"; "min"; "max"]%string.
  Definition can_fill : Prop := forall n, is_nan dem n ->
    exists m, adjacent nb n m /\ (is_valid dem m \/ (is_nan dem m /\ n < m)).

  Lemma known_agg : known_method -> exists g strict, nan_agg a method = Some (g, strict) /\
    (strict = false <-> lower method = "mean"%string \/ lower method = "median"%string).
  Proof.
    unfold known_method, nan_agg. intros [H|[H|[H|[H|[]]]]]; rewrite <- H; simpl; eexists _, _; split; try reflexivity;
      split; auto; try discriminate; intros [X|X]; discriminate.
  Qed.

  Lemma nb_in' : neighbours_in nb (length dem) ->
    forall c l n, c < length dem -> nth_error nb c = Some l -> In n l -> n < length dem.
  Proof. intros NI c l n Hc El Hn. apply (NI c); auto. exists l. auto. Qed.

  Theorem C14_nan_fill_returns : known_method -> length dem <= length nb ->
    neighbours_in nb (length dem) -> can_fill ->
    exists out, forall fuel, length dem <= fuel -> fill_nan fuel nb a method dem = Ok out.
  Proof.
    intros KM NL NI CF. destruct (known_agg KM) as [g [st [Eg _]]].
    destruct (@loop_ok T nb dem g st NL (nb_in' NI) _ dem (init_inv dem)) as [out [_ H]].
    { intros c Hc. apply CF. apply in_rev, in_where in Hc. destruct Hc as [[x|] [H1 H2]]; [discriminate|auto]. }
    exists out. intros fuel U. unfold fill_nan. rewrite Eg. apply H.
    rewrite rev_length. etransitivity; [apply where_length|auto].
  Qed.

  Theorem C14_nan_fill_never_returns : known_method -> length dem <= length nb ->
    neighbours_in nb (length dem) -> ~ can_fill ->
    forall fuel out, fill_nan fuel nb a method dem <> Ok out.
  Proof.
    intros KM NL NI CF fuel out HR. apply CF. intros n Hn. destruct (known_agg KM) as [g [st [Eg _]]].
    unfold fill_nan in HR. rewrite Eg in HR.
    assert (D : fillable nb dem n \/ ~ fillable nb dem n).
    { destruct (nth_error nb n) as [l|] eqn:El.
      2:{ right. intros [m [[l [H _]] _]]. congruence. }
      destruct (Exists_dec (fun m => is_valid dem m \/ (is_nan dem m /\ n < m)) l) as [H|H].
      - intros m. unfold is_valid, is_nan. destruct (nth_error dem m) as [[x|]|].
        + left. left. eauto.
        + destruct (lt_dec n m); [left; auto|]. right. intros [[x Hx]|[_ ?]]; [discriminate|auto].
        + right. intros [[x Hx]|[? _]]; discriminate.
      - apply Exists_exists in H. destruct H as [m [Hm H]]. left. exists m. split; auto. exists l. auto.
      - right. intros [m [[l' [El' Hm]] Hc]]. apply H. apply Exists_exists. exists m. split; auto. congruence. }
    destruct D as [D|D]; auto. exfalso.
    refine (@loop_bad T nb dem g st NL (nb_in' NI) _ dem (init_inv dem) _ fuel out HR).
    exists n. split; auto. apply -> in_rev. apply in_where. exists None. auto.
  Qed.

  Theorem C14_nan_fill_diverges : known_method -> length dem <= length nb ->
    neighbours_in nb (length dem) ->
    (lower method = "mean"%string \/ lower method = "median"%string \/
     forall c l, nth_error nb c = Some l -> l <> []) ->
    (exists n, is_nan dem n /\ forall m, adjacent nb n m -> is_nan dem m /\ m <= n) ->
    forall fuel, fill_nan fuel nb a method dem = Err OutOfFuel.
  Proof.
    intros KM NL NI HM [n [Hn Hall]] fuel. destruct (known_agg KM) as [g [st [Eg Hst]]].
    unfold fill_nan. rewrite Eg.
    apply (@loop_diverges T nb dem g st NL (nb_in' NI) _); [|apply init_inv|].
    { destruct HM as [H|[H|H]]; auto; left; apply Hst; auto. }
    exists n. split.
    - apply -> in_rev. apply in_where. exists None. auto.
    - intros [m [Hm [[x Hx]|[H1 H2]]]]; destruct (Hall m Hm) as [X Y]; [|lia].
      unfold is_nan in X. congruence.
  Qed.
End Nan.

(** C15 (exact rational arithmetic): nothing missing is left, valid cells are kept, the
    new values are the requested statistic and stay within the range of the valid ones. *)
Lemma somes_seen {T} (dem out : list (option T)) n nn :
  somes (map (seen dem out n) nn) = known_values dem out n nn.
Proof.
  induction nn as [|m nn IH]; simpl; auto. unfold seen at 1, v.
  destruct (if n <? m then nth m out None else nth m dem None); [f_equal|]; auto.
Qed.

Theorem C15_nan_fill_result nb (dem : list (option Q)) method lo hi :
  known_method method -> length dem <= length nb -> neighbours_in nb (length dem) -> can_fill nb dem ->
  (forall n x, nth_error dem n = Some (Some x) -> (lo <= x <= hi)%Q) ->
  exists out, (forall fuel, length dem <= fuel -> fill_nan fuel nb Qaggs method dem = Ok out) /\
    length out = length dem /\
    (forall n, ~ is_nan out n) /\
    (forall n, is_valid dem n -> nth_error out n = nth_error dem n) /\
    (forall n x, nth_error out n = Some (Some x) -> (lo <= x <= hi)%Q) /\
    (forall n, is_nan dem n -> exists nn y, nth_error nb n = Some nn /\
        nth_error out n = Some (Some y) /\ stat_ok method (known_values dem out n nn) y).
Proof.
  intros KM NL NI CF Hr. destruct (known_agg Qaggs KM) as [g [st [Eg _]]].
  assert (Hst : forall c, In c (rev (where_ isnan dem)) -> fillable nb dem c).
  { intros c Hc. apply CF. apply in_rev, in_where in Hc. destruct Hc as [[x|] [H1 H2]]; [discriminate|auto]. }
  destruct (@loop_value Q nb dem g st NL (nb_in' dem NI) _ dem (init_inv dem)) as [out [Io [Ko Ho]]]; auto.
  { intros n Hn Hni. exfalso. apply Hni. apply -> in_rev. apply in_where. exists None. auto. }
  assert (Hrun : forall fuel, length dem <= fuel -> fill_nan fuel nb Qaggs method dem = Ok out).
  { intros fuel U. unfold fill_nan. rewrite Eg. apply Ho.
    rewrite rev_length. etransitivity; [apply where_length|auto]. }
  assert (Hsome : forall n, is_nan dem n -> exists x, nth_error out n = Some (Some x)).
  { intros n Hn. destruct (i_done Io Hn (fun x => x)) as [[x Hx] _].
    exists x. unfold v in Hx. rewrite (nth_error_nth' out None); [congruence|].
    rewrite (i_len Io). eapply nan_lt; eauto. }
  exists out. split; auto. split; [apply (i_len Io)|]. split; [|split; [|split]].
  - intros n Hn. assert (Hlt : n < length dem).
    { rewrite <- (i_len Io). apply nth_error_Some. unfold is_nan in Hn. congruence. }
    destruct (@valid_or_nan Q nb dem NL n Hlt) as [Hv|Hv].
    + assert (X := i_valid Io Hv). destruct Hv as [x Hx]. unfold is_nan in Hn. congruence.
    + destruct (Hsome n Hv) as [x Hx]. unfold is_nan in Hn. congruence.
  - intros n Hn. now apply (i_valid Io).
  - assert (Hrun' := Hrun _ (le_n _)). unfold fill_nan in Hrun'. rewrite Eg in Hrun'.
    intros n x. apply (loop_range nb dem g st (P := within lo hi)) with (f := length dem) (st := rev (where_ isnan dem)) (d := dem); auto.
    intros x' l H1 H2. unfold nan_agg in Eg.
    destruct (String.eqb (lower method) "mean"); [inversion Eg; subst; now apply mean_within|].
    destruct (String.eqb (lower method) "median"); [inversion Eg; subst; now apply median_within|].
    destruct (String.eqb (lower method) "min"); [inversion Eg; subst; now apply min_within|].
    destruct (String.eqb (lower method) "max"); [inversion Eg; subst; now apply max_within|discriminate].
  - intros n Hn. destruct (Ko n Hn (fun x => x)) as [nn [x [l [H1 [H2 H3]]]]].
    exists nn, (g x l). split; auto. split.
    { destruct (Hsome n Hn) as [y Hy]. unfold v in H3. rewrite (nth_error_nth _ _ None Hy) in H3. congruence. }
    rewrite somes_seen in H2. rewrite H2. unfold nan_agg in Eg.
    destruct (String.eqb_spec (lower method) "mean") as [E1|E1].
    { inversion Eg; subst. repeat split; try congruence. intros _. apply q_mean_ok. }
    destruct (String.eqb_spec (lower method) "median") as [E2|E2].
    { inversion Eg; subst. repeat split; try congruence. intros _. apply q_median_ok. }
    destruct (String.eqb_spec (lower method) "min") as [E3|E3].
    { inversion Eg; subst. split; [congruence|]. split; [congruence|]. split; [|congruence]. intros _. apply q_min_ok. }
    destruct (String.eqb_spec (lower method) "max") as [E4|E4]; [|discriminate].
    inversion Eg; subst. split; [congruence|]. split; [congruence|]. split; [congruence|]. intros _. apply q_max_ok.
Qed.

(** C16 *)
Section Dispatch.
  Context {T : Type} (E : elev T).
  Variables (fuel : nat) (iverts nb : list (list nat)) (dem : list T) (eps : T).
  Notation fill := (fill_sinks E fuel iverts nb dem).

  Theorem C16_case_insensitive mask m1 m2 : lower m1 = lower m2 -> fill eps mask m1 = fill eps mask m2.
  Proof.
    intros H. unfold fill_sinks. destruct (identify_edge_nodes iverts); auto. cbn [bind]. rewrite H.
    destruct mask; rewrite ?H; auto.
    destruct (String.eqb (lower m2) "priority") eqn:E1; cbn [orb]; [rewrite H, E1; auto|].
    destruct (String.eqb (lower m2) "complete") eqn:E2; [rewrite H, E1, E2; auto|auto].
  Qed.

  Theorem C16_mask_forces_priority mask method : lower method <> "complete"%string ->
    fill eps (Some mask) method = fill eps (Some mask) "priority".
  Proof.
    intros H. unfold fill_sinks. destruct (identify_edge_nodes iverts); auto. cbn [bind].
    destruct (String.eqb_spec (lower method) "priority") as [E1|E1]; cbn [orb].
    - rewrite E1. reflexivity.
    - destruct (String.eqb_spec (lower method) "complete") as [E2|E2]; [congruence|]. reflexivity.
  Qed.

  Theorem C16_complete_is_priority_with_eps_0 mask method : lower method = "complete"%string ->
    fill eps mask method = fill (e_zero E) mask "priority".
  Proof.
    intros H. unfold fill_sinks. destruct (identify_edge_nodes iverts); auto. cbn [bind].
    destruct mask; rewrite !H; simpl; rewrite ?H; auto.
  Qed.

  (** an unrecognised name is not reported: it runs 'drain' *)
  Theorem C16_unknown_runs_drain method : ~ flood_method method None ->
    fill eps None method = fill eps None "drain".
  Proof.
    intros H. unfold fill_sinks. destruct (identify_edge_nodes iverts); auto. cbn [bind].
    destruct (String.eqb_spec (lower method) "priority") as [E1|E1]; [destruct H; now left|].
    destruct (String.eqb_spec (lower method) "complete") as [E2|E2]; [destruct H; right; now left|]. auto.
  Qed.
End Dispatch.

(** C17: histories of heappush/heappop on (elevation, cell) pairs *)
Theorem C17_priority_queue {T} (E : elev T) ok rk eps (ops : list (option (T * nat))) :
  elev_laws E ok rk eps ->
  Forall (fun o => match o with Some p => ok (fst p) | None => True end) ops ->
  pq_spec (fun a b => if e_eq E (fst a) (fst b) then snd a <? snd b else e_lt E (fst a) (fst b))
          ops [] (heap_history (entry_lt E) ops []).
Proof.
  intros L Hops. change (pq_spec (entry_lt E) ops [] (heap_history (entry_lt E) ops [])).
  assert (Hlt : forall x y, ok (fst x) -> ok (fst y) -> entry_lt E x y = true <->
     (rk (fst x) < rk (fst y))%Z \/ (rk (fst x) = rk (fst y) /\ snd x < snd y)).
  { intros x y Hx Hy. unfold entry_lt. rewrite (l_eq L), (l_lt L) by auto.
    destruct (Z.eqb_spec (rk (fst x)) (rk (fst y))); [rewrite Nat.ltb_lt|rewrite Z.ltb_lt]; lia. }
  assert (Hnl : forall x y, ok (fst x) -> ok (fst y) -> entry_lt E x y = false <->
     ~ ((rk (fst x) < rk (fst y))%Z \/ (rk (fst x) = rk (fst y) /\ snd x < snd y))).
  { intros x y Hx Hy. rewrite <- Hlt by auto. destruct (entry_lt E x y); intuition congruence. }
  apply heap_history_spec with (P := fun p => ok (fst p)).
  - intros x y Hx Hy H. apply Hlt in H; auto. apply Hnl; auto. lia.
  - intros x y z Hx Hy Hz H1 H2. apply Hnl in H1, H2; auto. apply Hnl; auto. lia.
  - intros x Hx. apply Hnl; auto. lia.
  - exact Hops.
  - intros i d H1 H2. simpl in H2. lia.
  - constructor.
  - constructor.
Qed.

(** ** Worked cases: the hypotheses above are met by ordinary grids. *)
Module Ex.
  Local Open Scope Z_scope.
  (* a 4x4 grid with a two-cell pit (rows 5 5 5 5 / 5 1 2 5 / 5 2 1 5 / 5 4 5 5) *)
  Definition dem : list Z := [5;5;5;5; 5;1;2;5; 5;2;1;5; 5;4;5;5].
  Definition iv := quad_iverts 4 4.
  Definition nb := queen 4 4.

  Definition subl (l : list nat) := forallb (fun n => Nat.ltb n 16) l.
  Lemma grid_ok : grid_of iv nb 16.
  Proof. split; [reflexivity|]. split; [|vm_compute; lia].
    apply Forall_forall. intros p Hp. vm_compute in Hp. repeat destruct Hp as [<-|Hp]; try discriminate. destruct Hp. Qed.
  Lemma nb_ok : neighbours_in nb 16.
  Proof. intros c n Hc [l [Hl Hn]]. assert (H : forallb subl nb = true) by (vm_compute; reflexivity).
    rewrite forallb_forall in H. specialize (H l (nth_error_In _ _ Hl)). unfold subl in H.
    rewrite forallb_forall in H. apply Nat.ltb_lt. auto. Qed.
  Lemma all_ok : Forall (fun _ : Z => True) dem.
  Proof. apply Forall_forall. auto. Qed.

  Definition priority_out := Eval vm_compute in fill_sinks Zelev 16 iv nb dem 1 None "priority".
  Definition complete_out := Eval vm_compute in fill_sinks Zelev 16 iv nb dem 1 None "Complete".
  Definition drain_out := Eval vm_compute in fill_sinks Zelev 40 iv nb dem 1 None "drain".
  Example priority_run : priority_out = Ok [5;5;5;5; 5;6;6;5; 5;5;5;5; 5;4;5;5] := eq_refl.
  Example complete_run : complete_out = Ok [5;5;5;5; 5;4;4;5; 5;4;4;5; 5;4;5;5] := eq_refl.
  Example drain_run : drain_out = Ok [5;5;5;5; 5;6;6;5; 5;5;5;5; 5;4;5;5] := eq_refl.

  (** the theorems apply to this grid *)
  Example C01_instance := C01_flood_never_lowers (E := Zelev) (iverts := iv) (nb := nb) (dem := dem) 1
    (mask := None) (method := "priority") (Zlaws (eps := 1) ltac:(lia)) all_ok grid_ok I (or_introl eq_refl) (le_n 16).
  Example C04_instance := C04_complete_is_spill (E := Zelev) (iverts := iv) (nb := nb) (dem := dem) 1
    "Complete" eq_refl (Zlaws (eps := 0) ltac:(lia)) Znull all_ok grid_ok (le_n 16).
  Example C11_instance := C11_drain_removes_sinks (E := Zelev) (iverts := iv) (nb := nb) (dem := dem)
    (method := "drain") (Zlaws (eps := 1) ltac:(lia)) all_ok grid_ok nb_ok
    ltac:(intros [H|[H|H]]; [discriminate|discriminate|now elim H]).

  Lemma nb_sym : symmetric_grid nb.
  Proof.
    intros c n [l [Hl Hn]].
    assert (H : forallb (fun c => forallb (fun n => existsb (Nat.eqb c) (nth n nb [])) (nth c nb [])) (seq 0 16) = true)
      by (vm_compute; reflexivity).
    assert (Hc : (c < 16)%nat) by (change 16%nat with (length nb); apply nth_error_Some; congruence).
    rewrite forallb_forall in H. specialize (H c (proj2 (in_seq _ _ _) (conj (Nat.le_0_l _) Hc))).
    rewrite forallb_forall in H. rewrite (nth_error_nth _ _ [] Hl) in H. specialize (H n Hn).
    apply existsb_exists in H. destruct H as [c' [H1 H2]]. apply Nat.eqb_eq in H2. subst c'.
    destruct (nth_error nb n) as [l'|] eqn:En.
    - exists l'. split; auto. now rewrite (nth_error_nth _ _ [] En) in H1.
    - apply nth_error_None in En. rewrite nth_overflow in H1 by auto. destruct H1.
  Qed.
  Example C12_instance := C12_drain_is_complete (E := Zelev) (iverts := iv) (nb := nb) (dem := dem) 7
    (method := "drain") "complete"
    ltac:(intros [H|[H|H]]; [discriminate|discriminate|now elim H]) eq_refl
    (Zlaws (eps := 0) ltac:(lia)) Znull all_ok grid_ok nb_ok nb_sym (le_n 16)
    ltac:(repeat constructor).

  (** C09 is false: a 1x4 all-stream grid with elevations 3 2 1 4.  After filling, cell 2
      (elevation 3) is lower than both of its stream neighbours (4 and 4). *)
  Definition stream_pit (m : list Z) (nb : list (list nat)) (out : list Z) (n : nat) : Prop :=
    let stream k := exists v, nth_error m k = Some v /\ 0 < v in
    stream n /\ (exists a b, a <> b /\ adjacent nb n a /\ adjacent nb n b /\ stream a /\ stream b) /\
    forall k x y, adjacent nb n k -> stream k -> nth_error out n = Some x -> nth_error out k = Some y -> x < y.

  Definition sdem : list Z := [3;2;1;4].
  Definition snb : list (list nat) := [[1]; [0;2]; [1;3]; [2]]%nat.
  Theorem C09_stream_pits_refuted : exists iverts nb dem m out n,
    grid_of iverts nb (length dem) /\ length m = length dem /\
    fill_sinks Zelev (length dem) iverts nb dem 1 (Some m) "priority" = Ok out /\ stream_pit m nb out n.
  Proof.
    exists (quad_iverts 1 4), snb, sdem, [1;1;1;1], [3;4;3;4], 2%nat.
    split. { split; [reflexivity|]. split; [|vm_compute; lia]. repeat constructor; discriminate. }
    split; [reflexivity|]. split; [vm_compute; reflexivity|].
    split; [exists 1; split; [reflexivity|lia]|]. split.
    - exists 1%nat, 3%nat. split; [lia|]. split; [exists [1;3]%nat; simpl; auto|]. split; [exists [1;3]%nat; simpl; auto|].
      split; exists 1; split; try reflexivity; lia.
    - intros k x y [l [Hl Hk]] _ Hx Hy. inversion Hl; subst. destruct Hk as [<-|[<-|[]]]; inversion Hx; inversion Hy; lia.
  Qed.

  (** C14/C15: a row 1 - NaN - NaN - NaN never finishes, 1 - NaN - 4 - NaN does *)
  Definition q (z : Z) : Q := inject_Z z.
  Example C14_diverges_case : forall fuel, fill_nan fuel snb Qaggs "mean" [Some (q 1); None; None; None] = Err OutOfFuel.
  Proof.
    intros fuel. apply C14_nan_fill_diverges.
    - unfold known_method; simpl; auto. - simpl. lia.
    - intros c n Hc [l [Hl Hn]]. simpl in *. destruct c as [|[|[|[|]]]]; inversion Hl; subst; simpl in Hn; intuition lia.
    - now left.
    - exists 3%nat. split; [reflexivity|]. intros m [l [Hl Hm]]. inversion Hl; subst. destruct Hm as [<-|[]].
      split; [reflexivity|lia].
  Qed.
  Example C15_case : fill_nan 4 snb Qaggs "max" [Some (q 1); None; Some (q 4); None]
    = Ok [Some (q 1); Some (q 4); Some (q 4); Some (q 4)].
  Proof. reflexivity. Qed.
  Example C15_hyp : can_fill snb [Some (q 1); None; Some (q 4); None].
  Proof. intros n Hn. destruct n as [|[|[|[|n]]]]; try discriminate.
    - exists 0%nat. split; [exists [0;2]%nat; simpl; auto|]. left. exists (q 1). reflexivity.
    - exists 2%nat. split; [exists [2]%nat; simpl; auto|]. left. exists (q 4). reflexivity.
    - destruct n; discriminate. Qed.
End Ex.
