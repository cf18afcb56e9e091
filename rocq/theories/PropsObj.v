(** Histories of calls on one FlowDirections object: C26, and C66 for arbitrary histories. *)
From Coq Require Import QArith String.
From Verif Require Import Py Spec MFlow MDir MObj Grids LRat LGraph PropsBasin PropsDir.
Set Implicit Arguments.
Unset Strict Implicit.
Local Open Scope nat_scope.
Local Open Scope list_scope.
Local Notation length := List.length.

Section Histories.
  Context {T W : Type} (O : slope_ops T) (wadd : W -> W -> W) (wzero : W).
  Variables (fuel lim : nat) (dist : nat -> nat -> T) (dem : list (option T)) (area : list W).
  Variable nb : list (list nat).

  (** the answer to call [c] on the object after the calls [h] (oldest first), the object
      having been created for a grid with neighbours [nb] *)
  Definition step := @call T W (o_sub O) (o_div O) (o_lt O) (o_eq O) (o_zero O) (o_big O) wadd wzero fuel lim dist dem area.
  Definition after (h : list (@fcall T)) : fobj :=
    calls (o_sub O) (o_div O) (o_lt O) (o_eq O) (o_zero O) (o_big O) wadd wzero fuel lim dist dem area (new_object nb) h.
  Definition reply (h : list fcall) (c : fcall) : res fanswer := snd (step (after h) c).

  (** calls that change the flow directions *)
  Definition sets_directions (c : @fcall T) : Prop :=
    match c with FlowDirections _ _ | EditDirection _ _ => True | _ => False end.
  (** calls that delineate watersheds *)
  Definition delineates (c : @fcall T) : Prop :=
    match c with Watershed _ | Subbasins _ => True | _ => False end.

  Lemma after_snoc h c : after (h ++ [c]) = fst (step (after h) c).
  Proof. unfold after, calls. now rewrite fold_left_app. Qed.
  Lemma after_app h h' : after (h ++ h') = fold_left (fun o c => fst (step o c)) h' (after h).
  Proof. unfold after, calls. now rewrite fold_left_app. Qed.

  (** *** what a call leaves unchanged *)
  Lemma reverse_same o : fo_nb (fst (do_reverse (W:=W) o)) = fo_nb o /\ fo_fdir (fst (do_reverse o)) = fo_fdir o /\ fo_acc (fst (do_reverse o)) = fo_acc o.
  Proof. unfold do_reverse. destruct (fo_rev o); [easy|]. destruct (bind _ _); easy. Qed.
  Lemma watershed_same o c s : fo_nb (fst (do_watershed (W:=W) fuel o c s)) = fo_nb o /\ fo_fdir (fst (do_watershed fuel o c s)) = fo_fdir o /\ fo_acc (fst (do_watershed fuel o c s)) = fo_acc o.
  Proof. unfold do_watershed. assert (X := reverse_same o). destruct (do_reverse o). exact X. Qed.
  Lemma sub_loop_same cells idxs : forall o s, fo_nb (fst (sub_loop (W:=W) fuel o cells idxs s)) = fo_nb o /\ fo_fdir (fst (sub_loop fuel o cells idxs s)) = fo_fdir o /\ fo_acc (fst (sub_loop fuel o cells idxs s)) = fo_acc o.
  Proof.
    induction idxs as [|i idxs IH]; intros o s; cbn; [easy|]. destruct (get cells i) as [c|]; [|easy].
    assert (X := watershed_same o c (Some s)). destruct (do_watershed fuel o c (Some s)) as [o' [s'|]]; [|easy].
    destruct (IH o' s') as [A [B C]]. cbn [fst] in X. destruct X as [X1 [X2 X3]]. rewrite A, B, C. auto.
  Qed.
  Lemma subbasins_same o cells : fo_nb (fst (do_subbasins (W:=W) fuel lim o cells)) = fo_nb o /\ fo_fdir (fst (do_subbasins fuel lim o cells)) = fo_fdir o.
  Proof.
    unfold do_subbasins. destruct (fo_fdir o) as [f|] eqn:E; [|easy]. destruct (sub_order _ _ _ _); [|easy].
    destruct (sub_loop_same cells a o (repeat 0%Z (length f))) as [A [B _]]. now rewrite A, B.
  Qed.

  Lemma step_fdir o c : ~ sets_directions c -> fo_fdir (fst (step o c)) = fo_fdir o.
  Proof.
    destruct c; cbn; intros NS; try tauto; auto.
    - unfold do_accumulation. destruct (bind _ _); auto.
    - destruct (watershed_same o cell None) as [_ [X _]]. exact X.
    - destruct (subbasins_same o cells) as [_ X]. exact X.
  Qed.
  Lemma step_rev o c : ~ delineates c -> fo_rev (fst (step o c)) = fo_rev o.
  Proof.
    destruct c; cbn; intros NS; try tauto; auto.
    - unfold do_flow_directions. destruct (flow_directions _ _ _ _ _ _ _ _ _ _ _ _) as [[? ?]|]; auto.
    - unfold do_edit. destruct (bind _ _); auto.
    - unfold do_accumulation. destruct (bind _ _); auto.
  Qed.

  (** *** the neighbour table is the original one or its padded form *)
  Definition nb_ok (o : fobj (W:=W)) : Prop := fo_nb o = nb \/ fo_nb o = pad_neighbors (length dem) nb.

  Lemma fd_padded n thr ts : n = nb \/ n = pad_neighbors (length dem) nb ->
    run O fuel dist dem n thr ts = run O fuel dist dem nb thr ts.
  Proof. intros [->| ->]; auto. unfold run, flow_directions. now rewrite pad_pad. Qed.
  Lemma fd_nb n thr ts f n' : run O fuel dist dem n thr ts = Ok (f, n') -> n' = pad_neighbors (length dem) n.
  Proof.
    unfold run, flow_directions. intros H.
    destruct (min_cells _ _ _ dem); cbn [bind] in H; [|discriminate]. destruct (start_fdir _ _ _); cbn [bind] in H; [|discriminate].
    destruct (fcells_of _ _ _); cbn [bind] in H; [|discriminate]. destruct (calculate_flowcell _ _ _ _ _); cbn [bind] in H; [|discriminate].
    now inversion H.
  Qed.

  Lemma step_nb o c : nb_ok o -> nb_ok (fst (step o c)).
  Proof.
    unfold nb_ok. intros H. destruct c; cbn; auto.
    - unfold do_flow_directions. destruct (flow_directions _ _ _ _ _ _ _ _ _ _ _ _) as [[f n]|] eqn:E; auto. cbn [fst fo_nb].
      apply fd_nb in E. subst n. destruct H as [->| ->]; [auto|]. rewrite pad_pad. auto.
    - unfold do_edit. destruct (bind _ _); auto.
    - unfold do_accumulation. destruct (bind _ _); auto.
    - destruct (watershed_same o cell None) as [X _]. now rewrite X.
    - destruct (subbasins_same o cells) as [X _]. now rewrite X.
  Qed.
  Lemma after_nb h : nb_ok (after h).
  Proof. induction h as [|c h IH] using rev_ind; [now left|]. rewrite after_snoc. now apply step_nb. Qed.

  (** C66 for every history: a call of flow_directions answers as on a new object, whatever
      was called before, successful or not *)
  Theorem C66_any_history : forall h thr terminals,
    reply h (FlowDirections thr terminals) = reply [] (FlowDirections thr terminals).
  Proof.
    intros h thr ts. unfold reply, step. cbn. unfold do_flow_directions.
    assert (X := fd_padded thr ts (after_nb h)). unfold run in X. rewrite X. clear X.
    cbn [new_object fo_nb].
    destruct (flow_directions _ _ _ _ _ _ _ _ _ _ _ _) as [[f n]|]; reflexivity.
  Qed.

  (** the flow directions in force after a call of flow_directions and calls that do not
      change them *)
  Lemma fdir_after h thr ts h' fdir : reply [] (FlowDirections thr ts) = Ok (Ints fdir) ->
    (forall c, In c h' -> ~ sets_directions c) ->
    fo_fdir (after (h ++ FlowDirections thr ts :: h')) = Some fdir.
  Proof.
    intros E H. replace (h ++ FlowDirections thr ts :: h') with ((h ++ [FlowDirections thr ts]) ++ h') by now rewrite <- app_assoc.
    rewrite <- (C66_any_history h) in E. unfold reply in E.
    rewrite after_app, after_snoc.
    assert (B : fo_fdir (fst (step (after h) (FlowDirections thr ts))) = Some fdir).
    { unfold step in *. cbn in *. unfold do_flow_directions in *.
      destruct (flow_directions _ _ _ _ _ _ _ _ _ _ _ _) as [[f n]|]; [|discriminate]. cbn in *. now inversion E. }
    revert B. generalize (fst (step (after h) (FlowDirections thr ts))). induction h' as [|c h' IH]; intros o B; cbn [fold_left]; auto.
    apply IH; [intros c' Hc'; apply H; now right|]. rewrite step_fdir; auto. apply H. now left.
  Qed.

  (** C66/C18-C23 in histories: everything but watersheds and the stored accumulation array
      depends on the latest flow_directions call alone *)
  Theorem C26_other_answers_current : forall h thr terminals h' fdir c,
    reply [] (FlowDirections thr terminals) = Ok (Ints fdir) ->
    (forall x, In x h' -> ~ sets_directions x) ->
    ~ delineates c -> c <> FlowAccumulationArray ->
    reply (h ++ FlowDirections thr terminals :: h') c = reply [FlowDirections thr terminals] c.
  Proof.
    intros h thr ts h' fdir c E H ND NA.
    destruct c; cbn in ND; try tauto; try congruence.
    - etransitivity; [apply C66_any_history|symmetry; apply C66_any_history].
    - assert (A := fdir_after h E H). assert (B := fdir_after [] E (fun c (X : In c []) => match X with end)). cbn [app] in B.
      unfold reply, step. cbn [call ints snd]. unfold fdir_of. now rewrite A, B.
    - assert (A := fdir_after h E H). assert (B := fdir_after [] E (fun c (X : In c []) => match X with end)). cbn [app] in B.
      unfold reply, step. cbn [call]. unfold do_edit, fdir_of. rewrite A, B. cbn [bind]. destruct (npset _ _ _); auto.
    - assert (A := fdir_after h E H). assert (B := fdir_after [] E (fun c (X : In c []) => match X with end)). cbn [app] in B.
      unfold reply, step. cbn [call ints snd]. unfold fdir_of. now rewrite A, B.
    - assert (A := fdir_after h E H). assert (B := fdir_after [] E (fun c (X : In c []) => match X with end)). cbn [app] in B.
      unfold reply, step. cbn [call]. unfold do_accumulation, fdir_of. rewrite A, B. cbn [bind]. destruct (acc_run _ _ _ _ _); auto.
  Qed.

  (** *** watersheds *)
  (** the reversed directions are not computed yet, or belong to the directions in force *)
  Definition rev_ok (o : fobj (W:=W)) : Prop :=
    fo_rev o = None \/ exists f r, fo_fdir o = Some f /\ reverse_flow_directions f = Ok r /\ fo_rev o = Some r.

  Lemma reverse_fresh o f : rev_ok o -> fo_fdir o = Some f ->
    snd (do_reverse o) = reverse_flow_directions f /\ rev_ok (fst (do_reverse o)).
  Proof.
    intros R F. unfold do_reverse. destruct R as [R|[f' [r [F' [E R]]]]]; rewrite R.
    - unfold fdir_of. rewrite F. cbn [bind]. destruct (reverse_flow_directions f) as [r|] eqn:E; cbn; split; auto.
      + right. exists f, r. auto.
      + now left.
    - assert (f' = f) by congruence. subst. split; [now rewrite E|]. right. exists f, r. auto.
  Qed.
  Lemma watershed_fresh o f c s : rev_ok o -> fo_fdir o = Some f ->
    snd (do_watershed fuel o c s) = get_watershed_boundary fuel f c s /\ rev_ok (fst (do_watershed fuel o c s)).
  Proof.
    intros R F. destruct (reverse_fresh R F) as [A B]. unfold do_watershed, get_watershed_boundary.
    destruct (reverse_same o) as [_ [X _]].
    destruct (do_reverse o) as [o' r]. cbn in *. subst r. split; auto. unfold fdir_of. rewrite X, F. auto.
  Qed.
  Lemma sub_loop_fresh cells idxs : forall o f s, rev_ok o -> fo_fdir o = Some f ->
    snd (sub_loop fuel o cells idxs s) =
      foldM (fun sub i => c <- get cells i ;; get_watershed_boundary fuel f c (Some sub)) idxs s
    /\ rev_ok (fst (sub_loop fuel o cells idxs s)).
  Proof.
    induction idxs as [|i idxs IH]; intros o f s R F; cbn; [auto|]. destruct (get cells i) as [c|]; cbn; [|auto].
    destruct (watershed_fresh c (Some s) R F) as [A B]. assert (X := watershed_same o c (Some s)).
    destruct (do_watershed fuel o c (Some s)) as [o' [s'|e]]; cbn in *; rewrite <- A; cbn; [|auto].
    apply IH; auto. destruct X as [_ [-> _]]. auto.
  Qed.
  Lemma subbasins_fresh o f cells : rev_ok o -> fo_fdir o = Some f ->
    snd (do_subbasins fuel lim o cells) = get_subbasins lim fuel f cells /\ rev_ok (fst (do_subbasins fuel lim o cells)).
  Proof.
    intros R F. unfold do_subbasins, get_subbasins, sub_order. rewrite F.
    destruct (foldM _ cells []) as [g|]; cbn [bind]; [|auto]. destruct (topo_sort _ _) as [srt|]; cbn [bind]; [|auto].
    destruct (mapM _ _) as [idxs|]; cbn [bind]; [|auto]. now apply sub_loop_fresh.
  Qed.

  Lemma step_fresh o c : rev_ok o -> ~ sets_directions c -> rev_ok (fst (step o c)).
  Proof.
    intros R NS. destruct (fo_fdir o) as [f|] eqn:F.
    - destruct c; cbn in NS; try tauto; cbn [step call ints fst]; auto.
      + unfold step. cbn [call]. unfold do_accumulation. destruct (bind _ _); auto.
      + apply (watershed_fresh cell None R F).
      + apply (subbasins_fresh cells R F).
    - assert (RN : fo_rev o = None) by (destruct R as [R|[f [r [X _]]]]; congruence).
      destruct c; cbn in NS; try tauto; cbn [step call ints fst]; auto; unfold step; cbn [call ints fst].
      + unfold do_accumulation. destruct (bind _ _); auto.
      + unfold do_watershed, do_reverse, fdir_of. rewrite RN, F. cbn. now left.
      + unfold do_subbasins. rewrite F. now left.
  Qed.

  Lemma rev_none h : (forall c, In c h -> ~ delineates c) -> fo_rev (after h) = None.
  Proof.
    induction h as [|c h IH] using rev_ind; intros H; [reflexivity|]. rewrite after_snoc, step_rev.
    - apply IH. intros x Hx. apply H. apply in_or_app. now left.
    - apply H. apply in_or_app. right. now left.
  Qed.

  Lemma rev_after h thr ts h' fdir : reply [] (FlowDirections thr ts) = Ok (Ints fdir) ->
    (forall c, In c h -> ~ delineates c) -> (forall c, In c h' -> ~ sets_directions c) ->
    rev_ok (after (h ++ FlowDirections thr ts :: h')).
  Proof.
    intros E H H'. replace (h ++ FlowDirections thr ts :: h') with ((h ++ [FlowDirections thr ts]) ++ h') by now rewrite <- app_assoc.
    rewrite after_app.
    assert (R : rev_ok (after (h ++ [FlowDirections thr ts]))).
    { left. apply rev_none. intros c Hc. apply in_app_or in Hc. destruct Hc as [Hc|[<-|[]]]; auto. }
    revert R. generalize (after (h ++ [FlowDirections thr ts])). induction h' as [|c h' IH]; intros o R; cbn [fold_left]; auto.
    apply IH; [intros c' Hc'; apply H'; now right|]. apply step_fresh; auto. apply H'. now left.
  Qed.

  (** C26, in the cases where it holds: no watershed was delineated before the latest
      flow_directions call.  Then every call answers as on an object on which only that
      flow_directions call was made. *)
  Theorem C26_first_directions_current_partial : forall h thr terminals h' fdir c,
    reply [] (FlowDirections thr terminals) = Ok (Ints fdir) ->
    (forall x, In x h' -> ~ sets_directions x) ->
    (forall x, In x h -> ~ delineates x) ->
    c <> FlowAccumulationArray ->
    reply (h ++ FlowDirections thr terminals :: h') c = reply [FlowDirections thr terminals] c.
  Proof.
    intros h thr ts h' fdir c E H H' NA.
    assert (Fa := fdir_after h E H). assert (Ra := rev_after E H' H).
    assert (Fb := fdir_after [] E (fun c (X : In c []) => match X with end)). cbn [app] in Fb.
    assert (Rb := rev_after (h := []) E (fun c (X : In c []) => match X with end) (fun c (X : In c []) => match X with end)). cbn [app] in Rb.
    destruct c; try (apply (C26_other_answers_current _ E H); easy).
    - unfold reply, step. cbn [call ints snd].
      now rewrite (proj1 (watershed_fresh cell None Ra Fa)), (proj1 (watershed_fresh cell None Rb Fb)).
    - unfold reply, step. cbn [call ints snd].
      now rewrite (proj1 (subbasins_fresh cells Ra Fa)), (proj1 (subbasins_fresh cells Rb Fb)).
  Qed.

  (** ... and such a watershed is the set of cells that drain through the pour cell under the
      latest flow directions *)
  Theorem C26_watershed_of_latest_partial : forall h thr terminals h' fdir pour,
    reply [] (FlowDirections thr terminals) = Ok (Ints fdir) -> valid_fdir fdir ->
    (forall x, In x h' -> ~ sets_directions x) -> (forall x, In x h -> ~ delineates x) ->
    pour < length fdir -> length fdir <= fuel ->
    exists out, reply (h ++ FlowDirections thr terminals :: h') (Watershed (Z.of_nat pour)) = Ok (Ints out) /\
      length out = length fdir /\
      forall c, c < length fdir ->
        (flows_through fdir c pour -> nth_error out c = Some 1%Z) /\
        (~ flows_through fdir c pour -> nth_error out c = Some 0%Z).
  Proof.
    intros h thr ts h' fdir pour E V H H' Hp Hf.
    destruct (C24_watershed_is_upstream V Hp Hf) as [out [Eo X]]. exists out. split; auto.
    assert (Fa := fdir_after h E H). assert (Ra := rev_after E H' H).
    unfold reply, step. cbn [call ints snd]. now rewrite (proj1 (watershed_fresh (Z.of_nat pour) None Ra Fa)), Eo.
  Qed.

  (** What happens otherwise: the watershed is computed from the reversal of the directions in
      force when the first watershed was delineated, and the in-degrees of the latest ones. *)
  Theorem C26_stale_reversal : forall h thr1 ts1 pour1 thr2 ts2 pour2 fdir1 fdir2 rows,
    (forall x, In x h -> ~ delineates x) ->
    reply [] (FlowDirections thr1 ts1) = Ok (Ints fdir1) ->
    reply [] (FlowDirections thr2 ts2) = Ok (Ints fdir2) ->
    reverse_flow_directions fdir1 = Ok rows ->
    reply (h ++ [FlowDirections thr1 ts1; Watershed pour1; FlowDirections thr2 ts2]) (Watershed pour2) =
      (out <- watershed_with fuel fdir2 rows pour2 None ;; Ok (Ints out)).
  Proof.
    intros h thr1 ts1 pour1 thr2 ts2 pour2 fdir1 fdir2 rows H E1 E2 ER.
    set (h1 := h ++ [FlowDirections thr1 ts1]).
    assert (F1 : fo_fdir (after h1) = Some fdir1) by (apply (fdir_after h E1); intros c []).
    assert (R1 : fo_rev (after h1) = None).
    { apply rev_none. intros c Hc. apply in_app_or in Hc. destruct Hc as [Hc|[<-|[]]]; auto. }
    assert (R2 : fo_rev (after (h1 ++ [Watershed pour1])) = Some rows).
    { rewrite after_snoc. unfold step. cbn [call ints fst]. unfold do_watershed, do_reverse, fdir_of. rewrite R1, F1. cbn [bind].
      rewrite ER. reflexivity. }
    assert (EH : h ++ [FlowDirections thr1 ts1; Watershed pour1; FlowDirections thr2 ts2] =
                 (h1 ++ [Watershed pour1]) ++ [FlowDirections thr2 ts2]) by (unfold h1; now rewrite <- !app_assoc).
    assert (F2 : fo_fdir (after ((h1 ++ [Watershed pour1]) ++ [FlowDirections thr2 ts2])) = Some fdir2)
      by (apply (fdir_after (h1 ++ [Watershed pour1]) E2); intros c []).
    assert (R3 : fo_rev (after ((h1 ++ [Watershed pour1]) ++ [FlowDirections thr2 ts2])) = Some rows).
    { rewrite after_snoc, step_rev; auto. }
    rewrite EH. unfold reply, step. cbn [call ints snd]. unfold do_watershed, do_reverse. rewrite R3. cbn [snd fdir_of].
    unfold fdir_of. rewrite F2. reflexivity.
  Qed.

  (** flow_accumulation_array is what the last successful flow_accumulation returned *)
  Theorem C26_stored_accumulation : forall h as_cells h' a,
    reply h (FlowAccumulation as_cells) = Ok a ->
    (forall b, ~ In (FlowAccumulation b) h') ->
    reply (h ++ FlowAccumulation as_cells :: h') FlowAccumulationArray = Ok a.
  Proof.
    intros h b h' a E H.
    replace (h ++ FlowAccumulation b :: h') with ((h ++ [FlowAccumulation b]) ++ h') by now rewrite <- app_assoc.
    unfold reply. rewrite after_app, after_snoc. unfold reply, step in E. cbn [call] in E.
    assert (B : exists f, fo_acc (fst (step (after h) (FlowAccumulation b))) = Some f /\ facc_answer f = a).
    { unfold step. cbn [call]. unfold do_accumulation in *. destruct (bind _ _) as [s|]; [|discriminate]. cbn in *.
      eexists. split; [reflexivity|]. now inversion E. }
    revert B. generalize (fst (step (after h) (FlowAccumulation b))). induction h' as [|c h' IH]; intros o [f [B1 B2]]; cbn [fold_left].
    - unfold step. cbn. now rewrite B1, B2.
    - apply IH; [intros b' Hb'; apply (H b'); now right|]. exists f. split; auto. rewrite <- B1.
      destruct c; cbn; auto.
      + unfold do_flow_directions. destruct (flow_directions _ _ _ _ _ _ _ _ _ _ _ _) as [[? ?]|]; auto.
      + unfold do_edit. destruct (bind _ _); auto.
      + exfalso. apply (H as_cells). now left.
      + destruct (watershed_same o cell None) as [_ [_ X]]. exact X.
      + unfold do_subbasins. destruct (fo_fdir o); auto. destruct (sub_order _ _ _ _); auto.
        destruct (sub_loop_same cells a0 o (repeat 0%Z (length l))) as [_ [_ X]]. exact X.
  Qed.
End Histories.

(** ** Worked cases: four cells in a row, elevations 4, 3, 2, 1 *)
Module Ex.
  Definition one (_ _ : nat) : Q := 1%Q.
  Definition thr : Q := (1 # 1000000)%Q.
  Definition dem4 : list (option Q) := map (fun k => Some (inject_Z k)) [4; 3; 2; 1]%Z.
  Definition nb4 : list (list nat) := [[1]; [0; 2]; [1; 3]; [2]].
  Definition ask := reply Qops Z.add 0%Z 100 100 one dem4 [1; 1; 1; 1]%Z nb4.
  Definition FD ts : fcall := FlowDirections thr ts.

  Example directions : ask [] (FD []) = Ok (Ints [1; 2; 3; 3]%Z) /\ ask [] (FD [1]%Z) = Ok (Ints [1; 1; 3; 3]%Z).
  Proof. split; vm_compute; reflexivity. Qed.

  (** the theorems apply: calls, an edit of the returned array, a failing call, then the
      directions that count *)
  Example C26_case :
    let h := [GetNidp; FD [1]%Z; FlowAccumulation true; EditDirection 0 3] in
    let h' := [Watershed 2; FlowAccumulation false; Subbasins [2; 3]%Z] in
    ask (h ++ FD [] :: h') (Watershed 3) = ask [FD []] (Watershed 3) /\
    ask [FD []] (Watershed 3) = Ok (Ints [1; 1; 1; 1]%Z) /\
    ask (h ++ FD [] :: h') (FlowAccumulation true) = Ok (Ints [1; 2; 3; 4]%Z).
  Proof.
    cbv zeta. split; [|split; vm_compute; reflexivity].
    apply (@C26_first_directions_current_partial Q Z Qops Z.add 0%Z 100 100 one dem4 [1; 1; 1; 1]%Z nb4 _ _ _ _ [1; 2; 3; 3]%Z).
    - apply directions.
    - intros x Hx. cbn in Hx. repeat destruct Hx as [<-|Hx]; cbn; try easy.
    - intros x Hx. cbn in Hx. repeat destruct Hx as [<-|Hx]; cbn; try easy.
    - easy.
  Qed.

  (** C26 is false: flow_directions, a watershed, flow_directions again.  All four cells drain
      to cell 3 under the latest directions, but only two are reported; ... *)
  Definition rev4 := [[-1; 0; -1; 2]; [-1; 1; -1; 3]]%Z.
  Lemma rows4 : reverse_flow_directions [1; 1; 3; 3]%Z = Ok rev4 /\
                watershed_with 100 [1; 2; 3; 3]%Z rev4 3 None = Ok [0; 0; 1; 1]%Z.
  Proof. split; vm_compute; reflexivity. Qed.
  Example C26_watershed_case :
    ask ([GetNidp] ++ [FD [1]%Z; Watershed 3; FD []]) (Watershed 3) = Ok (Ints [0; 0; 1; 1]%Z).
  Proof.
    assert (H : forall x, In x [GetNidp (T:=Q)] -> ~ delineates x) by (intros x [<-|[]]; easy).
    destruct directions as [E1 E2]. unfold ask, FD in *.
    destruct rows4 as [R1 R2].
    rewrite (C26_stale_reversal 3%Z 3%Z H E2 E1 R1). now rewrite R2.
  Qed.
End Ex.

Theorem C26_watershed_misses_cells_refuted :
  exists fdir out,
    Ex.ask [] (Ex.FD []) = Ok (Ints fdir) /\
    Ex.ask [Ex.FD [1]%Z; Watershed 3; Ex.FD []] (Watershed 3) = Ok (Ints out) /\
    Ex.ask [Ex.FD []] (Watershed 3) <> Ok (Ints out) /\
    flows_through fdir 0 3 /\ nth_error out 0 = Some 0%Z.
Proof.
  eexists. eexists. split; [apply Ex.directions|]. split; [vm_compute; reflexivity|]. split; [vm_compute; discriminate|].
  split; [exists 3; reflexivity|reflexivity].
Qed.

(** ... in the other order a cell that does not drain to the pour point is reported *)
Theorem C26_watershed_extra_cell_refuted :
  exists fdir out,
    Ex.ask [] (Ex.FD [1]%Z) = Ok (Ints fdir) /\
    Ex.ask [Ex.FD []; Watershed 3; Ex.FD [1]%Z] (Watershed 1) = Ok (Ints out) /\
    ~ flows_through fdir 3 1 /\ nth_error out 3 = Some 1%Z.
Proof.
  eexists. eexists. split; [apply Ex.directions|]. split; [vm_compute; reflexivity|].
  split; [|reflexivity]. intros [k Hk]. assert (X : forall k, downs [1; 1; 3; 3]%Z k 3 = 3).
  { induction k0 as [|k0 IH]; auto. }
  rewrite X in Hk. discriminate.
Qed.
