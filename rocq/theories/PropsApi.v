(** The properties of accumulation, basins and stream products, stated for the answers of the
    objects after an arbitrary history of calls (MObj.v, MSobj.v) instead of the single functions. *)
From Coq Require Import String Sorting.Sorted Permutation QArith.
From Verif Require Import Py Spec MFlow MStream MDir MObj MSobj LGraph LStream LSeg4 PropsAcc PropsBasin PropsDir PropsObj
  PropsStream PropsSeg PropsDepth PropsReach PropsRun PropsVec PropsCasc PropsSobj.
Set Implicit Arguments.
Unset Strict Implicit.
Local Notation length := List.length.
Local Open Scope nat_scope.
Local Open Scope list_scope.

(** ** FlowDirections *)
Section FlowApi.
  Context {T W : Type} (O : slope_ops T) (wadd : W -> W -> W) (wzero : W).
  Variables (fuel lim : nat) (dist : nat -> nat -> T) (dem : list (option T)) (area : list W).
  Variable nb : list (list nat).
  Notation reply := (@reply T W O wadd wzero fuel lim dist dem area nb).
  Notation after := (@after T W O wadd wzero fuel lim dist dem area nb).

  Lemma array_state h fdir : reply h FlowDirectionArray = Ok (Ints fdir) <-> fo_fdir (after h) = Some fdir.
  Proof.
    unfold PropsObj.reply, PropsObj.step. cbn [call ints snd]. unfold fdir_of. destruct (fo_fdir (after h)); cbn [bind]; split; intro H; congruence.
  Qed.

  (** writing to flow_direction_array changes that cell's direction and no other, for all later calls *)
  Theorem C26_edits_are_seen : forall h fdir c v,
    reply h FlowDirectionArray = Ok (Ints fdir) -> c < length fdir ->
    reply h (EditDirection (Z.of_nat c) v) = Ok Nothing /\
    exists fdir', reply (h ++ [EditDirection (Z.of_nat c) v]) FlowDirectionArray = Ok (Ints fdir') /\
      length fdir' = length fdir /\ nth_error fdir' c = Some v /\
      forall x, x <> c -> nth_error fdir' x = nth_error fdir x.
  Proof.
    intros h fdir c v H Hc. apply array_state in H.
    unfold PropsObj.reply. rewrite after_snoc. unfold PropsObj.step. cbn [call]. unfold do_edit, fdir_of. rewrite H. cbn [bind].
    rewrite npset_nat by auto. split; [reflexivity|]. exists (upd fdir c v). split; [reflexivity|].
    split; [apply upd_length|]. split; [now apply nth_error_upd_eq|]. intros x Hx. apply nth_error_upd_neq. auto.
  Qed.

  (** get_nidp counts the inflows under the directions now in force *)
  Theorem C23_object_nidp : forall h fdir,
    reply h FlowDirectionArray = Ok (Ints fdir) -> valid_fdir fdir ->
    exists nidp, reply h GetNidp = Ok (Ints nidp) /\ length nidp = length fdir /\ forall n, n < length fdir ->
        exists l, NoDup l /\ (forall c, In c l <-> c < length fdir /\ down fdir c = n) /\ nth_error nidp n = Some (Z.of_nat (length l)).
  Proof.
    intros h fdir H V. apply array_state in H. destruct (C23_nidp_counts_inflows V) as [nidp [E X]]. exists nidp. split; auto.
    unfold PropsObj.reply, PropsObj.step. cbn [call ints snd]. unfold fdir_of. rewrite H. cbn [bind]. now rewrite E.
  Qed.

  (** flow_accumulation answers for the directions now in force, and flow_accumulation_array
      repeats that answer *)
  Theorem C19_object_cells : forall h fdir,
    reply h FlowDirectionArray = Ok (Ints fdir) -> valid_fdir fdir ->
    length area = length fdir -> S (length fdir) <= fuel ->
    exists cells, reply h (FlowAccumulation true) = Ok (Ints cells) /\ reply (h ++ [FlowAccumulation true]) FlowAccumulationArray = Ok (Ints cells) /\ length cells = length fdir /\ forall n, n < length fdir -> ~ on_cycle fdir n ->
        exists l, upstream_cells fdir n l /\ nth_error cells n = Some (Z.of_nat (length l)).
  Proof.
    intros h fdir H V L Hf. assert (HA := H). apply array_state in H.
    destruct (@C18_accumulation_finishes W wadd wzero fdir area V L) as (cells & areas & L1 & L2 & X). destruct (X _ Hf) as [E1 E2]. clear X.
    exists cells.
    assert (E : reply h (FlowAccumulation true) = Ok (Ints cells)).
    { unfold PropsObj.reply, PropsObj.step. cbn [call]. unfold do_accumulation, fdir_of. rewrite H. cbn [bind].
      unfold flow_accumulation_cells in E1. destruct (acc_run wadd wzero fuel fdir area) as [s|]; cbn [bind] in E1; [|discriminate]. now inversion E1. }
    split; [exact E|]. split; [apply (C26_stored_accumulation (h' := []) E); intros b []|]. split; [exact L1|].
    intros n Hn Hc. exact (@C19_accumulated_cells W wadd wzero fdir area fuel cells V L Hf E1 n Hn Hc).
  Qed.

  Theorem C20_object_areas : forall h fdir,
    exact_sum wadd wzero ->
    reply h FlowDirectionArray = Ok (Ints fdir) -> valid_fdir fdir ->
    length area = length fdir -> S (length fdir) <= fuel ->
    exists areas, reply h (FlowAccumulation false) = Ok (Numbers areas) /\ reply (h ++ [FlowAccumulation false]) FlowAccumulationArray = Ok (Numbers areas) /\ length areas = length fdir /\ forall n, n < length fdir -> ~ on_cycle fdir n ->
        exists s, nth_error areas n = Some s /\ sum_over wadd wzero (fun c => nth c area wzero) (fun c => flows_through fdir c n) (length fdir) s.
  Proof.
    intros h fdir HS H V L Hf. apply array_state in H.
    destruct (@C18_accumulation_finishes W wadd wzero fdir area V L) as (cells & areas & L1 & L2 & X). destruct (X _ Hf) as [E1 E2]. clear X.
    exists areas.
    assert (E : reply h (FlowAccumulation false) = Ok (Numbers areas)).
    { unfold PropsObj.reply, PropsObj.step. cbn [call]. unfold do_accumulation, fdir_of. rewrite H. cbn [bind].
      unfold flow_accumulation_area in E2. destruct (acc_run wadd wzero fuel fdir area) as [s|]; cbn [bind] in E2; [|discriminate]. now inversion E2. }
    split; [exact E|]. split; [apply (C26_stored_accumulation (h' := []) E); intros b []|]. split; [exact L2|].
    intros n Hn Hc. exact (@C20_accumulated_area W wadd wzero fdir area fuel areas HS V L Hf E2 n Hn Hc).
  Qed.

  (** the first watershed or subbasins call of the object's life answers for the directions in force,
      computed or edited in whatever way *)
  Theorem C24_object_first_watershed : forall h fdir pour,
    reply h FlowDirectionArray = Ok (Ints fdir) -> valid_fdir fdir ->
    (forall x, In x h -> ~ delineates x) -> pour < length fdir -> length fdir <= fuel ->
    exists out, reply h (Watershed (Z.of_nat pour)) = Ok (Ints out) /\ length out = length fdir /\ forall c, c < length fdir ->
        (flows_through fdir c pour -> nth_error out c = Some 1%Z) /\ (~ flows_through fdir c pour -> nth_error out c = Some 0%Z).
  Proof.
    intros h fdir pour H V Hh Hp Hf. apply array_state in H.
    assert (RN := @rev_none T W O wadd wzero fuel lim dist dem area nb h Hh).
    destruct (C24_watershed_is_upstream V Hp Hf) as [out [E X]]. exists out. split; auto.
    unfold PropsObj.reply, PropsObj.step. cbn [call ints snd].
    rewrite (proj1 (watershed_fresh fuel (Z.of_nat pour) None (or_introl RN) H)). now rewrite E.
  Qed.
  Theorem C27_object_first_subbasins : forall h fdir pours,
    reply h FlowDirectionArray = Ok (Ints fdir) -> valid_fdir fdir ->
    (forall x, In x h -> ~ delineates x) ->
    (forall p, In p pours -> p < length fdir) -> ~ In 0 pours ->
    (forall p q, In p pours -> In q pours -> p <> q -> flows_through fdir p q -> ~ flows_through fdir q p) ->
    length pours + 2 <= lim -> 2 * length fdir + 2 <= fuel ->
    exists out order,
      reply h (Subbasins (map Z.of_nat pours)) = Ok (Ints out) /\ length out = length fdir /\ NoDup order /\ (forall p, In p order <-> In p pours) /\ (forall i p c, nth_error order i = Some p -> c < length fdir -> first_pour fdir pours c p ->
         nth_error out c = Some (Z.of_nat (i + 1))) /\ (forall c, c < length fdir -> (forall p, In p pours -> ~ flows_through fdir c p) ->
         nth_error out c = Some 0%Z).
  Proof.
    intros h fdir pours H V Hh Hp H0 Hc Hl Hf. apply array_state in H.
    assert (RN := @rev_none T W O wadd wzero fuel lim dist dem area nb h Hh).
    destruct (@C27_subbasins_first_pour fdir pours lim fuel V Hp H0 Hc Hl Hf) as [out [order [E X]]]. exists out, order. split; auto.
    unfold PropsObj.reply, PropsObj.step. cbn [call ints snd].
    rewrite (proj1 (subbasins_fresh fuel lim (map Z.of_nat pours) (or_introl RN) H)). now rewrite E.
  Qed.

  (** C26 in general: every watershed is delineated with the drainage links in force when the
      first watershed of the object's life was delineated, and the directions now in force are
      not looked at except for their number *)
  Theorem C26_first_delineation_decides : forall h w h' fdir1 fdir2 rows pour,
    (forall x, In x h -> ~ delineates x) ->
    reply h FlowDirectionArray = Ok (Ints fdir1) -> reverse_flow_directions fdir1 = Ok rows ->
    reply (h ++ Watershed w :: h') FlowDirectionArray = Ok (Ints fdir2) ->
    reply (h ++ Watershed w :: h') (Watershed pour) =
      (out <- watershed_with fuel fdir2 rows pour None ;; Ok (Ints out)).
  Proof.
    intros h w h' fdir1 fdir2 rows pour Hh H1 ER H2. apply array_state in H1. apply array_state in H2.
    assert (RN := @rev_none T W O wadd wzero fuel lim dist dem area nb h Hh).
    assert (R : fo_rev (after (h ++ Watershed w :: h')) = Some rows).
    { replace (h ++ Watershed w :: h') with ((h ++ [Watershed w]) ++ h') by now rewrite <- app_assoc.
      rewrite after_app.
      assert (R0 : fo_rev (after (h ++ [Watershed w])) = Some rows).
      { rewrite after_snoc. unfold PropsObj.step. cbn [call ints fst]. unfold do_watershed, do_reverse, fdir_of.
        rewrite RN, H1. cbn [bind]. rewrite ER. reflexivity. }
      revert R0. generalize (after (h ++ [Watershed w])). clear. induction h' as [|c h' IH]; intros o R; cbn [fold_left]; auto.
      apply IH. destruct c; try (rewrite step_rev; [exact R|cbn; tauto]).
      - unfold PropsObj.step. cbn [call ints fst]. unfold do_watershed, do_reverse. rewrite R. exact R.
      - unfold PropsObj.step. cbn [call ints fst]. unfold do_subbasins. destruct (fo_fdir o); auto. destruct (sub_order _ _ _ _); auto.
        generalize (repeat 0%Z (length l)). clear IH. revert o R. induction a as [|i idxs IH]; intros o R s; cbn; auto.
        destruct (get cells i); auto. unfold do_watershed, do_reverse. rewrite R.
        destruct (bind _ _); auto. }
    unfold PropsObj.reply, PropsObj.step. cbn [call ints snd]. unfold do_watershed, do_reverse. rewrite R. cbn [snd].
    unfold fdir_of. rewrite H2. reflexivity.
  Qed.
End FlowApi.

(** ** Stream objects *)
Section StreamApi.
  Context {T F : Type} (ge : T -> T -> bool).
  Variables (fone : F) (fabs : F -> F) (fsum : list F -> F) (fdiv : F -> F -> option F)
            (fle0 fkeep : F -> bool).
  Variables (lim fuel : nat) (ncol : Z) (fdir : list Z) (facc : list T).
  Variables (slopes : list (list (option F))) (fnb : list (list Z)).
  Notation ask := (@ask T F ge fone fabs fsum fdiv fle0 fkeep lim fuel ncol fdir facc slopes fnb).
  Notation step := (scall_step ge fone fabs fsum fdiv fle0 fkeep lim fuel ncol fdir facc slopes fnb).
  Notation state := (scalls ge fone fabs fsum fdiv fle0 fkeep lim fuel ncol fdir facc slopes fnb).

  (** the streams a call with the argument stream_array=[arg] is about: the argument, or else
      what stream_array shows after the calls [h] *)
  Definition streams_used (k : klass) (h : list (@scall T)) (arg : option (list Z)) (a : list Z) : Prop :=
    match arg with Some x => a = x | None => ask k h StreamArray = Ok (AArray a) end.

  Lemma ask_snoc k h c c' : ask k (h ++ [c]) c' = snd (step k (fst (step k (state k h) c)) c').
  Proof. unfold PropsSobj.ask, sreply. now rewrite state_snoc. Qed.
  Lemma array_is k h a : ask k h StreamArray = Ok (AArray a) <-> so_strm (state k h) = Some a.
  Proof.
    split; [apply ask_array|]. intros H. unfold PropsSobj.ask, sreply.
    assert (X : step k (state k h) StreamArray = lift (state k h) (pick (state k h) None) AArray) by (now destruct k).
    rewrite X. unfold lift, pick. now rewrite H.
  Qed.
  Lemma used_pick k h arg a : streams_used k h arg a -> pick (state k h) arg = Ok a.
  Proof.
    destruct arg as [x|]; cbn [streams_used].
    - intros ->. reflexivity.
    - intros H. apply array_is in H. unfold pick. now rewrite H.
  Qed.
  Lemma pick_used k h arg a : pick (state k h) arg = Ok a -> streams_used k h arg a.
  Proof.
    destruct arg as [x|]; cbn [streams_used pick].
    - intros E. now inversion E.
    - intros E. apply array_is. destruct (so_strm (state k h)); [now inversion E|discriminate].
  Qed.

  (** delineate_streams: the answer, whatever was called before, is the one stream_array shows *)
  Theorem C29_object : forall k h t basin out,
    ask k h (DelineateStreams t basin) = Ok (AArray out) ->
    ask k (h ++ [DelineateStreams t basin]) StreamArray = Ok (AArray out) /\
    length out = length facc /\
    forall c a, nth_error facc c = Some a ->
      exists x, threshold_at t c x /\
        (nth_error out c = Some 1%Z <->
           ge a x = true /\ forall b, basin = Some b -> nth_error b c <> Some 0%Z) /\
        (nth_error out c = Some 0%Z \/ nth_error out c = Some 1%Z).
  Proof.
    intros k h t basin out E. unfold PropsSobj.ask, sreply in E.
    assert (X : step k (state k h) (DelineateStreams t basin) = do_delineate ge facc (state k h) t basin) by (now destruct k).
    rewrite X in E. unfold do_delineate in E. destruct (delineate_streams ge facc t basin) as [s|] eqn:D; [|discriminate].
    cbn [snd] in E. inversion E; subst s. split; [|exact (@C29_cells T ge facc t basin out D)].
    apply array_is. rewrite state_snoc, X. unfold do_delineate. rewrite D. reflexivity.
  Qed.

  (** set_stream_array: an array of the right size is what stream_array shows from then on;
      any other is refused and leaves every later answer as it was *)
  Theorem C29_set_stream_array : forall k h a,
    (length a = length fdir ->
       ask k h (SetStreamArray a) = Ok (@ANone F) /\ ask k (h ++ [SetStreamArray a]) StreamArray = Ok (AArray a)) /\
    (length a <> length fdir ->
       ask k h (SetStreamArray a) = Err ValueError /\ forall c, ask k (h ++ [SetStreamArray a]) c = ask k h c).
  Proof.
    intros k h a.
    assert (X : step k (state k h) (SetStreamArray a) = do_set fdir (state k h) a) by (now destruct k).
    split; intros L.
    - split.
      + unfold PropsSobj.ask, sreply. rewrite X. unfold do_set. rewrite L, Nat.eqb_refl. reflexivity.
      + apply array_is. rewrite state_snoc, X. unfold do_set. rewrite L, Nat.eqb_refl. reflexivity.
    - apply Nat.eqb_neq in L. split.
      + unfold PropsSobj.ask, sreply. rewrite X. unfold do_set. rewrite L. reflexivity.
      + intros c. rewrite ask_snoc, X. unfold do_set. rewrite L. reflexivity.
  Qed.

  (** before any stream array exists the products refuse *)
  Theorem C58_no_streams_yet : forall k h,
    (forall x, In x h -> match x with DelineateStreams _ _ | SetStreamArray _ => False | _ => True end) ->
    (forall x, In x h -> match x with
                         | StreamConnectivity a _ | CreateStreamVectors a _ | PackageData a | SegmentData a _
                         | ReachData a _ | Irunbnd a _ _ | Cascades a _ _ _ => a = None
                         | _ => True end) ->
    ask k h StreamArray = Err AssertionError.
  Proof.
    intros k h H1 H2. assert (S : so_strm (state k h) = None /\ so_graph (state k h) = None /\ so_seg (state k h) = None).
    { induction h as [|c h IH] using rev_ind; [repeat split|].
      destruct IH as [I1 [I2 I3]]; [intros x Hx; apply H1, in_or_app; now left|intros x Hx; apply H2, in_or_app; now left|].
      assert (IC : In c (h ++ [c])) by (apply in_or_app; right; now left).
      assert (A := H1 c IC). assert (B := H2 c IC).
      rewrite state_snoc. assert (K : fst (step k (state k h) c) = state k h); [|now rewrite K].
      destruct c; try tauto; subst; destruct k; cbn [scall_step]; try reflexivity;
        try (destruct graph; try reflexivity);
        unfold prms_connect, do_vectors, do_conndata, do_pkgdata, do_segdata, do_reachdata, do_irunbnd, do_cascades, ensure_segs, run6, run2005, pick;
        try (match goal with |- context[if ?g then _ else _] => destruct g end);
        rewrite ?I1, ?I2, ?I3; cbn [bind andthen]; rewrite ?I1, ?I2, ?I3; reflexivity. }
    unfold PropsSobj.ask, sreply.
    assert (X : step k (state k h) StreamArray = lift (state k h) (pick (state k h) None) AArray) by (now destruct k).
    rewrite X. unfold lift, pick. now rewrite (proj1 S).
  Qed.

  Hypothesis V : valid_fdir fdir.

  (** *** Sfr6 *)
  Lemma conn6_state h arg b g : ask KSfr6 h (StreamConnectivity arg b) = Ok (AGraph g) ->
    exists a s2, pick (state KSfr6 h) arg = Ok a /\ mf6_connectivity lim fdir a = Ok (s2, g) /\
      so_strm (state KSfr6 (h ++ [StreamConnectivity arg b])) = Some s2 /\
      so_graph (state KSfr6 (h ++ [StreamConnectivity arg b])) = Some (some_graph g).
  Proof.
    unfold PropsSobj.ask, sreply. rewrite state_snoc. cbn [scall_step]. unfold run6. intros E.
    destruct (pick (state KSfr6 h) arg) as [a|]; [|discriminate]. cbn [bind] in *.
    destruct (mf6_connectivity lim fdir a) as [[s2 g2]|] eqn:M; [|discriminate]. cbn in E. inversion E; subst.
    exists a, s2. cbn. auto.
  Qed.
  Lemma used_eq k h arg a b : streams_used k h arg a -> pick (state k h) arg = Ok b -> b = a.
  Proof. intros U P. apply used_pick in U. congruence. Qed.

  (** get_stream_connectivity of an Sfr6: the graph returned and the reach numbers stream_array
      shows afterwards *)
  Theorem C35_object : forall h arg b g a,
    ask KSfr6 h (StreamConnectivity arg b) = Ok (AGraph g) ->
    streams_used KSfr6 h arg a -> length a = length fdir ->
    let n := Z.of_nat (length g) in
    exists s2, ask KSfr6 (h ++ [StreamConnectivity arg b]) StreamArray = Ok (AArray s2) /\
      length s2 = length fdir /\
      (forall r, (1 <= r <= n)%Z -> exists c, nth_error s2 c = Some r /\ (forall c', nth_error s2 c' = Some r -> c' = c)) /\
      (forall c, c < length a -> nth_error a c <> Some 0%Z -> exists r, (1 <= r <= n)%Z /\ nth_error s2 c = Some r) /\
      (forall c, nth_error a c = Some 0%Z -> nth_error s2 c = Some 0%Z) /\
      (forall r to, In (r, to) g <->
         exists c, c < length fdir /\ nth_error a c <> Some 0%Z /\ nth_error s2 c = Some r /\
           (nth_error a (down fdir c) = Some 0%Z -> to = 0%Z) /\
           (nth_error a (down fdir c) <> Some 0%Z -> nth_error s2 (down fdir c) = Some to)) /\
      (forall r to, acyclic fdir -> In (r, to) g -> to = 0%Z \/ to = r \/ (r < to)%Z).
  Proof.
    intros h arg b g a E U L n. destruct (conn6_state E) as [a' [s2 [P [M [S _]]]]]. assert (a' = a) by (eapply used_eq; eauto). subst a'.
    exists s2. split; [now apply array_is|].
    destruct (@C34_reaches_number_the_cells fdir a lim s2 g V L M) as [H1 [H2 [H3 [H4 _]]]].
    split; [congruence|]. split; [exact H2|]. split; [exact H3|]. split; [exact H4|]. split.
    - intros r to. rewrite <- L. apply (@C35_graph_follows_flow fdir a lim s2 g V L M).
    - intros r to A. apply (@C36_numbers_increase fdir a lim s2 g V A L M).
  Qed.

  (** it succeeds when the recursion limit allows *)
  Theorem C34_object_succeeds : forall h arg b a,
    streams_used KSfr6 h arg a -> length a = length fdir -> length a + 1 <= lim ->
    exists g, ask KSfr6 h (StreamConnectivity arg b) = Ok (AGraph g).
  Proof.
    intros h arg b a U L Hl. apply used_pick in U. destruct (@C34_connectivity_succeeds fdir a lim V L Hl) as [s2 [g E]].
    exists g. unfold PropsSobj.ask, sreply. cbn [scall_step]. unfold run6. rewrite U. cbn [bind]. rewrite E. reflexivity.
  Qed.

  (** or no run of stream cells is longer than it *)
  Theorem C34_object_short_rivers : forall h arg b a,
    streams_used KSfr6 h arg a -> length a = length fdir ->
    (forall c n, stream_run fdir a c n -> n + 2 <= lim) ->
    exists g, ask KSfr6 h (StreamConnectivity arg b) = Ok (AGraph g).
  Proof.
    intros h arg b a U L Hl. apply used_pick in U. destruct (@C34_short_rivers_succeed fdir a lim V L Hl) as [s2 [g E]].
    exists g. unfold PropsSobj.ask, sreply. cbn [scall_step]. unfold run6. rewrite U. cbn [bind]. rewrite E. reflexivity.
  Qed.

  Theorem C34_object_long_river_fails : forall h arg b a c n,
    streams_used KSfr6 h arg a -> length a = length fdir ->
    stream_run fdir a c n -> (forall x, stream_cell a x -> c <= x) -> lim <= n ->
    ask KSfr6 h (StreamConnectivity arg b) = Err RecursionError.
  Proof.
    intros h arg b a c n U L R Hlow Hl. apply used_pick in U.
    assert (E := @C34_long_river_fails fdir a lim c n V L R Hlow (or_introl Hl)).
    unfold PropsSobj.ask, sreply. cbn [scall_step]. unfold run6. rewrite U. cbn [bind]. rewrite E. reflexivity.
  Qed.

  Lemma closed_net a s2 g : length a = length fdir -> mf6_connectivity lim fdir a = Ok (s2, g) ->
    NoDup (map fst g) /\ (forall r to, In (r, to) g -> (0 < r)%Z) /\ network_closed g.
  Proof.
    intros L M. destruct (@C34_reaches_number_the_cells fdir a lim s2 g V L M) as [H1 [H2 [H3 [H4 [H5 H6]]]]].
    split; auto. split.
    - intros r to Hr. apply (in_map fst) in Hr. apply H6 in Hr. cbn in Hr. lia.
    - intros r to Hr. apply (@C35_graph_follows_flow fdir a lim s2 g V L M) in Hr. destruct Hr as [c [Hc [Hs [Hr [D1 D2]]]]].
      assert (HD : down fdir c < length a) by (rewrite L; apply down_lt; auto; lia).
      destruct (nth_error a (down fdir c)) as [z|] eqn:Ez; [|apply nth_error_None in Ez; lia].
      destruct (Z.eq_dec z 0) as [->|NZ]; [left; auto|right].
      assert (X : Some z <> Some 0%Z) by congruence. apply D2 in X.
      assert (I : In to (map fst g)). { apply H6. destruct (H3 _ HD) as [r' [Hr' E']]; [congruence|]. congruence. }
      apply in_map_iff in I. destruct I as [[t o'] [<- I]]. exists o'. exact I.
  Qed.

  (** connectiondata() after it: one record per reach, from the graph *)
  Theorem C38_object : forall h arg b g a,
    ask KSfr6 h (StreamConnectivity arg b) = Ok (AGraph g) ->
    streams_used KSfr6 h arg a -> length a = length fdir ->
    exists recs, ask KSfr6 (h ++ [StreamConnectivity arg b]) (ConnectionData None) = Ok (AConn recs) /\
      StronglySorted Z.lt (map (hd (-1)%Z) recs) /\
      (forall r, In r (map fst g) <-> In (r - 1)%Z (map (hd (-1)%Z) recs)) /\
      (forall rec, In rec recs -> exists r to ups,
        In (r, to) g /\
        rec = (r - 1)%Z :: map (fun u => (u - 1)%Z) ups ++ (if (to =? 0)%Z || (to =? r)%Z then [] else [- (to - 1)]%Z) /\
        NoDup ups /\ (forall u, In u ups <-> In (u, r) g /\ u <> r)).
  Proof.
    intros h arg b g a E U L. destruct (conn6_state E) as [a' [s2 [P [M [S G]]]]]. assert (a' = a) by (eapply used_eq; eauto). subst a'.
    destruct (closed_net L M) as [N1 [N2 N3]]. destruct (@C38_connectiondata g N1 N2 N3) as [recs [C X]].
    exists recs. split; [|exact X]. unfold PropsSobj.ask, sreply. cbn [scall_step]. unfold do_conndata. rewrite G, C. reflexivity.
  Qed.

  (** connectiondata(graph) answers for the graph given, whatever the object has stored *)
  Theorem C38_object_given : forall h (g : list (Z * Z)),
    NoDup (map fst g) -> (forall r to, In (r, to) g -> (0 < r)%Z) -> network_closed g ->
    exists recs, ask KSfr6 h (ConnectionData (Some g)) = Ok (AConn recs) /\
      StronglySorted Z.lt (map (hd (-1)%Z) recs) /\
      (forall r, In r (map fst g) <-> In (r - 1)%Z (map (hd (-1)%Z) recs)) /\
      (forall rec, In rec recs -> exists r to ups,
        In (r, to) g /\
        rec = (r - 1)%Z :: map (fun u => (u - 1)%Z) ups ++ (if (to =? 0)%Z || (to =? r)%Z then [] else [- (to - 1)]%Z) /\
        NoDup ups /\ (forall u, In u ups <-> In (u, r) g /\ u <> r)) /\
      (* and changes nothing *)
      forall c, ask KSfr6 (h ++ [ConnectionData (Some g)]) c = ask KSfr6 h c.
  Proof.
    intros h g N1 N2 N3. destruct (@C38_connectiondata g N1 N2 N3) as [recs [C [X1 [X2 X3]]]]. exists recs.
    split; [unfold PropsSobj.ask, sreply; cbn [scall_step]; unfold do_conndata; now rewrite C|].
    split; [exact X1|]. split; [exact X2|]. split; [exact X3|]. intros c. rewrite ask_snoc. reflexivity.
  Qed.

  (** packagedata() after get_stream_connectivity *)
  Theorem C40_object : forall h arg b g a s2,
    ask KSfr6 h (StreamConnectivity arg b) = Ok (AGraph g) ->
    streams_used KSfr6 h arg a -> length a = length fdir ->
    ask KSfr6 (h ++ [StreamConnectivity arg b]) StreamArray = Ok (AArray s2) ->
    exists conn pk,
      ask KSfr6 (h ++ [StreamConnectivity arg b]) (ConnectionData None) = Ok (AConn conn) /\
      ask KSfr6 (h ++ [StreamConnectivity arg b]) (PackageData None) = Ok (APkg pk) /\
      length pk = length g /\ length conn = length g /\
      forall i p, nth_error pk i = Some p ->
        let r := Z.of_nat (i + 1) in
        p_ifno p = (r - 1)%Z /\ nth_error s2 (p_node p) = Some r /\
        (forall to, In (r, to) g -> (to = 0%Z -> p_node_dn p = p_node p) /\ (to <> 0%Z -> p_node_dn p = down fdir (p_node p))) /\
        exists rec, nth_error conn i = Some rec /\ hd (-1)%Z rec = (r - 1)%Z /\ p_ncon p = Z.of_nat (length (tl rec)).
  Proof.
    intros h arg b g a s2 E U L S2. destruct (conn6_state E) as [a' [s3 [P [M [S G]]]]]. assert (a' = a) by (eapply used_eq; eauto). subst a'.
    apply array_is in S2. assert (s3 = s2) by congruence. subst s3.
    destruct (@C40_packagedata fdir a lim s2 g V L M) as [conn [pk [C [K X]]]]. exists conn, pk.
    split; [unfold PropsSobj.ask, sreply; cbn [scall_step]; unfold do_conndata; rewrite G, C; reflexivity|].
    split; [|exact X]. unfold PropsSobj.ask, sreply. cbn [scall_step]. unfold do_pkgdata, lift, pick. rewrite G, S. cbn [bind]. now rewrite K.
  Qed.

  (** packagedata(stream_array) fails after any history when the array marks two or more cells with 1 *)
  Theorem C41_object_refuted : forall h a x,
    length a = length fdir -> Forall (fun z => z = 0%Z \/ z = 1%Z) a ->
    (exists c c', c <> c' /\ nth_error a c = Some 1%Z /\ nth_error a c' = Some 1%Z) ->
    ask KSfr6 h (PackageData (Some a)) <> Ok x.
  Proof.
    intros h a x L B T2 E. unfold PropsSobj.ask, sreply in E. cbn [scall_step] in E. unfold do_pkgdata, run6, pick in E. cbn [bind] in E.
    assert (X := @C41_packagedata_given_fails_refuted fdir a lim).
    unfold packagedata_given in X. destruct (mf6_connectivity lim fdir a) as [[s g]|] eqn:M; [|discriminate].
    cbn [bind andthen lift snd] in *. destruct (packagedata (some_graph g) a) as [pk|]; [|discriminate].
    exact (X pk V L B T2 eq_refl).
  Qed.

  (** *** Sfr2005 *)
  Lemma conn5_state h arg grouped g : ask KSfr2005 h (StreamConnectivity arg grouped) = Ok (AGraph g) ->
    exists a m, pick (state KSfr2005 h) arg = Ok a /\ mf2005_connectivity lim fuel grouped fdir a = Ok m /\ m_seg m = g /\
      state KSfr2005 (h ++ [StreamConnectivity arg grouped]) = SObj (Some (m_strm m)) (Some (m_graph m)) (Some (m_seg m)) (m_nsr m).
  Proof.
    unfold PropsSobj.ask, sreply. rewrite state_snoc. cbn [scall_step]. unfold run2005. intros E.
    destruct (pick (state KSfr2005 h) arg) as [a|]; [|discriminate]. cbn [bind] in *.
    destruct (mf2005_connectivity lim fuel grouped fdir a) as [m|] eqn:M; [|discriminate]. cbn in E. inversion E; subst.
    exists a, m. cbn. auto.
  Qed.

  Theorem C44_object_succeeds : forall h arg grouped a,
    streams_used KSfr2005 h arg a -> length a = length fdir -> length fdir <= fuel -> length fdir < lim ->
    exists g, ask KSfr2005 h (StreamConnectivity arg grouped) = Ok (AGraph g).
  Proof.
    intros h arg grouped a U L Hf Hl. apply used_pick in U.
    destruct (@C44_connectivity_succeeds fdir a lim fuel grouped V L Hf Hl) as [m E]. exists (m_seg m).
    unfold PropsSobj.ask, sreply. cbn [scall_step]. unfold run2005. rewrite U. cbn [bind]. rewrite E. reflexivity.
  Qed.

  Theorem C44_object_short_rivers : forall h arg a,
    streams_used KSfr2005 h arg a -> length a = length fdir -> length fdir <= fuel ->
    (forall c n hs, stream_run fdir a c n -> NoDup hs ->
       (forall h, In h hs -> starts_segment fdir a h /\ exists i, i <= n /\ h = downs fdir i c) -> length hs + 1 <= lim) ->
    exists g, ask KSfr2005 h (StreamConnectivity arg true) = Ok (AGraph g).
  Proof.
    intros h arg a U L Hf Hl. apply used_pick in U.
    destruct (@C44_short_rivers_succeed fdir a lim fuel V L Hf Hl) as [m E]. exists (m_seg m).
    unfold PropsSobj.ask, sreply. cbn [scall_step]. unfold run2005. rewrite U. cbn [bind]. rewrite E. reflexivity.
  Qed.

  (** segment_data() after get_stream_connectivity: the rows of the graph, in order *)
  Theorem C47_object : forall h arg grouped g a grp,
    ask KSfr2005 h (StreamConnectivity arg grouped) = Ok (AGraph g) ->
    streams_used KSfr2005 h arg a -> length a = length fdir -> length fdir <= fuel ->
    exists rows, ask KSfr2005 (h ++ [StreamConnectivity arg grouped]) (SegmentData None grp) = Ok (ASegs rows) /\
      map fst rows = map Z.of_nat (seq 1 (length g)) /\ forall s o, In (s, o) rows <-> In (s, o) g.
  Proof.
    intros h arg grouped g a grp E U L Hf. destruct (conn5_state E) as [a' [m [P [M [G S]]]]]. assert (a' = a) by (eapply used_eq; eauto). subst a' g.
    exists (segment_data (m_seg m)). split; [|exact (@C47_segment_data fdir a lim fuel grouped m V L Hf M)].
    unfold PropsSobj.ask, sreply. rewrite S. reflexivity.
  Qed.

  (** reach_data() after get_stream_connectivity(group_segments=True): the table is the
      decomposition of the streams into segments, and the graph returned is its segment graph *)
  Definition reach_at (recs : list rch) (c : nat) (s r : Z) : Prop :=
    exists x, In x recs /\ r_node x = Z.of_nat c /\ r_iseg x = s /\ r_ireach x = r.
  Lemma reach_at_in m recs : Permutation (map reach_row recs) (m_nsr m) ->
    forall c s r, reach_at recs c s r <-> In (Z.of_nat c, s, r) (m_nsr m).
  Proof.
    intros P c s r. split.
    - intros [x [Hx [E1 [E2 E3]]]]. apply (Permutation_in _ P). apply in_map_iff. exists x. split; auto. unfold reach_row. congruence.
    - intros H. apply (Permutation_in _ (Permutation_sym P)) in H. apply in_map_iff in H. destruct H as [x [E Hx]].
      unfold reach_row in E. inversion E. exists x. auto.
  Qed.
  Theorem C43_object : forall h arg g a grp recs,
    ask KSfr2005 h (StreamConnectivity arg true) = Ok (AGraph g) ->
    streams_used KSfr2005 h arg a -> length a = length fdir -> length fdir <= fuel -> (0 < ncol)%Z ->
    ask KSfr2005 (h ++ [StreamConnectivity arg true]) (ReachData None grp) = Ok (AReach recs) ->
    (* sorted, numbered from 1, with the row and column of the cell, which is a stream cell; no cell twice *)
    StronglySorted row_before recs /\ map r_id recs = map Z.of_nat (seq 1 (length recs)) /\
    (forall x, In x recs -> r_node x = (r_i x * ncol + r_j x)%Z /\ (0 <= r_j x < ncol)%Z /\
       exists c, r_node x = Z.of_nat c /\ stream_cell a c) /\
    NoDup (map r_node recs) /\
    (* the segments: all stream cells but those on rings; they start at headwaters and confluences *)
    (forall c, stream_cell a c -> ((exists s r, reach_at recs c s r) <-> ~ closed_ring fdir a c)) /\
    (forall c s r, reach_at recs c s r ->
       (1 <= r)%Z /\ (r = 1%Z <-> starts_segment fdir a c) /\
       (r <> 1%Z -> exists p, reach_at recs p s (r - 1) /\ down fdir p = c)) /\
    (* the graph *)
    (forall s t, In (s, t) g <->
      exists c r, reach_at recs c s r /\ (forall x, ~ reach_at recs x s (r + 1)) /\
        (stream_cell a (down fdir c) -> reach_at recs (down fdir c) t 1) /\
        (~ stream_cell a (down fdir c) -> t = 0%Z)) /\
    (* stream_array shows the segment numbers *)
    exists s2, ask KSfr2005 (h ++ [StreamConnectivity arg true]) StreamArray = Ok (AArray s2) /\ length s2 = length fdir /\
      (forall c s r, reach_at recs c s r -> nth_error s2 c = Some s) /\
      (forall c, nth_error a c = Some 0%Z -> nth_error s2 c = Some 0%Z).
  Proof.
    intros h arg g a grp recs E U L Hf Hn R. destruct (conn5_state E) as [a' [m [P [M [G S]]]]]. assert (a' = a) by (eapply used_eq; eauto). subst a' g.
    assert (D : reach_data ncol (m_seg m) (m_nsr m) = Ok recs).
    { unfold PropsSobj.ask, sreply in R. rewrite S in R. cbn [scall_step] in R. unfold do_reachdata, ensure_segs, pick in R. cbn in R.
      destruct (reach_data ncol (m_seg m) (m_nsr m)); [|discriminate]. cbn in R. now inversion R. }
    destruct (@C48_reach_data fdir a lim fuel true m ncol recs V L Hf Hn M D) as [PM [SS [ID RC]]].
    assert (RA := reach_at_in PM).
    destruct (@C42_segments_partition_the_streams fdir a lim fuel m V L Hf M) as [Q1 [Q2 [Q3 Q4]]].
    split; [exact SS|]. split; [exact ID|]. split.
    { intros x Hx. destruct (RC x Hx) as [R1 R2]. split; auto. split; auto.
      assert (X : In (reach_row x) (m_nsr m)) by (apply (Permutation_in _ PM), in_map, Hx). destruct (Q1 _ _ _ X) as [c Hc]. exists c. exact Hc. }
    split.
    { apply (Permutation_NoDup (l := map (fun row => fst (fst row)) (m_nsr m))); auto.
      replace (map r_node recs) with (map (fun row : Z * Z * Z => fst (fst row)) (map reach_row recs)) by (rewrite map_map; reflexivity).
      apply Permutation_map, Permutation_sym, PM. }
    split.
    { intros c Hc. rewrite <- (Q3 c Hc). split; intros [s [r X]]; exists s, r; now apply RA. }
    split.
    { intros c s r X. apply RA in X. destruct (Q4 _ _ _ X) as [Y1 [Y2 [Y3 _]]]. split; auto. split; auto.
      intros NE. destruct (Y3 NE) as [p [Hp Dp]]. exists p. split; auto. now apply RA. }
    split.
    { intros s t. destruct (@C43_segment_graph fdir a lim fuel m V L Hf M) as [_ [_ GR]]. rewrite GR. split.
      - intros [c [r [X1 [X2 [X3 X4]]]]]. exists c, r. split; [now apply RA|]. split; [intros x Y; apply RA in Y; now apply X2 in Y|].
        split; auto. intros Hs. apply RA. auto.
      - intros [c [r [X1 [X2 [X3 X4]]]]]. exists c, r. split; [now apply RA|]. split.
        + intros x Y. destruct (Q1 _ _ _ Y) as [c' [-> _]]. apply RA in Y. now apply X2 in Y.
        + split; auto. intros Hs. apply RA. auto. }
    destruct (@C42_array_shows_segments fdir a lim fuel m V L Hf M) as [A1 [A2 A3]].
    exists (m_strm m). split; [apply array_is; now rewrite S|]. split; [congruence|]. split; auto.
    intros c s r X. apply RA in X. eauto.
  Qed.

  (** segment_data and reach_data as the first product of the object make the segments
      themselves, from the streams passed: the tables are those obtained after
      get_stream_connectivity with the same streams (C47_object, C43_object) *)
  Theorem C47_object_first_use : forall h arg grp g grp',
    (forall x, In x h -> only_sets x) ->
    ask KSfr2005 h (StreamConnectivity arg grp) = Ok (AGraph g) ->
    let h' := h ++ [StreamConnectivity arg grp] in
    ask KSfr2005 h (SegmentData arg grp) = ask KSfr2005 h' (SegmentData None grp') /\
    ask KSfr2005 h (ReachData arg grp) = ask KSfr2005 h' (ReachData None grp').
  Proof.
    intros h arg grp g grp' H E. cbn zeta. destruct (conn5_state E) as [a [m [P [M [G S]]]]].
    destruct (@no_graph T F ge fone fabs fsum fdiv fle0 fkeep lim fuel ncol fdir facc slopes fnb KSfr2005 h H) as [_ G0].
    unfold PropsSobj.ask, sreply. rewrite S. cbn [scall_step]. unfold do_segdata, do_reachdata, ensure_segs, run2005. rewrite P, G0.
    cbn [pick bind so_strm so_seg so_nsr]. rewrite M. cbn [pick bind so_strm so_seg so_nsr andthen fst snd]. auto.
  Qed.

  Lemma labels_length a grouped m : length a = length fdir -> length fdir <= fuel ->
    mf2005_connectivity lim fuel grouped fdir a = Ok m -> length (m_strm m) = length fdir.
  Proof.
    intros L Hf M. destruct (@any_result fdir a lim fuel grouped m V L Hf M) as [K [len [sg [tg [C _]]]]]. exact (c_len C).
  Qed.

  (** irunbnd(): the labels it spreads are those stream_array shows, once connectivity exists *)
  Theorem C50_object : forall h arg grouped g g' grp a,
    ask KSfr2005 h (StreamConnectivity arg grouped) = Ok (AGraph g) ->
    streams_used KSfr2005 h arg a -> length a = length fdir -> length fdir < fuel ->
    exists labels out,
      ask KSfr2005 (h ++ [StreamConnectivity arg grouped]) StreamArray = Ok (AArray labels) /\
      ask KSfr2005 (h ++ [StreamConnectivity arg grouped]) (Irunbnd None g' grp) = Ok (AArray out) /\ length out = length fdir /\
      forall c, c < length fdir ->
        (nth c out 0%Z <> 0%Z <-> exists s, labelled labels s /\ flows_through fdir c s) /\
        (nth c out 0%Z <> 0%Z -> exists s, labelled labels s /\ flows_through fdir c s /\ nth c out 0%Z = nth s labels 0%Z).
  Proof.
    intros h arg grouped g g' grp a E U L Hf. destruct (conn5_state E) as [a' [m [P [M [G S]]]]]. assert (a' = a) by (eapply used_eq; eauto). subst a' g.
    assert (L2 : length (m_strm m) = length fdir).
    { eapply labels_length; eauto; lia. }
    exists (m_strm m).
    destruct (@C50_irunbnd_covers_draining_cells fdir (m_strm m) V L2 fuel Hf) as [out [R X]].
    exists out. split; [apply array_is; now rewrite S|]. split; [|exact X].
    unfold PropsSobj.ask, sreply. rewrite S. cbn [scall_step]. unfold do_irunbnd, pick. cbn [so_strm so_seg].
    destruct g'; unfold lift; cbn [snd]; now rewrite R.
  Qed.
  (** irunbnd(stream_array, graph): the labels of the array given, whatever the object has stored *)
  Theorem C50_object_given : forall h a g grp,
    length a = length fdir -> length fdir < fuel ->
    exists out, ask KSfr2005 h (Irunbnd (Some a) (Some g) grp) = Ok (AArray out) /\ length out = length fdir /\
      (forall c, c < length fdir ->
        (nth c out 0%Z <> 0%Z <-> exists s, labelled a s /\ flows_through fdir c s) /\
        (nth c out 0%Z <> 0%Z -> exists s, labelled a s /\ flows_through fdir c s /\ nth c out 0%Z = nth s a 0%Z)) /\
      forall c, ask KSfr2005 (h ++ [Irunbnd (Some a) (Some g) grp]) c = ask KSfr2005 h c.
  Proof.
    intros h a g grp L Hf. destruct (@C50_irunbnd_covers_draining_cells fdir a V L fuel Hf) as [out [R [X1 X2]]].
    exists out. split; [|split; [exact X1|split; [exact X2|intros c; rewrite ask_snoc; reflexivity]]].
    unfold PropsSobj.ask, sreply. cbn [scall_step]. unfold do_irunbnd, pick, lift. cbn [snd]. now rewrite R.
  Qed.

  (** irunbnd as the first product of the object: it makes the segments itself, and the labels it
      spreads are the segment numbers stream_array shows afterwards *)
  Theorem C50_object_first_use : forall h arg grp a out,
    (forall x, In x h -> only_sets x) ->
    streams_used KSfr2005 h arg a -> length a = length fdir -> length fdir < fuel ->
    ask KSfr2005 h (Irunbnd arg None grp) = Ok (AArray out) ->
    exists labels,
      ask KSfr2005 (h ++ [Irunbnd arg None grp]) StreamArray = Ok (AArray labels) /\
      ask KSfr2005 (h ++ [StreamConnectivity arg grp]) StreamArray = Ok (AArray labels) /\ length out = length fdir /\
      forall c, c < length fdir ->
        (nth c out 0%Z <> 0%Z <-> exists s, labelled labels s /\ flows_through fdir c s) /\
        (nth c out 0%Z <> 0%Z -> exists s, labelled labels s /\ flows_through fdir c s /\ nth c out 0%Z = nth s labels 0%Z).
  Proof.
    intros h arg grp a out H U L Hf E. apply used_pick in U.
    destruct (@no_graph T F ge fone fabs fsum fdiv fle0 fkeep lim fuel ncol fdir facc slopes fnb KSfr2005 h H) as [_ G].
    unfold PropsSobj.ask, sreply in E. cbn [scall_step] in E. unfold do_irunbnd, run2005 in E. rewrite U, G in E. cbn [pick bind] in E.
    destruct (mf2005_connectivity lim fuel grp fdir a) as [m|] eqn:M; [|discriminate]. cbn [bind andthen lift snd] in E.
    assert (L2 : length (m_strm m) = length fdir) by (eapply labels_length; eauto; lia).
    destruct (@C50_irunbnd_covers_draining_cells fdir (m_strm m) V L2 fuel Hf) as [out' [R X]].
    rewrite R in E. cbn [bind] in E. inversion E; subst out'. exists (m_strm m). split; [|split; [|exact X]].
    - apply array_is. rewrite state_snoc. cbn [scall_step]. unfold do_irunbnd, run2005. rewrite U, G. cbn [pick bind]. rewrite M. reflexivity.
    - apply array_is. rewrite state_snoc. cbn [scall_step]. unfold run2005. rewrite U. cbn [pick bind]. rewrite M. reflexivity.
  Qed.

  (** create_stream_vectors, any class, any history: the lines follow the streams in use *)
  Theorem C69_object : forall k h arg grouped a v,
    streams_used k h arg a -> length a = length fdir -> 3 * length fdir < fuel ->
    ask k h (CreateStreamVectors arg grouped) = Ok (AVec v) ->
    NoDup (map fst v) /\
    forall s l, In (s, l) v -> 2 <= length l /\
      exists c n, l = map (fun j => Z.of_nat (downs fdir j c)) (seq 0 n) /\
        forall j, j < n -> stream_cell a (downs fdir j c).
  Proof.
    intros k h arg grouped a v U L Hf E. apply used_pick in U.
    unfold PropsSobj.ask, sreply in E.
    assert (X : step k (state k h) (CreateStreamVectors arg grouped) = do_vectors lim fuel fdir (state k h) arg grouped) by (now destruct k).
    rewrite X in E. unfold do_vectors, run2005 in E. rewrite U in E. cbn [bind] in E.
    destruct (mf2005_connectivity lim fuel grouped fdir a) as [m|] eqn:M; [|discriminate]. cbn [bind andthen lift snd] in E.
    destruct (@any_result fdir a lim fuel grouped m V L ltac:(lia) M) as [K [len [sg [tg [C _]]]]].
    assert (HK : length (m_seg m) <= length fdir).
    { rewrite (c_seg C), map_length. rewrite <- (seq_length (length fdir) 0). apply NoDup_incl_length; [exact (c_nd C)|].
      intros c Hc. apply in_seq. assert (X0 : In (downs fdir 0 c) (nonzero a)) by (apply (c_node C); auto; lia). cbn [downs] in X0. apply in_nonzero in X0. lia. }
    destruct (@C69_lines_trace_segments fdir a lim fuel grouped m fuel V L ltac:(lia) M ltac:(lia)) as [v' [R [ND [Y _]]]].
    rewrite R in E. cbn [bind] in E. inversion E; subst v'. split; auto. intros s l Hl.
    destruct (Y s l Hl) as [c [n [o [Ho [Hm [El [Hn L2]]]]]]]. split; auto.
    exists c, (if (o =? 0)%Z then n else n + 1). split; auto.
    assert (N1 : forall x s' r, In (x, s', r) (m_nsr m) -> exists y, x = Z.of_nat y /\ stream_cell a y).
    { intros x s' r Hx. rewrite (c_nsr C) in Hx. apply in_flat_map in Hx. destruct Hx as [c0 [H0 Hx]].
      unfold rows in Hx. apply in_map_iff in Hx. destruct Hx as [j [Ej Hj]]. apply in_seq in Hj. inversion Ej; subst.
      eexists. split; [reflexivity|]. apply stream_cell_in. apply (c_node C); auto. lia. }
    assert (N2 : forall j, j < n -> stream_cell a (downs fdir j c)).
    { intros j Hj. assert (I : In (Z.of_nat (downs fdir j c)) (map (fun r : Z * Z * Z => fst (fst r)) (filter (fun r => snd (fst r) =? s)%Z (m_nsr m)))).
      { rewrite Hm. apply in_map_iff. exists j. split; auto. apply in_seq. lia. }
      apply in_map_iff in I. destruct I as [[[x s'] r] [Ex Hx]]. apply filter_In in Hx. destruct (N1 _ _ _ (proj1 Hx)) as [y [Ey Sy]].
      cbn in Ex. assert (y = downs fdir j c) by lia. now subst y. }
    intros j Hj. destruct (Z.eqb_spec o 0) as [|NZ]; [auto|]. destruct (Nat.eq_dec j n) as [->|]; [|apply N2; lia].
    destruct (N1 _ _ _ (Hn NZ)) as [y [Ey Sy]]. assert (y = downs fdir n c) by lia. now subst y.
  Qed.

  (** ... and on an Sfr2005 every segment of segment_data() that flows on to another has a line *)
  Theorem C69_object_segments : forall h arg grouped a v grp,
    streams_used KSfr2005 h arg a -> length a = length fdir -> 3 * length fdir < fuel ->
    grouped = true \/ acyclic fdir ->
    ask KSfr2005 h (CreateStreamVectors arg grouped) = Ok (AVec v) ->
    exists rows, ask KSfr2005 (h ++ [CreateStreamVectors arg grouped]) (SegmentData None grp) = Ok (ASegs rows) /\
      (forall s o, In (s, o) rows -> o <> 0%Z -> In s (map fst v)) /\
      (forall s, In s (map fst v) -> In s (map fst rows)) /\
      (* the line of a segment starts in a cell stream_array gives its number to *)
      exists labels, ask KSfr2005 (h ++ [CreateStreamVectors arg grouped]) StreamArray = Ok (AArray labels) /\
        forall s l, In (s, l) v -> exists c l', l = Z.of_nat c :: l' /\ nth_error labels c = Some s.
  Proof.
    intros h arg grouped a v grp U L Hf HG E. apply used_pick in U.
    unfold PropsSobj.ask, sreply in E. cbn [scall_step] in E. unfold do_vectors, run2005 in E. rewrite U in E. cbn [bind] in E.
    destruct (mf2005_connectivity lim fuel grouped fdir a) as [m|] eqn:M; [|discriminate]. cbn [bind andthen lift snd] in E.
    destruct (@any_result fdir a lim fuel grouped m V L ltac:(lia) M) as [K [len [sg [tg [C _]]]]].
    assert (HK : length (m_seg m) <= length fdir).
    { rewrite (c_seg C), map_length. rewrite <- (seq_length (length fdir) 0). apply NoDup_incl_length; [exact (c_nd C)|].
      intros c Hc. apply in_seq. assert (X0 : In (downs fdir 0 c) (nonzero a)) by (apply (c_node C); auto; lia). cbn [downs] in X0. apply in_nonzero in X0. lia. }
    destruct (@C69_lines_trace_segments fdir a lim fuel grouped m fuel V L ltac:(lia) M ltac:(lia)) as [v' [R [ND [Y Z2]]]].
    assert (EV := @C69_every_segment_has_a_line fdir a lim fuel grouped m fuel v' V L ltac:(lia) M ltac:(lia) HG R).
    rewrite R in E. cbn [bind] in E. inversion E; subst v'.
    destruct (@C47_segment_data fdir a lim fuel grouped m V L ltac:(lia) M) as [_ SD].
    assert (ST : state KSfr2005 (h ++ [CreateStreamVectors arg grouped]) = SObj (Some (m_strm m)) (Some (m_graph m)) (Some (m_seg m)) (m_nsr m)).
    { rewrite state_snoc. cbn [scall_step]. unfold do_vectors, run2005. rewrite U. cbn [bind]. rewrite M. reflexivity. }
    exists (segment_data (m_seg m)). split; [unfold PropsSobj.ask, sreply; rewrite ST; reflexivity|]. split.
    { intros s o Ho NZ. apply SD in Ho. apply (EV s o Ho). now left. }
    split.
    { intros s Hs. apply Z2 in Hs. destruct Hs as [_ [o [Ho _]]]. apply SD in Ho. now apply (in_map fst) in Ho. }
    exists (m_strm m). split; [apply array_is; now rewrite ST|]. intros s l Hl.
    destruct (Y s l Hl) as [c [n [o [Ho [Hm [El [Hn L2]]]]]]]. assert (N0 : 1 <= n).
    { rewrite El, map_length, seq_length in L2. destruct (o =? 0)%Z; lia. }
    exists c. rewrite El. destruct (if (o =? 0)%Z then n else n + 1) as [|q] eqn:Eq; [destruct (o =? 0)%Z; lia|].
    cbn [seq map downs]. eexists. split; [reflexivity|].
    assert (I : In (Z.of_nat c) (map (fun r : Z * Z * Z => fst (fst r)) (filter (fun r => snd (fst r) =? s)%Z (m_nsr m)))).
    { rewrite Hm. apply in_map_iff. exists 0. split; auto. apply in_seq. lia. }
    apply in_map_iff in I. destruct I as [[[x s'] r] [Ex Hx]]. apply filter_In in Hx. destruct Hx as [Hx Es]. cbn in Ex, Es. apply Z.eqb_eq in Es. subst s' x.
    rewrite (c_nsr C) in Hx. apply in_flat_map in Hx. destruct Hx as [c0 [H0 Hx]].
    unfold rows in Hx. apply in_map_iff in Hx. destruct Hx as [j [Ej Hj]]. apply in_seq in Hj. inversion Ej; subst.
    assert (Ec : c = downs fdir j c0) by lia. rewrite Ec. rewrite (nth_error_nth' _ 0%Z).
    - rewrite (c_at C); auto. lia.
    - rewrite (c_len C). assert (X0 : In (downs fdir j c0) (nonzero a)) by (apply (c_node C); auto; lia). apply in_nonzero in X0. lia.
  Qed.

  (** *** PrmsStreams *)
  (** get_cascades, one-to-one, whole grid, when connectivity exists: the cascades are the flow
      links, and the stream number is the one the streams in use show *)
  Theorem C52_object : forall h arg grouped gr arg' grp a,
    ask KPrms h (StreamConnectivity arg grouped) = Ok gr ->
    streams_used KPrms (h ++ [StreamConnectivity arg grouped]) arg' a -> length a = length fdir ->
    exists out, ask KPrms (h ++ [StreamConnectivity arg grouped]) (Cascades arg' None false grp) = Ok (ACasc out) /\
      forall u d f s, In (u, d, f, s) out <->
        exists c, c < length fdir /\ u = (Z.of_nat c + 1)%Z /\ d = (Z.of_nat (down fdir c) + 1)%Z /\
                  f = Some fone /\ s = nth (down fdir c) a 0%Z.
  Proof.
    intros h arg grouped gr arg' grp a E U L. apply used_pick in U.
    assert (G : so_graph (state KPrms (h ++ [StreamConnectivity arg grouped])) <> None).
    { rewrite state_snoc. unfold PropsSobj.ask, sreply in E. cbn [scall_step] in *. unfold prms_connect, run6, run2005 in *.
      destruct grouped; (destruct (pick (state KPrms h) arg) as [x|]; [|discriminate]); cbn [bind] in *.
      - destruct (mf2005_connectivity _ _ _ _ _); [|discriminate]. easy.
      - destruct (mf6_connectivity _ _ _) as [[? ?]|]; [|discriminate]. easy. }
    destruct (@C52_cascades_are_flow_links (option F) (Some fone) fdir a V L) as [out [R X]]. exists out. split; [|exact X].
    unfold PropsSobj.ask, sreply. cbn [scall_step]. unfold do_cascades. rewrite U.
    destruct (so_graph (state KPrms (h ++ [StreamConnectivity arg grouped]))); [|congruence]. unfold lift. cbn [snd]. now rewrite R.
  Qed.

  (** ... and as the first product of the object: the numbers stream_array shows afterwards *)
  Theorem C52_object_first_use : forall h arg grp a ans,
    (forall x, In x h -> only_sets x) ->
    streams_used KPrms h arg a -> length a = length fdir -> length fdir <= fuel ->
    ask KPrms h (Cascades arg None false grp) = Ok ans ->
    exists out labels, ans = ACasc out /\
      ask KPrms (h ++ [Cascades arg None false grp]) StreamArray = Ok (AArray labels) /\
      ask KPrms (h ++ [StreamConnectivity arg grp]) StreamArray = Ok (AArray labels) /\
      forall u d f s, In (u, d, f, s) out <->
        exists c, c < length fdir /\ u = (Z.of_nat c + 1)%Z /\ d = (Z.of_nat (down fdir c) + 1)%Z /\
                  f = Some fone /\ s = nth (down fdir c) labels 0%Z.
  Proof.
    intros h arg grp a ans H U L Hf E. apply used_pick in U.
    destruct (@no_graph T F ge fone fabs fsum fdiv fle0 fkeep lim fuel ncol fdir facc slopes fnb KPrms h H) as [G _].
    assert (B : exists labels g seg nsr, length labels = length fdir /\ forall arg', pick (state KPrms h) arg' = Ok a ->
              prms_connect lim fuel fdir (state KPrms h) arg' grp = Ok (SObj (Some labels) (Some g) seg nsr, (match prms_connect lim fuel fdir (state KPrms h) (Some a) grp with Ok (_, t) => t | _ => [] end))).
    { unfold PropsSobj.ask, sreply in E. cbn [scall_step] in E. unfold do_cascades in E. rewrite U, G in E.
      unfold prms_connect, run2005, run6 in *. destruct grp; cbn [pick bind] in *.
      - destruct (mf2005_connectivity lim fuel true fdir a) as [m|] eqn:M; [|discriminate].
        exists (m_strm m), (m_graph m), (Some (m_seg m)), (m_nsr m). split; [eapply labels_length; eauto|].
        intros arg' P. rewrite P. cbn [bind]. rewrite M. reflexivity.
      - destruct (mf6_connectivity lim fdir a) as [[s2 g]|] eqn:M; [|discriminate].
        exists s2, (some_graph g), (so_seg (state KPrms h)), (so_nsr (state KPrms h)).
        destruct (@C34_reaches_number_the_cells fdir a lim s2 g V L M) as [L2 _]. split; [congruence|].
        intros arg' P. rewrite P. cbn [bind]. rewrite M. reflexivity. }
    destruct B as [labels [g [seg [nsr [L2 B]]]]].
    destruct (@C52_cascades_are_flow_links (option F) (Some fone) fdir labels V L2) as [out [R X]].
    assert (ES : step KPrms (state KPrms h) (Cascades arg None false grp) = (SObj (Some labels) (Some g) seg nsr, Ok (ACasc out))).
    { cbn [scall_step]. unfold do_cascades. rewrite U, G, (B (Some a) eq_refl). cbn [andthen pick so_strm lift]. unfold lift. now rewrite R. }
    exists out, labels. split; [|split; [|split; [|exact X]]].
    - unfold PropsSobj.ask, sreply in E. rewrite ES in E. cbn in E. congruence.
    - apply array_is. rewrite state_snoc, ES. reflexivity.
    - apply array_is. rewrite state_snoc. cbn [scall_step]. rewrite (B arg U). reflexivity.
  Qed.
End StreamApi.

(** ** The theorems apply *)
Module ExF.
  Import PropsObj.Ex.
  (** four cells in a row; directions computed with an inflow cell, then one of them edited *)
  Definition h : list (@fcall Q) := [GetNidp; FD [1]%Z; FlowAccumulation true; EditDirection 1 3].
  Lemma now : ask h FlowDirectionArray = Ok (Ints [1; 3; 3; 3]%Z). Proof. vm_compute. reflexivity. Qed.
  Lemma valid : valid_fdir [1; 3; 3; 3]%Z. Proof. repeat constructor; simpl; lia. Qed.
  Example edits : exists f, ask (h ++ [EditDirection (Z.of_nat 1) 2%Z]) FlowDirectionArray = Ok (Ints f) /\ nth_error f 1 = Some 2%Z.
  Proof.
    destruct (C26_edits_are_seen (c := 1) 2%Z now ltac:(cbn; lia)) as [_ [f [E [_ [X _]]]]]. exists f. auto.
  Qed.
  Example nidp : ask h GetNidp = Ok (Ints [0; 1; 0; 3]%Z). Proof. vm_compute. reflexivity. Qed.
  Example cells : exists a, ask h (FlowAccumulation true) = Ok (Ints a) /\ nth_error a 1 = Some 2%Z.
  Proof. eexists. split; vm_compute; reflexivity. Qed.
  Example areas_apply : exists a, ask h (FlowAccumulation false) = Ok (Numbers a) /\ length a = 4.
  Proof.
    assert (HS : exact_sum Z.add 0%Z) by (repeat split; intros; cbn; lia).
    destruct (C20_object_areas HS now valid eq_refl ltac:(cbn; lia)) as [a [E [_ [L _]]]]. exists a. auto.
  Qed.
  Example first_watershed : exists out, ask h (Watershed (Z.of_nat 3)) = Ok (Ints out) /\ nth_error out 0 = Some 1%Z.
  Proof.
    assert (D : forall x, In x h -> ~ delineates x) by (intros x Hx; cbn in Hx; repeat destruct Hx as [<-|Hx]; cbn; tauto).
    destruct (C24_object_first_watershed (pour := 3) now valid D ltac:(cbn; lia) ltac:(cbn; lia)) as [out [E [_ X]]].
    exists out. split; auto. apply X; [cbn; lia|]. exists 2. reflexivity.
  Qed.
  Example first_subbasins : exists out, ask h (Subbasins (map Z.of_nat [1; 3])) = Ok (Ints out) /\ nth_error out 0 <> Some 0%Z.
  Proof. eexists. split; [vm_compute; reflexivity|discriminate]. Qed.
  Example decides : ask (h ++ Watershed 3 :: [FD []]) (Watershed 3) =
    (out <- watershed_with 100 [1; 2; 3; 3]%Z [[-1; 0; -1; 1]; [-1; -1; -1; 2]; [-1; -1; -1; 3]]%Z 3 None ;; Ok (Ints out)).
  Proof.
    assert (D : forall x, In x h -> ~ delineates x) by (intros x Hx; cbn in Hx; repeat destruct Hx as [<-|Hx]; cbn; tauto).
    apply (C26_first_delineation_decides (fdir1 := [1; 3; 3; 3]%Z)); auto; vm_compute; reflexivity.
  Qed.
End ExF.

Module ExS.
  Import PropsSobj.Ex.
  Definition h : list (@scall Z) := [D 1; Conn; CreateStreamVectors None true; D 2].
  Lemma now k : k = KSfr6 \/ k = KSfr2005 \/ k = KPrms -> q k h StreamArray = Ok (AArray [0; 1; 1; 1]%Z).
  Proof. intros [->|[->| ->]]; vm_compute; reflexivity. Qed.
  Example conn6 : exists g, q KSfr6 h Conn = Ok (AGraph g) /\
    exists s2, q KSfr6 (h ++ [Conn]) StreamArray = Ok (AArray s2) /\
      (exists recs, q KSfr6 (h ++ [Conn]) (ConnectionData None) = Ok (AConn recs) /\ length recs = 3) /\
      exists pk, q KSfr6 (h ++ [Conn]) (PackageData None) = Ok (APkg pk) /\ length pk = 3.
  Proof.
    destruct (C34_object_succeeds (arg := None) valid true (now (or_introl eq_refl)) eq_refl ltac:(cbn; lia)) as [g E].
    exists g. split; [exact E|].
    destruct (C35_object valid E (now (or_introl eq_refl)) eq_refl) as [s2 [E2 _]]. exists s2. split; [exact E2|].
    split; eexists; split; vm_compute; reflexivity.
  Qed.
  Example given : exists recs, q KSfr6 h (ConnectionData (Some [(1, 2); (2, 0)]%Z)) = Ok (AConn recs) /\ length recs = 2.
  Proof. eexists. split; vm_compute; reflexivity. Qed.
  Example given_pkg : q KSfr6 h (PackageData (Some [0; 1; 1; 1]%Z)) = Err IndexError.
  Proof. vm_compute. reflexivity. Qed.
  Example conn5 : exists g recs, q KSfr2005 h Conn = Ok (AGraph g) /\
    q KSfr2005 (h ++ [Conn]) (ReachData None true) = Ok (AReach recs) /\ reach_at recs 2 1 2.
  Proof.
    eexists. eexists. split; [vm_compute; reflexivity|]. split; [vm_compute; reflexivity|].
    eexists. split; [right; left; reflexivity|]. repeat split; reflexivity.
  Qed.
  Example run : exists out, q KSfr2005 [D 2] (Irunbnd None None true) = Ok (AArray out) /\ out = [1; 1; 2; 2]%Z.
  Proof. eexists. split; [vm_compute; reflexivity|reflexivity]. Qed.
  Example lines : exists v, q KSfr2005 h (CreateStreamVectors None true) = Ok (AVec v) /\ v = [(1, [1; 2; 3]); (2, [3; 3])]%Z.
  Proof. eexists. split; [vm_compute; reflexivity|reflexivity]. Qed.
  Example casc : exists out, q KPrms (h ++ [Conn]) (Cascades None None false true) = Ok (ACasc out) /\ length out = 6.
  Proof. eexists. split; [vm_compute; reflexivity|reflexivity]. Qed.
  Example casc_first : exists out, q KPrms [D 2] (Cascades None None false true) = Ok (ACasc out) /\ length out = 6.
  Proof. eexists. split; [vm_compute; reflexivity|reflexivity]. Qed.
  (** segment_data with an array passed, on an object whose stored array is another one *)
  Example seg_first : exists rows, q KSfr2005 [D 2] (SegmentData (Some [0; 0; 1; 1]%Z) true) = Ok (ASegs rows) /\ length rows = 2.
  Proof.
    assert (E : exists g, q KSfr2005 [D 2] (StreamConnectivity (Some [0; 0; 1; 1]%Z) true) = Ok (AGraph g)) by (eexists; vm_compute; reflexivity).
    destruct E as [g E].
    assert (H : forall x, In x [D 2] -> only_sets x) by (intros x [<-|[]]; cbn; auto).
    destruct (C47_object_first_use true H E) as [X _]. unfold q in *. rewrite X. eexists. split; vm_compute; reflexivity.
  Qed.
End ExS.
