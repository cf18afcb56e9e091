(** C58: histories of calls on one stream object (Sfr6, Sfr2005, PrmsStreams). *)
From Verif Require Import Py Spec MFlow MStream MSobj LGraph LStream PropsStream.
Set Implicit Arguments.
Unset Strict Implicit.
Local Open Scope nat_scope.
Local Open Scope list_scope.

Section Histories.
  Context {T F : Type} (ge : T -> T -> bool).
  Variables (fone : F) (fabs : F -> F) (fsum : list F -> F) (fdiv : F -> F -> option F)
            (fle0 fkeep : F -> bool).
  Variables (lim fuel : nat) (ncol : Z) (fdir : list Z) (facc : list T).
  Variables (slopes : list (list (option F))) (fnb : list (list Z)).

  (** the answer to call [c] on an object of class [k] after the calls [h] (oldest first) *)
  Definition ask (k : klass) (h : list (@scall T)) (c : scall) : res sanswer :=
    sreply ge fone fabs fsum fdiv fle0 fkeep lim fuel ncol fdir facc slopes fnb k h c.
  Notation step := (scall_step ge fone fabs fsum fdiv fle0 fkeep lim fuel ncol fdir facc slopes fnb).
  Notation state := (scalls ge fone fabs fsum fdiv fle0 fkeep lim fuel ncol fdir facc slopes fnb).

  Lemma state_app k h h' : state k (h ++ h') = fold_left (fun o c => fst (step k o c)) h' (state k h).
  Proof. unfold scalls. now rewrite fold_left_app. Qed.
  Lemma state_snoc k h c : state k (h ++ [c]) = fst (step k (state k h) c).
  Proof. now rewrite state_app. Qed.

  Definition same_cells (a b : list Z) : Prop :=
    length a = length b /\ forall c, nth c a 0%Z = 0%Z <-> nth c b 0%Z = 0%Z.
  Lemma same_refl a : same_cells a a. Proof. split; tauto. Qed.

  Hypothesis V : valid_fdir fdir.

  Lemma mf6_cells a s g : length a = length fdir -> mf6_connectivity lim fdir a = Ok (s, g) -> same_cells a s.
  Proof.
    intros L E. destruct (@C34_reaches_number_the_cells fdir a lim s g V L E) as [L2 [_ [H1 [H2 _]]]]. split; auto.
    intros c. destruct (Nat.lt_ge_cases c (length a)) as [Hc|Hc]; [|rewrite !nth_overflow by lia; tauto].
    split; intros H.
    - assert (X : nth_error a c = Some 0%Z) by (rewrite (nth_error_nth' a 0%Z Hc); now rewrite H).
      apply H2 in X. now apply (nth_error_nth _ _ 0%Z) in X.
    - destruct (Z.eq_dec (nth c a 0%Z) 0) as [|NE]; auto. exfalso.
      destruct (H1 c Hc) as [r [Hr X]]; [rewrite (nth_error_nth' a 0%Z Hc); congruence|].
      apply (nth_error_nth _ _ 0%Z) in X. lia.
  Qed.

  (** ** Sfr6 *)
  (** calls after which earlier connectivity need not describe the streams any more, and
      create_stream_vectors, which overwrites it *)
  Definition disturbs (c : @scall T) : Prop :=
    match c with
    | DelineateStreams _ _ | SetStreamArray _ | StreamConnectivity (Some _) _
    | CreateStreamVectors _ _ | PackageData (Some _) => True
    | _ => False
    end.

  (** the object describes the streams [a] *)
  Definition about (a : list Z) (o : sobj) : Prop :=
    exists s, so_strm o = Some s /\ same_cells a s /\
      (so_graph o = None \/
       exists g, mf6_connectivity lim fdir a = Ok (s, g) /\ so_graph o = Some (some_graph g)).

  Lemma run6_about a o : length a = length fdir -> about a o ->
    match mf6_connectivity lim fdir a with
    | Ok (s, g) => exists o', run6 lim fdir o None = Ok (o', g) /\ about a o' /\ so_strm o' = Some s
                              /\ so_graph o' = Some (some_graph g)
    | Err e => run6 lim fdir o None = Err e
    end.
  Proof.
    intros L [s [Hs [C G]]]. unfold run6, pick. rewrite Hs. cbn [bind].
    rewrite <- (@mf6_same lim fdir a s (proj1 C) (proj2 C)).
    destruct (mf6_connectivity lim fdir a) as [[s2 g]|e] eqn:E; cbn [bind]; auto.
    eexists. split; [reflexivity|]. split; [|split; reflexivity].
    exists s2. split; auto. split; [eapply mf6_cells; eauto|]. right. exists g. auto.
  Qed.

  Lemma step_about a o c : length a = length fdir -> about a o -> ~ disturbs c -> about a (fst (step KSfr6 o c)).
  Proof.
    intros L A ND. assert (R := run6_about L A). assert (A' := A). destruct A' as [s [Hs [C G]]].
    destruct c as [| | |[?|] ?| |[?|]|[?|]| | | |]; cbn in ND; try tauto; cbn [step scall_step]; auto.
    - (* get_stream_connectivity *)
      destruct (mf6_connectivity lim fdir a) as [[s2 g]|e].
      + destruct R as [o' [-> [B _]]]. exact B.
      + rewrite R. exact A.
    - unfold do_conndata. destruct (so_graph o); auto.
      destruct (mf6_connectivity lim fdir a) as [[s2 g]|e].
      + destruct R as [o' [-> [B _]]]. exact B.
      + rewrite R. exact A.
    - unfold do_pkgdata. destruct (so_graph o); auto.
      destruct (mf6_connectivity lim fdir a) as [[s2 g]|e].
      + destruct R as [o' [-> [B _]]]. exact B.
      + rewrite R. exact A.
  Qed.

  Lemma steps_about a h : length a = length fdir -> (forall c, In c h -> ~ disturbs c) ->
    forall o, about a o -> about a (fold_left (fun o c => fst (step KSfr6 o c)) h o).
  Proof.
    intros L. induction h as [|c h IH]; intros H o A; cbn [fold_left]; auto.
    apply IH; [intros x Hx; apply H; now right|]. apply step_about; auto. apply H. now left.
  Qed.

  Definition product6 (c : @scall T) : Prop :=
    match c with ConnectionData None | PackageData None | StreamConnectivity None _ => True | _ => False end.

  (** what the products are for the streams [a] *)
  Definition value6 (a : list Z) (c : @scall T) : res (@sanswer F) :=
    ' (s, g) <- mf6_connectivity lim fdir a ;;
    match c with
    | ConnectionData _ => x <- connectiondata (some_graph g) ;; Ok (AConn x)
    | PackageData _ => x <- packagedata (some_graph g) s ;; Ok (APkg x)
    | _ => Ok (AGraph g)
    end.

  Lemma answers_about a o c : length a = length fdir -> about a o -> product6 c ->
    snd (step KSfr6 o c) = value6 a c.
  Proof.
    intros L A P. assert (R := run6_about L A). assert (A' := A). destruct A' as [s [Hs [C G]]]. unfold value6.
    destruct c as [| | |[?|] ?| |[?|]|[?|]| | | |]; cbn in P; try tauto; cbn [step scall_step].
    - destruct (mf6_connectivity lim fdir a) as [[s2 g]|e]; cbn [bind].
      + destruct R as [o' [-> [B _]]]. reflexivity.
      + rewrite R. reflexivity.
    - unfold do_conndata. destruct G as [G|[g [E G]]]; rewrite G.
      + destruct (mf6_connectivity lim fdir a) as [[s2 g]|e]; cbn [bind].
        * destruct R as [o' [-> [B _]]]. reflexivity.
        * rewrite R. reflexivity.
      + rewrite E. reflexivity.
    - unfold do_pkgdata. destruct G as [G|[g [E G]]]; rewrite G.
      + destruct (mf6_connectivity lim fdir a) as [[s2 g]|e]; cbn [bind].
        * destruct R as [o' [-> [B [S1 _]]]]. cbn [andthen]. unfold lift, pick. rewrite S1. reflexivity.
        * rewrite R. reflexivity.
      + rewrite E. cbn [bind]. unfold lift, pick. rewrite Hs. reflexivity.
  Qed.

  Lemma fresh_about a : length a = length fdir -> about a (state KSfr6 [SetStreamArray a]).
  Proof.
    intros L. unfold scalls. cbn [fold_left scall_step]. unfold do_set. rewrite L, Nat.eqb_refl. cbn [negb fst].
    exists a. split; auto. split; [apply same_refl|now left].
  Qed.

  Lemma ask_array k h a : ask k h StreamArray = Ok (AArray a) -> so_strm (state k h) = Some a.
  Proof.
    unfold ask, sreply. intros E. assert (X : step k (state k h) StreamArray = lift (state k h) (pick (state k h) None) AArray) by (now destruct k).
    rewrite X in E. unfold lift, pick in E. destruct (so_strm (state k h)); cbn in E; [now inversion E|discriminate].
  Qed.

  (** C58 for Sfr6 where it holds, first case: get_stream_connectivity() has been called since
      the streams changed last.  [a] is the array shown by stream_array before that call; the
      calls [h] before it are arbitrary. *)
  Theorem C58_sfr6_after_connectivity_partial : forall h a b h' c,
    ask KSfr6 h StreamArray = Ok (AArray a) -> length a = length fdir -> length a + 1 <= lim ->
    (forall x, In x h' -> ~ disturbs x) -> product6 c ->
    ask KSfr6 (h ++ StreamConnectivity None b :: h') c = ask KSfr6 [SetStreamArray a] c.
  Proof.
    intros h a b h' c E L Hl H P. apply ask_array in E. unfold ask, sreply.
    rewrite (answers_about L (fresh_about L) P).
    replace (h ++ StreamConnectivity None b :: h') with ((h ++ [StreamConnectivity None b]) ++ h') by now rewrite <- app_assoc.
    rewrite state_app. apply answers_about; auto. apply steps_about; auto.
    rewrite state_snoc. cbn [scall_step]. unfold run6, pick. rewrite E. cbn [bind].
    destruct (@C34_connectivity_succeeds fdir a lim V L Hl) as [s2 [g E2]]. rewrite E2. cbn [bind andthen fst].
    exists s2. split; auto. split; [eapply mf6_cells; eauto|]. right. exists g. auto.
  Qed.

  (** second case: nothing but delineations so far.  [a] is the array they left. *)
  Definition only_sets (c : @scall T) : Prop :=
    match c with DelineateStreams _ _ | SetStreamArray _ | StreamArray => True | _ => False end.

  Lemma no_graph k h : (forall x, In x h -> only_sets x) -> so_graph (state k h) = None /\ so_seg (state k h) = None.
  Proof.
    induction h as [|c h IH] using rev_ind; intros H; [easy|].
    destruct IH as [I1 I2]; [intros x Hx; apply H, in_or_app; now left|].
    assert (S : only_sets c) by (apply H, in_or_app; right; now left).
    rewrite state_snoc. destruct c; cbn in S; try tauto.
    - assert (X : step k (state k h) (DelineateStreams contrib basin) = do_delineate ge facc (state k h) contrib basin) by (now destruct k).
      rewrite X. unfold do_delineate. destruct (delineate_streams _ _ _ _); auto.
    - assert (X : step k (state k h) (SetStreamArray a) = do_set fdir (state k h) a) by (now destruct k).
      rewrite X. unfold do_set. destruct (negb _); auto.
    - assert (X : step k (state k h) StreamArray = lift (state k h) (pick (state k h) None) AArray) by (now destruct k).
      rewrite X. auto.
  Qed.

  Theorem C58_sfr6_first_use_partial : forall h a h' c,
    (forall x, In x h -> only_sets x) ->
    ask KSfr6 h StreamArray = Ok (AArray a) -> length a = length fdir ->
    (forall x, In x h' -> ~ disturbs x) -> product6 c ->
    ask KSfr6 (h ++ h') c = ask KSfr6 [SetStreamArray a] c.
  Proof.
    intros h a h' c H0 E L H P. apply ask_array in E. unfold ask, sreply.
    rewrite (answers_about L (fresh_about L) P). rewrite state_app. apply answers_about; auto. apply steps_about; auto.
    exists a. split; auto. split; [apply same_refl|]. left. now apply no_graph.
  Qed.

  (** ** Sfr2005 *)
  Definition reads2005 (c : @scall T) : Prop :=
    match c with
    | StreamArray | SegmentData None _ | ReachData None _ | Irunbnd None _ _ => True
    | _ => False
    end.

  Lemma reads_keep o c : so_seg o <> None -> so_strm o <> None -> reads2005 c -> fst (step KSfr2005 o c) = o.
  Proof.
    intros G S R. destruct (so_seg o) as [g|] eqn:Eg; [|congruence]. destruct (so_strm o) as [s|] eqn:Es; [|congruence].
    destruct c as [| | | | | | |[?|]|[?|]|[?|]|]; cbn in R; try tauto; cbn [step scall_step]; auto.
    - unfold do_segdata, ensure_segs, pick. rewrite Es. cbn [bind]. rewrite Eg. reflexivity.
    - unfold do_reachdata, ensure_segs, pick. rewrite Es. cbn [bind]. rewrite Eg. reflexivity.
    - unfold do_irunbnd, pick. rewrite Es, Eg. destruct graph; reflexivity.
  Qed.
  Lemma reads_all h : forall o, so_seg o <> None -> so_strm o <> None -> (forall c, In c h -> reads2005 c) ->
    fold_left (fun o c => fst (step KSfr2005 o c)) h o = o.
  Proof.
    induction h as [|c h IH]; intros o G S H; cbn [fold_left]; auto.
    rewrite reads_keep; auto; [|apply H; now left]. apply IH; auto. intros x Hx. apply H. now right.
  Qed.

  (** C58 for Sfr2005 where it holds: get_stream_connectivity() has been called since the streams
      changed last, and only products have been asked for since *)
  Theorem C58_sfr2005_after_connectivity_partial : forall h a grouped h' c,
    ask KSfr2005 h StreamArray = Ok (AArray a) -> length a = length fdir ->
    (exists m, mf2005_connectivity lim fuel grouped fdir a = Ok m) ->
    (forall x, In x h' -> reads2005 x) -> reads2005 c ->
    ask KSfr2005 (h ++ StreamConnectivity None grouped :: h') c =
    ask KSfr2005 [SetStreamArray a; StreamConnectivity None grouped] c.
  Proof.
    intros h a grouped h' c E L [m Em] H R. apply ask_array in E. unfold ask, sreply.
    assert (X : forall o, so_strm o = Some a -> fst (step KSfr2005 o (StreamConnectivity None grouped)) =
                  SObj (Some (m_strm m)) (Some (m_graph m)) (Some (m_seg m)) (m_nsr m)).
    { intros o Ho. cbn [scall_step]. unfold run2005, pick. rewrite Ho. cbn [bind]. rewrite Em. reflexivity. }
    replace (h ++ StreamConnectivity None grouped :: h') with ((h ++ [StreamConnectivity None grouped]) ++ h') by now rewrite <- app_assoc.
    rewrite state_app, state_snoc, X by auto. rewrite reads_all; auto; try easy.
    change [SetStreamArray a; StreamConnectivity None grouped] with ([SetStreamArray a] ++ [@StreamConnectivity T None grouped]).
    rewrite state_snoc, X; auto.
    unfold scalls. cbn [fold_left scall_step]. unfold do_set. rewrite L, Nat.eqb_refl. reflexivity.
  Qed.

  (** ... or the products are asked for the first time *)
  Theorem C58_sfr2005_first_use_partial : forall h a c,
    (forall x, In x h -> only_sets x) ->
    ask KSfr2005 h StreamArray = Ok (AArray a) -> length a = length fdir -> reads2005 c ->
    ask KSfr2005 h c = ask KSfr2005 [SetStreamArray a] c.
  Proof.
    intros h a c H E L R. apply ask_array in E. destruct (no_graph KSfr2005 H) as [_ G].
    unfold ask, sreply.
    assert (S1 : so_strm (state KSfr2005 [SetStreamArray a]) = Some a /\ so_seg (state KSfr2005 [SetStreamArray a]) = None).
    { unfold scalls. cbn [fold_left scall_step]. unfold do_set. rewrite L, Nat.eqb_refl. cbn. auto. }
    destruct S1 as [S1 S2].
    destruct c as [| | | | | | |[?|]|[?|]|[?|]|]; cbn in R; try tauto; cbn [scall_step].
    - unfold lift, pick. now rewrite E, S1.
    - unfold do_segdata, ensure_segs, run2005, pick. rewrite E, S1, G, S2. cbn [bind]. destruct (mf2005_connectivity _ _ _ _ _); reflexivity.
    - unfold do_reachdata, ensure_segs, run2005, pick. rewrite E, S1, G, S2. cbn [bind]. destruct (mf2005_connectivity _ _ _ _ _); reflexivity.
    - unfold do_irunbnd, run2005, pick. rewrite E, S1, G, S2. destruct graph; [reflexivity|]. cbn [bind]. destruct (mf2005_connectivity _ _ _ _ _); reflexivity.
  Qed.

  (** ** PrmsStreams *)
  (** cascades asked for right after get_stream_connectivity(); cascades do not change the object *)
  Theorem C58_prms_after_connectivity_partial : forall h a grouped h' basin many grp,
    ask KPrms h StreamArray = Ok (AArray a) -> length a = length fdir ->
    (exists g, ask KPrms h (StreamConnectivity None grouped) = Ok g) ->
    (forall x, In x h' -> match x with StreamArray | Cascades _ _ _ _ => True | _ => False end) ->
    ask KPrms (h ++ StreamConnectivity None grouped :: h') (Cascades None basin many grp) =
    ask KPrms [SetStreamArray a; StreamConnectivity None grouped] (Cascades None basin many grp).
  Proof.
    intros h a grouped h' basin many grp E L [gr Eg] H. apply ask_array in E. unfold ask, sreply in *.
    assert (X : exists o1 g1, (forall o, so_strm o = Some a ->
               exists seg nsr, fst (step KPrms o (StreamConnectivity None grouped)) = SObj (Some o1) (Some g1) seg nsr)).
    { cbn [scall_step] in *. destruct grouped; cbn [prms_connect] in *.
      - unfold run2005, pick in Eg. rewrite E in Eg. cbn [bind] in Eg.
        destruct (mf2005_connectivity lim fuel true fdir a) as [m|] eqn:Em; [|discriminate].
        exists (m_strm m), (m_graph m). intros o Ho. unfold run2005, pick. rewrite Ho. cbn [bind]. rewrite Em. cbn. eauto.
      - unfold run6, pick in Eg. rewrite E in Eg. cbn [bind] in Eg.
        destruct (mf6_connectivity lim fdir a) as [[s g]|] eqn:Em; [|discriminate].
        exists s, (some_graph g). intros o Ho. unfold run6, pick. rewrite Ho. cbn [bind]. rewrite Em. cbn. eauto. }
    destruct X as [s1 [g1 X]].
    replace (h ++ StreamConnectivity None grouped :: h') with ((h ++ [StreamConnectivity None grouped]) ++ h') by now rewrite <- app_assoc.
    rewrite state_app, state_snoc.
    assert (K : forall o, so_strm o <> None -> so_graph o <> None -> fold_left (fun o c => fst (step KPrms o c)) h' o = o).
    { clear -H. induction h' as [|c h' IH]; intros o S G; cbn [fold_left]; auto.
      assert (Y : fst (step KPrms o c) = o).
      { assert (M := H c (or_introl eq_refl)). destruct c; try tauto; cbn [scall_step]; auto.
        unfold do_cascades. destruct (pick o a) as [s|]; auto. destruct (so_graph o); [reflexivity|congruence]. }
      rewrite Y. apply IH; auto. intros x Hx. apply H. now right. }
    destruct (X _ E) as [sg1 [ns1 E1]]. rewrite E1. rewrite K by easy.
    change [SetStreamArray a; StreamConnectivity None grouped] with ([SetStreamArray a] ++ [@StreamConnectivity T None grouped]).
    rewrite state_snoc.
    assert (Y : so_strm (state KPrms [SetStreamArray a]) = Some a).
    { unfold scalls. cbn [fold_left scall_step]. unfold do_set. rewrite L, Nat.eqb_refl. reflexivity. }
    destruct (X _ Y) as [sg2 [ns2 E2]]. rewrite E2. reflexivity.
  Qed.

  (** ** What happens otherwise *)
  (** Sfr6.connectiondata after a new delineation: the connections of the previous streams,
      whatever the new ones are *)
  Theorem C58_connectiondata_ignores_new_streams : forall h b contrib basin g,
    ask KSfr6 h (StreamConnectivity None b) = Ok g ->
    ask KSfr6 (h ++ [StreamConnectivity None b; DelineateStreams contrib basin]) (ConnectionData None) =
    ask KSfr6 (h ++ [StreamConnectivity None b]) (ConnectionData None).
  Proof.
    intros h b contrib basin g E. unfold ask, sreply in *.
    replace (h ++ [StreamConnectivity None b; DelineateStreams contrib basin]) with
      ((h ++ [StreamConnectivity None b]) ++ [DelineateStreams contrib basin]) by now rewrite <- app_assoc.
    rewrite (state_snoc KSfr6 (h ++ _)).
    assert (X : exists g', so_graph (state KSfr6 (h ++ [StreamConnectivity None b])) = Some g').
    { rewrite state_snoc. cbn [scall_step] in *. unfold run6 in *. destruct (pick _ _); [|discriminate]. cbn [bind] in *.
      destruct (mf6_connectivity lim fdir a) as [[s g1]|]; [|discriminate]. cbn. eauto. }
    destruct X as [g' X]. cbn [scall_step]. unfold do_delineate.
    destruct (delineate_streams ge facc contrib basin) as [s|]; auto.
    unfold do_conndata. cbn [fst so_graph]. rewrite X. reflexivity.
  Qed.

  (** Sfr2005.segment_data after a new delineation, or given a stream array: the segments
      computed first *)
  Theorem C58_segment_data_ignores_new_streams : forall h grouped contrib basin a g,
    ask KSfr2005 h (StreamConnectivity None grouped) = Ok g ->
    ask KSfr2005 (h ++ [StreamConnectivity None grouped; DelineateStreams contrib basin]) (SegmentData a grouped) =
    ask KSfr2005 (h ++ [StreamConnectivity None grouped]) (SegmentData None grouped).
  Proof.
    intros h grouped contrib basin a g E. unfold ask, sreply in *.
    replace (h ++ [StreamConnectivity None grouped; DelineateStreams contrib basin]) with
      ((h ++ [StreamConnectivity None grouped]) ++ [DelineateStreams contrib basin]) by now rewrite <- app_assoc.
    rewrite (state_snoc KSfr2005 (h ++ _)).
    assert (X : exists s' g', so_strm (state KSfr2005 (h ++ [StreamConnectivity None grouped])) = Some s' /\
                              so_seg (state KSfr2005 (h ++ [StreamConnectivity None grouped])) = Some g').
    { rewrite state_snoc. cbn [scall_step] in *. unfold run2005 in *. destruct (pick _ _); [|discriminate]. cbn [bind] in *.
      destruct (mf2005_connectivity lim fuel grouped fdir a0) as [m|]; [|discriminate]. cbn. eauto. }
    destruct X as [s' [g' [X1 X2]]]. cbn [scall_step]. unfold do_delineate.
    destruct (delineate_streams ge facc contrib basin) as [s|]; unfold do_segdata, ensure_segs, pick; cbn [fst so_strm so_seg];
      rewrite X1, X2; destruct a; reflexivity.
  Qed.

  (** create_stream_vectors on an Sfr6: afterwards connectiondata reads the graph of cell
      numbers it stored *)
  Theorem C58_vectors_replace_graph : forall h a grouped m,
    ask KSfr6 h StreamArray = Ok (AArray a) ->
    mf2005_connectivity lim fuel grouped fdir a = Ok m ->
    ask KSfr6 (h ++ [CreateStreamVectors None grouped]) (ConnectionData None) =
      (x <- connectiondata (m_graph m) ;; Ok (AConn x)).
  Proof.
    intros h a grouped m E Em. apply ask_array in E. unfold ask, sreply. rewrite state_snoc. cbn [scall_step].
    unfold do_vectors, run2005, pick. rewrite E. cbn [bind]. rewrite Em. reflexivity.
  Qed.
End Histories.

(** ** Worked cases: four cells in a row draining to cell 3 *)
Module Ex.
  Definition fdir := [1; 2; 3; 3]%Z.
  Definition facc := [1; 2; 3; 4]%Z.
  Definition fdv (a b : Z) : option Z := if (b =? 0)%Z then None else Some (a / b)%Z.
  Definition q k (h : list (@scall Z)) c :=
    ask Z.geb 1%Z Z.abs (np_sum Z.add 0%Z) fdv (fun x => x <=? 0)%Z (fun x => 0 <? x)%Z 100 100 4 fdir facc [] [] k h c.
  Definition D t : @scall Z := DelineateStreams (Scalar t) None.
  Definition Conn : @scall Z := StreamConnectivity None true.
  Lemma valid : valid_fdir fdir.
  Proof. repeat constructor; simpl; lia. Qed.

  (** the theorems apply *)
  Example C58_sfr6_case :
    q KSfr6 ([D 1; Conn; CreateStreamVectors None true; D 3] ++ Conn :: [PackageData None; StreamArray]) (ConnectionData None)
    = q KSfr6 [SetStreamArray [0; 0; 1; 1]%Z] (ConnectionData None) /\
    q KSfr6 [SetStreamArray [0; 0; 1; 1]%Z] (ConnectionData None) = Ok (AConn [[0; -1]; [1; 0]]%Z).
  Proof.
    split; [|vm_compute; reflexivity].
    apply C58_sfr6_after_connectivity_partial; [exact valid|..].
    - vm_compute. reflexivity.
    - reflexivity.
    - cbn. lia.
    - intros x Hx. cbn in Hx. repeat destruct Hx as [<-|Hx]; cbn; try easy.
    - exact I.
  Qed.
  Example C58_sfr2005_case :
    q KSfr2005 ([D 1; Conn; D 3] ++ Conn :: [SegmentData None true; Irunbnd None None true]) (ReachData None true)
    = q KSfr2005 [SetStreamArray [0; 0; 1; 1]%Z; Conn] (ReachData None true) /\
    exists r, q KSfr2005 [SetStreamArray [0; 0; 1; 1]%Z; Conn] (ReachData None true) = Ok (AReach r) /\ length r = 2.
  Proof.
    split; [|eexists; split; [vm_compute; reflexivity|reflexivity]].
    apply C58_sfr2005_after_connectivity_partial.
    - vm_compute. reflexivity.
    - reflexivity.
    - eexists. vm_compute. reflexivity.
    - intros x Hx. cbn in Hx. repeat destruct Hx as [<-|Hx]; cbn; try easy.
    - exact I.
  Qed.
  Example C58_prms_case :
    q KPrms ([D 1; Conn; D 3] ++ Conn :: [StreamArray]) (Cascades None None false true)
    = q KPrms [SetStreamArray [0; 0; 1; 1]%Z; Conn] (Cascades None None false true) /\
    exists r, q KPrms [SetStreamArray [0; 0; 1; 1]%Z; Conn] (Cascades None None false true) = Ok (ACasc r) /\ length r <> 0.
  Proof.
    split; [|eexists; split; [vm_compute; reflexivity|discriminate]].
    apply C58_prms_after_connectivity_partial.
    - vm_compute. reflexivity.
    - reflexivity.
    - eexists. vm_compute. reflexivity.
    - intros x Hx. cbn in Hx. repeat destruct Hx as [<-|Hx]; cbn; try easy.
  Qed.
End Ex.

(** C58 is false.  Sfr6: streams delineated, connected, delineated again with two stream cells:
    connectiondata still lists four reaches, packagedata raises IndexError *)
Theorem C58_sfr6_stale_refuted :
  Ex.q KSfr6 [Ex.D 1; Ex.Conn; Ex.D 3] StreamArray = Ok (AArray [0; 0; 1; 1]%Z) /\
  (exists l, Ex.q KSfr6 [Ex.D 1; Ex.Conn; Ex.D 3] (ConnectionData None) = Ok (AConn l) /\ length l = 4) /\
  (exists l, Ex.q KSfr6 [Ex.D 3] (ConnectionData None) = Ok (AConn l) /\ length l = 2) /\
  Ex.q KSfr6 [Ex.D 1; Ex.Conn; Ex.D 3] (PackageData None) = Err IndexError.
Proof.
  split; [vm_compute; reflexivity|]. split; [eexists; split; [vm_compute; reflexivity|reflexivity]|].
  split; [eexists; split; [vm_compute; reflexivity|reflexivity]|vm_compute; reflexivity].
Qed.

(** Sfr6: create_stream_vectors() between delineation and connectiondata: an exception when a
    stream ends outside the streams, wrong reach numbers otherwise *)
Theorem C58_vectors_break_sfr6_refuted :
  Ex.q KSfr6 [SetStreamArray [1; 1; 1; 0]%Z; CreateStreamVectors None true] (ConnectionData None) = Err TypeError /\
  (exists l, Ex.q KSfr6 [SetStreamArray [1; 1; 1; 0]%Z] (ConnectionData None) = Ok (AConn l)) /\
  (* reach number -1 *)
  (exists l x, Ex.q KSfr6 [Ex.D 1; CreateStreamVectors None true] (ConnectionData None) = Ok (AConn l) /\
     In ((-1)%Z :: x) l).
Proof.
  split; [vm_compute; reflexivity|]. split; [eexists; vm_compute; reflexivity|].
  eexists. eexists. split; [vm_compute; reflexivity|]. cbn. left. reflexivity.
Qed.

(** Sfr2005: after a new delineation segment_data and reach_data describe the previous streams,
    and irunbnd holds 1 (the delineation mark) instead of segment numbers *)
Theorem C58_sfr2005_stale_refuted :
  let h := [SetStreamArray [0; 0; 1; 0]%Z; Ex.Conn; SetStreamArray [1; 1; 1; 1]%Z] in
  (exists r1 r2, Ex.q KSfr2005 h (ReachData None true) = Ok (AReach r1) /\ length r1 = 1 /\
     Ex.q KSfr2005 [SetStreamArray [1; 1; 1; 1]%Z] (ReachData None true) = Ok (AReach r2) /\ length r2 = 4) /\
  Ex.q KSfr2005 [Ex.D 1; StreamConnectivity None false; Ex.D 1] (Irunbnd None None false) = Ok (AArray [1; 1; 1; 1]%Z) /\
  Ex.q KSfr2005 [Ex.D 1; StreamConnectivity None false] (Irunbnd None None false) = Ok (AArray [2; 3; 4; 4]%Z).
Proof.
  cbv zeta. split; [eexists _, _; repeat split; vm_compute; reflexivity|]. split; vm_compute; reflexivity.
Qed.

(** PrmsStreams: after a new delineation the stream segment of every cascade is 1 *)
Theorem C58_prms_stale_refuted :
  exists c1 c2,
    Ex.q KPrms [Ex.D 1; StreamConnectivity None false; Ex.D 1] (Cascades None None false false) = Ok (ACasc c1) /\
    Ex.q KPrms [Ex.D 1] (Cascades None None false false) = Ok (ACasc c2) /\
    (forall x, In x c1 -> snd x = 1%Z) /\ exists x, In x c2 /\ snd x = 4%Z.
Proof.
  eexists. eexists. split; [vm_compute; reflexivity|]. split; [vm_compute; reflexivity|]. split.
  - intros x Hx. cbn in Hx. repeat destruct Hx as [<-|Hx]; cbn; try easy.
  - eexists. split; [right; right; left; reflexivity|reflexivity].
Qed.
