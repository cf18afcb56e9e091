(** C101, C82: the arrays handed to the constructors of the pyGSFLOW objects are found under
    their names after write and read, in the same or in another process. *)
From Coq Require Import String List ZArith Lia.
From Verif Require Import MSave PropsSave.
Import ListNotations.
Set Implicit Arguments.
Unset Strict Implicit.
Local Notation length := List.length.
Local Open Scope list_scope.
Local Open Scope string_scope.

(** attribute [k] of an object *)
Definition attribute (o : obj) (k : string) : option val :=
  match find (fun a => String.eqb (fst a) k) (o_attrs o) with Some (_, v) => Some v | None => None end.
(** the content of the array stored as attribute [k] *)
Definition array_attr {cell} (h : list cell) (o : obj) (k : string) : option cell :=
  match attribute o k with Some (VRef r) => nth_error h r | _ => None end.

Lemma same_attr {cell} (h h' : list cell) o o' k : same_object h o h' o' ->
  match attribute o k with
  | Some (VInt z) => attribute o' k = Some (VInt z)
  | Some (VRef r) => forall c, nth_error h r = Some c -> array_attr h' o' k = Some c
  | None => attribute o' k = None
  end.
Proof.
  intros [_ [F _]]. unfold array_attr, attribute.
  induction F as [|[k1 v1] [k2 v2] l l' [E V] F IH]; cbn; auto. cbn in E. subst k2.
  destruct (String.eqb k1 k); [|exact IH]. clear IH. cbn in V. destruct v1, v2; cbn in *; try tauto; try congruence.
  intros c Hc. destruct V as [c' [V1 V2]]. congruence.
Qed.

Section RoundTrip.
  Variable cell : Type.
  Implicit Types (w : world cell).

  Lemma new_step w o : (forall k r, In (k, VRef r) (o_attrs o) -> r < length (w_heap w)) ->
    step w (ONew _ o) = (World (w_heap w) (w_objs w ++ [o]) (w_disk w), AObj (length (w_objs w))).
  Proof.
    intros H. destruct w as [h os d]. cbn in *. assert (F : forallb (ref_ok h) (o_attrs o) = true).
    { apply forallb_forall. intros [k [z|r]] Hin; cbn; auto. apply Nat.ltb_lt. eapply H; eauto. }
    now rewrite F.
  Qed.

  Lemma new_read_back w o p l : wf w -> (forall k r, In (k, VRef r) (o_attrs o) -> r < length (w_heap w)) ->
    forallb (fun x => negb (touches p x)) l = true ->
    let '(w1, a) := step w (ONew _ o) in
    exists i, a = AObj i /\
      let '(w2, a2) := step w1 (OWrite _ i p) in
      a2 = ADone /\
      let '(w3, a3) := step (run w2 l) (ORead _ p) in
      exists j o', a3 = AObj j /\ nth_error (w_objs w3) j = Some o' /\ same_object (w_heap w) o (w_heap w3) o'.
  Proof.
    intros W H F. rewrite (new_step H). exists (length (w_objs w)). split; auto.
    set (w1 := World (w_heap w) (w_objs w ++ [o]) (w_disk w)).
    assert (W1 : wf w1).
    { intros o' Ho k r Hr. cbn in Ho |- *. apply in_app_or in Ho. destruct Ho as [Ho|[<-|[]]]; [exact (W o' Ho k r Hr)|eapply H; eauto]. }
    assert (E : nth_error (w_objs w1) (length (w_objs w)) = Some o).
    { cbn. rewrite nth_error_app2 by lia. now rewrite Nat.sub_diag. }
    destruct (C101_saved_objects_read_back W1 E F) as [A [w3 [o' [R [N [S _]]]]]].
    destruct (step w1 (OWrite _ (length (w_objs w)) p)) as [w2 a2]. cbn [fst snd] in *. split; auto.
    rewrite R. eauto.
  Qed.

  (** C101: PygsflowCascades(...).write(p), later read(p) *)
  Theorem C101_cascades_arguments_read_back :
    forall w up down pct slope aspect area strm (c_up c_down c_pct c_slope c_aspect c_area c_strm : cell) size flag nsegments nreaches p l,
    wf w ->
    nth_error (w_heap w) up = Some c_up -> nth_error (w_heap w) down = Some c_down -> nth_error (w_heap w) pct = Some c_pct ->
    nth_error (w_heap w) slope = Some c_slope -> nth_error (w_heap w) aspect = Some c_aspect ->
    nth_error (w_heap w) area = Some c_area -> nth_error (w_heap w) strm = Some c_strm ->
    forallb (fun x => negb (touches p x)) l = true ->
    let '(w1, a) := step w (ONew _ (new_cascades size up down pct slope aspect area strm flag nsegments nreaches)) in
    exists i, a = AObj i /\
      let '(w2, a2) := step w1 (OWrite _ i p) in
      a2 = ADone /\
      let '(w3, a3) := step (run w2 l) (ORead _ p) in
      exists j o, a3 = AObj j /\ nth_error (w_objs w3) j = Some o /\ o_cls o = CCascades /\
        array_attr (w_heap w3) o "hru_up_id" = Some c_up /\ array_attr (w_heap w3) o "hru_down_id" = Some c_down /\
        array_attr (w_heap w3) o "hru_pct_up" = Some c_pct /\ array_attr (w_heap w3) o "hru_slope" = Some c_slope /\
        array_attr (w_heap w3) o "hru_aspect" = Some c_aspect /\ array_attr (w_heap w3) o "hru_area" = Some c_area /\
        array_attr (w_heap w3) o "hru_strmseg_down_id" = Some c_strm /\
        attribute o "ncascade" = Some (VInt (Z.of_nat size)) /\ attribute o "cascade_flag" = Some (VInt flag) /\
        attribute o "nsegments" = Some (VInt nsegments) /\ attribute o "nreaches" = Some (VInt nreaches) /\
        attribute o "dany_flag" = Some (VInt 1).
  Proof.
    intros w up down pct slope aspect area strm c_up c_down c_pct c_slope c_aspect c_area c_strm size flag nsegments nreaches p l
      W H1 H2 H3 H4 H5 H6 H7 F.
    set (o := new_cascades size up down pct slope aspect area strm flag nsegments nreaches).
    assert (R : forall k r, In (k, VRef r) (o_attrs o) -> r < length (w_heap w)).
    { intros k r Hin. apply nth_error_Some. unfold o in Hin. cbn in Hin.
      repeat (destruct Hin as [Hin|Hin]; [first [discriminate | injection Hin as _ <-; congruence]|]). destruct Hin. }
    assert (X := new_read_back (o := o) (p := p) (l := l) W R F).
    destruct (step w (ONew _ o)) as [w1 a]. destruct X as [i [Ea X]]. exists i. split; auto.
    destruct (step w1 (OWrite _ i p)) as [w2 a2]. destruct X as [Ea2 X]. split; auto.
    destruct (step (run w2 l) (ORead _ p)) as [w3 a3]. destruct X as [j [o' [Ea3 [N S]]]]. exists j, o'. split; auto. split; auto.
    split; [apply S|].
    repeat split; match goal with |- _ ?k = _ => let A := fresh in assert (A := same_attr k S); cbn in A; first [exact A | now apply A]
                                | |- _ _ ?k = _ => let A := fresh in assert (A := same_attr k S); cbn in A; first [exact A | now apply A] end.
  Qed.

  (** C101: the same for PygsflowStreams *)
  Theorem C101_streams_arguments_read_back :
    forall w reach_data segment_data irunbnd (c_reach c_seg c_irun : cell) p l,
    wf w ->
    nth_error (w_heap w) reach_data = Some c_reach -> nth_error (w_heap w) segment_data = Some c_seg ->
    nth_error (w_heap w) irunbnd = Some c_irun ->
    forallb (fun x => negb (touches p x)) l = true ->
    let '(w1, a) := step w (ONew _ (new_streams reach_data segment_data irunbnd)) in
    exists i, a = AObj i /\
      let '(w2, a2) := step w1 (OWrite _ i p) in
      a2 = ADone /\
      let '(w3, a3) := step (run w2 l) (ORead _ p) in
      exists j o, a3 = AObj j /\ nth_error (w_objs w3) j = Some o /\ o_cls o = CStreams /\
        array_attr (w_heap w3) o "reach_data" = Some c_reach /\ array_attr (w_heap w3) o "segment_data" = Some c_seg /\
        array_attr (w_heap w3) o "irunbnd" = Some c_irun /\ attribute o "dany_flag" = Some (VInt 1).
  Proof.
    intros w rd sd ir c1 c2 c3 p l W H1 H2 H3 F. set (o := new_streams rd sd ir).
    assert (R : forall k r, In (k, VRef r) (o_attrs o) -> r < length (w_heap w)).
    { intros k r Hin. apply nth_error_Some. unfold o in Hin. cbn in Hin.
      repeat (destruct Hin as [Hin|Hin]; [first [discriminate | injection Hin as _ <-; congruence]|]). destruct Hin. }
    assert (X := new_read_back (o := o) (p := p) (l := l) W R F).
    destruct (step w (ONew _ o)) as [w1 a]. destruct X as [i [Ea X]]. exists i. split; auto.
    destruct (step w1 (OWrite _ i p)) as [w2 a2]. destruct X as [Ea2 X]. split; auto.
    destruct (step (run w2 l) (ORead _ p)) as [w3 a3]. destruct X as [j [o' [Ea3 [N S]]]]. exists j, o'. split; auto. split; auto.
    split; [apply S|].
    repeat split; match goal with |- _ ?k = _ => let A := fresh in assert (A := same_attr k S); cbn in A; first [exact A | now apply A]
                                | |- _ _ ?k = _ => let A := fresh in assert (A := same_attr k S); cbn in A; first [exact A | now apply A] end.
  Qed.
End RoundTrip.

(** a case: seven arrays, a restart between write and read *)
Example C101_cascades_case :
  let w := run (World [] [] (fun _ => None)) (map (fun c => ONewArray c) [1; 2; 3; 4; 5; 6; 7]) in
  wf w /\ nth_error (w_heap w) 1 = Some 2 /\
  let w' := run w [ONew _ (new_cascades 9 0 1 2 3 4 5 6 1 2 3); OWrite _ 0 "c.bin"; ORestart _; ORead _ "c.bin"] in
  exists o, nth_error (w_objs w') 0 = Some o /\ array_attr (w_heap w') o "hru_down_id" = Some 2.
Proof.
  cbv zeta. split; [intros o []|]. split; [reflexivity|]. eexists. split; vm_compute; reflexivity.
Qed.
