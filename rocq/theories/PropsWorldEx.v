(** Concrete sessions for C94-C98: a line of four cells, whole-number elevations. *)
From Verif Require Import Py MFlow MDir MObj MStream MSobj MWorld LWorld3 LWorld5 PropsWorld PropsWorld2 PropsWorld3 LSum.
Local Open Scope nat_scope.
Local Open Scope list_scope.

Definition zquot (a b : Z) : option Z := if (b =? 0)%Z then None else Some (a * 100 / b)%Z.
Definition zvge (a b : Z + Z) : bool := match a, b with inl x, inl y => (y <=? x)%Z | inr x, inr y => (y <=? x)%Z | _, _ => false end.
Definition zdist (a b : nat) : Z := 1%Z.
Definition znb : list (list nat) := [[1]; [0; 2]; [1; 3]; [2]].
Definition zareas : list Z := [10; 10; 10; 10]%Z.
Notation zstep := (@step Z Z Z.sub (fun a _ => a) Z.ltb Z.eqb 0%Z 1000%Z Z.add 0%Z 1%Z Z.abs (np_sum Z.add 0%Z) zquot (fun x => (x <=? 0)%Z)
  (fun x => (1 <? x)%Z) zvge 50 50 4%Z zdist zareas znb 0%Z).
Notation zrun := (@run Z Z Z.sub (fun a _ => a) Z.ltb Z.eqb 0%Z 1000%Z Z.add 0%Z 1%Z Z.abs (np_sum Z.add 0%Z) zquot (fun x => (x <=? 0)%Z)
  (fun x => (1 <? x)%Z) zvge 50 50 4%Z zdist zareas znb 0%Z).
Notation zreply := (@reply Z Z Z.sub (fun a _ => a) Z.ltb Z.eqb 0%Z 1000%Z Z.add 0%Z 1%Z Z.abs (np_sum Z.add 0%Z) zquot (fun x => (x <=? 0)%Z)
  (fun x => (1 <? x)%Z) zvge 50 50 4%Z zdist zareas znb 0%Z).
Notation zhonest := (@honest Z Z Z.sub (fun a _ => a) Z.ltb Z.eqb 0%Z 1000%Z Z.add 0%Z 1%Z Z.abs (np_sum Z.add 0%Z) zquot (fun x => (x <=? 0)%Z)
  (fun x => (1 <? x)%Z) zvge 50 50 4%Z zdist zareas znb 0%Z).
Notation zhistory := (@stream_history Z Z Z.sub (fun a _ => a) Z.ltb Z.eqb 0%Z 1000%Z Z.add 0%Z 1%Z Z.abs (np_sum Z.add 0%Z) zquot (fun x => (x <=? 0)%Z)
  (fun x => (1 <? x)%Z) zvge 50 50 4%Z zdist zareas znb 0%Z).

(** two DEMs, both falling to the right; each is filled in, directed and accumulated, then a
    stream object of class [k] is made *)
Definition dem1 : list (option Z) := [Some 9; Some 5; Some 3; Some 1]%Z.
Definition dem2 : list (option Z) := [Some 90; Some 50; Some 30; Some 10]%Z.
Definition prepare (d : list (option Z)) (r i : nat) : list (@cmd Z Z) :=
  [New (CElevs d); NewFlow r true; FlowCall i (WFlowDirections 0%Z []); FlowCall i (WAccumulation true)].
Definition first : list (@cmd Z Z) := prepare dem1 0 0.
Definition delin (j : nat) : @cmd Z Z := StreamCall j (WDelineate (inl (inl 2%Z)) None).

(** the session of the examples: two FlowDirections objects; a stream object on the first, which
    delineates; then one on the second *)
Definition session : list (@cmd Z Z) :=
  first ++ [NewStreams KSfr6 0; delin 0] ++ prepare dem2 8 1 ++ [NewStreams KSfr6 1].
Definition end_world : @world Z Z := zrun (@empty_world Z Z) session.

Ltac by_play := match goal with |- zhonest ?cs ?w ?k =>
  apply (@play_honest Z Z Z.sub (fun a _ => a) Z.ltb Z.eqb 0%Z 1000%Z Z.add 0%Z 1%Z Z.abs (np_sum Z.add 0%Z) zquot (fun x => (x <=? 0)%Z)
           (fun x => (1 <? x)%Z) zvge 50 50 4%Z zdist zareas znb 0%Z cs [] (@empty_world Z Z) [] w k);
  [constructor|vm_compute; reflexivity] end.

Example session_honest : zhonest session end_world [0; 3; 4; 7; 8; 11; 12].
Proof. by_play. Qed.

(** ** C97 refuted: stream object 0 was made from FlowDirections object 0, whose elevations are
    still [dem1], but the elevations in its package data are those of [dem2] *)
Theorem C97_records_show_the_own_dem_refuted :
  exists cs w known j s c r a tops,
    zhonest cs w known /\ nth_error (w_streams w) j = Some s /\
    zreply w (FlowCall (s_fa s) WDem) = Ok (ARef r) /\ nth_error (w_heap w) r = Some (CElevs dem1) /\
    zreply w (StreamCall j c) = Ok (ALevels a tops) /\ tops_from dem1 a <> Some tops.
Proof.
  exists session, end_world, [0; 3; 4; 7; 8; 11; 12], 0.
  eexists _, (WPackageData None), 2, _, _. split; [apply session_honest|]. split; [vm_compute; reflexivity|].
  split; [vm_compute; reflexivity|]. split; [vm_compute; reflexivity|].
  split; [vm_compute; reflexivity|]. vm_compute. discriminate.
Qed.

(** hypotheses of C97_records_show_the_last_dem *)
Example C97_last_dem_nonvacuous :
  exists cs1 k i cs2 w known r a tops,
    zhonest (cs1 ++ NewStreams k i :: cs2) w known /\ (forall k' i', ~ In (NewStreams k' i') cs2) /\
    zreply (zrun (@empty_world Z Z) cs1) (FlowCall i WDem) = Ok (ARef r) /\
    nth_error (w_heap (zrun (@empty_world Z Z) cs1)) r = Some (CElevs dem2) /\
    zreply w (StreamCall 0 (WPackageData None)) = Ok (ALevels a tops) /\ length tops = 3.
Proof.
  exists (first ++ [NewStreams KSfr6 0; delin 0] ++ prepare dem2 8 1), KSfr6, 1, [], end_world, [0; 3; 4; 7; 8; 11; 12].
  eexists 10, _, _. split; [apply session_honest|]. split; [intros k' i' []|]. split; [vm_compute; reflexivity|].
  split; [vm_compute; reflexivity|]. split; vm_compute; reflexivity.
Qed.

(** ** C95: stream object 0, with everything that happens to it and around it: an edit of the
    user's own first elevations, new flow directions on its FlowDirections object, another object *)
Definition before : @world Z Z := zrun (@empty_world Z Z) first.
Definition after : list (@cmd Z Z) :=
  [delin 0; Edit 0 (SetElev 1%Z (Some 100%Z)); FlowCall 0 (WFlowDirections 3%Z [])] ++ prepare dem2 9 1 ++
  [NewStreams KSfr6 1; StreamCall 0 (WConnectivity None false)].

Example C95_history :
  zreply before (NewStreams KSfr6 0) = Ok ANothing /\
  zhistory 0 (fst (zstep before (NewStreams KSfr6 0))) after
           [DelineateStreams (Scalar (inl 2%Z)) None; StreamConnectivity None false].
Proof.
  split; [vm_compute; reflexivity|].
  set (w0 := fst (zstep before (NewStreams KSfr6 0))). vm_compute in w0. subst w0.
  unfold after, delin, prepare. simpl app.
  eapply (@sh_call Z Z); [vm_compute; auto|].
  eapply (@sh_other Z Z); [intros c'; discriminate| |].
  { intros r e s X E H. inversion X; subst. vm_compute in E. inversion E; subst. vm_compute in H.
    repeat (destruct H as [H|H]; try discriminate H). }
  repeat (eapply (@sh_other Z Z); [intros c'; discriminate|intros r e s X; discriminate X|]).
  eapply (@sh_call Z Z); [vm_compute; auto|]. apply sh_nil.
Qed.

(** the answer in the session is that of the lone object, and it is not empty *)
Example C95_answer :
  exists g, zreply (zrun (fst (zstep before (NewStreams KSfr6 0))) after) (StreamCall 0 (WConnectionData None)) =
            Ok (APlain (AConn g)) /\ length g = 3.
Proof. eexists. split; vm_compute; reflexivity. Qed.

(** ** C96: writing into an array that a call returned *)
Example C96_edit_is_possible :
  exists w1 r w2, zstep end_world (FlowCall 0 WFlowDirectionArray) = (w1, Ok (ARef r)) /\
    zstep w1 (Edit r (SetInt 0%Z 3%Z)) = (w2, Ok ANothing).
Proof. eexists _, _, _. split; vm_compute; reflexivity. Qed.

(** ** C98 *)
Lemma summed_zsum h l x : summed Z.add 0%Z h l x -> x = fold_right Z.add 0%Z l.
Proof.
  assert (AP : forall a b, fold_right Z.add 0%Z (a ++ b) = (fold_right Z.add 0%Z a + fold_right Z.add 0%Z b)%Z).
  { induction a as [|y a IH]; intros b; simpl; [reflexivity|]. rewrite IH. lia. }
  assert (PE : forall a b, Permutation.Permutation a b -> fold_right Z.add 0%Z a = fold_right Z.add 0%Z b) by (induction 1; simpl in *; lia).
  induction 1 as [|h x|h l1 l2 l x y H1 IH1 H2 IH2 P]; simpl; [reflexivity|lia|]. rewrite <- (PE _ _ P), AP. lia.
Qed.
Example C98_laws : laws (fun a _ => a) Z.ltb 0%Z 1000%Z Z.abs (np_sum Z.add 0%Z) zquot (fun x => (x <=? 0)%Z) (fun x => (1 <? x)%Z) zdist znb
  (fun _ => True).
Proof.
  constructor; auto.
  - intros xs ys _ D _ y _. f_equal. rewrite !(summed_zsum _ _ _ (np_sum_adds_all Z.add 0%Z _)).
    induction D; simpl in *; lia.
  - intros t. unfold zquot. destruct (t =? 0)%Z; auto.
  - intros c n x _ H. left. apply Z.leb_gt. now apply Z.ltb_lt.
Qed.

(** cells 1 and 2 form a step of height 1, which the threshold 2 burns *)
Definition dem3 : list (option Z) := [Some 9; Some 5; Some 6; Some 1]%Z.
Definition prms : list (@cmd Z Z) :=
  [New (CElevs dem3); NewFlow 0 true; FlowCall 0 (WFlowDirections 2%Z []); FlowCall 0 (WAccumulation true);
   NewStreams KPrms 0; StreamCall 0 (WDelineate (inl (inl 4%Z)) None); StreamCall 0 (WCascades None None true false);
   FlowCall 0 (WFlowDirections 0%Z [])].
Example C98_cascades :
  nth_error (w_flows (zrun (@empty_world Z Z) prms)) 0 <> nth_error (w_flows (zrun (@empty_world Z Z) (firstn 6 prms))) 0 /\
  exists c, zreply (zrun (@empty_world Z Z) (firstn 6 prms)) (StreamCall 0 (WCascades None None true false)) = Ok (APlain (ACasc c)) /\
    zreply (zrun (@empty_world Z Z) prms) (StreamCall 0 (WCascades None None true false)) = Ok (APlain (ACasc c)).
Proof. split; [vm_compute; discriminate|]. eexists. split; vm_compute; reflexivity. Qed.
