(** C91: a threshold that no cell reaches.  What the builders return for a network without
    stream cells. *)
From Verif Require Import Py Spec MFlow MStream LStream LConn LSeg PropsStream.
Set Implicit Arguments.
Unset Strict Implicit.
Local Open Scope Z_scope.
Local Open Scope list_scope.

Lemma nonzero_none strm : Forall (fun z => z = 0) strm -> nonzero strm = [].
Proof.
  intros H. destruct (nonzero strm) as [|c l] eqn:E; auto. exfalso.
  assert (X : In c (nonzero strm)) by (rewrite E; now left). apply in_nonzero in X. destruct X as [Hc Hz].
  rewrite Forall_forall in H. apply Hz, H. now apply nth_In.
Qed.
Lemma positive_none strm : Forall (fun z => z = 0) strm -> where_ (fun z => 0 <? z) strm = [].
Proof.
  intros H. destruct (where_ (fun z => 0 <? z) strm) as [|c l] eqn:E; auto. exfalso.
  assert (X : In c (where_ (fun z => 0 <? z) strm)) by (rewrite E; now left). apply (in_where_nth _ _ _ 0) in X.
  destruct X as [Hc Hz]. rewrite Forall_forall in H. rewrite (H (nth c strm 0)) in Hz; [discriminate|now apply nth_In].
Qed.

(** a threshold above every accumulation value gives an array of zeros, and then: MODFLOW 6
    connectivity, connection data and package data are empty; MODFLOW-2005 connectivity,
    segment data and stream lines are empty and irunbnd is zero everywhere ... *)
Theorem C91_empty_network_tables : forall {T} (ge : T -> T -> bool) facc t fdir lim fuel,
  (forall a, In a facc -> ge a t = false) -> valid_fdir fdir -> length facc = length fdir ->
  exists strm, delineate_streams ge facc (Scalar t) None = Ok strm /\ Forall (fun z => z = 0) strm /\
    mf6_connectivity lim fdir strm = Ok (strm, []) /\
    connectiondata (some_graph []) = Ok [] /\ packagedata (some_graph []) strm = Ok [] /\
    (forall grouped, exists m, mf2005_connectivity lim fuel grouped fdir strm = Ok m /\
       m_strm m = strm /\ m_graph m = [] /\ m_seg m = [] /\ m_nsr m = [] /\
       segment_data (m_seg m) = [] /\
       stream_vectors (S fuel) (m_seg m) (m_nsr m) = Ok []) /\
    irunbnd fuel fdir strm = Ok strm.
Proof.
  intros T ge facc t fdir lim fuel H V L. exists (map (fun a => if ge a t then 1 else 0) facc).
  split; [reflexivity|].
  assert (Z0 : map (fun a => if ge a t then 1 else 0) facc = repeat 0 (length facc)).
  { clear L V. induction facc as [|a l IH]; auto. cbn [map length repeat]. rewrite H by now left. f_equal. apply IH. intros; apply H; now right. }
  rewrite Z0. set (strm := repeat 0 (length facc)).
  assert (FZ : Forall (fun z => z = 0) strm) by (apply Forall_forall; intros z Hz; now apply repeat_spec in Hz).
  assert (NZ := nonzero_none FZ). split; [exact FZ|].
  split; [unfold mf6_connectivity; rewrite NZ; reflexivity|]. split; [reflexivity|]. split; [reflexivity|]. split.
  - intros grouped. exists (Mf2005 strm [] [] []). split; [|repeat split; reflexivity].
    unfold mf2005_connectivity. rewrite NZ. cbn [node_graph foldM bind].
    assert (ARR : map (fun p : Z * Z => if fst p =? 0 then 0 else snd p) (combine strm (repeat 0 (length strm))) = strm).
    { unfold strm. clear. induction (length facc) as [|n IH]; auto. cbn [repeat length combine map fst snd Z.eqb]. f_equal. exact IH. }
    destruct grouped; cbn; rewrite ARR; reflexivity.
  - unfold irunbnd. rewrite (positive_none FZ). cbn [foldM bind]. unfold strm. now rewrite repeat_length.
Qed.

(** ... but reach_data raises IndexError: [basic_rec[0]] of an array without rows (lines 832-835) *)
Theorem C91_reach_data_refuted : forall {T} (ge : T -> T -> bool) facc t fdir lim fuel grouped ncol,
  (forall a, In a facc -> ge a t = false) -> valid_fdir fdir -> length facc = length fdir ->
  exists strm m, delineate_streams ge facc (Scalar t) None = Ok strm /\
    mf2005_connectivity lim fuel grouped fdir strm = Ok m /\
    reach_data ncol (m_seg m) (m_nsr m) = Err IndexError.
Proof.
  intros T ge facc t fdir lim fuel grouped ncol H V L.
  destruct (C91_empty_network_tables lim fuel H V L) as [strm [D [_ [_ [_ [_ [M _]]]]]]].
  destruct (M grouped) as [m [E [_ [_ [S [R _]]]]]]. exists strm, m. split; [exact D|]. split; [exact E|]. now rewrite S, R.
Qed.

(** ** Sfr6._detuple, 643-672, called by packagedata(detuple=True): the number of columns of
    the cell id (3, 2 or 1) is read off the first record *)
Definition detuple {A} (cellid : pkg -> list Z) (rows : pkg -> A) (recs : list pkg) : res (list (list Z * A)) :=
  r0 <- get recs 0 ;;
  Ok (map (fun r => (cellid r, rows r)) recs).
Theorem C91_detuple_refuted : forall A (cellid : pkg -> list Z) (rows : pkg -> A), detuple cellid rows [] = Err IndexError.
Proof. reflexivity. Qed.
Theorem C91_detuple_nonempty : forall A (cellid : pkg -> list Z) (rows : pkg -> A) recs, recs <> [] ->
  exists out, detuple cellid rows recs = Ok out /\ length out = length recs.
Proof.
  intros A cellid rows [|r recs] H; [congruence|]. eexists. split; [reflexivity|]. now rewrite map_length.
Qed.
(** any network with a segment and records gets through reach_data's array step *)
Module Ex.
  Example empty_case := @C91_empty_network_tables Z Z.geb [3; 2; 1; 1] 10 [0; 0; 1; 1] 10 10
    ltac:(intros a Ha; repeat destruct Ha as [<-|Ha]; try reflexivity; destruct Ha)
    ltac:(unfold valid_fdir; repeat constructor; lia) eq_refl.
End Ex.
