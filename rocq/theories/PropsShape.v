(** C104, C105: rows and columns of two-dimensional arrays and of the tables. *)
From Verif Require Import Py Spec MFlow MStream LGraph LStream LConn LSeg LSeg2 LSeg3 LSeg4 LReach PropsStream PropsSeg PropsReach PropsRun MShape.
From Coq Require Import Lia Permutation.
Set Implicit Arguments.
Unset Strict Implicit.
Local Open Scope nat_scope.
Local Open Scope list_scope.

(** ** Specification: an array of [nrow] rows and [ncol] columns; its entry in row [i], column [j] *)
Definition shaped {A} (nrow ncol : nat) (a : list (list A)) : Prop :=
  length a = nrow /\ forall row, In row a -> length row = ncol.
Definition entry {A} (a : list (list A)) (i j : nat) : option A :=
  match nth_error a i with Some row => nth_error row j | None => None end.
(** cell (i, j) of the mask is a stream cell *)
Definition stream_at (a : list (list Z)) (i j : nat) : Prop := exists v, entry a i j = Some v /\ v <> 0%Z.

Section Shape.
  Variables nrow ncol : nat.

  Lemma ravel_length {A} (a : list (list A)) n : length a = n -> (forall row, In row a -> length row = ncol) -> length (ravel a) = n * ncol.
  Proof.
    revert n. induction a as [|r a IH]; intros n L H; simpl in *; subst; auto. unfold ravel in *. simpl. rewrite app_length, (IH (length a)) by auto.
    rewrite (H r) by auto. reflexivity.
  Qed.
  (** NumPy's C order: entry (i, j) is number [i * ncol + j] *)
  Lemma ravel_entry {A} (a : list (list A)) n i j : length a = n -> (forall row, In row a -> length row = ncol) -> i < n -> j < ncol ->
    nth_error (ravel a) (i * ncol + j) = entry a i j.
  Proof.
    revert n i. induction a as [|r a IH]; intros n i L H Hi Hj; simpl in *; [lia|]. unfold ravel, entry in *. destruct i as [|i].
    - simpl. rewrite nth_error_app1; auto. rewrite (H r); auto.
    - simpl. assert (R : length r = ncol) by auto. rewrite nth_error_app2 by lia. rewrite R. replace (ncol + i * ncol + j - ncol) with (i * ncol + j) by lia.
      apply (IH (length a)); auto. lia.
  Qed.
  Lemma chunks_ravel {A} : forall n (l : list A), length l = n * ncol -> ravel (chunks ncol n l) = l.
  Proof.
    induction n as [|n IH]; intros l L; simpl in *; [destruct l; auto; discriminate|]. unfold ravel in *. simpl. rewrite IH.
    - apply firstn_skipn.
    - rewrite skipn_length. lia.
  Qed.
  Lemma chunks_shape {A} : forall n (l : list A), length l = n * ncol ->
    length (chunks ncol n l) = n /\ forall row, In row (chunks ncol n l) -> length row = ncol.
  Proof.
    induction n as [|n IH]; intros l L; simpl in *; [split; auto; tauto|]. destruct (IH (skipn ncol l)) as [A1 A2]; [rewrite skipn_length; lia|].
    split; [lia|]. intros row [<-|H]; auto. apply firstn_length_le. lia.
  Qed.
  Lemma reshape_ravel {A} (a : list (list A)) : shaped nrow ncol a -> reshape nrow ncol (ravel a) = Ok a.
  Proof.
    intros [L H]. unfold reshape. rewrite (ravel_length L H), Nat.eqb_refl. f_equal. clear - L H. revert nrow L.
    induction a as [|r a IH]; intros nr L; simpl in *; subst nr; auto. simpl. unfold ravel. simpl.
    assert (R : length r = ncol) by auto. rewrite firstn_app, skipn_app, R, Nat.sub_diag. simpl.
    rewrite firstn_all2, skipn_all2, app_nil_r by lia. simpl. f_equal. apply (IH ltac:(auto)). reflexivity.
  Qed.
  Lemma set_shaped a : shaped nrow ncol a -> set_stream_array nrow ncol a = Ok a.
  Proof.
    intros S. unfold set_stream_array. destruct S as [L H]. rewrite (ravel_length L H), Nat.eqb_refl. apply reshape_ravel. split; auto.
  Qed.

  (** flopy's numbering *)
  Lemma lrc_cell i j : i < nrow -> j < ncol -> get_lrc nrow ncol (i * ncol + j) = (0, i, j).
  Proof.
    intros Hi Hj. unfold get_lrc. assert (B : i * ncol + j < nrow * ncol) by nia.
    rewrite (Nat.div_small _ _ B), (Nat.mod_small _ _ B). rewrite Nat.div_add_l by lia. rewrite (Nat.div_small j) by auto.
    replace ((i * ncol + j) mod ncol) with j; [f_equal; f_equal; lia|].
    symmetry. rewrite (Nat.add_comm (i * ncol)), Nat.mod_add by lia. now apply Nat.mod_small.
  Qed.
  Lemma cell_split n : n < nrow * ncol -> exists i j, i < nrow /\ j < ncol /\ n = i * ncol + j.
  Proof.
    intros H. assert (Z : ncol <> 0) by (intros ->; lia). exists (n / ncol), (n mod ncol). split; [|split].
    - apply Nat.div_lt_upper_bound; lia.
    - now apply Nat.mod_upper_bound.
    - rewrite Nat.mul_comm. now apply Nat.div_mod.
  Qed.

  Theorem C104_cell_ids_and_nodes_agree :
    (forall n, n < nrow * ncol -> get_node nrow ncol (get_lrc nrow ncol n) = n) /\
    (forall i j, i < nrow -> j < ncol -> get_lrc nrow ncol (get_node nrow ncol (0, i, j)) = (0, i, j)).
  Proof.
    split.
    - intros n H. destruct (cell_split H) as (i & j & Hi & Hj & ->). rewrite lrc_cell by auto. unfold get_node. lia.
    - intros i j Hi Hj. unfold get_node. simpl. now apply lrc_cell.
  Qed.

  (** what set_stream_array got is what stream_array returns, entry by entry *)
  Theorem C104_stream_array_keeps_its_entries a : shaped nrow ncol a -> set_stream_array nrow ncol a = Ok a.
  Proof. apply set_shaped. Qed.

  (** the MODFLOW 6 package data: one record with cell id (0, i, j) for every stream cell in row
      i, column j, and no others *)
  Theorem C104_packagedata_cell_ids lim fdir a recs :
    shaped nrow ncol a -> valid_fdir fdir -> length fdir = nrow * ncol ->
    packagedata2 nrow ncol lim fdir a = Ok recs ->
    NoDup (map fst recs) /\
    (forall k i j, In (k, i, j) (map fst recs) -> k = 0 /\ i < nrow /\ j < ncol /\ stream_at a i j) /\
    (forall i j, i < nrow -> j < ncol -> stream_at a i j -> In (0, i, j) (map fst recs)).
  Proof.
    intros S V LF E. unfold packagedata2 in E. rewrite (set_shaped S) in E. cbn [bind] in E.
    pose proof S as [SL SH]. pose proof (ravel_length SL SH) as LR. set (strm := ravel a) in *.
    apply bind_ok in E. destruct E as (pk & Ep & E). injection E as <-. unfold packagedata_stored in Ep.
    apply bind_ok in Ep. destruct Ep as ([s2 g] & Em & Ep). cbn beta iota in Ep.
    assert (L : length strm = length fdir) by congruence.
    destruct (@C34_reaches_number_the_cells _ _ _ _ _ V L Em) as (Q1 & Q2 & Q3 & Q4 & Q5 & Q6).
    destruct (@C40_packagedata _ _ _ _ _ V L Em) as (conn & pk' & Ec & Ep' & L1 & L2 & R). rewrite Ep in Ep'. injection Ep' as <-.
    set (lrc := fun p : pkg => get_lrc nrow ncol (p_node p)).
    assert (M : map fst (map (fun p => (get_lrc nrow ncol (p_node p), p)) pk) = map lrc pk) by (rewrite map_map; reflexivity).
    rewrite M. clear M.
    assert (NZ : forall p, In p pk -> p_node p < nrow * ncol /\ nth_error strm (p_node p) <> Some 0%Z).
    { intros p Hp. apply In_nth_error in Hp. destruct Hp as [i Hi]. destruct (R i p Hi) as (_ & P2 & _).
      assert (i < length pk) by (apply nth_error_Some; congruence). split.
      - rewrite <- LR, <- Q1. apply nth_error_Some. congruence.
      - intros X. apply Q4 in X. rewrite X in P2. injection P2. lia. }
    split; [|split].
    - apply NoDup_nth_error. intros i j Hi Ej. rewrite map_length in Hi. rewrite !nth_error_map in Ej.
      destruct (nth_error pk i) as [p|] eqn:Ei; [|apply nth_error_None in Ei; lia].
      destruct (nth_error pk j) as [q|] eqn:Eq; [|discriminate]. cbn [option_map] in Ej. assert (Ej' : lrc p = lrc q) by congruence. clear Ej. rename Ej' into Ej.
      assert (P : p_node p = p_node q).
      { destruct C104_cell_ids_and_nodes_agree as [C _]. unfold lrc in Ej.
        rewrite <- (C (p_node p)) by (apply (NZ p); eapply nth_error_In; eauto).
        rewrite <- (C (p_node q)) by (apply (NZ q); eapply nth_error_In; eauto). now rewrite Ej. }
      destruct (R i p Ei) as (_ & A & _). destruct (R j q Eq) as (_ & B & _). rewrite P, B in A. injection A. lia.
    - intros k i j Hin. apply in_map_iff in Hin. destruct Hin as (p & Hp & Hin). destruct (NZ p Hin) as [B Z].
      destruct (cell_split B) as (i' & j' & Hi & Hj & En). unfold lrc in Hp. rewrite En, lrc_cell in Hp by auto. injection Hp as <- <- <-.
      repeat split; auto. rewrite En in Z, B. unfold strm in Z. rewrite (ravel_entry SL SH Hi Hj) in Z.
      destruct (entry a i' j') as [v|] eqn:Ev.
      + exists v. split; auto. congruence.
      + exfalso. rewrite <- (ravel_entry SL SH Hi Hj) in Ev. apply nth_error_None in Ev. fold strm in Ev. lia.
    - intros i j Hi Hj (v & Ev & Hv). rewrite <- (ravel_entry SL SH Hi Hj) in Ev. fold strm in Ev.
      assert (B : i * ncol + j < length strm) by (apply nth_error_Some; congruence).
      destruct (Q3 (i * ncol + j) B) as (r & Hr & Er); [rewrite Ev; congruence|].
      assert (Hx : Z.to_nat (r - 1) < length pk) by lia. apply nth_error_Some in Hx.
      destruct (nth_error pk (Z.to_nat (r - 1))) as [p|] eqn:Ep0; [|congruence]. destruct (R _ p Ep0) as (_ & A & _).
      replace (Z.of_nat (Z.to_nat (r - 1) + 1)) with r in A by lia. destruct (Q2 r Hr) as (c & _ & U).
      assert (p_node p = i * ncol + j) by (rewrite (U _ A), (U _ Er); reflexivity).
      apply in_map_iff. exists p. split; [|eapply nth_error_In; eauto]. unfold lrc. rewrite H. now apply lrc_cell.
  Qed.

  (** ... also after the tuples are split into columns *)
  Theorem C104_detuple_refuses_no_records recs : detuple2 recs = Err IndexError <-> recs = [].
  Proof. destruct recs; split; try discriminate; reflexivity. Qed.

  Theorem C104_detuple_keeps_records recs out : detuple2 recs = Ok out ->
    map (fun r => let '(n, k, i, j, p) := r in ((k, i, j), p)) out = recs.
  Proof.
    unfold detuple2. destruct recs as [|r recs]; [discriminate|]. intros E. injection E as <-. simpl.
    destruct r as [[[k i] j] p]. f_equal. induction recs as [|[[[k' i'] j'] p'] recs IH]; simpl; auto. now rewrite IH.
  Qed.

  (** the MODFLOW-2005 reach data: columns i, j and node name one and the same stream cell, no
      cell occurs twice, and every stream cell that does not lie on a closed ring occurs *)
  Theorem C104_reach_data_rows_and_columns lim fuel fdir a recs :
    shaped nrow ncol a -> valid_fdir fdir -> length fdir = nrow * ncol -> length fdir <= fuel ->
    reach_data2 nrow ncol lim fuel true fdir a = Ok recs ->
    NoDup (map (fun r => (r_i r, r_j r)) recs) /\
    (forall r, In r recs -> exists i j, i < nrow /\ j < ncol /\ stream_at a i j /\
       r_i r = Z.of_nat i /\ r_j r = Z.of_nat j /\ r_node r = Z.of_nat (i * ncol + j)) /\
    (forall i j, i < nrow -> j < ncol -> stream_at a i j -> ~ closed_ring fdir (ravel a) (i * ncol + j) ->
       In (Z.of_nat i, Z.of_nat j) (map (fun r => (r_i r, r_j r)) recs)).
  Proof.
    intros S V LF Hf E. unfold reach_data2 in E. rewrite (set_shaped S) in E. cbn [bind] in E.
    pose proof S as [SL SH]. pose proof (ravel_length SL SH) as LR. set (strm := ravel a) in *.
    apply bind_ok in E. destruct E as (m & Em & Er). assert (L : length strm = length fdir) by congruence.
    assert (NE : recs <> []).
    { intros ->. unfold reach_data in Er. apply bind_ok in Er. destruct Er as ([[x y] z] & _ & Er). cbn beta iota in Er.
      apply bind_ok in Er. destruct Er as (l & _ & Er). destruct l; discriminate. }
    destruct (@C42_segments_partition_the_streams _ _ _ _ _ V L Hf Em) as (P1 & P2 & P3 & _).
    destruct (Nat.eq_dec ncol 0) as [Z0|NZ].
    { exfalso. destruct recs as [|r recs]; [congruence|]. 
      assert (length strm = 0) by (rewrite LR, Z0; lia). clear - Em Er H P1 V L Hf.
      unfold reach_data in Er. apply bind_ok in Er. destruct Er as ([[x y] z] & Ef & Er). cbn beta iota in Er.
      assert (Nr : m_nsr m = []).
      { destruct (m_nsr m) as [|[[n s] q] t] eqn:En; auto. destruct (P1 n s q (or_introl eq_refl)) as (c & _ & Hc).
        destruct Hc as (v & Hc & _). exfalso. assert (c < length strm) by (apply nth_error_Some; congruence). lia. }
      assert (Fold : forall items st, foldM (seg_records (Z.of_nat ncol) (m_nsr m)) items st = Ok (x, y, z) -> x = fst (fst st)).
      { rewrite Nr. induction items as [|[i o] items IH]; intros st; simpl.
        - intros X. injection X as ->. reflexivity.
        - intros X. apply bind_ok in X. destruct X as (st' & X1 & X2). apply IH in X2. rewrite X2. clear - X1.
          destruct st as [[r1 r2] r3]. unfold seg_records in X1. destruct (i =? 0)%Z; [injection X1 as <-; auto|]. simpl in X1. injection X1 as <-. auto. }
      apply Fold in Ef. simpl in Ef. subst x. simpl in Er. discriminate. }
    destruct (@C48_reach_data fdir strm lim fuel true m (Z.of_nat ncol) recs V L Hf ltac:(lia) Em Er) as (A1 & _ & _ & A4).
    assert (Cell : forall r, In r recs -> exists i j, i < nrow /\ j < ncol /\ stream_at a i j /\
       r_i r = Z.of_nat i /\ r_j r = Z.of_nat j /\ r_node r = Z.of_nat (i * ncol + j)).
    { intros r Hr. destruct (A4 r Hr) as [B1 B2].
      assert (Hrow : In (reach_row r) (m_nsr m)) by (eapply Permutation_in; [exact A1|now apply in_map]).
      unfold reach_row in Hrow. destruct (P1 _ _ _ Hrow) as (c & Hc & Sc). 
      assert (Bc : c < nrow * ncol) by (destruct Sc as (v & Sc & _); rewrite <- LR; apply nth_error_Some; congruence).
      destruct (cell_split Bc) as (i & j & Hi & Hj & ->). exists i, j. rewrite Hc in B1.
      assert (r_j r = Z.of_nat j /\ r_i r = Z.of_nat i).
      { assert (X : (Z.of_nat (i * ncol + j) = Z.of_nat ncol * r_i r + r_j r)%Z) by lia.
        assert (Y : (Z.of_nat (i * ncol + j) = Z.of_nat ncol * Z.of_nat i + Z.of_nat j)%Z) by lia.
        destruct (Z.div_mod_unique (Z.of_nat ncol) (r_i r) (Z.of_nat i) (r_j r) (Z.of_nat j)) as [U1 U2]; try lia. }
      destruct H as [H1 H2]. split; [auto|]. split; [auto|]. split; [|auto].
      destruct Sc as (v & Sc & Hv). exists v. split; auto. rewrite <- (ravel_entry SL SH Hi Hj). exact Sc. }
    split; [|split; [exact Cell|]].
    - assert (ND : NoDup (map r_node recs)).
      { assert (X : map r_node recs = map (fun row : Z * Z * Z => fst (fst row)) (map reach_row recs)) by (rewrite map_map; reflexivity).
        rewrite X. eapply Permutation_NoDup; [|exact P2]. apply Permutation_map. now symmetry. }
      assert (X : map r_node recs = map (fun q : Z * Z => fst q * Z.of_nat ncol + snd q)%Z (map (fun r => (r_i r, r_j r)) recs)).
      { rewrite map_map. apply map_ext_in. intros r Hr. apply A4 in Hr. simpl. tauto. }
      rewrite X in ND. eapply NoDup_map_inv; eauto.
    - intros i j Hi Hj (v & Ev & Hv) Nr. rewrite <- (ravel_entry SL SH Hi Hj) in Ev. fold strm in Ev, Nr.
      assert (Sc : stream_cell strm (i * ncol + j)) by (exists v; auto).
      destruct (proj2 (P3 _ Sc) Nr) as (s & q & Hin). apply (Permutation_in _ (Permutation_sym A1)) in Hin.
      apply in_map_iff in Hin. destruct Hin as (r & Hr & Hin). unfold reach_row in Hr. injection Hr as Hr _ _.
      destruct (Cell r Hin) as (i' & j' & Hi' & Hj' & _ & E1 & E2 & E3). rewrite Hr in E3. apply Nat2Z.inj in E3.
      assert (i = i' /\ j = j').
      { destruct (Nat.div_mod_unique ncol i i' j j') as [U1 U2]; try lia. }
      destruct H as [-> ->]. apply in_map_iff. exists r. split; auto. now rewrite E1, E2.
  Qed.

  (** irunbnd: entry (i, j) of the result is the label of the cell in row i, column j *)
  Theorem C104_irunbnd_rows_and_columns fuel fdir a :
    shaped nrow ncol a -> valid_fdir fdir -> length fdir = nrow * ncol -> length fdir < fuel ->
    exists out, irunbnd2 nrow ncol fuel fdir a = Ok out /\ shaped nrow ncol out /\
      forall i j, i < nrow -> j < ncol ->
        exists v, entry out i j = Some v /\
          (v <> 0%Z <-> exists i' j' w, i' < nrow /\ j' < ncol /\ entry a i' j' = Some w /\ (0 < w)%Z /\
                          flows_through fdir (i * ncol + j) (i' * ncol + j')).
  Proof.
    intros S V LF Hf. pose proof S as [SL SH]. pose proof (ravel_length SL SH) as LR.
    assert (L : length (ravel a) = length fdir) by congruence.
    destruct (@C50_irunbnd_covers_draining_cells fdir (ravel a) V L fuel Hf) as (out & E & Lo & H).
    assert (Lo' : length out = nrow * ncol) by congruence.
    exists (chunks ncol nrow out). unfold irunbnd2. rewrite E. cbn [bind]. unfold reshape. rewrite Lo', Nat.eqb_refl. split; [reflexivity|].
    destruct (chunks_shape Lo') as [C1 C2]. split; [split; auto|]. intros i j Hi Hj.
    assert (B : i * ncol + j < nrow * ncol) by nia.
    exists (nth (i * ncol + j) out 0%Z). split.
    - rewrite <- (ravel_entry C1 C2 Hi Hj), (chunks_ravel Lo'). apply nth_error_nth'. lia.
    - destruct (H (i * ncol + j) ltac:(lia)) as [H1 _]. rewrite H1. split.
      + intros (s & (w & Hs & Hw) & F). assert (Bs : s < nrow * ncol) by (rewrite <- LR; apply nth_error_Some; congruence).
        destruct (cell_split Bs) as (i' & j' & Hi' & Hj' & ->). exists i', j', w. rewrite <- (ravel_entry SL SH Hi' Hj'). auto.
      + intros (i' & j' & w & Hi' & Hj' & Hw & Pw & F). exists (i' * ncol + j'). split; auto. exists w. split; auto.
        rewrite (ravel_entry SL SH Hi' Hj'). auto.
  Qed.
End Shape.

(** ** C105: only the number of entries is checked *)
Theorem C105_wrong_size_refused nrow ncol a : length (ravel a) <> nrow * ncol -> set_stream_array nrow ncol a = Err ValueError.
Proof. intros H. unfold set_stream_array. apply Nat.eqb_neq in H. now rewrite H. Qed.

(** any array of the right size is taken, in the order of its entries *)
Theorem C105_taken_in_order nrow ncol a : length (ravel a) = nrow * ncol ->
  exists b, set_stream_array nrow ncol a = Ok b /\ dem_property nrow ncol a = Ok b /\ shaped nrow ncol b /\ ravel b = ravel a.
Proof.
  intros H. exists (chunks ncol nrow (ravel a)). unfold set_stream_array, dem_property, reshape. rewrite H, Nat.eqb_refl.
  repeat split; try (apply (chunks_shape H)). now apply chunks_ravel.
Qed.

(** C105 is false: on every grid with at least two rows and columns and more rows than columns or
    the reverse, a transposed array is accepted and its cells end up elsewhere: here the cell in
    row 0, column 1 is a stream cell of the mask, which is given with rows and columns exchanged *)
Theorem C105_transposed_accepted_refuted nrow ncol : 2 <= nrow -> 2 <= ncol -> nrow <> ncol ->
  exists a b, shaped ncol nrow a /\ set_stream_array nrow ncol a = Ok b /\ dem_property nrow ncol a = Ok b /\
    entry a 1 0 = Some 1%Z /\ entry b 0 1 = Some 0%Z.
Proof.
  intros H1 H2 _. set (z := repeat 0%Z nrow). set (o := 1%Z :: repeat 0%Z (nrow - 1)).
  set (a := z :: o :: repeat z (ncol - 2)).
  assert (S : shaped ncol nrow a).
  { unfold a. split; [simpl; rewrite repeat_length; lia|]. intros row [<-|[<-|Hr]].
    - apply repeat_length.
    - unfold o. simpl. rewrite repeat_length. lia.
    - apply repeat_spec in Hr. subst. apply repeat_length. }
  destruct S as [S1 S2]. assert (L : length (ravel a) = nrow * ncol) by (rewrite (ravel_length S1 S2); lia).
  destruct (C105_taken_in_order L) as (b & B1 & B2 & [B3 B4] & B5). exists a, b. split; [split; auto|]. split; [auto|]. split; [auto|]. split; [reflexivity|].
  rewrite <- (ravel_entry (ncol := ncol) (n := nrow) B3 B4) by lia. rewrite B5. change (0 * ncol + 1) with 1.
  change (ravel a) with (z ++ ravel (o :: repeat z (ncol - 2))). rewrite nth_error_app1 by (unfold z; rewrite repeat_length; lia). unfold z. apply nth_error_repeat. lia.
Qed.

(** a mask of 2 rows and 3 columns, drained eastwards along row 0: records for cells (0, 0), (0, 1), (0, 2) *)
Example C104_witness :
  exists recs, packagedata2 2 3 10 [1; 2; 2; 0; 1; 2]%Z [[1; 1; 1]; [0; 0; 0]]%Z = Ok recs /\ map fst recs = [(0, 0, 0); (0, 0, 1); (0, 0, 2)].
Proof. eexists. split; vm_compute; reflexivity. Qed.
Example C104_reach_witness :
  exists recs, reach_data2 2 3 10 10 true [1; 2; 2; 0; 1; 2]%Z [[1; 1; 1]; [0; 0; 0]]%Z = Ok recs /\ map (fun r => (r_i r, r_j r)) recs = [(0, 0); (0, 1); (0, 2)]%Z.
Proof. eexists. split; vm_compute; reflexivity. Qed.
Example C105_witness : set_stream_array 2 3 [[0; 0]; [1; 0]; [0; 0]]%Z = Ok [[0; 0; 1]; [0; 0; 0]]%Z.
Proof. reflexivity. Qed.
