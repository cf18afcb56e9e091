(** C118: the table of Sfr6.packagedata, column by column: one record per reach in order, each
    entry under its MODFLOW 6 name, cell ids that identify the cell; packagedata(detuple=True) is
    the same table with the cell id spread over columns. *)
From Coq Require Import Reals String.
From Verif Require Import Py Spec MFlow LGraph MStream LStream LConn PropsStream MGeo MNum MShape PropsShape MPkg.
Set Implicit Arguments.
Unset Strict Implicit.
Local Notation length := List.length.
Local Open Scope string_scope.
Local Open Scope list_scope.

(** the entry of record [i] under column [name] (the first column of that name) *)
Fixpoint under (cols : list string) (r : list field) (name : string) : option field :=
  match cols, r with
  | c :: cs, x :: xs => if String.eqb c name then Some x else under cs xs name
  | _, _ => None
  end.
Definition entry (t : table) (i : nat) (name : string) : option field :=
  match nth_error (t_recs t) i with Some r => under (t_cols t) r name | None => None end.

(** the columns that replace cellid *)
Definition id_columns (g : gridtype) : list string :=
  match g with Structured _ _ => ["k"; "i"; "j"] | Vertex => ["k"; "node"] | Unstructured => ["node"] end.

Lemma cellid_length g n : length (cellid g n) = length (id_columns g).
Proof. destruct g; cbn; auto. Qed.

Lemma cell_cols_id g n : cell_cols (cellid g n) = id_columns g.
Proof. destruct g; reflexivity. Qed.

(** the MODFLOW 6 cell id, zero-based: layer, row and column with nodes counted along the rows,
    row after row and layer after layer; layer and node; node *)
Definition is_cellid (g : gridtype) (node : nat) (id : list Z) : Prop :=
  match g with
  | Structured nrow ncol => exists k i j, id = [Z.of_nat k; Z.of_nat i; Z.of_nat j] /\
      i < nrow /\ j < ncol /\ node = (k * nrow + i) * ncol + j
  | Vertex => id = [0%Z; Z.of_nat node]
  | Unstructured => id = [Z.of_nat node]
  end.
(** a structured grid has cells *)
Definition has_cells (g : gridtype) : Prop := match g with Structured nrow ncol => 0 < nrow * ncol | _ => True end.

Lemma cellid_is g n : has_cells g -> is_cellid g n (cellid g n).
Proof.
  destruct g as [nrow ncol| |]; cbn [has_cells is_cellid cellid]; auto. intros P.
  unfold get_lrc. assert (ncol <> 0) by lia. assert (nrow <> 0) by lia.
  eexists _, _, _. split; [reflexivity|].
  assert (M := Nat.mod_upper_bound n (nrow * ncol) ltac:(lia)).
  split; [apply Nat.div_lt_upper_bound; lia|]. split; [apply Nat.mod_upper_bound; auto|].
  rewrite (Nat.div_mod n (nrow * ncol)) at 1 by lia.
  rewrite (Nat.div_mod (n mod (nrow * ncol)) ncol) at 1 by lia.
  assert (Y : (n mod (nrow * ncol)) mod ncol = n mod ncol).
  { rewrite (Nat.mul_comm nrow ncol). rewrite Nat.mod_mul_r by auto.
    rewrite (Nat.mul_comm ncol (_ mod _)), Nat.mod_add by auto. apply Nat.mod_mod; auto. }
  rewrite Y. lia.
Qed.

(** an id belongs to one cell, and a cell has one id *)
Theorem C118_cell_ids_identify g n m a b :
  is_cellid g n a -> is_cellid g m b -> a = b <-> n = m.
Proof.
  destruct g as [nrow ncol| |]; cbn [is_cellid].
  - intros (k & i & j & -> & I1 & J1 & ->) (k' & i' & j' & -> & I2 & J2 & ->). split; intros H.
    + injection H as A B C. apply Nat2Z.inj in A, B, C. subst. reflexivity.
    + assert (R : forall q r q' r' w, r < w -> r' < w -> q * w + r = q' * w + r' -> q = q' /\ r = r').
      { intros q r q' r' w P1 P2 E. assert (q = q') by nia. subst. split; auto. lia. }
      destruct (R _ _ _ _ _ J1 J2 H) as [H1 ->]. destruct (R _ _ _ _ _ I1 I2 H1) as [-> ->]. reflexivity.
  - intros -> ->. split; [intros H; injection H as H; lia|now intros ->].
  - intros -> ->. split; [intros H; injection H as H; lia|now intros ->].
Qed.

Section C118.
  Variables (g : gridtype) (centers : list point) (cells : list (list point)) (slope : list R) (top : list (option R)).

  Lemma package_table_ok graph strm pk : packagedata graph strm = Ok pk ->
    package_table g centers cells slope top graph strm =
      Ok (Table pkg_cols (map (fun p => pkg_rec g p (pkg_num centers cells slope top p)) pk)).
  Proof.
    intros H. unfold package_table, packagedata_num. rewrite H. cbn [bind]. unfold np_table.
    rewrite map_map. cbn [fst snd].
    assert (X : forallb (fun r : list field => Nat.eqb (length r) (length pkg_cols))
              (map (fun p => pkg_rec g p (pkg_num centers cells slope top p)) pk) = true).
    { apply forallb_forall. intros r Hr. apply in_map_iff in Hr. destruct Hr as [p [<- _]]. reflexivity. }
    now rewrite X.
  Qed.

  (** C118: one record per reach; the columns in order *)
  Theorem C118_package_table fdir strm lim s2 gr :
    has_cells g -> valid_fdir fdir -> length strm = length fdir -> mf6_connectivity lim fdir strm = Ok (s2, gr) ->
    exists conn t, connectiondata (some_graph gr) = Ok conn /\
      package_table g centers cells slope top (some_graph gr) s2 = Ok t /\
      t_cols t = ["ifno"; "cellid"; "rlen"; "rwid"; "rgrd"; "rtp"; "rbth"; "rhk"; "man"; "ncon"; "ustrf"; "ndv"] /\
      length (t_recs t) = length gr /\
      forall i, i < length gr -> exists node id to dn rec,
        nth_error s2 node = Some (Z.of_nat (i + 1)) /\ nth_error conn i = Some rec /\
        In (Z.of_nat (i + 1), to) gr /\ dn = (if (to =? 0)%Z then node else down fdir node) /\
        entry t i "ifno" = Some (FInt (Z.of_nat i)) /\
        is_cellid g node id /\ entry t i "cellid" = Some (FTup id) /\
        entry t i "ncon" = Some (FInt (Z.of_nat (length (tl rec)))) /\
        entry t i "rgrd" = Some (FNum (Some (nth node slope 0 / 1.5)%R)) /\
        entry t i "rtp" = Some (FNum (nth node top None)) /\
        (distance (nth node centers (0, 0)%R) (nth dn centers (0, 0)%R) <> 0%R ->
           entry t i "rlen" = Some (FNum (Some (1.5 * distance (nth node centers (0, 0)%R) (nth dn centers (0, 0)%R))%R))) /\
        Forall (fun nx => entry t i (fst nx) = Some (snd nx))
          [("rwid", FNum (Some 0%R)); ("rbth", FNum (Some 1%R)); ("rhk", FNum (Some 0%R)); ("man", FNum (Some 0%R));
           ("ustrf", FNum (Some 1%R)); ("ndv", FInt 0)].
  Proof.
    intros HG V L E. destruct (C40_packagedata _ _ V L E) as [conn [pk [C [P [Lp [Lc H]]]]]].
    exists conn. eexists. split; auto. split; [exact (package_table_ok P)|]. split; [reflexivity|].
    cbn [t_recs]. split; [now rewrite map_length|]. intros i Hi.
    destruct (nth_error pk i) as [p|] eqn:Ep.
    2:{ apply nth_error_None in Ep. lia. }
    destruct (H i p Ep) as [A1 [A2 [A3 [rec [A4 [A5 A6]]]]]].
    assert (Hk : exists to, In (Z.of_nat (i + 1), to) gr).
    { destruct (mf6_spec strm lim V L E) as [order R]. assert (G := r_graph R).
      destruct (nth_error order i) as [c|] eqn:Eo.
      2:{ apply nth_error_None in Eo. rewrite G, map_length in Hi. lia. }
      exists (nth (down fdir c) s2 0%Z). rewrite G. apply in_map_iff. exists c. split; [|eapply nth_error_In; eauto].
      rewrite (r_at R _ Eo). f_equal. lia. }
    destruct Hk as [to Hto]. destruct (A3 to Hto) as [B1 B2].
    exists (p_node p), (cellid g (p_node p)), to, (p_node_dn p), rec. do 3 (split; auto). split.
    { destruct (Z.eqb_spec to 0) as [Z0|Z0]; auto. }
    unfold entry. cbn [t_recs t_cols]. rewrite nth_error_map, Ep. cbn [option_map].
    cbn [under pkg_cols pkg_rec String.eqb Ascii.eqb Bool.eqb].
    rewrite A1, A6. replace (Z.of_nat (i + 1) - 1)%Z with (Z.of_nat i) by lia.
    split; [reflexivity|]. split; [now apply cellid_is|]. do 4 (split; [reflexivity|]). split.
    - intros D. unfold pkg_num, at_. cbn [n_rlen]. destruct (Req_EM_T _ 0) as [Q|Q]; [contradiction|].
      do 3 f_equal. apply Rmult_comm.
    - repeat constructor.
  Qed.

  (** C118: the expanded table: same records, the entries other than cellid unchanged under their
      names, the items of the cell id under k, i, j / k, node / node *)
  Theorem C118_detupled_table graph strm t :
    package_table g centers cells slope top graph strm = Ok t -> t_recs t <> [] ->
    exists t', package_table_detupled g centers cells slope top graph strm = Ok t' /\
      t_cols t' = "ifno" :: id_columns g ++ ["rlen"; "rwid"; "rgrd"; "rtp"; "rbth"; "rhk"; "man"; "ncon"; "ustrf"; "ndv"] /\
      length (t_recs t') = length (t_recs t) /\
      (forall i name, name <> "cellid" -> In name (t_cols t) -> entry t' i name = entry t i name) /\
      (forall i id, entry t i "cellid" = Some (FTup id) ->
         map (entry t' i) (id_columns g) = map (fun z => Some (FInt z)) id).
  Proof.
    intros H NE. unfold package_table_detupled. rewrite H. cbn [bind].
    unfold package_table in H. apply bind_ok in H. destruct H as [recs [H1 H2]].
    unfold np_table in H2. destruct (forallb _ _); [|discriminate]. injection H2 as <-. cbn [t_recs t_cols] in *.
    unfold detuple_table. cbn [t_recs t_cols].
    set (ex := fun pn : pkg * pkgn => FInt (p_ifno (fst pn)) :: map FInt (cellid g (p_node (fst pn))) ++
                 skipn 2 (pkg_rec g (fst pn) (snd pn))).
    assert (M : mapM expand (map (fun pn => pkg_rec g (fst pn) (snd pn)) recs) = Ok (map ex recs)).
    { clear. induction recs as [|pn recs IH]; [reflexivity|]. cbn [map mapM]. cbn [expand pkg_rec bind].
      rewrite IH. reflexivity. }
    rewrite M. clear M. destruct recs as [|p0 recs]; [cbn in NE; congruence|]. clear NE H1.
    cbn [map pkg_rec pkg_cols bind t_recs]. rewrite cell_cols_id. unfold np_table.
    assert (X : forallb (fun r : list field => Nat.eqb (length r) (length ("ifno" :: id_columns g ++
        ["rlen"; "rwid"; "rgrd"; "rtp"; "rbth"; "rhk"; "man"; "ncon"; "ustrf"; "ndv"]))) (ex p0 :: map ex recs) = true).
    { apply forallb_forall. intros r Hr. change (ex p0 :: map ex recs) with (map ex (p0 :: recs)) in Hr.
      apply in_map_iff in Hr. destruct Hr as [p [<- _]]. unfold ex. cbn [length]. rewrite !app_length, map_length, cellid_length.
      cbn [skipn pkg_rec length]. apply Nat.eqb_refl. }
    rewrite X. clear X. eexists. split; [reflexivity|]. cbn [t_cols t_recs length]. split; [reflexivity|].
    split; [now rewrite !map_length|].
    change (ex p0 :: map ex recs) with (map ex (p0 :: recs)).
    match goal with |- context [Table _ (?r :: map ?f recs)] => change (r :: map f recs) with (map f (p0 :: recs)) end.
    split.
    - intros i name N1 N2. unfold entry. cbn [t_recs t_cols]. rewrite !nth_error_map.
      destruct (nth_error (p0 :: recs) i) as [[p n]|]; [|reflexivity]. cbn [option_map fst snd]. unfold ex. cbn [fst snd].
      cbn [In] in N2.
      repeat (destruct N2 as [<-|N2]; [destruct g as [nrow ncol| |]; try congruence; reflexivity|]). destruct N2.
    - intros i id. unfold entry. cbn [t_recs t_cols]. rewrite !nth_error_map.
      destruct (nth_error (p0 :: recs) i) as [[p n]|]; [|discriminate]. cbn [option_map fst snd]. unfold ex. cbn [fst snd].
      cbn [under String.eqb Ascii.eqb Bool.eqb]. intros Q. injection Q as <-.
      destruct g as [nrow ncol| |]; reflexivity.
  Qed.

  (** C118: without streams there is a table without records, which detuple refuses (C91) *)
  Theorem C118_empty_table_not_expanded graph strm t :
    package_table g centers cells slope top graph strm = Ok t -> t_recs t = [] ->
    package_table_detupled g centers cells slope top graph strm = Err IndexError.
  Proof. intros H E. unfold package_table_detupled. rewrite H. cbn [bind]. unfold detuple_table. now rewrite E. Qed.
End C118.

(** two reaches on a 2 x 2 grid: cells 1 and 3, 1 drains to 3 *)
Example C118_ex : exists t, package_table_detupled (Structured 2 2) [(0, 1); (1, 1); (0, 0); (1, 0)]%R [] [] []
    (some_graph [(1, 2); (2, 0)]%Z) [0; 1; 0; 2]%Z = Ok t /\
  t_cols t = ["ifno"; "k"; "i"; "j"; "rlen"; "rwid"; "rgrd"; "rtp"; "rbth"; "rhk"; "man"; "ncon"; "ustrf"; "ndv"] /\
  map (entry t 1) ["ifno"; "k"; "i"; "j"; "ncon"; "ndv"] =
    [Some (FInt 1); Some (FInt 0); Some (FInt 1); Some (FInt 1); Some (FInt 1); Some (FInt 0)].
Proof. eexists. split; [reflexivity|]. split; reflexivity. Qed.
