(** Model of dany/stream_util.py: stream delineation, reach and segment numbering, and the
    model inputs derived from them.

    Conventions: a stream array is the raveled integer array; node numbers stored in a graph
    are integers; [fuel] bounds the iterations of a [while] loop and [lim] the stack frames
    available to Topology._sort_util.  Reshaping results to the grid's shape is left out
    throughout (the raveled array is the value modelled). *)
From Verif Require Import Py MFlow.
Set Implicit Arguments.
Local Open Scope Z_scope.
Local Open Scope list_scope.

(** ** delineate_streams, stream_util.py 77-107.  [ge] is [>=] on accumulation values (False on NaN). *)
Inductive threshold (T : Type) := Scalar (t : T) | PerCell (l : list T).
Arguments Scalar {T} t.
Arguments PerCell {T} l.

Section Delineate.
  Context {T : Type} (ge : T -> T -> bool).
  (** lines 95-102 *)
  Definition above (facc : list T) (contrib : threshold T) : res (list Z) :=
    match contrib with
    | Scalar t => Ok (map (fun a => if ge a t then 1 else 0) facc)
    | PerCell l =>
        if negb (Nat.eqb (length l) (length facc)) then Err AssertionError
        else Ok (map (fun p => if ge (fst p) (snd p) then 1 else 0) (combine facc l))
    end.
  (* lines 95-107 *)
  Definition delineate_streams (facc : list T) (contrib : threshold T) (basin : option (list Z))
    : res (list Z) :=
    strm <- above facc contrib ;;
    match basin with
    | None => Ok strm
    | Some b =>   (* 103-104: boolean mask of the wrong size raises IndexError *)
        if negb (Nat.eqb (length b) (length strm)) then Err IndexError
        else Ok (map (fun p => if snd p =? 0 then 0 else fst p) (combine strm b))
    end.
End Delineate.

(** [np.where(stream_array)[0]], stream_util.py 135 and 205 *)
Definition nonzero (a : list Z) : list nat := where_ (fun z => negb (z =? 0)) a.

(** [{x: ix + 1 for ix, x in enumerate(l)}], stream_util.py 150 and 285 *)
Definition enumerate1 (l : list Z) : list (Z * Z) :=
  fold_left (fun m p => dset Z.eqb m (snd p) (Z.of_nat (fst p))) (combine (seq 1 (length l)) l) [].

(** ** _mf6_stream_connectivity, 109-171 (given the stream array; the lookup of the stored
    array, lines 125-132, and the stores, 169-170, are in the object model).
    Result: (renumbered stream array, graph). *)
Definition mf6_connectivity (lim : nat) (fdir strm : list Z) : res (list Z * topology) :=
  let nodes := nonzero strm in
  (* 138-140 *)
  s1 <- foldM (fun a p => set a (snd p) (Z.of_nat (fst p)))
              (combine (seq 1 (length nodes)) nodes) strm ;;
  (* 143-148 *)
  topo <- foldM (fun t node =>
                   rchid <- get s1 node ;;
                   flow_to <- get fdir node ;;
                   rchto <- npget s1 flow_to ;;
                   Ok (add_connection t rchid rchto)) nodes [] ;;
  (* 150 *)
  sorted <- topo_sort lim topo ;;
  let mapper := enumerate1 sorted in
  (* 153-161 *)
  new_map <- foldM (fun m kv =>
                      old_to <- dgetE Z.eqb topo (fst kv) ;;
                      to <- (if old_to =? 0 then Ok 0 else dgetE Z.eqb mapper old_to) ;;
                      Ok (dset Z.eqb m (snd kv) to)) mapper [] ;;
  (* 164-167 *)
  s2 <- foldM (fun a node =>
                 old <- get a node ;;
                 new <- dgetE Z.eqb mapper old ;;
                 set a node new) nodes s1 ;;
  Ok (s2, new_map).

(** ** _mf2005_stream_connectivity, 173-312 *)
(** 207-212, a node graph: node -> downstream node or None *)
Definition ngraph := list (Z * option Z).

(** 207-212 *)
Definition node_graph (fdir : list Z) (nodes : list nat) : res ngraph :=
  foldM (fun g node =>
           dn <- get fdir node ;;
           Ok (dset Z.eqb g (Z.of_nat node)
                    (if memz dn (map Z.of_nat nodes) then Some dn else None)))
        nodes [].

(** 216: the downstream nodes that are not None *)
Definition nodes_dn (g : ngraph) : list Z :=
  fold_right (fun kv l => match snd kv with Some d => d :: l | None => l end) [] g.

(** 215-230: segment starts, numbered from 1: headwaters first, then confluences *)
Definition seg_starts (g : ngraph) : list (Z * Z) :=
  let dns := nodes_dn g in
  let '(st1, i1) :=
    fold_left (fun (si : list (Z * Z) * Z) node =>
                 if memz node dns then si
                 else (dset Z.eqb (fst si) node (snd si), snd si + 1))
              (map fst g) ([], 1) in
  fst (fold_left (fun (si : list (Z * Z) * Z) node =>
                    if (1 <? length (filter (Z.eqb node) dns))%nat then
                      if dhas Z.eqb (fst si) node then si
                      else (dset Z.eqb (fst si) node (snd si), snd si + 1)
                    else si)
                 dns (st1, i1)).

(** 234-235, state of the grouping loop: records [node, seg, rch], stream array, segment graph *)
Record grp := Grp { g_nsr : list (Z * Z * Z); g_strm : list Z; g_seg : topology }.

(** the [while True] loop of one segment, 237-251 *)
Fixpoint seg_walk (fuel : nat) (g : ngraph) (starts : list (Z * Z)) (seg : Z)
         (node rch : Z) (s : grp) : res grp :=
  match fuel with
  | O => Err OutOfFuel
  | S f =>
      let nsr := g_nsr s ++ [(node, seg, rch)] in
      strm <- npset (g_strm s) node seg ;;
      dn <- dgetE Z.eqb g node ;;
      match dn with
      | None => Ok (Grp nsr strm (dset Z.eqb (g_seg s) seg 0))
      | Some d =>
          match dget Z.eqb starts d with
          | Some s' => Ok (Grp nsr strm (dset Z.eqb (g_seg s) seg s'))
          | None => seg_walk f g starts seg d (rch + 1) (Grp nsr strm (g_seg s))
          end
      end
  end.

(** grouped: 214-251 *)
Definition group_segments (fuel : nat) (g : ngraph) (strm : list Z) : res grp :=
  let starts := seg_starts g in
  foldM (fun s ns => seg_walk fuel g starts (snd ns) (fst ns) 1 s) starts (Grp [] strm []).

(** ungrouped, 252-278: the numbers, 253-263 *)
Definition number_nodes (g : ngraph) : list (Z * Z) :=
  fst (fold_left (fun (si : list (Z * Z) * Z) kv =>
        let '(node, dn) := kv : Z * option Z in
        let si1 := if dhas Z.eqb (fst si) node then si
                   else (dset Z.eqb (fst si) node (snd si), snd si + 1) in
        match dn with
        | None => si1
        | Some d => if dhas Z.eqb (fst si1) d then si1
                    else (dset Z.eqb (fst si1) d (snd si1), snd si1 + 1)
        end) g ([], 1)).

(* ungrouped, 265-278 *)
Definition single_segments (g : ngraph) (strm : list Z) : res grp :=
  let nd_seg := number_nodes g in
  foldM (fun s kv =>
           let '(node, dn) := kv : Z * option Z in
           segup <- dgetE Z.eqb nd_seg node ;;
           strm1 <- npset (g_strm s) node segup ;;
           let nsr := g_nsr s ++ [(node, segup, 1)] in
           match dn with
           | None => Ok (Grp nsr strm1 (dset Z.eqb (g_seg s) segup 0))
           | Some d =>
               segdn <- dgetE Z.eqb nd_seg d ;;
               if segdn =? segup then Ok (Grp nsr strm1 (dset Z.eqb (g_seg s) segup 0))
               else strm2 <- npset strm1 d segdn ;;
                    Ok (Grp nsr strm2 (dset Z.eqb (g_seg s) segup segdn))
           end)
        g (Grp [] strm []).

(** result of _mf2005_stream_connectivity: what is stored on the object, 306-312 *)
Record mf2005 := Mf2005 {
  m_strm : list Z;            (* _stream_array *)
  m_graph : ngraph;           (* _graph *)
  m_seg : topology;           (* _seg_graph, also the value returned *)
  m_nsr : list (Z * Z * Z)    (* _node_seg_rch *)
}.

(** 203-312 *)
Definition mf2005_connectivity (lim fuel : nat) (grouped : bool) (fdir strm : list Z) : res mf2005 :=
  let nodes := nonzero strm in
  g <- node_graph fdir nodes ;;
  s <- (if grouped then group_segments fuel g strm else single_segments g strm) ;;
  (* 281-286 *)
  let topo := fold_left (fun t kv => add_connection t (fst kv) (snd kv)) (g_seg s) [] in
  sorted <- topo_sort lim topo ;;
  let mapper := dset Z.eqb (enumerate1 sorted) 0 0 in
  (* 288-291 *)
  nsr <- mapM (fun r => let '(node, seg, rch) := r in
                        new <- dgetE Z.eqb mapper seg ;; Ok (node, new, rch)) (g_nsr s) ;;
  (* 293-297 *)
  seg <- foldM (fun t kv => a <- dgetE Z.eqb mapper (fst kv) ;;
                            b <- dgetE Z.eqb mapper (snd kv) ;;
                            Ok (dset Z.eqb t a b)) (g_seg s) [] ;;
  (* 299-304 *)
  let arr := fold_left (fun a kv =>
                 map (fun p => if fst p =? fst kv then snd kv else snd p)
                     (combine (g_strm s) a))
               mapper (repeat 0 (length (g_strm s))) in
  Ok (Mf2005 arr g seg nsr).

(** ** create_stream_vectors, 314-379: the lines as lists of cell numbers (the code returns
    the coordinates of the cell centres).  Lines 337-342 (the connectivity) come before. *)
(* 359-361, 368-369 *)
Definition rows_of (nsr : list (Z * Z * Z)) (seg : Z) : list Z :=
  map (fun r => fst (fst r)) (filter (fun r => snd (fst r) =? seg) nsr).

(* 354-377 *)
Fixpoint vec_loop (fuel : nat) (seg_graph : topology) (nsr : list (Z * Z * Z))
         (heads stack : list Z) (processed : list Z) (vectors : list (Z * list Z))
  : res (list (Z * list Z)) :=
  match fuel with
  | O => Err OutOfFuel
  | S f =>
      let next := match stack with
                  | s :: st => Some (s, heads, st)
                  | [] => match heads with h :: hs => Some (h, hs, []) | [] => None end
                  end in
      match next with
      | None => Ok vectors
      | Some (seg, heads, stack) =>
          let nodes := rows_of nsr seg in
          dn <- dgetE Z.eqb seg_graph seg ;;
          ' (nodes, stack) <-
            (if dn =? 0 then Ok (nodes, stack)
             else first <- get (rows_of nsr dn) 0 ;;
                  Ok (nodes ++ [first], if memz dn processed then stack else stack ++ [dn])) ;;
          if (1 <? length nodes)%nat
          then vec_loop f seg_graph nsr heads stack (processed ++ [seg]) (dset Z.eqb vectors seg nodes)
          else vec_loop f seg_graph nsr heads stack processed vectors
      end
  end.

(* 343-379 *)
Definition stream_vectors (fuel : nat) (seg_graph : topology) (nsr : list (Z * Z * Z))
  : res (list (Z * list Z)) :=
  let heads := filter (fun k => negb (memz k (map snd seg_graph))) (map fst seg_graph) in
  vec_loop fuel seg_graph nsr heads [] [] [].

(** ** threshold_from_control_points, 381-455.  The control points are given by their cell
    numbers (lines 413-432 locate them with flopy); [minus5 x] is [x - 5], [isnan] is
    np.isnan and [gt x y] is [x > y] on accumulation values. *)
Section Control.
  Context {T : Type} (minus5 : T -> T) (isnan : T -> bool) (gt : T -> T -> bool).

  (** [np.argmax], 452: the first largest entry *)
  Fixpoint argmax (best : nat * T) (l : list (nat * T)) : nat * T :=
    match l with
    | [] => best
    | p :: l' => argmax (if gt (snd p) (snd best) then p else best) l'
    end.

  (** lines 439-447: the neighbours that flow into [node], with their accumulation *)
  Definition flows_in (nb : list (list nat)) (fdir : list Z) (facc : list T) (node : nat)
    : res (list (nat * T)) :=
    neighs <- get nb node ;;
    foldM (fun l n =>
             d <- get fdir n ;;
             if d =? Z.of_nat node then
               a <- get facc n ;;
               Ok (if isnan a then l else l ++ [(n, a)])
             else Ok l) neighs [].

  (** the [while stack] loop for one control point, 436-453 (the stack holds one cell) *)
  Fixpoint cp_walk (fuel : nat) (nb : list (list nat)) (fdir : list Z) (facc : list T)
           (node : nat) (array : list T) : res (list T) :=
    match fuel with
    | O => Err OutOfFuel
    | S f =>
        a <- get facc node ;;
        array' <- set array node (minus5 a) ;;
        up <- flows_in nb fdir facc node ;;
        match up with
        | [] => Ok array'
        | p :: l => cp_walk f nb fdir facc (fst (argmax p l)) array'
        end
    end.

  (* 434-455 *)
  Definition control_thresholds (fuel : nat) (nb : list (list nat)) (fdir : list Z)
             (facc : list T) (cells : list nat) (threshold : T) : res (list T) :=
    foldM (fun array c => cp_walk fuel nb fdir facc c array) cells
          (repeat threshold (length facc)).
End Control.

(** ** Sfr6.connectiondata, 500-536, given the graph.  A graph stored by
    create_stream_vectors holds None values: [-1 * None] raises TypeError. *)
(* 524-525, 582, 765, 878: sorted(graph.items()) *)
Definition sorted_items {V} (g : list (Z * V)) : list (Z * V) :=
  isort (fun a b => fst a <=? fst b) g.

(* 524-536 *)
Definition connectiondata (graph : ngraph) : res (list (list Z)) :=
  let d0 := fold_left (fun d k => dset Z.eqb d k []) (isort Z.leb (map fst graph)) [] in
  d <- foldM (fun d kv =>
         let '(reach, to) := kv : Z * option Z in
         match to with
         | None => Err TypeError
         | Some reach_to =>
             if reach_to =? 0 then Ok d
             else if reach_to =? reach then Ok d
             else
               l1 <- dgetE Z.eqb d reach ;;
               let d1 := dset Z.eqb d reach (l1 ++ [-1 * reach_to]) in
               l2 <- dgetE Z.eqb d1 reach_to ;;
               Ok (dset Z.eqb d1 reach_to (reach :: l2))
         end) (sorted_items graph) d0 ;;
  Ok (map (fun kv => (fst kv - 1) :: map (fun ii => if 0 <? ii then ii - 1 else ii + 1) (snd kv)) d).

(** a graph without None values, as stored by _mf6_stream_connectivity, 154-170 *)
Definition some_graph (g : topology) : ngraph := map (fun kv => (fst kv, Some (snd kv))) g.

(** ** Sfr6.packagedata, 538-641, given graph and stream array.  Modelled fields of a
    record: ifno, the cell, the cell used for the reach length, ncon.  The reach length,
    gradient and top are computed from these cells by formulas on coordinates. *)
Record pkg := Pkg { p_ifno : Z; p_node : nat; p_node_dn : nat; p_ncon : Z }.

(* 583 and 585: np.where(stream_array == rch)[0][0] *)
Definition first_where (x : Z) (a : list Z) : res nat := get (where_ (Z.eqb x) a) 0.

(* 574-621 *)
Definition packagedata (graph : ngraph) (strm : list Z) : res (list pkg) :=
  conn <- connectiondata graph ;;
  ' (recs, _) <- foldM (fun (rc : list pkg * nat) kv =>
       let '(rch, to) := kv : Z * option Z in
       node <- first_where rch strm ;;
       node_dn <- (match to with
                   | Some 0 => Ok node
                   | Some r => first_where r strm
                   | None => Err IndexError   (* stream_array == None is False everywhere *)
                   end) ;;
       c <- get conn (snd rc) ;;
       Ok (fst rc ++ [Pkg (rch - 1) node node_dn (Z.of_nat (length c) - 1)], S (snd rc)))
    (sorted_items graph) ([], 0%nat) ;;
  Ok recs.

(** packagedata(stream_array), lines 571-574: the graph comes from
    _mf6_stream_connectivity(stream_array), but the array searched afterwards is still the
    argument, not the renumbered array. *)
Definition packagedata_given (lim : nat) (fdir strm : list Z) : res (list pkg) :=
  ' (_, graph) <- mf6_connectivity lim fdir strm ;;
  packagedata (some_graph graph) strm.

(** packagedata() on an object whose streams are delineated but not yet connected, 557-570 *)
Definition packagedata_stored (lim : nat) (fdir strm : list Z) : res (list pkg) :=
  ' (s2, graph) <- mf6_connectivity lim fdir strm ;;
  packagedata (some_graph graph) s2.

(** ** Sfr2005.segment_data, 875-885: the nseg and outseg columns *)
Definition segment_data (seg_graph : topology) : list (Z * Z) := sorted_items seg_graph.

(** ** Sfr2005.reach_data, 759-842, on a structured grid with [ncol] columns.  Modelled
    fields of a record: node, i, j, iseg, ireach, reachID; [r_dn] is [nd_dn], the cell of the
    next reach, from which length and slope are computed (see MNum.v); [r_out] is the last
    entry of the Python list, absent after [record.pop(-1)]. *)
Record rch := Rch { r_node : Z; r_i : Z; r_j : Z; r_iseg : Z; r_ireach : Z; r_id : Z;
                    r_dn : option Z; r_out : option Z }.

(** 765-812: the records of one segment.  [lut] is seg_rid_lut. *)
Definition seg_records (ncol : Z) (nsr : list (Z * Z * Z)) (st : list rch * Z * list (Z * Z))
           (io : Z * Z) : res (list rch * Z * list (Z * Z)) :=
  let '(recs, reachid, lut) := st in
  let '(iseg, outseg) := io in
  if iseg =? 0 then Ok st
  else
    let rows := filter (fun r => snd (fst r) =? iseg) nsr in
    let numrch := (length rows - 1)%nat in
    foldM (fun (st : list rch * Z * list (Z * Z)) (p : nat * (Z * Z * Z)) =>
             let '(recs, reachid, lut) := st in
             let '(ix, (node, _, r)) := p in
             (* 771-780: the downstream cell is looked up; an empty result raises IndexError *)
             dn <- (if negb (Nat.eqb ix numrch) then
                      r' <- get rows (ix + 1) ;; Ok (Some (fst (fst r')))
                    else if outseg =? 0 then Ok None
                    else r' <- get (filter (fun r => snd (fst r) =? outseg) nsr) 0 ;; Ok (Some (fst (fst r')))) ;;
             let i := node / ncol in
             let j := node mod ncol in
             let out := if Nat.eqb ix 0 then Some (reachid + 1)
                        else if Nat.eqb ix numrch then None else Some (reachid + 1) in
             let lut' := if Nat.eqb ix 0 then dset Z.eqb lut iseg reachid else lut in
             Ok (recs ++ [Rch (i * ncol + j) i j iseg r reachid dn out], reachid + 1, lut'))
          (combine (seq 0 (length rows)) rows) st.

(** 814-823.  [iseg = rec[3]] reads entry 3 of the record, which is [j]. *)
Definition close_record (seg_graph : topology) (lut : list (Z * Z)) (r : rch) : res rch :=
  match r_out r with
  | Some _ => Ok r
  | None =>
      d <- (match dget Z.eqb seg_graph (r_j r) with
            | None => Ok 0
            | Some outseg => dgetE Z.eqb lut outseg
            end) ;;
      Ok (Rch (r_node r) (r_i r) (r_j r) (r_iseg r) (r_ireach r) (r_id r) (r_dn r) (Some d))
  end.

(* 763-842 *)
Definition reach_data (ncol : Z) (seg_graph : topology) (nsr : list (Z * Z * Z)) : res (list rch) :=
  ' (recs, _, lut) <- foldM (seg_records ncol nsr) (sorted_items seg_graph) ([], 1, []) ;;
  recs' <- mapM (close_record seg_graph lut) recs ;;
  (* 825-829: an empty record list has no row 0 *)
  match recs' with [] => Err IndexError | _ => Ok recs' end.

(** ** Sfr2005.irunbnd, 921-952, given the stream array *)
(** 924-930: nodes grouped by the cell they flow to *)
Definition reversed (fdir : list Z) : list (Z * list Z) :=
  fold_left (fun d p =>
               let '(node, dn) := p : nat * Z in
               match dget Z.eqb d dn with
               | None => dset Z.eqb d dn [Z.of_nat node]
               | Some l => dset Z.eqb d dn (l ++ [Z.of_nat node])
               end) (combine (seq 0 (length fdir)) fdir) [].

(** the [while stack] loop, 939-950: [stack.pop()] takes the last entry, [extend] appends;
    the model keeps the stack reversed *)
Fixpoint irun_loop (fuel : nat) (fdir_r : list (Z * list Z)) (iseg : Z) (stack : list Z)
         (visited : list Z) (irun : list Z) : res (list Z * list Z) :=
  match stack with
  | [] => Ok (visited, irun)
  | node :: stack' =>
      match fuel with
      | O => Err OutOfFuel
      | S f =>
          match dget Z.eqb fdir_r node with
          | None => irun_loop f fdir_r iseg stack' visited irun
          | Some upnodes =>
              if memz node visited then irun_loop f fdir_r iseg stack' visited irun
              else
                irun' <- foldM (fun a u => npset a u iseg) upnodes irun ;;
                irun_loop f fdir_r iseg (rev upnodes ++ stack') (visited ++ [node]) irun'
          end
      end
  end.

(* 921-952 *)
Definition irunbnd (fuel : nat) (fdir strm : list Z) : res (list Z) :=
  let fdir_r := reversed fdir in
  ' (_, irun) <- foldM (fun (vi : list Z * list Z) cell =>
        let '(visited, irun) := vi in
        iseg <- get strm cell ;;
        irun1 <- set irun cell iseg ;;
        irun_loop fuel fdir_r iseg [Z.of_nat cell] visited irun1)
      (where_ (fun z => 0 <? z) strm) ([], repeat 0 (length strm)) ;;
  Ok irun.

(** ** PrmsStreams._build_many_to_one_cascades, 1202-1254: (up, down) pairs; every fraction
    is 1.0 *)
(** 1227-1229 (and 1287-1289): cells outside the basin get flow direction -9 *)
Definition mask_fdir (fdir : list Z) (basin : option (list Z)) : res (list Z) :=
  match basin with
  | None => Ok fdir
  | Some b =>
      if negb (Nat.eqb (length b) (length fdir)) then Err IndexError
      else Ok (map (fun p => if snd p =? 0 then -9 else fst p) (combine fdir b))
  end.

(* 1227-1254 *)
Definition many_to_one (fdir0 : list Z) (basin : option (list Z)) : res (list (Z * Z)) :=
  fdir <- mask_fdir fdir0 basin ;;
  foldM (fun out hru_down =>
           if hru_down =? -9 then Ok out
           else
             let idxs := map Z.of_nat (where_ (Z.eqb hru_down) fdir) in
             match idxs with
             | [] => Ok out
             | _ =>
                 d <- npget fdir hru_down ;;
                 let ups := if d =? -9 then [hru_down] else idxs in
                 Ok (out ++ map (fun u => (u, hru_down)) ups)
             end) fdir [].

(** get_cascades, 1186-1200: (up, down, fraction, strmseg), one-based *)
Definition finish_cascades {F} (strm : list Z) (c : list (Z * Z * F)) : res (list (Z * Z * F * Z)) :=
  mapM (fun p => let '(u, d, f) := p in
                 s <- npget strm d ;; Ok (u + 1, d + 1, f, if s =? 0 then 0 else s)) c.

(* get_cascades, 1174-1200, many2many=False *)
Definition cascades_one {F} (one : F) (fdir strm : list Z) (basin : option (list Z))
  : res (list (Z * Z * F * Z)) :=
  c <- many_to_one fdir basin ;;
  finish_cascades strm (map (fun p => (p, one)) c).

(** [np.sum] of a one-dimensional array (lines 1330 and 1335): the identity plus NumPy's pairwise
    sum (numpy/core/src/umath/loops_utils.h.src, @TYPE@_pairwise_sum).  Fewer than eight terms are
    added from left to right; up to 128 terms are added in eight accumulators, which are then
    added in pairs, and the at most seven terms left over are added to that; a longer array is
    split in two, the first part a multiple of eight long.  The order matters to doubles. *)
Section NpSum.
  Context {F : Type} (fadd : F -> F -> F) (fzero : F).
  (** the loop over rows of eight terms, then the remainder *)
  Fixpoint lanes (r0 r1 r2 r3 r4 r5 r6 r7 : F) (l : list F) : F :=
    match l with
    | a0 :: a1 :: a2 :: a3 :: a4 :: a5 :: a6 :: a7 :: l' =>
        lanes (fadd r0 a0) (fadd r1 a1) (fadd r2 a2) (fadd r3 a3)
              (fadd r4 a4) (fadd r5 a5) (fadd r6 a6) (fadd r7 a7) l'
    | _ => fold_left fadd l (fadd (fadd (fadd r0 r1) (fadd r2 r3)) (fadd (fadd r4 r5) (fadd r6 r7)))
    end.
  (** at most 128 terms *)
  Definition block_sum (l : list F) : F :=
    match l with
    | a0 :: a1 :: a2 :: a3 :: a4 :: a5 :: a6 :: a7 :: l' => lanes a0 a1 a2 a3 a4 a5 a6 a7 l'
    | _ => fold_left fadd l fzero
    end.
  (** [fuel] bounds the depth of the splitting; the length of the array is always enough *)
  Fixpoint pairwise_sum (fuel : nat) (l : list F) : F :=
    match fuel with
    | O => block_sum l
    | S fuel =>
        if Nat.leb (length l) 128 then block_sum l
        else let h := (Nat.div (length l) 2 - Nat.modulo (Nat.div (length l) 2) 8)%nat in
             fadd (pairwise_sum fuel (firstn h l)) (pairwise_sum fuel (skipn h l))
    end.
  Definition np_sum (l : list F) : F := fadd fzero (pairwise_sum (length l) l).
End NpSum.

(** ** PrmsStreams._build_many_to_many_cascades, 1256-1342.  [slopes] and [fnb] are the rows
    of _calculate_slopes() and _fneighbors ([None] = NaN slope); arithmetic is that of a type
    [F] with the operations the code uses. *)
Section Many.
  Context {F : Type} (fone : F) (fabs : F -> F) (fsum : list F -> F)
          (fdiv : F -> F -> option F)   (* None: 0/0 = NaN *)
          (fle0 : F -> bool)            (* x <= 0 *)
          (fkeep : F -> bool).          (* x > 0.01 *)

  (** lines 1330 and 1335 of the code: [np.abs(s) / np.sum(np.abs(s))]; [fsum] is the function
      np.sum ([np_sum] above; the rationals, for which the order does not matter, may use another) *)
  Definition fractions (l : list F) : list (option F) :=
    let total := fsum (map fabs l) in
    map (fun x => fdiv (fabs x) total) l.

  (** lines 1317-1340, one landscape cell: (receiving cell, fraction) *)
  Definition landscape (fdir : list Z) (row : list (option F)) (nbs : list Z)
    : res (list (Z * option F)) :=
    (* fcells[node]: the positions with slope <= 0; NaN compares False *)
    let flow_to := where_ (fun s => match s with Some x => fle0 x | None => false end) row in
    conns <- mapM (fun k => c <- get nbs k ;; s <- get row k ;; Ok (c, s)) flow_to ;;
    (* keep_idx: [fdir[conn] != 0] *)
    kept <- foldM (fun l p => d <- npget fdir (fst p) ;;
                              Ok (if d =? 0 then l else l ++ [p])) conns [] ;;
    let slopes := fold_right (fun p l => match snd p with Some x => (fst p, x) :: l | None => l end) [] kept in
    let pcts := fractions (map snd slopes) in
    let strong := filter (fun p => match snd p with Some f => fkeep f | None => false end)
                         (combine slopes pcts) in
    let slopes2 := map fst strong in
    Ok (combine (map fst slopes2) (fractions (map snd slopes2))).

  (* 1287-1342 *)
  Definition many_to_many (fdir0 strm : list Z) (basin : option (list Z))
             (slopes : list (list (option F))) (fnb : list (list Z))
    : res (list (Z * Z * option F)) :=
    fdir <- mask_fdir fdir0 basin ;;
    foldM (fun out p =>
             let '(node, hru_down) := p : nat * Z in
             if hru_down =? -9 then Ok out
             else
               (* node in stream_nodes; stream_array > 0 *)
               if memn node (where_ (fun z => 0 <? z) strm) then
                 d <- npget fdir hru_down ;;
                 Ok (out ++ [(Z.of_nat node, if d =? -9 then Z.of_nat node else hru_down, Some fone)])
               else
                 row <- get slopes node ;;
                 nbs <- get fnb node ;;
                 l <- landscape fdir row nbs ;;
                 Ok (out ++ map (fun c => (Z.of_nat node, fst c, snd c)) l))
          (combine (seq 0 (length fdir)) fdir) [].

  (* get_cascades, 1174-1200, many2many=True *)
  Definition cascades_many (fdir strm : list Z) (basin : option (list Z))
             (slopes : list (list (option F))) (fnb : list (list Z))
    : res (list (Z * Z * option F * Z)) :=
    c <- many_to_many fdir strm basin slopes fnb ;;
    finish_cascades strm c.
End Many.
