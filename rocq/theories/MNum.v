(** Model of the numeric fields of the stream products: lengths, gradients, elevations and the
    pyGSFLOW builder objects (dany/stream_util.py 538-641, 722-842, 954-1072, 1344-1402) and of
    the routed length of a cell (dany/flow_directions.py 626-687).  Arithmetic is exact (real
    numbers for NumPy's doubles); [None] is NaN. *)
From Coq Require Import Reals String.
From Verif Require Import Py MFlow MStream MGeo.
Set Implicit Arguments.
Unset Strict Implicit.
Local Notation length := List.length.
Local Open Scope R_scope.
Local Open Scope list_scope.

(* stream_util.py 576-577, 760-761; flow_directions.py 668: coordinates of a cell centre *)
Definition at_ (l : list point) (c : nat) : point := nth c l (0, 0).
(* stream_util.py 575, 762, 1035: modelgrid.top *)
Definition level (top : list (option R)) (c : nat) : option R := nth c top None.

(** [x - y], [x / y] with NaN, stream_util.py 793 and 1055 *)
Definition nsub (x y : option R) : option R :=
  match x, y with Some a, Some b => Some (a - b) | _, _ => None end.
(* stream_util.py 793, 1055 *)
Definition ndiv (x : option R) (d : R) : option R := option_map (fun a => a / d) x.

(** np.mean / np.nanmean of distances (never of an empty list here) *)
(* stream_util.py 603, 795; flow_directions.py 639 *)
Definition mean (l : list R) : R := fold_left Rplus l 0 / INR (length l).

(** ** Sfr6.packagedata, stream_util.py 589-614, the fields rlen, rgrd and rtp of a record.
    [cells] holds the vertices of each cell, [verts[iv] for iv in iverts[node]]. *)
(** 593-602: [range(1, len(verts))] *)
Definition edges (p : list point) : list R :=
  map (fun i => distance (nth (i - 1) p (0, 0)) (nth i p (0, 0))) (seq 1 (length p - 1)).

(* 605, 613, 614 *)
Record pkgn := Pkgn { n_rlen : R; n_rgrd : R; n_rtp : option R }.

(* 589-614 *)
Definition pkg_num (centers : list point) (cells : list (list point)) (slope : list R)
           (top : list (option R)) (p : pkg) : pkgn :=
  let d := distance (at_ centers (p_node p)) (at_ centers (p_node_dn p)) in
  let d := if Req_EM_T d 0 then mean (edges (nth (p_node p) cells [])) else d in
  Pkgn (d * 1.5) (nth (p_node p) slope 0 / 1.5) (level top (p_node p)).

(* 574-621 *)
Definition packagedata_num centers cells slope top (graph : ngraph) (strm : list Z) : res (list (pkg * pkgn)) :=
  pk <- packagedata graph strm ;; Ok (map (fun p => (p, pkg_num centers cells slope top p)) pk).

(** the StructuredGrid cell [i, j] in flopy: four vertices, clockwise from the upper left *)
(* flopy; read at stream_util.py 594-595 *)
Definition flopy_rectangle (x y w h : R) : list point := [(x, y + h); (x + w, y + h); (x + w, y); (x, y)].

(** ** Sfr2005.reach_data, stream_util.py 782-800, the fields rchlen, strtop and slope.
    Arrays are raveled: [xcenters[irch, jrch]] is entry [r_node]. *)
Record rnum := RNum { q_len : R; q_top : option R; q_slope : option R }.

(* 782-800 *)
Definition reach_num (centers : list point) (top : list (option R)) (delr delc : list R) (r : rch) : rnum :=
  let c := Z.to_nat (r_node r) in
  let outlet := RNum (1.5 * mean [nth (Z.to_nat (r_j r)) delr 0; nth (Z.to_nat (r_i r)) delc 0])
                     (level top c) (Some 0.0001) in
  match r_dn r with
  | Some d =>
      if (d =? r_node r)%Z then outlet
      else let len := distance (at_ centers c) (at_ centers (Z.to_nat d)) * 1.5 in
           RNum len (level top c) (ndiv (nsub (level top c) (level top (Z.to_nat d))) len)
  | None => outlet
  end.

(* 763-842 *)
Definition reach_data_num centers top delr delc ncol seg_graph nsr : res (list (rch * rnum)) :=
  recs <- reach_data ncol seg_graph nsr ;; Ok (map (fun r => (r, reach_num centers top delr delc r)) recs).

(** ** Sfr2005.get_pygsflow_builder_object, 954-1072 *)
(** 1008-1019: [for k, v in kwargs] iterates over the keys of the dict and unpacks each key, a
    string, into two characters: ValueError unless it has two; no one-letter name is a default,
    so a two-letter key raises KeyError.  [group_segments] is popped before. *)
(* 986-1007 *)
Definition known_names : list string :=
  ["strhc1"; "strthick"; "etsw"; "flow"; "icalc"; "iprior"; "pptsw"; "roughch"; "runoff"; "width1";
   "width2"; "default_slope"; "min_slope"; "max_slope"]%string.

(* 1009-1019 *)
Fixpoint parse_kwargs (keys : list string) : res unit :=
  match keys with
  | [] => Ok tt
  | k :: keys' =>
      match k with
      | String a (String b EmptyString) =>
          if existsb (String.eqb (String a EmptyString)) known_names then parse_kwargs keys' else Err KeyError
      | _ => Err ValueError
      end
  end.
(* 1008-1019 *)
Definition builder_kwargs (keys : list string) : res unit :=
  parse_kwargs (filter (fun k => negb (String.eqb k "group_segments")) keys).

(** 1036-1063: strtop and slope of every reach.  A record is (node, outreach). *)
(* 1002-1006 *)
Record slopes_cfg := Cfg { default_slope : R; min_slope : R; max_slope : R }.
(* 1002-1006 *)
Definition builder_cfg : slopes_cfg := Cfg 0.001 0.0001 1.

(** 1057-1060 *)
Definition clamp (cfg : slopes_cfg) (s : R) : R :=
  if Rlt_dec (max_slope cfg) s then max_slope cfg
  else if Rlt_dec s (min_slope cfg) then min_slope cfg else s.

(* 1044-1060 *)
Definition builder_slope (cfg : slopes_cfg) (centers : list point) (top : list (option R)) (c d : nat) : option R :=
  let dd := distance (at_ centers c) (at_ centers d) in
  let s := if Req_EM_T dd 0 then Some (default_slope cfg) else ndiv (nsub (level top c) (level top d)) dd in
  option_map (clamp cfg) s.

(* 1036-1063 *)
Definition builder_reaches (cfg : slopes_cfg) (centers : list point) (top : list (option R))
           (recs : list (nat * Z)) : res (list (option R * option R)) :=
  mapM (fun r =>
          let '(node, outreach) := r in
          let ix := (outreach - 1)%Z in
          node_dn <- (if (Z.of_nat (length recs) <=? ix)%Z then Ok node
                      else r' <- npget recs ix ;; Ok (fst r')) ;;
          Ok (level top node, builder_slope cfg centers top node node_dn)) recs.

(** the reach_data the method builds for itself: the line storing the outreach column is
    commented out (840), so the column keeps the 0 of flopy's get_empty_reach_data *)
Definition own_reaches (recs : list rch) : list (nat * Z) := map (fun r => (Z.to_nat (r_node r), 0%Z)) recs.

(** ** FlowDirections.hru_len, flow_directions.py 626-687 *)
(** np.mean(axis=0) of points, 639 *)
Definition centroid (l : list point) : point := (mean (map fst l), mean (map snd l)).

(** _get_shared_vertex, 626-641 *)
Definition shared_vertex (verts : list point) (iv0 iv1 : list nat) : res point :=
  let shared := map (at_ verts) (filter (fun iv => memn iv iv1) iv0) in
  match shared with
  | [] => Err IndexError
  | [p] => Ok p
  | _ => Ok (centroid shared)
  end.

(* 652-675 *)
Definition hru_len (verts : list point) (iverts : list (list nat)) (centers : list point) (fdir : list Z)
  : res (list R) :=
  mapM (fun p =>
          let '(node, dn) := p : nat * Z in
          ivs <- get iverts node ;;
          dnivs <- npget iverts dn ;;
          first <- shared_vertex verts ivs dnivs ;;
          rest <- mapM (fun up => upivs <- get iverts up ;; shared_vertex verts ivs upivs)
                       (where_ (Z.eqb (Z.of_nat node)) fdir) ;;
          let ds := map (fun q => distance q (at_ centers node)) (first :: rest) in
          Ok (fold_left Rplus ds 0 / (INR (length ds) / 2)))
       (combine (seq 0 (length fdir)) fdir).
