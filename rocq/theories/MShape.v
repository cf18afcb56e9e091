(** Arrays with rows and columns: what the grid classes of flopy and NumPy do to cell numbers on a
    structured grid with [nrow] rows and [ncol] columns (one layer).  A two-dimensional array is
    the list of its rows. *)
From Verif Require Import Py MFlow MStream.
Set Implicit Arguments.
Unset Strict Implicit.

(** ndarray.ravel(), C order: flow_directions.py 41, stream_util.py 134, 204, 574 *)
Definition ravel {A} (a : list (list A)) : list A := concat a.

(** ndarray.reshape((nrow, ncol)), C order: flow_directions.py 80, 88, 96, stream_util.py 75, 106, 306 *)
Fixpoint chunks {A} (ncol nrow : nat) (l : list A) : list (list A) :=
  match nrow with 0 => [] | S n => firstn ncol l :: chunks ncol n (skipn ncol l) end.
(* flow_directions.py 80, 88, 96; stream_util.py 55, 75, 106, 306, 952 *)
Definition reshape {A} (nrow ncol : nat) (l : list A) : res (list (list A)) :=
  if length l =? nrow * ncol then Ok (chunks ncol nrow l) else Err ValueError.

(** flopy StructuredGrid.get_lrc and get_node on one node / one (layer, row, column) *)
(* called at stream_util.py 607, 782, 784 *)
Definition get_lrc (nrow ncol node : nat) : nat * nat * nat :=
  (node / (nrow * ncol), (node mod (nrow * ncol)) / ncol, node mod ncol).
(* called at stream_util.py 801, flow_directions.py 414, 518, 585 *)
Definition get_node (nrow ncol : nat) (lrc : nat * nat * nat) : nat :=
  let '(l, r, c) := lrc in l * (nrow * ncol) + r * ncol + c.

(** FlowDirections.__init__ 41 and the property dem, 91-96, given a two-dimensional DEM *)
Definition dem_property {A} (nrow ncol : nat) (dem : list (list A)) : res (list (list A)) := reshape nrow ncol (ravel dem).

(** StreamBase.set_stream_array, 57-75: the array stored *)
Definition set_stream_array (nrow ncol : nat) (a : list (list Z)) : res (list (list Z)) :=
  if length (ravel a) =? nrow * ncol then reshape nrow ncol (ravel a) else Err ValueError.

(** set_stream_array(a); packagedata(): stream_util.py 57-75, 557-637 on a structured grid, with the cell ids *)
Definition packagedata2 (nrow ncol lim : nat) (fdir : list Z) (a : list (list Z)) : res (list ((nat * nat * nat) * pkg)) :=
  s <- set_stream_array nrow ncol a ;;
  recs <- packagedata_stored lim fdir (ravel s) ;;
  Ok (map (fun p => (get_lrc nrow ncol (p_node p), p)) recs).

(** Sfr6._detuple, 643-672, on a structured grid: the tuple becomes three columns *)
Definition detuple2 (recs : list ((nat * nat * nat) * pkg)) : res (list (Z * nat * nat * nat * pkg)) :=
  match recs with
  | [] => Err IndexError
  | _ => Ok (map (fun r => let '((k, i, j), p) := r in (p_ifno p, k, i, j, p)) recs)
  end.

(** set_stream_array(a); get_stream_connectivity(group_segments); reach_data(): stream_util.py 57-75, 697-720, 743-842 *)
Definition reach_data2 (nrow ncol lim fuel : nat) (grouped : bool) (fdir : list Z) (a : list (list Z)) : res (list rch) :=
  s <- set_stream_array nrow ncol a ;;
  m <- mf2005_connectivity lim fuel grouped fdir (ravel s) ;;
  reach_data (Z.of_nat ncol) (m_seg m) (m_nsr m).

(** Sfr2005.irunbnd(stream_array, segment_graph), stream_util.py 903-952 *)
Definition irunbnd2 (nrow ncol fuel : nat) (fdir : list Z) (a : list (list Z)) : res (list (list Z)) :=
  l <- irunbnd fuel fdir (ravel a) ;; reshape nrow ncol l.
