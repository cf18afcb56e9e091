(** The element type of the stream array.  Both connectivity methods write the reach or
    segment numbers into a copy of the caller's array (stream_util.py 134, 204), so each
    number is converted to that array's type when it is stored: [cast] is this conversion
    (the identity for int64 and float64 arrays of ordinary size; 0 or 1 for boolean arrays;
    reduction modulo 256 for uint8 arrays with NumPy 1).  The definitions repeat those of
    [MStream] with [cast] at every store into the array. *)
From Verif Require Import Py MFlow MStream.
Set Implicit Arguments.
Unset Strict Implicit.
Local Open Scope Z_scope.
Local Open Scope list_scope.

(** bool arrays: True is 1, False is 0 (also as dictionary keys and in comparisons) *)
(* stream_util.py 134, 204: the copies keep the type *)
Definition as_bool (z : Z) : Z := if z =? 0 then 0 else 1.

Section Cast.
  Variable cast : Z -> Z.

  (** _mf6_stream_connectivity, stream_util.py 134-171 *)
  Definition mf6_connectivity_as (lim : nat) (fdir strm : list Z) : res (list Z * topology) :=
    let nodes := nonzero strm in
    s1 <- foldM (fun a p => set a (snd p) (cast (Z.of_nat (fst p))))
                (combine (seq 1 (length nodes)) nodes) strm ;;
    topo <- foldM (fun t node =>
                     rchid <- get s1 node ;;
                     flow_to <- get fdir node ;;
                     rchto <- npget s1 flow_to ;;
                     Ok (add_connection t rchid rchto)) nodes [] ;;
    sorted <- topo_sort lim topo ;;
    let mapper := enumerate1 sorted in
    new_map <- foldM (fun m kv =>
                        old_to <- dgetE Z.eqb topo (fst kv) ;;
                        to <- (if old_to =? 0 then Ok 0 else dgetE Z.eqb mapper old_to) ;;
                        Ok (dset Z.eqb m (snd kv) to)) mapper [] ;;
    s2 <- foldM (fun a node =>
                   old <- get a node ;;
                   new <- dgetE Z.eqb mapper old ;;
                   set a node (cast new)) nodes s1 ;;
    Ok (s2, new_map).

  (** the [while True] loop of one segment, stream_util.py 237-251 *)
  Fixpoint seg_walk_as (fuel : nat) (g : ngraph) (starts : list (Z * Z)) (seg : Z)
           (node rch : Z) (s : grp) : res grp :=
    match fuel with
    | O => Err OutOfFuel
    | S f =>
        let nsr := g_nsr s ++ [(node, seg, rch)] in
        strm <- npset (g_strm s) node (cast seg) ;;
        dn <- dgetE Z.eqb g node ;;
        match dn with
        | None => Ok (Grp nsr strm (dset Z.eqb (g_seg s) seg 0))
        | Some d =>
            match dget Z.eqb starts d with
            | Some s' => Ok (Grp nsr strm (dset Z.eqb (g_seg s) seg s'))
            | None => seg_walk_as f g starts seg d (rch + 1) (Grp nsr strm (g_seg s))
            end
        end
    end.
  (* stream_util.py 214-251 *)
  Definition group_segments_as (fuel : nat) (g : ngraph) (strm : list Z) : res grp :=
    let starts := seg_starts g in
    foldM (fun s ns => seg_walk_as fuel g starts (snd ns) (fst ns) 1 s) starts (Grp [] strm []).

  (** ungrouped: stream_util.py 253-278 *)
  Definition single_segments_as (g : ngraph) (strm : list Z) : res grp :=
    let nd_seg := number_nodes g in
    foldM (fun s kv =>
             let '(node, dn) := kv : Z * option Z in
             segup <- dgetE Z.eqb nd_seg node ;;
             strm1 <- npset (g_strm s) node (cast segup) ;;
             let nsr := g_nsr s ++ [(node, segup, 1)] in
             match dn with
             | None => Ok (Grp nsr strm1 (dset Z.eqb (g_seg s) segup 0))
             | Some d =>
                 segdn <- dgetE Z.eqb nd_seg d ;;
                 if segdn =? segup then Ok (Grp nsr strm1 (dset Z.eqb (g_seg s) segup 0))
                 else strm2 <- npset strm1 d (cast segdn) ;;
                      Ok (Grp nsr strm2 (dset Z.eqb (g_seg s) segup segdn))
             end)
          g (Grp [] strm []).

  (** stream_util.py 203-312; the array of segment numbers (299-304) is a fresh int array *)
  Definition mf2005_connectivity_as (lim fuel : nat) (grouped : bool) (fdir strm : list Z) : res mf2005 :=
    let nodes := nonzero strm in
    g <- node_graph fdir nodes ;;
    s <- (if grouped then group_segments_as fuel g strm else single_segments_as g strm) ;;
    let topo := fold_left (fun t kv => add_connection t (fst kv) (snd kv)) (g_seg s) [] in
    sorted <- topo_sort lim topo ;;
    let mapper := dset Z.eqb (enumerate1 sorted) 0 0 in
    nsr <- mapM (fun r => let '(node, seg, rch) := r in
                          new <- dgetE Z.eqb mapper seg ;; Ok (node, new, rch)) (g_nsr s) ;;
    seg <- foldM (fun t kv => a <- dgetE Z.eqb mapper (fst kv) ;;
                              b <- dgetE Z.eqb mapper (snd kv) ;;
                              Ok (dset Z.eqb t a b)) (g_seg s) [] ;;
    let arr := fold_left (fun a kv =>
                   map (fun p => if fst p =? fst kv then snd kv else snd p)
                       (combine (g_strm s) a))
                 mapper (repeat 0 (length (g_strm s))) in
    Ok (Mf2005 arr g seg nsr).
End Cast.
