(** Model of the stream objects Sfr6, Sfr2005 and PrmsStreams (dany/stream_util.py): what their
    calls store on the object, what they reuse, and what they return.  Every call is a
    function from the object before the call to the object after it and the value returned or
    the exception raised.  The flow directions and accumulation are those of the
    FlowDirections object at construction (22-36, 471-477, 688-695, 1089-1094).
    Reshaping is left out (see MStream); the arrays returned are taken to be copies: that
    delineate_streams returns, and set_stream_array keeps, the very array stored is not modelled. *)
From Verif Require Import Py MFlow MStream.
Set Implicit Arguments.
Local Open Scope list_scope.

(* stream_util.py 458, 675, 1075 *)
Inductive klass := KSfr6 | KSfr2005 | KPrms.

(** the attributes that calls change: _stream_array, _graph, _seg_graph, _node_seg_rch.
    [None] is Python's None (or, for _seg_graph of an Sfr6 or PrmsStreams, a missing attribute:
    these classes never read it before writing it).  A graph of reaches {1: 2, ...} is stored
    as a graph without None values. *)
(* 27-28, 694-695 *)
Record sobj := SObj { so_strm : option (list Z); so_graph : option ngraph;
                      so_seg : option topology; so_nsr : list (Z * Z * Z) }.

(** __init__, 27-28 and 694-695 *)
Definition new_streams : sobj := SObj None None None [].

Section StreamObject.
  (** accumulation values, cascade fractions *)
  Context {T F : Type} (ge : T -> T -> bool).
  Variables (fone : F) (fabs : F -> F) (fsum : list F -> F) (fdiv : F -> F -> option F)
            (fle0 fkeep : F -> bool).
  Variables (lim fuel : nat) (ncol : Z) (fdir : list Z) (facc : list T).
  (** _faobj._calculate_slopes() and _faobj._fneighbors *)
  Variables (slopes : list (list (option F))) (fnb : list (list Z)).

  (* the public calls: 39, 57, 77, 314, 481, 500, 538, 697, 722, 844, 887, 1096, 1124 *)
  Inductive scall :=
  | DelineateStreams (contrib : threshold T) (basin : option (list Z))
  | SetStreamArray (a : list Z)
  | StreamArray
  | StreamConnectivity (a : option (list Z)) (grouped : bool)
  | CreateStreamVectors (a : option (list Z)) (grouped : bool)
  | ConnectionData (graph : option topology)
  | PackageData (a : option (list Z))
  | SegmentData (a : option (list Z)) (grouped : bool)
  | ReachData (a : option (list Z)) (grouped : bool)
  | Irunbnd (a : option (list Z)) (graph : option topology) (grouped : bool)
  | Cascades (a : option (list Z)) (basin : option (list Z)) (many2many grouped : bool).

  (* what they return *)
  Inductive sanswer :=
  | AArray (a : list Z) | AGraph (g : topology) | AConn (c : list (list Z)) | APkg (p : list pkg)
  | ASegs (l : list (Z * Z)) | AReach (l : list rch) | AVec (v : list (Z * list Z))
  | ACasc (c : list (Z * Z * option F * Z)) | ANone.

  (** 49-53, 125-132, 194-201, 744-751, 860-867, 903-910: [if stream_array is None: if self._stream_array is None: raise AssertionError] *)
  Definition pick (o : sobj) (a : option (list Z)) : res (list Z) :=
    match a, so_strm o with
    | Some a, _ => Ok a
    | None, Some s => Ok s
    | None, None => Err AssertionError
    end.

  (** run [r]; if it returns, continue with the new object and the value, else the object is as before *)
  (* exceptions inside a call; the stores 169-170 and 306-311 come after the computation *)
  Definition andthen {A} (o : sobj) (r : res (sobj * A)) (k : sobj -> A -> sobj * res sanswer)
    : sobj * res sanswer :=
    match r with Ok (o', x) => k o' x | Err e => (o, Err e) end.

  (** _mf6_stream_connectivity, 125-171 *)
  Definition run6 (o : sobj) (a : option (list Z)) : res (sobj * topology) :=
    strm <- pick o a ;;
    ' (s, g) <- mf6_connectivity lim fdir strm ;;
    Ok (SObj (Some s) (Some (some_graph g)) (so_seg o) (so_nsr o), g).

  (** _mf2005_stream_connectivity, 194-312 *)
  Definition run2005 (o : sobj) (a : option (list Z)) (grouped : bool) : res (sobj * mf2005) :=
    strm <- pick o a ;;
    m <- mf2005_connectivity lim fuel grouped fdir strm ;;
    Ok (SObj (Some (m_strm m)) (Some (m_graph m)) (Some (m_seg m)) (m_nsr m), m).

  (* a call that stores nothing: connectiondata 524-536, irunbnd 921-952, get_cascades 1186-1200 *)
  Definition lift {A} (o : sobj) (r : res A) (f : A -> sanswer) : sobj * res sanswer :=
    (o, x <- r ;; Ok (f x)).

  (** delineate_streams, 95-107 *)
  Definition do_delineate (o : sobj) (contrib : threshold T) (basin : option (list Z)) : sobj * res sanswer :=
    match delineate_streams ge facc contrib basin with
    | Ok s => (SObj (Some s) (so_graph o) (so_seg o) (so_nsr o), Ok (AArray s))
    | Err e => (o, Err e)
    end.

  (** set_stream_array, 69-75 *)
  Definition do_set (o : sobj) (a : list Z) : sobj * res sanswer :=
    if negb (Nat.eqb (length a) (length fdir)) then (o, Err ValueError)
    else (SObj (Some a) (so_graph o) (so_seg o) (so_nsr o), Ok ANone).

  (** create_stream_vectors, 337-379 *)
  Definition do_vectors (o : sobj) (a : option (list Z)) (grouped : bool) : sobj * res sanswer :=
    andthen o (run2005 o a grouped)
      (fun o m => lift o (stream_vectors fuel (m_seg m) (m_nsr m)) AVec).

  (** connectiondata, 511-536 *)
  Definition do_conndata (o : sobj) (graph : option topology) : sobj * res sanswer :=
    match graph with
    | Some g => lift o (connectiondata (some_graph g)) AConn
    | None =>
        match so_graph o with
        | Some g => lift o (connectiondata g) AConn
        | None => andthen o (run6 o None) (fun o g => lift o (connectiondata (some_graph g)) AConn)
        end
    end.

  (** packagedata, 557-573 *)
  Definition do_pkgdata (o : sobj) (a : option (list Z)) : sobj * res sanswer :=
    match a with
    | Some a => andthen o (run6 o (Some a)) (fun o g => lift o (packagedata (some_graph g) a) APkg)
    | None =>
        match so_graph o with
        | Some g => lift o (s <- pick o None ;; packagedata g s) APkg
        | None => andthen o (run6 o None)
                    (fun o g => lift o (s <- pick o None ;; packagedata (some_graph g) s) APkg)
        end
    end.

  (** reach_data 743-757 and segment_data 859-873: the connectivity is run if there is none *)
  Definition ensure_segs (o : sobj) (a : option (list Z)) (grouped : bool) : res (sobj * (topology * list (Z * Z * Z))) :=
    strm <- pick o a ;;
    match so_seg o with
    | Some g => Ok (o, (g, so_nsr o))
    | None => ' (o', m) <- run2005 o (Some strm) grouped ;; Ok (o', (m_seg m, m_nsr m))
    end.

  (* segment_data, 859-885 *)
  Definition do_segdata (o : sobj) (a : option (list Z)) (grouped : bool) : sobj * res sanswer :=
    andthen o (ensure_segs o a grouped) (fun o gn => lift o (Ok (segment_data (fst gn))) ASegs).
  (* reach_data, 743-842 *)
  Definition do_reachdata (o : sobj) (a : option (list Z)) (grouped : bool) : sobj * res sanswer :=
    andthen o (ensure_segs o a grouped) (fun o gn => lift o (reach_data ncol (fst gn) (snd gn)) AReach).

  (** irunbnd, 903-952 *)
  Definition do_irunbnd (o : sobj) (a : option (list Z)) (graph : option topology) (grouped : bool) : sobj * res sanswer :=
    match pick o a with
    | Err e => (o, Err e)
    | Ok strm =>
        match graph, so_seg o with
        | None, None => andthen o (run2005 o (Some strm) grouped)
                          (fun o m => lift o (irunbnd fuel fdir (m_strm m)) AArray)
        | _, _ => lift o (irunbnd fuel fdir strm) AArray
        end
    end.

  (** PrmsStreams.get_stream_connectivity, 1119-1122 *)
  Definition prms_connect (o : sobj) (a : option (list Z)) (grouped : bool) : res (sobj * topology) :=
    if grouped then ' (o, m) <- run2005 o a true ;; Ok (o, m_seg m) else run6 o a.

  (** get_cascades, 1166-1200 *)
  Definition do_cascades (o : sobj) (a basin : option (list Z)) (many grouped : bool) : sobj * res sanswer :=
    let finish o strm :=
      lift o (if many : bool then cascades_many fone fabs fsum fdiv fle0 fkeep fdir strm basin slopes fnb
              else cascades_one (Some fone) fdir strm basin) ACasc in
    match pick o a with
    | Err e => (o, Err e)
    | Ok strm =>
        match so_graph o with
        | Some _ => finish o strm
        | None => andthen o (prms_connect o (Some strm) grouped)
                    (fun o _ => match pick o None with
                                | Ok strm => finish o strm
                                | Err e => (o, Err e)
                                end)
        end
    end.

  (** PrmsStreams.get_pygsflow_builder_object, 1372-1402, and PygsflowCascades.__init__, 1558-1583:
      the cascades, ncascade, cascade_flag, nsegments and nreaches.  hru_slope, hru_aspect and
      hru_area are the slope, aspect and area of the FlowDirections object (MGeo.v), raveled. *)
  Record casc_object := CascObject { co_casc : list (Z * Z * option F * Z); co_ncascade : nat;
                                     co_flag : Z; co_nsegments : nat; co_nreaches : nat }.
  (* 1372-1402 *)
  Definition do_prms_builder (o : sobj) (a basin : option (list Z)) (grouped many : bool)
    : sobj * res casc_object :=
    match prms_connect o a grouped with
    | Err e => (o, Err e)
    | Ok (o1, strm_conn) =>
        match do_cascades o1 (so_strm o1) basin many false with
        | (o2, Ok (ACasc c)) =>
            (o2, strm <- pick o2 a ;;
                 Ok (CascObject c (length c) (if many then 0%Z else 1%Z) (length strm_conn) (length (nonzero strm))))
        | (o2, Ok _) => (o2, Err TypeError)   (* get_cascades returns cascades *)
        | (o2, Err e) => (o2, Err e)
        end
    end.

  (** a method the class does not have raises AttributeError *)
  (* one call on an Sfr6 (458-672), Sfr2005 (675-1072) or PrmsStreams (1075-1402) object *)
  Definition scall_step (k : klass) (o : sobj) (c : scall) : sobj * res sanswer :=
    match k, c with
    | _, DelineateStreams contrib basin => do_delineate o contrib basin
    | _, SetStreamArray a => do_set o a
    | _, StreamArray => lift o (pick o None) AArray
    | KSfr6, StreamConnectivity a _ => andthen o (run6 o a) (fun o g => (o, Ok (AGraph g)))
    | KSfr2005, StreamConnectivity a grouped =>
        andthen o (run2005 o a grouped) (fun o m => (o, Ok (AGraph (m_seg m))))
    | KPrms, StreamConnectivity a grouped =>
        andthen o (prms_connect o a grouped) (fun o g => (o, Ok (AGraph g)))
    | _, CreateStreamVectors a grouped => do_vectors o a grouped
    | KSfr6, ConnectionData g => do_conndata o g
    | KSfr6, PackageData a => do_pkgdata o a
    | KSfr2005, SegmentData a grouped => do_segdata o a grouped
    | KSfr2005, ReachData a grouped => do_reachdata o a grouped
    | KSfr2005, Irunbnd a g grouped => do_irunbnd o a g grouped
    | KPrms, Cascades a basin many grouped => do_cascades o a basin many grouped
    | _, _ => (o, Err AttributeError)
    end.

  (* a history of calls on a new object (22-36) *)
  Definition scalls (k : klass) (h : list scall) : sobj :=
    fold_left (fun o c => fst (scall_step k o c)) h new_streams.
  (* the answer to a call after a history *)
  Definition sreply (k : klass) (h : list scall) (c : scall) : res sanswer := snd (scall_step k (scalls k h) c).
End StreamObject.
