(** Model of a whole session: several FlowDirections and stream objects living on one modelgrid,
    with the arrays they store, share, copy, write in place and hand to the user.

    A session owns a heap of numpy arrays and dictionaries; a reference is an index in the heap.
    Reshaping and raveling a contiguous array give views of the same data, so they keep the
    reference; [np.copy], [.copy()], [np.zeros], [np.full], [np.where] and [np.array] make a new
    one.  Everything the code changes in place is written with [write].  The computations
    themselves are those of MFlow.v, MDir.v, MStream.v; the objects without sharing are in
    MObj.v and MSobj.v.
    Simplifications: scratch data no caller can reach is not put on the heap, except that a copy
    the code makes before writing in place is; all objects use one modelgrid; arrays have the type
    the documentation gives them (passing one of another kind raises TypeError here, before anything else). *)
From Verif Require Import Py MFlow MDir MObj MStream MSobj.
Set Implicit Arguments.
Local Open Scope nat_scope.
Local Open Scope list_scope.

(* a Python reference to an array or dictionary *)
Definition ref := nat.

Section World.
  Context {T W : Type}.
  Variables (tsub tdiv : T -> T -> T) (tlt teq : T -> T -> bool) (tzero tbig : T).
  Variables (wadd : W -> W -> W) (wzero : W).
  Variables (fone : T) (fabs : T -> T) (fsum : list T -> T) (fdiv : T -> T -> option T)
            (fle0 fkeep : T -> bool).
  (** accumulation values: numbers of cells or areas *)
  Variable vge : Z + W -> Z + W -> bool.
  Variables (fuel lim : nat) (ncol : Z).
  (** the modelgrid: distances between cell centres, cell areas, neighbours *)
  Variables (dist : nat -> nat -> T) (areas : list W) (nb0 : list (list nat)).

  (** ** the heap *)
  (* arrays and dictionaries made at flow_directions.py 41, 380, 409, 450-451, 522, 618 and stream_util.py 102, 134, 154, 204, 235, 299 *)
  Inductive cell := CInts (l : list Z) | CElevs (l : list (option T)) | CAcc (f : @facc W) | CDict (g : topology).
  (* all arrays and dictionaries that exist *)
  Definition heap := list cell.

  (* flow_directions.py 470, 474: entries of the accumulation array *)
  Definition fvals (f : @facc W) : list (Z + W) :=
    match f with Cells l => map inl l | Areas l => map inr l end.

  (** a call reads and writes the heap and the attributes [S] of its object *)
  (* a method body: reads and writes arrays and attributes, may raise *)
  Definition M (S A : Type) := heap -> S -> heap * S * res A.
  (* return *)
  Definition ret {S A} (x : A) : M S A := fun h s => (h, s, Ok x).
  (* raise *)
  Definition fail {S A} (e : exn) : M S A := fun h s => (h, s, Err e).
  (* one statement after another *)
  Definition mbind {S A B} (m : M S A) (f : A -> M S B) : M S B :=
    fun h s => match m h s with (h, s, Ok x) => f x h s | (h, s, Err e) => (h, s, Err e) end.
  Local Notation "x <~ m ;; k" := (mbind m (fun x => k)) (at level 100, m at next level, right associativity).
  Local Notation "m ;;; k" := (mbind m (fun _ => k)) (at level 100, right associativity).
  (* a computation on values *)
  Definition liftr {S A} (r : res A) : M S A := fun h s => (h, s, r).
  (* self *)
  Definition this {S} : M S S := fun h s => (h, s, Ok s).
  (* assignment to attributes of self *)
  Definition store {S} (s : S) : M S unit := fun h _ => (h, s, Ok tt).
  (* np.zeros, np.full, np.where, np.array, a dict literal (flow_directions.py 380, 409, 522; stream_util.py 102, 154, 299) *)
  Definition alloc {S} (c : cell) : M S ref := fun h s => (h ++ [c], s, Ok (length h)).
  (* the contents of an array *)
  Definition read {S} (r : ref) : M S cell := fun h s => (h, s, get h r).
  (* assignment to entries of an array *)
  Definition write {S} (r : ref) (c : cell) : M S unit := fun h s => (upd h r c, s, Ok tt).
  (* .copy(), np.copy (flow_directions.py 451; stream_util.py 55, 134, 204, 338, 921, 1174, 1227) *)
  Definition copy {S} (r : ref) : M S ref := c <~ read r ;; alloc c.

  (* an integer array *)
  Definition as_ints (c : cell) : res (list Z) := match c with CInts l => Ok l | _ => Err TypeError end.
  (* an elevation array *)
  Definition as_elevs (c : cell) : res (list (option T)) := match c with CElevs l => Ok l | _ => Err TypeError end.
  (* an accumulation array *)
  Definition as_acc (c : cell) : res (@facc W) := match c with CAcc f => Ok f | _ => Err TypeError end.
  (* an area array *)
  Definition as_areas (c : cell) : res (list W) := match c with CAcc (Areas l) => Ok l | _ => Err TypeError end.
  (* a graph *)
  Definition as_dict (c : cell) : res topology := match c with CDict g => Ok g | _ => Err TypeError end.
  (* read an integer array *)
  Definition ints {S} (r : ref) : M S (list Z) := c <~ read r ;; liftr (as_ints c).
  (* read elevations *)
  Definition elevs {S} (r : ref) : M S (list (option T)) := c <~ read r ;; liftr (as_elevs c).
  (* read an accumulation array *)
  Definition accs {S} (r : ref) : M S (@facc W) := c <~ read r ;; liftr (as_acc c).
  (* read areas *)
  Definition area_vals {S} (r : ref) : M S (list W) := c <~ read r ;; liftr (as_areas c).
  (* read a graph *)
  Definition dict {S} (r : ref) : M S topology := c <~ read r ;; liftr (as_dict c).
  (* read an optional argument *)
  Definition opt_ints {S} (r : option ref) : M S (option (list Z)) :=
    match r with None => ret None | Some r => l <~ ints r ;; ret (Some l) end.

  (** ** FlowDirections objects *)

  (** the attributes of __init__ 23-64: _dem (without its last entry 1e10, which no view shows),
      _area, _min_cell (fixed at construction), _neighbors, _threshold, _fdir, _fdir_r, _facc *)
  Record flow := Flow { f_dem : ref; f_area : ref; f_mins : list nat; f_nb : list (list nat); f_thr : T;
                        f_fdir : option ref; f_rev : option (list (list Z)); f_acc : option ref }.

  (* flow_directions.py 67-96, 371, 387, 430, 477, 543 *)
  Inductive fcommand :=
  | WFlowDirections (thr : T) (terminals : list Z)
  | WFlowDirectionArray | WFlowAccumulationArray | WDem | WArea
  | WNidp
  | WAccumulation (as_cells : bool)
  | WWatershed (c : Z)
  | WSubbasins (cs : list Z).

  (** flow_directions, 408-428, with the _min_cell stored at construction.  As in MObj.v, after
      an exception _fdir is None. *)
  Definition flow_directions_from (mins : list nat) (dem : list (option T)) (nb : list (list nat)) (thr : T)
             (terminals : list Z) : res (list Z * list (list nat)) :=
    let N := length dem in
    (fdir <- start_fdir N mins terminals ;;
    let fnb := pad_neighbors N nb in
    fcells <- fcells_of tlt teq (calculate_slopes tsub tdiv tlt tzero tbig N thr dist dem fnb) ;;
    fdir <- calculate_flowcell fuel (fun c => match nth c dem None with None => true | _ => false end)
                               fnb fcells fdir ;;
    Ok (fdir, fnb))%list.

  (* flow_directions.py 408-428 *)
  Definition w_flow_directions (thr : T) (terminals : list Z) : M flow ref :=
    s <~ this ;;
    dem <~ elevs (f_dem s) ;;
    store (Flow (f_dem s) (f_area s) (f_mins s) (f_nb s) thr None (f_rev s) (f_acc s)) ;;;   (* 408-409 *)
    r <~ alloc (CInts (repeat (-1)%Z (length dem))) ;;                                       (* 409 *)
    p <~ liftr (flow_directions_from (f_mins s) dem (f_nb s) thr terminals) ;;
    write r (CInts (fst p)) ;;;
    store (Flow (f_dem s) (f_area s) (f_mins s) (snd p) thr (Some r) (f_rev s) (f_acc s)) ;;;
    ret r.

  (* flow_directions.py 75-80 *)
  Definition w_fdir : M flow ref :=
    s <~ this ;; match f_fdir s with Some r => ret r | None => fail AttributeError end.

  (** get_nidp, 371-385: a new array *)
  Definition w_nidp : M flow ref :=
    r <~ w_fdir ;; fdir <~ ints r ;; n <~ liftr (get_nidp fdir) ;; alloc (CInts n).

  (** flow_accumulation, 449-475: new arrays (the areas copied, 451), written in place; the one
      returned is stored *)
  Definition w_accumulation (as_cells : bool) : M flow ref :=
    r <~ w_fdir ;; fdir <~ ints r ;; s <~ this ;;
    rc <~ alloc (CAcc (Cells (repeat 1%Z (length fdir)))) ;;
    ra <~ copy (f_area s) ;;
    area <~ area_vals ra ;;
    a <~ liftr (acc_run wadd wzero fuel fdir area) ;;
    write rc (CAcc (Cells (a_cnt a))) ;;;
    write ra (CAcc (Areas (a_area a))) ;;;
    let r := if as_cells then rc else ra in
    store (Flow (f_dem s) (f_area s) (f_mins s) (f_nb s) (f_thr s) (f_fdir s) (f_rev s) (Some r)) ;;;
    ret r.

  (** _reverse_flow_directions, 347-369 (the array is never handed out) *)
  Definition w_reverse : M flow (list (list Z)) :=
    s <~ this ;;
    match f_rev s with
    | Some v => ret v
    | None =>
        r <~ w_fdir ;; fdir <~ ints r ;; v <~ liftr (reverse_flow_directions fdir) ;;
        store (Flow (f_dem s) (f_area s) (f_mins s) (f_nb s) (f_thr s) (f_fdir s) (Some v) (f_acc s)) ;;;
        ret v
    end.

  (** get_watershed_boundary, 520-541, writing in place into the array [z] *)
  Definition w_watershed_into (z : ref) (c : Z) : M flow unit :=
    v <~ w_reverse ;; r <~ w_fdir ;; fdir <~ ints r ;;
    sub <~ ints z ;;
    out <~ liftr (watershed_with fuel fdir v c (Some sub)) ;;
    write z (CInts out).
  (* flow_directions.py 520-541 *)
  Definition w_watershed (c : Z) : M flow ref :=
    v <~ w_reverse ;; r <~ w_fdir ;; fdir <~ ints r ;;
    z <~ alloc (CInts (repeat 0%Z (length fdir))) ;;      (* 522: np.zeros *)
    w_watershed_into z c ;;; ret z.

  (** get_subbasins, 589-624: the loop 619-623 *)
  Fixpoint w_sub_loop (z : ref) (cellids : list Z) (idxs : list nat) : M flow unit :=
    match idxs with
    | [] => ret tt
    | i :: idxs' => c <~ liftr (get cellids i) ;; w_watershed_into z c ;;; w_sub_loop z cellids idxs'
    end.
  (* flow_directions.py 589-624 *)
  Definition w_subbasins (cs : list Z) : M flow ref :=
    s <~ this ;;
    match f_fdir s with
    | None => fail (match cs with [] => AttributeError | _ => TypeError end)
    | Some r =>
        fdir <~ ints r ;;
        idxs <~ liftr (sub_order fuel lim fdir cs) ;;
        z <~ alloc (CInts (repeat 0%Z (length fdir))) ;;  (* 618 *)
        w_sub_loop z cs idxs ;;; ret z
    end.

  (** the properties 66-96 return views: the stored arrays themselves *)
  Definition w_fcall (c : fcommand) : M flow ref :=
    match c with
    | WFlowDirections thr terminals => w_flow_directions thr terminals
    | WFlowDirectionArray => w_fdir
    | WFlowAccumulationArray => s <~ this ;; match f_acc s with Some r => ret r | None => fail AttributeError end
    | WDem => s <~ this ;; ret (f_dem s)
    | WArea => s <~ this ;; ret (f_area s)
    | WNidp => w_nidp
    | WAccumulation b => w_accumulation b
    | WWatershed c => w_watershed c
    | WSubbasins cs => w_subbasins cs
    end.

  (** ** stream objects *)

  (** __init__ 22-36, 471-477, 688-695, 1089-1094: the class, the FlowDirections object (kept by
      PrmsStreams as _faobj), its arrays _fdir and _facc at construction, then _stream_array,
      _graph (a dictionary handed out by the MODFLOW 6 connectivity, one nobody else sees after
      the MODFLOW-2005 one), _seg_graph, _node_seg_rch *)
  Record strm := Strm { s_kind : klass; s_fa : nat; s_fdir : ref; s_facc : ref; s_strm : option ref;
                        s_graph : option (ref + ngraph); s_seg : option ref; s_nsr : list (Z * Z * Z) }.

  (* what calls return *)
  Inductive wanswer :=
  | ARef (r : ref)                                   (* an array or dictionary of the heap *)
  | APlain (a : @sanswer T)                          (* new data nobody else holds *)
  | ALevels (a : @sanswer T) (tops : list (option T))  (* records, and their stream-top elevations *)
  | ANothing.

  (* stream_util.py 39, 57, 77, 314, 481, 500, 538, 697, 722, 844, 887, 1096, 1124 *)
  Inductive wcall :=
  | WDelineate (contrib : (Z + W) + ref) (basin : option ref)
  | WSetStreamArray (a : ref)
  | WStreamArray
  | WConnectivity (a : option ref) (grouped : bool)
  | WVectors (a : option ref) (grouped : bool)
  | WConnectionData (g : option ref)
  | WPackageData (a : option ref)
  | WSegmentData (a : option ref) (grouped : bool)
  | WReachData (a : option ref) (grouped : bool)
  | WIrunbnd (a : option ref) (g : option ref) (grouped : bool)
  | WCascades (a : option ref) (basin : option ref) (many2many grouped : bool).

  (* stream_util.py 75, 106, 169, 306: self._stream_array = ... *)
  Definition set_strm (s : strm) (r : ref) : strm :=
    Strm (s_kind s) (s_fa s) (s_fdir s) (s_facc s) (Some r) (s_graph s) (s_seg s) (s_nsr s).

  (* stream_util.py 95-102 *)
  Definition w_threshold (c : (Z + W) + ref) : M strm (threshold (Z + W)) :=
    match c with
    | inl v => ret (Scalar v)
    | inr r => f <~ accs r ;; ret (PerCell (fvals f))
    end.

  (** delineate_streams, 95-107: np.where makes the array, 104 writes into it, 106-107 store and
      return that same array *)
  Definition w_delineate (contrib : (Z + W) + ref) (basin : option ref) : M strm ref :=
    s <~ this ;;
    th <~ w_threshold contrib ;;
    f <~ accs (s_facc s) ;;
    l <~ liftr (delineate_streams vge (fvals f) th None) ;;
    r <~ alloc (CInts l) ;;
    match basin with
    | None => ret tt
    | Some b =>
        bl <~ ints b ;;
        out <~ liftr (delineate_streams vge (fvals f) th (Some bl)) ;;
        write r (CInts out)
    end ;;;
    store (set_strm s r) ;;; ret r.

  (** set_stream_array, 68-75: the caller's array is kept *)
  Definition w_set (a : ref) : M strm unit :=
    s <~ this ;; l <~ ints a ;; fdir <~ ints (s_fdir s) ;;
    if negb (Nat.eqb (length l) (length fdir)) then fail ValueError else store (set_strm s a).

  (* stream_util.py 125-132, 194-201, 744-751, 860-867, 903-910 *)
  Definition w_pick (a : option ref) : M strm ref :=
    s <~ this ;;
    match a, s_strm s with
    | Some a, _ => ret a
    | None, Some r => ret r
    | None, None => fail AssertionError
    end.

  (** _mf6_stream_connectivity, 125-171: 134 copies, 140 and 167 write in place, 169-171 store the
      copy and the dictionary that is returned *)
  Definition w_run6 (a : option ref) : M strm ref :=
    r <~ w_pick a ;; s <~ this ;;
    r' <~ copy r ;;
    l <~ ints r' ;; fdir <~ ints (s_fdir s) ;;
    p <~ liftr (mf6_connectivity lim fdir l) ;;
    write r' (CInts (fst p)) ;;;
    g <~ alloc (CDict (snd p)) ;;
    store (Strm (s_kind s) (s_fa s) (s_fdir s) (s_facc s) (Some r') (Some (inl g)) (s_seg s) (s_nsr s)) ;;;
    ret g.

  (** _mf2005_stream_connectivity, 194-312: 204 copies, 240, 268 and 275 write in place (the
      scratch contents are not modelled, the final numbers stand for them), 299-304 make a new
      array; 306-312 *)
  Definition w_run2005 (a : option ref) (grouped : bool) : M strm ref :=
    r <~ w_pick a ;; s <~ this ;;
    r' <~ copy r ;;
    l <~ ints r' ;; fdir <~ ints (s_fdir s) ;;
    m <~ liftr (mf2005_connectivity lim fuel grouped fdir l) ;;
    write r' (CInts (m_strm m)) ;;;
    sa <~ alloc (CInts (m_strm m)) ;;
    g <~ alloc (CDict (m_seg m)) ;;
    store (Strm (s_kind s) (s_fa s) (s_fdir s) (s_facc s) (Some sa) (Some (inr (m_graph m))) (Some g) (m_nsr m)) ;;;
    ret g.

  (** create_stream_vectors, 337-379: 337-339 copy the argument (and zero its NaN) first *)
  Definition w_vectors (a : option ref) (grouped : bool) : M strm wanswer :=
    a' <~ match a with None => ret None | Some a => r <~ copy a ;; ret (Some r) end ;;
    g <~ w_run2005 a' grouped ;;
    seg <~ dict g ;; s <~ this ;;
    v <~ liftr (stream_vectors fuel seg (s_nsr s)) ;;
    ret (APlain (AVec v)).

  (** the dictionary self._graph *)
  (* stream_util.py 522, 569 *)
  Definition w_graph_of (g : ref + ngraph) : M strm ngraph :=
    match g with inl r => t <~ dict r ;; ret (some_graph t) | inr g => ret g end.

  (** connectiondata, 511-536 *)
  Definition w_conndata (g : option ref) : M strm wanswer :=
    ng <~ match g with
          | Some g => w_graph_of (inl g)
          | None => s <~ this ;;
                    match s_graph s with
                    | Some g => w_graph_of g
                    | None => g <~ w_run6 None ;; w_graph_of (inl g)
                    end
          end ;;
    c <~ liftr (connectiondata ng) ;; ret (APlain (AConn c)).

  (** modelgrid.top; [tp] is modelgrid._top.  None.ravel() raises AttributeError *)
  (* 575, 762, 1035 *)
  Definition w_top (tp : option ref) : M strm (list (option T)) :=
    match tp with Some r => elevs r | None => fail AttributeError end.

  (** packagedata, 557-619; 575 and 614: rtp is modelgrid.top at the reach's cell *)
  Definition w_pkgdata (tp : option ref) (a : option ref) : M strm wanswer :=
    q <~ match a with
         | Some a => g <~ w_run6 (Some a) ;; ng <~ w_graph_of (inl g) ;; l <~ ints a ;; ret (ng, l)
         | None =>
             s <~ this ;;
             ng <~ match s_graph s with
                   | Some g => w_graph_of g
                   | None => g <~ w_run6 None ;; w_graph_of (inl g)
                   end ;;
             r <~ w_pick None ;; r' <~ copy r ;; l <~ ints r' ;; ret (ng, l)      (* 570 *)
         end ;;
    top <~ w_top tp ;;
    recs <~ liftr (packagedata (fst q) (snd q)) ;;
    ret (ALevels (APkg recs) (map (fun p => nth (p_node p) top None) recs)).

  (** reach_data 743-757, segment_data 859-873 *)
  Definition w_segs (a : option ref) (grouped : bool) : M strm (topology * list (Z * Z * Z)) :=
    r <~ w_pick a ;; s <~ this ;;
    match s_seg s with
    | Some g => t <~ dict g ;; ret (t, s_nsr s)
    | None => g <~ w_run2005 (Some r) grouped ;; t <~ dict g ;; s <~ this ;; ret (t, s_nsr s)
    end.
  (* stream_util.py 859-885 *)
  Definition w_segdata (a : option ref) (grouped : bool) : M strm wanswer :=
    q <~ w_segs a grouped ;; ret (APlain (ASegs (segment_data (fst q)))).
  (** reach_data, 743-842: 762 and 800, strtop is modelgrid.top at the reach's cell *)
  Definition w_reachdata (tp : option ref) (a : option ref) (grouped : bool) : M strm wanswer :=
    q <~ w_segs a grouped ;;
    top <~ w_top tp ;;
    recs <~ liftr (reach_data ncol (fst q) (snd q)) ;;
    ret (ALevels (AReach recs) (map (fun p => nth (Z.to_nat (r_node p)) top None) recs)).

  (** irunbnd, 903-952: 921 copies the stream array *)
  Definition w_irunbnd (a g : option ref) (grouped : bool) : M strm wanswer :=
    r <~ w_pick a ;; s <~ this ;;
    r <~ match g, s_seg s with
         | None, None => w_run2005 (Some r) grouped ;;; w_pick None
         | _, _ => ret r
         end ;;
    r' <~ copy r ;; l <~ ints r' ;; fdir <~ ints (s_fdir s) ;;
    out <~ liftr (irunbnd fuel fdir l) ;;
    o <~ alloc (CInts out) ;; ret (ARef o).

  (* stream_util.py 1119-1122 *)
  Definition w_prms_connect (a : option ref) (grouped : bool) : M strm ref :=
    if grouped then w_run2005 a true else w_run6 a.

  (** get_cascades, 1166-1200; 1227 and 1287 copy the flow directions and 1229, 1289 write -9 into
      the copy; 1174 copies the stream array; 1295 and 1318 read the FlowDirections object [fa] as
      it is now *)
  Definition w_slopes (fa : flow) (dem : list (option T)) : list (list (option T)) :=
    calculate_slopes tsub tdiv tlt tzero tbig (length dem) (f_thr fa) dist dem (pad_neighbors (length dem) (f_nb fa)).
  (* stream_util.py 1318 *)
  Definition w_fnb (fa : flow) (dem : list (option T)) : list (list Z) :=
    map (map Z.of_nat) (pad_neighbors (length dem) (f_nb fa)).
  (* stream_util.py 1166-1200 *)
  Definition w_cascades (fa : option flow) (a basin : option ref) (many grouped : bool) : M strm wanswer :=
    r <~ match a with
         | Some a => ret a
         | None => r <~ w_pick None ;; copy r                                     (* 1167 *)
         end ;;
    s <~ this ;;
    r <~ match s_graph s with
         | Some _ => ret r
         | None => w_prms_connect (Some r) grouped ;;; r <~ w_pick None ;; copy r   (* 1171-1172 *)
         end ;;
    r' <~ copy r ;; l <~ ints r' ;;
    bl <~ opt_ints basin ;;
    f' <~ copy (s_fdir s) ;;
    fdir <~ ints f' ;;
    masked <~ liftr (mask_fdir fdir bl) ;;
    write f' (CInts masked) ;;;
    fdir <~ ints f' ;;
    c <~ (if many : bool then
            match fa with
            | None => fail AttributeError
            | Some fa =>
                dem <~ elevs (f_dem fa) ;;
                liftr (cascades_many fone fabs fsum fdiv fle0 fkeep fdir l None (w_slopes fa dem) (w_fnb fa dem))
            end
          else liftr (cascades_one (Some fone) fdir l None)) ;;
    ret (APlain (ACasc c)).

  (** a method the class does not have raises AttributeError *)
  (* stream_util.py 458-1402: the methods of the three classes *)
  Definition w_scall (k : klass) (tp : option ref) (fa : option flow) (c : wcall) : M strm wanswer :=
    match k, c with
    | _, WDelineate contrib basin => r <~ w_delineate contrib basin ;; ret (ARef r)
    | _, WSetStreamArray a => w_set a ;;; ret ANothing
    | _, WStreamArray => r <~ w_pick None ;; r' <~ copy r ;; ret (ARef r')
    | KSfr6, WConnectivity a _ => g <~ w_run6 a ;; ret (ARef g)
    | KSfr2005, WConnectivity a grouped => g <~ w_run2005 a grouped ;; ret (ARef g)
    | KPrms, WConnectivity a grouped => g <~ w_prms_connect a grouped ;; ret (ARef g)
    | _, WVectors a grouped => w_vectors a grouped
    | KSfr6, WConnectionData g => w_conndata g
    | KSfr6, WPackageData a => w_pkgdata tp a
    | KSfr2005, WSegmentData a grouped => w_segdata a grouped
    | KSfr2005, WReachData a grouped => w_reachdata tp a grouped
    | KSfr2005, WIrunbnd a g grouped => w_irunbnd a g grouped
    | KPrms, WCascades a basin many grouped => w_cascades fa a basin many grouped
    | _, _ => fail AttributeError
    end.

  (** the arguments of a call are arrays of the documented kind *)
  (* documented types of the arguments *)
  Definition holds_ok {A} (as_ : cell -> res A) (h : heap) (a : option ref) : bool :=
    match a with
    | None => true
    | Some r => match (c <- get h r ;; as_ c) with Ok _ => true | Err _ => false end
    end.
  (* documented types of the arguments *)
  Definition args_ok (h : heap) (c : wcall) : bool :=
    match c with
    | WDelineate t b => holds_ok as_acc h (match t with inl _ => None | inr r => Some r end) && holds_ok as_ints h b
    | WSetStreamArray a => holds_ok as_ints h (Some a)
    | WStreamArray => true
    | WConnectivity a _ | WVectors a _ | WPackageData a | WSegmentData a _ | WReachData a _ => holds_ok as_ints h a
    | WConnectionData g => holds_ok as_dict h g
    | WIrunbnd a g _ => holds_ok as_ints h a && holds_ok as_dict h g
    | WCascades a b _ _ => holds_ok as_ints h a && holds_ok as_ints h b
    end.

  (** ** the session *)

  (** [w_grid_top]: modelgrid._top *)
  (* the session *)
  Record world := World { w_heap : heap; w_grid_top : option ref; w_flows : list flow; w_streams : list strm }.
  (* a new session *)
  Definition empty_world : world := World [] None [] [].

  (** what user code can do to an array or dictionary it can reach *)
  (* user code *)
  Inductive edit := SetInt (i v : Z) | SetElev (i : Z) (v : option T) | SetCells (i v : Z) | SetArea (i : Z) (v : W)
                  | SetKey (k v : Z).
  (* user code: r[i] = v *)
  Definition apply_edit (c : cell) (e : edit) : res cell :=
    match c, e with
    | CInts l, SetInt i v => l <- npset l i v ;; Ok (CInts l)
    | CElevs l, SetElev i v => l <- npset l i v ;; Ok (CElevs l)
    | CAcc (Cells l), SetCells i v => l <- npset l i v ;; Ok (CAcc (Cells l))
    | CAcc (Areas l), SetArea i v => l <- npset l i v ;; Ok (CAcc (Areas l))
    | CDict g, SetKey k v => Ok (CDict (dset Z.eqb g k v))
    | _, _ => Err TypeError
    end.

  (* one statement of user code *)
  Inductive cmd :=
  | New (c : cell)                                   (* user code: a new array *)
  | Edit (r : ref) (e : edit)                        (* user code: r[i] = v *)
  | Fill (g : list (option T) -> res (list (option T))) (dem : ref)
      (* fill_sinks (38-59) or fill_nan_values (284-309), [g] the filling of MFill.v with the
         arguments of the call: they copy the array, then write into the copy *)
  | NewFlow (dem : ref) (check : bool)               (* FlowDirections(modelgrid, dem, check) *)
  | FlowCall (i : nat) (c : fcommand)
  | NewStreams (k : klass) (i : nat)                 (* Sfr6 / Sfr2005 / PrmsStreams(modelgrid, fd_i) *)
  | StreamCall (j : nat) (c : wcall)
  | Top.                                             (* modelgrid.top, which flopy copies *)

  (* dem_conditioning.py 40, 83, 96, 174, 226, 284, 309 *)
  Definition w_fill (g : list (option T) -> res (list (option T))) (dem : ref) : M unit ref :=
    r <~ copy dem ;; l <~ elevs r ;; out <~ liftr (g l) ;; write r (CElevs out) ;;; ret r.

  (** FlowDirections.__init__, 23-64: the elevations are copied (41), the areas computed *)
  Definition w_new_flow (thr0 : T) (dem : ref) (check : bool) : M unit flow :=
    l <~ elevs dem ;;
    a <~ alloc (CAcc (Areas areas)) ;;
    d <~ copy dem ;;
    mins <~ liftr (min_cells tlt teq tbig l) ;;
    if check && (1 <? length mins) then fail AssertionError
    else ret (Flow d a mins nb0 thr0 None None None).

  Variable thr0 : T.   (* 64: the first _threshold, 1e-6 *)

  (** NewStreams overwrites modelgrid._top with a copy of the DEM (474, 691, 1092) before anything
      else.  Simplification: the object is made only if flow directions and accumulation have
      been computed, as documented; otherwise the constructor raises here (Sfr6 does without
      directions; the other objects' methods raise later). *)
  (* one statement of user code *)
  Definition step (w : world) (c : cmd) : world * res wanswer :=
    let 'World h tp fs ss := w in
    match c with
    | New c => (World (h ++ [c]) tp fs ss, Ok (ARef (length h)))
    | Edit r e => match (c <- get h r ;; apply_edit c e) with
                  | Ok c' => (World (upd h r c') tp fs ss, Ok ANothing)
                  | Err x => (w, Err x)
                  end
    | Fill g dem => let '(h, _, x) := w_fill g dem h tt in (World h tp fs ss, r <- x ;; Ok (ARef r))
    | NewFlow dem check =>
        match w_new_flow thr0 dem check h tt with
        | (h, _, Ok f) => (World h tp (fs ++ [f]) ss, Ok ANothing)
        | (h, _, Err x) => (World h tp fs ss, Err x)
        end
    | FlowCall i c =>
        match nth_error fs i with
        | None => (w, Err IndexError)
        | Some f => let '(h, f, x) := w_fcall c h f in (World h tp (upd fs i f) ss, r <- x ;; Ok (ARef r))
        end
    | NewStreams k i =>
        match nth_error fs i with
        | None => (w, Err IndexError)
        | Some f =>
            match get h (f_dem f) with
            | Err x => (w, Err x)
            | Ok d =>
                let h' := h ++ [d] in
                let tp' := Some (length h) in
                match f_fdir f, f_acc f with
                | Some rd, Some ra => (World h' tp' fs (ss ++ [Strm k i rd ra None None None []]), Ok ANothing)
                | _, _ => (World h' tp' fs ss, Err AttributeError)
                end
            end
        end
    | StreamCall j c =>
        match nth_error ss j with
        | None => (w, Err IndexError)
        | Some s =>
            if args_ok h c then
              let '(h, s', x) := w_scall (s_kind s) tp (nth_error fs (s_fa s)) c h s in
              (World h tp fs (upd ss j s'), x)
            else (w, Err TypeError)
        end
    | Top => match tp with
             | None => (w, Ok ANothing)
             | Some r => match get h r with
                         | Ok c => (World (h ++ [c]) tp fs ss, Ok (ARef (length h)))
                         | Err x => (w, Err x)
                         end
             end
    end.

  (* a session *)
  Definition run (w : world) (cs : list cmd) : world := fold_left (fun w c => fst (step w c)) cs w.
  (* the answer to a statement *)
  Definition reply (w : world) (c : cmd) : res wanswer := snd (step w c).
End World.
