(** Model of the FlowDirections object (dany/flow_directions.py): what its calls store on the
    object, what they reuse, and what they return.  Every call is a function from the object
    before the call to the object after it and the value returned or the exception raised. *)
From Verif Require Import Py MFlow MDir.
Set Implicit Arguments.
Local Open Scope list_scope.

Section FlowObject.
  Context {T W : Type}.
  (** the elevation arithmetic, the area arithmetic, and what __init__ (23-64) stores once and
      never changes: distances between cell centres, elevations, areas.  [fuel], [lim]: bounds
      on loop iterations and on Python's recursion. *)
  Variables (tsub tdiv : T -> T -> T) (tlt teq : T -> T -> bool) (tzero tbig : T).
  Variables (wadd : W -> W -> W) (wzero : W).
  Variables (fuel lim : nat) (dist : nat -> nat -> T) (dem : list (option T)) (area : list W).

  (** the attribute _facc holds the array returned last: cells or areas (469-475) *)
  Inductive facc := Cells (l : list Z) | Areas (l : list W).

  (** the attributes that calls change: _neighbors (padded in place, 138), _fdir, _fdir_r, _facc.
      [None] is Python's None. *)
  Record fobj := FObj { fo_nb : list (list nat); fo_fdir : option (list Z);
                        fo_rev : option (list (list Z)); fo_acc : option facc }.

  (** __init__ 37, 59-61 *)
  Definition new_object (nb : list (list nat)) : fobj := FObj nb None None None.

  (* the calls: 371, 387, 430, 477, 543; properties 75-88 *)
  Inductive fcall :=
  | FlowDirections (thr : T) (terminals : list Z)
  | FlowDirectionArray
  | EditDirection (cell value : Z)          (* user code: fd.flow_direction_array[cell] = value *)
  | GetNidp
  | FlowAccumulation (as_cells : bool)
  | FlowAccumulationArray
  | Watershed (cell : Z)                    (* the cell the point falls in *)
  | Subbasins (cells : list Z).

  (* what they return: 80, 88, 385, 428, 471, 475, 541, 624 *)
  Inductive fanswer := Ints (l : list Z) | Numbers (l : list W) | Nothing.
  (* 471, 475 *)
  Definition facc_answer (f : facc) : fanswer := match f with Cells l => Ints l | Areas l => Numbers l end.

  (** attribute access on None, e.g. [self._fdir.size] in 363 and 380, raises AttributeError *)
  Definition fdir_of (o : fobj) : res (list Z) :=
    match fo_fdir o with Some f => Ok f | None => Err AttributeError end.

  (** flow_directions, 387-428.  [_fdir_r] is left alone.  Simplification: a call that raises
      leaves a partly filled [_fdir] behind in the code; here [_fdir] is then None. *)
  Definition do_flow_directions (o : fobj) (thr : T) (terminals : list Z) : fobj * res fanswer :=
    match flow_directions tsub tdiv tlt teq tzero tbig fuel dist dem (fo_nb o) thr terminals with
    | Ok (fdir, nb) => (FObj nb (Some fdir) (fo_rev o) (fo_acc o), Ok (Ints fdir))
    | Err e => (FObj (fo_nb o) None (fo_rev o) (fo_acc o), Err e)
    end.

  (** _reverse_flow_directions, 347-369: computed once *)
  Definition do_reverse (o : fobj) : fobj * res (list (list Z)) :=
    match fo_rev o with
    | Some r => (o, Ok r)
    | None =>
        match (fdir <- fdir_of o ;; reverse_flow_directions fdir) with
        | Ok r => (FObj (fo_nb o) (fo_fdir o) (Some r) (fo_acc o), Ok r)
        | Err e => (o, Err e)
        end
    end.

  (** get_watershed_boundary, 477-541 *)
  Definition do_watershed (o : fobj) (cell : Z) (subbasins : option (list Z)) : fobj * res (list Z) :=
    let '(o, r) := do_reverse o in
    (o, fdir_r <- r ;; fdir <- fdir_of o ;; watershed_with fuel fdir fdir_r cell subbasins).

  (** get_subbasins, 543-624: the loop 619-623 ... *)
  Fixpoint sub_loop (o : fobj) (cellids : list Z) (idxs : list nat) (sub : list Z) : fobj * res (list Z) :=
    match idxs with
    | [] => (o, Ok sub)
    | i :: idxs' =>
        match get cellids i with
        | Err e => (o, Err e)
        | Ok c => match do_watershed o c (Some sub) with
                  | (o, Ok sub) => sub_loop o cellids idxs' sub
                  | (o, Err e) => (o, Err e)
                  end
        end
    end.

  (** ... and the ordering of the points before it, 589-616 *)
  Definition sub_order (fdir : list Z) (cellids : list Z) : res (list nat) :=
    graph <- foldM (fun g c => v <- sub_trace fuel fdir cellids c c [] ;; Ok (dset Z.eqb g c v))
                   cellids [] ;;
    let topo := add_connection
                  (fold_left (fun t kv => add_connection t (fst kv) (snd kv)) graph []) (-1)%Z (-1)%Z in
    sorted <- topo_sort lim topo ;;
    mapM (fun c => list_index c cellids 0) (removelast sorted).

  (** [None[cellid]] raises TypeError; with no points the first use of _fdir is [.shape] *)
  (* 589-624 *)
  Definition do_subbasins (o : fobj) (cellids : list Z) : fobj * res (list Z) :=
    match fo_fdir o with
    | None => (o, Err (match cellids with [] => AttributeError | _ => TypeError end))
    | Some fdir => match sub_order fdir cellids with
                   | Ok idxs => sub_loop o cellids idxs (repeat 0%Z (length fdir))
                   | Err e => (o, Err e)
                   end
    end.

  (** flow_accumulation, 430-475: stores what it returns *)
  Definition do_accumulation (o : fobj) (as_cells : bool) : fobj * res fanswer :=
    match (fdir <- fdir_of o ;; acc_run wadd wzero fuel fdir area) with
    | Ok s => let a := if as_cells then Cells (a_cnt s) else Areas (a_area s) in
              (FObj (fo_nb o) (fo_fdir o) (fo_rev o) (Some a), Ok (facc_answer a))
    | Err e => (o, Err e)
    end.

  (** flow_direction_array (75-80) returns a view of _fdir: writing to it writes to _fdir *)
  Definition do_edit (o : fobj) (cell value : Z) : fobj * res fanswer :=
    match (fdir <- fdir_of o ;; npset fdir cell value) with
    | Ok fdir => (FObj (fo_nb o) (Some fdir) (fo_rev o) (fo_acc o), Ok Nothing)
    | Err e => (o, Err e)
    end.

  (* an integer array is returned: 385, 541, 624 *)
  Definition ints (x : fobj * res (list Z)) : fobj * res fanswer :=
    (fst x, l <- snd x ;; Ok (Ints l)).

  (* one call: 371-385, 387-428, 430-475, 477-541, 543-624, 75-88 *)
  Definition call (o : fobj) (c : fcall) : fobj * res fanswer :=
    match c with
    | FlowDirections thr terminals => do_flow_directions o thr terminals
    | FlowDirectionArray => ints (o, fdir_of o)
    | EditDirection cell value => do_edit o cell value
    | GetNidp => ints (o, fdir <- fdir_of o ;; get_nidp fdir)
    | FlowAccumulation as_cells => do_accumulation o as_cells
    | FlowAccumulationArray =>
        (o, match fo_acc o with Some a => Ok (facc_answer a) | None => Err AttributeError end)
    | Watershed cell => ints (do_watershed o cell None)
    | Subbasins cells => ints (do_subbasins o cells)
    end.

  (** a history: the calls made so far, whatever they returned *)
  Definition calls (o : fobj) (h : list fcall) : fobj := fold_left (fun o c => fst (call o c)) h o.
  (* the answer to one call after a history *)
  Definition answer (o : fobj) (c : fcall) : res fanswer := snd (call o c).
End FlowObject.
