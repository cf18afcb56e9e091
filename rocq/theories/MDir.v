(** Model of dany/flow_directions.py: neighbour array, slopes, flow directions with the
    resolution of flats, and the FlowDirections object (what its calls store and reuse). *)
From Verif Require Import Py MFlow.
Set Implicit Arguments.
Local Open Scope nat_scope.
Local Open Scope list_scope.

(** ** _fill_irregular_neighbor_array, flow_directions.py 123-142.  [N] is _fillidx (the number of cells); the
    lists of [_neighbors] are padded in place ([n += ...]), so the padded lists are also the
    new contents of [_neighbors].  neighbors() has one entry per cell, keys 0..N-1. *)
(* 129-133: axis1 *)
Definition widest (nb : list (list nat)) : nat :=
  fold_left (fun w n => if w <? length n then length n else w) nb 0.

(* 135-140 *)
Definition pad_neighbors (N : nat) (nb : list (list nat)) : list (list nat) :=
  let w := widest nb in map (fun n => n ++ repeat N (w - length n)) nb.

(** ** slopes *)
Section Slopes.
  Context {T : Type} (tsub tdiv : T -> T -> T) (tlt teq : T -> T -> bool) (tzero tbig : T).

  (** one entry of _calculate_slopes, flow_directions.py 144-174; [None] is NaN.  [dist c n] is the distance
      between the cell centres, [thr] is _threshold. *)
  Definition slope (N : nat) (thr : T) (dist : nat -> nat -> T) (dem : list (option T))
             (c n : nat) : option T :=
    if Nat.eqb n N then Some tbig                            (* 168-172 *)
    else match nth n dem None, nth c dem None with
         | Some zn, Some zc =>
             let drop := tsub zn zc in
             let drop := if tlt drop thr && tlt tzero drop then tzero else drop in  (* 162-163 *)
             Some (tdiv drop (dist c n))
         | _, _ => None
         end.

  (* 144-174: one row per cell, one entry per padded neighbour *)
  Definition calculate_slopes (N : nat) (thr : T) (dist : nat -> nat -> T)
             (dem : list (option T)) (fnb : list (list nat)) : list (list (option T)) :=
    map (fun p => map (slope N thr dist dem (fst p)) (snd p))
        (combine (seq 0 (length fnb)) fnb).

  (** [np.nanmin] (flow_directions.py 51, 189): NaN if there is no number, ValueError on an empty array *)
  Definition fmin2 (m : option T) (x : option T) : option T :=
    match m, x with
    | Some a, Some b => Some (if tlt b a then b else a)
    | None, _ => x
    | _, None => m
    end.
  (* np.nanmin, flow_directions.py 51, 189 *)
  Definition nanmin (row : list (option T)) : res (option T) :=
    match row with [] => Err ValueError | _ => Ok (fold_left fmin2 row None) end.

  (* [slope == np.nanmin(slope)], flow_directions.py 51, 189; NaN equals nothing *)
  Definition eq_to (m : option T) (x : option T) : bool :=
    match m, x with Some a, Some b => teq b a | _, _ => false end.

  (** flow_directions.py 188-190: [fcells] *)
  Definition fcells_of (slopes : list (list (option T))) : res (list (list nat)) :=
    mapM (fun row => m <- nanmin row ;; Ok (where_ (eq_to m) row)) slopes.

  (** flow_directions.py 41, 51: the cells of minimum elevation; the array has a last entry 1e10 *)
  Definition min_cells (dem : list (option T)) : res (list nat) :=
    m <- nanmin (dem ++ [Some tbig]) ;; Ok (where_ (eq_to m) (dem ++ [Some tbig])).
End Slopes.

(** ** _calculate_flowcell, flow_directions.py 176-324, and _resolve_flats, 326-345 *)
(** the values of [self._stack] (242, 245, 340): Python sets of cells *)
Definition sadd (x : nat) (l : list nat) : list nat := if memn x l then l else l ++ [x].
(* [self._stack], 242 *)
Definition smap := list (nat * list nat).
(** [stack[k].add(x)] on a defaultdict(set), 245 and 340 *)
Definition dd_add (s : smap) (k x : nat) : smap :=
  dset Nat.eqb s k (sadd x (match dget Nat.eqb s k with Some l => l | None => [] end)).

(** 337-343: one neighbour *)
Definition resolve_conn (fdir : list Z) (cell : nat) (st : option nat * bool * smap) (conn : nat)
  : res (option nat * bool * smap) :=
  let '(dest, sink, stack) := st in
  if dhas Nat.eqb stack conn then Ok st
  else
    d <- get fdir conn ;;
    Ok (if (d =? -1)%Z || (d =? -2)%Z then dest else Some conn, false, dd_add stack conn cell).

(** 326-345: returns (dest, conns, sink) and the new [self._stack] *)
Definition resolve_flats (fnb : list (list nat)) (fdir : list Z) (stack : smap)
           (cell : nat) (flow_to : list nat) (dest : option nat)
  : res (option nat * list nat * bool * smap) :=
  row <- get fnb cell ;;
  conns <- mapM (get row) flow_to ;;
  let dest := match conns with [d] => Some d | _ => dest end in
  ' (dest, sink, stack) <- foldM (resolve_conn fdir cell) conns (dest, true, stack) ;;
  Ok (dest, conns, sink, stack).

(** 215-231: do the tied cells hang together?  [for test_node in are_neighbors] sees the
    entries appended meanwhile: [i] is the position in that list. *)
Definition remove1 (x : nat) (l : list nat) : list nat :=
  (fix go l := match l with [] => [] | y :: l' => if Nat.eqb x y then l' else y :: go l' end) l.

(* 219-228: one pass over [are_neighbors] *)
Fixpoint cont_pass (fuel : nat) (fnb : list (list nat)) (i : nat)
         (are stack : list nat) (found : bool) : res (list nat * list nat * bool) :=
  match fuel with
  | O => Err OutOfFuel
  | S f =>
      match nth_error are i with
      | None => Ok (are, stack, found)
      | Some test_node =>
          ns <- get fnb test_node ;;
          let '(are, stack, found) :=
            fold_left (fun (st : list nat * list nat * bool) tn =>
                         let '(are, stack, found) := st in
                         if memn tn stack then (are ++ [tn], remove1 tn stack, true) else st)
                      ns (are, stack, found) in
          cont_pass f fnb (S i) are stack found
      end
  end.

(* 217-231: [while stack] *)
Fixpoint cont_loop (fuel : nat) (fnb : list (list nat)) (are stack : list nat) : res bool :=
  match stack with
  | [] => Ok true
  | _ =>
      match fuel with
      | O => Err OutOfFuel
      | S f =>
          ' (are, stack, found) <- cont_pass (length are + length stack + 1) fnb 0 are stack false ;;
          if found then cont_loop f fnb are stack else Ok false
      end
  end.

(* 216-231 *)
Definition continuous_ties (fuel : nat) (fnb : list (list nat)) (stack : list nat) : res bool :=
  match stack with
  | [] => Err IndexError
  | s0 :: stack' => cont_loop fuel fnb [s0] stack'
  end.

(** 247-272: the search through the flat.  One pass of [for cell in tmp_stack]; the list
    grows while it is traversed, [i] is the position. *)
Record dij := Dij { d_tmp : list nat; d_visited : list nat; d_dest : option nat;
                    d_sink : bool; d_stack : smap }.

(* 252-266 *)
Fixpoint dij_pass (fuel : nat) (fnb fcells : list (list nat)) (fdir : list Z)
         (i n : nat) (s : dij) : res dij :=
  match fuel with
  | O => Err OutOfFuel
  | S f =>
      match nth_error (d_tmp s) i with
      | None => Ok s
      | Some cell =>
          if negb (memn cell (d_visited s)) then
            flow_to <- get fcells cell ;;
            ' (dest, conns, sink, stack) <- resolve_flats fnb fdir (d_stack s) cell flow_to (d_dest s) ;;
            let tmp := match dest with None => d_tmp s ++ conns | Some _ => d_tmp s end in
            dij_pass f fnb fcells fdir (S i) n
                     (Dij tmp (d_visited s ++ [cell]) dest sink stack)
          else
            match d_dest s with
            | Some _ => dij_pass f fnb fcells fdir (S i) n s
            | None =>
                let n := S n in
                let sink := if length (d_stack s) <=? n then true else d_sink s in
                dij_pass f fnb fcells fdir (S i) n
                         (Dij (d_tmp s) (d_visited s) None sink (d_stack s))
            end
      end
  end.

(* 250-272: [while True] *)
Fixpoint dij_loop (fuel : nat) (fnb fcells : list (list nat)) (fdir : list Z) (s : dij) : res dij :=
  match fuel with
  | O => Err OutOfFuel
  | S f =>
      s <- dij_pass fuel fnb fcells fdir 0 0 s ;;
      match d_dest s with
      | Some _ => Ok (Dij (d_tmp s) (d_visited s) (d_dest s) false (d_stack s))
      | None => if d_sink s then Ok s else dij_loop f fnb fcells fdir s
      end
  end.

(** 280-314: distances along the search tree; [flow_trace] *)
Definition ftrace := list (nat * (nat * Z)).

(* 290-306: one [node] of [nodes_from] *)
Definition trace_node (dest node_to : nat) (ft : ftrace) (node : nat) : ftrace :=
  if Nat.eqb node_to dest then dset Nat.eqb ft node (node_to, 0%Z)
  else match dget Nat.eqb ft node_to with
       | Some (_, d) =>
           let dist0 := match dget Nat.eqb ft node with Some (_, d0) => d0 | None => 1000000%Z end in
           if (d + 1 <? dist0)%Z then dset Nat.eqb ft node (node_to, d + 1)%Z else ft
       | None => dset Nat.eqb ft node (node_to, 999%Z)
       end.

(** 287-306: [for node_to in ldest]; [None] for the loop variables of an empty [ldest] (never met) *)
Definition trace_round (dest : nat) (ldest : list nat) (stack : smap) (ft : ftrace)
  : smap * ftrace * option (nat * list nat) :=
  fold_left (fun (st : smap * ftrace * option (nat * list nat)) node_to =>
               let '(stack, ft, _) := st in
               let '(stack, nodes_from) :=
                 match dget Nat.eqb stack node_to with
                 | Some l => (stack, l)
                 | None => (dset Nat.eqb stack node_to [], [])     (* defaultdict *)
                 end in
               (stack, fold_left (trace_node dest node_to) nodes_from ft, Some (node_to, nodes_from)))
            ldest (stack, ft, None).

(* 284-314: [while self._stack] *)
Fixpoint trace_loop (fuel : nat) (dest : nat) (ldest : list nat) (stack : smap) (ft : ftrace)
  : res ftrace :=
  match stack with
  | [] => Ok ft
  | _ =>
      match fuel with
      | O => Err OutOfFuel
      | S f =>
          let '(stack, ft, last) := trace_round dest ldest stack ft in
          match last with
          | None => Err KeyError
          | Some (node_to, nodes_from) =>
              let stack := ddel Nat.eqb stack node_to in
              ldest <- (match nodes_from with
                        | [] => match rev (map fst stack) with
                                | [] => Err IndexError
                                | k :: _ => Ok [k]
                                end
                        | _ => Ok nodes_from
                        end) ;;
              trace_loop f dest ldest stack ft
          end
      end
  end.

(** 240-324: a cell whose flow direction is not settled by its own slopes *)
Definition flat_cell (fuel : nat) (fnb fcells : list (list nat)) (ix : nat) (conns : list nat)
           (fdir : list Z) : res (list Z) :=
  let stack := fold_left (fun s conn => dd_add s conn ix) conns [] in
  s <- dij_loop fuel fnb fcells fdir (Dij conns [] None true stack) ;;
  if d_sink s then                                            (* 273-278 *)
    fdir <- set fdir ix (-2)%Z ;;
    foldM (fun a cell => set a cell (-2)%Z) (map fst (d_stack s)) fdir
  else
    match d_dest s with
    | None => Err KeyError          (* never: the search ends without a sink only at a destination *)
    | Some dest =>
        from <- match dget Nat.eqb (d_stack s) dest with Some l => Ok l | None => Ok [] end ;;
        first <- get from 0 ;;
        ft <- trace_loop fuel dest [dest] (d_stack s) [(first, (dest, 0%Z))] ;;
        foldM (fun a kv => set a (fst kv) (Z.of_nat (fst (snd kv)))) ft fdir   (* 323-324 *)
    end.

(** positions of the already solved cells that flow to [ix], 204-212 *)
Definition drop_solved (fdir : list Z) (ix : nat) (flow_to stack : list nat)
  : res (list nat * list nat) :=
  kept <- foldM (fun (l : list (nat * nat)) p =>
                   d <- get fdir (snd p) ;;
                   Ok (if (d =? Z.of_nat ix)%Z then l else l ++ [p]))
                (combine flow_to stack) [] ;;
  Ok (map fst kept, map snd kept).

(** one iteration of the loop over the cells, 191-324 *)
Definition flow_cell (fuel : nat) (nan : nat -> bool) (fnb : list (list nat))
           (st : list Z * list (list nat)) (ix : nat) : res (list Z * list (list nat)) :=
  let '(fdir, fcells) := st in
  node <- get fdir ix ;;
  if negb (node =? -1)%Z then Ok st
  else if nan ix then fdir' <- set fdir ix (Z.of_nat ix) ;; Ok (fdir', fcells)
  else
    flow_to <- get fcells ix ;;
    row <- get fnb ix ;;
    ' (flow_to, fcells, continuous) <-
      (if 1 <? length flow_to then
         stack <- mapM (get row) flow_to ;;
         ' (flow_to, stack) <- drop_solved fdir ix flow_to stack ;;
         fcells' <- set fcells ix flow_to ;;                  (* flow_to.pop changes fcells[ix] *)
         if 1 <? length flow_to then
           c <- continuous_ties fuel fnb stack ;; Ok (flow_to, fcells', c)
         else Ok (flow_to, fcells', false)
       else Ok (flow_to, fcells, false)) ;;
    conns <- mapM (get row) flow_to ;;
    match conns, continuous with
    | [d], _ | [d; _], true | [_; _; d], true =>
        fdir' <- set fdir ix (Z.of_nat d) ;; Ok (fdir', fcells)
    | _, _ => fdir' <- flat_cell fuel fnb fcells ix conns fdir ;; Ok (fdir', fcells)
    end.

(* 176-324; [enumerate(self._fdir)] sees the entries written meanwhile *)
Definition calculate_flowcell (fuel : nat) (nan : nat -> bool) (fnb fcells : list (list nat))
           (fdir : list Z) : res (list Z) :=
  ' (fdir, _) <- foldM (flow_cell fuel nan fnb) (seq 0 (length fdir)) (fdir, fcells) ;;
  Ok fdir.

(** ** flow_directions, flow_directions.py 387-428.  The terminal cells are given as cell numbers (the
    conversion of (row, column) pairs is flopy's). *)
Section Directions.
  Context {T : Type} (tsub tdiv : T -> T -> T) (tlt teq : T -> T -> bool) (tzero tbig : T).

  (** 409-423: the array before the cells are resolved *)
  Definition start_fdir (N : nat) (mins : list nat) (terminals : list Z) : res (list Z) :=
    fdir <- foldM (fun a c => set a c (Z.of_nat c)) mins (repeat (-1)%Z N) ;;
    foldM (fun a tc => npset a tc tc) terminals fdir.

  (** 408-428; the neighbours after the call are returned too: they have been padded *)
  Definition flow_directions (fuel : nat) (dist : nat -> nat -> T) (dem : list (option T))
             (nb : list (list nat)) (thr : T) (terminals : list Z)
    : res (list Z * list (list nat)) :=
    let N := length dem in
    mins <- min_cells tlt teq tbig dem ;;
    fdir <- start_fdir N mins terminals ;;
    let fnb := pad_neighbors N nb in
    fcells <- fcells_of tlt teq (calculate_slopes tsub tdiv tlt tzero tbig N thr dist dem fnb) ;;
    fdir <- calculate_flowcell fuel (fun c => match nth c dem None with None => true | _ => false end)
                               fnb fcells fdir ;;
    Ok (fdir, fnb).

  (** __init__, flow_directions.py 51-57: check_elevations *)
  Definition check_elevations (dem : list (option T)) : res unit :=
    mins <- min_cells tlt teq tbig dem ;;
    if 1 <? length mins then Err AssertionError else Ok tt.
End Directions.
