(** Model of dany/flow_directions.py: get_nidp, flow_accumulation, reversed flow
    directions, watershed and subbasin delineation; and of Topology (stream_util.py).
    Cell numbers taken from a flow-direction array are integers indexed the NumPy way
    ([npget]: negative numbers count from the end), as in the code. *)
From Verif Require Import Py.
Set Implicit Arguments.
Local Open Scope Z_scope.
Local Open Scope list_scope.

(** ** get_nidp, flow_directions.py 371-385 *)
Definition get_nidp (fdir : list Z) : res (list Z) :=
  foldM (fun a cell => v <- npget a cell ;; npset a cell (v + 1)) fdir
        (repeat 0 (length fdir)).

(** ** flow_accumulation, flow_directions.py 430-475 *)
Section Acc.
  Context {W : Type} (wadd : W -> W -> W) (wzero : W).

  (* flow_directions.py 449-451: the arrays flow_accumulation works on *)
  Record acc := Acc {
    a_cnt : list Z;       (* flow_acc: a float array holding whole numbers *)
    a_area : list W;      (* flow_acc_area *)
    a_nidp : list Z       (* nidp_array *)
  }.

  (** the [while True] loop, lines 459-467 *)
  Fixpoint acc_walk (fuel : nat) (fdir : list Z) (s : acc) (n : Z) (naccu : Z) (area : W) : res acc :=
    match fuel with
    | O => Err OutOfFuel
    | S f =>
        c <- npget (a_cnt s) n ;;
        cnt <- npset (a_cnt s) n (c + naccu) ;;
        w <- npget (a_area s) n ;;
        areas <- npset (a_area s) n (wadd w area) ;;
        naccu' <- npget cnt n ;;
        area' <- npget areas n ;;
        d <- npget (a_nidp s) n ;;
        if 2 <=? d then
          nidp <- npset (a_nidp s) n (d - 1) ;;
          Ok (Acc cnt areas nidp)
        else
          n' <- npget fdir n ;;
          acc_walk f fdir (Acc cnt areas (a_nidp s)) n' naccu' area'
    end.

  (** lines 449-467.  [enumerate(nidp_array)] reads the array while it is updated. *)
  Definition acc_run (fuel : nat) (fdir : list Z) (area : list W) : res acc :=
    nidp <- get_nidp fdir ;;
    foldM (fun s ix =>
             nidp_val <- get (a_nidp s) ix ;;
             if negb (nidp_val =? 0) then Ok s
             else acc_walk fuel fdir s (Z.of_nat ix) 0 wzero)
          (seq 0 (length fdir))
          (Acc (repeat 1 (length fdir)) area nidp).

  (** lines 469-475: [as_cells] selects which array is returned *)
  Definition flow_accumulation_cells (fuel : nat) (fdir : list Z) (area : list W) : res (list Z) :=
    s <- acc_run fuel fdir area ;; Ok (a_cnt s).
  (* flow_directions.py 473-475 *)
  Definition flow_accumulation_area (fuel : nat) (fdir : list Z) (area : list W) : res (list W) :=
    s <- acc_run fuel fdir area ;; Ok (a_area s).
End Acc.

(** ** _reverse_flow_directions, flow_directions.py 347-369 (first call; the cache is in
    the object model).  The matrix is a list of rows. *)
(** [np.max], flow_directions.py 362 and 523 *)
Definition npmax (l : list Z) : res Z :=
  match l with [] => Err ValueError | x :: l' => Ok (fold_left Z.max l' x) end.

(** lines 365-368: first free row of the column, if any *)
Fixpoint rev_insert (rows : list (list Z)) (fdir : Z) (ix : Z) : res (list (list Z)) :=
  match rows with
  | [] => Ok []
  | r :: rows' =>
      v <- npget r fdir ;;
      if v =? -1 then r' <- npset r fdir ix ;; Ok (r' :: rows')
      else rest <- rev_insert rows' fdir ix ;; Ok (r :: rest)
  end.

(* flow_directions.py 362-369 *)
Definition reverse_flow_directions (fdir : list Z) : res (list (list Z)) :=
  nidp <- get_nidp fdir ;;
  max_nidp <- npmax nidp ;;
  foldM (fun rows p => rev_insert rows (snd p) (Z.of_nat (fst p)))
        (combine (seq 0 (length fdir)) fdir)
        (repeat (repeat (-1) (length fdir)) (Z.to_nat max_nidp)).

(** [fdir_r[:nidp, cellid].tolist()], lines 526 and 537 (here nidp >= 0) *)
Definition column (fdir_r : list (list Z)) (nidp : Z) (cell : Z) : res (list Z) :=
  mapM (fun r => npget r cell) (firstn (Z.to_nat nidp) fdir_r).

(** ** get_watershed_boundary, flow_directions.py 477-541.  The pour point is given by its
    cell number: locating the point in the grid (lines 505-518) is flopy's. *)
Fixpoint ws_loop (fuel : nat) (fdir_r : list (list Z)) (nidp : list Z) (id : Z)
         (stack : list Z) (sub : list Z) : res (list Z) :=
  match stack with
  | [] => Ok sub
  | cell :: stack' =>
      match fuel with
      | O => Err OutOfFuel
      | S f =>
          v <- npget sub cell ;;
          if negb (v =? 0) then ws_loop f fdir_r nidp id stack' sub
          else
            sub' <- npset sub cell id ;;
            k <- npget nidp cell ;;
            if k =? 0 then ws_loop f fdir_r nidp id stack' sub'
            else up <- column fdir_r k cell ;;
                 ws_loop f fdir_r nidp id (stack' ++ up) sub'
      end
  end.

(** lines 521-541, given the reversed flow directions *)
Definition watershed_with (fuel : nat) (fdir : list Z) (fdir_r : list (list Z)) (cell : Z)
           (subbasins : option (list Z)) : res (list Z) :=
  nidp <- get_nidp fdir ;;
  let sub := match subbasins with Some s => s | None => repeat 0 (length fdir) end in
  m <- npmax sub ;;
  let id := m + 1 in
  sub' <- npset sub cell id ;;
  k <- npget nidp cell ;;
  stack <- column fdir_r k cell ;;
  ws_loop fuel fdir_r nidp id stack sub'.

(** on a freshly computed flow-direction array (line 520 computes the reversal) *)
Definition get_watershed_boundary (fuel : nat) (fdir : list Z) (cell : Z)
           (subbasins : option (list Z)) : res (list Z) :=
  fdir_r <- reverse_flow_directions fdir ;;
  watershed_with fuel fdir fdir_r cell subbasins.

(** ** class Topology, stream_util.py 1405-1487 *)
(* stream_util.py 1417-1419 *)
Definition topology := list (Z * Z).

(** add_connection, 1421-1432 *)
Definition add_connection (t : topology) (iseg ioutseg : Z) : topology := dset Z.eqb t iseg ioutseg.

(** _sort_util, 1434-1463.  [lim] is the number of stack frames Python still allows:
    exceeding it raises RecursionError. *)
Fixpoint sort_util (lim : nat) (t : topology) (seg : Z) (visited : list (Z * bool)) (stack : list Z)
  : res (list (Z * bool) * list Z) :=
  match lim with
  | O => Err RecursionError
  | S l =>
      let visited := dset Z.eqb visited seg true in
      ioutseg <- (if seg =? 0 then Ok 0 else dgetE Z.eqb t seg) ;;
      b <- dgetE Z.eqb visited ioutseg ;;
      ' (visited, stack) <- (if b : bool then Ok (visited, stack)
                             else sort_util l t ioutseg visited stack) ;;
      Ok (visited,
          if seg =? 0 then stack
          else if ioutseg =? 0 then stack ++ [seg]
          else seg :: stack)
  end.

(** sort, 1465-1487 *)
Definition topo_sort (lim : nat) (t : topology) : res (list Z) :=
  let visited := fold_left (fun v k => dset Z.eqb v (fst k) false) t [(0, false)] in
  ' (_, stack) <- foldM (fun (vs : list (Z * bool) * list Z) i =>
                           let '(visited, stack) := vs in
                           if i =? 0 then Ok (visited, stack)
                           else
                             b <- dgetE Z.eqb visited i ;;
                             if b : bool then Ok (visited, stack)
                             else sort_util lim t i visited stack)
                        (isort Z.leb (map fst visited)) (visited, []) ;;
  Ok stack.

(** ** get_subbasins, flow_directions.py 543-624.  The points are given by their cell
    numbers (lines 571-587 are flopy's and type checks). *)
(** the [while True] trace of one pour point, lines 591-608; returns graph[current] *)
Fixpoint sub_trace (fuel : nat) (fdir : list Z) (cellids : list Z) (current cell : Z)
         (visited : list Z) : res Z :=
  match fuel with
  | O => Err OutOfFuel
  | S f =>
      if memz cell visited then Ok (-1)
      else if negb (memz cell cellids) || (cell =? current) then
        if negb (cell =? current) then
          next <- npget fdir cell ;;
          sub_trace f fdir cellids current next (visited ++ [cell])
        else
          next <- npget fdir cell ;;
          if next =? current then Ok (-1)
          else sub_trace f fdir cellids current next visited
      else Ok cell
  end.

(** [cellids.index(cellid)] raises ValueError if absent *)
(* flow_directions.py 616 *)
Fixpoint list_index (x : Z) (l : list Z) (i : nat) : res nat :=
  match l with
  | [] => Err ValueError
  | y :: l' => if x =? y then Ok i else list_index x l' (S i)
  end.

(* flow_directions.py 589-624 *)
Definition get_subbasins (lim fuel : nat) (fdir : list Z) (cellids : list Z) : res (list Z) :=
  graph <- foldM (fun g c => v <- sub_trace fuel fdir cellids c c [] ;; Ok (dset Z.eqb g c v))
                 cellids [] ;;
  let topo := add_connection
                (fold_left (fun t kv => add_connection t (fst kv) (snd kv)) graph []) (-1) (-1) in
  sorted <- topo_sort lim topo ;;
  let solution_order := removelast sorted in
  idxs <- mapM (fun c => list_index c cellids 0) solution_order ;;
  (* the first call computes and caches the reversed flow directions *)
  foldM (fun sub i =>
           c <- get cellids i ;;
           get_watershed_boundary fuel fdir c (Some sub))
        idxs (repeat 0 (length fdir)).
