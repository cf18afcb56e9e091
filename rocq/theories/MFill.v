(** Model of dany/dem_conditioning.py *)
From Coq Require Import String Ascii.
From Verif Require Import Py Spec MHeap.
Set Implicit Arguments.
Local Open Scope nat_scope.
Local Open Scope list_scope.

Section Fill.
  Context {T : Type} (E : elev T).

  (** Python's [<] on the heap entries [(elevation, cell)]: tuples are compared
      lexicographically (first elements [==], then second elements). *)
  (* dem_conditioning.py 182, 192, 224: what heapq compares *)
  Definition entry_lt (a b : T * nat) : bool :=
    if e_eq E (fst a) (fst b) then snd a <? snd b else e_lt E (fst a) (fst b).

  (** [np.min] of a non-empty list [x :: l] (dem_conditioning.py 200-201): NaN, the only
      value that differs from itself, if there is one in the list *)
  Definition amin (x : T) (l : list T) : T :=
    fold_left (fun m y => if negb (e_eq E m m) then m
                          else if negb (e_eq E y y) || e_lt E y m then y else m) l x.
  (* np.max, dem_conditioning.py 138 (of elevations that are not NaN, see line 136) *)
  Definition amax (x : T) (l : list T) : T :=
    fold_left (fun m y => if e_lt E m y then y else m) l x.

  (** ** _priority_flood, dem_conditioning.py 144-226 *)
  Record pf := PF {
    pf_dem : list T;               (* newdem *)
    pf_closed : list bool;         (* closed *)
    pf_open : list (T * nat);      (* open: the heapq list *)
    pf_pit : list nat              (* pit *)
  }.

  (** body of [for n in neighs], lines 203-224 *)
  Definition pf_visit (eps : T) (streams : bool) (seed : list nat) (c : nat)
             (s : pf) (n : nat) : res pf :=
    if length (pf_dem s) <=? n then Ok s                       (* n >= dem.size: continue *)
    else
      cl <- get (pf_closed s) n ;;
      if cl then Ok s                                          (* closed[n]: continue *)
      else
        closed' <- set (pf_closed s) n true ;;
        en <- get (pf_dem s) n ;;
        ec <- get (pf_dem s) c ;;
        let s1 := PF (pf_dem s) closed' (pf_open s) (pf_pit s) in
        let fill :=
          dem' <- set (pf_dem s) n (e_add E ec eps) ;;
          Ok (PF dem' closed' (pf_open s) (pf_pit s ++ [n])) in
        if e_le E en ec then
          if streams then
            if negb (memn c seed) && negb (memn n seed) then fill
            else if memn c seed then fill
            else Ok s1
          else fill
        else Ok (PF (pf_dem s) closed' (heappush entry_lt (pf_open s) (en, n)) (pf_pit s)).

  (** lines 195-201: raise a stream cell lying below its stream neighbours *)
  Definition pf_burn (eps : T) (seed : list nat) (c : nat) (neighs : list nat)
             (dem : list T) : res (list T) :=
    if memn c seed then
      elevs <- mapM (get dem) (filter (fun n => memn n seed) neighs) ;;
      match elevs with
      | x :: y :: l =>
          let m := amin x (y :: l) in
          ec <- get dem c ;;
          if e_lt E ec m then set dem c (e_add E m eps) else Ok dem
      | _ => Ok dem
      end
    else Ok dem.

  (** one iteration of [while open or pit], lines 188-224 *)
  Definition pf_step (nb : list (list nat)) (eps : T) (streams : bool) (seed : list nat)
             (c : nat) (s : pf) : res pf :=
    neighs <- match nth_error nb c with Some l => Ok l | None => Err KeyError end ;;
    dem1 <- (if streams then pf_burn eps seed c neighs (pf_dem s) else Ok (pf_dem s)) ;;
    foldM (pf_visit eps streams seed c) neighs
          (PF dem1 (pf_closed s) (pf_open s) (pf_pit s)).

  (* dem_conditioning.py 188-224 *)
  Fixpoint pf_loop (fuel : nat) (nb : list (list nat)) (eps : T) (streams : bool)
           (seed : list nat) (s : pf) : res pf :=
    match pf_pit s with
    | c :: pit' =>
        match fuel with
        | O => Err OutOfFuel
        | S f => s' <- pf_step nb eps streams seed c
                         (PF (pf_dem s) (pf_closed s) (pf_open s) pit') ;;
                 pf_loop f nb eps streams seed s'
        end
    | [] =>
        match heappop entry_lt (pf_open s) with
        | None => Ok s
        | Some ((_, c), open') =>
            match fuel with
            | O => Err OutOfFuel
            | S f => s' <- pf_step nb eps streams seed c
                             (PF (pf_dem s) (pf_closed s) open' []) ;;
                     pf_loop f nb eps streams seed s'
            end
        end
    end.

  (** lines 179-185 *)
  Definition pf_init (dem : list T) (seed : list nat) : res pf :=
    open <- foldM (fun h n => e <- get dem n ;; Ok (heappush entry_lt h (e, n))) seed [] ;;
    closed <- foldM (fun cl n => set cl n true) seed (repeat false (length dem)) ;;
    Ok (PF dem closed open []).

  (* dem_conditioning.py 174-226 *)
  Definition priority_flood (fuel : nat) (nb : list (list nat)) (dem : list T) (eps : T)
             (seed : list nat) (streams : bool) : res (list T) :=
    s0 <- pf_init dem seed ;;
    s <- pf_loop fuel nb eps streams seed s0 ;;
    Ok (pf_dem s).

  (** ** _inner_flood_and_drain_fill, lines 100-141: one pass over all cells.
      [wf] is updated in place while the pass runs. *)
  Definition drain_cell (nb : list (list nat)) (dem : list T) (eps : T)
             (s : bool * list T) (c : nat) : res (bool * list T) :=
    let '(modified, wf) := s in
    nc <- match nth_error nb c with Some l => Ok l | None => Err KeyError end ;;
    wc <- get wf c ;;
    dc <- get dem c ;;
    if e_lt E dc wc then                                        (* wf[c] > dem[c] *)
      wn <- mapM (get wf) nc ;;                                 (* wf[nc] *)
      if existsb (fun w => e_le E (e_add E w eps) dc) wn then   (* dem[c] >= wf[nc] + eps *)
        wf' <- set wf c dc ;; Ok (true, wf')
      else
        match filter (fun w => e_lt E (e_add E w eps) wc) wn with  (* wf[nc] + eps < wf[c] *)
        | [] => Ok (modified, wf)
        | w :: l => wf' <- set wf c (e_add E (amax w l) eps) ;; Ok (true, wf')
        end
    else Ok (modified, wf).

  (* dem_conditioning.py 126-141 *)
  Definition drain_pass (nb : list (list nat)) (dem : list T) (eps : T) (wf : list T)
    : res (bool * list T) :=
    foldM (drain_cell nb dem eps) (seq 0 (length dem)) (false, wf).

  (** ** _flood_and_drain_fill, lines 62-96 *)
  Fixpoint drain_loop (fuel : nat) (nb : list (list nat)) (dem : list T) (eps : T)
           (wf : list T) : res (list T) :=
    match fuel with
    | O => Err OutOfFuel
    | S f =>
        p <- drain_pass nb dem eps wf ;;
        if fst p then drain_loop f nb dem eps (snd p) else Ok (snd p)
    end.

  (* dem_conditioning.py 86-87 *)
  Definition drain_init (dem : list T) (seed : list nat) : res (list T) :=
    foldM (fun wf n => e <- get dem n ;; set wf n e) seed (repeat (e_big E) (length dem)).

  (* dem_conditioning.py 83-96 *)
  Definition flood_and_drain (fuel : nat) (nb : list (list nat)) (dem : list T) (eps : T)
             (seed : list nat) : res (list T) :=
    wf <- drain_init dem seed ;;
    drain_loop fuel nb dem eps wf.
End Fill.

(** ** _identify_edge_nodes, lines 229-261 *)
Definition norm_edge (a b : nat) : nat * nat := if a <=? b then (a, b) else (b, a). (* sorted([a,b]) *)

(** the sides of one polygon: [(poly[v-1], poly[v]) for v in range(len(poly))];
    [poly[-1]] is the last vertex.  Line 246 raises IndexError on an empty polygon. *)
Definition poly_edges (poly : list nat) : res (list (nat * nat)) :=
  match poly with
  | [] => Err IndexError
  | v0 :: _ =>
      let p := if Nat.eqb v0 (last poly v0) then removelast poly else poly in
      Ok (map (fun v => norm_edge (nth (match v with O => List.length p - 1 | S u => u end) p 0)
                                  (nth v p 0)) (seq 0 (List.length p)))
  end.

(* dem_conditioning.py 252-254: equality of dictionary keys *)
Definition edge_eqb (a b : nat * nat) : bool :=
  Nat.eqb (fst a) (fst b) && Nat.eqb (snd a) (snd b).

(** Python sets of cell numbers as duplicate-free lists *)
(* dem_conditioning.py 252-259 *)
Definition set_add (x : nat) (l : list nat) : list nat := if memn x l then l else l ++ [x].

(* dem_conditioning.py 243-261 *)
Definition identify_edge_nodes (iverts : list (list nat)) : res (list nat) :=
  geoms <- mapM (fun ip => es <- poly_edges (snd ip) ;;
                           Ok (map (fun e => (e, fst ip)) es))
                (combine (seq 0 (List.length iverts)) iverts) ;;
  let edges_and_nodes :=
    fold_left (fun d en =>
                 dset edge_eqb d (fst en)
                   (set_add (snd en) (match dget edge_eqb d (fst en) with
                                      | Some s => s | None => [] end)))
              (concat geoms) [] in
  let edge_nodes :=
    fold_left (fun acc kv => match snd kv with
                             | [n] => set_add n acc      (* len(nodes) == 1 *)
                             | _ => acc end)
              edges_and_nodes [] in
  Ok (isort Nat.leb edge_nodes).

(** ** fill_sinks, lines 5-59.  Arrays are given flattened ([ravel]); the final
    [reshape] restores the caller's shape.  [stream_mask] entries are compared with 0. *)
Definition fill_sinks {T} (E : elev T) (fuel : nat) (iverts : list (list nat))
           (nb : list (list nat)) (dem : list T) (eps : T)
           (stream_mask : option (list Z)) (method : string) : res (list T) :=
  edge_nodes <- identify_edge_nodes iverts ;;
  let is_pri m := String.eqb (lower m) "priority" || String.eqb (lower m) "complete" in
  let method := match stream_mask with
                | Some _ => if is_pri method then method else "priority"%string
                | None => method end in
  if is_pri method then
    let eps := if String.eqb (lower method) "complete" then e_zero E else eps in
    match stream_mask with
    | Some mask =>
        let seed := where_ (fun v => (0 <? v)%Z) mask in
        priority_flood E fuel nb dem eps seed true
    | None => priority_flood E fuel nb dem eps edge_nodes false
    end
  else flood_and_drain E fuel nb dem eps edge_nodes.

(** ** fill_nan_values, lines 264-309.  A NaN cell is [None]. *)
Section NanFill.
  Context {T : Type}.

  (** the aggregations of the non-NaN values [x :: l] of a slice:
      np.nanmean, np.nanmedian, np.nanmin, np.nanmax (lines 294-301) *)
  Record aggs := Aggs {
    ag_mean : T -> list T -> T; ag_median : T -> list T -> T;
    ag_min : T -> list T -> T; ag_max : T -> list T -> T
  }.

  (** the [if method == ...] chain, lines 293-302, with [method.lower()] of line 287.
      The flag says that the reduction raises ValueError on an empty slice
      (np.nanmin, np.nanmax); np.nanmean and np.nanmedian then return NaN. *)
  Definition nan_agg (a : aggs) (method : string) : option ((T -> list T -> T) * bool) :=
    let m := lower method in
    if String.eqb m "mean" then Some (ag_mean a, false)
    else if String.eqb m "median" then Some (ag_median a, false)
    else if String.eqb m "min" then Some (ag_min a, true)
    else if String.eqb m "max" then Some (ag_max a, true)
    else None.

  (* dem_conditioning.py 294-300: the values that are not NaN *)
  Fixpoint somes (l : list (option T)) : list T :=
    match l with [] => [] | Some x :: l' => x :: somes l' | None :: l' => somes l' end.

  (** [while stack], lines 289-307; the worklist is kept with its top (Python's end of
      list) first.  A slice with no valid value reduces to NaN. *)
  Fixpoint nan_loop (fuel : nat) (nb : list (list nat))
           (agg : option ((T -> list T -> T) * bool))
           (stack : list nat) (dem : list (option T)) : res (list (option T)) :=
    match stack with
    | [] => Ok dem
    | node :: stack' =>
        match fuel with
        | O => Err OutOfFuel
        | S f =>
            nn <- match nth_error nb node with Some l => Ok l | None => Err KeyError end ;;
            elevs <- mapM (get dem) nn ;;
            match agg with
            | None => Err NotImplementedError
            | Some (g, strict) =>
                match somes elevs with
                | [] => match elevs, strict with
                        | [], true => Err ValueError
                        | _, _ => nan_loop f nb agg (node :: stack') dem  (* stack.append(node) *)
                        end
                | x :: l =>
                    dem' <- set dem node (Some (g x l)) ;;
                    nan_loop f nb agg stack' dem'
                end
            end
        end
    end.

  (* dem_conditioning.py 285 *)
  Definition isnan (o : option T) : bool := match o with None => true | Some _ => false end.

  (* dem_conditioning.py 284-309 *)
  Definition fill_nan (fuel : nat) (nb : list (list nat)) (a : aggs) (method : string)
             (dem : list (option T)) : res (list (option T)) :=
    nan_loop fuel nb (nan_agg a method) (rev (where_ isnan dem)) dem.
End NanFill.
Arguments aggs : clear implicits.
