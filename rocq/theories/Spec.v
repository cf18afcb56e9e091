(** Specification vocabulary.  This file does not import the model: the property
    theorems are stated with the notions below plus the model's entry points. *)
From Coq Require Import String.
From Verif Require Import Py.
Local Open Scope nat_scope.
Local Open Scope list_scope.
Local Notation length := List.length.
Set Implicit Arguments.

(** ** Elevations
    The operations the fill code applies to elevations. *)
Record elev (T : Type) := Elev {
  e_le : T -> T -> bool;      (* x <= y *)
  e_lt : T -> T -> bool;      (* x <  y *)
  e_eq : T -> T -> bool;      (* x == y *)
  e_add : T -> T -> T;        (* x + y  *)
  e_zero : T;                 (* 0.     *)
  e_big : T                   (* 1e+10, the flood level of the drain method *)
}.

(** Laws: on the valid ([ok], i.e. not NaN) elevations the comparisons are those of a
    discrete total order (an integer rank), and adding [eps] is monotone and never
    lowers.  Proved for integers (Grids), rationals (LRat) and IEEE binary64 (LFloat). *)
Record elev_laws {T} (E : elev T) (ok : T -> Prop) (rk : T -> Z) (eps : T) : Prop := {
  l_le : forall x y, ok x -> ok y -> e_le E x y = (rk x <=? rk y)%Z;
  l_lt : forall x y, ok x -> ok y -> e_lt E x y = (rk x <? rk y)%Z;
  l_eq : forall x y, ok x -> ok y -> e_eq E x y = (rk x =? rk y)%Z;
  l_ok : forall x, ok x -> ok (e_add E x eps);
  l_up : forall x, ok x -> (rk x <= rk (e_add E x eps))%Z;
  l_mono : forall x y, ok x -> ok y -> (rk x <= rk y)%Z ->
            (rk (e_add E x eps) <= rk (e_add E y eps))%Z;
  l_big : ok (e_big E)
}.

(** adding eps = 0 does not change the value *)
Definition eps_null {T} (E : elev T) (ok : T -> Prop) (eps : T) : Prop :=
  forall x, ok x -> e_eq E (e_add E x eps) x = true.

(** ** Grids: a neighbour table maps each cell to the list of its neighbours. *)
Definition adjacent (nb : list (list nat)) (c n : nat) : Prop :=
  exists l, nth_error nb c = Some l /\ In n l.

(** links between cells of a DEM of [size] cells *)
Definition link (nb : list (list nat)) (size : nat) (c n : nat) : Prop :=
  adjacent nb c n /\ n < size.

Definition symmetric_grid (nb : list (list nat)) : Prop :=
  forall c n, adjacent nb c n -> adjacent nb n c.

(** [gpath E s n l]: [l] lists (last cell first) the cells of a path from [s] to [n]. *)
Inductive gpath (E : nat -> nat -> Prop) (s : nat) : nat -> list nat -> Prop :=
| gp_start : gpath E s s [s]
| gp_step : forall c n l, gpath E s c l -> E c n -> gpath E s n (n :: l).

(** cell [n] can be reached from a cell in [seeds] *)
Definition reachable (E : nat -> nat -> Prop) (seeds : nat -> Prop) (n : nat) : Prop :=
  exists s l, seeds s /\ gpath E s n l.

(** [n] is joined to a seed cell by a chain of links along which the elevation [z]
    satisfies [R (lower end) (upper end)] at each step, e.g. R = strictly lower. *)
Inductive drains {T} (R : T -> T -> bool) (E : nat -> nat -> Prop) (seeds : nat -> Prop)
          (z : list T) : nat -> Prop :=
| dr_seed : forall s, seeds s -> drains R E seeds z s
| dr_down : forall c n x y, drains R E seeds z c -> E c n ->
    nth_error z c = Some x -> nth_error z n = Some y -> R x y = true ->
    drains R E seeds z n.

(** [v] is the spill elevation of cell [n]: the least, over all paths from a seed to
    [n], of the highest elevation on the path. *)
Definition is_spill {T} (le : T -> T -> bool) (E : nat -> nat -> Prop) (seeds : nat -> Prop)
           (dem : list T) (n : nat) (v : T) : Prop :=
  (exists s l, seeds s /\ gpath E s n l /\
     forall m x, In m l -> nth_error dem m = Some x -> le x v = true) /\
  (forall s l, seeds s -> gpath E s n l ->
     exists m x, In m l /\ nth_error dem m = Some x /\ le v x = true).

(** [k]-fold addition of eps *)
Fixpoint add_times {T} (E : elev T) (eps : T) (k : nat) (x : T) : T :=
  match k with O => x | S k' => e_add E (add_times E eps k' x) eps end.

(** every neighbour of a cell is itself a cell *)
Definition neighbours_in (nb : list (list nat)) (size : nat) : Prop :=
  forall c n, c < size -> adjacent nb c n -> n < size.

(** ** Polygons *)
(** the vertex list without a repeated closing vertex *)
Definition open_ring (p : list nat) : list nat :=
  match p with
  | [] => []
  | v :: _ => if Nat.eqb v (last p v) then removelast p else p
  end.

(** [a]-[b] is a side of polygon [p]: consecutive vertices, cyclically, in either order *)
Definition side (p : list nat) (a b : nat) : Prop :=
  let r := open_ring p in
  exists i, i < length r /\
    let u := nth i r 0 in let v := nth (S i mod length r) r 0 in
    (a = u /\ b = v) \/ (a = v /\ b = u).

(** cell [n] has a side that no other cell has *)
Definition boundary_cell (polys : list (list nat)) (n : nat) : Prop :=
  exists p a b, nth_error polys n = Some p /\ side p a b /\
    forall m q, nth_error polys m = Some q -> side q a b -> m = n.

(** a grid with [size] cells: one non-empty polygon and one neighbour list per cell
    (the neighbour table may be longer, for grids with several layers) *)
Definition grid_of (iverts nb : list (list nat)) (size : nat) : Prop :=
  length iverts = size /\ Forall (fun p => p <> []) iverts /\ size <= length nb.

(** ** Priority queues
    A history is a list of operations, [Some x] = push x, [None] = pop.
    [pq_spec lt ops pending outs]: starting with the pending entries, the pops answer
    [outs]: the popped entry is pending, no pending entry is smaller, and exactly that
    entry stops being pending; a pop on an empty queue answers [None]. *)
Inductive pq_spec {A} (lt : A -> A -> bool) : list (option A) -> list A -> list (option A) -> Prop :=
| pq_nil : forall pend, pq_spec lt [] pend []
| pq_push : forall x ops pend outs,
    pq_spec lt ops (x :: pend) outs -> pq_spec lt (Some x :: ops) pend outs
| pq_pop_empty : forall ops outs,
    pq_spec lt ops [] outs -> pq_spec lt (None :: ops) [] (None :: outs)
| pq_pop : forall x rest ops pend outs,
    Permutation pend (x :: rest) -> (forall y, In y pend -> lt y x = false) ->
    pq_spec lt ops rest outs -> pq_spec lt (None :: ops) pend (Some x :: outs).

(** ** DEMs with missing values ([None] = NaN) *)
Definition is_nan {T} (dem : list (option T)) (n : nat) : Prop := nth_error dem n = Some None.
Definition is_valid {T} (dem : list (option T)) (n : nat) : Prop :=
  exists x, nth_error dem n = Some (Some x).

(** ** Arguments of fill_sinks *)
(** the request runs priority flooding: method 'priority' or 'complete' (any case), or
    any method together with a stream mask *)
Definition flood_method (method : string) (mask : option (list Z)) : Prop :=
  lower method = "priority"%string \/ lower method = "complete"%string \/ mask <> None.

(** the increment used: 0 for 'complete' *)
Definition step_eps {T} (E : elev T) (method : string) (eps : T) : T :=
  if String.eqb (lower method) "complete" then e_zero E else eps.

(** where the flood starts: the boundary cells, or the masked stream cells *)
Definition source (iverts : list (list nat)) (mask : option (list Z)) (n : nat) : Prop :=
  match mask with
  | None => boundary_cell iverts n
  | Some m => exists v, nth_error m n = Some v /\ (0 < v)%Z
  end.

Definition mask_fits (mask : option (list Z)) (size : nat) : Prop :=
  match mask with None => True | Some m => length m = size end.

(** ** Flow-direction arrays *)
(** every entry is a cell number *)
Definition valid_fdir (fdir : list Z) : Prop :=
  Forall (fun d => (0 <= d < Z.of_nat (length fdir))%Z) fdir.

(** the cell that [c] flows to *)
Definition down (fdir : list Z) (c : nat) : nat := Z.to_nat (nth c fdir 0%Z).

(** [k] steps downstream *)
Fixpoint downs (fdir : list Z) (k c : nat) : nat :=
  match k with O => c | S k' => downs fdir k' (down fdir c) end.

(** the flow path of [c] passes through [n] (c itself included) *)
Definition flows_through (fdir : list Z) (c n : nat) : Prop := exists k, downs fdir k c = n.

(** [n] is on a flow cycle of length two or more *)
Definition on_cycle (fdir : list Z) (n : nat) : Prop :=
  down fdir n <> n /\ exists k, 0 < k /\ downs fdir k n = n.

Definition acyclic (fdir : list Z) : Prop :=
  forall n, n < length fdir -> ~ on_cycle fdir n.

(** terminal cell: flows to itself *)
Definition terminal (fdir : list Z) (n : nat) : Prop := down fdir n = n.

(** [s] is the sum of [w] over the cells [c < size] satisfying [P] *)
Inductive sum_over {W} (plus : W -> W -> W) (zero : W) (w : nat -> W) (P : nat -> Prop)
  : nat -> W -> Prop :=
| so_nil : sum_over plus zero w P 0 zero
| so_in : forall n s, sum_over plus zero w P n s -> P n ->
          sum_over plus zero w P (S n) (plus s (w n))
| so_out : forall n s, sum_over plus zero w P n s -> ~ P n ->
          sum_over plus zero w P (S n) s.

(** ** Statistics used to fill missing values *)
(** the known values among the cells [nn]: [dem] gives the input, [out] the result; a
    missing cell counts only if its number is larger than [n] (it was filled before). *)
Fixpoint known_values {T} (dem out : list (option T)) (n : nat) (nn : list nat) : list T :=
  match nn with
  | [] => []
  | m :: nn' =>
      match (if n <? m then nth m out None else nth m dem None) with
      | Some x => x :: known_values dem out n nn'
      | None => known_values dem out n nn'
      end
  end.

(** [p] is the first of the cells [pours] met by the flow path of [c] ([c] included) *)
Definition first_pour (fdir : list Z) (pours : list nat) (c p : nat) : Prop :=
  In p pours /\ exists k, downs fdir k c = p /\ forall j, j < k -> ~ In (downs fdir j c) pours.

(** ** Stream networks as dictionaries segment -> downstream segment *)
(** [x] stands somewhere before [y] in [l] *)
Definition precedes {A} (x y : A) (l : list A) : Prop :=
  exists l1 l2 l3, l = l1 ++ x :: l2 ++ y :: l3.

(** following the connections in [t] from segment [a] leads to [b] *)
Inductive drains_into (t : list (Z * Z)) : Z -> Z -> Prop :=
| di_here : forall a, drains_into t a a
| di_step : forall a o b, In (a, o) t -> drains_into t o b -> drains_into t a b.

(** every connection ends in 0 or in a segment of the network *)
Definition network_closed (t : list (Z * Z)) : Prop :=
  forall s o, In (s, o) t -> o = 0%Z \/ exists o', In (o, o') t.

(** ** Stream cells *)
(** [c] is a stream cell of the raveled stream array *)
Definition stream_cell (strm : list Z) (c : nat) : Prop :=
  exists v, nth_error strm c = Some v /\ v <> 0%Z.

(** [l] lists the stream cells that flow into cell [c] (a cell that flows to itself counts) *)
Definition stream_inflows (fdir strm : list Z) (c : nat) (l : list nat) : Prop :=
  NoDup l /\ forall x, In x l <-> stream_cell strm x /\ down fdir x = c.

(** [c] is a headwater (no inflow) or a confluence (two or more inflows) *)
Definition starts_segment (fdir strm : list Z) (c : nat) : Prop :=
  stream_cell strm c /\ exists l, stream_inflows fdir strm c l /\ length l <> 1.

(** [c] is on a cycle of stream cells that nothing else flows into (also: a stream cell
    that flows to itself and has no other inflow) *)
Definition closed_ring (fdir strm : list Z) (c : nat) : Prop :=
  exists k, 0 < k /\ downs fdir k c = c /\
    forall j, stream_cell strm (downs fdir j c) /\
      exists x, stream_inflows fdir strm (downs fdir j c) [x].

(** ** Runoff *)
(** [s] carries a (positive) stream label *)
Definition labelled (strm : list Z) (s : nat) : Prop :=
  exists v, nth_error strm s = Some v /\ (0 < v)%Z.

(** [s] is the first labelled cell on the flow path of [c] ([c] included) *)
Definition first_labelled (fdir strm : list Z) (c s : nat) : Prop :=
  labelled strm s /\ exists k, downs fdir k c = s /\ forall j, j < k -> ~ labelled strm (downs fdir j c).

(** [s] is the labelled cell with the smallest cell number on the flow path of [c] *)
Definition lowest_labelled (fdir strm : list Z) (c s : nat) : Prop :=
  labelled strm s /\ flows_through fdir c s /\
  forall t, labelled strm t -> flows_through fdir c t -> s <= t.

(** ** Cascades: records (upslope HRU, downslope HRU, fraction, stream segment) *)
(** the fractions of the records leaving HRU [u] *)
Definition leaving {F} (u : Z) (out : list (Z * Z * F * Z)) : list F :=
  map (fun e => let '(_, _, f, _) := e in f) (filter (fun e => let '(u', _, _, _) := e in Z.eqb u' u) out).

(** [c] is inside the basin given by an optional 0/1 array *)
Definition inside (basin : option (list Z)) (c : nat) : Prop :=
  match basin with None => True | Some b => exists v, nth_error b c = Some v /\ v <> 0%Z end.

Definition basin_fits (basin : option (list Z)) (size : nat) : Prop :=
  match basin with None => True | Some b => length b = size end.

(** ** Control points *)
(** neighbour [n] of [c] flows into [c] and has an accumulation value *)
Definition feeds {T} (isnan : T -> bool) (fdir : list Z) (facc : list T) (c n : nat) : Prop :=
  nth_error fdir n = Some (Z.of_nat c) /\ exists a, nth_error facc n = Some a /\ isnan a = false.

(** [n] is the inflow of [c] with the largest accumulation, the first in the neighbour list
    if several are equal *)
Definition main_inflow {T} (isnan : T -> bool) (gt : T -> T -> bool) (nb : list (list nat))
           (fdir : list Z) (facc : list T) (c n : nat) : Prop :=
  exists l1 l2 a, nth_error nb c = Some (l1 ++ n :: l2) /\
    feeds isnan fdir facc c n /\ nth_error facc n = Some a /\
    (forall m b, In m l1 -> feeds isnan fdir facc c m -> nth_error facc m = Some b -> gt a b = true) /\
    (forall m b, In m l2 -> feeds isnan fdir facc c m -> nth_error facc m = Some b -> gt b a = false).

(** climbing from [c] along the main inflows passes through [n] *)
Inductive climbs {T} (isnan : T -> bool) (gt : T -> T -> bool) (nb : list (list nat))
          (fdir : list Z) (facc : list T) (c : nat) : nat -> Prop :=
| cl_here : climbs isnan gt nb fdir facc c c
| cl_up : forall m n, climbs isnan gt nb fdir facc c m -> main_inflow isnan gt nb fdir facc m n ->
          climbs isnan gt nb fdir facc c n.

(** [gt] is "greater" for some total preorder on the values that are not NaN *)
Definition weak_order {T} (isnan : T -> bool) (gt : T -> T -> bool) : Prop :=
  (forall x, isnan x = false -> gt x x = false) /\
  (forall x y z, isnan x = false -> isnan y = false -> isnan z = false ->
     gt x y = true -> gt y z = true -> gt x z = true) /\
  (forall x y z, isnan x = false -> isnan y = false -> isnan z = false ->
     gt x y = false -> gt y z = false -> gt x z = false).

(** ** Flow directions *)
(** the number operations used on elevations and slopes; [o_big] is the 1e+10 given to the
    padding slots *)
Record slope_ops (T : Type) := SlopeOps {
  o_sub : T -> T -> T; o_div : T -> T -> T;
  o_lt : T -> T -> bool; o_eq : T -> T -> bool;
  o_zero : T; o_big : T }.

(** [o_lt] is a strict weak order on the values that satisfy [ok] and [o_eq] says that
    neither value is smaller (exact arithmetic; binary64 numbers other than NaN) *)
Record order_laws {T} (O : slope_ops T) (ok : T -> Prop) : Prop := {
  ol_asym : forall x y, ok x -> ok y -> o_lt O x y = true -> o_lt O y x = false;
  ol_neg : forall x y z, ok x -> ok y -> ok z ->
    o_lt O x y = true -> o_lt O x z = true \/ o_lt O z y = true;
  ol_eq : forall x y, ok x -> ok y -> o_eq O x y = negb (o_lt O x y) && negb (o_lt O y x) }.

(** [s] is the slope from [c] to [n] (negative: downhill); a rise smaller than the
    threshold counts as flat *)
Definition slope_to {T} (O : slope_ops T) (thr : T) (dist : nat -> nat -> T)
           (dem : list (option T)) (c n : nat) (s : T) : Prop :=
  exists zc zn, nth_error dem c = Some (Some zc) /\ nth_error dem n = Some (Some zn) /\
    let d := o_sub O zn zc in
    s = o_div O (if o_lt O d thr && o_lt O (o_zero O) d then o_zero O else d) (dist c n).

(** no neighbour of [c] has a smaller slope than its neighbour [n] *)
Definition steepest {T} (O : slope_ops T) (thr : T) (dist : nat -> nat -> T)
           (dem : list (option T)) (nb : list (list nat)) (c n : nat) : Prop :=
  adjacent nb c n /\
  exists s, slope_to O thr dist dem c n s /\
    forall n' s', adjacent nb c n' -> slope_to O thr dist dem c n' s' -> o_lt O s' s = false.

(** no cell is lower than [c] *)
Definition lowest {T} (O : slope_ops T) (dem : list (option T)) (c : nat) : Prop :=
  exists z, nth_error dem c = Some (Some z) /\
    forall c' z', nth_error dem c' = Some (Some z') -> o_lt O z' z = false.

(** no cell has more neighbours than [c] *)
Definition full_row (nb : list (list nat)) (c : nat) : Prop :=
  forall c' l l', nth_error nb c = Some l -> nth_error nb c' = Some l' -> length l' <= length l.

(** grid, DEM and terminal cells of a flow_directions call *)
Record terrain_ok {T} (O : slope_ops T) (ok : T -> Prop) (thr : T) (dist : nat -> nat -> T)
       (dem : list (option T)) (nb : list (list nat)) (terminals : list Z) : Prop := {
  tr_rows : length nb = length dem;
  tr_nb : neighbours_in nb (length dem);
  tr_some : exists c n, adjacent nb c n;
  tr_elev : forall c z, nth_error dem c = Some (Some z) -> ok z;
  tr_slopes : forall c n s, adjacent nb c n -> slope_to O thr dist dem c n s -> ok s;
  tr_big : ok (o_big O);
  (** some elevation is below 1e+10 *)
  tr_low : exists c z, nth_error dem c = Some (Some z) /\ o_lt O z (o_big O) = true;
  (** every valid cell has a valid neighbour (with slope below 1e+10), or as many
      neighbours as any cell of the grid (like the inner cells of a regular grid) *)
  tr_exit : forall c, is_valid dem c ->
    (exists n s, adjacent nb c n /\ slope_to O thr dist dem c n s /\ o_lt O s (o_big O) = true)
    \/ full_row nb c;
  tr_term : forall t, In t terminals -> (0 <= t < Z.of_nat (length dem))%Z;
  tr_size : (Z.of_nat (length dem) < 999000)%Z }.

(** enough iterations for every loop of the model *)
Definition enough_steps (nb : list (list nat)) (fuel : nat) : Prop :=
  exists width, (forall l, In l nb -> length l <= width) /\
    (length nb + 1) * (width + 2) + 3 <= fuel.
