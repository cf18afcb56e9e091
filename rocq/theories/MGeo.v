(** Model of the geometric formulas: cell areas, slope, aspect and vectors
    (dany/flow_directions.py 98-121, 690-749).  Arithmetic is exact: the real numbers of Coq's
    standard library stand for NumPy's doubles; [None] is NaN. *)
From Coq Require Import Reals.
From Verif Require Import Py.
Set Implicit Arguments.
Unset Strict Implicit.
Local Open Scope R_scope.
Local Open Scope list_scope.

Notation point := (R * R)%type (only parsing).

(** ** _shoelace_area, flow_directions.py 98-121 *)
(** Python's index [i - 1] for [i] in range(n): -1 is the last entry *)
(* flow_directions.py 118 *)
Definition before (n i : nat) : nat := match i with O => (n - 1)%nat | S j => j end.

(** flow_directions.py 115-118 for one cell, vertices (xs, ys) *)
Definition area_x2 (xs ys : list R) : R :=
  let n := length xs in
  fold_left (fun a i => a + (nth (before n i) xs 0 * nth i ys 0 - nth (before n i) ys 0 * nth i xs 0))
            (seq 0 n) 0.

(** flow_directions.py 120-121 *)
Definition shoelace (p : list point) : R := Rabs (area_x2 (map fst p) (map snd p) / 2).

(** flopy's irregular_shape_patch (flow_directions.py 112-114): vertex lists are extended to a common length by
    repeating their last vertex *)
Definition patch (w : nat) (p : list point) : list point :=
  p ++ repeat (last p (0, 0)) (w - length p).
(* flow_directions.py 112-114 *)
Definition widest_cell (cells : list (list point)) : nat := fold_left (fun w p => Nat.max w (length p)) cells 0%nat.
(* flow_directions.py 98-121 *)
Definition cell_areas (cells : list (list point)) : list R :=
  map (fun p => shoelace (patch (widest_cell cells) p)) cells.

(** ** distances between cell centres *)
(* flow_directions.py 164-166, 706-708; stream_util.py 589-591, 785-791, 1048-1050 *)
Definition distance (a b : point) : R := sqrt ((fst a - fst b) ^ 2 + (snd a - snd b) ^ 2).

(** ** slope, flow_directions.py 690-712 (the property): the drop to the cell below over the distance; upward...
    0 < drop < 1e-6 counts as flat; 0/0 and NaN elevations give 0.  For a drop other than 0
    over distance 0 NumPy returns inf: not modelled, two different cells have different centres. *)
(* flow_directions.py 705 *)
Definition small_drop (d : R) : R :=
  if Rlt_dec d (1 / 1000000) then if Rlt_dec 0 d then 0 else d else d.
(* flow_directions.py 702-711 *)
Definition slope_to (centers : list point) (dem : list (option R)) (c n : nat) : R :=
  match nth c dem None, nth n dem None with
  | Some zc, Some zn =>
      let d := distance (nth c centers (0, 0)) (nth n centers (0, 0)) in
      if Req_EM_T d 0 then 0 else small_drop (zc - zn) / d
  | _, _ => 0
  end.
(* flow_directions.py 699-712 *)
Definition slopes (centers : list point) (dem : list (option R)) (fdir : list Z) : res (list R) :=
  mapM (fun p => match npidx (length fdir) (snd p) with
                 | Some n => Ok (slope_to centers dem (fst p) n)
                 | None => Err IndexError
                 end) (combine (seq 0 (length fdir)) fdir).

(** ** np.arctan2 (zeros are unsigned: [xc[fdir] - xc] is +0 where a cell flows to itself) *)
(* flow_directions.py 729 *)
Definition arctan2 (y x : R) : R :=
  if Rlt_dec 0 x then atan (y / x)
  else if Rlt_dec x 0 then (if Rlt_dec y 0 then atan (y / x) - PI else atan (y / x) + PI)
  else if Rlt_dec 0 y then PI / 2
  else if Rlt_dec y 0 then - (PI / 2) else 0.

(** ** aspect, flow_directions.py 715-731 *)
Definition aspect_of (here there : point) : R :=
  let a := arctan2 (snd there - snd here) (fst there - fst here) * (180 / PI) in
  if Rlt_dec a 0 then a + 360 else a.
(* flow_directions.py 725-731 *)
Definition aspect (centers : list point) (fdir : list Z) : res (list R) :=
  mapM (fun p => there <- npget centers (snd p) ;; Ok (aspect_of (fst p) there)) (combine centers fdir).

(** ** vectors, flow_directions.py 734-749 *)
Definition vector_of (a : R) : point := let r := a * (PI / 180) in (cos r, sin r).
(* flow_directions.py 745-749 *)
Definition vectors (centers : list point) (fdir : list Z) : res (list point) :=
  a <- aspect centers fdir ;; Ok (map vector_of a).
