(** Model of the cell areas in double precision (dany/flow_directions.py 98-121): the arithmetic is
    IEEE binary64 with rounding to nearest even, the vertices are the doubles of the model grid. *)
From Coq Require Import List.
From Flocq Require Import IEEE754.BinarySingleNaN.
From Verif Require Import Py MGeo LFloat MNumF.
Set Implicit Arguments.
Unset Strict Implicit.
Local Open Scope list_scope.
Local Notation length := List.length.

(** xverts[:, i - 1] * yverts[:, i] - yverts[:, i - 1] * xverts[:, i] *)
(* flow_directions.py 118 *)
Definition determinant64 (xs ys : list b64) (i : nat) : b64 :=
  f_sub (f_mul (nth (before (length xs) i) xs f_zero) (nth i ys f_zero))
        (f_mul (nth (before (length xs) i) ys f_zero) (nth i xs f_zero)).
(* flow_directions.py 115-118 for one cell: area_x2 starts as np.zeros *)
Definition area_x2_64 (xs ys : list b64) : b64 :=
  fold_left (fun a i => f_add a (determinant64 xs ys i)) (seq 0 (length xs)) f_zero.
(* flow_directions.py 120-121 *)
Definition shoelace64 (p : list point64) : b64 := Babs (f_div (area_x2_64 (map fst p) (map snd p)) f_two).
(* flopy's irregular_shape_patch, flow_directions.py 112-114: see MGeo.patch *)
Definition patch64 (w : nat) (p : list point64) : list point64 :=
  p ++ repeat (last p (f_zero, f_zero)) (w - length p).
(* flow_directions.py 112-114 *)
Definition widest64 (cells : list (list point64)) : nat := fold_left (fun w p => Nat.max w (length p)) cells 0.
(* flow_directions.py 98-121 *)
Definition cell_areas64 (cells : list (list point64)) : list b64 :=
  map (fun p => shoelace64 (patch64 (widest64 cells) p)) cells.
