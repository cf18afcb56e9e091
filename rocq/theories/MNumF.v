(** Model in IEEE 754 binary64 of the lengths and gradients of the stream tables and of the
    distances between cells (the exact versions are in MGeo.v and MNum.v).  [x ** 2] is [x * x]
    rounded once (NumPy's square; for scalars C's pow is taken to round correctly). *)
From Coq Require Import ZArith.
From Flocq Require Import Core.Core IEEE754.BinarySingleNaN.
From Verif Require Import Py MFlow MStream LFloat PropsCascF.
Set Implicit Arguments.
Unset Strict Implicit.
Local Open Scope nat_scope.
Local Open Scope list_scope.
Local Notation length := List.length.

(* the operator *, and np.sqrt *)
Definition f_mul : b64 -> b64 -> b64 := Bmult mode_NE.
(* stream_util.py 591, 791, 1050; flow_directions.py 166, 708 *)
Definition f_sqrt : b64 -> b64 := Bsqrt mode_NE.
(* stream_util.py 557, 792, 795 *)
Definition f_1_5 : b64 := @B754_finite 53 1024 false 6755399441055744 (-52) eq_refl.
(* np.mean of two values divides by 2, stream_util.py 795 *)
Definition f_two : b64 := @B754_finite 53 1024 false 4503599627370496 (-51) eq_refl.
(* stream_util.py 798, 1004 *)
Definition f_0001 : b64 := @B754_finite 53 1024 false 7378697629483821 (-66) eq_refl.
(* stream_util.py 1003 *)
Definition f_001 : b64 := @B754_finite 53 1024 false 4611686018427388 (-62) eq_refl.
(* flow_directions.py 705 *)
Definition f_micro : b64 := @B754_finite 53 1024 false 4722366482869645 (-72) eq_refl.

(* a cell centre: xcenters[c], ycenters[c] *)
Definition point64 := (b64 * b64)%type.
(* coordinates of the centre of a cell *)
Definition at64 (l : list point64) (c : nat) : point64 := nth c l (f_zero, f_zero).
(* modelgrid.top, stream_util.py 575, 762, 1035 *)
Definition level64 (top : list (option b64)) (c : nat) : option b64 := nth c top None.

(** asq = (x0 - x1) ** 2; bsq = (y0 - y1) ** 2; np.sqrt(asq + bsq) *)
(* stream_util.py 589-591, 785-791, 1048-1050; flow_directions.py 706-708 *)
Definition distance64 (a b : point64) : b64 :=
  let dx := f_sub (fst a) (fst b) in
  let dy := f_sub (snd a) (snd b) in
  f_sqrt (f_add (f_mul dx dx) (f_mul dy dy)).
(** the distances of _calculate_slopes: neighbour minus cell *)
(* flow_directions.py 157-166 *)
Definition dist64 (centers : list point64) (c n : nat) : b64 := distance64 (at64 centers n) (at64 centers c).

(** ** Sfr6.packagedata *)
(** rlen where the water goes on to another cell *)
(* stream_util.py 589-591, 605 *)
Definition rlen64 (centers : list point64) (c n : nat) : b64 := f_mul (distance64 (at64 centers c) (at64 centers n)) f_1_5.
(** the slope property of FlowDirections for a cell that drains to another one; NaN becomes 0 *)
(* flow_directions.py 702-711 *)
Definition slope64 (centers : list point64) (dem : list (option b64)) (c n : nat) : b64 :=
  match nth c dem None, nth n dem None with
  | Some zc, Some zn =>
      let d := f_sub zc zn in
      let d := if f_lt d f_micro && f_lt f_zero d then f_zero else d in
      let s := f_div d (distance64 (at64 centers c) (at64 centers n)) in
      if BinarySingleNaN.is_nan s then f_zero else s
  | _, _ => f_zero
  end.
(* stream_util.py 613 *)
Definition rgrd64 (centers : list point64) (dem : list (option b64)) (c n : nat) : b64 := f_div (slope64 centers dem c n) f_1_5.

(** ** Sfr2005.reach_data *)
(** rchlen and slope where the water goes on *)
(* stream_util.py 785-792 *)
Definition rchlen64 (centers : list point64) (c n : nat) : b64 := f_mul (distance64 (at64 centers c) (at64 centers n)) f_1_5.
(* stream_util.py 793 *)
Definition rslope64 (centers : list point64) (top : list (option b64)) (c n : nat) : option b64 :=
  match level64 top c, level64 top n with
  | Some zc, Some zn => Some (f_div (f_sub zc zn) (rchlen64 centers c n))
  | _, _ => None
  end.
(** rchlen at an outlet *)
(* stream_util.py 795-797 *)
Definition outlet_len64 (delr delc : b64) : b64 := f_mul f_1_5 (f_div (f_add delr delc) f_two).

(** ** Sfr2005.get_pygsflow_builder_object *)
(** [None]: the elevation of a cell is NaN (the comparisons below are then false) *)
(* stream_util.py 1044-1060 *)
Definition builder_slope64 (centers : list point64) (top : list (option b64)) (c n : nat) : option b64 :=
  let d := distance64 (at64 centers c) (at64 centers n) in
  match (if f_eq d f_zero then Some f_001
         else match level64 top c, level64 top n with
              | Some zc, Some zn => Some (f_div (f_sub zc zn) d)
              | _, _ => None
              end) with
  | None => None
  | Some s => Some (if f_lt f_one s then f_one else if f_lt s f_0001 then f_0001 else s)
  end.
