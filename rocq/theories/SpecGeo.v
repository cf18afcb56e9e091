(** Specification vocabulary for the geometric properties (C67, C68): real plane, no model import. *)
From Coq Require Import Reals List.
Import ListNotations.
Local Open Scope R_scope.

Notation plane := (R * R)%type (only parsing).
Definition dot (u v : plane) : R := fst u * fst v + snd u * snd v.
Definition sub (a b : plane) : plane := (fst a - fst b, snd a - snd b).
Definition add (a b : plane) : plane := (fst a + fst b, snd a + snd b).
Definition norm (u : plane) : R := sqrt (dot u u).
(** Euclidean distance *)
Definition dist (a b : plane) : R := norm (sub b a).
(** twice the signed area of the triangle a b c: positive if it turns left *)
Definition turn (a b c : plane) : R :=
  (fst b - fst a) * (snd c - snd a) - (snd b - snd a) * (fst c - fst a).
(** the area of a triangle from the lengths of its sides (Heron) *)
Definition heron (a b c : R) : R := sqrt ((a + b + c) * (- a + b + c) * (a - b + c) * (a + b - c)) / 4.
Definition triangle (a b c : plane) : R := heron (dist a b) (dist b c) (dist c a).
(** the triangles o b c for every pair b, c of successive entries *)
Fixpoint fan (o : plane) (l : list plane) : list (plane * plane * plane) :=
  match l with
  | b :: (c :: _) as l' => (o, b, c) :: fan o l'
  | _ => []
  end.
Definition sum (l : list R) : R := fold_right Rplus 0 l.
(** the polygon turns to the left (to the right) as seen from its first vertex *)
Definition left_around (o : plane) (l : list plane) := Forall (fun '(a, b, c) => 0 <= turn a b c) (fan o l).
Definition right_around (o : plane) (l : list plane) := Forall (fun '(a, b, c) => turn a b c <= 0) (fan o l).
(** affine maps of the plane *)
Definition affine (a b c d : R) (t : plane) (p : plane) : plane :=
  (a * fst p + b * snd p + fst t, c * fst p + d * snd p + snd t).
(** the direction from [here] to [there] *)
Definition direction (here there : plane) : plane :=
  ((fst there - fst here) / dist here there, (snd there - snd here) / dist here there).
(** the arithmetic mean of a non-empty list *)
Definition average (l : list R) : R := sum l / INR (length l).
(** the average of points *)
Definition middle (l : list plane) : plane := (average (map fst l), average (map snd l)).
(** the lengths of the sides of a polygon, the closing side from the last vertex to the first
    included *)
Fixpoint path_lengths (a : plane) (l : list plane) : list R :=
  match l with [] => [] | b :: l' => dist a b :: path_lengths b l' end.
Definition side_lengths (p : list plane) : list R :=
  match p with [] => [] | a :: l => path_lengths a (l ++ [a]) end.
(** two cells never have the same centre *)
Definition distinct_centers (n : nat) (centers : list plane) : Prop :=
  forall a b, (a < n)%nat -> (b < n)%nat -> a <> b -> nth a centers (0, 0) <> nth b centers (0, 0).
(** the point where cells with vertex numbers [iv0] and [iv1] meet: their only common vertex, or
    the middle of their common vertices *)
Definition contact (verts : list plane) (iv0 iv1 : list nat) (q : plane) : Prop :=
  exists l, l <> [] /\ NoDup l /\ (forall v, In v l <-> In v iv0 /\ In v iv1) /\
    q = middle (map (fun v => nth v verts (0, 0)) l).
