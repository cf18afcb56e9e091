(** Concrete structured grids and integer elevations, used for the worked examples. *)
From Verif Require Import Py Spec.
Set Implicit Arguments.

(** vertices of cell (i,j) of an nrow x ncol grid, counter-clockwise from top-left *)
Definition quad_iverts (nrow ncol : nat) : list (list nat) :=
  flat_map (fun i => map (fun j =>
    [i * S ncol + j; i * S ncol + j + 1; S i * S ncol + j + 1; S i * S ncol + j])
    (seq 0 ncol)) (seq 0 nrow).

(** queen neighbours in increasing cell number *)
Definition near (a b : nat) : bool := (a <=? S b) && (b <=? S a).
Definition queen (nrow ncol : nat) : list (list nat) :=
  map (fun n => filter (fun m => negb (Nat.eqb m n) && near (n / ncol) (m / ncol)
                                 && near (n mod ncol) (m mod ncol))
                       (seq 0 (nrow * ncol))) (seq 0 (nrow * ncol)).

(** integer elevations *)
Definition Zelev : elev Z := Elev Z.leb Z.ltb Z.eqb Z.add 0%Z 10000000000%Z.

Lemma Zlaws eps : (0 <= eps)%Z -> elev_laws Zelev (fun _ => True) (fun x => x) eps.
Proof. intros H. constructor; simpl; auto; intros; lia. Qed.

Lemma Znull : eps_null Zelev (fun _ => True) 0%Z.
Proof. intros x _. simpl. apply Z.eqb_eq. lia. Qed.
