(** The whole table returned by Sfr6.packagedata (dany/stream_util.py 538-641), column by column,
    for the three kinds of grid, and Sfr6._detuple (643-672).  A structured array is the list of
    its column names and the list of its records; [np.array(records, dtype)] raises ValueError
    when a record does not have one value per column.  Numbers as in MNum.v. *)
From Coq Require Import Reals String.
From Verif Require Import Py MFlow MStream MGeo MNum MShape.
Set Implicit Arguments.
Unset Strict Implicit.
Local Notation length := List.length.
Local Open Scope string_scope.
Local Open Scope list_scope.

(** an entry of a record: an integer, a float ([None] = NaN) or a tuple of integers (dtype object) *)
(* stream_util.py 618-620, 669 *)
Inductive field := FInt (z : Z) | FNum (x : option R) | FTup (t : list Z).
(* 623-637, 666-672 *)
Record table := Table { t_cols : list string; t_recs : list (list field) }.

(** np.array(records, dtype=dtype), 637 and 672 *)
Definition np_table (cols : list string) (recs : list (list field)) : res table :=
  if forallb (fun r => Nat.eqb (length r) (length cols)) recs then Ok (Table cols recs) else Err ValueError.

(* 606-611 *)
Inductive gridtype := Structured (nrow ncol : nat) | Vertex | Unstructured.

(** 606-611: the cell id of a node *)
Definition cellid (g : gridtype) (node : nat) : list Z :=
  match g with
  | Structured nrow ncol => let '(k, i, j) := get_lrc nrow ncol node in [Z.of_nat k; Z.of_nat i; Z.of_nat j]
  | Vertex => [0%Z; Z.of_nat node]
  | Unstructured => [Z.of_nat node]
  end.

(** 623-636 *)
Definition pkg_cols : list string :=
  ["ifno"; "cellid"; "rlen"; "rwid"; "rgrd"; "rtp"; "rbth"; "rhk"; "man"; "ncon"; "ustrf"; "ndv"].

(** 613-620: a record *)
Definition pkg_rec (g : gridtype) (p : pkg) (n : pkgn) : list field :=
  let num x := FNum (Some x) in
  [FInt (p_ifno p); FTup (cellid g (p_node p)); num (n_rlen n); num 0%R; num (n_rgrd n); FNum (n_rtp n);
   num 1%R; num 0%R; num 0%R; FInt (p_ncon p); num 1%R; FInt 0].

(** packagedata(), 574-641, given graph and stream array *)
Definition package_table (g : gridtype) centers cells slope top (graph : ngraph) (strm : list Z) : res table :=
  recs <- packagedata_num centers cells slope top graph strm ;;
  np_table pkg_cols (map (fun pn => pkg_rec g (fst pn) (snd pn)) recs).

(** 659-666: the new columns, chosen by the length of the first record's cell id *)
Definition cell_cols (t : list Z) : list string :=
  match length t with 3 => ["k"; "i"; "j"] | 2 => ["k"; "node"] | _ => ["node"] end.

(** 668-670: [rec[0]] + the items of [rec[1]] + [rec[2:]]; iterating over a number is a TypeError *)
Definition expand (r : list field) : res (list field) :=
  match r with
  | a :: FTup t :: rest => Ok (a :: map FInt t ++ rest)
  | _ :: _ :: _ => Err TypeError
  | _ => Err IndexError
  end.

(** _detuple, 658-672 *)
Definition detuple_table (t : table) : res table :=
  match t_recs t with
  | [] => Err IndexError                                             (* 659: recarray["cellid"][0] *)
  | r0 :: _ =>
      c <- (match r0 with _ :: FTup c :: _ => Ok c | _ => Err TypeError end) ;;
      match t_cols t with
      | c0 :: _ :: cs =>
          recs <- mapM expand (t_recs t) ;;
          np_table (c0 :: cell_cols c ++ cs) recs
      | _ => Err IndexError
      end
  end.

(** packagedata(detuple=True), 574-641 *)
Definition package_table_detupled (g : gridtype) centers cells slope top (graph : ngraph) (strm : list Z) : res table :=
  t <- package_table g centers cells slope top graph strm ;; detuple_table t.
