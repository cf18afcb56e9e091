(** Model of Sfr2005.get_pygsflow_builder_object (dany/stream_util.py 954-1072) with the tables it
    is given and writes into.  Tables are shared objects: a heap of them, a reference is an index.
    The tables the method builds for itself (reach_data, segment_data, irunbnd, 1021-1026) are
    inputs ([own_...]; their contents and their effect on the stream object are in MStream.v,
    MNum.v and MSobj.v).  A row holds the columns the method reads or writes; arithmetic is exact
    as in MNum.v. *)
From Coq Require Import Reals String.
From Verif Require Import Py MFlow MStream MGeo MNum.
Set Implicit Arguments.
Unset Strict Implicit.
Local Notation length := List.length.
Local Open Scope R_scope.
Local Open Scope list_scope.

(** a row of reach_data: node, outreach, strtop, slope, strhc1, strthick *)
(* read and written at 1036-1065 *)
Record reach := Reach { b_node : nat; b_out : Z; b_top : option R; b_slope : option R; b_hc : R; b_thick : R }.
(** a row of segment_data: nseg, outseg, then etsw, flow, icalc, iprior, pptsw, roughch, runoff,
    width1, width2 *)
(* 991-1001, 1068-1070 *)
Record seg := Seg { g_nseg : Z; g_out : Z; g_etsw : R; g_flow : R; g_icalc : Z; g_iprior : Z; g_pptsw : R; g_rough : R;
                    g_runoff : R; g_w1 : R; g_w2 : R }.
(* the tables of 1021-1026 *)
Inductive tab := TReach (l : list reach) | TSeg (l : list seg) | TRun (l : list Z).
(* the tables that exist *)
Definition tabs := list tab.

(** 1036-1065: the loop over the rows [ixs], writing each row of the table in place; the table is
    as it is left, also after an exception *)
Fixpoint write_reaches (cfg : slopes_cfg) (centers : list point) (top : list (option R)) (ixs : list nat) (l : list reach)
  : list reach * res unit :=
  match ixs with
  | [] => (l, Ok tt)
  | ix :: ixs' =>
      match nth_error l ix with
      | None => (l, Err IndexError)
      | Some rec =>
          let i := (b_out rec - 1)%Z in                                           (* 1038 *)
          match (if (Z.of_nat (length l) <=? i)%Z then Ok (b_node rec)            (* 1039-1042 *)
                 else r <- npget l i ;; Ok (b_node r)) with
          | Err e => (l, Err e)
          | Ok dn =>
              write_reaches cfg centers top ixs'
                (upd l ix (Reach (b_node rec) (b_out rec) (level top (b_node rec))
                                 (builder_slope cfg centers top (b_node rec) dn) 1 1))
          end
      end
  end.

(** 1067-1070: whole columns *)
Definition write_segments (l : list seg) : list seg :=
  map (fun s => Seg (g_nseg s) (g_out s) 0 1 1 0 0 0.025 0 10 10) l.

(** 1021-1026: a table passed in is used itself *)
Definition given_or (h : tabs) (a : option nat) (own : res tab) : res (tabs * nat) :=
  match a with
  | Some r => Ok (h, r)
  | None => t <- own ;; Ok (h ++ [t], length h)
  end.

Section Builder.
  Variables (centers : list point) (top : list (option R)).
  Variables (own_reach own_seg own_run : res tab).

  (** the tables afterwards and the references stored in the PygsflowStreams object *)
  (* 1008-1072 *)
  Definition builder (keys : list string) (reach_arg seg_arg run_arg : option nat) (apply_defaults : bool) (h : tabs)
    : tabs * res (nat * nat * nat) :=
    match builder_kwargs keys with                                               (* 1008-1019 *)
    | Err e => (h, Err e)
    | Ok _ =>
        match (p <- given_or h reach_arg own_reach ;; q <- given_or (fst p) seg_arg own_seg ;;
               t <- given_or (fst q) run_arg own_run ;; Ok (fst t, (snd p, snd q, snd t))) with
        | Err e => (h, Err e)
        | Ok (h1, (r, s, i)) =>
            if apply_defaults then
              match get h1 r with
              | Ok (TReach l) =>
                  let '(l', x) := write_reaches builder_cfg centers top (seq 0 (length l)) l in
                  let h2 := upd h1 r (TReach l') in
                  match x with
                  | Err e => (h2, Err e)
                  | Ok _ => match get h2 s with
                            | Ok (TSeg g) => (upd h2 s (TSeg (write_segments g)), Ok (r, s, i))
                            | Ok _ => (h2, Err TypeError)
                            | Err e => (h2, Err e)
                            end
                  end
              | Ok _ => (h1, Err TypeError)
              | Err e => (h1, Err e)
              end
            else (h1, Ok (r, s, i))
        end
    end.
End Builder.
