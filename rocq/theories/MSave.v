(** Model of PygsflowCompatBase.write / read (dany/stream_util.py 1490-1529) and of the objects
    that inherit them, PygsflowCascades (1532-1583) and PygsflowStreams (1586-1606): files, crashes
    and exceptions while writing, arrays shared between objects.

    pickle is not part of /repo.  It is modelled here as what the CPython pickler does to an
    object with an attribute dictionary whose values are integers, booleans (as integers) and
    arrays: a stream of opcodes ending in STOP, each array written once and referred to by its
    memo number afterwards, and a stack machine that reads up to STOP.  Simplifications: an array
    is one opcode (the real stream has several per array), only arrays are memoised, and a stream
    cut inside an opcode is the same as one cut before it.  A file is a list of opcodes. *)
From Coq Require Import String List ZArith Lia.
Import ListNotations.
Set Implicit Arguments.
Unset Strict Implicit.
Local Notation length := List.length.
Local Open Scope list_scope.

Section Save.
  Variable cell : Type. (* the content of an array or table *)

  (** an attribute value: a number, or a reference to an array *)
  (* attributes stored at 1572-1583, 1603-1606 *)
  Inductive val := VInt (z : Z) | VRef (r : nat).
  (* 1532, 1586 *)
  Inductive cls := CCascades | CStreams.
  (* 1532-1606 *)
  Record obj := Obj { o_cls : cls; o_attrs : list (string * val) }.

  (** 1558-1583, 1601-1606: the attributes the constructors store, in order; [size] is the size
      of the array hru_up_id *)
  Definition new_streams (reach_data segment_data irunbnd : nat) : obj :=
    Obj CStreams [("reach_data"%string, VRef reach_data); ("segment_data"%string, VRef segment_data);
                  ("irunbnd"%string, VRef irunbnd); ("dany_flag"%string, VInt 1)].
  (* 1558-1583 *)
  Definition new_cascades (size : nat) (up down pct slope aspect area strm : nat) (flag nsegments nreaches : Z) : obj :=
    Obj CCascades [("dany_flag"%string, VInt 1); ("ncascade"%string, VInt (Z.of_nat size)); ("hru_up_id"%string, VRef up);
                   ("hru_down_id"%string, VRef down); ("hru_pct_up"%string, VRef pct); ("hru_strmseg_down_id"%string, VRef strm);
                   ("cascade_flag"%string, VInt flag); ("hru_slope"%string, VRef slope); ("hru_aspect"%string, VRef aspect);
                   ("hru_area"%string, VRef area); ("nsegments"%string, VInt nsegments); ("nreaches"%string, VInt nreaches)].

  (** ** pickle *)
  (* pickle.dump, 1511: the opcodes *)
  Inductive tok := Proto | Global (c : cls) | EmptyTuple | NewObj | EmptyDict | Mark | Str (s : string) | Int (z : Z)
                 | Array (c : cell) | Memoize | Get (n : nat) | SetItems | Build | Stop.

  (* pickle.dump, 1511: the memo *)
  Fixpoint index_of (r : nat) (l : list nat) : option nat :=
    match l with
    | [] => None
    | x :: l' => if Nat.eqb x r then Some 0 else match index_of r l' with Some k => Some (S k) | None => None end
    end.

  (** the items of the attribute dictionary; [seen] = the arrays memoised so far *)
  (* pickle.dump, 1511 *)
  Fixpoint items (h : list cell) (seen : list nat) (l : list (string * val)) : option (list tok) :=
    match l with
    | [] => Some []
    | (k, VInt z) :: l' => match items h seen l' with Some t => Some (Str k :: Int z :: t) | None => None end
    | (k, VRef r) :: l' =>
        match index_of r seen with
        | Some n => match items h seen l' with Some t => Some (Str k :: Get n :: t) | None => None end
        | None =>
            match nth_error h r with
            | None => None
            | Some c => match items h (seen ++ [r]) l' with
                        | Some t => Some (Str k :: Array c :: Memoize :: t)
                        | None => None
                        end
            end
        end
    end.
  (* pickle.dump, 1511 *)
  Definition dump (h : list cell) (o : obj) : option (list tok) :=
    match items h [] (o_attrs o) with
    | Some t => Some ([Proto; Global (o_cls o); EmptyTuple; NewObj; EmptyDict; Mark] ++ t ++ [SetItems; Build; Stop])
    | None => None
    end.

  (** the unpickler's stack *)
  (* pickle.load, 1528 *)
  Inductive sv := SCls (c : cls) | STuple | SObj (o : obj) | SDict (l : list (string * val)) | SStr (s : string) | SVal (v : val) | SMark.
  (* pickle.load, 1528 *)
  Inductive loaded := Loaded (h : list cell) (o : obj) | Raised.

  (** the items above the mark, last one on top *)
  (* pickle.load, 1528 *)
  Fixpoint pop_items (stk : list sv) (acc : list (string * val)) : option (list (string * val) * list sv) :=
    match stk with
    | SMark :: s => Some (acc, s)
    | SVal v :: SStr k :: s => pop_items s ((k, v) :: acc)
    | _ => None
    end.

  (** one opcode other than STOP: stack, memo (references to arrays), heap *)
  (* pickle.load, 1528 *)
  Definition exec (t : tok) (stk : list sv) (memo : list nat) (h : list cell) : option (list sv * list nat * list cell) :=
    match t, stk with
    | Proto, _ => Some (stk, memo, h)
    | Global c, _ => Some (SCls c :: stk, memo, h)
    | EmptyTuple, _ => Some (STuple :: stk, memo, h)
    | NewObj, STuple :: SCls c :: s => Some (SObj (Obj c []) :: s, memo, h)
    | EmptyDict, _ => Some (SDict [] :: stk, memo, h)
    | Mark, _ => Some (SMark :: stk, memo, h)
    | Str k, _ => Some (SStr k :: stk, memo, h)
    | Int z, _ => Some (SVal (VInt z) :: stk, memo, h)
    | Array c, _ => Some (SVal (VRef (length h)) :: stk, memo, h ++ [c])
    | Memoize, SVal (VRef r) :: _ => Some (stk, memo ++ [r], h)
    | Get n, _ => match nth_error memo n with Some r => Some (SVal (VRef r) :: stk, memo, h) | None => None end
    | SetItems, _ => match pop_items stk [] with
                     | Some (l, SDict l0 :: s) => Some (SDict (l0 ++ l) :: s, memo, h)
                     | _ => None
                     end
    | Build, SDict l :: SObj o :: s => Some (SObj (Obj (o_cls o) (o_attrs o ++ l)) :: s, memo, h)
    | _, _ => None
    end.
  (** end of file before STOP: EOFError *)
  (* pickle.load, 1528 *)
  Fixpoint load (ts : list tok) (stk : list sv) (memo : list nat) (h : list cell) : loaded :=
    match ts with
    | [] => Raised
    | Stop :: _ => match stk with SObj o :: _ => Loaded h o | _ => Raised end
    | t :: ts' => match exec t stk memo h with Some (stk', memo', h') => load ts' stk' memo' h' | None => Raised end
    end.

  (** ** sessions: arrays, objects, files *)
  (* the files opened at 1510 and 1527 *)
  Definition disk := string -> option (list tok).
  (* a file written at 1510-1511 *)
  Definition put (d : disk) (p : string) (t : list tok) : disk := fun q => if String.eqb q p then Some t else d q.
  (* arrays, objects and files of a session *)
  Record world := World { w_heap : list cell; w_objs : list obj; w_disk : disk }.

  (* what happens in a session: 1500-1511, 1514-1529, 1558-1583, 1601-1606, and user code *)
  Inductive op :=
  | ONewArray (c : cell)                       (* the caller (or dany) makes an array *)
  | OEdit (r : nat) (c : cell)                 (* somebody writes into an array *)
  | ONew (o : obj)                             (* an object is constructed; arrays are kept by reference *)
  | OSetAttr (i : nat) (a : list (string * val)) (* the caller assigns attributes *)
  | OWrite (i : nat) (p : string)              (* object.write(p) *)
  | OWriteFails (i : nat) (p : string) (k : nat) (* write raises after [k] opcodes reached the file (disk full, unpicklable attribute) *)
  | OWriteCrash (i : nat) (p : string) (k : nat) (* the process dies in write after [k] opcodes reached the file; a new process starts *)
  | ORestart                                   (* a new process *)
  | ORead (p : string).                        (* read(p), on any of the classes: a static method *)
  (* 1529; exceptions *)
  Inductive ans := ADone | AObj (i : nat) | ARaised.

  (* the arrays passed to the constructors exist *)
  Definition ref_ok (h : list cell) (a : string * val) : bool :=
    match snd a with VInt _ => true | VRef r => Nat.ltb r (length h) end.

  (* list assignment (user code writes into an array) *)
  Fixpoint set_nth {A} (l : list A) (i : nat) (x : A) : list A :=
    match l, i with
    | [], _ => []
    | _ :: l', 0 => x :: l'
    | a :: l', S i' => a :: set_nth l' i' x
    end.

  (** 1510-1511: open(f, "wb") truncates the file, dump appends, the with statement closes; the
      same up to the point of failure otherwise *)
  Definition write (w : world) (i : nat) (p : string) (k : option nat) : option disk :=
    match nth_error (w_objs w) i with
    | None => None
    | Some o => match dump (w_heap w) o with
                | None => None
                | Some t => Some (put (w_disk w) p (match k with None => t | Some k => firstn k t end))
                end
    end.

  (* one event of a session *)
  Definition step (w : world) (x : op) : world * ans :=
    let '(World h os d) := w in
    match x with
    | ONewArray c => (World (h ++ [c]) os d, ADone)
    | OEdit r c => (World (set_nth h r c) os d, ADone)
    | ONew o => if forallb (ref_ok h) (o_attrs o) then (World h (os ++ [o]) d, AObj (length os)) else (w, ARaised)
    | OSetAttr i a =>
        match nth_error os i with
        | Some o => if forallb (ref_ok h) a then (World h (set_nth os i (Obj (o_cls o) a)) d, ADone) else (w, ARaised)
        | None => (w, ARaised)
        end
    | OWrite i p => match write w i p None with Some d' => (World h os d', ADone) | None => (w, ARaised) end
    | OWriteFails i p k => match write w i p (Some k) with Some d' => (World h os d', ARaised) | None => (w, ARaised) end
    | OWriteCrash i p k => match write w i p (Some k) with Some d' => (World [] [] d', ARaised) | None => (World [] [] d, ARaised) end
    | ORestart => (World [] [] d, ADone)
    | ORead p =>                                                      (* 1527-1529 *)
        match d p with
        | None => (w, ARaised)
        | Some t => match load t [] [] h with
                    | Loaded h' o => (World h' (os ++ [o]) d, AObj (length os))
                    | Raised => (w, ARaised)
                    end
        end
    end.
  (* a session *)
  Fixpoint run (w : world) (l : list op) : world :=
    match l with [] => w | x :: l' => run (fst (step w x)) l' end.
End Save.
