(** Model of CPython's [heapq] (Lib/heapq.py: heappush, heappop, _siftdown, _siftup),
    the priority queue used by dany/dem_conditioning.py lines 173-224.
    Not part of /repo; modelled so that the order in which the fill visits cells is
    the real one.  All indices used below are in range, so the default of [nth] is
    never returned (the default is the item being moved). *)
From Verif Require Import Py.
Set Implicit Arguments.

Section Heap.
  Context {A : Type} (lt : A -> A -> bool).   (* Python's [<] on the items *)

  (** [_siftdown(heap, 0, pos)] with [newitem = heap[pos]] already read;
      one unit of fuel per level, [pos] levels always suffice. *)
  (* CPython, called from dem_conditioning.py 182, 192, 224 *)
  Fixpoint siftdown (fuel : nat) (h : list A) (pos : nat) (newitem : A) : list A :=
    match fuel with
    | O => upd h pos newitem
    | S f =>
      if 0 <? pos then
        let parentpos := (pos - 1) / 2 in
        let parent := nth parentpos h newitem in
        if lt newitem parent
        then siftdown f (upd h pos parent) parentpos newitem
        else upd h pos newitem
      else upd h pos newitem
    end.

  (** [heappush]: append, then sift towards the root. *)
  (* CPython, called from dem_conditioning.py 182, 192, 224 *)
  Definition heappush (h : list A) (x : A) : list A :=
    siftdown (length h) (h ++ [x]) (length h) x.

  (** first loop of [_siftup(heap, pos)]: move the smaller child up until a leaf
      is reached, then [_siftdown]. *)
  (* CPython, called from dem_conditioning.py 182, 192, 224 *)
  Fixpoint siftup (fuel : nat) (h : list A) (pos : nat) (newitem : A) : list A :=
    match fuel with
    | O => siftdown pos h pos newitem
    | S f =>
      let childpos := 2 * pos + 1 in
      if childpos <? length h then
        let rightpos := childpos + 1 in
        let child :=
          if (rightpos <? length h)
             && negb (lt (nth childpos h newitem) (nth rightpos h newitem))
          then rightpos else childpos in
        siftup f (upd h pos (nth child h newitem)) child newitem
      else siftdown pos h pos newitem
    end.

  (** [heappop]: [None] models IndexError on an empty heap. *)
  (* CPython, called from dem_conditioning.py 182, 192, 224 *)
  Definition heappop (h : list A) : option (A * list A) :=
    match h with
    | [] => None
    | x :: _ =>
      let lastelt := last h x in
      match removelast h with
      | [] => Some (lastelt, [])
      | returnitem :: rest =>
        let h' := lastelt :: rest in
        Some (returnitem, siftup (length h') h' 0 lastelt)
      end
    end.
  (** driver: the answers of the pops in a history of pushes ([Some x]) and pops
      ([None]), as performed by _priority_flood (dem_conditioning.py 182, 192, 224) *)
  Fixpoint heap_history (ops : list (option A)) (h : list A) : list (option A) :=
    match ops with
    | [] => []
    | Some x :: ops' => heap_history ops' (heappush h x)
    | None :: ops' => match heappop h with
                      | None => None :: heap_history ops' h
                      | Some (x, h') => Some x :: heap_history ops' h'
                      end
    end.
End Heap.
