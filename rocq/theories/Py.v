(** Python / NumPy vocabulary used by the model of dany.
    Nothing in this file is specific to dany. *)
From Coq Require Import String Ascii.
From Coq Require Export List Arith ZArith Lia Bool Permutation Sorted.
Export ListNotations.
Set Implicit Arguments.
Local Open Scope nat_scope.
Local Open Scope list_scope.

(** ** Results: a value or a Python exception.
    [OutOfFuel] is not a Python exception: it says that a [while] loop did not
    finish within the number of iterations given to the model. *)
(* exceptions raised by /repo code or by Python and NumPy operations in it *)
Inductive exn :=
| IndexError | KeyError | ValueError | TypeError | AssertionError
| NotImplementedError | RecursionError | AttributeError | OutOfFuel.

(* the outcome of a call *)
Inductive res (A : Type) := Ok (a : A) | Err (e : exn).
Arguments Ok {A} a.
Arguments Err {A} e.

(* one statement after another *)
Definition bind {A B} (r : res A) (f : A -> res B) : res B :=
  match r with Ok a => f a | Err e => Err e end.
Notation "x <- r ;; k" := (bind r (fun x => k))
  (at level 61, r at next level, right associativity).
Notation "' p <- r ;; k" := (bind r (fun p => k))
  (at level 61, p pattern, r at next level, right associativity).

(** [for x in l: s = f(s, x)] with exceptions. *)
(* for loops, e.g. flow_directions.py 382, stream_util.py 144 *)
Fixpoint foldM {S A} (f : S -> A -> res S) (l : list A) (s : S) : res S :=
  match l with
  | [] => Ok s
  | x :: l' => s' <- f s x ;; foldM f l' s'
  end.

(** [[f(x) for x in l]] with exceptions. *)
(* list comprehensions, e.g. flow_directions.py 188, 616 *)
Fixpoint mapM {A B} (f : A -> res B) (l : list A) : res (list B) :=
  match l with
  | [] => Ok []
  | x :: l' => y <- f x ;; ys <- mapM f l' ;; Ok (y :: ys)
  end.

(** ** Arrays *)
(* reading an array entry, e.g. flow_directions.py 454 *)
Definition get {A} (l : list A) (i : nat) : res A :=
  match nth_error l i with Some x => Ok x | None => Err IndexError end.

(* the array after a store *)
Fixpoint upd {A} (l : list A) (i : nat) (x : A) : list A :=
  match l, i with
  | [], _ => []
  | _ :: l', O => x :: l'
  | y :: l', S i' => y :: upd l' i' x
  end.

(* storing an array entry, e.g. flow_directions.py 423 *)
Definition set {A} (l : list A) (i : nat) (x : A) : res (list A) :=
  if i <? length l then Ok (upd l i x) else Err IndexError.

(** NumPy index resolution: [-n <= i < n], negative indices count from the end. *)
(* e.g. flow_directions.py 383, 467 *)
Definition npidx (n : nat) (i : Z) : option nat :=
  if (0 <=? i)%Z then (if (i <? Z.of_nat n)%Z then Some (Z.to_nat i) else None)
  else (if (- Z.of_nat n <=? i)%Z then Some (Z.to_nat (i + Z.of_nat n)) else None).

(* e.g. flow_directions.py 467 *)
Definition npget {A} (l : list A) (i : Z) : res A :=
  match npidx (length l) i with Some k => get l k | None => Err IndexError end.

(* e.g. flow_directions.py 423 *)
Definition npset {A} (l : list A) (i : Z) (x : A) : res (list A) :=
  match npidx (length l) i with Some k => Ok (upd l k x) | None => Err IndexError end.

(* [x in l], e.g. dem_conditioning.py 197 *)
Definition memn (x : nat) (l : list nat) : bool := existsb (Nat.eqb x) l.
(* [x in l], e.g. flow_directions.py 594, 598 *)
Definition memz (x : Z) (l : list Z) : bool := existsb (Z.eqb x) l.

(** [np.where(mask)[0]] : the indices at which [f] holds, ascending. *)
(* e.g. dem_conditioning.py 50, stream_util.py 135 *)
Definition where_ {A} (f : A -> bool) (l : list A) : list nat :=
  map fst (filter (fun p => f (snd p)) (combine (seq 0 (length l)) l)).

(** ** Insertion-ordered dictionaries *)
Section Dict.
  Context {K V : Type} (eqb : K -> K -> bool).
  (* d[k], e.g. flow_directions.py 295 *)
  Fixpoint dget (d : list (K * V)) (k : K) : option V :=
    match d with
    | [] => None
    | (k', v) :: d' => if eqb k k' then Some v else dget d' k
    end.
  (** assignment: overwrite in place, or append *)
  (* d[k] = v, e.g. stream_util.py 1432 *)
  Fixpoint dset (d : list (K * V)) (k : K) (v : V) : list (K * V) :=
    match d with
    | [] => [(k, v)]
    | (k', v') :: d' => if eqb k k' then (k', v) :: d' else (k', v') :: dset d' k v
    end.
  (* d.pop(k), flow_directions.py 308 *)
  Fixpoint ddel (d : list (K * V)) (k : K) : list (K * V) :=
    match d with
    | [] => []
    | (k', v') :: d' => if eqb k k' then d' else (k', v') :: ddel d' k
    end.
  (* k in d, e.g. stream_util.py 221 *)
  Definition dhas (d : list (K * V)) (k : K) : bool :=
    match dget d k with Some _ => true | None => false end.
  (* d[k] with KeyError, e.g. stream_util.py 160 *)
  Definition dgetE (d : list (K * V)) (k : K) : res V :=
    match dget d k with Some v => Ok v | None => Err KeyError end.
End Dict.

(** ** Sorting (Python's [sorted]: stable; here insertion sort) *)
Section Sort.
  Context {A : Type} (leb : A -> A -> bool).
  (* sorted *)
  Fixpoint insert (x : A) (l : list A) : list A :=
    match l with
    | [] => [x]
    | y :: l' => if leb x y then x :: l else y :: insert x l'
    end.
  (* sorted, e.g. dem_conditioning.py 261, stream_util.py 525, 1480 *)
  Fixpoint isort (l : list A) : list A :=
    match l with [] => [] | x :: l' => insert x (isort l') end.
End Sort.

(** ** Strings: [str.lower] on ASCII *)
(* dem_conditioning.py 42-46, 287 *)
Definition lower_ascii (c : ascii) : ascii :=
  let n := nat_of_ascii c in
  if ((65 <=? n) && (n <=? 90))%nat%bool then ascii_of_nat (n + 32) else c.
(* dem_conditioning.py 42-46, 287 *)
Fixpoint lower (s : string) : string :=
  match s with EmptyString => EmptyString | String c s' => String (lower_ascii c) (lower s') end.

(** ** Lemmas *)
Lemma get_ok {A} (l : list A) i x : get l i = Ok x <-> nth_error l i = Some x.
Proof. unfold get. destruct (nth_error l i); split; congruence. Qed.

Lemma get_lt {A} (l : list A) i x : get l i = Ok x -> i < length l.
Proof. rewrite get_ok. intro H. apply nth_error_Some. congruence. Qed.

Lemma get_nth {A} (l : list A) i d : i < length l -> get l i = Ok (nth i l d).
Proof. intro H. apply get_ok. apply nth_error_nth'. exact H. Qed.

Lemma upd_length {A} (l : list A) i x : length (upd l i x) = length l.
Proof. revert i; induction l as [|y l IH]; intros [|i]; simpl; auto. Qed.

Lemma nth_upd_eq {A} (l : list A) i x d : i < length l -> nth i (upd l i x) d = x.
Proof. revert i; induction l as [|y l IH]; intros [|i] H; simpl in *; try lia; auto.
       apply IH. lia. Qed.

Lemma nth_upd_neq {A} (l : list A) i j x d : i <> j -> nth j (upd l i x) d = nth j l d.
Proof. revert i j; induction l as [|y l IH]; intros [|i] [|j] H; simpl; try congruence; auto. Qed.

Lemma nth_upd {A} (l : list A) i j x d : i < length l ->
  nth j (upd l i x) d = if Nat.eq_dec i j then x else nth j l d.
Proof.
  intro H. destruct (Nat.eq_dec i j) as [<-|N]; [apply nth_upd_eq|apply nth_upd_neq]; auto.
Qed.

Lemma nth_error_upd_eq {A} (l : list A) i x : i < length l -> nth_error (upd l i x) i = Some x.
Proof. revert i; induction l as [|y l IH]; intros [|i] H; simpl in *; try lia; auto.
       apply IH. lia. Qed.

Lemma nth_error_upd_neq {A} (l : list A) i j x : i <> j ->
  nth_error (upd l i x) j = nth_error l j.
Proof. revert i j; induction l as [|y l IH]; intros [|i] [|j] H; simpl; try congruence; auto. Qed.

Lemma upd_oob {A} (l : list A) i x : length l <= i -> upd l i x = l.
Proof. revert i; induction l as [|y l IH]; intros [|i] H; simpl in *; try lia; auto.
       f_equal. apply IH. lia. Qed.

Lemma upd_same {A} (l : list A) i x : nth_error l i = Some x -> upd l i x = l.
Proof. revert i; induction l as [|y l IH]; intros [|i] H; simpl in *; try congruence.
       f_equal; auto. Qed.

Lemma set_ok {A} (l : list A) i x l' : set l i x = Ok l' <-> i < length l /\ l' = upd l i x.
Proof. unfold set. destruct (Nat.ltb_spec i (length l)); split; intros; try easy.
       - inversion H0; auto. - destruct H0; congruence. - lia. Qed.

Lemma set_lt {A} (l : list A) i x : i < length l -> set l i x = Ok (upd l i x).
Proof. intros H. unfold set. destruct (Nat.ltb_spec i (length l)); [auto|lia]. Qed.

Lemma npidx_pos n i : (0 <= i < Z.of_nat n)%Z -> npidx n i = Some (Z.to_nat i).
Proof. unfold npidx. intros H. destruct (Z.leb_spec 0 i), (Z.ltb_spec i (Z.of_nat n)); lia || auto. Qed.

Lemma npidx_nat n k : k < n -> npidx n (Z.of_nat k) = Some k.
Proof. intros H. rewrite npidx_pos by lia. now rewrite Nat2Z.id. Qed.

Lemma npidx_lt n i k : npidx n i = Some k -> k < n.
Proof. unfold npidx. destruct (Z.leb_spec 0 i), (Z.ltb_spec i (Z.of_nat n)),
  (Z.leb_spec (- Z.of_nat n) i); intros H'; inversion H'; lia. Qed.

Lemma npget_nat {A} (l : list A) k d : k < length l -> npget l (Z.of_nat k) = Ok (nth k l d).
Proof. intros H. unfold npget. rewrite npidx_nat by auto. now apply get_nth. Qed.

Lemma npget_pos {A} (l : list A) i d : (0 <= i < Z.of_nat (length l))%Z ->
  npget l i = Ok (nth (Z.to_nat i) l d).
Proof. intros H. unfold npget. rewrite npidx_pos by auto. apply get_nth. lia. Qed.

Lemma npset_nat {A} (l : list A) k x : k < length l -> npset l (Z.of_nat k) x = Ok (upd l k x).
Proof. intros H. unfold npset. now rewrite npidx_nat by auto. Qed.

Lemma npset_pos {A} (l : list A) i x : (0 <= i < Z.of_nat (length l))%Z ->
  npset l i x = Ok (upd l (Z.to_nat i) x).
Proof. intros H. unfold npset. now rewrite npidx_pos by auto. Qed.

Lemma npset_length {A} (l : list A) i x l' : npset l i x = Ok l' -> length l' = length l.
Proof. unfold npset. destruct (npidx (length l) i); intros H; inversion H. apply upd_length. Qed.

Lemma memn_spec x l : memn x l = true <-> In x l.
Proof. unfold memn. rewrite existsb_exists. split.
  - intros [y [H1 H2]]. apply Nat.eqb_eq in H2. now subst.
  - intros H. exists x. split; auto. apply Nat.eqb_refl. Qed.

Lemma memn_false x l : memn x l = false <-> ~ In x l.
Proof. rewrite <- memn_spec. destruct (memn x l); split; congruence. Qed.

Lemma memz_spec x l : memz x l = true <-> In x l.
Proof. unfold memz. rewrite existsb_exists. split.
  - intros [y [H1 H2]]. apply Z.eqb_eq in H2. now subst.
  - intros H. exists x. split; auto. apply Z.eqb_refl. Qed.

Lemma memz_false x l : memz x l = false <-> ~ In x l.
Proof. rewrite <- memz_spec. destruct (memz x l); split; congruence. Qed.

Lemma in_where {A} (f : A -> bool) (l : list A) i :
  In i (where_ f l) <-> exists x, nth_error l i = Some x /\ f x = true.
Proof.
  unfold where_.
  assert (G : forall s, In i (map fst (filter (fun p => f (snd p)) (combine (seq s (length l)) l)))
     <-> s <= i /\ exists x, nth_error l (i - s) = Some x /\ f x = true).
  { induction l as [|y l IH]; intros s; simpl.
    - split; [tauto|]. intros [_ [x [H _]]]. now destruct (i - s).
    - destruct (f y) eqn:E; simpl; rewrite IH; clear IH.
      + split.
        * intros [<-|[H1 [x [H2 H3]]]].
          -- split; auto. exists y. rewrite Nat.sub_diag. auto.
          -- split; [lia|]. exists x. replace (i - s) with (S (i - S s)) by lia. auto.
        * intros [H1 [x [H2 H3]]]. destruct (Nat.eq_dec s i); [auto|right].
          split; [lia|]. exists x. replace (i - s) with (S (i - S s)) in H2 by lia. auto.
      + split.
        * intros [H1 [x [H2 H3]]]. split; [lia|]. exists x.
          replace (i - s) with (S (i - S s)) by lia. auto.
        * intros [H1 [x [H2 H3]]]. destruct (Nat.eq_dec s i).
          -- subst. rewrite Nat.sub_diag in H2. simpl in H2. congruence.
          -- split; [lia|]. exists x. replace (i - s) with (S (i - S s)) in H2 by lia. auto. }
  rewrite G. rewrite Nat.sub_0_r. intuition lia.
Qed.

Lemma in_where_nth {A} (f : A -> bool) (l : list A) i d :
  In i (where_ f l) <-> i < length l /\ f (nth i l d) = true.
Proof.
  rewrite in_where. split.
  - intros [x [H1 H2]]. assert (i < length l) by (apply nth_error_Some; congruence).
    split; auto. erewrite nth_error_nth; eauto.
  - intros [H1 H2]. exists (nth i l d). split; auto. now apply nth_error_nth'.
Qed.

Lemma where_sorted {A} (f : A -> bool) (l : list A) : StronglySorted lt (where_ f l).
Proof.
  unfold where_.
  assert (G : forall s, StronglySorted lt (map fst (filter (fun p => f (snd p)) (combine (seq s (length l)) l)))
    /\ Forall (fun i => s <= i) (map fst (filter (fun p => f (snd p)) (combine (seq s (length l)) l)))).
  { induction l as [|y l IH]; intros s; simpl.
    - split; constructor.
    - destruct (IH (S s)) as [H1 H2]. destruct (f y); simpl.
      + split; constructor; auto; (eapply Forall_impl; [|exact H2]); simpl; intros; lia.
      + split; auto. (eapply Forall_impl; [|exact H2]); simpl; intros; lia. }
  apply G.
Qed.

Lemma sorted_lt_nodup l : StronglySorted lt l -> NoDup l.
Proof. induction 1 as [|x l H IH Hx]; constructor; auto. intro Hin.
  rewrite Forall_forall in Hx. specialize (Hx _ Hin). lia. Qed.

Lemma where_nodup {A} (f : A -> bool) (l : list A) : NoDup (where_ f l).
Proof. apply sorted_lt_nodup, where_sorted. Qed.
Lemma where_length {A} (f : A -> bool) (l : list A) : length (where_ f l) <= length l.
Proof.
  etransitivity; [apply NoDup_incl_length with (l' := seq 0 (length l)); [apply where_nodup|]|now rewrite seq_length].
  intros i Hi. apply in_where in Hi. destruct Hi as [x [Hx _]]. apply in_seq. split; [lia|].
  apply nth_error_Some. congruence.
Qed.

(** foldM *)
Lemma foldM_app {S A} (f : S -> A -> res S) l1 l2 s :
  foldM f (l1 ++ l2) s = (s' <- foldM f l1 s ;; foldM f l2 s').
Proof. revert s; induction l1 as [|x l1 IH]; intros s; simpl; auto.
  destruct (f s x); simpl; auto. Qed.

(** Invariant rule for loops with exceptions: an invariant that every iteration
    re-establishes (and that lets every iteration succeed) holds at the end. *)
Lemma foldM_inv {S A} (f : S -> A -> res S) (I : list A -> S -> Prop) l :
  (forall done x todo s, l = done ++ x :: todo -> I done s ->
     exists s', f s x = Ok s' /\ I (done ++ [x]) s') ->
  forall s, I [] s -> exists s', foldM f l s = Ok s' /\ I l s'.
Proof.
  intros Hstep s H0.
  assert (G : forall todo done s, l = done ++ todo -> I done s ->
     exists s', foldM f todo s = Ok s' /\ I l s').
  { induction todo as [|x todo IH]; intros done s1 E H1; simpl.
    - exists s1. split; auto. rewrite app_nil_r in E. now subst.
    - destruct (Hstep done x todo s1 E H1) as [s2 [E2 H2]]. rewrite E2. simpl.
      apply IH with (done := done ++ [x]); auto. now rewrite <- app_assoc. }
  apply (G l [] s); auto.
Qed.

(** partial-correctness version: if the loop succeeds, the invariant holds *)
Lemma foldM_pinv {S A} (f : S -> A -> res S) (I : list A -> S -> Prop) l :
  (forall done x todo s s', l = done ++ x :: todo -> I done s -> f s x = Ok s' ->
     I (done ++ [x]) s') ->
  forall s s', I [] s -> foldM f l s = Ok s' -> I l s'.
Proof.
  intros Hstep s s' H0.
  assert (G : forall todo done s s', l = done ++ todo -> I done s ->
     foldM f todo s = Ok s' -> I l s').
  { induction todo as [|x todo IH]; intros done s1 s2 E H1 H2; simpl in *.
    - inversion H2; subst. now rewrite app_nil_r.
    - destruct (f s1 x) as [s3|] eqn:E3; simpl in H2; [|discriminate].
      apply IH with (done := done ++ [x]) (s := s3); auto.
      + now rewrite <- app_assoc. + eapply Hstep; eauto. }
  apply (G l [] s); auto.
Qed.

Lemma bind_ok {A B} (r : res A) (f : A -> res B) b :
  bind r f = Ok b <-> exists a, r = Ok a /\ f a = Ok b.
Proof. destruct r; simpl; split; try discriminate; eauto.
  - intros [x [H1 H2]]. inversion H1. now subst.
  - intros [x [H1 H2]]. discriminate. Qed.

(** sorting *)
Section SortLemmas.
  Context {A : Type} (leb : A -> A -> bool).
  Lemma insert_perm x l : Permutation (x :: l) (insert leb x l).
  Proof. induction l as [|y l IH]; simpl; auto. destruct (leb x y); auto.
    rewrite perm_swap. auto. Qed.
  Lemma isort_perm l : Permutation l (isort leb l).
  Proof. induction l as [|x l IH]; simpl; auto. rewrite <- insert_perm. auto. Qed.
  Lemma isort_in x l : In x (isort leb l) <-> In x l.
  Proof. split; apply Permutation_in; [symmetry|]; apply isort_perm. Qed.
  Lemma isort_length l : length (isort leb l) = length l.
  Proof. symmetry. apply Permutation_length, isort_perm. Qed.
  Lemma isort_nodup l : NoDup l -> NoDup (isort leb l).
  Proof. apply Permutation_NoDup, isort_perm. Qed.
  Context (R : A -> A -> Prop).
  Hypothesis leb_true : forall x y, leb x y = true -> R x y.
  Hypothesis leb_false : forall x y, leb x y = false -> R y x.
  Hypothesis R_trans : forall x y z, R x y -> R y z -> R x z.
  Lemma insert_sorted x l : StronglySorted R l -> StronglySorted R (insert leb x l).
  Proof.
    induction 1 as [|y l H IH Hy]; simpl; [repeat constructor|].
    destruct (leb x y) eqn:E.
    - constructor; [constructor; auto|]. constructor; auto.
      eapply Forall_impl; [|exact Hy]. intros z Hz. eapply R_trans; eauto.
    - constructor; auto. apply (Permutation_Forall (insert_perm x l)).
      constructor; auto.
  Qed.
  Lemma isort_sorted l : StronglySorted R (isort leb l).
  Proof. induction l; simpl; [constructor|]. now apply insert_sorted. Qed.
End SortLemmas.

(** two strictly sorted lists with the same elements are equal *)
Lemma sorted_lt_ext l1 l2 : StronglySorted lt l1 -> StronglySorted lt l2 ->
  (forall x, In x l1 <-> In x l2) -> l1 = l2.
Proof.
  revert l2; induction l1 as [|x l1 IH]; intros [|y l2] S1 S2 H; auto.
  - specialize (H y). simpl in H. tauto.
  - specialize (H x). simpl in H. tauto.
  - inversion S1 as [|? ? S1' F1]; subst. inversion S2 as [|? ? S2' F2]; subst.
    rewrite Forall_forall in F1, F2.
    assert (x = y).
    { assert (H1 := proj1 (H x) (or_introl eq_refl)).
      assert (H2 := proj2 (H y) (or_introl eq_refl)).
      destruct H1 as [|H1]; auto. destruct H2 as [|H2]; auto.
      specialize (F1 _ H2). specialize (F2 _ H1). lia. }
    subst y. f_equal. apply IH; auto. intros z. specialize (H z). simpl in H.
    split; intro Hz.
    + destruct (proj1 H (or_intror Hz)) as [<-|]; auto. specialize (F1 _ Hz). lia.
    + destruct (proj2 H (or_intror Hz)) as [<-|]; auto. specialize (F2 _ Hz). lia.
Qed.

(** dictionaries *)
Section DictLemmas.
  Context {K V : Type} (eqb : K -> K -> bool).
  Hypothesis eqb_eq : forall x y, eqb x y = true <-> x = y.
  Lemma eqb_refl_ x : eqb x x = true. Proof. now apply eqb_eq. Qed.
  Lemma eqb_neq_ x y : x <> y -> eqb x y = false.
  Proof. intros H. destruct (eqb x y) eqn:E; auto. apply eqb_eq in E. contradiction. Qed.
  Lemma dget_dset_eq (d : list (K * V)) k v : dget eqb (dset eqb d k v) k = Some v.
  Proof. induction d as [|[k' v'] d IH]; simpl.
    - now rewrite eqb_refl_.
    - destruct (eqb k k') eqn:E; simpl; now rewrite E. Qed.
  Lemma dget_dset_neq (d : list (K * V)) k k2 v : k <> k2 ->
    dget eqb (dset eqb d k v) k2 = dget eqb d k2.
  Proof. intros N. induction d as [|[k' v'] d IH]; simpl.
    - rewrite eqb_neq_; auto.
    - destruct (eqb k k') eqn:E; simpl.
      + apply eqb_eq in E. subst. rewrite eqb_neq_; auto.
      + destruct (eqb k2 k'); auto. Qed.
  Lemma dget_in (d : list (K * V)) k v : dget eqb d k = Some v -> In (k, v) d.
  Proof. induction d as [|[k' v'] d IH]; simpl; [discriminate|].
    destruct (eqb k k') eqn:E; intros H.
    - apply eqb_eq in E. inversion H. subst. auto. - auto. Qed.
  Lemma dget_none (d : list (K * V)) k : dget eqb d k = None <-> ~ In k (map fst d).
  Proof. induction d as [|[k' v'] d IH]; simpl; [tauto|].
    destruct (eqb k k') eqn:E.
    - apply eqb_eq in E. subst. split; [discriminate|]. intros H; exfalso; auto.
    - rewrite IH. assert (k' <> k) by (intros ->; rewrite eqb_refl_ in E; discriminate). tauto. Qed.
  Lemma dget_in_nodup (d : list (K * V)) k v : NoDup (map fst d) -> In (k, v) d -> dget eqb d k = Some v.
  Proof. induction d as [|[k' v'] d IH]; simpl; [tauto|]. intros H [E|H1].
    - inversion E; subst. now rewrite eqb_refl_.
    - inversion H as [|? ? H2 H3]; subst. rewrite eqb_neq_; auto.
      intros ->. apply H2. change k' with (fst (k', v)). now apply in_map. Qed.
  Lemma dset_keys (d : list (K * V)) k v :
    map fst (dset eqb d k v) = if dhas eqb d k then map fst d else map fst d ++ [k].
  Proof. unfold dhas. induction d as [|[k' v'] d IH]; simpl; auto.
    destruct (eqb k k') eqn:E; simpl; auto. rewrite IH. destruct (dget eqb d k); auto. Qed.
  Lemma dhas_spec (d : list (K * V)) k : dhas eqb d k = true <-> In k (map fst d).
  Proof. unfold dhas. destruct (dget eqb d k) eqn:E.
    - split; auto. intros _. apply dget_in in E. change k with (fst (k, v)). now apply in_map.
    - apply dget_none in E. split; [discriminate|]. tauto. Qed.
  Lemma dset_nodup (d : list (K * V)) k v : NoDup (map fst d) -> NoDup (map fst (dset eqb d k v)).
  Proof. rewrite dset_keys. destruct (dhas eqb d k) eqn:E; auto. intros H.
    apply (Permutation_NoDup (Permutation_cons_append (map fst d) k)).
    constructor; auto. intros Hin. apply dhas_spec in Hin. congruence. Qed.
End DictLemmas.

(** mapM *)
Lemma mapM_ok {A B} (f : A -> res B) (g : A -> B) l :
  (forall x, In x l -> f x = Ok (g x)) -> mapM f l = Ok (map g l).
Proof. induction l as [|x l IH]; intros H; simpl; auto.
  rewrite H by (left; auto). simpl. rewrite IH; [auto|]. intros; apply H; now right. Qed.

Lemma mapM_length {A B} (f : A -> res B) l l' : mapM f l = Ok l' -> length l' = length l.
Proof. revert l'; induction l as [|x l IH]; intros l' H; simpl in H.
  - now inversion H.
  - apply bind_ok in H. destruct H as [y [E H]]. apply bind_ok in H. destruct H as [ys [E2 H]].
    inversion H. simpl. f_equal. auto. Qed.

Lemma nth_error_ext {A} (l1 l2 : list A) : (forall i, nth_error l1 i = nth_error l2 i) -> l1 = l2.
Proof. revert l2; induction l1 as [|x l1 IH]; intros [|y l2] H; auto.
  - specialize (H 0); discriminate.
  - specialize (H 0); discriminate.
  - assert (E := H 0). simpl in E. inversion E; subst. f_equal. apply IH.
    intros i. apply (H (S i)). Qed.

Lemma Forall2_nth {A B} (R : A -> B -> Prop) l1 l2 : length l1 = length l2 ->
  (forall n x y, nth_error l1 n = Some x -> nth_error l2 n = Some y -> R x y) -> Forall2 R l1 l2.
Proof. revert l2; induction l1 as [|x l1 IH]; intros [|y l2] L H; simpl in L; try discriminate; constructor.
  - apply (H 0); auto. - apply IH; [lia|]. intros n. apply (H (S n)). Qed.
