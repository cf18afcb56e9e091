(** C101-C103: saving pyGSFLOW objects to files and reading them back, interrupted writes. *)
From Coq Require Import String List ZArith Lia Bool.
From Verif Require Import MSave.
Import ListNotations.
Set Implicit Arguments.
Unset Strict Implicit.
Local Notation length := List.length.
Local Open Scope list_scope.

(** ** Specification *)
Section Spec.
  Variable cell : Type.
  (** two attribute values, each in its heap: the same number, or arrays of the same content *)
  Definition same_val (h h' : list cell) (v v' : val) : Prop :=
    match v, v' with
    | VInt x, VInt y => x = y
    | VRef r, VRef r' => exists c, nth_error h r = Some c /\ nth_error h' r' = Some c
    | _, _ => False
    end.
  (** same class, same attributes in the same order; attributes that were one array are one array *)
  Definition same_object (h : list cell) (o : obj) (h' : list cell) (o' : obj) : Prop :=
    o_cls o' = o_cls o /\
    Forall2 (fun a a' => fst a = fst a' /\ same_val h h' (snd a) (snd a')) (o_attrs o) (o_attrs o') /\
    forall i j k1 k2 k3 k4 r s r' s',
      nth_error (o_attrs o) i = Some (k1, VRef r) -> nth_error (o_attrs o) j = Some (k2, VRef s) ->
      nth_error (o_attrs o') i = Some (k3, VRef r') -> nth_error (o_attrs o') j = Some (k4, VRef s') ->
      (r = s <-> r' = s').
  (** operations that open the file [p] for writing *)
  Definition touches (p : string) (x : op cell) : bool :=
    match x with
    | OWrite _ _ q | OWriteFails _ _ q _ | OWriteCrash _ _ q _ => String.eqb q p
    | _ => false
    end.
  (** references are valid: always so in Python *)
  Definition wf (w : world cell) : Prop :=
    forall o, In o (w_objs w) -> forall k r, In (k, VRef r) (o_attrs o) -> r < length (w_heap w).
End Spec.

Section Proofs.
  Variable cell : Type.
  Notation world := (world cell).
  Notation tok := (tok cell).
  Implicit Types (h : list cell) (w : world) (t : list tok).

  (** ** pickle *)
  Fixpoint after (seen : list nat) (l : list (string * val)) : list nat :=
    match l with
    | [] => seen
    | (_, VInt _) :: l' => after seen l'
    | (_, VRef r) :: l' => match index_of r seen with Some _ => after seen l' | None => after (seen ++ [r]) l' end
    end.
  Fixpoint renamed (base : nat) (seen : list nat) (l : list (string * val)) : list (string * val) :=
    match l with
    | [] => []
    | (k, VInt z) :: l' => (k, VInt z) :: renamed base seen l'
    | (k, VRef r) :: l' => match index_of r seen with
                           | Some n => (k, VRef (base + n)) :: renamed base seen l'
                           | None => (k, VRef (base + length seen)) :: renamed base (seen ++ [r]) l'
                           end
    end.
  Fixpoint push (l : list (string * val)) (stk : list sv) : list sv :=
    match l with [] => stk | (k, v) :: l' => push l' (SVal v :: SStr k :: stk) end.

  Lemma pop_push l : forall stk acc, pop_items (push l stk) acc = pop_items stk (l ++ acc).
  Proof.
    assert (G : forall l stk, exists stk', push l stk = stk' /\ forall acc, pop_items stk' acc = pop_items stk (l ++ acc)).
    { clear l. induction l as [|[k v] l IH]; intros stk; simpl; eauto.
      destruct (IH (SVal v :: SStr k :: stk)) as (s & E & H). exists s. split; auto. }
    intros stk acc. destruct (G l stk) as (s & E & H). rewrite E. apply H.
  Qed.

  Lemma index_nth r l n : index_of r l = Some n -> nth_error l n = Some r.
  Proof.
    revert n. induction l as [|x l IH]; intros n; simpl; [discriminate|]. destruct (Nat.eqb_spec x r).
    - intros E. inversion E. simpl. congruence.
    - destruct (index_of r l) as [k|]; [|discriminate]. intros E. inversion E. simpl. auto.
  Qed.
  Lemma index_app r l l2 : index_of r (l ++ l2) =
    match index_of r l with Some n => Some n | None => match index_of r l2 with Some n => Some (length l + n) | None => None end end.
  Proof.
    induction l as [|x l IH]; simpl; [destruct (index_of r l2); auto|]. destruct (Nat.eqb x r); auto. rewrite IH.
    destruct (index_of r l); auto. destruct (index_of r l2); auto.
  Qed.
  Lemma after_ext l : forall seen, exists m, after seen l = seen ++ m.
  Proof.
    induction l as [|[k [z|r]] l IH]; intros seen; simpl; auto.
    - exists []. now rewrite app_nil_r.
    - destruct (index_of r seen); auto. destruct (IH (seen ++ [r])) as [m E]. exists ([r] ++ m). now rewrite E, <- app_assoc.
  Qed.
  Lemma index_after r l seen n : index_of r seen = Some n -> index_of r (after seen l) = Some n.
  Proof. intros E. destruct (after_ext l seen) as [m ->]. now rewrite index_app, E. Qed.

  Lemma load_items h base : forall l seen t rest stk hp,
    items h seen l = Some t -> length hp = base + length seen ->
    (forall n r, nth_error seen n = Some r -> exists c, nth_error h r = Some c /\ nth_error hp (base + n) = Some c) ->
    exists ext,
      load (t ++ rest) stk (map (Nat.add base) (seq 0 (length seen))) hp
      = load rest (push (renamed base seen l) stk) (map (Nat.add base) (seq 0 (length (after seen l)))) (hp ++ ext) /\
      length (hp ++ ext) = base + length (after seen l) /\
      (forall n r, nth_error (after seen l) n = Some r -> exists c, nth_error h r = Some c /\ nth_error (hp ++ ext) (base + n) = Some c).
  Proof.
    induction l as [|[k [z|r]] l IH]; intros seen t rest stk hp E L C.
    - inversion E; subst. exists []. rewrite app_nil_r. auto.
    - simpl in E. destruct (items h seen l) as [t'|] eqn:Et; [|discriminate]. inversion E; subst. simpl. eapply IH; eauto.
    - simpl in E. simpl after. simpl renamed. destruct (index_of r seen) as [n|] eqn:Ei.
      + destruct (items h seen l) as [t'|] eqn:Et; [|discriminate]. inversion E; subst. simpl.
        rewrite nth_error_map. rewrite (nth_error_nth' _ 0) by (rewrite seq_length; apply nth_error_Some; rewrite (index_nth Ei); discriminate).
        rewrite seq_nth by (apply nth_error_Some; rewrite (index_nth Ei); discriminate). simpl. eapply IH; eauto.
      + destruct (nth_error h r) as [c|] eqn:Ec; [|discriminate]. destruct (items h (seen ++ [r]) l) as [t'|] eqn:Et; [|discriminate].
        inversion E; subst. simpl. rewrite L.
        assert (M : map (Nat.add base) (seq 0 (length seen)) ++ [base + length seen] = map (Nat.add base) (seq 0 (length (seen ++ [r])))).
        { rewrite app_length. simpl. rewrite seq_app, map_app. reflexivity. }
        rewrite M. destruct (IH (seen ++ [r]) t' rest (SVal (VRef (base + length seen)) :: SStr k :: stk) (hp ++ [c]) Et) as (ext & A & B & D).
        { rewrite !app_length. simpl. lia. }
        { intros n x Hn. destruct (Nat.lt_ge_cases n (length seen)).
          - rewrite nth_error_app1 in Hn by auto. destruct (C _ _ Hn) as (c' & ? & ?). exists c'. split; auto. rewrite nth_error_app1; auto. lia.
          - rewrite nth_error_app2 in Hn by auto. destruct (n - length seen) as [|m] eqn:En; [|destruct m; discriminate].
            inversion Hn; subst x. exists c. split; auto. replace n with (length seen) by lia.
            rewrite nth_error_app2 by lia. rewrite L, Nat.sub_diag. reflexivity. }
        exists ([c] ++ ext). rewrite app_assoc. rewrite A. auto.
  Qed.

  Lemma renamed_spec base : forall l seen i k v, nth_error l i = Some (k, v) ->
    match v with
    | VInt z => nth_error (renamed base seen l) i = Some (k, VInt z)
    | VRef r => exists n, index_of r (after seen l) = Some n /\ nth_error (renamed base seen l) i = Some (k, VRef (base + n))
    end.
  Proof.
    induction l as [|[k0 v0] l IH]; intros seen i k v Hi; [destruct i; discriminate|]. destruct i as [|i].
    - simpl in Hi. inversion Hi; subst. destruct v as [z|r]; simpl; auto. destruct (index_of r seen) as [n|] eqn:E.
      + exists n. split; auto. now apply index_after.
      + exists (length seen). split; auto. apply index_after. rewrite index_app, E. simpl. rewrite Nat.eqb_refl. f_equal. lia.
    - simpl in Hi. simpl. destruct v0 as [z0|r0]; [|destruct (index_of r0 seen)]; apply (IH _ _ _ _ Hi).
  Qed.
  Lemma renamed_length base : forall l seen, length (renamed base seen l) = length l.
  Proof. induction l as [|[k [z|r]] l IH]; intros seen; simpl; auto. destruct (index_of r seen); simpl; auto. Qed.

  (** loading what was dumped *)
  Lemma load_dump h o t h0 rest : dump h o = Some t ->
    exists h1 o', load (t ++ rest) [] [] h0 = Loaded h1 o' /\ same_object h o h1 o' /\
      (forall r c, nth_error h0 r = Some c -> nth_error h1 r = Some c) /\
      (forall k r, In (k, VRef r) (o_attrs o') -> length h0 <= r < length h1).
  Proof.
    unfold dump. destruct (items h [] (o_attrs o)) as [ti|] eqn:E; [|discriminate]. intros X. inversion X; subst t; clear X.
    destruct (@load_items h (length h0) (o_attrs o) [] ti ([SetItems _; Build _; Stop _] ++ rest) [SMark; SDict []; SObj (Obj (o_cls o) [])] h0 E)
      as (ext & A & B & C); [simpl; lia|intros [|n] r Hn; discriminate|].
    exists (h0 ++ ext), (Obj (o_cls o) (renamed (length h0) [] (o_attrs o))). split; [|split; [|split]].
    - simpl. rewrite <- app_assoc. simpl in A. simpl app at 2. rewrite A. simpl. rewrite pop_push. simpl. now rewrite app_nil_r.
    - split; [reflexivity|]. cbn [o_attrs]. split.
      + assert (G : forall (l1 l2 : list (string * val)) (Q : string * val -> string * val -> Prop), length l2 = length l1 ->
          (forall i a, nth_error l1 i = Some a -> exists b, nth_error l2 i = Some b /\ Q a b) -> Forall2 Q l1 l2).
        { induction l1 as [|a l1 IH]; intros [|b l2] Q L H; try discriminate; auto. constructor.
          - destruct (H 0 a eq_refl) as (b' & Eb & ?). inversion Eb; subst; auto.
          - apply IH; [simpl in L; lia|]. intros i x Hx. apply (H (S i) x Hx). }
        apply G; [apply renamed_length|]. intros i [k v] Hi. pose proof (renamed_spec (length h0) [] Hi) as R. destruct v as [z|r].
        * exists (k, VInt z). repeat split; auto.
        * destruct R as (n & Hn & R). eexists. split; [exact R|]. split; auto. apply C. now apply index_nth.
      + intros i j k1 k2 k3 k4 r s r' s' H1 H2 H3 H4.
        destruct (renamed_spec (length h0) [] H1) as (n & N1 & N2). destruct (renamed_spec (length h0) [] H2) as (m & M1 & M2).
        rewrite N2 in H3. rewrite M2 in H4. inversion H3; inversion H4; subst. split.
        * intros ->. rewrite N1 in M1. inversion M1. reflexivity.
        * intros Eq. assert (n = m) by lia. subst m. apply index_nth in N1. apply index_nth in M1. congruence.
    - intros r c Hr. rewrite nth_error_app1; auto. apply nth_error_Some. congruence.
    - cbn [o_attrs]. intros k r Hin. apply In_nth_error in Hin. destruct Hin as [i Hi].
      assert (Li : i < length (o_attrs o)) by (rewrite <- (renamed_length (length h0) (o_attrs o) []); apply nth_error_Some; congruence).
      apply nth_error_Some in Li. destruct (nth_error (o_attrs o) i) as [[k0 v]|] eqn:Ei; [|congruence].
      pose proof (renamed_spec (length h0) [] Ei) as R. destruct v as [z|r0]; [congruence|]. destruct R as (n & N1 & N2).
      rewrite N2 in Hi. inversion Hi; subst. apply index_nth in N1. assert (n < length (after [] (o_attrs o))) by (apply nth_error_Some; congruence). lia.
  Qed.

  (** a stream cut before STOP *)
  Lemma load_cut t1 : forall t2 stk memo h h1 o, ~ In (Stop _) t1 -> load (t1 ++ t2) stk memo h = Loaded h1 o -> load t1 stk memo h = Raised _.
  Proof.
    induction t1 as [|x t1 IH]; intros t2 stk memo h h1 o N E; [reflexivity|]. simpl in *.
    destruct x; try (exfalso; apply N; left; reflexivity);
    (destruct (exec _ stk memo h) as [[[stk1 memo1] g1]|]; [|discriminate]; eapply IH; [intros Hin; apply N; now right|exact E]).
  Qed.
  Lemma items_no_stop h : forall l seen t, items h seen l = Some t -> ~ In (Stop _) t.
  Proof.
    induction l as [|[k [z|r]] l IH]; intros seen t E.
    - inversion E; auto.
    - simpl in E. destruct (items h seen l) eqn:Et; [|discriminate]. inversion E; subst. apply IH in Et.
      intros [|[|]]; try discriminate; auto.
    - simpl in E. destruct (index_of r seen).
      + destruct (items h seen l) eqn:Et; [|discriminate]. inversion E; subst. apply IH in Et. intros [|[|]]; try discriminate; auto.
      + destruct (nth_error h r); [|discriminate]. destruct (items h (seen ++ [r]) l) eqn:Et; [|discriminate]. inversion E; subst.
        apply IH in Et. intros [|[|[|]]]; try discriminate; auto.
  Qed.
  Lemma load_torn h o t k h0 : dump h o = Some t -> k < length t -> load (firstn k t) [] [] h0 = Raised _.
  Proof.
    intros E L. destruct (load_dump h0 [] E) as (h1 & o' & Ho & _). rewrite app_nil_r in Ho.
    apply (@load_cut _ (skipn k t) [] [] h0 h1 o').
    - intros Hin. unfold dump in E. destruct (items h [] (o_attrs o)) as [ti|] eqn:Et; [|discriminate].
      set (u := [Proto _; Global _ (o_cls o); EmptyTuple _; NewObj _; EmptyDict _; Mark _] ++ ti ++ [SetItems _; Build _]).
      assert (U : t = u ++ [Stop _]).
      { injection E as E. rewrite <- E. unfold u. simpl. now rewrite <- app_assoc. }
      assert (L' : k < length u + 1) by (rewrite U, app_length in L; exact L). rewrite U in Hin.
      rewrite firstn_app in Hin. replace (k - length u) with 0 in Hin by lia. change (firstn 0 [Stop cell]) with (@nil tok) in Hin. rewrite app_nil_r in Hin.
      assert (I : In (Stop _) u) by (rewrite <- (firstn_skipn k u); apply in_or_app; auto).
      unfold u in I. apply in_app_or in I. destruct I as [I|I]; [repeat (destruct I as [I|I]; [discriminate|]); destruct I|].
      apply in_app_or in I. destruct I as [I|I]; [revert I; eapply items_no_stop; eauto|repeat (destruct I as [I|I]; [discriminate|]); destruct I].
    - now rewrite firstn_skipn.
  Qed.

  (** ** sessions *)
  Lemma items_ok h l : forall seen, (forall k r, In (k, VRef r) l -> r < length h) -> exists t, items h seen l = Some t.
  Proof.
    induction l as [|[k v] l IH]; intros seen H; simpl; eauto.
    assert (H' : forall k r, In (k, VRef r) l -> r < length h) by (intros; eapply H; right; eauto).
    destruct v as [z|r].
    - destruct (IH seen H') as [t ->]. eauto.
    - destruct (index_of r seen).
      + destruct (IH seen H') as [t ->]. eauto.
      + assert (R : r < length h) by (eapply H; left; eauto). apply nth_error_Some in R. destruct (nth_error h r); [|congruence].
        destruct (IH (seen ++ [r]) H') as [t ->]. eauto.
  Qed.
  Lemma dump_ok w i o : wf w -> nth_error (w_objs w) i = Some o -> exists t, dump (w_heap w) o = Some t.
  Proof.
    intros W E. unfold dump. destruct (@items_ok (w_heap w) (o_attrs o) []) as [t ->]; eauto. apply W. eapply nth_error_In; eauto.
  Qed.
  Lemma put_eq (d : disk cell) p t : put d p t p = Some t.
  Proof. unfold put. now rewrite String.eqb_refl. Qed.
  Lemma step_disk w x p : touches p x = false -> w_disk (fst (step w x)) p = w_disk w p.
  Proof.
    destruct w as [h os d]. destruct x; simpl; intros T; auto.
    - destruct (forallb _ _); auto.
    - destruct (nth_error os i); auto. destruct (forallb _ _); auto.
    - destruct (write _ _ _ _) eqn:E; auto. unfold write in E. simpl in E. destruct (nth_error os i); [|discriminate]. destruct (dump h o); [|discriminate].
      inversion E; subst. simpl. unfold put. rewrite String.eqb_sym, T. auto.
    - destruct (write _ _ _ _) eqn:E; auto. unfold write in E. simpl in E. destruct (nth_error os i); [|discriminate]. destruct (dump h o); [|discriminate].
      inversion E; subst. simpl. unfold put. rewrite String.eqb_sym, T. auto.
    - destruct (write _ _ _ _) eqn:E; auto. unfold write in E. simpl in E. destruct (nth_error os i); [|discriminate]. destruct (dump h o); [|discriminate].
      inversion E; subst. simpl. unfold put. rewrite String.eqb_sym, T. auto.
    - destruct (d p0); auto. destruct (load _ _ _ _); auto.
  Qed.
  Lemma run_disk l : forall w p, forallb (fun x => negb (touches p x)) l = true -> w_disk (run w l) p = w_disk w p.
  Proof.
    induction l as [|x l IH]; intros w p H; auto. simpl in H. apply andb_prop in H. destruct H as [H1 H2].
    simpl. rewrite IH by auto. apply step_disk. destruct (touches p x); auto; discriminate.
  Qed.

  (** C101: what write put in a file, read gives back: as it was at the time of write, whatever
      happened since (edits of the arrays, restarts, other files), in new arrays of its own *)
  Theorem C101_saved_objects_read_back w i p o l :
    wf w -> nth_error (w_objs w) i = Some o ->
    forallb (fun x => negb (touches p x)) l = true ->
    snd (step w (OWrite _ i p)) = ADone /\
    let w2 := run (fst (step w (OWrite _ i p))) l in
    exists w3 o', step w2 (ORead _ p) = (w3, AObj (length (w_objs w2))) /\
      nth_error (w_objs w3) (length (w_objs w2)) = Some o' /\
      same_object (w_heap w) o (w_heap w3) o' /\
      (forall k r, In (k, VRef r) (o_attrs o') -> length (w_heap w2) <= r) /\
      (forall r c, nth_error (w_heap w2) r = Some c -> nth_error (w_heap w3) r = Some c) /\
      (forall j x, nth_error (w_objs w2) j = Some x -> nth_error (w_objs w3) j = Some x).
  Proof.
    intros W E F. destruct (dump_ok W E) as [t Ht].
    assert (S1 : step w (OWrite _ i p) = (World (w_heap w) (w_objs w) (put (w_disk w) p t), ADone)).
    { destruct w as [h os d]. simpl in *. unfold write. simpl. now rewrite E, Ht. }
    rewrite S1. split; [reflexivity|]. cbn [fst]. set (w2 := run _ l).
    assert (D : w_disk w2 p = Some t) by (unfold w2; rewrite run_disk by auto; apply put_eq).
    clearbody w2. destruct w2 as [h2 os2 d2]. simpl in *. rewrite D. destruct (load_dump h2 [] Ht) as (h1 & o' & Ho & A & B & C).
    rewrite app_nil_r in Ho. rewrite Ho. eexists _, o'. split; [reflexivity|]. simpl.
    split; [rewrite nth_error_app2, Nat.sub_diag by auto; reflexivity|]. split; auto. split; [intros k r Hk; apply C in Hk; lia|].
    split; auto. intros j x Hj. rewrite nth_error_app1; auto. apply nth_error_Some. congruence.
  Qed.

  (** ... the class read is called on plays no role: read is a static method (C101); references stay valid *)
  Theorem C101_sessions_stay_valid w l : wf w -> wf (run w l).
  Proof.
    revert w. induction l as [|x l IH]; intros w W; auto. simpl. apply IH. clear IH l.
    destruct w as [h os d]. unfold wf in *. simpl in W.
    assert (Len : forall (A : Type) (q : list A) a y, length (set_nth q a y) = length q).
    { intros A q. induction q as [|b q IHq]; intros [|a] y; simpl; auto. }
    assert (Sin : forall (A : Type) (q : list A) a y z, In z (set_nth q a y) -> z = y \/ In z q).
    { intros A q. induction q as [|b q IHq]; intros [|a] y z Hz; simpl in *; intuition. apply IHq in H. intuition. }
    assert (Ref : forall l, forallb (ref_ok h) l = true -> forall k r, In (k, VRef r) l -> r < length h).
    { intros l H k r Hin. rewrite forallb_forall in H. apply H in Hin. unfold ref_ok in Hin. simpl in Hin. now apply Nat.ltb_lt. }
    destruct x; simpl.
    - intros o Ho k r Hr. rewrite app_length. simpl. specialize (W o Ho k r Hr). lia.
    - rewrite Len. auto.
    - destruct (forallb _ _) eqn:F; auto. simpl. intros o' Ho. apply in_app_or in Ho. destruct Ho as [Ho|[<-|[]]]; eauto.
    - destruct (nth_error os i); auto. destruct (forallb _ _) eqn:F; auto. simpl. intros o' Ho. apply Sin in Ho.
      destruct Ho as [->|Ho]; eauto.
    - destruct (write _ _ _ _); auto.
    - destruct (write _ _ _ _); auto.
    - destruct (write _ _ _ _); simpl; tauto.
    - simpl; tauto.
    - destruct (d p) as [t|]; auto. destruct (load t [] [] h) as [h' o|] eqn:E; auto. simpl.
      assert (G : forall t stk memo h h' o, load t stk memo h = Loaded h' o ->
        (forall s, In s stk -> forall l, (s = SDict l \/ exists c, s = SObj (Obj c l)) -> forall k r, In (k, VRef r) l -> r < length h) ->
        (forall s, In s stk -> forall r, s = SVal (VRef r) -> r < length h) -> (forall r, In r memo -> r < length h) ->
        length h <= length h' /\ forall k r, In (k, VRef r) (o_attrs o) -> r < length h').
      { clear. induction t as [|x t IH]; intros stk memo h h' o E I1 I2 I3; [discriminate|]. 
        destruct (match x with Stop _ => true | _ => false end) eqn:Ex.
        - destruct x; try discriminate. simpl in E. destruct stk as [|[]]; try discriminate. inversion E; subst. split; auto.
          intros k r Hr. eapply (I1 (SObj o)); [now left| |exact Hr]. right. exists (o_cls o). now destruct o.
        - assert (E' : match exec x stk memo h with Some (stk', memo', g) => load t stk' memo' g | None => Raised _ end = Loaded h' o)
            by (destruct x; auto; discriminate). clear E.
          destruct (exec x stk memo h) as [[[stk' memo'] g]|] eqn:Ee; [|discriminate].
          assert (P : length h <= length g /\
             (forall s, In s stk' -> forall l, (s = SDict l \/ exists c, s = SObj (Obj c l)) -> forall k r, In (k, VRef r) l -> r < length g) /\
             (forall s, In s stk' -> forall r, s = SVal (VRef r) -> r < length g) /\ (forall r, In r memo' -> r < length g)).
          { assert (K1 : forall y, (forall l, (y = SDict l \/ exists c, y = SObj (Obj c l)) -> forall k r, In (k, VRef r) l -> r < length h) ->
                         (forall r, y = SVal (VRef r) -> r < length h) -> forall s0, incl s0 stk -> 
                       length h <= length h /\ (forall s, In s (y :: s0) -> forall l, (s = SDict l \/ exists c, s = SObj (Obj c l)) -> forall k r, In (k, VRef r) l -> r < length h) /\
                       (forall s, In s (y :: s0) -> forall r, s = SVal (VRef r) -> r < length h) /\ (forall r, In r memo -> r < length h)).
            { intros y Y1 Y2 s0 Inc. split; auto. split; [|split]; auto.
              - intros s [<-|Hs]; [exact Y1|]. apply I1. auto.
              - intros s [<-|Hs]; [exact Y2|]. intros r Hr. apply (I2 s); auto. }
            destruct x; simpl in Ee; try discriminate.
            - inversion Ee; subst. auto.
            - inversion Ee; subst. apply K1; [intros l [X|[c' X]]; discriminate|discriminate|apply incl_refl].
            - inversion Ee; subst. apply K1; [intros l [X|[c' X]]; discriminate|discriminate|apply incl_refl].
            - destruct stk as [|[] [|[] stk]]; try discriminate. inversion Ee; subst. apply K1.
              + intros l [X|[c' X]]; inversion X; subst. simpl. tauto.
              + discriminate.
              + intros z Hz. right. now right.
            - inversion Ee; subst. apply K1.
              + intros l [X|[c' X]]; inversion X; subst. simpl. tauto.
              + discriminate.
              + apply incl_refl.
            - inversion Ee; subst. apply K1; [intros l [X|[c' X]]; discriminate|discriminate|apply incl_refl].
            - inversion Ee; subst. apply K1; [intros l [X|[c' X]]; discriminate|discriminate|apply incl_refl].
            - inversion Ee; subst. apply K1; [intros l [X|[c' X]]; discriminate|discriminate|apply incl_refl].
            - inversion Ee; subst. rewrite app_length. simpl. split; [lia|]. split; [|split].
              + intros s [<-|Hs] l; [intros [X|[c' X]]; discriminate|]. intros Hl k r Hr. specialize (I1 s Hs l Hl k r Hr). lia.
              + intros s [<-|Hs] r X; [inversion X; lia|]. specialize (I2 s Hs r X). lia.
              + intros r Hr. specialize (I3 r Hr). lia.
            - destruct stk as [|[] stk]; try discriminate. destruct v; try discriminate. inversion Ee; subst. split; auto. split; auto. split; auto.
              intros r0 Hr. apply in_app_or in Hr. destruct Hr as [Hr|[<-|[]]]; auto. eapply I2; [now left|reflexivity].
            - destruct (nth_error memo n) eqn:En; [|discriminate]. inversion Ee; subst. apply K1.
              + intros l [X|[c' X]]; discriminate.
              + intros r X. inversion X; subst. apply I3. eapply nth_error_In; eauto.
              + apply incl_refl.
            - assert (Pop : forall m stk l acc s', length stk < m -> pop_items stk acc = Some (l, s') ->
                (forall s, In s stk -> forall r, s = SVal (VRef r) -> r < length h) -> (forall k r, In (k, VRef r) acc -> r < length h) ->
                incl s' stk /\ forall k r, In (k, VRef r) l -> r < length h).
              { clear. induction m as [|m IH]; intros stk l acc s' Lm E I A; [lia|].
                destruct stk as [|[] stk]; simpl in E; try discriminate.
                - destruct stk as [|[] stk]; try discriminate. simpl in Lm. destruct (IH stk l ((s, v) :: acc) s') as [B1 B2]; auto; try lia.
                  + intros s1 Hs. apply I. right. now right.
                  + intros k r [X|X]; [|eauto]. inversion X; subst. eapply I; [left; reflexivity|reflexivity].
                  + split; auto. intros z Hz. right. right. auto.
                - inversion E; subst. split; auto. intros z Hz. now right. }
              destruct (pop_items stk []) as [[l [|[] s]]|] eqn:Ep; try discriminate.
              destruct (Pop (S (length stk)) _ _ _ _ (Nat.lt_succ_diag_r _) Ep) as [Inc Pl]; auto; [simpl; tauto|]. inversion Ee; subst. apply K1.
              + intros l1 [X|[c' X]]; inversion X; subst. intros k r Hr. apply in_app_or in Hr. destruct Hr as [Hr|Hr]; eauto.
                eapply (I1 (SDict l0)); [apply Inc; now left|left; reflexivity|exact Hr].
              + discriminate.
              + intros z Hz. apply Inc. now right.
            - destruct stk as [|[] [|[] stk]]; try discriminate. inversion Ee; subst. apply K1.
              + intros l1 [X|[c' X]]; inversion X; subst. intros k r Hr. apply in_app_or in Hr. destruct Hr as [Hr|Hr].
                * eapply (I1 (SObj o0)); [right; now left| |exact Hr]. right. exists (o_cls o0). now destruct o0.
                * eapply (I1 (SDict l)); [now left|left; reflexivity|exact Hr].
              + discriminate.
              + intros z Hz. right. now right. }
          destruct P as (P0 & P1 & P2 & P3). destruct (IH _ _ _ _ _ E' P1 P2 P3). split; auto. lia. }
      destruct (G _ _ _ _ _ _ E ltac:(simpl; tauto) ltac:(simpl; tauto) ltac:(simpl; tauto)) as [G1 G2].
      intros o' Ho k r Hr. apply in_app_or in Ho. destruct Ho as [Ho|[<-|[]]]; [|eauto]. specialize (W o' Ho k r Hr). lia.
  Qed.

  (** the two ways a write can be interrupted *)
  Definition cut_short (crash : bool) (i : nat) (p : string) (k : nat) : op cell :=
    if crash then OWriteCrash _ i p k else OWriteFails _ i p k.
  Lemma cut_disk crash w i p o k t : nth_error (w_objs w) i = Some o -> dump (w_heap w) o = Some t ->
    w_disk (fst (step w (cut_short crash i p k))) = put (w_disk w) p (firstn k t).
  Proof.
    destruct w as [h os d]. simpl. intros E Ht. destruct crash; simpl; unfold write; simpl; now rewrite E, Ht.
  Qed.
  Lemma read_of w p t : w_disk w p = Some t ->
    step w (ORead _ p) = match load t [] [] (w_heap w) with
                         | Loaded h' o => (World h' (w_objs w ++ [o]) (w_disk w), AObj (length (w_objs w)))
                         | Raised _ => (w, ARaised)
                         end.
  Proof. destruct w as [h os d]. simpl. now intros ->. Qed.

  (** C102 is false: open(f, "wb") empties the file first.  Whatever [p] held before, if the
      write is interrupted before anything reached the file, there is nothing left to read *)
  Theorem C102_interrupted_write_loses_the_file_refuted crash w i p o l :
    wf w -> nth_error (w_objs w) i = Some o ->
    forallb (fun x => negb (touches p x)) l = true ->
    let w2 := run (fst (step w (cut_short crash i p 0))) l in
    step w2 (ORead _ p) = (w2, ARaised).
  Proof.
    intros W E F w2. destruct (dump_ok W E) as [t Ht].
    assert (D : w_disk w2 p = Some []).
    { unfold w2. rewrite run_disk by auto. rewrite (cut_disk crash p 0 E Ht). apply put_eq. }
    rewrite (read_of D). reflexivity.
  Qed.

  (** the other files keep their content, whatever is interrupted *)
  Theorem C102_other_files_stay w x p : touches p x = false -> w_disk (fst (step w x)) p = w_disk w p.
  Proof. apply step_disk. Qed.

  (** C103: a file left by an interrupted write is either complete, and reads as the object that
      was being written, or it is refused: read never returns anything else *)
  Theorem C103_torn_files_are_refused w i p o :
    wf w -> nth_error (w_objs w) i = Some o ->
    exists n, 0 < n /\ forall crash k l,
      forallb (fun x => negb (touches p x)) l = true ->
      let w2 := run (fst (step w (cut_short crash i p k))) l in
      (k < n -> step w2 (ORead _ p) = (w2, ARaised)) /\
      (n <= k -> exists w3 o', step w2 (ORead _ p) = (w3, AObj (length (w_objs w2))) /\
                   nth_error (w_objs w3) (length (w_objs w2)) = Some o' /\ same_object (w_heap w) o (w_heap w3) o').
  Proof.
    intros W E. destruct (dump_ok W E) as [t Ht]. exists (length t). split.
    { unfold dump in Ht. destruct (items _ _ _); [|discriminate]. injection Ht as <-. simpl. lia. }
    intros crash k l F w2. assert (D : w_disk w2 p = Some (firstn k t)).
    { unfold w2. rewrite run_disk by auto. rewrite (cut_disk crash p k E Ht). apply put_eq. }
    rewrite (read_of D). split; intros K.
    - now rewrite (load_torn (w_heap w2) Ht K).
    - rewrite firstn_all2 by auto. destruct (load_dump (w_heap w2) [] Ht) as (h1 & o' & Ho & A & _). rewrite app_nil_r in Ho. rewrite Ho.
      eexists _, o'. split; [reflexivity|]. simpl. split; auto. rewrite nth_error_app2, Nat.sub_diag by auto. reflexivity.
  Qed.
End Proofs.

(** A session: reach data, segment data and irunbnd are one array each; the object is saved, the
    reach data edited, the process restarted, the object read: the saved values. *)
Definition session : list (op nat) :=
  [ONewArray 10; ONewArray 20; ONewArray 30; ONew _ (new_streams 0 1 2); OWrite _ 0 "streams.bin"; OEdit 0 99; ORestart _].
Example C101_witness :
  let w := run (World [] [] (fun _ => None)) session in
  let '(w', a) := step w (ORead _ "streams.bin") in
  a = AObj 0 /\ w_heap w' = [10; 20; 30] /\ nth_error (w_objs w') 0 = Some (new_streams 0 1 2).
Proof. vm_compute. auto. Qed.
(** ... and a second write that dies at once destroys it *)
Example C102_witness_refuted :
  let w := run (World [] [] (fun _ => None)) (session ++ [ORead _ "streams.bin"; OWriteCrash _ 0 "streams.bin" 0]) in
  snd (step w (ORead _ "streams.bin")) = ARaised.
Proof. vm_compute. reflexivity. Qed.
(** one array under two attributes is saved once and is one array again *)
Example C101_shared_witness :
  let w := run (World [] [] (fun _ => None)) [ONewArray 7; ONew _ (new_streams 0 0 0); OWrite _ 0 "f"; ORead _ "f"] in
  w_heap w = [7; 7] /\ nth_error (w_objs w) 1 = Some (new_streams 1 1 1).
Proof. vm_compute. auto. Qed.
