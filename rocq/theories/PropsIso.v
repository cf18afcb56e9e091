(** C72: valid cells all of whose neighbours are NaN. *)
From Coq Require Import QArith.
From Verif Require Import Py Spec MFlow MDir LRat Grids LDir4 PropsDir LDir.
Set Implicit Arguments.
Unset Strict Implicit.
Local Open Scope nat_scope.
Local Open Scope list_scope.
Local Notation length := List.length.

Lemma mapM_in_ok {A B} (f : A -> res B) l : forall ys y, mapM f l = Ok ys -> In y ys -> exists x, In x l /\ f x = Ok y.
Proof.
  induction l as [|x l IH]; intros ys y E Hy; cbn [mapM] in E; [inversion E; subst; destruct Hy|].
  apply bind_ok in E. destruct E as [z [Ez E]]. apply bind_ok in E. destruct E as [zs [Es E]]. inversion E; subst.
  destruct Hy as [<-|Hy]; [exists x; split; auto; now left|]. destruct (IH _ _ Es Hy) as [x' [H1 H2]]. exists x'. split; auto. now right.
Qed.

Lemma foldM_keeps {A S} (f : S -> A -> res S) (P : S -> Prop) l : (forall s x s', In x l -> P s -> f s x = Ok s' -> P s') ->
  forall s s', P s -> foldM f l s = Ok s' -> P s'.
Proof.
  induction l as [|x l IH]; intros H s s' Ps E; cbn [foldM] in E; [inversion E; now subst|].
  apply bind_ok in E. destruct E as [s1 [E1 E]]. eapply IH; [|eapply (H s x); eauto; now left|exact E].
  intros; eapply H; eauto. now right.
Qed.

(** ** A cell that no steepest slope leads to is not touched while other cells are resolved *)
Section Untouched.
  Variable c : nat.
  Variable fnb : list (list nat).

  Definition avoids (fcells : list (list nat)) : Prop := forall d fl row k,
    nth_error fcells d = Some fl -> nth_error fnb d = Some row -> In k fl -> nth_error row k <> Some c.
  Definition SP (s : smap) : Prop := forall k l, In (k, l) s -> k <> c /\ ~ In c l.
  Definition FP (ft : ftrace) : Prop := forall n x, In (n, x) ft -> n <> c.

  Lemma dset_In {B} (s : list (nat * B)) k v p : In p (dset Nat.eqb s k v) -> p = (k, v) \/ In p s.
  Proof.
    induction s as [|[k' v'] s IH]; cbn [dset]; intros H.
    - destruct H as [<-|[]]; auto.
    - destruct (Nat.eqb_spec k k') as [->|].
      + destruct H as [<-|H]; auto. right. now right.
      + destruct H as [<-|H]; [right; now left|]. destruct (IH H) as [->|Hi]; auto. right. now right.
  Qed.
  Lemma dget_In {B} (s : list (nat * B)) k v : dget Nat.eqb s k = Some v -> In (k, v) s.
  Proof.
    induction s as [|[k' v'] s IH]; cbn [dget]; [discriminate|]. destruct (Nat.eqb_spec k k') as [->|]; intros H.
    - inversion H. now left.
    - right. auto.
  Qed.
  Lemma ddel_In {B} (s : list (nat * B)) k p : In p (ddel Nat.eqb s k) -> In p s.
  Proof. induction s as [|[k' v'] s IH]; cbn [ddel]; auto. destruct (Nat.eqb_spec k k'); [now right|]. intros [<-|H]; [now left|right; auto]. Qed.

  Lemma dd_add_SP s k x : SP s -> k <> c -> x <> c -> SP (dd_add s k x).
  Proof.
    intros H Hk Hx k' l Hi. unfold dd_add in Hi. apply dset_In in Hi. destruct Hi as [E|Hi]; [|now apply H in Hi].
    inversion E; subst. split; auto. destruct (dget Nat.eqb s k) as [l0|] eqn:Eg.
    - apply dget_In in Eg. apply H in Eg. unfold sadd. destruct (memn x l0); [now destruct Eg|].
      intros X. apply in_app_iff in X. destruct X as [X|[X|[]]]; [now destruct Eg|congruence].
    - unfold sadd. cbn. intros [X|[]]. congruence.
  Qed.

  Definition dp (o : option nat) : Prop := o <> Some c.

  Lemma conns_avoid fcells d fl row conns : avoids fcells -> get fcells d = Ok fl -> get fnb d = Ok row -> mapM (get row) fl = Ok conns ->
    ~ In c conns.
  Proof.
    intros A Ef Er Em Hi. apply get_ok in Ef, Er. destruct (mapM_in_ok Em Hi) as [k [Hk Ek]]. apply get_ok in Ek. eapply A; eauto.
  Qed.

  Lemma resolve_keeps fcells fdir stack cell fl dest dest' conns sink stack' : avoids fcells -> get fcells cell = Ok fl ->
    SP stack -> cell <> c -> dp dest ->
    resolve_flats fnb fdir stack cell fl dest = Ok (dest', conns, sink, stack') ->
    SP stack' /\ dp dest' /\ ~ In c conns.
  Proof.
    intros A Ef HS Hc HD E. unfold resolve_flats in E. apply bind_ok in E. destruct E as [row [Er E]].
    apply bind_ok in E. destruct E as [cs [Em E]]. cbn zeta in E. apply bind_ok in E. destruct E as [[[d1 s1] st1] [EF E]]. inversion E; subst. clear E.
    assert (NC := conns_avoid A Ef Er Em).
    assert (X : SP (snd (dest', sink, stack')) /\ dp (fst (fst (dest', sink, stack')))).
    { eapply (@foldM_keeps _ _ (resolve_conn fdir cell) (fun st => SP (snd st) /\ dp (fst (fst st)))); [|split|exact EF].
      - intros [[d0 s0] st0] x st' Hx [P1 P2] E1. unfold resolve_conn in E1. destruct (dhas Nat.eqb st0 x); [inversion E1; now subst|].
        apply bind_ok in E1. destruct E1 as [dv [_ E1]]. inversion E1; subst. cbn [fst snd] in *.
        assert (x <> c) by (intros ->; contradiction). split; [now apply dd_add_SP|].
        destruct ((dv =? -1)%Z || (dv =? -2)%Z); auto. unfold dp. congruence.
      - exact HS.
      - cbn. destruct conns as [|x [|y l]]; auto. unfold dp. intros X. inversion X; subst. apply NC. now left. }
    cbn in X. tauto.
  Qed.

  Record DI (s : dij) : Prop := { di_tmp : ~ In c (d_tmp s); di_dest : dp (d_dest s); di_st : SP (d_stack s) }.

  Lemma dij_pass_keeps fcells fdir : avoids fcells -> forall fuel i n s s', DI s -> dij_pass fuel fnb fcells fdir i n s = Ok s' -> DI s'.
  Proof.
    intros A. induction fuel as [|f IH]; intros i n s s' D E; [discriminate|]. cbn [dij_pass] in E.
    destruct (nth_error (d_tmp s) i) as [cell|] eqn:Ei; [|inversion E; now subst].
    assert (Hc : cell <> c) by (intros ->; apply (di_tmp D); eapply nth_error_In; eauto).
    destruct (negb (memn cell (d_visited s))).
    - apply bind_ok in E. destruct E as [fl [Ef E]]. apply bind_ok in E. destruct E as [[[[d1 cs] sk] st] [Er E]].
      destruct (resolve_keeps A Ef (di_st D) Hc (di_dest D) Er) as [P1 [P2 P3]]. apply IH in E; auto.
      constructor; cbn; auto. destruct d1; [apply (di_tmp D)|]. intros X. apply in_app_iff in X. destruct X as [X|X]; [now apply (di_tmp D)|contradiction].
    - destruct (d_dest s) eqn:Ed; [now apply IH in E|]. apply IH in E; auto. constructor; cbn; [apply (di_tmp D)|discriminate|apply (di_st D)].
  Qed.

  Lemma dij_loop_keeps fcells fdir : avoids fcells -> forall fuel s s', DI s -> dij_loop fuel fnb fcells fdir s = Ok s' -> DI s'.
  Proof.
    intros A. induction fuel as [|f IH]; intros s s' D E; [discriminate|]. cbn [dij_loop] in E.
    apply bind_ok in E. destruct E as [s1 [E1 E]]. apply dij_pass_keeps in E1; auto. destruct (d_dest s1) as [d|] eqn:Ed.
    - inversion E; subst. constructor; cbn; [apply (di_tmp E1)|rewrite <- Ed; apply (di_dest E1)|apply (di_st E1)].
    - destruct (d_sink s1); [inversion E; now subst|]. eapply IH; eauto.
  Qed.

  Lemma trace_node_keeps dest t n ft : FP ft -> n <> c -> FP (trace_node dest t ft n).
  Proof.
    intros H Hn. assert (G : forall v, FP (dset Nat.eqb ft n v)).
    { intros v m x Hi. apply dset_In in Hi. destruct Hi as [E|Hi]; [congruence|now apply H in Hi]. }
    unfold trace_node. destruct (Nat.eqb t dest); auto. destruct (dget Nat.eqb ft t) as [[? d]|]; auto. cbn zeta.
    destruct (d + 1 <? _)%Z; auto.
  Qed.

  Lemma trace_round_keeps dest ldest : forall stack ft o, SP stack -> FP ft -> ~ In c ldest ->
    (forall t l, o = Some (t, l) -> t <> c /\ ~ In c l) ->
    let r := fold_left (fun (st : smap * ftrace * option (nat * list nat)) node_to =>
               let '(stack, ft, _) := st in
               let '(stack, nodes_from) :=
                 match dget Nat.eqb stack node_to with
                 | Some l => (stack, l)
                 | None => (dset Nat.eqb stack node_to [], [])
                 end in
               (stack, fold_left (trace_node dest node_to) nodes_from ft, Some (node_to, nodes_from)))
            ldest (stack, ft, o) in
    SP (fst (fst r)) /\ FP (snd (fst r)) /\ forall t l, snd r = Some (t, l) -> t <> c /\ ~ In c l.
  Proof.
    induction ldest as [|t ldest IH]; intros stack ft o HS HF HL HO; [cbn; auto|]. cbn [fold_left].
    assert (Ht : t <> c) by (intros ->; apply HL; now left). assert (HL' : ~ In c ldest) by (intros X; apply HL; now right).
    destruct (dget Nat.eqb stack t) as [l|] eqn:Eg.
    - apply dget_In in Eg. apply HS in Eg. destruct Eg as [_ Nl]. apply IH; auto.
      + clear - HF Nl. revert ft HF. induction l as [|n l IH]; intros ft HF; auto. cbn [fold_left]. apply IH; [intros X; apply Nl; now right|].
        apply trace_node_keeps; auto. intros ->. apply Nl. now left.
      + intros t' l' X. inversion X; subst. auto.
    - apply IH; auto.
      + intros k l Hi. apply dset_In in Hi. destruct Hi as [X|Hi]; [inversion X; subst; split; auto|now apply HS in Hi].
      + intros t' l' X. inversion X; subst. auto.
  Qed.

  Lemma trace_loop_keeps dest : forall fuel ldest stack ft ft', SP stack -> FP ft -> ~ In c ldest ->
    trace_loop fuel dest ldest stack ft = Ok ft' -> FP ft'.
  Proof.
    induction fuel as [|f IH]; intros ldest stack ft ft' HS HF HL E; cbn [trace_loop] in E; (destruct stack as [|p stack]; [inversion E; now subst|]); [discriminate|].
    set (st := p :: stack) in *. clearbody st. unfold trace_round in E.
    assert (X := @trace_round_keeps dest ldest st ft None HS HF HL ltac:(discriminate)). cbn zeta in X.
    match type of X with SP (fst (fst ?r)) /\ _ => destruct r as [[s1 f1] o1] end. cbn [fst snd] in X. destruct X as [X1 [X2 X3]].
    destruct o1 as [[t l]|]; [|discriminate]. destruct (X3 t l eq_refl) as [Ht Hl]. cbn zeta in E.
    assert (S2 : SP (ddel Nat.eqb s1 t)) by (intros k l' Hi; apply ddel_In in Hi; now apply X1 in Hi).
    apply bind_ok in E. destruct E as [ld [El E]]. eapply IH; [exact S2|exact X2| |exact E].
    destruct l as [|a l]; [|inversion El; now subst]. destruct (rev (map fst (ddel Nat.eqb s1 t))) as [|k r] eqn:Er; [discriminate|].
    inversion El; subst. intros [->|[]]. assert (In c (map fst (ddel Nat.eqb s1 t))) by (apply in_rev; rewrite Er; now left).
    apply in_map_iff in H. destruct H as [[k' l'] [Ek Hi]]. apply S2 in Hi. cbn in Ek. now destruct Hi.
  Qed.

  Lemma flat_keeps fcells fuel ix conns fdir fdir' : avoids fcells -> ix <> c -> ~ In c conns ->
    flat_cell fuel fnb fcells ix conns fdir = Ok fdir' -> nth_error fdir' c = nth_error fdir c /\ length fdir' = length fdir.
  Proof.
    intros A Hx HC E. rewrite flat_cell_eq in E. cbn zeta in E. apply bind_ok in E. destruct E as [s [Es E]].
    assert (S0 : SP (fold_left (fun s conn => dd_add s conn ix) conns [])).
    { assert (G : forall l s, ~ In c l -> SP s -> SP (fold_left (fun s conn => dd_add s conn ix) l s)).
      { induction l as [|x l IH]; intros s0 Hl H; auto. cbn [fold_left]. apply IH; [intros X; apply Hl; now right|].
        apply dd_add_SP; auto. intros ->. apply Hl. now left. }
      apply G; auto. intros k l []. }
    apply dij_loop_keeps in Es; auto; [|constructor; cbn; auto; unfold dp; discriminate].
    destruct (d_dest s) as [dest|] eqn:Ed.
    - apply bind_ok in E. destruct E as [from [Ef E]]. apply bind_ok in E. destruct E as [first [E1 E]]. apply bind_ok in E. destruct E as [ft [Et E]].
      assert (FF : FP ft).
      { eapply trace_loop_keeps; [apply (di_st Es)| | |exact Et].
        - intros n x [X|[]]. inversion X; subst. apply get_ok, nth_error_In in E1. intros ->. destruct (dget Nat.eqb (d_stack s) dest) as [l|] eqn:Eg.
          + inversion Ef; subst. apply dget_In in Eg. apply (di_st Es) in Eg. now destruct Eg.
          + inversion Ef; subst. destruct E1.
        - intros [X|[]]. subst. now apply (di_dest Es). }
      eapply (@foldM_keeps _ _ _ (fun a => nth_error a c = nth_error fdir c /\ length a = length fdir)); [|split; reflexivity|exact E].
      intros a [n x] a' Hi [P1 P2] Ea. apply set_ok in Ea. destruct Ea as [Ln ->]. cbn [fst]. split; [|now rewrite upd_length].
      rewrite nth_error_upd_neq; auto. intros ->. now apply FF in Hi.
    - apply bind_ok in E. destruct E as [f1 [E1 E]]. apply set_ok in E1. destruct E1 as [L1 ->].
      eapply (@foldM_keeps _ _ _ (fun a => nth_error a c = nth_error fdir c /\ length a = length fdir)); [| |exact E].
      + intros a k a' Hi [P1 P2] Ea. apply set_ok in Ea. destruct Ea as [Ln ->]. split; [|now rewrite upd_length].
        rewrite nth_error_upd_neq; auto. intros ->. apply in_map_iff in Hi. destruct Hi as [[k l] [Ek Hi]]. apply (di_st Es) in Hi. cbn in Ek. now destruct Hi.
      + split; [|now rewrite upd_length]. rewrite nth_error_upd_neq; auto.
  Qed.

  Lemma drop_sub fdir ix fl st fl' st' : drop_solved fdir ix fl st = Ok (fl', st') -> forall k, In k fl' -> In k fl.
  Proof.
    intros E k Hk. unfold drop_solved in E. apply bind_ok in E. destruct E as [kept [EK E]]. inversion E; subst. clear E.
    apply in_map_iff in Hk. destruct Hk as [[k' x] [Ek Hi]]. cbn in Ek. subst k'.
    assert (X : forall p, In p kept -> In p (combine fl st)).
    { eapply (@foldM_keeps _ _ _ (fun kept => forall p, In p kept -> In p (combine fl st))); [| |exact EK].
      - intros l p l' Hp Hl El. apply bind_ok in El. destruct El as [d [_ El]]. inversion El; subst. destruct (d =? _)%Z; auto.
        intros q Hq. apply in_app_iff in Hq. destruct Hq as [Hq|[<-|[]]]; auto.
      - intros p []. }
    apply X in Hi. now apply in_combine_l in Hi.
  Qed.

  Lemma flow_cell_keeps fuel nan ix st st' : avoids (snd st) -> ix <> c ->
    flow_cell fuel nan fnb st ix = Ok st' ->
    avoids (snd st') /\ nth_error (snd st') c = nth_error (snd st) c /\
    nth_error (fst st') c = nth_error (fst st) c /\ length (fst st') = length (fst st).
  Proof.
    destruct st as [fdir fcells]. cbn [fst snd]. intros A Hx E. unfold flow_cell in E. apply bind_ok in E. destruct E as [node [En E]].
    destruct (negb (node =? -1)%Z); [inversion E; subst; auto|]. destruct (nan ix).
    { apply bind_ok in E. destruct E as [f1 [E1 E]]. inversion E; subst. apply set_ok in E1. destruct E1 as [L1 ->]. cbn [fst snd].
      split; auto. split; auto. split; [|now rewrite upd_length]. now rewrite nth_error_upd_neq. }
    apply bind_ok in E. destruct E as [fl [Ef E]]. apply bind_ok in E. destruct E as [row [Er E]].
    apply bind_ok in E. destruct E as [[[fl' fc'] cont] [EC E]]. apply bind_ok in E. destruct E as [conns [Em E]].
    assert (X : avoids fc' /\ nth_error fc' c = nth_error fcells c /\ ~ In c conns).
    { assert (B : forall k, In k fl' -> In k fl) by
        (destruct (1 <? length fl); [|inversion EC; subst; auto];
         apply bind_ok in EC; destruct EC as [st [Es EC]]; apply bind_ok in EC; destruct EC as [[f2 s2] [Ed EC]];
         apply bind_ok in EC; destruct EC as [fcs [Eset EC]]; assert (D := drop_sub Ed);
         destruct (1 <? length f2); [apply bind_ok in EC; destruct EC as [b [_ EC]]|]; inversion EC; subst; auto).
      assert (NC : ~ In c conns).
      { intros Hi. destruct (mapM_in_ok Em Hi) as [k [Hk Ek]]. apply get_ok in Ek, Er, Ef. eapply A; eauto. }
      assert (U : fc' = fcells \/ fc' = upd fcells ix fl').
      { destruct (1 <? length fl); [|inversion EC; subst; auto].
        apply bind_ok in EC; destruct EC as [st [Es EC]]; apply bind_ok in EC; destruct EC as [[f2 s2] [Ed EC]].
        apply bind_ok in EC; destruct EC as [fcs [Eset EC]]. apply set_ok in Eset. destruct Eset as [_ ->].
        destruct (1 <? length f2); [apply bind_ok in EC; destruct EC as [b [_ EC]]|]; inversion EC; subst; auto. }
      split; [|split; auto; destruct U as [->| ->]; auto; now apply nth_error_upd_neq].
      destruct U as [->| ->]; auto. intros d g rw k Hd Hr Hk. destruct (Nat.eq_dec ix d) as [<-|Hne].
      - assert (ix < length fcells) by (apply get_ok in Ef; apply nth_error_Some; congruence).
        rewrite nth_error_upd_eq in Hd by auto. inversion Hd; subst. apply get_ok in Ef. eapply A; eauto.
      - rewrite nth_error_upd_neq in Hd by auto. eapply A; eauto. }
    destruct X as [A' [Nc NC]].
    assert (R : st' = (fst st', fc') /\ nth_error (fst st') c = nth_error fdir c /\ length (fst st') = length fdir).
    { assert (FL : (f1 <- flat_cell fuel fnb fc' ix conns fdir ;; Ok (f1, fc')) = Ok st' ->
        st' = (fst st', fc') /\ nth_error (fst st') c = nth_error fdir c /\ length (fst st') = length fdir).
      { intros E1. apply bind_ok in E1. destruct E1 as [f1 [E1 E2]]. inversion E2; subst. cbn [fst]. split; auto. eapply flat_keeps; eauto. }
      assert (SE : forall d, (f1 <- set fdir ix (Z.of_nat d) ;; Ok (f1, fc')) = Ok st' ->
        st' = (fst st', fc') /\ nth_error (fst st') c = nth_error fdir c /\ length (fst st') = length fdir).
      { intros d E1. apply bind_ok in E1. destruct E1 as [f1 [E1 E2]]. inversion E2; subst. apply set_ok in E1. destruct E1 as [L1 ->].
        cbn [fst]. split; auto. split; [now rewrite nth_error_upd_neq|now rewrite upd_length]. }
      destruct conns as [|a [|b [|e [|g conns]]]]; destruct cont; auto; eapply SE; eauto. }
    destruct R as [-> [R1 R2]]. cbn [fst snd]. auto.
  Qed.
End Untouched.

(** ** What happens to an isolated cell *)
(** every neighbour of [c] is NaN *)
Definition isolated {T} (dem : list (option T)) (nb : list (list nat)) (c : nat) : Prop :=
  is_valid dem c /\ forall n, adjacent nb c n -> is_nan dem n.

(** [k] more neighbours than [c] has the cell with the most neighbours *)
Definition missing (nb : list (list nat)) (c k : nat) : Prop :=
  exists l c' l', nth_error nb c = Some l /\ nth_error nb c' = Some l' /\
    (forall x lx, nth_error nb x = Some lx -> length lx <= length l') /\ length l' = length l + k.

Lemma mapM_at {A B} (f : A -> res B) l : forall ys i x, mapM f l = Ok ys -> nth_error l i = Some x -> exists y, f x = Ok y /\ nth_error ys i = Some y.
Proof.
  induction l as [|a l IH]; intros ys i x E Hi; [destruct i; discriminate|]. cbn [mapM] in E.
  apply bind_ok in E. destruct E as [z [Ez E]]. apply bind_ok in E. destruct E as [zs [Es E]]. inversion E; subst.
  destruct i as [|i]; [inversion Hi; subst; exists z; auto|]. cbn in Hi |- *. eapply IH; eauto.
Qed.

Lemma widest_is nb l' c' : nth_error nb c' = Some l' -> (forall x lx, nth_error nb x = Some lx -> length lx <= length l') -> widest nb = length l'.
Proof.
  intros Hc H. unfold widest.
  assert (G : forall rows w, (forall r, In r rows -> length r <= length l') -> w <= length l' ->
    (In l' rows \/ w = length l') -> fold_left (fun w n => if w <? length n then length n else w) rows w = length l').
  { induction rows as [|r rows IH]; intros w Hr Hw Ho; [destruct Ho as [[]|]; auto|]. cbn [fold_left].
    assert (R := Hr r (or_introl eq_refl)). apply IH; [intros; apply Hr; now right|destruct (Nat.ltb_spec w (length r)); auto|].
    destruct Ho as [[->|Hi]|Hw2]; auto.
    - right. destruct (Nat.ltb_spec w (length l')); lia.
    - right. destruct (Nat.ltb_spec w (length r)); lia. }
  apply G; [|lia|left; eapply nth_error_In; eauto]. intros r Hr. apply In_nth_error in Hr. destruct Hr as [x Hx]. eauto.
Qed.

Lemma nth_combine_seq {A} (x : A) : forall m s f i, i < m -> nth_error f i = Some x -> nth_error (combine (seq s m) f) i = Some (s + i, x).
Proof.
  induction m as [|m IH]; intros s f i Hi H; [lia|]. destruct f as [|r f]; [destruct i; discriminate|].
  destruct i as [|i]; cbn in *; [inversion H; now rewrite Nat.add_0_r|]. rewrite (IH (S s)) by (auto; lia). do 2 f_equal. lia.
Qed.

Lemma get_tail (N : nat) : forall j pre, mapM (get (pre ++ repeat N j)) (seq (length pre) j) = Ok (repeat N j).
Proof.
  induction j as [|j IH]; intros pre; auto. cbn [seq mapM repeat].
  assert (X : get (pre ++ N :: repeat N j) (length pre) = Ok N) by (apply get_ok; rewrite nth_error_app2, Nat.sub_diag by lia; reflexivity).
  rewrite X. cbn [bind]. specialize (IH (pre ++ [N])). rewrite <- app_assoc, app_length, Nat.add_comm in IH. cbn in IH. rewrite IH. reflexivity.
Qed.

Lemma map_repeat_eq {A B} (f : A -> B) x n : map f (repeat x n) = repeat (f x) n.
Proof. induction n; auto. cbn. now rewrite IHn. Qed.

Lemma seq_sorted : forall k s, StronglySorted lt (seq s k).
Proof. induction k as [|k IH]; intros s; cbn [seq]; constructor; auto. apply Forall_forall. intros x Hx. apply in_seq in Hx. lia. Qed.

Section Isolated.
  Context {T : Type} (O : slope_ops T) (ok : T -> Prop).
  Hypothesis OL : order_laws O ok.
  Variables (thr : T) (dist : nat -> nat -> T) (dem : list (option T)) (nb : list (list nat)) (terminals : list Z).
  Notation N := (length dem).
  Hypothesis LN : length nb = N.
  Hypothesis NB : neighbours_in nb N.
  Hypothesis SY : symmetric_grid nb.
  Hypothesis EL : forall c z, nth_error dem c = Some (Some z) -> ok z.
  Hypothesis BG : ok (o_big O).
  Hypothesis LO : exists c z, nth_error dem c = Some (Some z) /\ o_lt O z (o_big O) = true.
  Hypothesis TM : forall t, In t terminals -> (0 <= t < Z.of_nat N)%Z.

  Variables (c k : nat).
  Hypothesis IS : isolated dem nb c.
  Hypothesis MI : missing nb c k.
  Hypothesis NL : ~ lowest O dem c.
  Hypothesis NT : ~ In (Z.of_nat c) terminals.
  Notation fnb := (pad_neighbors N nb).

  Lemma big_eq : o_eq O (o_big O) (o_big O) = true.
  Proof.
    rewrite (ol_eq OL BG BG). destruct (o_lt O (o_big O) (o_big O)) eqn:E; auto.
    assert (X := ol_asym OL BG BG E). congruence.
  Qed.

  Lemma c_lt : c < N.
  Proof. destruct IS as [[z Hz] _]. apply nth_error_Some. congruence. Qed.

  Lemma row_c : exists l, nth_error nb c = Some l /\ nth_error fnb c = Some (l ++ repeat N k) /\ forall n, In n l -> is_nan dem n /\ n <> N.
  Proof.
    destruct MI as [l [c' [l' [Hl [Hc' [Hw Hk]]]]]]. exists l. split; auto. split.
    - unfold pad_neighbors. rewrite nth_error_map, Hl. cbn. rewrite (widest_is Hc' Hw). do 3 f_equal. lia.
    - intros n Hn. assert (A : adjacent nb c n) by (exists l; auto). split; [now apply (proj2 IS)|]. apply (NB c_lt) in A. lia.
  Qed.

  Lemma fold_nones (l : list nat) (g : nat -> option T) : (forall n, In n l -> g n = None) ->
    fold_left (fmin2 (o_lt O)) (map g l) None = None.
  Proof. induction l as [|n l IH]; intros H; auto. cbn [map fold_left]. rewrite (H n) by now left. cbn. apply IH. intros; apply H; now right. Qed.

  Lemma fold_bigs m : fold_left (fmin2 (o_lt O)) (repeat (Some (o_big O)) m) (Some (o_big O)) = Some (o_big O).
  Proof. induction m as [|m IH]; auto. cbn [repeat fold_left fmin2]. now destruct (o_lt O (o_big O) (o_big O)). Qed.

  (** the steepest slopes of [c] are those to the padding *)
  Lemma fcells_c fcells : fcells_of (o_lt O) (o_eq O) (calculate_slopes (o_sub O) (o_div O) (o_lt O) (o_zero O) (o_big O) N thr dist dem fnb) = Ok fcells ->
    exists fl row, get fcells c = Ok fl /\ get fnb c = Ok row /\ mapM (get row) fl = Ok (repeat N k).
  Proof.
    intros E. destruct row_c as [l [Hl [Hr Hn]]].
    assert (LF : length fnb = N) by (unfold pad_neighbors; now rewrite map_length).
    assert (HS : nth_error (calculate_slopes (o_sub O) (o_div O) (o_lt O) (o_zero O) (o_big O) N thr dist dem fnb) c =
      Some (map (slope (o_sub O) (o_div O) (o_lt O) (o_zero O) (o_big O) N thr dist dem c) (l ++ repeat N k))).
    { unfold calculate_slopes. rewrite nth_error_map.
      assert (X : nth_error (combine (seq 0 (length fnb)) fnb) c = Some (c, l ++ repeat N k)).
      { rewrite LF. revert Hr. generalize fnb. assert (Hc := c_lt). revert Hc. generalize N at 1 3. intros m Hm f Hr.
        now rewrite (nth_combine_seq 0 Hm Hr). }
      rewrite X. reflexivity. }
    unfold fcells_of in E. destruct (mapM_at E HS) as [fl [Ef Hf]]. clear HS.
    exists fl, (l ++ repeat N k). split; [now apply get_ok|]. split; [now apply get_ok|].
    apply bind_ok in Ef. destruct Ef as [m [Em Ef]]. inversion Ef. clear Ef.
    assert (SN : map (slope (o_sub O) (o_div O) (o_lt O) (o_zero O) (o_big O) N thr dist dem c) (l ++ repeat N k) =
                 map (fun _ => None) l ++ repeat (Some (o_big O)) k).
    { rewrite map_app. f_equal.
      - apply map_ext_in. intros n Hi. unfold slope. destruct (Hn n Hi) as [H1 H2]. destruct (Nat.eqb_spec n N); [contradiction|].
        unfold is_nan in H1. now rewrite (nth_error_nth _ _ None H1).
      - rewrite map_repeat_eq. f_equal. unfold slope. now rewrite Nat.eqb_refl. }
    rewrite SN in *. clear SN.
    assert (EM : m = if k =? 0 then None else Some (o_big O)).
    { unfold nanmin in Em. destruct (map (fun _ => None) l ++ repeat (Some (o_big O)) k) as [|x xs] eqn:EX; [discriminate|]. assert (Em' : fold_left (fmin2 (o_lt O)) (x :: xs) None = m) by congruence.
      rewrite <- Em', <- EX, fold_left_app, fold_nones by auto. destruct k as [|k']; auto. cbn [repeat fold_left fmin2 Nat.eqb]. apply fold_bigs. }
    (* the positions *)
    assert (P : where_ (eq_to (o_eq O) m) (map (fun _ => None) l ++ repeat (Some (o_big O)) k) = seq (length l) k).
    { apply sorted_lt_ext; [apply where_sorted| |].
      - apply seq_sorted.
      - intros i. rewrite in_where, in_seq. split.
        + intros [x [Hx He]]. destruct (Nat.lt_ge_cases i (length l)) as [L|L].
          * rewrite nth_error_app1 in Hx by now rewrite map_length. rewrite nth_error_map in Hx. destruct (nth_error l i); inversion Hx; subst.
            unfold eq_to in He. destruct (k =? 0); discriminate.
          * split; auto. assert (i < length (map (fun _ => @None T) l ++ repeat (Some (o_big O)) k)) by (apply nth_error_Some; congruence).
            rewrite app_length, map_length, repeat_length in H. lia.
        + intros [L1 L2]. exists (Some (o_big O)). rewrite nth_error_app2 by now rewrite map_length. rewrite map_length, nth_error_repeat by lia. split; auto.
          rewrite EM. destruct (Nat.eqb_spec k 0); [lia|]. cbn. apply big_eq. }
    rewrite P.
    apply get_tail.
  Qed.

  (** no steepest slope leads to [c] *)
  Lemma fcells_avoid fcells : fcells_of (o_lt O) (o_eq O) (calculate_slopes (o_sub O) (o_div O) (o_lt O) (o_zero O) (o_big O) N thr dist dem fnb) = Ok fcells ->
    avoids c fnb fcells.
  Proof.
    intros E d fl row k' Hd Hr Hk HC.
    assert (Ld : d < N).
    { assert (X : d < length fnb) by (apply nth_error_Some; congruence). unfold pad_neighbors in X. rewrite map_length, LN in X. exact X. }
    assert (HS : nth_error (calculate_slopes (o_sub O) (o_div O) (o_lt O) (o_zero O) (o_big O) N thr dist dem fnb) d =
      Some (map (slope (o_sub O) (o_div O) (o_lt O) (o_zero O) (o_big O) N thr dist dem d) row)).
    { unfold calculate_slopes. rewrite nth_error_map.
      assert (X : nth_error (combine (seq 0 (length fnb)) fnb) d = Some (0 + d, row)) by (apply nth_combine_seq; auto; unfold pad_neighbors; rewrite map_length, LN; auto).
      rewrite X. reflexivity. }
    destruct (mapM_at E HS) as [fl' [Ef Hf]]. rewrite Hd in Hf. inversion Hf; subst fl'. apply bind_ok in Ef. destruct Ef as [m [_ Ef]]. inversion Ef; subst fl. clear Ef Hf.
    apply in_where in Hk. destruct Hk as [x [Hx He]]. rewrite nth_error_map, HC in Hx. inversion Hx; subst x. clear Hx.
    assert (A : adjacent nb d c).
    { unfold pad_neighbors in Hr. rewrite nth_error_map in Hr. destruct (nth_error nb d) as [l|] eqn:El; [|discriminate]. cbn in Hr. inversion Hr; subst row.
      exists l. split; auto. apply nth_error_In in HC. apply in_app_iff in HC. destruct HC as [HC|HC]; auto.
      apply repeat_spec in HC. assert (X := c_lt). lia. }
    apply SY in A. apply (proj2 IS) in A. unfold slope in He. assert (X := c_lt). destruct (Nat.eqb_spec c N); [lia|].
    unfold is_nan in A. rewrite (nth_error_nth _ _ None A) in He. unfold eq_to in He. destruct (nth c dem None), m; discriminate.
  Qed.

  (** C72: the call does not return if two or more neighbours are missing; with one missing
      neighbour the cell flows to the cell number N, which does not exist; a cell with the
      full number of neighbours becomes a marked sink. *)
  Theorem C72_isolated_cells fuel fdir nb' : run O fuel dist dem nb thr terminals = Ok (fdir, nb') ->
    k <= 1 /\
    (k = 1 -> nth_error fdir c = Some (Z.of_nat N)) /\
    (k = 0 -> nth_error fdir c = Some (-2)%Z).
  Proof.
    intros E. unfold run, flow_directions in E. cbn zeta in E.
    apply bind_ok in E. destruct E as [ms [Em E]]. apply bind_ok in E. destruct E as [s0 [Es E]].
    apply bind_ok in E. destruct E as [fcells [Ef E]]. apply bind_ok in E. destruct E as [fd [Ec E]]. inversion E; subst fd nb'. clear E.
    assert (Hc := c_lt).
    (* the starting value *)
    assert (S0 : nth_error s0 c = Some (-1)%Z /\ length s0 = N).
    { destruct (@mins_general T O ok OL dem EL BG LO) as [M1 [M2 _]]. rewrite M1 in Em. inversion Em; subst ms. clear Em.
      unfold start_fdir in Es. apply bind_ok in Es. destruct Es as [a [Ea Es]].
      assert (A : nth_error a c = Some (-1)%Z /\ length a = N).
      { eapply (@foldM_keeps _ _ _ (fun a => nth_error a c = Some (-1)%Z /\ length a = N)); [| |exact Ea].
        - intros b x b' Hx [P1 P2] Eb. apply set_ok in Eb. destruct Eb as [Lx ->]. rewrite upd_length. split; auto.
          rewrite nth_error_upd_neq; auto. intros ->. apply NL. now apply M2.
        - rewrite repeat_length. split; auto. now apply nth_error_repeat. }
      eapply (@foldM_keeps _ _ _ (fun a => nth_error a c = Some (-1)%Z /\ length a = N)); [|exact A|exact Es].
      intros b t b' Ht [P1 P2] Eb. assert (X := TM Ht). rewrite npset_pos in Eb by (rewrite P2; auto). inversion Eb; subst b'.
      rewrite upd_length. split; auto. rewrite nth_error_upd_neq; auto. intros Hq. apply NT. replace (Z.of_nat c) with t by lia. exact Ht. }
    destruct S0 as [S0 L0].
    assert (AV := fcells_avoid Ef). destruct (fcells_c Ef) as [fl [row [G1 [G2 G3]]]].
    unfold calculate_flowcell in Ec. apply bind_ok in Ec. destruct Ec as [[f1 fc1] [Ec E1]]. inversion E1; subst f1. clear E1.
    rewrite L0 in Ec. replace N with (c + (1 + (N - c - 1))) in Ec at 2 by lia. rewrite seq_app in Ec. cbn [seq Nat.add] in Ec.
    rewrite foldM_app in Ec. apply bind_ok in Ec. destruct Ec as [st1 [E1 Ec]]. cbn [foldM] in Ec.
    apply bind_ok in Ec. destruct Ec as [st2 [E2 E3]].
    set (nan := fun c0 : nat => match nth c0 dem None with Some _ => false | None => true end) in *.
    set (K := fun st : list Z * list (list nat) => avoids c fnb (snd st) /\ nth_error (snd st) c = nth_error fcells c /\
                nth_error (fst st) c = nth_error s0 c /\ length (fst st) = N).
    assert (K1 : K st1).
    { eapply (@foldM_keeps _ _ _ K); [| |exact E1].
      - intros st x st' Hx [P1 [P2 [P3 P4]]] EX. apply in_seq in Hx.
        destruct (@flow_cell_keeps c fnb fuel nan x st st' P1 ltac:(lia) EX) as [Q1 [Q2 [Q3 Q4]]].
        unfold K. rewrite Q2, Q3, Q4. auto.
      - unfold K. cbn. auto. }
    destruct K1 as [P1 [P2 [P3 P4]]].
    assert (AF : avoids c fnb (snd st2) -> nth_error fdir c = nth_error (fst st2) c).
    { intros A2. assert (X : avoids c fnb (snd (fdir, fc1)) /\ nth_error (fst (fdir, fc1)) c = nth_error (fst st2) c).
      { eapply (@foldM_keeps _ _ _ (fun st => avoids c fnb (snd st) /\ nth_error (fst st) c = nth_error (fst st2) c)); [| |exact E3].
        - intros st x st' Hx [Q1 Q2] EX. apply in_seq in Hx.
          destruct (@flow_cell_keeps c fnb fuel nan x st st' Q1 ltac:(lia) EX) as [R1 [R2 [R3 R4]]]. split; auto. congruence.
        - auto. }
      now apply X. }
    (* the iteration of cell c *)
    destruct st1 as [fd1 fcs1]. cbn [fst snd] in *. unfold flow_cell in E2.
    assert (X0 : get fd1 c = Ok (-1)%Z) by (apply get_ok; congruence). rewrite X0 in E2. cbn [bind Z.eqb negb] in E2.
    assert (X1 : nan c = false).
    { unfold nan. destruct IS as [[z Hz] _]. now rewrite (nth_error_nth _ _ None Hz). }
    rewrite X1 in E2.
    assert (X2 : get fcs1 c = Ok fl) by (apply get_ok; rewrite P2; now apply get_ok). rewrite X2, G2 in E2. cbn [bind] in E2.
    assert (LK : length fl = k) by (apply mapM_length in G3; rewrite repeat_length in G3; auto).
    destruct k as [|[|k']].
    - (* no padding *)
      destruct fl; [|discriminate]. cbn in E2. split; [lia|]. split; [discriminate|]. intros _.
      rewrite flat_cell_eq in E2. cbn [fold_left] in E2. destruct fuel as [|f]; cbn in E2; [discriminate|].
      apply bind_ok in E2. destruct E2 as [f1 [E2 E4]]. inversion E4; subst st2. cbn [fst snd] in *.
      apply bind_ok in E2. destruct E2 as [f2 [E2 E5]]. inversion E5; subst f1. apply set_ok in E2. destruct E2 as [_ ->].
      rewrite AF by auto. apply nth_error_upd_eq. lia.
    - destruct fl as [|x [|y fl]]; try discriminate. cbn [length Nat.ltb Nat.leb bind] in E2. rewrite G3 in E2. cbn [bind repeat] in E2.
      split; auto. split; [|discriminate]. intros _. apply bind_ok in E2. destruct E2 as [f1 [E2 E4]]. inversion E4; subst st2. cbn [fst snd] in *.
      apply set_ok in E2. destruct E2 as [_ ->]. rewrite AF by auto. apply nth_error_upd_eq. lia.
    - exfalso. rewrite LK in E2. cbn [Nat.ltb Nat.leb] in E2. rewrite G3 in E2. cbn [bind] in E2.
      apply bind_ok in E2. destruct E2 as [r [E2 _]]. apply bind_ok in E2. destruct E2 as [r2 [E2 _]].
      unfold drop_solved in E2. apply bind_ok in E2. destruct E2 as [kept [E2 _]]. destruct fl as [|x fl]; [discriminate|].
      cbn [repeat combine foldM snd] in E2. apply bind_ok in E2. destruct E2 as [q [E2 _]]. apply bind_ok in E2. destruct E2 as [v [E2 _]].
      apply get_ok in E2. assert (N < length fd1) by (apply nth_error_Some; congruence). lia.
  Qed.
End Isolated.

(** the hypotheses are met by a row of three cells with NaN in the middle (one missing
    neighbour at either end), where the call returns, and by a corner of a square grid (five
    missing neighbours), where it does not *)
Module Ex72.
  Definition dem3 := [Some 1%Q; None; Some 0%Q].
  Example iso3 : isolated dem3 (queen 1 3) 0 /\ missing (queen 1 3) 0 1 /\ ~ lowest Qops dem3 0.
  Proof.
    split; [split; [now exists 1%Q|]|split].
    - intros n [l [H1 H2]]. vm_compute in H1. inversion H1; subst. destruct H2 as [<-|[]]. reflexivity.
    - exists [1], 1, [0; 2]. split; [reflexivity|]. split; [reflexivity|]. split; [|reflexivity].
      intros x lx H. vm_compute in H. do 3 (destruct x as [|x]; [inversion H; subst; cbn; lia|]). destruct x; discriminate.
    - intros [z [Hz H]]. cbn in Hz. inversion Hz; subst. specialize (H 2 0%Q eq_refl). vm_compute in H. discriminate.
  Qed.
  Example row3 : exists nb', run Qops 100 (fun _ _ => 1%Q) dem3 (queen 1 3) (1 # 10)%Q [] = Ok ([3; 1; 2]%Z, nb').
  Proof. eexists. vm_compute. reflexivity. Qed.
End Ex72.
