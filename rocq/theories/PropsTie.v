(** Properties C83-C85: the check for one outlet, the tie rule, and the marked sinks. *)
From Coq Require Import QArith String.
From Verif Require Import Py Spec MFlow MDir Grids LRat LDir LDir2 LDir3 LDir4 LTie PropsDir.
Set Implicit Arguments.
Unset Strict Implicit.
Local Open Scope nat_scope.
Local Open Scope list_scope.
Local Notation length := List.length.

(** ** C83: the constructor insists on one lowest cell *)
(** C83: FlowDirections(grid, dem) with its default check raises AssertionError exactly if
    two different cells are lowest; otherwise it accepts the DEM *)
Theorem C83_one_outlet_check : forall {T} (O : slope_ops T) ok (dem : list (option T)),
  order_laws O ok -> (forall c z, nth_error dem c = Some (Some z) -> ok z) -> ok (o_big O) ->
  (exists c z, nth_error dem c = Some (Some z) /\ o_lt O z (o_big O) = true) ->
  let check := check_elevations (o_lt O) (o_eq O) (o_big O) dem in
  (check = Err AssertionError <-> exists a b, a <> b /\ lowest O dem a /\ lowest O dem b) /\
  (check = Ok tt <-> exists a, lowest O dem a /\ forall b, lowest O dem b -> b = a).
Proof.
  intros T O ok dem OL EL BG LW. cbn zeta. destruct (@mins_general T O ok OL dem EL BG LW) as [E [M ND]].
  unfold check_elevations. rewrite E. cbn [bind].
  assert (NE : mins O dem <> []).
  { destruct LW as [c0 [z0 [L1 L2]]].
    assert (X : exists m, lowest O dem m).
    { destruct (@nanmin_spec T O ok OL dem) as [m [E1 [A B]]].
      - intros ->. destruct c0; discriminate.
      - intros x Hx. apply In_nth_error in Hx. destruct Hx as [c Hc]. eauto.
      - destruct m as [m|]; [|exfalso; apply (B eq_refl z0); eapply nth_error_In; eauto].
        destruct (A m eq_refl) as [A1 A2]. apply In_nth_error in A1. destruct A1 as [c Hc]. exists c, m. split; auto.
        intros c' z' H'. apply A2. eapply nth_error_In; eauto. }
    destruct X as [m Hm]. apply M in Hm. intros Z. rewrite Z in Hm. destruct Hm. }
  destruct (mins O dem) as [|a [|b r]] eqn:EM; [congruence| |].
  - cbn [length Nat.ltb Nat.leb]. assert (U : forall x, lowest O dem x -> x = a) by (intros x Hx; apply M in Hx; destruct Hx as [<-|[]]; auto).
    assert (La : lowest O dem a) by (apply M; now left). split; split; intros H; try discriminate; auto.
    + destruct H as [x [y [Hne [Hx Hy]]]]. exfalso. apply Hne. rewrite (U x), (U y); auto.
    + exists a. auto.
  - cbn [length Nat.ltb Nat.leb]. assert (La : lowest O dem a) by (apply M; now left). assert (Lb : lowest O dem b) by (apply M; right; now left).
    assert (Hab : a <> b) by (inversion ND as [|? ? X _]; subst; intros ->; apply X; now left).
    split; split; intros H; try discriminate; auto.
    + exists a, b. auto.
    + destruct H as [x [Hx U]]. exfalso. apply Hab. rewrite (U a), (U b); auto.
Qed.

(** ** C84: ties *)
(** the neighbours of [c] with property [P], in the order of the grid's neighbour list *)
Definition in_row_order (nb : list (list nat)) (c : nat) (P : nat -> Prop) (l : list nat) : Prop :=
  exists row f, nth_error nb c = Some row /\ (forall n, In n row -> f n = true <-> P n) /\ l = filter f row.

(** every cell of [l] can be reached from the first by steps between neighbours within [l] *)
Definition hang_together (nb : list (list nat)) (l : list nat) : Prop :=
  forall x, In x l -> reachable (fun a b => In a l /\ In b l /\ adjacent nb a b) (eq (hd 0 l)) x.

(** one candidate is taken; of two that hang together the first; of three that hang together
    the last *)
Definition tie_choice (nb : list (list nat)) (k : list nat) (d : nat) : Prop :=
  k = [d] \/ (exists e, k = [d; e] /\ hang_together nb k) \/ (exists a b, k = [a; b; d] /\ hang_together nb k).

Section Ties.
  Context {T : Type} (O : slope_ops T) (ok : T -> Prop).
  Hypothesis OL : order_laws O ok.
  Variables (thr : T) (dist : nat -> nat -> T) (dem : list (option T)) (nb : list (list nat)) (terminals : list Z).
  Hypothesis TR : terrain_ok O ok thr dist dem nb terminals.
  Variable fuel : nat.
  Hypothesis FU : enough_steps nb fuel.
  Hypothesis ND : forall l, In l nb -> NoDup l.
  Notation N := (length dem).
  Notation fnb := (pad_neighbors N nb).
  Notation F0 := (F0 O thr dist dem nb).
  Notation steep := (steepest O thr dist dem nb).

  (** what the directions [g] say about cell [c]: outlets, terminal cells and NaN cells flow to
      themselves; a cell with one steepest neighbour flows there; a cell with several flows to
      the one chosen among those that do not come earlier and flow back *)
  Definition follows (g : nat -> nat) (c : nat) : Prop :=
    ((is_nan dem c \/ start_cell O dem terminals c) /\ g c = c) \/
    (is_valid dem c /\ ~ start_cell O dem terminals c /\
     exists l, in_row_order nb c (steep c) l /\
      (l = [g c] \/
       (1 < length l /\ exists k, in_row_order nb c (fun n => steep c n /\ ~ (n < c /\ g n = c)) k /\ tie_choice nb k (g c)))).

  Lemma tg_filter c : is_valid dem c -> exists f, (forall n, In n (nth c nb []) -> f n = true <-> steep c n) /\
    tg fnb F0 c = filter f (nth c nb []).
  Proof.
    intros V. assert (Hc := val_lt V).
    pose (f := fun n => eq_to (o_eq O) (minv O thr dist dem nb c) (slope (o_sub O) (o_div O) (o_lt O) (o_zero O) (o_big O) N thr dist dem c n)).
    assert (E : tg fnb F0 c = filter f (nth c nb [])).
    { assert (E1 : tg fnb F0 c = filter f (nth c fnb [])).
      { unfold tg, nbr. rewrite (F0_nth OL TR) by auto. rewrite (rows_nth TR) by auto.
        exact (where_filter (eq_to (o_eq O) (minv O thr dist dem nb c)) (slope (o_sub O) (o_div O) (o_lt O) (o_zero O) (o_big O) N thr dist dem c) 0 (nth c fnb [])). }
      rewrite E1, nth_pad by (rewrite (tr_rows TR); auto). rewrite filter_app.
      assert (Z : filter f (repeat N (widest nb - length (nth c nb []))) = []).
      { destruct (filter f (repeat N (widest nb - length (nth c nb [])))) as [|x r] eqn:EF; auto. exfalso.
        assert (X : In x (filter f (repeat N (widest nb - length (nth c nb []))))) by (rewrite EF; now left).
        assert (X2 : In x (tg fnb F0 c)) by (rewrite E1, nth_pad by (rewrite (tr_rows TR); auto); rewrite filter_app; apply in_app_iff; now right).
        apply filter_In in X. destruct X as [X _]. apply repeat_spec in X. subst x.
        apply good_valid in V. destruct (tg_good (F0_regular OL TR) V X2). lia. }
      rewrite Z. apply app_nil_r. }
    exists f. split; auto. intros n Hn. rewrite <- (tg_steep OL TR n V), E. rewrite filter_In. tauto.
  Qed.

  Lemma ordered_tg c l : is_valid dem c -> in_row_order nb c (steep c) l -> l = tg fnb F0 c.
  Proof.
    intros V [row [f [Er [Hf ->]]]]. apply (nth_error_nth _ _ []) in Er. subst row.
    destruct (tg_filter V) as [f' [Hf' ->]]. apply filter_ext_in'. intros n Hn.
    assert (X := Hf n Hn). assert (Y := Hf' n Hn). destruct (f n), (f' n); auto; [symmetry|]; tauto.
  Qed.

  Lemma ordered_away c g k : is_valid dem c ->
    in_row_order nb c (fun n => steep c n /\ ~ (n < c /\ g n = c)) k -> k = filter (away g c) (tg fnb F0 c).
  Proof.
    intros V [row [f [Er [Hf ->]]]]. apply (nth_error_nth _ _ []) in Er. subst row.
    destruct (tg_filter V) as [f' [Hf' ->]].
    assert (FF : forall (p q : nat -> bool) l, filter p (filter q l) = filter (fun x => q x && p x) l).
    { intros p q l. induction l as [|x l IH]; auto. cbn. destruct (q x); cbn [filter andb]; [destruct (p x); now rewrite IH|auto]. }
    rewrite FF. apply filter_ext_in'. intros n Hn.
    assert (X := Hf n Hn). assert (Y := Hf' n Hn).
    assert (A : away g c n = true <-> ~ (n < c /\ g n = c)).
    { unfold away. rewrite negb_true_iff, andb_false_iff, Nat.ltb_ge, Nat.eqb_neq. lia. }
    destruct (f n), (f' n), (away g c n); cbn; auto; try (symmetry); intuition congruence.
  Qed.

  Lemma linked_hang l : (forall x, In x l -> x < N) -> hang_together nb l -> linked fnb l.
  Proof.
    intros B H x Hx. destruct (H x Hx) as [s [q [Hs Hq]]]. exists s, q. split; auto. clear H Hx Hs.
    induction Hq as [|a b q Hq IH [H1 [H2 H3]]]; [constructor|]. apply gp_step with a; auto. split; auto. split; auto.
    unfold linkf. apply (fnb_nb TR); auto. now apply adj_nth.
  Qed.

  (** C84: directions that follow the rule in every cell are the directions computed *)
  Theorem C84_ties_by_position : forall g : nat -> nat, (forall c, c < N -> follows g c) ->
    exists nb', run O fuel dist dem nb thr terminals = Ok (map (fun c => Z.of_nat (g c)) (seq 0 N), nb').
  Proof.
    intros g H. exists fnb. destruct (start_spec OL TR) as [s0 [E0 [L0 P0]]]. destruct (mins_spec OL TR) as [EM _].
    unfold run, flow_directions. rewrite EM. cbn [bind]. rewrite E0. cbn [bind]. rewrite (F0_ok OL TR). cbn [bind].
    change (fun c => match nth c dem None with Some _ => false | None => true end) with (nanb dem).
    assert (FX : forall c, c < N -> fixedc s0 c <-> start_cell O dem terminals c).
    { intros c Hc. unfold fixedc. destruct (P0 c Hc) as [[X Y]|[X [Y1 Y2]]].
      - split; auto. - split; [lia|]. intros [?|?]; tauto. }
    rewrite (@settled N fnb (nanb dem) (fnb_len TR) F0 (F0_regular OL TR) fuel s0) with (g := g); auto.
    - destruct (fuel_ok TR FU). lia.
    - intros c Hc. destruct (P0 c Hc) as [[? _]|[? _]]; auto.
    - intros c G. apply good_valid in G. destruct (tg_filter G) as [f [_ ->]]. apply NoDup_filter. apply ND.
      apply nth_In. rewrite (tr_rows TR). now apply val_lt.
    - intros c Hc F. apply FX in F; auto. destruct (H c Hc) as [[_ X]|[_ [X _]]]; auto. contradiction.
    - intros c Hc F. assert (NV : ~ is_valid dem c) by (intros V; apply valid_nan in V; congruence).
      destruct (H c Hc) as [[_ X]|[X _]]; auto. contradiction.
    - intros c G NF. assert (V : is_valid dem c) by now apply good_valid in G. assert (Hc := val_lt V).
      destruct (H c Hc) as [[[X|X] _]|[_ [_ [l [Hl R]]]]].
      + exfalso. destruct V as [z Hz]. unfold is_nan in X. congruence.
      + exfalso. apply NF. now apply FX.
      + apply (ordered_tg V) in Hl. subst l. destruct R as [R|[HL [k [Hk CH]]]]; [left; auto|right].
        split; auto. apply (ordered_away V) in Hk.
        assert (B : forall x, In x k -> x < N).
        { rewrite Hk. intros x Hx. apply filter_In in Hx. destruct (tg_good (F0_regular OL TR) G (proj1 Hx)). auto. }
        rewrite <- Hk. destruct CH as [C|[[e [C1 C2]]|[a [b [C1 C2]]]]]; [now left| |]; right; [left|right].
        * exists e. split; auto. now apply linked_hang.
        * exists a, b. split; auto. now apply linked_hang.
  Qed.

  (** ** C85: the marked sinks *)
  (** a set of cells without exit: no cell of it has a single steepest neighbour, and each
      steepest neighbour of a cell of it belongs to it or has that cell among its own
      steepest neighbours *)
  Definition trapped (K : list nat) : Prop := forall x, In x K -> is_valid dem x /\
    (forall n, steep x n -> exists n', n' <> n /\ steep x n') /\
    (forall n, steep x n -> In n K \/ steep n x).

  Variables (fdir : list Z) (nb' : list (list nat)).
  Hypothesis Hrun : run O fuel dist dem nb thr terminals = Ok (fdir, nb').

  (** C85: a cell is marked as a sink only if it lies in such a set *)
  Theorem C85_marked_cells_are_trapped : forall c, nth_error fdir c = Some (-2)%Z ->
    exists K, In c K /\ trapped K.
  Proof.
    intros c Hm. destruct (start_spec OL TR) as [s0 [E0 [L0 P0]]]. destruct (mins_spec OL TR) as [EM _].
    assert (E : calculate_flowcell fuel (nanb dem) fnb F0 s0 = Ok fdir).
    { unfold run, flow_directions in Hrun. rewrite EM in Hrun. cbn [bind] in Hrun. rewrite E0 in Hrun. cbn [bind] in Hrun.
      rewrite (F0_ok OL TR) in Hrun. cbn [bind] in Hrun.
      change (fun c => match nth c dem None with Some _ => false | None => true end) with (nanb dem) in Hrun.
      destruct (calculate_flowcell fuel (nanb dem) fnb F0 s0); cbn [bind] in Hrun; congruence. }
    destruct (@sinks_trapped N fnb (nanb dem) (fnb_len TR) F0 (F0_regular OL TR) (widest nb) fuel (fun c _ => F0_width OL TR c)
       (fuel_ok TR FU) (tr_size TR) s0 L0) with (fdir := fdir) (c := c) as [K [Hk TK]]; auto.
    - intros x Hx. destruct (P0 x Hx) as [[? _]|[? _]]; auto.
    - destruct (C61_always_computed OL TR FU) as [fd [nb1 [E1 [L1 _]]]]. rewrite Hrun in E1. inversion E1; subst.
      rewrite <- L1. apply nth_error_Some. congruence.
    - now apply (nth_error_nth _ _ 0%Z) in Hm.
    - exists K. split; auto. intros x Hx. destruct (TK x Hx) as [G [A B]].
      assert (V : is_valid dem x) by now apply good_valid in G. split; auto. split.
      + intros n Hn. assert (Hin := Hn). apply (tg_steep OL TR _ V) in Hin.
        apply (many_targets OL TR ND V); auto. destruct (tg fnb F0 x) as [|a [|b r]]; cbn in *; [destruct Hin|congruence|lia].
      + intros n Hn. assert (Vn := proj2 (steep_valid Hn)). apply (tg_steep OL TR _ V) in Hn. destruct (B n Hn) as [Y|Y]; auto.
        right. now apply (tg_steep OL TR _ Vn).
  Qed.

  (** C85, the same in terms of paths: a cell from which steepest moves, none of which could
      be taken back, lead to a cell with exactly one steepest neighbour is not marked *)
  Theorem C85_cells_with_an_exit_not_marked : forall c e n l,
    gpath (fun a b => steep a b /\ ~ steep b a) c e l ->
    steep e n -> (forall n', steep e n' -> n' = n) -> nth_error fdir c <> Some (-2)%Z.
  Proof.
    intros c e n l P S U Hm. destruct (C85_marked_cells_are_trapped Hm) as [K [Hk TK]].
    assert (Ie : In e K).
    { clear S U Hm. induction P as [|a b l P IH [P1 P2]]; auto. destruct (TK a IH) as [_ [_ X]]. destruct (X b P1); tauto. }
    destruct (TK e Ie) as [_ [X _]]. destruct (X n S) as [n' [H1 H2]]. apply H1. now apply U.
  Qed.
End Ties.

(** ** Cases *)
Module Ex.
  Import PropsDir.Ex.

  (** two lowest cells are refused, one is accepted *)
  Definition two := z [3; 1; 2; 1]%Z.
  Example C83_refused : check_elevations (o_lt Qops) (o_eq Qops) (o_big Qops) two = Err AssertionError.
  Proof.
    apply (@C83_one_outlet_check Q Qops (fun _ => True) two Qlaws); auto.
    - exists 1. eexists. split; [reflexivity|]. vm_compute. reflexivity.
    - exists 1, 3. split; [discriminate|].
      split; (exists (inject_Z 1); split; [reflexivity|]; intros c' z' H;
        do 4 (destruct c' as [|c']; [inversion H; vm_compute; reflexivity|]); destruct c'; discriminate).
  Qed.
  Example C83_accepted : check_elevations (o_lt Qops) (o_eq Qops) (o_big Qops) dem33 = Ok tt.
  Proof.
    apply (@C83_one_outlet_check Q Qops (fun _ => True) dem33 Qlaws); auto.
    - exists 8. eexists. split; [reflexivity|]. vm_compute. reflexivity.
    - exists 8. split; [now apply low33|]. intros b Hb. now apply low33 in Hb.
  Qed.

  (** a 3x3 grid: cell 0 has two steepest neighbours 3, 4; cell 1 has three, 3, 4, 5; cell 2
      has two, 4, 5 *)
  Definition demt := z [9; 9; 9; 5; 5; 5; 3; 2; 1]%Z.
  Example terraint : terrain_ok Qops (fun _ => True) thr one demt nb33 [].
  Proof. apply terrain_checked. vm_compute. reflexivity. Qed.
  Definition targetst : list (list nat) := Eval vm_compute in
    map (tg (pad_neighbors 9 nb33) (F0 Qops thr one demt nb33)) (seq 0 9).
  Lemma lowt c : lowest Qops demt c <-> c = 8.
  Proof. rewrite <- (proj1 (proj2 (mins_spec Qlaws terraint))).
    assert (E : mins Qops demt = [8]) by (vm_compute; reflexivity). rewrite E. cbn. intuition lia. Qed.
  Lemma validt x : x < 9 -> is_valid demt x.
  Proof. intros H. do 9 (destruct x as [|x]; [eexists; vm_compute; reflexivity|]). lia. Qed.
  Lemma steept x n : x < 9 -> steepest Qops thr one demt nb33 x n <-> In n (nth x targetst []).
  Proof.
    intros L. rewrite <- (tg_steep Qlaws terraint n (validt L)). change (length demt) with 9.
    do 9 (destruct x as [|x]; [vm_compute; tauto|]). lia.
  Qed.
  Definition gt (c : nat) : nat := nth c [3; 5; 4; 7; 8; 8; 7; 8; 8] 0.
  Lemma ordert x P l f : x < 9 -> (forall n, f n = true <-> P n) -> l = filter f (nth x nb33 []) -> in_row_order nb33 x P l.
  Proof. intros L H E. exists (nth x nb33 []), f. split; [apply nth_error_nth'; cbn; lia|]. split; auto. Qed.
  Lemma memt x n : x < 9 -> memn n (nth x targetst []) = true <-> steepest Qops thr one demt nb33 x n.
  Proof. intros L. rewrite steept by auto. apply memn_spec. Qed.
  Lemma hang2 a b : adjacent nb33 a b -> hang_together nb33 [a; b].
  Proof.
    intros A x [<-|[<-|[]]]; cbn.
    - exists a, [a]. split; auto. constructor.
    - exists a, [b; a]. split; auto. apply gp_step with a; [constructor|]. cbn. tauto.
  Qed.
  Lemma hang3 a b d : adjacent nb33 a b -> adjacent nb33 b d -> hang_together nb33 [a; b; d].
  Proof.
    intros A B x [<-|[<-|[<-|[]]]]; cbn.
    - exists a, [a]. split; auto. constructor.
    - exists a, [b; a]. split; auto. apply gp_step with a; [constructor|]. cbn. tauto.
    - exists a, [d; b; a]. split; auto. apply gp_step with b; [apply gp_step with a; [constructor|]|]; cbn; tauto.
  Qed.
  Lemma followst c : c < 9 -> follows Qops thr one demt nb33 [] gt c.
  Proof.
    intros L. destruct (Nat.eq_dec c 8) as [->|N8]; [left; split; [right; left; now apply lowt|reflexivity]|].
    right. split; [now apply validt|]. split; [intros [H|[]]; apply lowt in H; congruence|].
    exists (nth c targetst []).
    split. { apply ordert with (f := fun n => memn n (nth c targetst [])); auto; [intros n; now apply memt|].
             do 9 (destruct c as [|c]; [vm_compute; reflexivity|]). lia. }
    assert (K : c < 3 -> in_row_order nb33 c (fun n => steepest Qops thr one demt nb33 c n /\ ~ (n < c /\ gt n = c)) (nth c targetst [])).
    { intros L3. apply ordert with (f := fun n => memn n (nth c targetst []) && negb ((n <? c) && (gt n =? c))); auto.
      - intros n. rewrite andb_true_iff, memt by auto. rewrite negb_true_iff, andb_false_iff, Nat.ltb_ge, Nat.eqb_neq. intuition lia.
      - do 3 (destruct c as [|c]; [vm_compute; reflexivity|]). lia. }
    destruct (Nat.lt_ge_cases c 3) as [L3|L3].
    - right. specialize (K L3). destruct c as [|[|[|c]]]; [| | |lia].
      + split; [vm_compute; lia|]. exists [3; 4]. split; [exact K|]. right. left. exists 4. split; auto. apply hang2. apply adj_nth. cbn. tauto.
      + split; [vm_compute; lia|]. exists [3; 4; 5]. split; [exact K|]. right. right. exists 3, 4. split; auto.
        apply hang3; apply adj_nth; cbn; tauto.
      + split; [vm_compute; lia|]. exists [4; 5]. split; [exact K|]. right. left. exists 5. split; auto. apply hang2. apply adj_nth. cbn. tauto.
    - left. clear K. do 3 (destruct c as [|c]; [lia|]). do 5 (destruct c as [|c]; [reflexivity|]). lia.
  Qed.
  (** the first of two, the last of three *)
  Example C84_case : exists nb', run Qops 103 one demt nb33 thr [] = Ok ([3; 5; 4; 7; 8; 8; 7; 8; 8]%Z, nb').
  Proof. exact (C84_ties_by_position Qlaws terraint steps33 nodup33 followst). Qed.

  (** a flat of six cells behind a wall is marked *)
  Definition dem25 := z [5; 5; 5; 9; 0; 5; 5; 5; 9; 1]%Z.
  Example terrain25 : terrain_ok Qops (fun _ => True) thr one dem25 (queen 2 5) [].
  Proof. apply terrain_checked. vm_compute. reflexivity. Qed.
  Example C85_marked : exists nb', run Qops 103 one dem25 (queen 2 5) thr [] = Ok ([-2; -2; -2; 4; 4; -2; -2; -2; 4; 4]%Z, nb').
  Proof. eexists. vm_compute. reflexivity. Qed.
  Example C85_case : exists K, In 0 K /\ trapped Qops thr one dem25 (queen 2 5) K.
  Proof.
    destruct C85_marked as [nb' E].
    refine (C85_marked_cells_are_trapped Qlaws terrain25 _ _ E (c := 0) eq_refl).
    - exists 5. split; [|vm_compute; lia]. intros l Hl. vm_compute in Hl. repeat destruct Hl as [<-|Hl]; cbn; try lia; try destruct Hl.
    - apply rows_nodup. vm_compute. reflexivity.
  Qed.
  (** cell 1 of the first grid has an exit: it may flow to cell 4, which has the one steepest
      neighbour 8 *)
  Example C85_exit : forall fdir nb', run Qops 103 one demt nb33 thr [] = Ok (fdir, nb') -> nth_error fdir 1 <> Some (-2)%Z.
  Proof.
    intros fdir nb' E.
    apply (C85_cells_with_an_exit_not_marked Qlaws terraint steps33 nodup33 E (e := 4) (n := 8) (l := [4; 1])).
    - apply gp_step with 1; [constructor|]. rewrite !steept by lia. split; [vm_compute; tauto|]. vm_compute. intuition lia.
    - apply steept; [lia|vm_compute; tauto].
    - intros n' H. apply steept in H; [|lia]. vm_compute in H. intuition lia.
  Qed.
End Ex.
