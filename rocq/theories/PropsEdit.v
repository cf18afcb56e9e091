(** C113: changing the flow direction of some cells changes accumulation and watersheds only
    downstream of those cells; re-routing one cell moves exactly the water that it carries. *)
From Verif Require Import Py Spec MFlow LGraph LAcc LAcc2 LWs PropsAcc PropsBasin.
Set Implicit Arguments.
Unset Strict Implicit.
Local Open Scope nat_scope.
Local Open Scope list_scope.

(** the two arrays send cell [e] to different cells *)
Definition rerouted (fdir fdir' : list Z) (e : nat) : Prop := nth_error fdir e <> nth_error fdir' e.

Lemma same_down fdir fdir' c : ~ rerouted fdir fdir' c -> down fdir c = down fdir' c.
Proof.
  unfold rerouted, down. intros H. destruct (nth_error fdir c) as [a|] eqn:E1, (nth_error fdir' c) as [b|] eqn:E2.
  - destruct (Z.eq_dec a b) as [->|N]; [|exfalso; apply H; congruence].
    now rewrite (nth_error_nth fdir c 0%Z E1), (nth_error_nth fdir' c 0%Z E2).
  - exfalso. apply H. congruence.
  - exfalso. apply H. congruence.
  - apply nth_error_None in E1, E2. now rewrite !nth_overflow.
Qed.

Lemma rerouted_dec fdir fdir' c : {rerouted fdir fdir' c} + {~ rerouted fdir fdir' c}.
Proof.
  unfold rerouted. destruct (nth_error fdir c) as [a|], (nth_error fdir' c) as [b|]; try (left; congruence); [|right; congruence].
  destruct (Z.eq_dec a b) as [->|N]; [right|left]; congruence.
Qed.

(** a path to [n] that no re-routed cell joins stays as it was *)
Lemma ft_kept fdir fdir' n c :
  (forall e, rerouted fdir fdir' e -> e <> n -> ~ flows_through fdir e n) ->
  flows_through fdir c n -> flows_through fdir' c n.
Proof.
  intros H [k E]. revert c E. induction k as [|k IH]; intros c E; [now exists 0|].
  destruct (Nat.eq_dec c n) as [->|NE]; [now exists 0|].
  destruct (rerouted_dec fdir fdir' c) as [R|R].
  - exfalso. apply (H c R NE). now exists (S k).
  - cbn in E. destruct (IH _ E) as [j Ej]. exists (S j). cbn. now rewrite <- (same_down R).
Qed.

Lemma rerouted_sym fdir fdir' e : rerouted fdir fdir' e <-> rerouted fdir' fdir e.
Proof. unfold rerouted. intuition congruence. Qed.

(** no re-routed cell other than [n] drains to [n], before or after the change *)
Definition untouched (fdir fdir' : list Z) (n : nat) : Prop :=
  forall e, rerouted fdir fdir' e -> e <> n -> ~ flows_through fdir e n /\ ~ flows_through fdir' e n.

Lemma untouched_ft fdir fdir' n c : untouched fdir fdir' n ->
  (flows_through fdir c n <-> flows_through fdir' c n).
Proof.
  intros U. split; apply ft_kept; intros e R NE.
  - apply (U e R NE).
  - apply rerouted_sym in R. apply (U e R NE).
Qed.

Lemma sum_over_det {W} (wadd : W -> W -> W) wzero w (P Q : nat -> Prop) n a b :
  (forall c, c < n -> (P c <-> Q c)) ->
  sum_over wadd wzero w P n a -> sum_over wadd wzero w Q n b -> a = b.
Proof.
  revert a b. induction n as [|n IH]; intros a b H Ha Hb.
  - inversion Ha; inversion Hb; congruence.
  - assert (X := H n (Nat.lt_succ_diag_r n)).
    inversion Ha; subst; inversion Hb; subst; try tauto; [f_equal|]; eapply IH; eauto.
Qed.

Lemma sum_over_union {W} (wadd : W -> W -> W) wzero w (P Q R : nat -> Prop) n a b s :
  exact_sum wadd wzero ->
  (forall c, c < n -> (P c <-> Q c \/ R c)) -> (forall c, c < n -> Q c -> R c -> False) ->
  sum_over wadd wzero w P n s -> sum_over wadd wzero w Q n a -> sum_over wadd wzero w R n b -> s = wadd a b.
Proof.
  intros [C1 [C2 C3]]. revert a b s. induction n as [|n IH]; intros a b s H D Hs Ha Hb.
  - inversion Hs; inversion Ha; inversion Hb; subst. now rewrite C3.
  - assert (X := H n (Nat.lt_succ_diag_r n)). assert (Y := D n (Nat.lt_succ_diag_r n)).
    assert (IH' : forall a b s, sum_over wadd wzero w P n s -> sum_over wadd wzero w Q n a -> sum_over wadd wzero w R n b -> s = wadd a b)
      by (intros; eapply IH; eauto).
    inversion Hs as [|n0 s0 S0 P0|n0 s0 S0 P0]; subst; inversion Ha as [|n1 s1 S1 P1|n1 s1 S1 P1]; subst;
      inversion Hb as [|n2 s2 S2 P2|n2 s2 S2 P2]; subst; try tauto.
    + rewrite (IH' _ _ _ S0 S1 S2). rewrite <- !C2. f_equal. apply C1.
    + rewrite (IH' _ _ _ S0 S1 S2). now rewrite <- !C2.
    + apply (IH' _ _ _ S0 S1 S2).
Qed.

(** the number of cells accumulated at [n], as a sum *)
Lemma cells_sum (W : Type) (wadd : W -> W -> W) (wzero : W) (fdir : list Z) (area : list W) fuel cells n :
  valid_fdir fdir -> length area = length fdir -> S (length fdir) <= fuel ->
  flow_accumulation_cells wadd wzero fuel fdir area = Ok cells -> n < length fdir -> ~ on_cycle fdir n ->
  sum_over Z.add 0%Z (fun _ => 1%Z) (fun c => flows_through fdir c n) (length fdir) (nth n cells 0%Z).
Proof.
  intros V La Hf E Hn Hc. destruct (@C19_accumulated_cells _ wadd wzero fdir area fuel cells V La Hf E n Hn Hc) as [l [[ND U] N]].
  rewrite (nth_error_nth cells n 0%Z N). rewrite <- wsum_ones. apply wsum_sum_over; try (intros; lia); auto.
Qed.

Lemma areas_sum (W : Type) (wadd : W -> W -> W) (wzero : W) (fdir : list Z) (area : list W) fuel areas n :
  exact_sum wadd wzero -> valid_fdir fdir -> length area = length fdir -> S (length fdir) <= fuel ->
  flow_accumulation_area wadd wzero fuel fdir area = Ok areas -> n < length fdir -> ~ on_cycle fdir n ->
  sum_over wadd wzero (fun c => nth c area wzero) (fun c => flows_through fdir c n) (length fdir) (nth n areas wzero).
Proof.
  intros X V La Hf E Hn Hc. destruct (@C20_accumulated_area _ wadd wzero fdir area fuel areas X V La Hf E n Hn Hc) as [s [N S]].
  now rewrite (nth_error_nth areas n wzero N).
Qed.

Lemma untouched_cycle fdir fdir' n : n < length fdir -> untouched fdir fdir' n -> ~ rerouted fdir fdir' n ->
  (on_cycle fdir n <-> on_cycle fdir' n).
Proof.
  intros Hn U R. assert (D := same_down R).
  split; intros [N [[|k] [Hk E]]]; try lia; (split; [congruence|]); cbn in E.
  - assert (F : flows_through fdir' (down fdir n) n) by (apply (untouched_ft _ U); now exists k).
    destruct F as [j Ej]. exists (S j). split; [lia|]. cbn. now rewrite <- D.
  - assert (F : flows_through fdir (down fdir' n) n) by (apply (untouched_ft _ U); now exists k).
    destruct F as [j Ej]. exists (S j). split; [lia|]. cbn. now rewrite D.
Qed.

(** ** C113: cells that no re-routed cell drains to keep their values *)
Theorem C113_watershed_untouched :
  forall fdir fdir' n fuel,
    valid_fdir fdir -> valid_fdir fdir' -> length fdir' = length fdir -> n < length fdir -> length fdir <= fuel ->
    untouched fdir fdir' n ->
    get_watershed_boundary fuel fdir' (Z.of_nat n) None = get_watershed_boundary fuel fdir (Z.of_nat n) None.
Proof.
  intros fdir fdir' n fuel V V' L Hn Hf U.
  destruct (C24_watershed_is_upstream V Hn Hf) as [o [E [Lo H]]].
  destruct (@C24_watershed_is_upstream fdir' n fuel V') as [o' [E' [Lo' H']]]; try lia.
  rewrite E, E'. f_equal. apply nth_error_ext. intros c. destruct (le_lt_dec (length fdir) c) as [G|G].
  - rewrite !(proj2 (nth_error_None _ _)); auto; lia.
  - assert (X := untouched_ft c U). destruct (H c G) as [A B]. destruct (H' c) as [A' B']; [lia|].
    destruct (flows_dec V n G) as [F|F].
    + rewrite A, A'; tauto.
    + rewrite B, B'; tauto.
Qed.

Theorem C113_accumulation_untouched :
  forall (W : Type) (wadd : W -> W -> W) (wzero : W) (fdir fdir' : list Z) (area : list W) fuel cells cells' areas areas' n,
    exact_sum wadd wzero ->
    valid_fdir fdir -> valid_fdir fdir' -> length fdir' = length fdir -> length area = length fdir ->
    S (length fdir) <= fuel -> n < length fdir ->
    flow_accumulation_cells wadd wzero fuel fdir area = Ok cells ->
    flow_accumulation_cells wadd wzero fuel fdir' area = Ok cells' ->
    flow_accumulation_area wadd wzero fuel fdir area = Ok areas ->
    flow_accumulation_area wadd wzero fuel fdir' area = Ok areas' ->
    ~ on_cycle fdir n -> ~ on_cycle fdir' n -> untouched fdir fdir' n ->
    nth_error cells' n = nth_error cells n /\ nth_error areas' n = nth_error areas n.
Proof.
  intros W wadd wzero fdir fdir' area fuel cells cells' areas areas' n X V V' L La Hf Hn Ec Ec' Ea Ea' Hc Hc' U.
  assert (Hf' : S (length fdir') <= fuel) by lia. assert (Hn' : n < length fdir') by lia. assert (La' : length area = length fdir') by lia.
  assert (EX := fun c => untouched_ft c U). split.
  - destruct (@C19_accumulated_cells _ wadd wzero _ _ _ _ V La Hf Ec n Hn Hc) as [l [_ Nl]].
    destruct (@C19_accumulated_cells _ wadd wzero _ _ _ _ V' La' Hf' Ec' n Hn' Hc') as [l' [_ Nl']].
    assert (S1 := cells_sum V La Hf Ec Hn Hc). assert (S2 := cells_sum V' La' Hf' Ec' Hn' Hc').
    rewrite (nth_error_nth _ _ 0%Z Nl) in S1. rewrite (nth_error_nth _ _ 0%Z Nl') in S2. rewrite Nl, Nl'. f_equal.
    rewrite L in S2. eapply sum_over_det; [|exact S2|exact S1]. intros c _. symmetry. apply EX.
  - destruct (@C20_accumulated_area _ wadd wzero _ _ _ _ X V La Hf Ea n Hn Hc) as [s [Ns Ss]].
    destruct (@C20_accumulated_area _ wadd wzero _ _ _ _ X V' La' Hf' Ea' n Hn' Hc') as [s' [Ns' Ss']].
    rewrite Ns, Ns'. f_equal. rewrite L in Ss'. eapply sum_over_det; [|exact Ss'|exact Ss]. intros c _. symmetry. apply EX.
Qed.

(** ** one re-routed cell *)
Section One.
  Variables (fdir fdir' : list Z) (e : nat).
  Hypothesis (V : valid_fdir fdir) (V' : valid_fdir fdir') (L : length fdir' = length fdir).
  Hypothesis only : forall c, c <> e -> nth_error fdir' c = nth_error fdir c.

  Lemma only_e c : rerouted fdir fdir' c -> c = e.
  Proof. intros R. destruct (Nat.eq_dec c e) as [|N]; auto. exfalso. apply R. symmetry. now apply only. Qed.

  Lemma up_e_same c : flows_through fdir c e <-> flows_through fdir' c e.
  Proof. apply untouched_ft. intros x R N. now apply only_e in R. Qed.

  (** off the upstream cells of [e] nothing changes *)
  Lemma off_e c n : ~ flows_through fdir c e -> (flows_through fdir c n <-> flows_through fdir' c n).
  Proof.
    intros H. split; intros [k E]; revert c H E; induction k as [|k IH]; intros c H E; try (now exists 0).
    - assert (N : c <> e) by (intros ->; apply H; now exists 0). cbn in E.
      assert (D : down fdir c = down fdir' c) by (apply same_down; intros R; now apply only_e in R).
      destruct (IH (down fdir c)) as [j Ej]; auto.
      { intros [j Ej]. apply H. now exists (S j). }
      exists (S j). cbn. now rewrite <- D.
    - assert (N : c <> e) by (intros ->; apply H; now exists 0). cbn in E.
      assert (D : down fdir c = down fdir' c) by (apply same_down; intros R; now apply only_e in R).
      rewrite <- D in E. destruct (IH (down fdir c)) as [j Ej]; auto.
      { intros [j Ej]. apply H. now exists (S j). }
      exists (S j). exact Ej.
  Qed.
End One.

Section Half.
  Variables (fdir fdir' : list Z) (e n : nat).
  Hypothesis (V : valid_fdir fdir) (V' : valid_fdir fdir') (L : length fdir' = length fdir).
  Hypothesis only : forall c, c <> e -> nth_error fdir' c = nth_error fdir c.
  Hypothesis (NE : n <> e) (He : e < length fdir) (C : ~ on_cycle fdir n).
  Hypothesis F : flows_through fdir e n.

  Lemma not_up : ~ flows_through fdir n e.
  Proof using NE C F.
    clear -NE C F.
    intros [k Ek]. destruct F as [j Ej]. apply C. split.
    - intros T. apply NE. rewrite <- Ek. clear -T. induction k; cbn; auto. now rewrite T.
    - exists (k + j). split.
      + destruct k; [cbn in Ek; congruence|lia].
      + now rewrite downs_add, Ek.
  Qed.

  Lemma half_split c : c < length fdir -> ~ flows_through fdir' e n ->
    (flows_through fdir c n <-> flows_through fdir' c n \/ flows_through fdir c e) /\
    (flows_through fdir' c n -> flows_through fdir c e -> False).
  Proof using V only NE C F.
    intros Hc NF. assert (D : flows_through fdir' c n -> flows_through fdir c e -> False).
    { intros A B. apply (up_e_same only) in B. destruct (flows_fork A B) as [X|X]; auto.
      apply (up_e_same only) in X. exact (not_up X). }
    split; auto. destruct (flows_dec V e Hc) as [B|B].
    - split; auto. intros _. eapply flows_trans; eauto.
    - assert (X := off_e only n B). tauto.
  Qed.

  Lemma both_same c : c < length fdir -> flows_through fdir' e n -> (flows_through fdir c n <-> flows_through fdir' c n).
  Proof.
    intros Hc F'. destruct (flows_dec V e Hc) as [B|B]; [|now apply (off_e only)].
    split; intros _; eapply flows_trans; eauto. now apply (up_e_same only).
  Qed.
End Half.

Lemma neither_same fdir fdir' e n c :
  (forall c, c <> e -> nth_error fdir' c = nth_error fdir c) ->
  ~ flows_through fdir e n -> ~ flows_through fdir' e n -> (flows_through fdir c n <-> flows_through fdir' c n).
Proof.
  intros only A B. apply untouched_ft. intros x R _. apply (only_e only) in R. subst x. auto.
Qed.

(** ** C113: re-routing cell [e] moves exactly what is accumulated at [e] *)
Section Move.
  Variables (W : Type) (wadd : W -> W -> W) (wzero : W) (w : nat -> W).
  Variables (fdir fdir' : list Z) (e n : nat) (se sn sn' : W).
  Hypothesis X : exact_sum wadd wzero.
  Hypothesis (V : valid_fdir fdir) (V' : valid_fdir fdir') (L : length fdir' = length fdir).
  Hypothesis only : forall c, c <> e -> nth_error fdir' c = nth_error fdir c.
  Hypothesis (NE : n <> e) (He : e < length fdir) (Hn : n < length fdir) (C : ~ on_cycle fdir n) (C' : ~ on_cycle fdir' n).
  Hypothesis (Se : sum_over wadd wzero w (fun c => flows_through fdir c e) (length fdir) se).
  Hypothesis (Sn : sum_over wadd wzero w (fun c => flows_through fdir c n) (length fdir) sn).
  Hypothesis (Sn' : sum_over wadd wzero w (fun c => flows_through fdir' c n) (length fdir) sn').

  Lemma move_sum :
    (flows_through fdir e n -> flows_through fdir' e n -> sn' = sn) /\
    (~ flows_through fdir e n -> ~ flows_through fdir' e n -> sn' = sn) /\
    (flows_through fdir e n -> ~ flows_through fdir' e n -> sn = wadd sn' se) /\
    (~ flows_through fdir e n -> flows_through fdir' e n -> sn' = wadd sn se).
  Proof using X V V' L only NE C C' Se Sn Sn'.
    clear He Hn. repeat apply conj; intros A B.
    - eapply sum_over_det; [|exact Sn'|exact Sn]. intros c Hc. symmetry. now apply (both_same V only).
    - eapply sum_over_det; [|exact Sn'|exact Sn]. intros c Hc. symmetry. now apply (neither_same (e := e) c only).
    - eapply sum_over_union; [exact X| | |exact Sn|exact Sn'|exact Se]; intros c Hc; now apply (half_split V only NE C A).
    - assert (only' : forall c, c <> e -> nth_error fdir c = nth_error fdir' c) by (intros; symmetry; auto).
      assert (H : forall c, c < length fdir -> (flows_through fdir' c n <-> flows_through fdir c n \/ flows_through fdir c e) /\
         (flows_through fdir c n -> flows_through fdir c e -> False)).
      { intros c Hc. rewrite (up_e_same only c). apply (half_split V' only' NE C' B); auto. lia. }
      eapply sum_over_union; [exact X| | |exact Sn'|exact Sn|exact Se]; intros c Hc; now apply H.
  Qed.
End Move.

Theorem C113_reroute_cells :
  forall (W : Type) (wadd : W -> W -> W) (wzero : W) (fdir fdir' : list Z) (area : list W) fuel cells cells' e n,
    valid_fdir fdir -> valid_fdir fdir' -> length fdir' = length fdir -> length area = length fdir ->
    S (length fdir) <= fuel -> e < length fdir -> n < length fdir -> n <> e ->
    (forall c, c <> e -> nth_error fdir' c = nth_error fdir c) ->
    flow_accumulation_cells wadd wzero fuel fdir area = Ok cells ->
    flow_accumulation_cells wadd wzero fuel fdir' area = Ok cells' ->
    ~ on_cycle fdir e -> ~ on_cycle fdir n -> ~ on_cycle fdir' n ->
    let before := nth n cells 0%Z in let after := nth n cells' 0%Z in let carried := nth e cells 0%Z in
    (flows_through fdir e n -> flows_through fdir' e n -> after = before) /\
    (~ flows_through fdir e n -> ~ flows_through fdir' e n -> after = before) /\
    (flows_through fdir e n -> ~ flows_through fdir' e n -> after = before - carried)%Z /\
    (~ flows_through fdir e n -> flows_through fdir' e n -> after = before + carried)%Z.
Proof.
  intros W wadd wzero fdir fdir' area fuel cells cells' e n V V' L La Hf He Hn NE only Ec Ec' Ce Cn Cn' before after carried.
  assert (S0 := cells_sum V La Hf Ec He Ce). assert (S1 := cells_sum V La Hf Ec Hn Cn).
  assert (S2 : sum_over Z.add 0%Z (fun _ => 1%Z) (fun c => flows_through fdir' c n) (length fdir') (nth n cells' 0%Z))
    by (eapply cells_sum; try exact Ec'; auto; lia).
  rewrite L in S2. assert (X : exact_sum Z.add 0%Z) by (repeat split; intros; lia).
  destruct (move_sum X V V' L only NE Cn Cn' S0 S1 S2) as [A [B [C D]]].
  fold before in A, B, C, D. fold after in A, B, C, D. fold carried in C, D.
  repeat split; auto. intros P Q. specialize (C P Q). lia.
Qed.

Theorem C113_reroute_area :
  forall (W : Type) (wadd : W -> W -> W) (wzero : W) (fdir fdir' : list Z) (area : list W) fuel areas areas' e n,
    exact_sum wadd wzero ->
    valid_fdir fdir -> valid_fdir fdir' -> length fdir' = length fdir -> length area = length fdir ->
    S (length fdir) <= fuel -> e < length fdir -> n < length fdir -> n <> e ->
    (forall c, c <> e -> nth_error fdir' c = nth_error fdir c) ->
    flow_accumulation_area wadd wzero fuel fdir area = Ok areas ->
    flow_accumulation_area wadd wzero fuel fdir' area = Ok areas' ->
    ~ on_cycle fdir e -> ~ on_cycle fdir n -> ~ on_cycle fdir' n ->
    let before := nth n areas wzero in let after := nth n areas' wzero in let carried := nth e areas wzero in
    (flows_through fdir e n -> flows_through fdir' e n -> after = before) /\
    (~ flows_through fdir e n -> ~ flows_through fdir' e n -> after = before) /\
    (flows_through fdir e n -> ~ flows_through fdir' e n -> before = wadd after carried) /\
    (~ flows_through fdir e n -> flows_through fdir' e n -> after = wadd before carried).
Proof.
  intros W wadd wzero fdir fdir' area fuel areas areas' e n X V V' L La Hf He Hn NE only Ec Ec' Ce Cn Cn'.
  assert (S0 := areas_sum X V La Hf Ec He Ce). assert (S1 := areas_sum X V La Hf Ec Hn Cn).
  assert (S2 : sum_over wadd wzero (fun c => nth c area wzero) (fun c => flows_through fdir' c n) (length fdir') (nth n areas' wzero))
    by (eapply areas_sum; try exact Ec'; auto; lia).
  rewrite L in S2. exact (move_sum X V V' L only NE Cn Cn' S0 S1 S2).
Qed.

(** the watershed of a cell below [e] loses, or gains, exactly the watershed of [e] *)
Theorem C113_reroute_watershed :
  forall fdir fdir' e n fuel shed shed' shed_e,
    valid_fdir fdir -> valid_fdir fdir' -> length fdir' = length fdir ->
    length fdir <= fuel -> e < length fdir -> n < length fdir -> n <> e ->
    (forall c, c <> e -> nth_error fdir' c = nth_error fdir c) ->
    ~ on_cycle fdir n -> ~ on_cycle fdir' n ->
    get_watershed_boundary fuel fdir (Z.of_nat n) None = Ok shed ->
    get_watershed_boundary fuel fdir' (Z.of_nat n) None = Ok shed' ->
    get_watershed_boundary fuel fdir (Z.of_nat e) None = Ok shed_e ->
    let inside s c := nth_error s c = Some 1%Z in
    (inside shed e -> inside shed' e -> shed' = shed) /\
    (~ inside shed e -> ~ inside shed' e -> shed' = shed) /\
    (inside shed e -> ~ inside shed' e -> forall c, inside shed' c <-> inside shed c /\ ~ inside shed_e c) /\
    (~ inside shed e -> inside shed' e -> forall c, inside shed' c <-> inside shed c \/ inside shed_e c).
Proof.
  intros fdir fdir' e n fuel shed shed' shed_e V V' L Hf He Hn NE only Cn Cn' E1 E2 E3 inside.
  assert (G : forall fd m s, valid_fdir fd -> length fd <= fuel -> m < length fd -> get_watershed_boundary fuel fd (Z.of_nat m) None = Ok s ->
    length s = length fd /\
    (forall c, c < length fd -> nth_error s c = Some 1%Z \/ nth_error s c = Some 0%Z) /\
    forall c, inside s c <-> c < length fd /\ flows_through fd c m).
  { intros fd m s Vd Hd Hm Em. destruct (@C24_watershed_is_upstream fd m fuel Vd Hm Hd) as [o [E [Lo H]]].
    rewrite Em in E. injection E as <-. split; auto. split.
    - intros c Hc. destruct (flows_dec Vd m Hc) as [F|F]; apply H in F; auto.
    - intros c. unfold inside. split.
      + intros Y. assert (Lc : c < length fd) by (rewrite <- Lo; apply nth_error_Some; congruence). split; auto.
        destruct (flows_dec Vd m Lc) as [Fc|Fc]; auto. apply H in Fc; auto. congruence.
      + intros [Lc Fc]. now apply H. }
  destruct (G _ _ _ V Hf Hn E1) as [L1 [B1 G1]]. destruct (G _ _ _ V Hf He E3) as [L3 [B3 G3]].
  destruct (G fdir' n shed') as [L2 [B2 G2]]; auto; try lia. rewrite L in B2, L2.
  assert (G2' : forall c, inside shed' c <-> c < length fdir /\ flows_through fdir' c n) by (intros c; rewrite G2, L; reflexivity).
  assert (EQ : (forall c, c < length fdir -> (flows_through fdir c n <-> flows_through fdir' c n)) -> shed' = shed).
  { intros H. apply nth_error_ext. intros c. destruct (le_lt_dec (length fdir) c) as [K|K].
    - rewrite !(proj2 (nth_error_None _ _)); auto; lia.
    - assert (I : inside shed' c <-> inside shed c) by (rewrite G1, G2'; specialize (H c K); tauto).
      unfold inside in I. destruct (B1 c K) as [Y|Y], (B2 c K) as [Z|Z]; rewrite Y, Z in *; auto.
      + now apply I.
      + symmetry. now apply I. }
  assert (ft : inside shed e <-> flows_through fdir e n) by (rewrite G1; tauto).
  assert (ft' : inside shed' e <-> flows_through fdir' e n) by (rewrite G2'; tauto).
  rewrite ft, ft'. repeat apply conj; intros A B.
  - apply EQ. intros c Hc. now apply (both_same V only).
  - apply EQ. intros c Hc. now apply (neither_same (e := e) c only).
  - intros c. rewrite G1, G2', G3. split.
    + intros [Hc F]. destruct (half_split V only NE Cn A Hc B) as [P Q]. split; [tauto|]. intros [_ R]. auto.
    + intros [[Hc F] R]. destruct (half_split V only NE Cn A Hc B) as [P Q]. tauto.
  - assert (only' : forall c, c <> e -> nth_error fdir c = nth_error fdir' c) by (intros; symmetry; auto).
    intros c. rewrite G1, G2', G3.
    assert (K : c < length fdir -> (flows_through fdir' c n <-> flows_through fdir c n \/ flows_through fdir c e)).
    { intros Hc. rewrite (up_e_same only c). apply (half_split V' only' NE Cn' B); auto. lia. }
    tauto.
Qed.

(** cell [e] itself and everything upstream of it keep their values: [untouched] holds there *)
Theorem C113_upstream_untouched :
  forall fdir fdir' e n,
    (forall c, c <> e -> nth_error fdir' c = nth_error fdir c) ->
    acyclic fdir -> acyclic fdir' -> valid_fdir fdir -> valid_fdir fdir' -> length fdir' = length fdir -> n < length fdir ->
    flows_through fdir n e -> untouched fdir fdir' n.
Proof.
  intros fdir fdir' e n only A A' V V' L Hn F x R NE. apply (only_e only) in R. subst x.
  assert (F' : flows_through fdir' n e) by (now apply (up_e_same only)). split; intros Y.
  - apply (@not_up fdir e n); auto.
  - apply (@not_up fdir' e n); auto. apply A'. lia.
Qed.

(** ** a concrete case: cell 1 is sent to 0 instead of 3 *)
Example C113_ex :
  let fdir := [4; 3; 1; 4; 4]%Z in let fdir' := [4; 0; 1; 4; 4]%Z in
  flow_accumulation_cells Z.add 0%Z 20 fdir [1; 1; 1; 1; 1]%Z = Ok [1; 2; 1; 3; 5]%Z /\
  flow_accumulation_cells Z.add 0%Z 20 fdir' [1; 1; 1; 1; 1]%Z = Ok [3; 2; 1; 1; 5]%Z /\
  get_watershed_boundary 20 fdir 3 None = Ok [0; 1; 1; 1; 0]%Z /\
  get_watershed_boundary 20 fdir' 3 None = Ok [0; 0; 0; 1; 0]%Z /\
  untouched fdir fdir' 2 /\ valid_fdir fdir' /\ ~ on_cycle fdir' 0 /\ flows_through fdir' 1 0 /\ ~ flows_through fdir 1 0.
Proof.
  cbv zeta. do 4 (split; [vm_compute; reflexivity|]). split; [|split; [|split; [|split]]].
  - intros e R _. unfold rerouted in R. destruct e as [|[|[|[|[|e]]]]]; cbn in R; try congruence.
    split; intros [k E]; revert E; destruct k as [|[|[|k]]]; try discriminate; cbn.
    + assert (Q : forall j, downs [4; 3; 1; 4; 4]%Z j 4 = 4) by (induction j; auto). now rewrite Q.
    + assert (Q : forall j, downs [4; 0; 1; 4; 4]%Z j 4 = 4) by (induction j; auto). now rewrite Q.
  - repeat constructor; cbn; lia.
  - intros [_ [k [Hk E]]]. destruct k as [|k]; [lia|]. cbn in E.
    assert (Q : forall j, downs [4; 0; 1; 4; 4]%Z j 4 = 4) by (induction j; auto). now rewrite Q in E.
  - now exists 1.
  - intros [k E]; revert E; destruct k as [|[|k]]; try discriminate; cbn.
    assert (Q : forall j, downs [4; 3; 1; 4; 4]%Z j 4 = 4) by (induction j; auto). now rewrite Q.
Qed.
