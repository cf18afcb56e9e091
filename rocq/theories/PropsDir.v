(** Properties C59-C66: flow directions. *)
From Coq Require Import QArith String.
From Verif Require Import Py Spec MFlow MDir MFill Grids LRat LGraph LDir LDir2 LDir3 LDir4 PropsFill.
Set Implicit Arguments.
Unset Strict Implicit.
Local Open Scope nat_scope.
Local Open Scope list_scope.
Local Notation length := List.length.

(** one call of flow_directions with the operations [O] *)
Definition run {T} (O : slope_ops T) := flow_directions (o_sub O) (o_div O) (o_lt O) (o_eq O) (o_zero O) (o_big O).

Section General.
  Context {T : Type} (O : slope_ops T) (ok : T -> Prop).
  Hypothesis OL : order_laws O ok.
  Variables (thr : T) (dist : nat -> nat -> T) (dem : list (option T)) (nb : list (list nat)) (terminals : list Z).
  Hypothesis TR : terrain_ok O ok thr dist dem nb terminals.
  Variable fuel : nat.
  Hypothesis FU : enough_steps nb fuel.
  Notation N := (length dem).

  (** C61: flow directions are computed, and no cell is left unresolved *)
  Theorem C61_always_computed :
    exists fdir nb', run O fuel dist dem nb thr terminals = Ok (fdir, nb') /\ length fdir = N /\
      forall c d, nth_error fdir c = Some d -> d = (-2)%Z \/ (0 <= d < Z.of_nat N)%Z.
  Proof.
    destruct (call_spec OL TR FU) as [fdir [s0 [fcells [E [L0 [P0 I]]]]]].
    exists fdir, (pad_neighbors N nb). split; [exact E|]. assert (L := l_len I). cbn [fst] in L. split; auto.
    intros c d Hd. assert (Hc : c < N) by (rewrite <- L; apply nth_error_Some; congruence).
    apply (nth_error_nth _ _ 0%Z) in Hd. subst d.
    assert (D : nth c fdir 0%Z <> (-1)%Z) by (apply (l_done I); apply in_seq; lia).
    destruct (l_val I Hc) as [X|[[X _]|[[X _]|[G [t [Ht X]]]]]]; cbn [fst] in X; auto; [congruence|right; lia|].
    right. rewrite X. destruct (tg_good (F0_regular OL TR) G Ht). lia.
  Qed.

  Variables (fdir : list Z) (nb' : list (list nat)).
  Hypothesis Hrun : run O fuel dist dem nb thr terminals = Ok (fdir, nb').

  Lemma unpack : exists s0 fcells, length s0 = N /\
    (forall c, c < N -> (nth c s0 0%Z = Z.of_nat c /\ (lowest O dem c \/ In (Z.of_nat c) terminals)) \/
                       (nth c s0 0%Z = (-1)%Z /\ ~ lowest O dem c /\ ~ In (Z.of_nat c) terminals)) /\
    linv N (pad_neighbors N nb) (nanb dem) (F0 O thr dist dem nb) (widest nb) s0 (seq 0 N) (fdir, fcells).
  Proof.
    destruct (call_spec OL TR FU) as [fdir1 [s0 [fcells [E [L0 [P0 I]]]]]].
    unfold run in Hrun. rewrite E in Hrun. inversion Hrun; subst. exists s0, fcells. auto.
  Qed.

  Lemma val_lt c : is_valid dem c -> c < N.
  Proof. intros [z H]. apply nth_error_Some. congruence. Qed.
  Lemma good_valid c : good N (nanb dem) c <-> is_valid dem c.
  Proof. split; [intros [A B]; now apply valid_nan in B|]. intros V. assert (L := val_lt V). split; auto. now apply valid_nan. Qed.

  (** C59: a cell flows to itself only if NaN, outlet or terminal; otherwise it is a marked
      sink or flows to a steepest neighbour *)
  Theorem C59_steepest_neighbour : forall c, c < N ->
    (nth_error fdir c = Some (Z.of_nat c) /\
       (is_nan dem c \/ lowest O dem c \/ In (Z.of_nat c) terminals)) \/
    (nth_error fdir c = Some (-2)%Z /\ is_valid dem c) \/
    (exists n, nth_error fdir c = Some (Z.of_nat n) /\ steepest O thr dist dem nb c n).
  Proof.
    destruct unpack as [s0 [fcells [L0 [P0 I]]]]. intros c Hc.
    assert (L := l_len I). cbn [fst] in L. rewrite (nth_error_nth' fdir 0%Z) by lia.
    assert (D : nth c fdir 0%Z <> (-1)%Z) by (apply (l_done I); apply in_seq; lia).
    destruct (l_val I Hc) as [X|[[X [G _]]|[[X Y]|[G [t [Ht X]]]]]]; cbn [fst] in X; [congruence| | |].
    - right. left. rewrite X. split; auto. now apply good_valid.
    - left. rewrite X. split; auto. destruct Y as [Y|Y]; [|left; now apply nan_is].
      right. destruct (P0 c Hc) as [[_ Z]|[Z _]]; auto. unfold fixedc in Y. lia.
    - right. right. exists t. rewrite X. split; auto. apply (tg_steep OL TR); auto. now apply good_valid.
  Qed.

  (** C62: NaN cells flow to themselves and receive nothing *)
  Theorem C62_nan_cells_isolated : forall c, is_nan dem c ->
    nth_error fdir c = Some (Z.of_nat c) /\
    forall b, nth_error fdir b = Some (Z.of_nat c) -> b = c.
  Proof.
    intros c Hn. assert (Hc : c < N) by (apply nth_error_Some; unfold is_nan in Hn; congruence).
    assert (NV : ~ is_valid dem c) by (intros [z Hz]; unfold is_nan in Hn; congruence).
    destruct unpack as [s0 [fcells [L0 [P0 I]]]].
    assert (L := l_len I). cbn [fst] in L. split.
    - rewrite (nth_error_nth' fdir 0%Z) by lia.
      assert (D : nth c fdir 0%Z <> (-1)%Z) by (apply (l_done I); apply in_seq; lia).
      destruct (l_val I Hc) as [X|[[X [G _]]|[[X Y]|[G [t [Ht X]]]]]]; cbn [fst] in X; [congruence| | |].
      + exfalso. now apply good_valid in G.
      + now rewrite X.
      + exfalso. now apply good_valid in G.
    - intros b Hb. assert (Lb : b < N) by (rewrite <- L; apply nth_error_Some; congruence).
      destruct (C59_steepest_neighbour Lb) as [[E _]|[[E _]|[n [E [_ [s [S _]]]]]]]; rewrite Hb in E; inversion E; [lia|lia|].
      assert (n = c) by lia. subst n. exfalso. apply NV. destruct S as [zc [zn [_ [Hz _]]]]. now exists zn.
  Qed.

  Definition start_cell (c : nat) : Prop := lowest O dem c \/ In (Z.of_nat c) terminals.
  Hypothesis ND : forall l, In l nb -> NoDup l.

  Lemma positions_inj c k1 k2 : is_valid dem c ->
    In k1 (nth c (F0 O thr dist dem nb) []) -> In k2 (nth c (F0 O thr dist dem nb) []) ->
    nbr (pad_neighbors N nb) c k1 = nbr (pad_neighbors N nb) c k2 -> k1 = k2.
  Proof.
    intros V H1 H2 E. apply good_valid in V. destruct V as [Hc Hn].
    destruct (proj2 (F0_regular OL TR) c Hc Hn k1 H1) as [A1 [B1 _]].
    destruct (proj2 (F0_regular OL TR) c Hc Hn k2 H2) as [A2 [B2 _]].
    assert (Lc : c < length nb) by (rewrite (tr_rows TR); auto).
    rewrite pad_width in A1, A2 by auto.
    assert (X : forall k, k < widest nb -> nbr (pad_neighbors N nb) c k < N -> k < length (nth c nb []) /\ nbr (pad_neighbors N nb) c k = nth k (nth c nb []) 0).
    { intros k Hk HL. unfold nbr in *. rewrite nth_pad in * by auto.
      destruct (Nat.lt_ge_cases k (length (nth c nb []))) as [Y|Y]; [split; auto; now apply app_nth1|].
      exfalso. rewrite app_nth2 in HL by auto.
      rewrite (nth_indep _ 0 N) in HL by (rewrite repeat_length; lia). rewrite nth_repeat in HL. lia. }
    destruct (X k1 A1 B1) as [C1 D1]. destruct (X k2 A2 B2) as [C2 D2]. rewrite D1, D2 in E.
    refine (proj1 (NoDup_nth (nth c nb []) 0) _ k1 k2 C1 C2 E). apply ND. now apply nth_In.
  Qed.

  Lemma many_targets c : is_valid dem c -> 1 < length (tg (pad_neighbors N nb) (F0 O thr dist dem nb) c) ->
    forall n, steepest O thr dist dem nb c n -> exists n', n' <> n /\ steepest O thr dist dem nb c n'.
  Proof.
    intros V HL n Hn. unfold tg in HL. rewrite map_length in HL.
    assert (PI := fun k1 k2 => @positions_inj c k1 k2 V).
    assert (NDp : NoDup (nth c (F0 O thr dist dem nb) [])).
    { rewrite (F0_nth OL TR) by now apply val_lt. apply where_nodup. }
    assert (TS := tg_steep OL TR (c:=c)).
    destruct (nth c (F0 O thr dist dem nb) []) as [|k1 [|k2 r]] eqn:EF; [cbn in HL; lia|cbn in HL; lia|].
    assert (T1 : forall k, In k (k1 :: k2 :: r) -> steepest O thr dist dem nb c (nbr (pad_neighbors N nb) c k)).
    { intros k Hk. apply TS; auto. unfold tg. apply in_map. now rewrite EF. }
    destruct (Nat.eq_dec (nbr (pad_neighbors N nb) c k1) n) as [E|E].
    - exists (nbr (pad_neighbors N nb) c k2). split; [|apply T1; right; now left].
      intros E2. assert (k1 = k2) by (apply PI; [now left|right; now left|congruence]). subst k2.
      inversion NDp as [|? ? X _]; subst. apply X. now left.
    - exists (nbr (pad_neighbors N nb) c k1). split; [exact E|apply T1; now left].
  Qed.

  (** C60: a unique steepest neighbour wins *)
  Theorem C60_unique_steepest_wins : forall c n, is_valid dem c -> ~ start_cell c ->
    steepest O thr dist dem nb c n -> (forall n', steepest O thr dist dem nb c n' -> n' = n) ->
    nth_error fdir c = Some (Z.of_nat n).
  Proof.
    intros c n V NS Hn U. assert (Hc := val_lt V). destruct unpack as [s0 [fcells [L0 [P0 I]]]].
    assert (L := l_len I). cbn [fst] in L. rewrite (nth_error_nth' fdir 0%Z) by lia.
    assert (D : nth c fdir 0%Z <> (-1)%Z) by (apply (l_done I); apply in_seq; lia).
    assert (Hin : In n (tg (pad_neighbors N nb) (F0 O thr dist dem nb) c)) by now apply (tg_steep OL TR).
    assert (NL : ~ 1 < length (tg (pad_neighbors N nb) (F0 O thr dist dem nb) c)).
    { intros H. destruct (many_targets V H Hn) as [n' [H1 H2]]. apply H1. now apply U. }
    destruct (l_val I Hc) as [X|[[X [G Y]]|[[X Y]|[G [t [Ht X]]]]]]; cbn [fst] in X; [congruence| | |].
    - exfalso. destruct (tg (pad_neighbors N nb) (F0 O thr dist dem nb) c) as [|a [|b r]]; cbn in *; [destruct Hin|congruence|lia].
    - exfalso. destruct Y as [Y|Y]; [|apply good_valid in V; destruct V; congruence].
      apply NS. destruct (P0 c Hc) as [[_ Z]|[Z _]]; auto. unfold fixedc in Y. lia.
    - rewrite X. f_equal. f_equal. apply U. now apply (tg_steep OL TR).
  Qed.

  (** a start cell (outlet or terminal cell) competes with another cell for the flow of [x] *)
  Definition contested (c : nat) : Prop :=
    exists x n, n <> c /\ steepest O thr dist dem nb x c /\ steepest O thr dist dem nb x n.

  Lemma steep_valid x n : steepest O thr dist dem nb x n -> is_valid dem x /\ is_valid dem n.
  Proof. intros [_ [s [[zc [zn [Hc [Hn _]]]] _]]]. split; [now exists zc|now exists zn]. Qed.

  Lemma tied_contested c : tied N (pad_neighbors N nb) (nanb dem) (F0 O thr dist dem nb) c -> contested c.
  Proof.
    intros [x [G [HL Hin]]]. apply good_valid in G. assert (S1 := proj1 (tg_steep OL TR c G) Hin).
    destruct (many_targets G HL S1) as [n [H1 H2]]. exists x, n. auto.
  Qed.

  (** C63 (part): outlet and terminal cells flow to themselves unless they are one of several
      steepest neighbours of some cell *)
  Theorem C63_uncontested_outlet_partial : forall c, c < N -> start_cell c -> ~ contested c ->
    nth_error fdir c = Some (Z.of_nat c).
  Proof.
    intros c Hc S NC. destruct unpack as [s0 [fcells [L0 [P0 I]]]].
    assert (L := l_len I). cbn [fst] in L. rewrite (nth_error_nth' fdir 0%Z) by lia. f_equal.
    apply (l_keep I Hc); [|intros X; apply NC; now apply tied_contested].
    destruct (P0 c Hc) as [[X _]|[_ [X1 X2]]]; auto. destruct S; tauto.
  Qed.
End General.

(** ** Downhill terrain *)
Section Downhill.
  Context {T : Type} (O : slope_ops T) (ok : T -> Prop).
  Hypothesis OL : order_laws O ok.
  Variables (thr : T) (dist : nat -> nat -> T) (dem : list (option T)) (nb : list (list nat)) (terminals : list Z).
  Hypothesis TR : terrain_ok O ok thr dist dem nb terminals.
  Variable fuel : nat.
  Hypothesis FU : enough_steps nb fuel.
  Hypothesis ND : forall l, In l nb -> NoDup l.
  Notation N := (length dem).

  Definition below (a b : nat) : bool :=
    match nth a dem None, nth b dem None with Some za, Some zb => o_lt O za zb | _, _ => false end.

  Lemma elev_ok a z : nth a dem None = Some z -> ok z.
  Proof. intros H. apply nth_opt in H. now apply (tr_elev TR H). Qed.

  (** every valid cell that is neither outlet nor terminal flows only to lower cells *)
  Hypothesis FALL : forall c, is_valid dem c -> ~ start_cell O dem terminals c ->
    (exists n, steepest O thr dist dem nb c n) /\ forall n, steepest O thr dist dem nb c n -> below n c = true.
  Hypothesis FREE : forall c, start_cell O dem terminals c -> ~ contested O thr dist dem nb c.

  Lemma downhill fdir nb' : run O fuel dist dem nb thr terminals = Ok (fdir, nb') ->
    forall c, is_valid dem c ->
      (start_cell O dem terminals c /\ nth_error fdir c = Some (Z.of_nat c)) \/
      (~ start_cell O dem terminals c /\ exists n, nth_error fdir c = Some (Z.of_nat n) /\ steepest O thr dist dem nb c n /\ below n c = true).
  Proof.
    intros Hrun.
    destruct (start_spec OL TR) as [s0 [E0 [L0 P0]]]. destruct (mins_spec OL TR) as [EM _].
    assert (FX : forall c, c < N -> fixedc s0 c <-> start_cell O dem terminals c).
    { intros c Hc. unfold fixedc. destruct (P0 c Hc) as [[X Y]|[X [Y1 Y2]]].
      - split; auto. - split; [lia|]. intros [?|?]; tauto. }
    destruct (@calc_downhill N (pad_neighbors N nb) (nanb dem) (fnb_len TR) (F0 O thr dist dem nb) (F0_regular OL TR)
        (widest nb) fuel (fun c _ => F0_width OL TR c) (fuel_ok TR FU) (tr_size TR) s0 L0) with (R := below) as [fd [fcells [E [I D]]]].
    { intros c Hc. destruct (P0 c Hc) as [[? _]|[? _]]; auto. }
    { intros a b c H1 H2. unfold below in *.
      destruct (nth a dem None) as [za|] eqn:Ea; [|discriminate]. destruct (nth b dem None) as [zb|] eqn:Eb; [|discriminate].
      destruct (nth c dem None) as [zc|] eqn:Ec; [|discriminate].
      apply (lt_trans OL (elev_ok Ea) (elev_ok Eb) (elev_ok Ec) H1 H2). }
    { intros a. unfold below. destruct (nth a dem None) as [za|] eqn:Ea; auto. apply (lt_irr OL (elev_ok Ea)). }
    { intros c G NF. assert (V : is_valid dem c) by now apply good_valid in G.
      destruct (@FALL c V) as [[n Hn] Hl]; [intros S; apply NF; apply FX; [apply G|auto]|]. split.
      - intros Z. apply (tg_steep OL TR _ V) in Hn. rewrite Z in Hn. destruct Hn.
      - intros t Ht. apply Hl. now apply (tg_steep OL TR). }
    { intros c Hc F X. apply FX in F; auto. apply (FREE F). now apply (tied_contested OL TR ND). }
    assert (EQ : fdir = fd).
    { unfold run, flow_directions in Hrun. rewrite EM in Hrun. cbn [bind] in Hrun. rewrite E0 in Hrun. cbn [bind] in Hrun.
      rewrite (F0_ok OL TR) in Hrun. cbn [bind] in Hrun.
      change (fun c => match nth c dem None with Some _ => false | None => true end) with (nanb dem) in Hrun.
      rewrite E in Hrun. cbn [bind] in Hrun. now inversion Hrun. }
    subst fd. intros c V. assert (Hc := val_lt V).
    assert (L := l_len I). cbn [fst] in L. rewrite (nth_error_nth' fdir 0%Z) by lia.
    assert (Dn : nth c fdir 0%Z <> (-1)%Z) by (apply (l_done I); apply in_seq; lia).
    destruct (Z.eq_dec (nth c s0 0%Z) (Z.of_nat c)) as [F|F].
    - left. assert (S : start_cell O dem terminals c) by now apply FX. split; auto. f_equal.
      apply (l_keep I Hc F). intros X. apply (FREE S). now apply (tied_contested OL TR ND).
    - right. assert (NS : ~ start_cell O dem terminals c) by (intros S; now apply F, FX). split; auto.
      destruct (l_val I Hc) as [X|[[X _]|[[X Y]|[G [t [Ht X]]]]]]; cbn [fst] in X; [congruence| | |].
      + exfalso. now apply (n_nosink D Hc).
      + exfalso. destruct Y as [Y|Y]; [auto|]. apply good_valid in V. destruct V; congruence.
      + exists t. rewrite X. assert (S : steepest O thr dist dem nb c t) by now apply (tg_steep OL TR).
        split; auto. split; auto. now apply (FALL V NS).
  Qed.
End Downhill.

Section Paths.
  Context {T : Type} (O : slope_ops T) (ok : T -> Prop).
  Hypothesis OL : order_laws O ok.
  Variables (thr : T) (dist : nat -> nat -> T) (dem : list (option T)) (nb : list (list nat)) (terminals : list Z).
  Hypothesis TR : terrain_ok O ok thr dist dem nb terminals.
  Variable fuel : nat.
  Hypothesis FU : enough_steps nb fuel.
  Hypothesis ND : forall l, In l nb -> NoDup l.
  (** a negative slope leads to a lower cell (true in exact arithmetic, see below) *)
  Hypothesis SIGN : forall c n s, adjacent nb c n -> slope_to O thr dist dem c n s ->
    o_lt O s (o_zero O) = true -> below O dem n c = true.
  Hypothesis ZOK : ok (o_zero O).
  Hypothesis DOWN : forall c, is_valid dem c -> ~ start_cell O dem terminals c ->
    exists n s, adjacent nb c n /\ slope_to O thr dist dem c n s /\ o_lt O s (o_zero O) = true.
  Hypothesis FREE : forall c, start_cell O dem terminals c -> ~ contested O thr dist dem nb c.
  Variables (fdir : list Z) (nb' : list (list nat)).
  Hypothesis Hrun : run O fuel dist dem nb thr terminals = Ok (fdir, nb').
  Notation N := (length dem).

  Lemma steep_exists c : is_valid dem c ->
    (exists n s, adjacent nb c n /\ slope_to O thr dist dem c n s) -> exists n, steepest O thr dist dem nb c n.
  Proof.
    intros V [n [s [A S]]]. assert (Hc := val_lt V).
    destruct (row_min OL TR Hc) as [_ [_ B]]. destruct (minv O thr dist dem nb c) as [m|] eqn:Em.
    - destruct (min_real OL TR V Em) as [M1 [[n0 [M2 M3]] _]]. exists n0. split; auto. exists m. split; auto.
    - exfalso. apply (B eq_refl s). apply (row_val TR); auto. left. now exists n.
  Qed.

  Lemma drop_all c : is_valid dem c -> ~ start_cell O dem terminals c ->
    (exists n, steepest O thr dist dem nb c n) /\ forall n, steepest O thr dist dem nb c n -> below O dem n c = true.
  Proof.
    intros V NS. destruct (DOWN V NS) as [n [s [A [S HL]]]]. split; [apply steep_exists; auto; now exists n, s|].
    intros n' [A' [s' [S' M]]]. apply (SIGN A' S').
    assert (X := M n s A S). destruct (ol_neg OL (tr_slopes TR A S) ZOK (tr_slopes TR A' S') HL) as [Y|Y]; auto. congruence.
  Qed.

  Lemma path_step c : is_valid dem c ->
    (start_cell O dem terminals c /\ down fdir c = c) \/
    (~ start_cell O dem terminals c /\ is_valid dem (down fdir c) /\ steepest O thr dist dem nb c (down fdir c) /\ below O dem (down fdir c) c = true).
  Proof.
    intros V. destruct (downhill OL TR FU ND drop_all FREE Hrun V) as [[S E]|[NS [n [E [S LO]]]]];
      apply (nth_error_nth _ _ 0%Z) in E; unfold down; rewrite E, Nat2Z.id; [left; auto|right].
    split; auto. split; [now apply steep_valid in S|auto].
  Qed.

  Definition cnt (c : nat) : nat := length (filter (fun a => below O dem a c) (seq 0 N)).
  Lemma cnt_lt a c : is_valid dem a -> below O dem a c = true -> cnt a < cnt c.
  Proof.
    intros V H. unfold cnt.
    assert (X : forall l, In a l -> length (filter (fun x => below O dem x a) l) < length (filter (fun x => below O dem x c) l) /\
                    True) .
    { assert (TRN : forall x, below O dem x a = true -> below O dem x c = true).
      { intros x Hx. unfold below in *. destruct (nth x dem None) as [zx|] eqn:Ex; [|discriminate].
        destruct (nth a dem None) as [za|] eqn:Ea; [|discriminate]. destruct (nth c dem None) as [zc|] eqn:Ec; [|discriminate].
        apply (lt_trans OL (elev_ok TR Ex) (elev_ok TR Ea) (elev_ok TR Ec) Hx H). }
      assert (IRR : below O dem a a = false).
      { unfold below. destruct (nth a dem None) as [za|] eqn:Ea; auto. apply (lt_irr OL (elev_ok TR Ea)). }
      assert (LE : forall l, length (filter (fun x => below O dem x a) l) <= length (filter (fun x => below O dem x c) l)).
      { induction l as [|x l IH]; cbn; auto. destruct (below O dem x a) eqn:E1; [rewrite (TRN x E1); cbn; lia|].
        destruct (below O dem x c); cbn; lia. }
      induction l as [|x l IH]; intros Hi; [destruct Hi|]. split; auto. cbn. destruct Hi as [->|Hi].
      - rewrite IRR, H. cbn. specialize (LE l). lia.
      - destruct (IH Hi) as [IH' _]. destruct (below O dem x a) eqn:E1; [rewrite (TRN x E1); cbn; lia|].
        destruct (below O dem x c); cbn; lia. }
    apply X. apply in_seq. assert (L := val_lt V). lia.
  Qed.

  Lemma path_ends : forall k c, is_valid dem c -> cnt c < k ->
    exists j t, downs fdir j c = t /\ start_cell O dem terminals t /\ nth_error fdir t = Some (Z.of_nat t).
  Proof.
    induction k as [|k IH]; intros c V HK; [lia|].
    destruct (path_step V) as [[S E]|[NS [V' [_ LO]]]].
    - exists 0, c. split; auto. split; auto.
      destruct (downhill OL TR FU ND drop_all FREE Hrun V) as [[_ E']|[NS' _]]; auto. contradiction.
    - destruct (IH (down fdir c) V') as [j [t [E [S' E']]]]; [assert (X := cnt_lt V' LO); lia|].
      exists (Datatypes.S j), t. auto.
  Qed.

  Lemma downs_valid : forall k c, is_valid dem c -> is_valid dem (downs fdir k c) /\ cnt (downs fdir k c) <= cnt c.
  Proof.
    induction k as [|k IH]; intros c V; cbn [downs]; [auto|].
    destruct (path_step V) as [[S E]|[NS [V' [_ LO]]]].
    - rewrite E. now apply IH.
    - destruct (IH _ V') as [A B]. split; auto. assert (X := cnt_lt V' LO). lia.
  Qed.

  Lemma no_cycles : acyclic fdir.
  Proof.
    intros n Hn [H1 [k [Hk H2]]].
    destruct (unpack OL TR FU Hrun) as [s0 [fcells [L0 [P0 I]]]]. assert (L := l_len I). cbn [fst] in L.
    destruct (nth n dem None) as [z|] eqn:Ez.
    - assert (V : is_valid dem n) by (exists z; now apply nth_opt).
      destruct (path_step V) as [[S E]|[NS [V' [_ LO]]]]; [congruence|].
      destruct k as [|k]; [lia|]. cbn [downs] in H2. destruct (downs_valid k V') as [_ B]. rewrite H2 in B.
      assert (X := cnt_lt V' LO). lia.
    - assert (X : is_nan dem n) by (apply nan_is; [lia|unfold nanb; now rewrite Ez]).
      destruct (C62_nan_cells_isolated OL TR FU Hrun X) as [E _]. apply (nth_error_nth _ _ 0%Z) in E.
      apply H1. unfold down. rewrite E. apply Nat2Z.id.
  Qed.

  Lemma paths_descend : forall c, is_valid dem c -> ~ start_cell O dem terminals c ->
    exists n zc zn, nth_error fdir c = Some (Z.of_nat n) /\ adjacent nb c n /\
      nth_error dem c = Some (Some zc) /\ nth_error dem n = Some (Some zn) /\ o_lt O zn zc = true.
  Proof.
    intros c V NS. destruct (downhill OL TR FU ND drop_all FREE Hrun V) as [[S _]|[_ [n [E [S LO]]]]]; [contradiction|].
    unfold below in LO. destruct (nth n dem None) as [zn|] eqn:En; [|discriminate]. destruct (nth c dem None) as [zc|] eqn:Ec; [|discriminate].
    exists n, zc, zn. split; auto. split; [apply S|]. split; [now apply nth_opt|]. split; [now apply nth_opt|auto].
  Qed.
End Paths.

(** ** Exact arithmetic *)
Definition Qops : slope_ops Q := SlopeOps Qminus Qdiv q_lt Qeq_bool 0%Q 10000000000%Q.

Lemma Qlaws : order_laws Qops (fun _ => True).
Proof.
  constructor; cbn.
  - intros x y _ _ H. apply q_lt_spec in H. destruct (q_lt y x) eqn:E; auto. apply q_lt_spec in E.
    exfalso. apply (Qlt_irrefl x). eapply Qlt_trans; eauto.
  - intros x y z _ _ _ H. apply q_lt_spec in H. destruct (Qlt_le_dec x z) as [L|L]; [left|right]; apply q_lt_spec; auto.
    eapply Qle_lt_trans; eauto.
  - intros x y _ _. destruct (Qeq_bool x y) eqn:E.
    + apply Qeq_bool_iff in E. symmetry. apply andb_true_iff. rewrite !negb_true_iff.
      assert (L1 : q_lt x y <> true) by (rewrite q_lt_spec, E; apply Qlt_irrefl).
      assert (L2 : q_lt y x <> true) by (rewrite q_lt_spec, E; apply Qlt_irrefl).
      destruct (q_lt x y), (q_lt y x); auto; congruence.
    + symmetry. apply andb_false_iff. rewrite !negb_false_iff, !q_lt_spec. apply Qeq_bool_neq in E.
      destruct (Q_dec x y) as [[?|?]|?]; auto. contradiction.
Qed.

(** C64: on terrain where every cell but the outlet and the terminal cells has a lower
    neighbour, and no outlet or terminal cell is one of several steepest neighbours of a
    cell, there are no sinks, every step descends, every path ends in an outlet or terminal
    cell, and there are no cycles *)
Theorem C64_downhill_terrain_drains :
  forall thr dist dem nb terminals fuel fdir nb',
  terrain_ok Qops (fun _ => True) thr dist dem nb terminals ->
  (forall c n, adjacent nb c n -> (0 < dist c n)%Q) ->
  (forall l, In l nb -> NoDup l) ->
  let base c := lowest Qops dem c \/ In (Z.of_nat c) terminals in
  (forall c, is_valid dem c -> ~ base c ->
     exists n zc zn, adjacent nb c n /\ nth_error dem c = Some (Some zc) /\
       nth_error dem n = Some (Some zn) /\ (zn < zc)%Q) ->
  (forall c x n, base c -> n <> c -> steepest Qops thr dist dem nb x c -> ~ steepest Qops thr dist dem nb x n) ->
  enough_steps nb fuel ->
  run Qops fuel dist dem nb thr terminals = Ok (fdir, nb') ->
  (forall c, nth_error fdir c <> Some (-2)%Z) /\
  (forall c, is_valid dem c -> ~ base c ->
     exists n zc zn, nth_error fdir c = Some (Z.of_nat n) /\ adjacent nb c n /\
       nth_error dem c = Some (Some zc) /\ nth_error dem n = Some (Some zn) /\ (zn < zc)%Q) /\
  (forall c, is_valid dem c -> exists k t, downs fdir k c = t /\ base t /\ nth_error fdir t = Some (Z.of_nat t)) /\
  acyclic fdir.
Proof.
  intros thr dist dem nb terminals fuel fdir nb' TR DP ND sl HD HF FU Hrun.
  assert (SIGN : forall c n s, adjacent nb c n -> slope_to Qops thr dist dem c n s ->
    o_lt Qops s (o_zero Qops) = true -> below Qops dem n c = true).
  { intros c n s A [zc [zn [Hc [Hn E]]]] L. cbn [Qops o_lt o_sub o_div o_zero] in *. apply q_lt_spec in L.
    assert (P := DP c n A). unfold below. apply nth_opt in Hc, Hn. rewrite Hc, Hn. cbn. apply q_lt_spec.
    assert (D : (zn - zc < 0)%Q \/ (0 / dist c n < 0)%Q).
    { cbv zeta in E. rewrite E in L. destruct (q_lt (zn - zc) thr && q_lt 0 (zn - zc)); [right; auto|left].
      apply (Qmult_lt_r _ _ (/ dist c n)); [now apply Qinv_lt_0_compat|]. rewrite Qmult_0_l. exact L. }
    destruct D as [D|D].
    - apply (Qplus_lt_l _ _ (- zc)%Q). rewrite Qplus_opp_r. exact D.
    - exfalso. unfold Qdiv in D. rewrite Qmult_0_l in D. now apply (Qlt_irrefl 0). }
  assert (FREE : forall c, start_cell Qops dem terminals c -> ~ contested Qops thr dist dem nb c).
  { intros c S [x [n [H1 [H2 H3]]]]. now apply (HF c x n). }
  assert (DOWN : forall c, is_valid dem c -> ~ start_cell Qops dem terminals c ->
    exists n s, adjacent nb c n /\ slope_to Qops thr dist dem c n s /\ o_lt Qops s (o_zero Qops) = true).
  { intros c V NS. destruct (HD c V NS) as [n [zc [zn [A [Hc [Hn L]]]]]]. exists n.
    assert (P := DP c n A). eexists. split; auto. split; [exists zc, zn; split; auto; split; auto; reflexivity|].
    cbn [Qops o_lt o_sub o_div o_zero]. apply q_lt_spec.
    assert (NG : (zn - zc < 0)%Q). { apply (Qplus_lt_l _ _ zc). ring_simplify. exact L. }
    assert (NB : q_lt 0 (zn - zc) = false).
    { destruct (q_lt 0 (zn - zc)) eqn:E; auto. apply q_lt_spec in E. exfalso. apply (Qlt_irrefl 0). eapply Qlt_trans; eauto. }
    rewrite NB, andb_false_r. unfold Qdiv. rewrite <- (Qmult_0_l (/ dist c n)). apply Qmult_lt_r; auto. now apply Qinv_lt_0_compat. }
  assert (NS2 : forall c, nth_error fdir c <> Some (-2)%Z).
  { intros c E. destruct (unpack Qlaws TR FU Hrun) as [s0 [fcells [L0 [P0 I]]]]. assert (L := l_len I). cbn [fst] in L.
    assert (Hc : c < length dem) by (rewrite <- L; apply nth_error_Some; congruence).
    destruct (C59_steepest_neighbour Qlaws TR FU Hrun Hc) as [[X _]|[[X V]|[n [X _]]]]; rewrite E in X; inversion X; try lia.
    destruct (@downhill Q Qops _ Qlaws thr dist dem nb terminals TR fuel FU ND) with (fdir := fdir) (nb' := nb') (c := c)
      as [[_ Y]|[_ [n [Y _]]]]; auto; try (rewrite E in Y; inversion Y; lia).
    exact (drop_all Qlaws TR SIGN Logic.I DOWN). }
  split; auto. split; [|split].
  - intros c V NS. destruct (paths_descend Qlaws TR FU ND SIGN Logic.I DOWN FREE Hrun V NS) as [n [zc [zn [A [B [C [D E]]]]]]].
    exists n, zc, zn. split; auto. split; auto. split; auto. split; auto. now apply q_lt_spec.
  - intros c V. apply (path_ends Qlaws TR FU ND SIGN Logic.I DOWN FREE Hrun (k := S (cnt Qops dem c))); auto.
  - apply (no_cycles Qlaws TR FU ND SIGN Logic.I DOWN FREE Hrun).
Qed.

(** C65 (part): on a grid whose cells all connect to the rim, the priority fill with a
    positive increment followed by flow_directions gives no sinks and no cycles, provided
    the rim cells (which the fill does not change) have a lower neighbour themselves, and no
    outlet or terminal cell is one of several steepest neighbours of a cell *)
Theorem C65_filled_terrain_drains_partial :
  forall iverts nb dem eps method ffuel out thr dist terminals fuel fdir nb',
  grid_of iverts nb (length dem) -> symmetric_grid nb ->
  (forall n, n < length dem -> reachable (link nb (length dem)) (boundary_cell iverts) n) ->
  lower method = "priority"%string -> (0 < eps)%Q -> length dem <= ffuel ->
  fill_sinks Qelev ffuel iverts nb dem eps None method = Ok out ->
  let filled := map Some out in
  terrain_ok Qops (fun _ => True) thr dist filled nb terminals ->
  (forall c n, adjacent nb c n -> (0 < dist c n)%Q) ->
  (forall l, In l nb -> NoDup l) ->
  let base c := lowest Qops filled c \/ In (Z.of_nat c) terminals in
  (forall c, boundary_cell iverts c -> ~ base c ->
     exists n zc zn, adjacent nb c n /\ nth_error out c = Some zc /\ nth_error out n = Some zn /\ (zn < zc)%Q) ->
  (forall c x n, base c -> n <> c -> steepest Qops thr dist filled nb x c -> ~ steepest Qops thr dist filled nb x n) ->
  enough_steps nb fuel ->
  run Qops fuel dist filled nb thr terminals = Ok (fdir, nb') ->
  acyclic fdir /\ (forall c, nth_error fdir c <> Some (-2)%Z) /\
  (forall c, c < length dem -> exists k t, downs fdir k c = t /\ base t /\ nth_error fdir t = Some (Z.of_nat t)).
Proof.
  intros iverts nb dem eps method ffuel out thr dist terminals fuel fdir nb' G SY RE ME EP FF Hfill filled TR DP ND base RIM FREE FU Hrun.
  destruct (common_grid (eps :: dem)) as [D HD]. inversion HD as [|? ? He Hdem]; subst.
  assert (FM : flood_method method None) by now left.
  assert (SE : step_eps Qelev method eps = eps) by (unfold step_eps; rewrite ME; reflexivity).
  assert (LW : elev_laws Qelev (on_grid D) (qrank D) (step_eps Qelev method eps)).
  { rewrite SE. apply Qelev_laws; auto. now apply Qlt_le_weak. }
  destruct (C03_priority_removes_sinks eps LW Hdem G FM FF) as [out' [E [_ DR]]].
  assert (out' = out) by congruence. subst out'.
  assert (DR' : forall n, n < length dem -> drains q_lt (link nb (length dem)) (boundary_cell iverts) out n).
  { intros n Hn. apply DR; auto. intros x Hx. rewrite SE. cbn. apply q_lt_spec.
    apply (Qplus_lt_l _ _ (- x)%Q). rewrite Qplus_opp_r. ring_simplify. exact EP. }
  assert (NT : forall c z, nth_error filled c = Some (Some z) <-> nth_error out c = Some z).
  { intros c z. unfold filled. rewrite nth_error_map. destruct (nth_error out c); cbn; split; congruence. }
  assert (LO : length filled = length dem).
  { destruct (C01_flood_never_lowers eps (mask := None) LW Hdem G Logic.I FM FF) as [o [E' [L' _]]].
    assert (o = out) by congruence. subst o. unfold filled. now rewrite map_length. }
  assert (DN : forall c, is_valid filled c -> ~ base c ->
     exists n zc zn, adjacent nb c n /\ nth_error filled c = Some (Some zc) /\
       nth_error filled n = Some (Some zn) /\ (zn < zc)%Q).
  { intros c V NB. assert (Hc := val_lt V). rewrite LO in Hc. destruct (DR' c Hc) as [s Hs|c' n x y _ [LK _] Hx Hy HL].
    - destruct (RIM s Hs NB) as [n [zc [zn [A [B [C L]]]]]]. exists n, zc, zn. rewrite !NT. auto.
    - exists c', y, x. rewrite !NT. split; [now apply SY|]. split; auto. split; auto. now apply q_lt_spec. }
  destruct (C64_downhill_terrain_drains TR DP ND DN FREE FU Hrun) as [A [_ [B C]]].
  split; auto. split; auto. intros c Hc. apply B.
  destruct (nth_error out c) as [z|] eqn:Ez; [exists z; now apply NT|].
  apply nth_error_None in Ez. unfold filled in LO. rewrite map_length in LO. lia.
Qed.

(** C65 is false in general: two neighbouring cells, neither lowest nor terminal, that are
    each other's only steepest neighbour form a cycle *)
Theorem C65_mutual_steepest_refuted :
  forall T (O : slope_ops T) ok thr dist dem nb terminals fuel fdir nb' a b,
  order_laws O ok -> terrain_ok O ok thr dist dem nb terminals -> enough_steps nb fuel ->
  (forall l, In l nb -> NoDup l) ->
  run O fuel dist dem nb thr terminals = Ok (fdir, nb') ->
  a <> b ->
  ~ (lowest O dem a \/ In (Z.of_nat a) terminals) -> ~ (lowest O dem b \/ In (Z.of_nat b) terminals) ->
  (forall n, steepest O thr dist dem nb a n <-> n = b) ->
  (forall n, steepest O thr dist dem nb b n <-> n = a) ->
  on_cycle fdir a.
Proof.
  intros T O ok thr dist dem nb terminals fuel fdir nb' a b OL TR FU ND Hrun Hab Na Nb Sa Sb.
  assert (S1 := proj2 (Sa b) eq_refl). assert (S2 := proj2 (Sb a) eq_refl).
  assert (E1 : nth_error fdir a = Some (Z.of_nat b)).
  { apply (C60_unique_steepest_wins OL TR FU Hrun ND); auto; [now apply steep_valid in S1|]. intros n. apply Sa. }
  assert (E2 : nth_error fdir b = Some (Z.of_nat a)).
  { apply (C60_unique_steepest_wins OL TR FU Hrun ND); auto; [now apply steep_valid in S2|]. intros n. apply Sb. }
  apply (nth_error_nth _ _ 0%Z) in E1, E2.
  assert (D1 : down fdir a = b) by (unfold down; rewrite E1; apply Nat2Z.id).
  assert (D2 : down fdir b = a) by (unfold down; rewrite E2; apply Nat2Z.id).
  split; [congruence|]. exists 2. split; [lia|]. cbn. now rewrite D1, D2.
Qed.

(** C66: a repeated call returns the same array and leaves the neighbour table as it is *)
Lemma widest_pad N nb : widest (pad_neighbors N nb) = widest nb.
Proof.
  apply Nat.le_antisymm.
  - apply widest_le. intros l Hl. unfold pad_neighbors in Hl. apply in_map_iff in Hl. destruct Hl as [r [<- Hr]].
    rewrite app_length, repeat_length. assert (X := widest_ge Hr). lia.
  - apply widest_le. intros l Hl.
    assert (X : In (l ++ repeat N (widest nb - length l)) (pad_neighbors N nb)) by (unfold pad_neighbors; apply in_map_iff; now exists l).
    apply widest_ge in X. rewrite app_length in X. lia.
Qed.
Lemma pad_pad N nb : pad_neighbors N (pad_neighbors N nb) = pad_neighbors N nb.
Proof.
  unfold pad_neighbors at 1. rewrite widest_pad. rewrite <- (map_id (pad_neighbors N nb)) at 2. apply map_ext_in.
  intros l Hl. assert (L : length l = widest nb).
  { unfold pad_neighbors in Hl. apply in_map_iff in Hl. destruct Hl as [r [<- Hr]].
    rewrite app_length, repeat_length. assert (X := widest_ge Hr). lia. }
  rewrite L, Nat.sub_diag. apply app_nil_r.
Qed.

Theorem C66_repeated_call_same :
  forall T (O : slope_ops T) fuel dist dem nb thr terminals fdir nb',
  run O fuel dist dem nb thr terminals = Ok (fdir, nb') ->
  run O fuel dist dem nb' thr terminals = Ok (fdir, nb').
Proof.
  intros T O fuel dist dem nb thr terminals fdir nb' H.
  assert (E : nb' = pad_neighbors (length dem) nb).
  { unfold run, flow_directions in H.
    destruct (min_cells _ _ _ dem); cbn [bind] in H; [|discriminate]. destruct (start_fdir _ _ _); cbn [bind] in H; [|discriminate].
    destruct (fcells_of _ _ _); cbn [bind] in H; [|discriminate]. destruct (calculate_flowcell _ _ _ _ _); cbn [bind] in H; [|discriminate].
    now inversion H. }
  subst nb'. unfold run, flow_directions in *. now rewrite pad_pad.
Qed.

(** ** Worked cases *)
(** deciding [terrain_ok] *)
Definition terrain_check (thr : Q) (dist : nat -> nat -> Q) (dem : list (option Q)) (nb : list (list nat)) (terminals : list Z) : bool :=
  let N := length dem in
  let sl := slope Qminus Qdiv q_lt 0%Q 10000000000%Q N thr dist dem in
  Nat.eqb (length nb) N
  && forallb (forallb (fun n => n <? N)) nb
  && existsb (fun l => negb (Nat.eqb (length l) 0)) nb
  && existsb (fun v => match v with Some z => q_lt z 10000000000%Q | None => false end) dem
  && forallb (fun c => match nth c dem None with
                       | None => true
                       | Some _ => existsb (fun n => match sl c n with Some s => q_lt s 10000000000%Q | None => false end) (nth c nb [])
                                   || forallb (fun l => length l <=? length (nth c nb [])) nb
                       end) (seq 0 N)
  && forallb (fun t => (0 <=? t)%Z && (t <? Z.of_nat N)%Z) terminals
  && (Z.of_nat N <? 999000)%Z.

Lemma terrain_checked thr dist dem nb terminals :
  terrain_check thr dist dem nb terminals = true -> terrain_ok Qops (fun _ => True) thr dist dem nb terminals.
Proof.
  unfold terrain_check. rewrite !andb_true_iff. intros [[[[[[H1 H2] H3] H4] H5] H6] H7].
  apply Nat.eqb_eq in H1. rewrite forallb_forall in H2, H5, H6. apply Z.ltb_lt in H7.
  assert (NBL : forall c n, adjacent nb c n -> n < length dem).
  { intros c n [l [E Hn]]. apply nth_error_In in E. specialize (H2 l E). rewrite forallb_forall in H2. apply Nat.ltb_lt. auto. }
  constructor; auto.
  - intros c n _ A. eapply NBL; eauto.
  - apply existsb_exists in H3. destruct H3 as [l [Hl Hn]]. apply In_nth_error in Hl. destruct Hl as [c Hc].
    destruct l as [|n l]; [discriminate|]. exists c, n, (n :: l). split; auto. now left.
  - apply existsb_exists in H4. destruct H4 as [[z|] [Hz L]]; [|discriminate]. apply In_nth_error in Hz. destruct Hz as [c Hc].
    exists c, z. auto.
  - intros c V. assert (Hc := val_lt V). destruct V as [z V]. assert (X := H5 c). rewrite in_seq in X.
    specialize (X ltac:(lia)). assert (V' := V). apply nth_opt in V'. rewrite V' in X. apply orb_true_iff in X. destruct X as [X|X].
    + left. apply existsb_exists in X. destruct X as [n [Hn X]].
      destruct (slope Qminus Qdiv q_lt 0%Q 10000000000%Q (length dem) thr dist dem c n) as [s|] eqn:Es; [|discriminate].
      apply adj_nth in Hn. exists n, s. split; auto. split; auto.
      now apply (slope_spec Qops thr dist (dem := dem) c s (NBL c n Hn)).
    + right. intros c' l l' E1 E2. apply (nth_error_nth _ _ []) in E1. subst l. rewrite forallb_forall in X.
      apply Nat.leb_le. apply X. eapply nth_error_In; eauto.
  - intros t Ht. specialize (H6 t Ht). apply andb_true_iff in H6. destruct H6 as [A B]. apply Z.leb_le in A. apply Z.ltb_lt in B. lia.
Qed.

Lemma rows_nodup nb : forallb (fun l => Nat.eqb (length (nodup Nat.eq_dec l)) (length l)) nb = true -> forall l, In l nb -> NoDup l.
Proof.
  intros H l Hl. rewrite forallb_forall in H. specialize (H l Hl). apply Nat.eqb_eq in H.
  assert (X := NoDup_nodup Nat.eq_dec l). apply (@NoDup_incl_NoDup nat _ l X); [lia|].
  intros x Hx. now apply nodup_In in Hx.
Qed.

Module Ex.
  Definition one (_ _ : nat) : Q := 1%Q.
  Definition thr : Q := (1 # 1000000)%Q.
  Definition z (l : list Z) : list (option Q) := map (fun k => Some (inject_Z k)) l.

  (** a 3x3 grid with a NaN cell and a flat, outlet in the last cell *)
  Definition nb33 := queen 3 3.
  Definition dem33 : list (option Q) := z [9; 9; 9; 9; 5; 5; 9; 5; 1]%Z.
  Definition dem33n : list (option Q) := [Some 9%Q; None; Some 9%Q; Some 8%Q; Some 8%Q; Some 8%Q; Some 7%Q; Some 3%Q; Some 1%Q].
  Example terrain33 : terrain_ok Qops (fun _ => True) thr one dem33 nb33 [].
  Proof. apply terrain_checked. vm_compute. reflexivity. Qed.
  Example terrain33n : terrain_ok Qops (fun _ => True) thr one dem33n nb33 [6%Z].
  Proof. apply terrain_checked. vm_compute. reflexivity. Qed.
  Lemma steps33 : enough_steps nb33 103.
  Proof. exists 8. split; [|vm_compute; lia]. intros l Hl. vm_compute in Hl. repeat destruct Hl as [<-|Hl]; cbn; try lia; try destruct Hl. Qed.
  Example run33 : exists nb', run Qops 103 one dem33 nb33 thr [] = Ok ([4; 4; 4; 4; 8; 8; 4; 8; 8]%Z, nb').
  Proof. eexists. vm_compute. reflexivity. Qed.
  Example run33n : exists nb', run Qops 103 one dem33n nb33 thr [6%Z] = Ok ([3; 1; 4; 7; 8; 8; 6; 8; 8]%Z, nb').
  Proof. eexists. vm_compute. reflexivity. Qed.
  Lemma nodup33 : forall l, In l nb33 -> NoDup l.
  Proof. apply rows_nodup. vm_compute. reflexivity. Qed.

  (** what the steepest neighbours of [dem33] are *)
  Definition targets33 : list (list nat) := Eval vm_compute in
    map (tg (pad_neighbors 9 nb33) (F0 Qops thr one dem33 nb33)) (seq 0 9).
  Lemma low33 c : lowest Qops dem33 c <-> c = 8.
  Proof. rewrite <- (proj1 (proj2 (mins_spec Qlaws terrain33))).
    assert (E : mins Qops dem33 = [8]) by (vm_compute; reflexivity). rewrite E. cbn. intuition lia. Qed.
  Lemma steep33 x n : steepest Qops thr one dem33 nb33 x n <-> In n (nth x targets33 []).
  Proof.
    split.
    - intros S. assert (V := proj1 (steep_valid S)). apply (tg_steep Qlaws terrain33 n V) in S.
      assert (L := val_lt V). change (length dem33) with 9 in *.
      do 9 (destruct x as [|x]; [vm_compute in S |- *; exact S|]). lia.
    - intros H. assert (L : x < 9).
      { destruct (Nat.lt_ge_cases x 9); auto. rewrite nth_overflow in H by auto. destruct H. }
      assert (V : is_valid dem33 x).
      { do 9 (destruct x as [|x]; [eexists; vm_compute; reflexivity|]). lia. }
      apply (tg_steep Qlaws terrain33 n V). change (length dem33) with 9.
      do 9 (destruct x as [|x]; [vm_compute in H |- *; exact H|]). lia.
  Qed.
  (** C60, C63 and C64 apply to this grid: cell 4 has the unique steepest neighbour 8, cell 8
      is the uncontested outlet, the terrain is downhill *)
  Example C60_case : exists fdir nb', run Qops 103 one dem33 nb33 thr [] = Ok (fdir, nb') /\ nth_error fdir 4 = Some 8%Z.
  Proof.
    destruct run33 as [nb' E]. eexists. exists nb'. split; [exact E|].
    apply (C60_unique_steepest_wins Qlaws terrain33 steps33 E nodup33 (c := 4) (n := 8)).
    - eexists. vm_compute. reflexivity.
    - intros [H|[]]. apply low33 in H. discriminate.
    - apply steep33. now left.
    - intros n' H. apply steep33 in H. destruct H as [<-|[]]; auto.
  Qed.
  Example C64_case : exists fdir nb', run Qops 103 one dem33 nb33 thr [] = Ok (fdir, nb') /\ acyclic fdir.
  Proof.
    destruct run33 as [nb' E]. eexists. exists nb'. split; [exact E|].
    refine (proj2 (proj2 (proj2 (C64_downhill_terrain_drains terrain33 _ nodup33 _ _ steps33 E)))).
    - reflexivity.
    - intros c V NB. assert (L := val_lt V). change (length dem33) with 9 in *.
      assert (NC : c <> 8) by (intros ->; apply NB; left; now apply low33).
      assert (A : forall c n, In n (nth c nb33 []) -> adjacent nb33 c n) by (intros; now apply adj_nth).
      assert (X : exists n, In n (nth c nb33 []) /\ below Qops dem33 n c = true).
      { do 8 (destruct c as [|c]; [first [exists 4; split; [vm_compute; tauto|vm_compute; reflexivity] | exists 8; split; [vm_compute; tauto|vm_compute; reflexivity]]|]). lia. }
      destruct X as [n [X1 X2]]. unfold below in X2.
      destruct (nth n dem33 None) as [zn|] eqn:En; [|discriminate]. destruct (nth c dem33 None) as [zc|] eqn:Ec; [|discriminate].
      exists n, zc, zn. split; auto. split; [now apply nth_opt|]. split; [now apply nth_opt|]. now apply q_lt_spec.
    - intros c x n [H|[]] Hne S1 S2. apply low33 in H. subst c. apply steep33 in S1, S2.
      do 9 (destruct x as [|x]; [cbn in S1, S2; intuition lia|]). rewrite nth_overflow in S1; [destruct S1|cbn; lia].
  Qed.

  (** C63 is false in general: a row of three cells, the middle one equally steep (-1) towards
      both ends.  The outlet is cell 0; after the call it flows up to cell 1, and cells 1 and 2
      flow into each other. *)
  Definition dist3 (a b : nat) : Q := if Nat.eqb a 2 || Nat.eqb b 2 then 2%Q else 3%Q.
  Definition dem3 := z [0; 3; 1]%Z.
  Theorem C63_contested_outlet_refuted :
    terrain_ok Qops (fun _ => True) thr dist3 dem3 (queen 1 3) [] /\ lowest Qops dem3 0 /\
    exists nb', run Qops 100 dist3 dem3 (queen 1 3) thr [] = Ok ([1; 2; 1]%Z, nb').
  Proof.
    assert (TR : terrain_ok Qops (fun _ => True) thr dist3 dem3 (queen 1 3) []) by (apply terrain_checked; vm_compute; reflexivity).
    split; auto. split.
    - apply (proj1 (proj2 (mins_spec Qlaws TR))). vm_compute. now left.
    - eexists. vm_compute. reflexivity.
  Qed.
  (** ... and a terminal cell: elevations 1 3 0, cell 0 terminal, flows to cell 1 *)
  Theorem C63_terminal_cell_refuted :
    exists nb', run Qops 100 (fun a b => dist3 (2 - a) (2 - b)) (z [1; 3; 0]%Z) (queen 1 3) thr [0%Z] = Ok ([1; 2; 2]%Z, nb').
  Proof. eexists. vm_compute. reflexivity. Qed.

  (** C65 is false in general: rim pits survive the fill (a row of four cells) *)
  Definition dem4 : list Q := [1; 3; (29 # 10); 0]%Q.
  Theorem C65_rim_pit_refuted : exists fdir nb',
    fill_sinks Qelev 10 (quad_iverts 1 4) (queen 1 4) dem4 (1 # 100)%Q None "priority" = Ok dem4 /\
    run Qops 100 one (map Some dem4) (queen 1 4) thr [] = Ok (fdir, nb') /\ on_cycle fdir 0.
  Proof.
    eexists. eexists. split; [vm_compute; reflexivity|]. split; [vm_compute; reflexivity|].
    split; [vm_compute; discriminate|]. exists 2. split; [lia|reflexivity].
  Qed.

  (** C59 and C61 are false beside NaN cells: a valid cell whose neighbours are all NaN and
      that has one padding slot flows to the cell number N, which does not exist; with several
      padding slots the call raises IndexError *)
  Theorem C59_padding_cell_refuted : exists nb',
    run Qops 100 one [Some 1%Q; None; Some 0%Q] (queen 1 3) thr [] = Ok ([3; 1; 2]%Z, nb').
  Proof. eexists. vm_compute. reflexivity. Qed.
  Theorem C61_isolated_corner_refuted :
    run Qops 100 one [Some 5%Q; None; Some 3%Q; None; None; Some 2%Q; Some 3%Q; Some 2%Q; Some 1%Q] (queen 3 3) thr [] = Err IndexError.
  Proof. vm_compute. reflexivity. Qed.
End Ex.
