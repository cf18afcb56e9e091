(** C145: what the numbers of get_subbasins mean together: they grow downstream, more pour
    points refine the map, a new pour point only splits one subbasin, and the sizes add up
    to the flow accumulation. *)
From Verif Require Import Py Spec MFlow LGraph LAcc LAcc2 LWs LTopo LSub PropsAcc PropsBasin PropsAgree.
Set Implicit Arguments.
Unset Strict Implicit.
Local Open Scope nat_scope.
Local Open Scope list_scope.
Local Notation length := List.length.

(** usable pour points: cells of the map other than cell 0, no two on a common flow cycle *)
Definition good_pours (fdir : list Z) (pours : list nat) : Prop :=
  (forall p, In p pours -> 0 < p < length fdir) /\
  (forall p q, In p pours -> In q pours -> p <> q -> flows_through fdir p q -> ~ flows_through fdir q p).

(** [q] is one of the pour points whose water enters the subbasin of [p] directly *)
Definition enters (fdir : list Z) (pours : list nat) (p q : nat) : Prop :=
  In q pours /\ q <> p /\ exists k, 0 < k /\ downs fdir k q = p /\ forall j, 0 < j < k -> ~ In (downs fdir j q) pours.

(** the number of cells carrying the label of cell [q] *)
Definition size_of (out : list Z) (q : nat) : Z := Z.of_nat (count_occ Z.eq_dec out (nth q out 0%Z)).

Section Map.
  Variables (fdir : list Z) (pours : list nat) (lim fuel : nat) (out : list Z).
  Notation N := (length fdir).
  Hypothesis V : valid_fdir fdir.
  Hypothesis G : good_pours fdir pours.
  Hypothesis Hlim : length pours + 2 <= lim.
  Hypothesis Hfuel : 2 * N + 2 <= fuel.
  Hypothesis Eo : get_subbasins lim fuel fdir (map Z.of_nat pours) = Ok out.

  Lemma the_order : exists order, order_of fdir pours order /\ labels fdir pours order out.
  Proof using V G Hlim Hfuel Eo.
    destruct G as [G1 G2].
    destruct (@subbasins_spec fdir V pours) with (lim := lim) (fuel := fuel) as [o [order [E [H1 H2]]]]; auto.
    - intros p Hp. now apply G1.
    - intros H. apply G1 in H. lia.
    - rewrite Eo in E. injection E as <-. eauto.
  Qed.

  Lemma out_len : length out = N.
  Proof using V G Hlim Hfuel Eo. destruct the_order as [order [_ [L _]]]. exact L. Qed.

  (** *** labels are first pour points *)
  Lemma label_zero c : c < N -> (nth c out 0%Z = 0%Z <-> forall p, ~ first_pour fdir pours c p).
  Proof using V G Hlim Hfuel Eo.
    intros Hc. destruct the_order as [order [[ND [HO Hup]] [L [H1 H2]]]]. split.
    - intros E p Fp. destruct (In_nth_error order p) as [i Hi]; [apply HO; apply Fp|].
      rewrite (H1 i p c Hi Hc Fp) in E. lia.
    - intros Hn. apply H2; auto. intros p Fp. now apply Hn in Fp.
  Qed.

  Lemma label_same c d p q : c < N -> d < N -> first_pour fdir pours c p -> first_pour fdir pours d q ->
    (nth c out 0%Z = nth d out 0%Z <-> p = q).
  Proof using V G Hlim Hfuel Eo.
    intros Hc Hd Fp Fq. destruct the_order as [order [[ND [HO Hup]] [L [H1 H2]]]].
    destruct (In_nth_error order p) as [i Hi]; [apply HO; apply Fp|].
    destruct (In_nth_error order q) as [j Hj]; [apply HO; apply Fq|].
    rewrite (H1 i p c Hi Hc Fp), (H1 j q d Hj Hd Fq). split.
    - intros E. assert (i = j) by lia. congruence.
    - intros <-. f_equal. f_equal. apply (proj1 (NoDup_nth_error order) ND); [apply nth_error_Some; congruence|congruence].
  Qed.

  Lemma label_iff c d : c < N -> d < N ->
    (nth c out 0%Z = nth d out 0%Z <-> forall p, first_pour fdir pours c p <-> first_pour fdir pours d p).
  Proof using V G Hlim Hfuel Eo.
    intros Hc Hd. destruct (first_pour_dec V pours Hc) as [[p Fp]|Nc].
    - destruct (first_pour_dec V pours Hd) as [[q Fq]|Nd].
      + rewrite (label_same Hc Hd Fp Fq). split.
        * intros <- x. split; intros X; [rewrite (first_pour_unique X Fp)|rewrite (first_pour_unique X Fq)]; auto.
        * intros X. apply (first_pour_unique (c := d) (pours := pours) (fdir := fdir)); auto. now apply X.
      + assert (Z0 : nth d out 0%Z = 0%Z) by (apply label_zero; auto; intros x [Hx [k [<- _]]]; now apply (Nd k)).
        split.
        * intros E. exfalso. rewrite Z0 in E. apply (proj1 (label_zero Hc) E p Fp).
        * intros X. exfalso. apply X in Fp. exact (proj1 (label_zero Hd) Z0 p Fp).
    - assert (Z0 : nth c out 0%Z = 0%Z) by (apply label_zero; auto; intros x [Hx [k [<- _]]]; now apply (Nc k)).
      rewrite Z0. split.
      + intros E x. split; intros F; exfalso; [exact (proj1 (label_zero Hc) Z0 x F)|].
        exact (proj1 (label_zero Hd) (eq_sym E) x F).
      + intros X. symmetry. apply label_zero; auto. intros p F. apply X in F. exact (proj1 (label_zero Hc) Z0 p F).
  Qed.

  Lemma self_first p : In p pours -> first_pour fdir pours p p.
  Proof using. intros Hp. split; auto. exists 0. split; auto. intros j Hj; inversion Hj. Qed.

  (** *** the first pour point of a cell further down *)
  Lemma first_down c d q : flows_through fdir c d -> first_pour fdir pours d q -> c < N ->
    exists p, first_pour fdir pours c p /\ flows_through fdir p q.
  Proof using V.
    clear G Hlim Hfuel Eo. intros [j Ej] [Hq [m [Em Hm]]] Hc.
    assert (Eq : downs fdir (j + m) c = q) by (rewrite downs_add, Ej; auto).
    destruct (first_pour_dec V pours Hc) as [[p Fp]|Nc].
    - exists p. split; auto. destruct Fp as [Hp [k [Ek Hk]]].
      destruct (le_lt_dec k (j + m)) as [L|L].
      + exists (j + m - k). rewrite <- Ek, <- downs_add. replace (k + (j + m - k)) with (j + m) by lia. auto.
      + exfalso. apply (Hk (j + m) L). now rewrite Eq.
    - exfalso. apply (Nc (j + m)). now rewrite Eq.
  Qed.

  Lemma order_less p q : In p pours -> In q pours -> p <> q -> flows_through fdir p q ->
    (0 < nth p out 0 < nth q out 0)%Z.
  Proof using V G Hlim Hfuel Eo.
    intros Hp Hq NE F. destruct the_order as [order [[ND [HO Hup]] [L [H1 H2]]]].
    destruct (in_split q order) as [D [R E]]; [now apply HO|].
    assert (Hi : In p D) by (apply (Hup D q R E p); auto).
    apply In_nth_error in Hi. destruct Hi as [i Hi].
    assert (Li : i < length D) by (apply nth_error_Some; congruence).
    assert (Oi : nth_error order i = Some p) by (rewrite E, nth_error_app1 by lia; exact Hi).
    assert (Oq : nth_error order (length D) = Some q) by (rewrite E, nth_error_app2, Nat.sub_diag by lia; reflexivity).
    rewrite (H1 i p p Oi (proj2 (proj1 G p Hp)) (self_first Hp)), (H1 (length D) q q Oq (proj2 (proj1 G q Hq)) (self_first Hq)). lia.
  Qed.

  (** *** counting *)
  Definition part (q : nat) : list nat := where_ (Z.eqb (nth q out 0%Z)) out.

  Lemma in_part q c : In q pours -> (In c (part q) <-> c < N /\ first_pour fdir pours c q).
  Proof using V G Hlim Hfuel Eo.
    intros Hq. assert (Lq : q < N) by now apply G. assert (Fq := self_first Hq).
    unfold part. rewrite (in_where_nth _ _ _ 0%Z), out_len, Z.eqb_eq. split.
    - intros [Hc E]. split; auto. apply (proj1 (label_iff Lq Hc) E). exact Fq.
    - intros [Hc F]. split; auto. now apply (label_same Lq Hc Fq F).
  Qed.

  Lemma part_size q : size_of out q = Z.of_nat (length (part q)).
  Proof using. unfold size_of. now rewrite count_where. Qed.

  Lemma part_nodup q : NoDup (part q).
  Proof using. apply where_nodup. Qed.
End Map.
Arguments self_first {fdir pours p} _.

(** decidable sets of cells can be listed *)
Lemma list_of (P : nat -> Prop) n : (forall c, c < n -> P c \/ ~ P c) -> exists l, NoDup l /\ forall c, In c l <-> c < n /\ P c.
Proof.
  induction n as [|n IH]; intros H.
  - exists []. split; [constructor|]. intros c. split; [intros []|intros [X _]; lia].
  - destruct IH as [l [ND Hl]]; [intros; apply H; lia|]. destruct (H n) as [Y|Y]; [lia| |].
    + exists (n :: l). split; [constructor; auto; rewrite Hl; lia|]. intros c. cbn [In]. rewrite Hl. split.
      * intros [<-|[X1 X2]]; split; auto; lia.
      * intros [X1 X2]. destruct (Nat.eq_dec n c); auto. right. split; auto. lia.
    + exists l. split; auto. intros c. rewrite Hl. split; intros [X1 X2]; split; auto.
      destruct (Nat.eq_dec n c) as [<-|]; [contradiction|lia].
Qed.

(** the cells of a watershed *)
Definition shed_cells (fuel : nat) (fdir : list Z) (n : nat) : list nat :=
  match get_watershed_boundary fuel fdir (Z.of_nat n) None with Ok s => where_ (Z.eqb 1) s | Err _ => [] end.

Lemma in_shed fuel fdir n c : valid_fdir fdir -> n < length fdir -> length fdir <= fuel ->
  (In c (shed_cells fuel fdir n) <-> c < length fdir /\ flows_through fdir c n).
Proof.
  intros V Hn Hf. destruct (@C24_watershed_is_upstream fdir n fuel V Hn Hf) as [o [E [L H]]].
  unfold shed_cells. rewrite E, (in_where_nth _ _ _ 0%Z), L, Z.eqb_eq. split; intros [Hc X]; split; auto.
  - destruct (flows_dec V n Hc) as [F|F]; auto. apply (proj2 (H c Hc)) in F.
    apply nth_error_nth with (d := 0%Z) in F. lia.
  - apply (proj1 (H c Hc)) in X. apply nth_error_nth with (d := 0%Z) in X. now rewrite X.
Qed.

Lemma shed_nodup fuel fdir n : NoDup (shed_cells fuel fdir n).
Proof. unfold shed_cells. destruct get_watershed_boundary; [apply where_nodup|constructor]. Qed.

(** ** C145.  Numbers grow downstream. *)
Theorem C145_numbers_grow_downstream :
  forall fdir pours lim fuel out,
    valid_fdir fdir -> good_pours fdir pours -> length pours + 2 <= lim -> 2 * length fdir + 2 <= fuel ->
    get_subbasins lim fuel fdir (map Z.of_nat pours) = Ok out ->
    (forall c d, c < length fdir -> flows_through fdir c d -> (0 < nth d out 0)%Z -> (0 < nth c out 0 <= nth d out 0)%Z) /\
    (forall p q, In p pours -> In q pours -> p <> q -> flows_through fdir p q -> (0 < nth p out 0 < nth q out 0)%Z).
Proof.
  intros fdir pours lim fuel out V G Hl Hf E. split; [|now apply (order_less V G Hl Hf E)].
  intros c d Hc F P. assert (Hd : d < length fdir) by (eapply flows_lt; eauto).
  assert (T := label_zero V G Hl Hf E Hd).
  destruct (first_pour_dec V pours Hd) as [[q Fq]|Nd].
  2:{ exfalso. assert (nth d out 0%Z = 0%Z); [|lia]. apply T. intros x [Hx [k [<- _]]]. now apply (Nd k). }
  destruct (first_down V F Fq Hc) as [p [Fp Fpq]].
  assert (Lp : p < length fdir) by (apply G; apply Fp). assert (Lq : q < length fdir) by (apply G; apply Fq).
  assert (Ec : nth c out 0%Z = nth p out 0%Z).
  { apply (label_same V G Hl Hf E Hc Lp Fp (self_first (proj1 Fp))). reflexivity. }
  assert (Ed : nth d out 0%Z = nth q out 0%Z).
  { apply (label_same V G Hl Hf E Hd Lq Fq (self_first (proj1 Fq))). reflexivity. }
  destruct (Nat.eq_dec p q) as [<-|NE]; [lia|].
  assert (X := order_less V G Hl Hf E (proj1 Fp) (proj1 Fq) NE Fpq). lia.
Qed.

(** with more pour points the first one met comes no later *)
Lemma first_more fdir P Q c p q : incl P Q -> first_pour fdir Q c q -> (first_pour fdir P c p <-> first_pour fdir P q p).
Proof.
  intros I [Hq [k [Ek Hk]]]. split.
  - intros [Hp [m [Em Hm]]]. split; auto. assert (k <= m).
    { destruct (le_lt_dec k m); auto. exfalso. apply (Hk m); auto. rewrite Em. now apply I. }
    exists (m - k). split.
    + rewrite <- Ek, <- downs_add. replace (k + (m - k)) with m by lia. auto.
    + intros j Hj. rewrite <- Ek, <- downs_add. apply Hm. lia.
  - intros [Hp [m [Em Hm]]]. split; auto. exists (k + m). split; [now rewrite downs_add, Ek|].
    intros j Hj. destruct (le_lt_dec k j).
    + replace j with (k + (j - k)) by lia. rewrite downs_add, Ek. apply Hm. lia.
    + intros X. apply (Hk j); auto.
Qed.

(** ** C145.  More pour points refine the map. *)
Theorem C145_more_points_refine :
  forall fdir P Q lim fuel outP outQ,
    valid_fdir fdir -> good_pours fdir P -> good_pours fdir Q -> incl P Q ->
    length P + 2 <= lim -> length Q + 2 <= lim -> 2 * length fdir + 2 <= fuel ->
    get_subbasins lim fuel fdir (map Z.of_nat P) = Ok outP ->
    get_subbasins lim fuel fdir (map Z.of_nat Q) = Ok outQ ->
    (forall c d, c < length fdir -> d < length fdir -> nth c outQ 0%Z = nth d outQ 0%Z -> nth c outP 0%Z = nth d outP 0%Z) /\
    (forall c, c < length fdir -> nth c outQ 0%Z = 0%Z -> nth c outP 0%Z = 0%Z).
Proof.
  intros fdir P Q lim fuel oP oQ V GP GQ I LP LQ Hf EP EQ.
  assert (Z0 : forall c, c < length fdir -> nth c oQ 0%Z = 0%Z -> nth c oP 0%Z = 0%Z).
  { intros c Hc E. apply (label_zero V GP LP Hf EP Hc). intros p [Hp [k [Ek _]]].
    assert (N := proj1 (label_zero V GQ LQ Hf EQ Hc) E).
    destruct (first_pour_dec V Q Hc) as [[q Fq]|Nc]; [exact (N q Fq)|]. apply (Nc k). rewrite Ek. now apply I. }
  split; auto. intros c d Hc Hd E.
  assert (H := proj1 (label_iff V GQ LQ Hf EQ Hc Hd) E).
  destruct (first_pour_dec V Q Hc) as [[q Fq]|Nc].
  - apply (label_iff V GP LP Hf EP Hc Hd). intros p. rewrite (first_more p I Fq). rewrite (first_more p I (proj1 (H q) Fq)). tauto.
  - assert (Ec : nth c oQ 0%Z = 0%Z) by (apply (label_zero V GQ LQ Hf EQ Hc); intros p [Hp [k [<- _]]]; now apply (Nc k)).
    rewrite (Z0 c Hc Ec), (Z0 d Hd); congruence.
Qed.

(** ** C145.  A new pour point takes its subbasin out of one subbasin and leaves the others alone. *)
Theorem C145_new_point_splits_one :
  forall fdir P x lim fuel outP outQ,
    valid_fdir fdir -> good_pours fdir (P ++ [x]) -> ~ In x P ->
    length P + 3 <= lim -> 2 * length fdir + 2 <= fuel ->
    get_subbasins lim fuel fdir (map Z.of_nat P) = Ok outP ->
    get_subbasins lim fuel fdir (map Z.of_nat (P ++ [x])) = Ok outQ ->
    (forall c d, c < length fdir -> d < length fdir ->
       nth c outQ 0%Z <> nth x outQ 0%Z -> nth d outQ 0%Z <> nth x outQ 0%Z ->
       (nth c outQ 0%Z = nth d outQ 0%Z <-> nth c outP 0%Z = nth d outP 0%Z)) /\
    (forall c, c < length fdir -> nth c outQ 0%Z = nth x outQ 0%Z -> nth c outP 0%Z = nth x outP 0%Z) /\
    (forall c, c < length fdir -> nth c outQ 0%Z <> nth x outQ 0%Z -> (nth c outQ 0%Z = 0%Z <-> nth c outP 0%Z = 0%Z)).
Proof.
  intros fdir P x lim fuel oP oQ V GQ Hx Hl Hf EP EQ.
  assert (GP : good_pours fdir P).
  { destruct GQ as [G1 G2]. split; [intros; apply G1, in_app_iff; auto|]. intros p q Hp Hq. apply G2; apply in_app_iff; auto. }
  assert (LP : length P + 2 <= lim) by lia.
  assert (LQ : length (P ++ [x]) + 2 <= lim) by (rewrite app_length; simpl; lia).
  assert (I : incl P (P ++ [x])) by (intros y Hy; apply in_app_iff; auto).
  assert (Hxq : In x (P ++ [x])) by (apply in_app_iff; right; now left).
  assert (Lx : x < length fdir) by now apply GQ.
  assert (Same : forall c, c < length fdir -> nth c oQ 0%Z <> nth x oQ 0%Z -> forall p, first_pour fdir P c p <-> first_pour fdir (P ++ [x]) c p).
  { intros c Hc NE p.
    assert (Nx : ~ first_pour fdir (P ++ [x]) c x).
    { intros F. apply NE. apply (label_same V GQ LQ Hf EQ Hc Lx F (self_first Hxq)). reflexivity. }
    assert (Fw : forall p, first_pour fdir (P ++ [x]) c p -> first_pour fdir P c p).
    { intros q F. assert (F' := F). destruct F as [Hq [k [Ek Hk]]]. apply in_app_iff in Hq. destruct Hq as [Hq|[<-|[]]]; [|contradiction].
      split; auto. exists k. split; auto. intros j Hj X. apply (Hk j Hj). now apply I. }
    split; auto. intros F. destruct (first_pour_dec V (P ++ [x]) Hc) as [[q Fq]|Nc].
    - rewrite <- (first_pour_unique (Fw q Fq) F). exact Fq.
    - exfalso. destruct F as [Hp [k [Ek _]]]. apply (Nc k). rewrite Ek. now apply I. }
  split; [|split].
  - intros c d Hc Hd Nc Nd. rewrite (label_iff V GQ LQ Hf EQ Hc Hd), (label_iff V GP LP Hf EP Hc Hd).
    split; intros H p; specialize (H p).
    + now rewrite !Same by auto.
    + now rewrite <- !Same by auto.
  - intros c Hc E. apply (proj1 (C145_more_points_refine V GP GQ I LP LQ Hf EP EQ)); auto.
  - intros c Hc NE. rewrite (label_zero V GQ LQ Hf EQ Hc), (label_zero V GP LP Hf EP Hc).
    split; intros H p F; apply (H p); now apply Same.
Qed.

(** ** C145.  The sizes of the subbasins above a pour point, its own included, add up to the
    size of its watershed. *)
Theorem C145_sizes_add_up :
  forall fdir pours lim fuel out q shed,
    valid_fdir fdir -> good_pours fdir pours -> length pours + 2 <= lim -> 2 * length fdir + 2 <= fuel ->
    get_subbasins lim fuel fdir (map Z.of_nat pours) = Ok out ->
    In q pours -> get_watershed_boundary fuel fdir (Z.of_nat q) None = Ok shed ->
    sum_over Z.add 0%Z (size_of out) (fun p => In p pours /\ flows_through fdir p q) (length fdir)
      (Z.of_nat (count_occ Z.eq_dec shed 1%Z)).
Proof.
  intros fdir pours lim fuel out q shed V G Hl Hf E Hq Es.
  assert (Lq : q < length fdir) by now apply G.
  destruct (@list_of (fun p => In p pours /\ flows_through fdir p q) (length fdir)) as [l [ND Hli]].
  { intros c Hc. destruct (in_dec Nat.eq_dec c pours); [|tauto]. destruct (flows_dec V q Hc); tauto. }
  assert (P : Permutation (shed_cells fuel fdir q) (flat_map (part out) l)).
  { apply NoDup_Permutation; [apply shed_nodup| |].
    - apply nodup_flat; [exact ND|intros; apply part_nodup|]. intros a b c Ha Hb Hca Hcb.
      apply Hli in Ha, Hb. apply (in_part V G Hl Hf E) in Hca; [|tauto]. apply (in_part V G Hl Hf E) in Hcb; [|tauto].
      eapply first_pour_unique; [apply Hca|apply Hcb].
    - intros c. rewrite in_shed by (auto; lia). rewrite in_flat_map. split.
      + intros [Hc F]. destruct (first_down V F (self_first Hq) Hc) as [p [Fp Fpq]]. exists p.
        assert (Lp : p < length fdir) by (apply G; apply Fp). split; [apply Hli; split; auto; split; auto; apply Fp|].
        apply (in_part V G Hl Hf E); [apply Fp|auto].
      + intros [p [Hp Hc]]. apply Hli in Hp. apply (in_part V G Hl Hf E) in Hc; [|tauto]. destruct Hc as [Hc [_ [k [Ek _]]]].
        split; auto. apply (flows_trans (b := p)); [now exists k|tauto]. }
  replace (Z.of_nat (count_occ Z.eq_dec shed 1%Z)) with (wsum Z.add 0%Z (size_of out) l).
  { apply wsum_sum_over; auto; intros; lia. }
  rewrite count_where. apply Permutation_length in P. unfold shed_cells in P. rewrite Es in P. rewrite P, <- wsum_ones.
  rewrite <- (@wsum_flat Z Z.add 0%Z) by (intros; lia). apply wsum_ext. intros p _. now rewrite wsum_ones, part_size.
Qed.

(** the cells above one of some cells off flow cycles: those that meet it first of them, and
    those above the cells that drain into it directly *)
Lemma first_split fdir pours fuel own p :
  valid_fdir fdir -> (forall q, In q pours -> q < length fdir) -> length fdir <= fuel ->
  In p pours -> ~ on_cycle fdir p ->
  NoDup own -> (forall c, In c own <-> c < length fdir /\ first_pour fdir pours c p) ->
  exists l, NoDup l /\ (forall q, In q l <-> q < length fdir /\ enters fdir pours p q) /\
    (forall q, In q l -> ~ on_cycle fdir q) /\
    Permutation (shed_cells fuel fdir p) (own ++ flat_map (shed_cells fuel fdir) l).
Proof.
  intros V Hlt Hf Hp Hc NP Hown.
  assert (Lp : p < length fdir) by auto.
  (* no pour point above p lies on a cycle, and p does not come back *)
  assert (NB : forall k q, q <> p -> flows_through fdir q p -> downs fdir k p <> q).
  { intros k q NE [m F] X. destruct k as [|k]; [cbn in X; congruence|]. apply Hc. split.
    - intros T. apply NE. rewrite <- X. clear -T. generalize (S k). intros n. induction n; cbn; auto. now rewrite T.
    - exists (S k + m). split; [lia|]. now rewrite downs_add, X. }
  assert (OC : forall q, flows_through fdir q p -> q <> p -> ~ on_cycle fdir q).
  { intros q [m F] NE [_ [k [Hk Ek]]].
    assert (R : forall n, downs fdir (n * k) q = q).
    { induction n; cbn [Nat.mul]; auto. now rewrite downs_add, Ek. }
    apply (NB (S m * k - m) q NE); [now exists m|]. rewrite <- F, <- downs_add.
    replace (m + (S m * k - m)) with (S m * k) by nia. apply R. }
  (* a pour point that flows to p without meeting another one *)
  assert (Dec : forall q, q < length fdir -> enters fdir pours p q \/ ~ enters fdir pours p q).
  { intros q Lq. destruct (in_dec Nat.eq_dec q pours) as [Hq|Hq]; [|right; unfold enters; tauto].
    destruct (Nat.eq_dec q p) as [->|NE]; [right; unfold enters; tauto|].
    assert (Ld : down fdir q < length fdir) by (apply (downs_lt V 1 Lq)).
    assert (K : first_pour fdir pours (down fdir q) p <-> enters fdir pours p q).
    { split.
      - intros [_ [k [Ek Hk]]]. split; auto. split; auto. exists (S k). split; [lia|]. split; [exact Ek|].
        intros [|j] Hj; [lia|]. apply (Hk j). lia.
      - intros [_ [_ [[|k] [K1 [K2 K3]]]]]; [lia|]. split; auto. exists k. split; [exact K2|]. intros j Hj. apply (K3 (S j)). lia. }
    destruct (first_pour_dec V pours Ld) as [[x Fx]|Nx].
    - destruct (Nat.eq_dec x p) as [->|NEx]; [left; now apply K|]. right. intros X. apply K in X. apply NEx. eapply first_pour_unique; eauto.
    - right. intros X. apply K in X. destruct X as [_ [k [Ek _]]]. apply (Nx k). now rewrite Ek. }
  destruct (list_of Dec) as [l [ND Hli]].
  assert (Fl : forall q, enters fdir pours p q -> flows_through fdir q p) by (intros q [_ [_ [k [_ [Ek _]]]]]; now exists k).
  assert (P : Permutation (shed_cells fuel fdir p) (own ++ flat_map (shed_cells fuel fdir) l)).
  { apply NoDup_Permutation; [apply shed_nodup| |].
    - assert (Dj : forall c, In c (own) -> ~ In c (flat_map (shed_cells fuel fdir) l)).
      { intros c H1 H2. apply Hown in H1. destruct H1 as [Lc [_ [k [Ek Hk]]]].
        apply in_flat_map in H2. destruct H2 as [q [Hq Hcq]]. apply Hli in Hq. destruct Hq as [Lq Eq].
        apply in_shed in Hcq; auto. destruct Hcq as [_ [m Em]].
        destruct (le_lt_dec k m) as [L|L].
        - apply (NB (m - k) q); [apply Eq|now apply Fl|]. rewrite <- Ek, <- downs_add. replace (k + (m - k)) with m by lia. auto.
        - apply (Hk m L). rewrite Em. apply Eq. }
      assert (NF : NoDup (flat_map (shed_cells fuel fdir) l)).
      { apply nodup_flat; [exact ND|intros; apply shed_nodup|]. intros a b c Ha Hb Hca Hcb.
        apply Hli in Ha, Hb. apply in_shed in Hca; try tauto. apply in_shed in Hcb; try tauto.
        destruct (Nat.eq_dec a b) as [|NE]; auto. exfalso.
        assert (St : forall a b, a <> b -> enters fdir pours p a -> enters fdir pours p b -> flows_through fdir a b -> False).
        { intros u v Nuv [Hu [NEu [k [K1 [K2 K3]]]]] Ev [j Ej]. destruct j as [|j]; [cbn in Ej; congruence|].
          destruct (le_lt_dec k (S j)) as [L|L].
          - apply (NB (S j - k) v); [apply Ev|now apply Fl|]. rewrite <- K2, <- downs_add. replace (k + (S j - k)) with (S j) by lia. auto.
          - apply (K3 (S j)); [lia|]. rewrite Ej. apply Ev. }
        destruct (flows_fork (proj2 Hca) (proj2 Hcb)) as [X|X]; [exact (St a b NE (proj2 Ha) (proj2 Hb) X)|].
        exact (St b a (not_eq_sym NE) (proj2 Hb) (proj2 Ha) X). }
      clear -NP Dj NF. revert NP Dj NF. generalize (flat_map (shed_cells fuel fdir) l) as l1.
      induction own as [|y l0 IH]; intros l1 NP Dj NF; cbn; auto. inversion NP; subst. constructor.
      + rewrite in_app_iff. intros [X|X]; auto. apply (Dj y); auto. now left.
      + apply IH; auto. intros c HH. apply Dj. now right.
    - intros c. rewrite in_shed by (auto; lia). rewrite in_app_iff, in_flat_map, Hown. split.
      + intros [Lc [n En]]. revert c Lc En. induction n as [|n IH]; intros c Lc En.
        * cbn in En. subst c. left. split; auto. now apply self_first.
        * destruct (Nat.eq_dec c p) as [->|NE]; [left; split; auto; now apply self_first|].
          assert (Ld : down fdir c < length fdir) by (apply (downs_lt V 1 Lc)).
          destruct (IH (down fdir c) Ld En) as [[_ F]|[q [Hq Hi]]].
          -- destruct (in_dec Nat.eq_dec c pours) as [Hcp|Hcp].
             ++ right. exists c. split.
                ** apply Hli. split; auto. split; auto. split; auto. destruct F as [_ [k [Ek Hk]]]. exists (S k). split; [lia|]. split; [exact Ek|].
                   intros [|j] Hj; [lia|]. apply (Hk j). lia.
                ** apply in_shed; auto. split; auto. now exists 0.
             ++ left. split; auto. destruct F as [_ [k [Ek Hk]]]. split; auto. exists (S k). split; [exact Ek|].
                intros [|j] Hj; [exact Hcp|]. apply (Hk j). lia.
          -- right. exists q. split; auto. apply Hli in Hq. apply in_shed; try tauto.
             apply in_shed in Hi; try tauto. split; auto. destruct Hi as [_ [j Ej]]. now exists (S j).
      + intros [[Lc F]|[q [Hq Hi]]].
        * split; auto. destruct F as [_ [k [Ek _]]]. now exists k.
        * apply Hli in Hq. apply in_shed in Hi; try tauto. split; [tauto|]. eapply flows_trans; [apply Hi|apply Fl; tauto]. }
  exists l. split; auto. split; auto. split; auto. intros q Hq. apply Hli in Hq. apply OC; [now apply Fl|apply Hq].
Qed.

(** the cells above a pour point off flow cycles: its subbasin, and the cells above the pour
    points that drain into it *)
Lemma shed_split fdir pours lim fuel out p :
  valid_fdir fdir -> good_pours fdir pours -> length pours + 2 <= lim -> 2 * length fdir + 2 <= fuel ->
  get_subbasins lim fuel fdir (map Z.of_nat pours) = Ok out ->
  In p pours -> ~ on_cycle fdir p ->
  exists l, NoDup l /\ (forall q, In q l <-> q < length fdir /\ enters fdir pours p q) /\
    (forall q, In q l -> ~ on_cycle fdir q) /\
    Permutation (shed_cells fuel fdir p) (part out p ++ flat_map (shed_cells fuel fdir) l).
Proof.
  intros V G Hl Hf E Hp Hc. apply (@first_split fdir pours fuel); auto; [intros q Hq; now apply G|lia|apply part_nodup|].
  intros c. apply (@in_part fdir pours lim fuel out V G Hl Hf E p _ Hp).
Qed.

(** ** C145.  Water budget of one subbasin: what accumulates at its pour point is its own size
    plus what accumulates at the pour points that drain into it. *)
Theorem C145_budget :
  forall (W : Type) (wadd : W -> W -> W) (wzero : W) (area : list W) fdir pours lim fuel out cells,
    valid_fdir fdir -> good_pours fdir pours -> length pours + 2 <= lim -> 2 * length fdir + 2 <= fuel ->
    length area = length fdir ->
    get_subbasins lim fuel fdir (map Z.of_nat pours) = Ok out ->
    flow_accumulation_cells wadd wzero fuel fdir area = Ok cells ->
    forall p, In p pours -> ~ on_cycle fdir p ->
      exists s, sum_over Z.add 0%Z (fun q => nth q cells 0%Z) (enters fdir pours p) (length fdir) s /\
                nth_error cells p = Some (size_of out p + s)%Z.
Proof.
  intros W wadd wzero area fdir pours lim fuel out cells V G Hl Hf La E Ea p Hp Hc.
  assert (Lp : p < length fdir) by now apply G.
  destruct (shed_split V G Hl Hf E Hp Hc) as [l [ND [Hli [OC P]]]].
  assert (Cell : forall q, q < length fdir -> ~ on_cycle fdir q -> nth_error cells q = Some (Z.of_nat (length (shed_cells fuel fdir q)))).
  { intros q Lq Oq. destruct (@C24_watershed_is_upstream fdir q fuel V Lq) as [o [Ew _]]; [lia|].
    rewrite (@C109_accumulation_is_watershed_size W wadd wzero fdir area fuel cells o q) by (auto; lia).
    rewrite count_where. unfold shed_cells. now rewrite Ew. }
  exists (wsum Z.add 0%Z (fun q => nth q cells 0%Z) l). split.
  - apply wsum_sum_over; auto; intros; lia.
  - rewrite (Cell p Lp Hc), (Permutation_length P), app_length, Nat2Z.inj_add, part_size. do 2 f_equal.
    rewrite <- wsum_ones, <- (@wsum_flat Z Z.add 0%Z) by (intros; lia). apply wsum_ext. intros q Hq.
    apply Hli in Hq. destruct Hq as [Lq Eq]. rewrite wsum_ones. symmetry. apply nth_error_nth. apply Cell; auto. apply OC. apply Hli. now split.
Qed.

(** the same for areas: what accumulates at the pour point is the area of its subbasin plus
    what accumulates at the pour points that drain into it *)
Theorem C145_area_budget :
  forall (W : Type) (wadd : W -> W -> W) (wzero : W) (area : list W) fdir pours lim fuel out areas,
    exact_sum wadd wzero ->
    valid_fdir fdir -> good_pours fdir pours -> length pours + 2 <= lim -> 2 * length fdir + 2 <= fuel ->
    length area = length fdir ->
    get_subbasins lim fuel fdir (map Z.of_nat pours) = Ok out ->
    flow_accumulation_area wadd wzero fuel fdir area = Ok areas ->
    forall p, In p pours -> ~ on_cycle fdir p ->
      exists own inflows,
        sum_over wadd wzero (fun c => nth c area wzero) (fun c => nth c out 0%Z = nth p out 0%Z) (length fdir) own /\
        sum_over wadd wzero (fun q => nth q areas wzero) (enters fdir pours p) (length fdir) inflows /\
        nth_error areas p = Some (wadd own inflows).
Proof.
  intros W wadd wzero area fdir pours lim fuel out areas X V G Hl Hf La E Ea p Hp Hc.
  assert (X' := X). destruct X' as [C1 [C2 C3]].
  assert (Lp : p < length fdir) by now apply G.
  destruct (shed_split V G Hl Hf E Hp Hc) as [l [ND [Hli [OC P]]]].
  assert (Lo := out_len V G Hl Hf E).
  assert (Cell : forall q, q < length fdir -> ~ on_cycle fdir q ->
            nth_error areas q = Some (wsum wadd wzero (fun c => nth c area wzero) (shed_cells fuel fdir q))).
  { intros q Lq Oq.
    destruct (@C20_accumulated_area _ wadd wzero fdir area fuel areas X V La ltac:(lia) Ea q Lq Oq) as [s [Es S]].
    rewrite Es. f_equal. refine (sum_over_fun C3 S _).
    apply (wsum_sum_over wadd wzero C1 C2); [apply shed_nodup|]. intros c. apply in_shed; auto; lia. }
  exists (wsum wadd wzero (fun c => nth c area wzero) (part out p)), (wsum wadd wzero (fun q => nth q areas wzero) l).
  split; [|split].
  - apply (wsum_sum_over wadd wzero C1 C2); [apply part_nodup|]. intros c. unfold part.
    rewrite (in_where_nth _ _ _ 0%Z), Lo, Z.eqb_eq. intuition congruence.
  - apply (wsum_sum_over wadd wzero C1 C2); auto.
  - rewrite (Cell p Lp Hc), (wsum_perm wadd wzero C1 C2 _ P), (wsum_app wadd wzero C1 C2 C3). do 2 f_equal.
    rewrite <- (wsum_flat wadd wzero C1 C2 C3). apply wsum_ext. intros q Hq. assert (Hq' := Hq). apply Hli in Hq'.
    symmetry. apply nth_error_nth. apply Cell; [tauto|]. now apply OC.
Qed.

(** ** a concrete case: 1 and 2 flow to 3, 3 to 4, 0 to 4, 4 to 5 where the water ends; 6 stands alone *)
Definition C145_map : list Z := [4; 3; 3; 4; 5; 5; 6]%Z.
Example C145_ex :
  valid_fdir C145_map /\ good_pours C145_map [3; 5] /\ good_pours C145_map ([3; 5] ++ [4]) /\ ~ on_cycle C145_map 5 /\
  get_subbasins 20 30 C145_map (map Z.of_nat [3; 5]) = Ok [2; 1; 1; 1; 2; 2; 0]%Z /\
  get_subbasins 20 30 C145_map (map Z.of_nat ([3; 5] ++ [4])) = Ok [2; 1; 1; 1; 2; 3; 0]%Z /\
  flow_accumulation_cells Z.add 0%Z 30 C145_map [1; 1; 1; 1; 1; 1; 1]%Z = Ok [1; 1; 1; 3; 5; 6; 1]%Z /\
  enters C145_map [3; 5] 5 3.
Proof.
  assert (D : forall c, c <= down C145_map c \/ 7 <= c).
  { intros c. do 7 (destruct c as [|c]; [left; cbn; lia|]). right. lia. }
  assert (Up : forall k c, c < 7 -> c <= downs C145_map k c).
  { induction k as [|k IH]; intros c Hc; cbn [downs]; auto. assert (down C145_map c < 7).
    { do 7 (destruct c as [|c]; [cbn; lia|]). lia. }
    destruct (D c) as [X|X]; [|lia]. assert (Y := IH _ H). lia. }
  assert (Ac : forall p q, p < 7 -> q < 7 -> p <> q -> flows_through C145_map p q -> ~ flows_through C145_map q p).
  { intros p q Hp Hq NE [k Ek] [j Ej]. assert (X := Up k p Hp). assert (Y := Up j q Hq). lia. }
  split; [vm_compute; repeat constructor; discriminate|].
  split; [|split; [|split; [|split; [|split; [|split]]]]].
  - split; [intros p [<- | [<- | []]]; cbn; lia|]. intros p q [<- | [<- | []]] [<- | [<- | []]]; apply Ac; lia.
  - split; [intros p [<- | [<- | [<- | []]]]; cbn; lia|].
    intros p q [<- | [<- | [<- | []]]] [<- | [<- | [<- | []]]]; apply Ac; lia.
  - intros [T _]. now apply T.
  - vm_compute. reflexivity.
  - vm_compute. reflexivity.
  - vm_compute. reflexivity.
  - split; [now left|]. split; [lia|]. exists 2. split; [lia|]. split; [reflexivity|].
    intros [|[|j]] Hj; try lia. cbn. intros [X | [X | []]]; lia.
Qed.
