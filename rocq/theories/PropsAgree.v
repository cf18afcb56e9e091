(** C108: flow accumulation obeys the water balance at every cell.
    C109: flow accumulation, watersheds and subbasins agree with each other. *)
From Verif Require Import Py Spec MFlow LGraph LAcc LAcc2 LWs LTopo LSub PropsAcc PropsBasin.
Set Implicit Arguments.
Unset Strict Implicit.
Local Open Scope nat_scope.
Local Open Scope list_scope.

(** [m] flows directly into [n] *)
Definition inflow (fdir : list Z) (n m : nat) : Prop := m <> n /\ down fdir m = n.

Section Inflows.
  Variables (fdir : list Z) (n : nat).
  Definition ins : list nat := filter (fun m => negb (Nat.eqb m n) && Nat.eqb (down fdir m) n) (seq 0 (length fdir)).
  Lemma in_ins m : In m ins <-> m < length fdir /\ inflow fdir n m.
  Proof.
    unfold ins, inflow. rewrite filter_In, in_seq, andb_true_iff, negb_true_iff, Nat.eqb_eq, Nat.eqb_neq. intuition lia.
  Qed.
  Lemma ins_nodup : NoDup ins. Proof. apply NoDup_filter, seq_NoDup. Qed.

  Hypothesis V : valid_fdir fdir.
  Hypothesis Hn : n < length fdir.
  Hypothesis Hc : ~ on_cycle fdir n.

  Lemma not_back m k : inflow fdir n m -> downs fdir k n <> m.
  Proof.
    intros [NE D] E. apply Hc. split.
    - intros T. apply NE. rewrite <- E. clear -T. induction k; cbn; auto. now rewrite T.
    - exists (S k). split; [lia|]. replace (S k) with (k + 1) by lia. rewrite downs_add, E. exact D.
  Qed.

  Lemma inflow_off_cycle m : inflow fdir n m -> ~ on_cycle fdir m.
  Proof.
    intros I [_ [k [Hk E]]]. destruct k as [|k]; [lia|]. cbn in E. destruct (I) as [NE D].
    rewrite D in E. exact (not_back I E).
  Qed.

  (** the cells upstream of [n]: [n] itself and those upstream of its inflows *)
  Lemma up_split (up : nat -> list nat) :
    (forall m, m < length fdir -> NoDup (up m)) ->
    (forall m c, m < length fdir -> ~ on_cycle fdir m -> (In c (up m) <-> c < length fdir /\ flows_through fdir c m)) ->
    Permutation (up n) (n :: flat_map up ins).
  Proof.
    intros ND UP. apply NoDup_Permutation; [now apply ND| |].
    - constructor.
      + rewrite in_flat_map. intros [m [Hm Hi]]. apply in_ins in Hm. destruct Hm as [Lm I].
        apply UP in Hi; auto; [|now apply inflow_off_cycle]. destruct Hi as [_ [k E]]. exact (not_back I E).
      + apply nodup_flat; [apply ins_nodup| |].
        * intros m Hm. apply ND. now apply in_ins in Hm.
        * intros a b c Ha Hb Hca Hcb. apply in_ins in Ha, Hb. destruct Ha as [La Ia], Hb as [Lb Ib].
          apply UP in Hca; auto; [|now apply inflow_off_cycle]. apply UP in Hcb; auto; [|now apply inflow_off_cycle].
          destruct (flows_fork (proj2 Hca) (proj2 Hcb)) as [[k E]|[k E]]; destruct k as [|k]; cbn in E; auto.
          -- destruct (Ia) as [_ D]. rewrite D in E. exfalso. exact (not_back Ib E).
          -- destruct (Ib) as [_ D]. rewrite D in E. exfalso. exact (not_back Ia E).
    - intros c. cbn [In]. rewrite in_flat_map. rewrite UP by auto. split.
      + intros [Lc [k E]]. revert c Lc E. induction k as [|k IH]; intros c Lc E; cbn in E; auto.
        destruct (Nat.eq_dec c n) as [->|NE]; auto. right.
        destruct (Nat.eq_dec (down fdir c) n) as [D|D].
        * exists c. split; [now apply in_ins|]. apply UP; auto.
          { apply inflow_off_cycle. now split. } split; auto. now exists 0.
        * assert (Ld : down fdir c < length fdir) by (apply (downs_lt V 1 Lc)).
          destruct (IH _ Ld E) as [E'|[m [Hm Hi]]]; [congruence|]. exists m. split; auto.
          apply in_ins in Hm. apply UP in Hi; try tauto; [|now apply inflow_off_cycle].
          apply UP; try tauto; [now apply inflow_off_cycle|]. split; auto.
          destruct Hi as [_ [j Ej]]. now exists (S j).
      + intros [->|[m [Hm Hi]]]; [split; auto; now exists 0|].
        apply in_ins in Hm. destruct Hm as [Lm I]. apply UP in Hi; auto; [|now apply inflow_off_cycle].
        destruct Hi as [Lc F]. split; auto. eapply flows_trans; [exact F|]. exists 1. cbn. apply I.
  Qed.
End Inflows.

(** ** C108 *)
Theorem C108_cells_balance :
  forall (W : Type) (wadd : W -> W -> W) (wzero : W) (fdir : list Z) (area : list W) fuel cells,
    valid_fdir fdir -> length area = length fdir -> S (length fdir) <= fuel ->
    flow_accumulation_cells wadd wzero fuel fdir area = Ok cells ->
    forall n, n < length fdir -> ~ on_cycle fdir n ->
      exists s, sum_over Z.add 0%Z (fun m => nth m cells 0%Z) (inflow fdir n) (length fdir) s /\
                nth_error cells n = Some (1 + s)%Z.
Proof.
  intros W wadd wzero fdir area fuel cells V La Hf E n Hn Hc.
  destruct (unit_run V Hf) as [s [F [up [Eu [I Hh]]]]].
  assert (R := run_erase wadd wzero fdir area fuel). rewrite map_tt, La, Eu in R.
  unfold flow_accumulation_cells in E. destruct (acc_run wadd wzero fuel fdir area) as [s'|]; [|discriminate].
  cbn [bind] in E. inversion E; subst cells. simpl in R. inversion R as [R']. clear R E.
  assert (X : forall m, m < length fdir -> nth m (a_cnt s') 0%Z = wsum Z.add 0%Z (fun _ => 1%Z) (up m)).
  { intros m Hm. assert (X := v_c I Hm). rewrite R' in X. exact X. }
  exists (wsum Z.add 0%Z (fun m => nth m (a_cnt s') 0%Z) (ins fdir n)). split.
  - apply wsum_sum_over; try (intros; lia); [apply ins_nodup|apply in_ins].
  - assert (Y := v_l1 I). rewrite R' in Y. simpl in Y.
    rewrite (nth_error_nth' (a_cnt s') 0%Z) by lia. rewrite X by auto. f_equal.
    assert (P : Permutation (up n) (n :: flat_map up (ins fdir n))).
    { apply up_split; auto; [apply (v_upnd I)|]. intros m c Hm Hmc. split; [apply (v_path I _ Hm)|].
      intros [H1 H2]. now apply (up_complete V (repeat_length tt (length fdir)) I Hh Hm Hmc H1). }
    rewrite (@wsum_perm Z Z.add 0%Z) with (l2 := n :: flat_map up (ins fdir n)); auto; try (intros; lia).
    cbn [wsum fold_right]. f_equal. fold (wsum Z.add 0%Z (fun _ => 1%Z) (flat_map up (ins fdir n))).
    fold (wsum Z.add 0%Z (fun m => nth m (a_cnt s') 0%Z) (ins fdir n)).
    rewrite <- (@wsum_flat Z Z.add 0%Z) by (intros; lia). apply wsum_ext. intros m Hm. apply in_ins in Hm.
    now rewrite X by tauto.
Qed.

Theorem C108_area_balance :
  forall (W : Type) (wadd : W -> W -> W) (wzero : W) (fdir : list Z) (area : list W) fuel areas,
    exact_sum wadd wzero ->
    valid_fdir fdir -> length area = length fdir -> S (length fdir) <= fuel ->
    flow_accumulation_area wadd wzero fuel fdir area = Ok areas ->
    forall n, n < length fdir -> ~ on_cycle fdir n ->
      exists s, sum_over wadd wzero (fun m => nth m areas wzero) (inflow fdir n) (length fdir) s /\
                nth_error areas n = Some (wadd (nth n area wzero) s).
Proof.
  intros W wadd wzero fdir area fuel areas [C1 [C2 C3]] V La Hf E n Hn Hc.
  destruct (@acc_run_spec fdir V W wadd wzero C1 C2 C3 area La fuel Hf) as [s [F [up [Eu [I Hh]]]]].
  unfold flow_accumulation_area in E. rewrite Eu in E. cbn [bind] in E. inversion E; subst areas. clear E.
  exists (wsum wadd wzero (fun m => nth m (a_area s) wzero) (ins fdir n)). split.
  - apply wsum_sum_over; auto; [apply ins_nodup|apply in_ins].
  - rewrite (nth_error_nth' (a_area s) wzero) by (rewrite (v_l2 I); auto). rewrite (v_a I Hn). f_equal.
    assert (P : Permutation (up n) (n :: flat_map up (ins fdir n))).
    { apply up_split; auto; [apply (v_upnd I)|]. intros m c Hm Hmc. split; [apply (v_path I _ Hm)|].
      intros [H1 H2]. now apply (up_complete V La I Hh Hm Hmc H1). }
    rewrite (wsum_perm wadd wzero C1 C2 _ P). cbn [wsum fold_right]. f_equal.
    fold (wsum wadd wzero (fun c => nth c area wzero) (flat_map up (ins fdir n))).
    fold (wsum wadd wzero (fun m => nth m (a_area s) wzero) (ins fdir n)).
    rewrite <- (wsum_flat wadd wzero C1 C2 C3). apply wsum_ext. intros m Hm. apply in_ins in Hm.
    symmetry. apply (v_a I). tauto.
Qed.

(** a cell nothing flows into accumulates one cell; so does get_nidp see it *)
Theorem C108_headwaters :
  forall (W : Type) (wadd : W -> W -> W) (wzero : W) (fdir : list Z) (area : list W) fuel cells nidp,
    valid_fdir fdir -> length area = length fdir -> S (length fdir) <= fuel ->
    flow_accumulation_cells wadd wzero fuel fdir area = Ok cells -> get_nidp fdir = Ok nidp ->
    forall n, n < length fdir -> ~ on_cycle fdir n -> down fdir n <> n ->
      (nth_error cells n = Some 1%Z <-> nth_error nidp n = Some 0%Z).
Proof.
  intros W wadd wzero fdir area fuel cells nidp V La Hf E En n Hn Hc Ht.
  destruct (@C19_accumulated_cells _ wadd wzero fdir area fuel cells V La Hf E n Hn Hc) as [l [[ND U] ->]].
  destruct (get_nidp_spec V) as [a [Ea [Lna Na]]]. rewrite Ea in En. injection En as ->.
  rewrite (nth_error_nth' nidp 0%Z) by lia. rewrite Na by auto.
  assert (Hin : In n l) by (apply U; split; auto; now exists 0).
  split; intros X; injection X as X; f_equal.
  - destruct (Nat.eq_dec (indeg fdir n) 0) as [->|Z]; auto.
    assert (P : 0 < indeg fdir n) by lia. apply indeg_pos in P; auto. destruct P as [c [Lc D]].
    assert (Hic : In c l) by (apply U; split; auto; exists 1; exact D).
    destruct l as [|x [|y l]]; cbn in X; try lia. destruct Hin as [<-|[]], Hic as [<-|[]]. congruence.
  - assert (Z : indeg fdir n = 0) by lia.
    assert (A : forall c, In c l -> c = n).
    { intros c Hi. apply U in Hi. destruct Hi as [Lc [k Ek]].
      destruct k as [|k]; auto. exfalso. assert (Q : 0 < indeg fdir n).
      { apply indeg_pos; auto. exists (downs fdir k c). split; [now apply downs_lt|].
        replace (S k) with (k + 1) in Ek by lia. rewrite downs_add in Ek. exact Ek. }
      lia. }
    destruct l as [|x [|y l]]; [destruct Hin|reflexivity|].
    exfalso. inversion ND as [|? ? N1 N2]; subst. apply N1.
    rewrite (A x) by (now left). rewrite <- (A y) by (right; now left). now left.
Qed.

(** ** C109 *)
Lemma count_where (out : list Z) (v : Z) : count_occ Z.eq_dec out v = length (where_ (Z.eqb v) out).
Proof.
  unfold where_. rewrite map_length. generalize 0.
  induction out as [|x out IH]; intros k; cbn; auto.
  rewrite (IH (S k)). destruct (Z.eq_dec x v) as [->|NE].
  - rewrite Z.eqb_refl. reflexivity.
  - destruct (Z.eqb_spec v x); [congruence|]. reflexivity.
Qed.

(** the number of cells accumulated at a cell is the size of its watershed *)
Theorem C109_accumulation_is_watershed_size :
  forall (W : Type) (wadd : W -> W -> W) (wzero : W) (fdir : list Z) (area : list W) fuel cells shed n,
    valid_fdir fdir -> length area = length fdir -> S (length fdir) <= fuel ->
    n < length fdir -> ~ on_cycle fdir n ->
    flow_accumulation_cells wadd wzero fuel fdir area = Ok cells ->
    get_watershed_boundary fuel fdir (Z.of_nat n) None = Ok shed ->
    nth_error cells n = Some (Z.of_nat (count_occ Z.eq_dec shed 1%Z)).
Proof.
  intros W wadd wzero fdir area fuel cells shed n V La Hf Hn Hc Ea Ew.
  destruct (@C19_accumulated_cells _ wadd wzero fdir area fuel cells V La Hf Ea n Hn Hc) as [l [[ND U] ->]]. do 2 f_equal.
  destruct (@C24_watershed_is_upstream fdir n fuel V Hn) as [out [E [L H]]]; [lia|].
  rewrite Ew in E. injection E as <-.
  rewrite count_where. apply Permutation_length. apply NoDup_Permutation; auto; [apply where_nodup|].
  intros c. rewrite U, in_where. split.
  - intros [Lc Fc]. exists 1%Z. split; auto. now apply H.
  - intros [x [Ex Hx]]. apply Z.eqb_eq in Hx. subst x.
    assert (Lc : c < length fdir) by (rewrite <- L; apply nth_error_Some; congruence).
    split; auto. destruct (flows_dec V n Lc) as [Fc|Fc]; auto. apply H in Fc; auto. congruence.
Qed.

(** the area accumulated at a cell is the area of its watershed *)
Theorem C109_area_is_watershed_area :
  forall (W : Type) (wadd : W -> W -> W) (wzero : W) (fdir : list Z) (area : list W) fuel areas shed n,
    exact_sum wadd wzero ->
    valid_fdir fdir -> length area = length fdir -> S (length fdir) <= fuel ->
    n < length fdir -> ~ on_cycle fdir n ->
    flow_accumulation_area wadd wzero fuel fdir area = Ok areas ->
    get_watershed_boundary fuel fdir (Z.of_nat n) None = Ok shed ->
    exists s, nth_error areas n = Some s /\
      sum_over wadd wzero (fun c => nth c area wzero) (fun c => nth_error shed c = Some 1%Z) (length fdir) s.
Proof.
  intros W wadd wzero fdir area fuel areas shed n X V La Hf Hn Hc Ea Ew.
  destruct (@C20_accumulated_area _ wadd wzero fdir area fuel areas X V La Hf Ea n Hn Hc) as [s [Es S]]. exists s. split; auto.
  destruct (@C24_watershed_is_upstream fdir n fuel V Hn) as [out [E [L H]]]; [lia|].
  rewrite Ew in E. injection E as <-.
  assert (G : forall k s, k <= length fdir -> sum_over wadd wzero (fun c => nth c area wzero) (fun c => flows_through fdir c n) k s ->
     sum_over wadd wzero (fun c => nth c area wzero) (fun c => nth_error shed c = Some 1%Z) k s).
  { clear -H. induction 2; constructor; auto; try (apply IHsum_over; lia).
    - now apply H.
    - intros Y. apply H in H2; [congruence|lia]. }
  apply G; auto.
Qed.

(** two watersheds are nested or disjoint; the one of a cell inside another is contained in it *)
Theorem C109_watersheds_nest :
  forall fdir fuel p q shed_p shed_q,
    valid_fdir fdir -> p < length fdir -> q < length fdir -> length fdir <= fuel ->
    get_watershed_boundary fuel fdir (Z.of_nat p) None = Ok shed_p ->
    get_watershed_boundary fuel fdir (Z.of_nat q) None = Ok shed_q ->
    (nth_error shed_q p = Some 1%Z -> forall c, nth_error shed_p c = Some 1%Z -> nth_error shed_q c = Some 1%Z) /\
    (nth_error shed_q p <> Some 1%Z -> nth_error shed_p q <> Some 1%Z ->
       forall c, ~ (nth_error shed_p c = Some 1%Z /\ nth_error shed_q c = Some 1%Z)).
Proof.
  intros fdir fuel p q sp sq V Hp Hq Hf Ep Eq.
  assert (G : forall n s, n < length fdir -> get_watershed_boundary fuel fdir (Z.of_nat n) None = Ok s ->
    forall c, nth_error s c = Some 1%Z <-> c < length fdir /\ flows_through fdir c n).
  { intros n s Hn En c. destruct (@C24_watershed_is_upstream fdir n fuel V Hn Hf) as [o [E [L H]]].
    rewrite En in E. injection E as <-. split.
    - intros X. assert (Lc : c < length fdir) by (rewrite <- L; apply nth_error_Some; congruence). split; auto.
      destruct (flows_dec V n Lc) as [Fc|Fc]; auto. apply H in Fc; auto. congruence.
    - intros [Lc Fc]. now apply H. }
  assert (Gp := G p sp Hp Ep). assert (Gq := G q sq Hq Eq). split.
  - intros X c Y. apply Gq in X. apply Gp in Y. apply Gq. split; [tauto|]. eapply flows_trans; [apply Y|apply X].
  - intros X Y c [A B]. apply Gp in A. apply Gq in B. destruct (flows_fork (proj2 A) (proj2 B)) as [F|F].
    + apply X. apply Gq. auto.
    + apply Y. apply Gp. auto.
Qed.

(** the watershed of a pour point is a union of subbasins, those of the pour points inside it *)
Theorem C109_watershed_is_union_of_subbasins :
  forall fdir pours lim fuel labels q shed,
    valid_fdir fdir -> (forall p, In p pours -> p < length fdir) -> ~ In 0 pours ->
    (forall p q, In p pours -> In q pours -> p <> q -> flows_through fdir p q -> ~ flows_through fdir q p) ->
    length pours + 2 <= lim -> 2 * length fdir + 2 <= fuel ->
    In q pours ->
    get_subbasins lim fuel fdir (map Z.of_nat pours) = Ok labels ->
    get_watershed_boundary fuel fdir (Z.of_nat q) None = Ok shed ->
    forall c, c < length fdir ->
      (nth_error shed c = Some 1%Z <->
       exists p, In p pours /\ nth_error shed p = Some 1%Z /\ nth_error labels p = nth_error labels c).
Proof.
  intros fdir pours lim fuel labels q shed V Hlt H0 Hcyc Hl Hf Hq El Es c Hc.
  destruct (@C27_subbasins_first_pour fdir pours lim fuel V Hlt H0 Hcyc Hl Hf) as [out [order [E [L [ND [HO [H1 H2]]]]]]].
  rewrite El in E. injection E as <-.
  assert (Lq := Hlt q Hq).
  destruct (@C24_watershed_is_upstream fdir q fuel V Lq) as [o [E [Lo H]]]; [lia|]. rewrite Es in E. injection E as <-.
  assert (G : forall c, c < length fdir -> (nth_error shed c = Some 1%Z <-> flows_through fdir c q)).
  { intros x Lx. split; [|intros; now apply H]. intros X.
    destruct (flows_dec V q Lx) as [Fc|Fc]; auto. apply H in Fc; auto. congruence. }
  assert (Lab : forall x p, x < length fdir -> first_pour fdir pours x p ->
    exists i, nth_error order i = Some p /\ nth_error labels x = Some (Z.of_nat (i + 1))).
  { intros x p Lx Fp. destruct (In_nth_error order p) as [i Hi]; [apply HO; apply Fp|]. eauto. }
  assert (Self : forall p, In p pours -> first_pour fdir pours p p).
  { intros p Hp. split; auto. exists 0. split; auto. intros; lia. }
  rewrite G by auto. split.
  - intros Fq. destruct (@C27_every_cell_covered fdir pours c V Hc) as [[p Fp]|N]; [|exfalso; exact (N q Hq Fq)].
    exists p. destruct (Fp) as [Hp [k [Ek Hk]]]. split; auto. split.
    + apply G; auto. destruct Fq as [j Ej]. destruct (le_lt_dec k j).
      * exists (j - k). rewrite <- Ek, <- downs_add. replace (k + (j - k)) with j by lia. auto.
      * exfalso. apply (Hk j); auto. now rewrite Ej.
    + destruct (Lab c p Hc Fp) as [i [Oi ->]]. destruct (Lab p p (Hlt p Hp) (Self p Hp)) as [i' [Oi' ->]].
      assert (i = i'); [|congruence]. apply (proj1 (NoDup_nth_error order) ND); [apply nth_error_Some; congruence|congruence].
  - intros [p [Hp [Sp Elab]]]. apply G in Sp; auto.
    destruct (@C27_every_cell_covered fdir pours c V Hc) as [[p' Fp]|N].
    + destruct (Lab c p' Hc Fp) as [i [Oi Ei]]. destruct (Lab p p (Hlt p Hp) (Self p Hp)) as [i' [Oi' Ei']].
      rewrite Ei, Ei' in Elab. injection Elab as Elab. assert (i = i') by lia. subst i'.
      assert (p' = p) by congruence. subst p'.
      eapply flows_trans; [|exact Sp]. destruct Fp as [_ [k [Ek _]]]. now exists k.
    + destruct (Lab p p (Hlt p Hp) (Self p Hp)) as [i' [Oi' Ei']]. rewrite Ei' in Elab.
      rewrite (H2 c Hc N) in Elab. injection Elab as Elab. lia.
Qed.

(** one pour point: its subbasin is its watershed *)
Theorem C109_single_subbasin_is_watershed :
  forall fdir q lim fuel,
    valid_fdir fdir -> 0 < q < length fdir -> 3 <= lim -> 2 * length fdir + 2 <= fuel ->
    exists shed, get_watershed_boundary fuel fdir (Z.of_nat q) None = Ok shed /\
                 get_subbasins lim fuel fdir [Z.of_nat q] = Ok shed.
Proof.
  intros fdir q lim fuel V Hq Hl Hf.
  destruct (@C27_subbasins_first_pour fdir [q] lim fuel) as [out [order [E [L [ND [HO [H1 H2]]]]]]]; auto.
  { intros p [<-|[]]; lia. }
  { intros [X|[]]; lia. }
  { intros p p' [<-|[]] [<-|[]]; congruence. }
  destruct (@C24_watershed_is_upstream fdir q fuel V) as [shed [Es [Ls H]]]; try lia.
  exists shed. split; auto. cbn [map] in E. rewrite E. f_equal.
  assert (O : order = [q]).
  { destruct order as [|x [|y order]].
    - exfalso. apply (HO q). now left.
    - assert (X : In x [q]) by (apply HO; now left). destruct X as [<-|[]]. reflexivity.
    - assert (X : In x [q]) by (apply HO; now left). assert (Y : In y [q]) by (apply HO; right; now left).
      destruct X as [<-|[]], Y as [<-|[]]. inversion ND as [|? ? N1 N2]; subst. exfalso. apply N1. now left. }
  subst order. apply nth_error_ext. intros c. destruct (le_lt_dec (length fdir) c) as [G|G].
  - rewrite !(proj2 (nth_error_None _ _)); auto; lia.
  - destruct (flows_dec V q G) as [F|F].
    + rewrite (proj1 (H c G) F). apply (H1 0 q c); auto. split; [now left|].
      destruct F as [k Ek].
      assert (M : exists j, j <= k /\ downs fdir j c = q /\ forall i, i < j -> downs fdir i c <> q).
      { clear -Ek. revert c Ek. induction k as [|k IH]; intros c Ek.
        - exists 0. repeat split; auto. intros; lia.
        - destruct (Nat.eq_dec c q) as [->|NE]; [exists 0; repeat split; auto; [lia|]; intros; lia|].
          destruct (IH _ Ek) as [j [J1 [J2 J3]]]. exists (S j). split; [lia|]. split; auto.
          intros [|i] Hi; cbn; auto. apply J3. lia. }
      destruct M as [j [_ [Ej Hj]]]. exists j. split; auto. intros i Hi [X|[]]. apply (Hj i Hi). auto.
    + rewrite (proj2 (H c G) F). apply H2; auto. intros p [<-|[]]. exact F.
Qed.

(** ** a concrete case: 1 and 2 flow to 3, 3 to 4, 4 keeps its water; 0 flows to 4 *)
Example C108_C109_ex :
  let fdir := [4; 3; 3; 4; 4]%Z in
  flow_accumulation_cells Z.add 0%Z 20 fdir [1; 1; 1; 1; 1]%Z = Ok [1; 1; 1; 3; 5]%Z /\
  get_nidp fdir = Ok [0; 0; 0; 2; 3]%Z /\
  get_watershed_boundary 20 fdir 3 None = Ok [0; 1; 1; 1; 0]%Z /\
  get_subbasins 20 20 fdir [3; 4]%Z = Ok [2; 1; 1; 1; 2]%Z /\
  get_subbasins 20 20 fdir [3]%Z = Ok [0; 1; 1; 1; 0]%Z.
Proof. repeat split; vm_compute; reflexivity. Qed.
