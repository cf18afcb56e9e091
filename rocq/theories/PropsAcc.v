(** C18-C23: flow accumulation and inflow counts.

    Notions used in the statements (Spec.v): [valid_fdir] (every entry is a cell number),
    [flows_through fdir c n] (the flow path of [c], itself included, passes through [n]),
    [on_cycle], [acyclic], [terminal], [sum_over].
    [W] is the type of areas, with any commutative, associative addition with unit (exact
    arithmetic); statements about cell counts hold for any addition at all, hence also for
    floating-point areas.  [fuel] bounds the iterations of the inner [while] loop. *)
From Verif Require Import Py Spec MFlow LGraph LAcc LAcc2.
Set Implicit Arguments.
Local Open Scope nat_scope.
Local Open Scope list_scope.

Section Laws.
  Context {W : Type} (wadd : W -> W -> W) (wzero : W).
  Definition exact_sum : Prop :=
    (forall a b, wadd a b = wadd b a) /\ (forall a b c, wadd a (wadd b c) = wadd (wadd a b) c) /\
    (forall a, wadd a wzero = a).
End Laws.

(** exactly the members of [l], each once, are the cells whose path passes through [n] *)
Definition upstream_cells (fdir : list Z) (n : nat) (l : list nat) : Prop :=
  NoDup l /\ forall c, In c l <-> c < length fdir /\ flows_through fdir c n.

(** the run on unit areas, from which the counts are read *)
Lemma unit_run fdir fuel : valid_fdir fdir -> S (length fdir) <= fuel ->
  exists s F up, acc_run uadd tt fuel fdir (repeat tt (length fdir)) = Ok s /\
    inv fdir uadd tt (repeat tt (length fdir)) F up none s /\
    (forall h, h < length fdir -> indeg fdir h = 0 -> In h F).
Proof.
  intros V Hf. apply acc_run_spec; auto; try (intros; now repeat match goal with x : unit |- _ => destruct x end).
  apply repeat_length.
Qed.

Lemma map_tt {A} (l : list A) : map (fun _ => tt) l = repeat tt (length l).
Proof. induction l; simpl; congruence. Qed.

Lemma wsum_ones l : wsum Z.add 0%Z (fun _ => 1%Z) l = Z.of_nat (length l).
Proof. induction l as [|x l IH]; auto. cbn [wsum fold_right List.length] in *. unfold wsum in IH. rewrite IH. lia. Qed.

(** ** C18 *)
Theorem C18_accumulation_finishes :
  forall (W : Type) (wadd : W -> W -> W) (wzero : W) (fdir : list Z) (area : list W),
    valid_fdir fdir -> length area = length fdir ->
    exists cells areas,
      length cells = length fdir /\ length areas = length fdir /\
      forall fuel, S (length fdir) <= fuel ->
        flow_accumulation_cells wadd wzero fuel fdir area = Ok cells /\
        flow_accumulation_area wadd wzero fuel fdir area = Ok areas.
Proof.
  intros W wadd wzero fdir area V La.
  destruct (unit_run V (le_n _)) as [s [F [up [E [I _]]]]].
  assert (R := run_erase wadd wzero fdir area (S (length fdir))).
  rewrite map_tt, La, E in R. destruct (acc_run wadd wzero (S (length fdir)) fdir area) as [s'|] eqn:E'; [|discriminate].
  simpl in R. inversion R as [R']. exists (a_cnt s'), (a_area s').
  assert (L1 := v_l1 I). assert (L2 := v_l2 I). rewrite R' in L1, L2. simpl in L1, L2. rewrite map_length in L2.
  split; auto. split; auto. intros fuel Hf. unfold flow_accumulation_cells, flow_accumulation_area.
  rewrite (run_fuel wadd wzero fdir area Hf E'). auto.
Qed.

(** ** C19 *)
Theorem C19_accumulated_cells :
  forall (W : Type) (wadd : W -> W -> W) (wzero : W) (fdir : list Z) (area : list W) fuel cells,
    valid_fdir fdir -> length area = length fdir -> S (length fdir) <= fuel ->
    flow_accumulation_cells wadd wzero fuel fdir area = Ok cells ->
    forall n, n < length fdir -> ~ on_cycle fdir n ->
      exists l, upstream_cells fdir n l /\ nth_error cells n = Some (Z.of_nat (length l)).
Proof.
  intros W wadd wzero fdir area fuel cells V La Hf E n Hn Hc.
  destruct (unit_run V Hf) as [s [F [up [Eu [I Hh]]]]].
  assert (R := run_erase wadd wzero fdir area fuel). rewrite map_tt, La, Eu in R.
  unfold flow_accumulation_cells in E. destruct (acc_run wadd wzero fuel fdir area) as [s'|]; [|discriminate].
  cbn [bind] in E. inversion E; subst cells. simpl in R. inversion R as [R']. clear R E.
  exists (up n). split; [split|].
  - now apply (v_upnd I).
  - intros c. split; [apply (v_path I _ Hn)|]. intros [H1 H2]. now apply (up_complete V (repeat_length tt (length fdir)) I Hh Hn Hc H1).
  - assert (X := v_c I Hn). assert (Y := v_l1 I). rewrite R' in X, Y. simpl in X, Y.
    rewrite (nth_error_nth' (a_cnt s') 0%Z) by lia. rewrite X. f_equal.
    apply wsum_ones.
Qed.

(** ** C20 *)
Theorem C20_accumulated_area :
  forall (W : Type) (wadd : W -> W -> W) (wzero : W) (fdir : list Z) (area : list W) fuel areas,
    exact_sum wadd wzero ->
    valid_fdir fdir -> length area = length fdir -> S (length fdir) <= fuel ->
    flow_accumulation_area wadd wzero fuel fdir area = Ok areas ->
    forall n, n < length fdir -> ~ on_cycle fdir n ->
      exists s, nth_error areas n = Some s /\
        sum_over wadd wzero (fun c => nth c area wzero) (fun c => flows_through fdir c n) (length fdir) s.
Proof.
  intros W wadd wzero fdir area fuel areas [C1 [C2 C3]] V La Hf E n Hn Hc.
  destruct (@acc_run_spec fdir V W wadd wzero C1 C2 C3 area La fuel Hf) as [s [F [up [Eu [I Hh]]]]].
  unfold flow_accumulation_area in E. rewrite Eu in E. cbn [bind] in E. inversion E; subst areas.
  exists (nth n (a_area s) wzero). split; [apply nth_error_nth'; rewrite (v_l2 I); auto|].
  rewrite (v_a I Hn). apply wsum_sum_over; auto.
  - now apply (v_upnd I).
  - intros c. split; [apply (v_path I _ Hn)|]. intros [H1 H2]. now apply (up_complete V La I Hh Hn Hc H1).
Qed.

(** ** C21 *)
Theorem C21_cells_conserved :
  forall (W : Type) (wadd : W -> W -> W) (wzero : W) (fdir : list Z) (area : list W) fuel cells,
    valid_fdir fdir -> acyclic fdir -> length area = length fdir -> S (length fdir) <= fuel ->
    flow_accumulation_cells wadd wzero fuel fdir area = Ok cells ->
    sum_over Z.add 0%Z (fun t => nth t cells 0%Z) (terminal fdir) (length fdir) (Z.of_nat (length fdir)).
Proof.
  intros W wadd wzero fdir area fuel cells V A La Hf E.
  destruct (unit_run V Hf) as [s [F [up [Eu [I Hh]]]]].
  assert (R := run_erase wadd wzero fdir area fuel). rewrite map_tt, La, Eu in R.
  unfold flow_accumulation_cells in E. destruct (acc_run wadd wzero fuel fdir area) as [s'|]; [|discriminate].
  cbn [bind] in E. inversion E; subst cells. simpl in R. inversion R as [R']. clear R E.
  assert (P : Permutation (seq 0 (length fdir)) (flat_map up (terminals fdir))).
  { apply up_total; auto; [apply (v_upnd I)|]. intros n c Hn. split; [apply (v_path I _ Hn)|].
    intros [H1 H2]. apply (up_complete V (repeat_length tt (length fdir)) I Hh Hn (A n Hn) H1); auto. }
  assert (S : wsum Z.add 0%Z (fun t => nth t (a_cnt s') 0%Z) (terminals fdir) = Z.of_nat (length fdir)).
  { rewrite (@wsum_ext _ Z.add 0%Z _ (fun t => wsum Z.add 0%Z (fun _ => 1%Z) (up t))).
    - rewrite (@wsum_flat Z Z.add 0%Z) by (intros; lia). rewrite <- (@wsum_perm Z Z.add 0%Z) with (l1 := seq 0 (length fdir)); auto; try (intros; lia).
      now rewrite wsum_ones, seq_length.
    - intros n Hn. apply in_terminals in Hn. assert (X := v_c I (proj1 Hn)). rewrite R' in X. exact X. }
  rewrite <- S. apply wsum_sum_over; try (intros; lia).
  - apply terminals_nodup.
  - intros c. apply in_terminals.
Qed.

Theorem C21_area_conserved :
  forall (W : Type) (wadd : W -> W -> W) (wzero : W) (fdir : list Z) (area : list W) fuel areas,
    exact_sum wadd wzero ->
    valid_fdir fdir -> acyclic fdir -> length area = length fdir -> S (length fdir) <= fuel ->
    flow_accumulation_area wadd wzero fuel fdir area = Ok areas ->
    exists total,
      sum_over wadd wzero (fun t => nth t areas wzero) (terminal fdir) (length fdir) total /\
      sum_over wadd wzero (fun c => nth c area wzero) (fun _ => True) (length fdir) total.
Proof.
  intros W wadd wzero fdir area fuel areas [C1 [C2 C3]] V A La Hf E.
  destruct (@acc_run_spec fdir V W wadd wzero C1 C2 C3 area La fuel Hf) as [s [F [up [Eu [I Hh]]]]].
  unfold flow_accumulation_area in E. rewrite Eu in E. cbn [bind] in E. inversion E; subst areas.
  assert (P : Permutation (seq 0 (length fdir)) (flat_map up (terminals fdir))).
  { apply up_total; auto; [apply (v_upnd I)|]. intros n c Hn. split; [apply (v_path I _ Hn)|].
    intros [H1 H2]. apply (up_complete V La I Hh Hn (A n Hn) H1); auto. }
  exists (wsum wadd wzero (fun c => nth c area wzero) (seq 0 (length fdir))). split.
  - rewrite (@wsum_perm _ wadd wzero C1 C2 _ _ _ P). rewrite <- (@wsum_flat _ wadd wzero C1 C2 C3).
    rewrite (@wsum_ext _ wadd wzero (fun t => wsum wadd wzero (fun c => nth c area wzero) (up t)) (fun t => nth t (a_area s) wzero)).
    + apply wsum_sum_over; auto; [apply terminals_nodup|apply in_terminals].
    + intros n Hn. apply in_terminals in Hn. symmetry. apply (v_a I (proj1 Hn)).
  - apply wsum_sum_over; auto; [apply seq_NoDup|]. intros c. rewrite in_seq. simpl. intuition lia.
Qed.

(** ** C22: sinks marked -2 do leak.
    [wrap N z] reads the entry z the way NumPy indexing does (z + N if negative). *)
Theorem C22_sinks_leak_refuted :
  exists fdir cells,
    (* cell 0 is a sink marked -2; only cell 1 flows to it; cells 2 and 3 flow to themselves *)
    fdir = [-2; 0; 2; 3]%Z /\
    flow_accumulation_cells Z.add 0%Z 10 fdir [1; 1; 1; 1]%Z = Ok cells /\
    nth 2 cells 0%Z = 3%Z.
Proof. eexists _, _. split; [reflexivity|]. split; [vm_compute; reflexivity|]. reflexivity. Qed.

(** the array is treated exactly as if every negative entry had N added *)
Theorem C22_negative_entries_wrap :
  forall (W : Type) (wadd : W -> W -> W) (wzero : W) (fdir : list Z) (area : list W) fuel,
    Forall (fun d => (- Z.of_nat (length fdir) <= d < Z.of_nat (length fdir))%Z) fdir ->
    length area = length fdir ->
    let wrapped := map (fun d => if (d <? 0)%Z then (d + Z.of_nat (length fdir))%Z else d) fdir in
    flow_accumulation_cells wadd wzero fuel fdir area = flow_accumulation_cells wadd wzero fuel wrapped area /\
    flow_accumulation_area wadd wzero fuel fdir area = flow_accumulation_area wadd wzero fuel wrapped area.
Proof.
  intros W wadd wzero fdir area fuel B La wrapped.
  assert (R := @run_wrap fdir B W wadd wzero area fuel La). change (map (wrap (length fdir)) fdir) with wrapped in R.
  unfold flow_accumulation_cells, flow_accumulation_area. rewrite R. auto.
Qed.

(** in general: every cell upstream of a sink c <> N-2 is counted in cell N-2, unless
    cell N-2 is on a cycle of the wrapped array *)
Theorem C22_sink_feeds_cell_N_minus_2 :
  forall (W : Type) (wadd : W -> W -> W) (wzero : W) (fdir : list Z) (area : list W) fuel cells c,
    Forall (fun d => (- Z.of_nat (length fdir) <= d < Z.of_nat (length fdir))%Z) fdir ->
    length area = length fdir -> S (length fdir) <= fuel ->
    nth_error fdir c = Some (-2)%Z ->
    let wrapped := map (fun d => if (d <? 0)%Z then (d + Z.of_nat (length fdir))%Z else d) fdir in
    ~ on_cycle wrapped (length fdir - 2) ->
    flow_accumulation_cells wadd wzero fuel fdir area = Ok cells ->
    exists l, NoDup l /\ In c l /\ In (length fdir - 2) l /\
      nth_error cells (length fdir - 2) = Some (Z.of_nat (length l)).
Proof.
  intros W wadd wzero fdir area fuel cells c B La Hf Hc wrapped Ho E.
  assert (Lw : length wrapped = length fdir) by apply map_length.
  assert (Hm := nth_error_In _ _ Hc). assert (Hcl : c < length fdir) by (apply nth_error_Some; congruence).
  assert (Hb := B). rewrite Forall_forall in Hb. specialize (Hb _ Hm). simpl in Hb.
  destruct (C22_negative_entries_wrap wadd wzero area fuel B La) as [Ew _]. fold wrapped in Ew. rewrite Ew in E.
  destruct (@C19_accumulated_cells W wadd wzero wrapped area fuel cells) with (n := length fdir - 2) as [l [[ND Hl] Hn]]; auto;
    try (rewrite Lw; auto; lia); [apply (wrap_valid B)|].
  exists l. split; auto. rewrite !Hl, Lw. split; [|split; auto].
  - split; auto. exists 1. simpl. unfold down. unfold wrapped. rewrite (nth_indep _ 0%Z (if (0 <? 0)%Z then (0 + Z.of_nat (length fdir))%Z else 0%Z)) by (rewrite map_length; auto).
    rewrite (map_nth (fun d => if (d <? 0)%Z then (d + Z.of_nat (length fdir))%Z else d)).
    rewrite (nth_error_nth _ _ _ Hc). change (-2 <? 0)%Z with true. cbv iota. lia.
  - split; [lia|]. exists 0. reflexivity.
Qed.

(** ** C23 *)
Theorem C23_nidp_counts_inflows :
  forall fdir, valid_fdir fdir -> exists nidp,
    get_nidp fdir = Ok nidp /\ length nidp = length fdir /\
    forall n, n < length fdir ->
      exists l, NoDup l /\ (forall c, In c l <-> c < length fdir /\ down fdir c = n) /\
        nth_error nidp n = Some (Z.of_nat (length l)).
Proof.
  intros fdir V. destruct (get_nidp_spec V) as [a [E [L H]]]. exists a. split; auto. split; auto.
  intros n Hn. exists (filter (fun c => Nat.eqb (down fdir c) n) (seq 0 (length fdir))).
  split; [apply NoDup_filter, seq_NoDup|]. split.
  - intros c. rewrite filter_In, in_seq, Nat.eqb_eq. intuition lia.
  - rewrite (nth_error_nth' a 0%Z) by lia. rewrite H by auto. reflexivity.
Qed.

(** ** Worked cases *)
Module Ex.
  (* a river 0 -> 1 -> 3 <- 2, cell 3 terminal; a two-cell cycle 4 <-> 5 fed by 6 *)
  Definition fd : list Z := [1; 3; 3; 3; 5; 4; 4]%Z.
  Definition ar : list Z := [10; 20; 30; 40; 50; 60; 70]%Z.

  Example fd_valid : valid_fdir fd.
  Proof. unfold valid_fdir, fd. simpl. repeat constructor; lia. Qed.
  Example zsum : exact_sum Z.add 0%Z.
  Proof. repeat split; intros; lia. Qed.
  Example river_off_cycle : ~ on_cycle fd 3 /\ on_cycle fd 4.
  Proof. split; [intros [H _]; apply H; reflexivity|]. split; [discriminate|]. exists 2. split; [lia|reflexivity]. Qed.
  Example cells : flow_accumulation_cells Z.add 0%Z 8 fd ar = Ok [1; 2; 1; 4; 2; 1; 1]%Z.
  Proof. vm_compute. reflexivity. Qed.
  Example areas : flow_accumulation_area Z.add 0%Z 8 fd ar = Ok [10; 30; 30; 100; 120; 60; 70]%Z.
  Proof. vm_compute. reflexivity. Qed.
  (* the hypotheses of C22_sink_feeds_cell_N_minus_2 *)
  Example sink : ~ on_cycle (map (fun d => if (d <? 0)%Z then (d + 4)%Z else d) [-2; 0; 2; 3]%Z) 2.
  Proof. intros [H _]. apply H. reflexivity. Qed.
  (* an acyclic river *)
  Example river_acyclic : valid_fdir [1; 3; 3; 3]%Z /\ acyclic [1; 3; 3; 3]%Z.
  Proof.
    split; [repeat constructor; simpl; lia|]. intros n Hn [H1 [k [Hk Hd]]]. simpl in Hn.
    assert (D : forall k, downs [1; 3; 3; 3]%Z k 3 = 3) by (induction k0; auto; simpl; auto).
    destruct n as [|[|[|[|n]]]]; try lia.
    - destruct k as [|[|k]]; [lia|discriminate|]. change (downs [1; 3; 3; 3]%Z k 3 = 0) in Hd. rewrite D in Hd. discriminate.
    - destruct k as [|k]; [lia|]. change (downs [1; 3; 3; 3]%Z k 3 = 1) in Hd. rewrite D in Hd. discriminate.
    - destruct k as [|k]; [lia|]. change (downs [1; 3; 3; 3]%Z k 3 = 2) in Hd. rewrite D in Hd. discriminate.
    - apply H1. reflexivity.
  Qed.
  Example nidp : get_nidp fd = Ok [0; 1; 0; 3; 2; 1; 0]%Z.
  Proof. vm_compute. reflexivity. Qed.
End Ex.
