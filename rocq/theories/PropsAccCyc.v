(** C125: flow accumulation on direction arrays with flow cycles (which ties can produce, C63).  The
    flow that reaches a cycle stops at the cell where it enters; no cell is counted twice and none
    is lost. *)
From Coq Require Import Permutation.
From Verif Require Import Py Spec MFlow LGraph LAcc LAcc2 LAcc3 PropsAcc PropsAcc2.
Set Implicit Arguments.
Unset Strict Implicit.
Local Open Scope nat_scope.
Local Open Scope list_scope.

(** the flow path of [c] reaches [n] without having been on a cycle before *)
Definition enters (fdir : list Z) (c n : nat) : Prop :=
  exists k, downs fdir k c = n /\ forall j, j < k -> ~ on_cycle fdir (downs fdir j c).

(** where flow ends: a terminal cell, or a cell of a cycle *)
Definition end_cell (fdir : list Z) (n : nat) : Prop := terminal fdir n \/ on_cycle fdir n.

(** off the cycles, entering a cell is flowing through it *)
Lemma enters_off_cycle fdir c n : ~ on_cycle fdir n -> (enters fdir c n <-> flows_through fdir c n).
Proof.
  intros NC. split; [intros [k [H _]]; now exists k|]. intros [k Hk]. exists k. split; auto.
  intros j Hj Q. assert (C : cyc fdir (downs fdir j c)) by (apply cyc_iff; now right).
  apply (cyc_downs (k - j)) in C. rewrite <- downs_add in C.
  assert (E : downs fdir (j + (k - j)) c = n) by (rewrite <- Hk; f_equal; lia). rewrite E in C.
  apply cyc_iff in C. destruct C as [T|C]; [|contradiction].
  (* n is terminal and the cell on the cycle reaches it *)
  destruct Q as [Q1 [p [P1 P2]]]. set (x := downs fdir j c) in *.
  assert (X : downs fdir (k - j) x = n) by (unfold x; rewrite <- downs_add; exact E).
  assert (Y : forall i, downs fdir i n = n) by (induction i; auto; rewrite downs_S; unfold terminal in T; congruence).
  assert (Z : x = n).
  { assert (M : downs fdir ((k - j) * p) x = x) by (now apply cyc_mult).
    destruct (Nat.eq_dec (k - j) 0) as [E0|E0]; [rewrite E0 in X; exact X|].
    replace ((k - j) * p) with ((k - j) + ((k - j) * p - (k - j))) in M by nia. rewrite downs_add, X, Y in M. auto. }
  apply Q1. rewrite Z. exact T.
Qed.

Section Cyc.
  Variable fdir : list Z.
  Notation N := (length fdir).
  Hypothesis V : valid_fdir fdir.
  Context {W : Type} (wadd : W -> W -> W) (wzero : W) (area : list W).
  Hypothesis La : length area = N.
  Variables (F : list nat) (up : nat -> list nat) (s : acc (W := W)).
  Hypothesis I : inv fdir wadd wzero area F up none s.
  Hypothesis Hh : forall h, h < N -> indeg fdir h = 0 -> In h F.

  Lemma in_up n c : n < N -> (In c (up n) <-> c < N /\ enters fdir c n).
  Proof.
    intros Hn. split.
    - intros H. destruct (v_path I c Hn H) as [Hc _]. split; auto.
      apply (v_up I c Hn) in H. destruct H as [->|[m [Hm [Hd H]]]]; [exists 0; split; auto; intros; lia|].
      destruct (v_path I c (v_lt I m Hm) H) as [_ [q Hq]]. exists (S q). split; [now rewrite downs_S, Hq|].
      intros j Hj Q. apply (v_nocyc I Hm). assert (C : cyc fdir (downs fdir j c)) by (apply cyc_iff; now right).
      apply (cyc_downs (q - j)) in C. rewrite <- downs_add in C. replace (j + (q - j)) with q in C by lia. now rewrite Hq in C.
    - intros [Hc [k [Hk Hj]]]. revert n Hn Hk. induction k as [|k IH]; intros n Hn Hk.
      + simpl in Hk. subst. apply (v_up I); auto.
      + rewrite downs_S in Hk. set (m := downs fdir k c) in *.
        assert (Hm : m < N) by (apply downs_lt; auto).
        assert (IHm : In c (up m)) by (apply IH; auto).
        destruct (Nat.eq_dec m n) as [E|E]; [now rewrite <- E|].
        apply (v_up I); auto. right. exists m. split; [|split; auto].
        destruct (in_dec Nat.eq_dec m F) as [|HF]; auto. exfalso.
        assert (X := unpassed_cyc V La I Hh Hm HF). apply cyc_iff in X. destruct X as [X|X].
        * apply E. unfold terminal in X. congruence.
        * apply (Hj k); auto.
  Qed.

  Definition ends : list nat := filter (fun n => if in_dec Nat.eq_dec n F then false else true) (seq 0 N).
  Lemma in_ends n : In n ends <-> n < N /\ end_cell fdir n.
  Proof.
    unfold ends, end_cell. rewrite filter_In, in_seq, <- cyc_iff. destruct (in_dec Nat.eq_dec n F) as [H|H].
    - split; [intros [_ Q]; discriminate|]. intros [_ Q]. destruct (v_nocyc I H Q).
    - split; intros [A B]; split; auto; try lia. apply (unpassed_cyc V La I Hh); auto. lia.
  Qed.
  Lemma ends_nodup : NoDup ends. Proof. apply NoDup_filter, seq_NoDup. Qed.

  Lemma ends_total : Permutation (seq 0 N) (flat_map up ends).
  Proof.
    assert (UNI : forall a b c, In a ends -> In b ends -> In c (up a) -> In c (up b) -> a = b).
    { assert (K : forall a b c k k', end_cell fdir a -> downs fdir k c = a -> downs fdir k' c = b ->
          (forall j, j < k' -> ~ on_cycle fdir (downs fdir j c)) -> k <= k' -> a = b).
      { intros a b c k k' [T|Q] Ha Hb Hj L.
        - assert (Y : forall i, downs fdir i a = a) by (induction i; auto; rewrite downs_S; unfold terminal in T; congruence).
          rewrite <- Hb. replace k' with (k + (k' - k)) by lia. rewrite downs_add, Ha. auto.
        - destruct (Nat.eq_dec k k') as [->|]; [congruence|]. exfalso. apply (Hj k); [lia|]. now rewrite Ha. }
      intros a b c Ha Hb Hca Hcb. apply in_ends in Ha, Hb. destruct Ha as [La' Ea], Hb as [Lb Eb].
      apply (in_up c La') in Hca. apply (in_up c Lb) in Hcb.
      destruct Hca as [_ [k [K1 K2]]], Hcb as [_ [k' [K1' K2']]].
      destruct (Nat.le_ge_cases k k'); [|symmetry]; eauto. }
    apply NoDup_Permutation; [apply seq_NoDup| |].
    - apply nodup_flat; [apply ends_nodup| |exact UNI]. intros n Hn. apply in_ends in Hn. now apply (v_upnd I).
    - intros c. rewrite in_seq, in_flat_map. split.
      + intros [_ Hc]. simpl in Hc.
        assert (K : forall n, (exists k, k < n /\ cyc fdir (downs fdir k c) /\ forall j, j < k -> ~ cyc fdir (downs fdir j c)) \/
                              (forall k, k < n -> ~ cyc fdir (downs fdir k c))).
        { induction n as [|n [[k [K1 K2]]|IH]]; [right; intros; lia|left; exists k; split; [lia|auto]|].
          destruct (in_dec Nat.eq_dec (downs fdir n c) F) as [Y|Y].
          - right. intros k Hk. destruct (Nat.eq_dec k n) as [->|]; [apply (v_nocyc I Y)|apply IH; lia].
          - left. exists n. split; [lia|]. split; auto. apply (unpassed_cyc V La I Hh); auto. now apply downs_lt. }
        destruct (K (S N)) as [[k [K1 [K2 K3]]]|K2]; [|exfalso; apply (K2 N); [lia|now apply pigeon]].
        assert (Lk : downs fdir k c < N) by (now apply downs_lt).
        exists (downs fdir k c). split; [apply in_ends; split; auto; now apply cyc_iff|].
        apply in_up; auto. split; auto. exists k. split; auto. intros j Hj Q. apply (K3 j Hj). apply cyc_iff. now right.
      + intros [n [Hn H]]. apply in_ends in Hn. apply in_up in H; [|tauto]. simpl. lia.
  Qed.
End Cyc.

(** C125: the number at any cell, on a cycle or not, is the number of the cells whose flow enters it *)
Theorem C125_cells_with_cycles :
  forall (W : Type) (wadd : W -> W -> W) (wzero : W) (fdir : list Z) (area : list W) fuel cells,
    valid_fdir fdir -> length area = length fdir -> S (length fdir) <= fuel ->
    flow_accumulation_cells wadd wzero fuel fdir area = Ok cells ->
    forall n, n < length fdir ->
      exists l, NoDup l /\ (forall c, In c l <-> c < length fdir /\ enters fdir c n) /\
        nth_error cells n = Some (Z.of_nat (length l)).
Proof.
  intros W wadd wzero fdir area fuel cells V La Hf E n Hn.
  destruct (unit_run V Hf) as [s [F [up [Eu [I Hh]]]]].
  assert (R := run_erase wadd wzero fdir area fuel). rewrite map_tt, La, Eu in R.
  unfold flow_accumulation_cells in E. destruct (acc_run wadd wzero fuel fdir area) as [s'|]; [|discriminate].
  cbn [bind] in E. inversion E; subst cells. simpl in R. inversion R as [R']. clear R E.
  exists (up n). split; [now apply (v_upnd I)|]. split.
  - intros c. apply (in_up V (repeat_length tt (length fdir)) I Hh c Hn).
  - assert (X := v_c I Hn). assert (Y := v_l1 I). rewrite R' in X, Y. simpl in X, Y.
    rewrite (nth_error_nth' (a_cnt s') 0%Z) by lia. rewrite X. f_equal. apply wsum_ones.
Qed.

Theorem C125_area_with_cycles :
  forall (W : Type) (wadd : W -> W -> W) (wzero : W) (fdir : list Z) (area : list W) fuel areas,
    exact_sum wadd wzero ->
    valid_fdir fdir -> length area = length fdir -> S (length fdir) <= fuel ->
    flow_accumulation_area wadd wzero fuel fdir area = Ok areas ->
    forall n, n < length fdir ->
      exists s, nth_error areas n = Some s /\
        sum_over wadd wzero (fun c => nth c area wzero) (fun c => enters fdir c n) (length fdir) s.
Proof.
  intros W wadd wzero fdir area fuel areas [C1 [C2 C3]] V La Hf E n Hn.
  destruct (@acc_run_spec fdir V W wadd wzero C1 C2 C3 area La fuel Hf) as [s [F [up [Eu [I Hh]]]]].
  unfold flow_accumulation_area in E. rewrite Eu in E. cbn [bind] in E. inversion E; subst areas.
  exists (nth n (a_area s) wzero). split; [apply nth_error_nth'; rewrite (v_l2 I); auto|].
  rewrite (v_a I Hn). apply wsum_sum_over; auto; [now apply (v_upnd I)|]. intros c. apply (in_up V La I Hh c Hn).
Qed.

(** C125: nothing is lost: the cells where flow ends together hold every cell and every area once *)
Theorem C125_cells_conserved :
  forall (W : Type) (wadd : W -> W -> W) (wzero : W) (fdir : list Z) (area : list W) fuel cells,
    valid_fdir fdir -> length area = length fdir -> S (length fdir) <= fuel ->
    flow_accumulation_cells wadd wzero fuel fdir area = Ok cells ->
    sum_over Z.add 0%Z (fun t => nth t cells 0%Z) (end_cell fdir) (length fdir) (Z.of_nat (length fdir)).
Proof.
  intros W wadd wzero fdir area fuel cells V La Hf E.
  destruct (unit_run V Hf) as [s [F [up [Eu [I Hh]]]]].
  assert (R := run_erase wadd wzero fdir area fuel). rewrite map_tt, La, Eu in R.
  unfold flow_accumulation_cells in E. destruct (acc_run wadd wzero fuel fdir area) as [s'|]; [|discriminate].
  cbn [bind] in E. inversion E; subst cells. simpl in R. inversion R as [R']. clear R E.
  assert (P := ends_total V (repeat_length tt (length fdir)) I Hh).
  assert (IE := in_ends V (repeat_length tt (length fdir)) I Hh).
  assert (S : wsum Z.add 0%Z (fun t => nth t (a_cnt s') 0%Z) (ends fdir F) = Z.of_nat (length fdir)).
  { rewrite (@wsum_ext _ Z.add 0%Z _ (fun t => wsum Z.add 0%Z (fun _ => 1%Z) (up t))).
    - rewrite (@wsum_flat Z Z.add 0%Z) by (intros; lia). rewrite <- (@wsum_perm Z Z.add 0%Z) with (l1 := seq 0 (length fdir)); auto; try (intros; lia).
      now rewrite wsum_ones, seq_length.
    - intros n Hn. apply IE in Hn. assert (X := v_c I (proj1 Hn)). rewrite R' in X. exact X. }
  rewrite <- S. apply wsum_sum_over; try (intros; lia); [apply ends_nodup|exact IE].
Qed.

Theorem C125_area_conserved :
  forall (W : Type) (wadd : W -> W -> W) (wzero : W) (fdir : list Z) (area : list W) fuel areas,
    exact_sum wadd wzero ->
    valid_fdir fdir -> length area = length fdir -> S (length fdir) <= fuel ->
    flow_accumulation_area wadd wzero fuel fdir area = Ok areas ->
    exists total,
      sum_over wadd wzero (fun t => nth t areas wzero) (end_cell fdir) (length fdir) total /\
      sum_over wadd wzero (fun c => nth c area wzero) (fun _ => True) (length fdir) total.
Proof.
  intros W wadd wzero fdir area fuel areas [C1 [C2 C3]] V La Hf E.
  destruct (@acc_run_spec fdir V W wadd wzero C1 C2 C3 area La fuel Hf) as [s [F [up [Eu [I Hh]]]]].
  unfold flow_accumulation_area in E. rewrite Eu in E. cbn [bind] in E. inversion E; subst areas.
  assert (P := ends_total V La I Hh). assert (IE := in_ends V La I Hh).
  exists (wsum wadd wzero (fun c => nth c area wzero) (seq 0 (length fdir))). split.
  - rewrite (@wsum_perm _ wadd wzero C1 C2 _ _ _ P). rewrite <- (@wsum_flat _ wadd wzero C1 C2 C3).
    rewrite (@wsum_ext _ wadd wzero (fun t => wsum wadd wzero (fun c => nth c area wzero) (up t)) (fun t => nth t (a_area s) wzero)).
    + apply wsum_sum_over; auto using ends_nodup.
    + intros n Hn. apply IE in Hn. symmetry. apply (v_a I (proj1 Hn)).
  - apply wsum_sum_over; auto; [apply seq_NoDup|]. intros c. rewrite in_seq. simpl. intuition lia.
Qed.

(** C125 with an arbitrary addition (floating point included): own area plus the values of the
    inflows that are not on a cycle *)
Theorem C125_any_addition :
  forall (W : Type) (wadd : W -> W -> W) (wzero : W) (fdir : list Z) (area : list W) fuel areas,
    (forall a, In a area -> wadd a wzero = a) ->
    valid_fdir fdir -> length area = length fdir -> S (length fdir) <= fuel ->
    flow_accumulation_area wadd wzero fuel fdir area = Ok areas ->
    length areas = length fdir /\
    forall n, n < length fdir ->
      exists l, NoDup l /\ (forall m, In m l <-> m < length fdir /\ m <> n /\ down fdir m = n /\ ~ on_cycle fdir m) /\
        nth_error areas n = Some (fold_left wadd (map (fun m => nth m areas wzero) l) (nth n area wzero)).
Proof.
  intros W wadd wzero fdir area fuel areas HZ V La Hf E.
  destruct (@run_vals fdir V W wadd wzero area La) with (fuel := fuel) as [s [F [up [ins [Es [I [VL Hh]]]]]]]; auto.
  { intros c Hc. apply HZ, nth_In. lia. }
  unfold flow_accumulation_area in E. rewrite Es in E. cbn [bind] in E. inversion E; subst areas. clear E.
  assert (LA := len_area I). split; auto. intros n Hn. destruct (VL n Hn) as [ND [HI HV]].
  exists (ins n). split; auto. split.
  - intros m. rewrite HI. split.
    + intros [HF HD]. split; [apply (v_lt I _ HF)|]. assert (NC := v_nocyc I HF). rewrite cyc_iff in NC.
      split; [|split; auto; intros Q; apply NC; now right]. intros ->. apply NC. left. exact HD.
    + intros [Hm [Hmn [HD NC]]]. split; auto. destruct (in_dec Nat.eq_dec m F) as [|HF]; auto. exfalso.
      assert (X := unpassed_cyc V (repeat_length tt (length fdir)) I Hh Hm HF). apply cyc_iff in X.
      destruct X as [X|X]; [|contradiction]. apply Hmn. unfold terminal in X. congruence.
  - rewrite (nth_error_nth' _ wzero) by (rewrite LA; auto). f_equal. rewrite HV.
    generalize (nth n area wzero). generalize (ins n). clear.
    induction l as [|m l IH]; intros w; simpl; auto.
Qed.

(** ** Example: cells 1 and 2 form a cycle; 0 flows into 1, 3 and 4 into 2; 5 is terminal, fed by 6 *)
Module ExC.
  Definition fdir : list Z := [1; 2; 1; 2; 3; 5; 5]%Z.
  Example run : flow_accumulation_cells Z.add 0%Z 20 fdir [1; 1; 1; 1; 1; 1; 1]%Z = Ok [1; 2; 3; 2; 1; 2; 1]%Z.
  Proof. vm_compute. reflexivity. Qed.
  Example areas : flow_accumulation_area Z.add 0%Z 20 fdir [10; 20; 30; 40; 50; 60; 70]%Z = Ok [10; 30; 120; 90; 50; 130; 70]%Z.
  Proof. vm_compute. reflexivity. Qed.
  Example cyc1 : on_cycle fdir 1. Proof. split; [discriminate|]. exists 2. split; [lia|reflexivity]. Qed.
  Example valid : valid_fdir fdir. Proof. unfold valid_fdir, fdir. cbn. repeat constructor; lia. Qed.
  (* the end cells 1, 2 and 5 hold 2 + 3 + 2 = 7 cells *)
  Example conserved : sum_over Z.add 0%Z (fun t => nth t [1; 2; 3; 2; 1; 2; 1]%Z 0%Z) (end_cell fdir) 7 7%Z.
  Proof. refine (C125_cells_conserved valid _ _ run); cbn; lia. Qed.
End ExC.
