(** flow_accumulation: fuel, independence of the counts from the areas, totals, wrapped
    (negative) flow directions. *)
From Verif Require Import Py Spec MFlow LGraph LAcc.
Set Implicit Arguments.
Local Open Scope nat_scope.
Local Open Scope list_scope.

(** ** more fuel does not change a result *)
Lemma foldM_impl {S A} (f g : S -> A -> res S) l :
  (forall s x s', f s x = Ok s' -> g s x = Ok s') ->
  forall s s', foldM f l s = Ok s' -> foldM g l s = Ok s'.
Proof.
  intros H. induction l as [|x l IH]; intros s s' E; simpl in *; auto.
  apply bind_ok in E. destruct E as [s1 [E1 E2]]. rewrite (H _ _ _ E1). simpl. auto.
Qed.

Section Fuel.
  Context {W : Type} (wadd : W -> W -> W) (wzero : W).

  Lemma walk_fuel fdir f : forall f' s n a w s', f <= f' ->
    acc_walk wadd f fdir s n a w = Ok s' -> acc_walk wadd f' fdir s n a w = Ok s'.
  Proof.
    induction f as [|f IH]; intros f' s n a w s' Hf E; [discriminate|].
    destruct f' as [|f']; [lia|]. cbn [acc_walk] in *.
    repeat (match type of E with bind ?r _ = _ => destruct r; cbn [bind] in *; [|discriminate] end).
    destruct (2 <=? _)%Z; auto.
    match type of E with bind ?r _ = _ => destruct r; cbn [bind] in *; [|discriminate] end.
    apply IH; auto. lia.
  Qed.

  Lemma run_fuel fdir area f f' s : f <= f' ->
    acc_run wadd wzero f fdir area = Ok s -> acc_run wadd wzero f' fdir area = Ok s.
  Proof.
    intros Hf. unfold acc_run. destruct (get_nidp fdir); cbn [bind]; [|auto].
    apply foldM_impl. intros s0 x s' E. destruct (get (a_nidp s0) x); cbn [bind] in *; auto.
    destruct (negb _); auto. eapply walk_fuel; eauto.
  Qed.
End Fuel.

(** ** the counts do not depend on the areas *)
Lemma get_map {A B} (h : A -> B) l i : get (map h l) i = (x <- get l i ;; Ok (h x)).
Proof. unfold get. rewrite nth_error_map. destruct (nth_error l i); auto. Qed.
Lemma npget_map {A B} (h : A -> B) l i : npget (map h l) i = (x <- npget l i ;; Ok (h x)).
Proof. unfold npget. rewrite map_length. destruct (npidx (length l) i); auto. apply get_map. Qed.
Lemma upd_map {A B} (h : A -> B) l i x : upd (map h l) i (h x) = map h (upd l i x).
Proof. revert i; induction l; intros [|i]; simpl; auto. now rewrite IHl. Qed.
Lemma npset_map {A B} (h : A -> B) l i x : npset (map h l) i (h x) = (l' <- npset l i x ;; Ok (map h l')).
Proof. unfold npset. rewrite map_length. destruct (npidx (length l) i); simpl; auto. now rewrite upd_map. Qed.

Definition bimap {A B} (h : A -> B) (r : res A) : res B := match r with Ok a => Ok (h a) | Err e => Err e end.

Section Erase.
  Context {W : Type} (wadd : W -> W -> W) (wzero : W).
  Definition uadd (_ _ : unit) : unit := tt.
  Definition er (s : acc (W := W)) : acc (W := unit) := Acc (a_cnt s) (map (fun _ => tt) (a_area s)) (a_nidp s).

  Lemma walk_erase fdir f : forall s n a w,
    acc_walk uadd f fdir (er s) n a tt = bimap er (acc_walk wadd f fdir s n a w).
  Proof.
    induction f as [|f IH]; intros s n a w; auto. cbn [acc_walk].
    destruct s as [sc sa sn]. unfold er at 1 2 3 4 5 6; cbn [a_cnt a_area a_nidp].
    destruct (npget sc n) as [c|]; cbn [bind]; auto.
    destruct (npset sc n (c + a)%Z) as [cs|]; cbn [bind]; auto.
    rewrite npget_map. destruct (npget sa n) as [x|]; cbn [bind]; auto.
    change (uadd tt tt) with ((fun _ : W => tt) (wadd x w)).
    rewrite npset_map. destruct (npset sa n (wadd x w)) as [ars|]; cbn [bind]; auto.
    destruct (npget cs n) as [c'|]; cbn [bind]; auto.
    rewrite npget_map. destruct (npget ars n) as [y|]; cbn [bind]; auto.
    destruct (npget sn n) as [k|]; cbn [bind]; auto.
    destruct (2 <=? k)%Z.
    - destruct (npset sn n (k - 1)%Z) as [ns|]; cbn [bind bimap]; auto.
    - destruct (npget fdir n) as [n'|]; cbn [bind]; auto.
      rewrite <- (IH (Acc cs ars sn) n' c' y). reflexivity.
  Qed.

  Lemma run_erase fdir area f :
    acc_run uadd tt f fdir (map (fun _ => tt) area) = bimap er (acc_run wadd wzero f fdir area).
  Proof.
    unfold acc_run. destruct (get_nidp fdir) as [nd|]; cbn [bind]; auto.
    change (Acc (repeat 1%Z (length fdir)) (map (fun _ : W => tt) area) nd)
      with (er (Acc (repeat 1%Z (length fdir)) area nd)).
    generalize (Acc (repeat 1%Z (length fdir)) area nd). intros s.
    generalize (seq 0 (length fdir)). intros l. revert s. induction l as [|x l IH]; intros s; cbn [foldM]; auto.
    change (a_nidp (er s)) with (a_nidp s).
    destruct (get (a_nidp s) x) as [v|]; cbn [bind]; auto.
    destruct (negb (v =? 0)%Z); cbn [bind]; auto.
    rewrite (walk_erase fdir f s (Z.of_nat x) 0%Z wzero).
    destruct (acc_walk wadd f fdir s (Z.of_nat x) 0%Z wzero); cbn [bimap bind]; auto.
  Qed.
End Erase.

(** ** negative flow directions count from the end *)
Definition wrap (N : nat) (z : Z) : Z := if (z <? 0)%Z then (z + Z.of_nat N)%Z else z.

Lemma npidx_wrap N z : (- Z.of_nat N <= z)%Z -> npidx N (wrap N z) = npidx N z.
Proof.
  intros H. unfold wrap. destruct (Z.ltb_spec z 0); auto. unfold npidx.
  destruct (Z.leb_spec 0 (z + Z.of_nat N)); [|lia]. destruct (Z.leb_spec 0 z); [lia|].
  destruct (Z.ltb_spec (z + Z.of_nat N) (Z.of_nat N)); [|lia].
  destruct (Z.leb_spec (- Z.of_nat N) z); [auto|lia].
Qed.

Lemma npget_wrap {A} (l : list A) z : (- Z.of_nat (length l) <= z)%Z -> npget l (wrap (length l) z) = npget l z.
Proof. intros H. unfold npget. now rewrite npidx_wrap. Qed.
Lemma npset_wrap {A} (l : list A) z x : (- Z.of_nat (length l) <= z)%Z -> npset l (wrap (length l) z) x = npset l z x.
Proof. intros H. unfold npset. now rewrite npidx_wrap. Qed.

(** entries in the range NumPy accepts *)
Definition np_fdir (fdir : list Z) : Prop :=
  Forall (fun d => (- Z.of_nat (length fdir) <= d < Z.of_nat (length fdir))%Z) fdir.

Section Wrap.
  Variable fdir : list Z.
  Notation N := (length fdir).
  Hypothesis B : np_fdir fdir.
  Notation wf := (map (wrap N) fdir).

  Lemma wrap_valid : valid_fdir wf.
  Proof.
    unfold valid_fdir. rewrite map_length. apply Forall_map. eapply Forall_impl; [|exact B].
    intros z Hz. unfold wrap. simpl in Hz. destruct (Z.ltb_spec z 0); lia.
  Qed.

  Lemma nidp_wrap_fold l : forall a, length a = N -> Forall (fun d => (- Z.of_nat N <= d < Z.of_nat N)%Z) l ->
    foldM (fun a cell => v <- npget a cell ;; npset a cell (v + 1)%Z) (map (wrap N) l) a =
    foldM (fun a cell => v <- npget a cell ;; npset a cell (v + 1)%Z) l a.
  Proof.
    induction l as [|z l IH]; intros a La Hl; auto. inversion Hl; subst. cbn [map foldM].
    rewrite <- La. rewrite npget_wrap by lia. destruct (npget a z) as [v|]; cbn [bind]; auto.
    rewrite npset_wrap by lia. destruct (npset a z (v + 1)%Z) as [a'|] eqn:E; cbn [bind]; auto.
    apply npset_length in E. rewrite La. apply IH; auto. congruence.
  Qed.

  Lemma nidp_wrap : get_nidp wf = get_nidp fdir.
  Proof. unfold get_nidp. rewrite map_length. apply nidp_wrap_fold; auto. apply repeat_length. Qed.

  Context {W : Type} (wadd : W -> W -> W) (wzero : W).

  Definition lens (s : acc (W := W)) := length (a_cnt s) = N /\ length (a_area s) = N /\ length (a_nidp s) = N.

  Lemma walk_lens f : forall s n a w s', lens s -> acc_walk wadd f fdir s n a w = Ok s' -> lens s'.
  Proof.
    induction f as [|f IH]; intros s n a w s' [L1 [L2 L3]] E; [discriminate|]. cbn [acc_walk] in E.
    destruct (npget (a_cnt s) n) as [c|]; cbn [bind] in E; [|discriminate].
    destruct (npset (a_cnt s) n (c + a)%Z) as [cs|] eqn:E1; cbn [bind] in E; [|discriminate].
    destruct (npget (a_area s) n) as [x|]; cbn [bind] in E; [|discriminate].
    destruct (npset (a_area s) n (wadd x w)) as [ars|] eqn:E2; cbn [bind] in E; [|discriminate].
    apply npset_length in E1, E2.
    destruct (npget cs n) as [c'|]; cbn [bind] in E; [|discriminate].
    destruct (npget ars n) as [y|]; cbn [bind] in E; [|discriminate].
    destruct (npget (a_nidp s) n) as [k|]; cbn [bind] in E; [|discriminate].
    destruct (2 <=? k)%Z.
    - destruct (npset (a_nidp s) n (k - 1)%Z) as [ns|] eqn:E3; cbn [bind] in E; [|discriminate].
      apply npset_length in E3. inversion E. subst. unfold lens. simpl. repeat split; congruence.
    - destruct (npget fdir n) as [n'|]; cbn [bind] in E; [|discriminate].
      eapply IH; [|exact E]. unfold lens; simpl. repeat split; congruence.
  Qed.

  Lemma walk_wrap f : forall s n a w, lens s -> (- Z.of_nat N <= n)%Z ->
    acc_walk wadd f wf s (wrap N n) a w = acc_walk wadd f fdir s n a w.
  Proof.
    induction f as [|f IH]; intros s n a w [L1 [L2 L3]] Hn; auto. cbn [acc_walk].
    rewrite <- L1 at 1. rewrite npget_wrap by lia. destruct (npget (a_cnt s) n) as [c|]; cbn [bind]; auto.
    rewrite <- L1 at 1. rewrite npset_wrap by lia. destruct (npset (a_cnt s) n (c + a)%Z) as [cs|] eqn:E1; cbn [bind]; auto.
    rewrite <- L2 at 1. rewrite npget_wrap by lia. destruct (npget (a_area s) n) as [x|]; cbn [bind]; auto.
    rewrite <- L2 at 1. rewrite npset_wrap by lia. destruct (npset (a_area s) n (wadd x w)) as [ars|] eqn:E2; cbn [bind]; auto.
    apply npset_length in E1, E2. rewrite L1 in E1. rewrite L2 in E2.
    rewrite <- E1 at 1. rewrite npget_wrap by lia. destruct (npget cs n) as [c'|]; cbn [bind]; auto.
    rewrite <- E2 at 1. rewrite npget_wrap by lia. destruct (npget ars n) as [y|]; cbn [bind]; auto.
    rewrite <- L3 at 1. rewrite npget_wrap by lia. destruct (npget (a_nidp s) n) as [k|]; cbn [bind]; auto.
    destruct (2 <=? k)%Z.
    - rewrite <- L3 at 1. rewrite npset_wrap by lia. auto.
    - assert (X : npget wf (wrap N n) = (z <- npget fdir n ;; Ok (wrap N z))).
      { rewrite npget_map. rewrite npget_wrap by lia. auto. }
      rewrite X. destruct (npget fdir n) as [n'|] eqn:En; cbn [bind]; auto.
      apply IH; [unfold lens; simpl; auto|].
      unfold npget in En. destruct (npidx N n); [|discriminate]. apply get_ok in En. apply nth_error_In in En.
      unfold np_fdir in B. rewrite Forall_forall in B. specialize (B _ En). lia.
  Qed.

  Lemma run_wrap area f : length area = N ->
    acc_run wadd wzero f wf area = acc_run wadd wzero f fdir area.
  Proof.
    intros La. unfold acc_run. rewrite nidp_wrap. destruct (get_nidp fdir) as [nd|] eqn:En; cbn [bind]; auto.
    rewrite map_length.
    assert (L0 : lens (Acc (repeat 1%Z N) area nd)).
    { unfold lens; simpl. split; [apply repeat_length|]. split; auto.
      clear - En. unfold get_nidp in En.
      assert (G : forall l a a', foldM (fun a cell => v <- npget a cell ;; npset a cell (v + 1)%Z) l a = Ok a' ->
        length a' = length a).
      { induction l as [|z l IH]; intros a a' E; simpl in E; [congruence|].
        destruct (npget a z) as [v|]; cbn [bind] in E; [|discriminate].
        destruct (npset a z (v + 1)%Z) as [a1|] eqn:E1; cbn [bind] in E; [|discriminate].
        apply npset_length in E1. apply IH in E. congruence. }
      apply G in En. now rewrite repeat_length in En. }
    revert L0. generalize (Acc (repeat 1%Z N) area nd). generalize (seq 0 N).
    induction l as [|x l IH]; intros s Ls; cbn [foldM]; auto.
    destruct (get (a_nidp s) x) as [v|]; cbn [bind]; auto.
    destruct (negb (v =? 0)%Z); cbn [bind]; auto.
    assert (X : wrap N (Z.of_nat x) = Z.of_nat x) by (unfold wrap; destruct (Z.ltb_spec (Z.of_nat x) 0); lia).
    assert (Y := @walk_wrap f s (Z.of_nat x) 0%Z wzero Ls ltac:(lia)). rewrite X in Y. rewrite Y.
    destruct (acc_walk wadd f fdir s (Z.of_nat x) 0%Z wzero) as [s'|] eqn:E; cbn [bind]; auto.
    apply IH. eapply walk_lens; eauto.
  Qed.
End Wrap.

(** ** totals *)
Section Total.
  Variable fdir : list Z.
  Notation N := (length fdir).
  Hypothesis V : valid_fdir fdir.
  Hypothesis A : acyclic fdir.

  Definition terminals := filter (fun n => Nat.eqb (down fdir n) n) (seq 0 N).

  Lemma in_terminals n : In n terminals <-> n < N /\ terminal fdir n.
  Proof. unfold terminals, terminal. rewrite filter_In, in_seq, Nat.eqb_eq. intuition lia. Qed.

  Lemma terminals_nodup : NoDup terminals.
  Proof. apply NoDup_filter, seq_NoDup. Qed.

  Lemma terminal_stays n k : terminal fdir n -> downs fdir k n = n.
  Proof. intros H. induction k; auto. rewrite downs_S, IHk. exact H. Qed.

  Lemma ends_terminal c : c < N -> exists t, t < N /\ terminal fdir t /\ flows_through fdir c t.
  Proof.
    intros Hc. exists (downs fdir N c). assert (L := downs_lt V N Hc). split; auto. split; [|now exists N].
    destruct (proj1 (cyc_iff fdir _) (pigeon V Hc)) as [H|H]; auto. destruct (A L H).
  Qed.

  Lemma terminal_unique c t1 t2 : terminal fdir t1 -> terminal fdir t2 ->
    flows_through fdir c t1 -> flows_through fdir c t2 -> t1 = t2.
  Proof.
    intros T1 T2 F1 F2. destruct (flows_fork F1 F2) as [[k H]|[k H]]; rewrite terminal_stays in H; auto.
  Qed.

  Lemma nodup_flat (up : nat -> list nat) l : NoDup l -> (forall n, In n l -> NoDup (up n)) ->
    (forall a b c, In a l -> In b l -> In c (up a) -> In c (up b) -> a = b) -> NoDup (flat_map up l).
  Proof.
    induction 1 as [|x l Hx ND IH]; intros H1 H2; simpl; [constructor|].
    assert (G : forall l1 l2 : list nat, NoDup l1 -> NoDup l2 -> (forall c, In c l1 -> In c l2 -> False) -> NoDup (l1 ++ l2)).
    { clear. induction 1; intros H2 H3; simpl; auto. constructor.
      - rewrite in_app_iff. intros [H4|H4]; auto. eapply H3; [now left|]; auto.
      - apply IHNoDup; auto. intros c Hc. apply H3. now right. }
    apply G.
    - apply H1. now left.
    - apply IH; [intros; apply H1; now right|]. intros a b c Ha Hb. apply H2; now right.
    - intros c Hc1 Hc2. apply in_flat_map in Hc2. destruct Hc2 as [y [Hy Hc2]].
      assert (x = y) by (eapply H2; [now left|now right|eauto|eauto]). subst. contradiction.
  Qed.

  Lemma up_total (up : nat -> list nat) :
    (forall n, n < N -> NoDup (up n)) ->
    (forall n c, n < N -> (In c (up n) <-> c < N /\ flows_through fdir c n)) ->
    Permutation (seq 0 N) (flat_map up terminals).
  Proof.
    intros H1 H2. apply NoDup_Permutation; [apply seq_NoDup| |].
    - apply nodup_flat; [apply terminals_nodup| |].
      + intros n Hn. apply in_terminals in Hn. apply H1, Hn.
      + intros a b c Ha Hb Hca Hcb. apply in_terminals in Ha, Hb.
        apply H2 in Hca; [|tauto]. apply H2 in Hcb; [|tauto]. eapply terminal_unique; [apply Ha|apply Hb| |]; [apply Hca|apply Hcb].
    - intros c. rewrite in_seq, in_flat_map. split.
      + intros Hc. destruct (@ends_terminal c) as [t [T1 [T2 T3]]]; [lia|]. exists t.
        split; [now apply in_terminals|]. apply H2; auto. split; auto. lia.
      + intros [t [Ht Hc]]. apply in_terminals in Ht. apply H2 in Hc; [|tauto]. lia.
  Qed.

  Context {W : Type} (plus : W -> W -> W) (zero : W).
  Hypothesis plus_comm : forall a b, plus a b = plus b a.
  Hypothesis plus_assoc : forall a b c, plus a (plus b c) = plus (plus a b) c.
  Hypothesis plus_0 : forall a, plus a zero = a.

  Lemma wsum_flat (w : nat -> W) up l :
    wsum plus zero (fun t => wsum plus zero w (up t)) l = wsum plus zero w (flat_map up l).
  Proof. induction l as [|x l IH]; simpl; auto. rewrite wsum_app; auto. now rewrite IH. Qed.

  Lemma wsum_ext (w w' : nat -> W) l : (forall n, In n l -> w n = w' n) -> wsum plus zero w l = wsum plus zero w' l.
  Proof. induction l as [|x l IH]; intros H; simpl; auto. rewrite (H x) by now left. rewrite IH; auto.
    intros; apply H; now right. Qed.
End Total.
