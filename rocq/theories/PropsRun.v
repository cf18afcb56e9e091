(** C50, C51: the UZF irunbnd array (Sfr2005.irunbnd). *)
From Verif Require Import Py Spec MStream LGraph LStream LRun.
Set Implicit Arguments.
Local Open Scope nat_scope.
Local Open Scope list_scope.
Notation lab strm c := (nth c strm 0%Z).

Lemma labelled_in strm s : labelled strm s <-> In s (where_ (fun z => (0 <? z)%Z) strm).
Proof. rewrite in_where. unfold labelled. split; intros [v [H1 H2]]; exists v; split; auto; now apply Z.ltb_lt. Qed.

Lemma labelled_lt strm s : labelled strm s -> s < length strm.
Proof. intros [v [H _]]. apply nth_error_Some. congruence. Qed.

Lemma labelled_lab strm s : labelled strm s -> (0 < lab strm s)%Z.
Proof. intros [v [H Hv]]. now rewrite (nth_error_nth _ _ 0%Z H). Qed.

Lemma labelled_dec strm s : {labelled strm s} + {~ labelled strm s}.
Proof.
  destruct (nth_error strm s) as [v|] eqn:E.
  - destruct (Z_lt_dec 0 v); [left; exists v; auto|]. right. intros [w [H Hw]]. congruence.
  - right. intros [w [H _]]. congruence.
Defined.

Section P.
  Variables fdir strm : list Z.
  Hypothesis V : valid_fdir fdir.
  Hypothesis HL : length strm = length fdir.
  Notation N := (length fdir).

  Lemma lowest_exists c : c < N -> (exists s, labelled strm s /\ flows_through fdir c s) ->
    exists s, lowest_labelled fdir strm c s.
  Proof.
    intros Hc [s [H1 H2]]. revert H1 H2. induction s as [s IH] using lt_wf_ind. intros H1 H2.
    destruct (existsb (fun t => if labelled_dec strm t then existsb (fun k => Nat.eqb (downs fdir k c) t) (seq 0 (S N)) else false) (seq 0 s)) eqn:E.
    - apply existsb_exists in E. destruct E as [t [Ht E]]. apply in_seq in Ht.
      destruct (labelled_dec strm t) as [Hl|]; [|discriminate].
      apply existsb_exists in E. destruct E as [k [_ E]]. apply Nat.eqb_eq in E.
      apply (IH t); auto; [lia|]. exists k; auto.
    - exists s. split; auto. split; auto. intros t Ht Hf. destruct (le_lt_dec s t) as [|Hlt]; auto. exfalso.
      assert (X : existsb (fun t => if labelled_dec strm t then existsb (fun k => Nat.eqb (downs fdir k c) t) (seq 0 (S N)) else false) (seq 0 s) = true).
      { apply existsb_exists. exists t. split; [apply in_seq; lia|].
        destruct (labelled_dec strm t) as [_|Hn]; [|contradiction].
        apply (flows_bound V Hc) in Hf. destruct Hf as [k [Hk Hf]].
        apply existsb_exists. exists k. split; [apply in_seq; lia|now apply Nat.eqb_eq]. }
      congruence.
  Qed.

  (** The label every cell gets, exactly.  The loop takes the stream cells in the order of
      their cell numbers and each claims everything upstream that is not yet claimed. *)
  Theorem C50_irunbnd_exact fuel : N < fuel ->
    exists out, irunbnd fuel fdir strm = Ok out /\ length out = N /\
      (forall c, c < N -> (forall s, labelled strm s -> ~ flows_through fdir c s) -> nth c out 0%Z = 0%Z) /\
      (forall c s, c < N -> ~ labelled strm c -> lowest_labelled fdir strm c s -> nth c out 0%Z = lab strm s) /\
      (forall c s, labelled strm c -> lowest_labelled fdir strm (down fdir c) s ->
         nth c out 0%Z = lab strm (Nat.max c s)) /\
      (forall c, labelled strm c -> (forall s, labelled strm s -> ~ flows_through fdir (down fdir c) s) ->
         nth c out 0%Z = lab strm c).
  Proof.
    intros HF. destruct (irunbnd_spec V strm HL HF) as [out [vis [E I]]]. exists out.
    destruct I as [I1 I2 I3 I4 I5].
    split; [exact E|split; [exact I1|split; [|split; [|split]]]].
    - intros c Hc Hno. apply I3; auto.
      + intros Hi. apply labelled_in in Hi. apply (Hno c); auto. exists 0; reflexivity.
      + intros s Hs [k Hk]. apply labelled_in in Hs. apply (Hno s); auto. exists (S k). exact Hk.
    - intros c s Hc Hn [Hs [Hf Hmin]]. apply I4; auto.
      + now apply labelled_in.
      + destruct Hf as [[|k] Hk]; [simpl in Hk; congruence|]. exists k. exact Hk.
      + intros t Ht [k Hk]. apply Hmin; [now apply labelled_in|]. exists (S k). exact Hk.
      + intros Hi. apply labelled_in in Hi. contradiction.
    - intros c s Hl [Hs [Hf Hmin]]. assert (Hc := labelled_lt Hl). rewrite HL in Hc.
      destruct (le_lt_dec c s) as [H|H].
      + rewrite Nat.max_r by auto. apply I4; auto; [now apply labelled_in|].
        intros t Ht Hft. apply Hmin; auto. now apply labelled_in.
      + rewrite Nat.max_l by lia. apply I5; auto; [now apply labelled_in|]. left. exists s.
        split; [now apply labelled_in|split; auto; lia].
    - intros c Hl Hno. assert (Hc := labelled_lt Hl). rewrite HL in Hc. apply I5; auto; [now apply labelled_in|].
      right. intros s Hs. apply Hno. now apply labelled_in.
  Qed.

  (** C50: non-zero exactly on the cells that drain to a stream cell, and the value is the
      label of a stream cell on the flow path. *)
  Theorem C50_irunbnd_covers_draining_cells fuel : N < fuel ->
    exists out, irunbnd fuel fdir strm = Ok out /\ length out = N /\
      forall c, c < N ->
        (nth c out 0%Z <> 0%Z <-> exists s, labelled strm s /\ flows_through fdir c s) /\
        (nth c out 0%Z <> 0%Z -> exists s, labelled strm s /\ flows_through fdir c s /\
                                           nth c out 0%Z = lab strm s).
  Proof.
    intros HF. destruct (C50_irunbnd_exact HF) as [out [E [L [A [B [C D]]]]]].
    exists out. split; [auto|split; [auto|]]. intros c Hc.
    assert (G : (exists s, labelled strm s /\ flows_through fdir c s) ->
       exists s, labelled strm s /\ flows_through fdir c s /\ nth c out 0%Z = lab strm s).
    { intros Hex. destruct (labelled_dec strm c) as [Hl|Hn].
      - destruct (existsb (fun t => if labelled_dec strm t then existsb (fun k => Nat.eqb (downs fdir k (down fdir c)) t) (seq 0 (S N)) else false) (seq 0 N)) eqn:EE.
        + apply existsb_exists in EE. destruct EE as [t [_ EE]].
          destruct (labelled_dec strm t) as [Ht|]; [|discriminate].
          apply existsb_exists in EE. destruct EE as [k [_ EE]]. apply Nat.eqb_eq in EE.
          destruct (@lowest_exists (down fdir c)) as [s Hs]; [now apply down_lt|exists t; split; auto; exists k; auto|].
          assert (X := C c s Hl Hs). destruct (Nat.max_spec c s) as [[_ M]|[_ M]]; rewrite M in X.
          * exists s. destruct Hs as [Hs [[j Hj] _]]. split; [auto|split; [exists (S j); exact Hj|auto]].
          * exists c. split; [auto|split; [exists 0; reflexivity|auto]].
        + exists c. split; [auto|split; [exists 0; reflexivity|]]. apply D; auto. intros s Hs Hf.
          apply (flows_bound V) in Hf; [|now apply down_lt]. destruct Hf as [k [Hk Hf]].
          assert (X : existsb (fun t => if labelled_dec strm t then existsb (fun k => Nat.eqb (downs fdir k (down fdir c)) t) (seq 0 (S N)) else false) (seq 0 N) = true).
          { apply existsb_exists. exists s. split; [apply in_seq; assert (X := labelled_lt Hs); lia|].
            destruct (labelled_dec strm s); [|contradiction]. apply existsb_exists. exists k.
            split; [apply in_seq; lia|now apply Nat.eqb_eq]. }
          congruence.
      - destruct (lowest_exists Hc Hex) as [s Hs]. exists s. assert (X := B c s Hc Hn Hs).
        destruct Hs as [H1 [H2 _]]. auto. }
    assert (Z0 : (exists s, labelled strm s /\ flows_through fdir c s) \/ nth c out 0%Z = 0%Z).
    { destruct (existsb (fun t => if labelled_dec strm t then existsb (fun k => Nat.eqb (downs fdir k c) t) (seq 0 (S N)) else false) (seq 0 N)) eqn:EE.
      - apply existsb_exists in EE. destruct EE as [t [_ EE]].
        destruct (labelled_dec strm t) as [Ht|]; [|discriminate].
        apply existsb_exists in EE. destruct EE as [k [_ EE]]. apply Nat.eqb_eq in EE.
        left. exists t. split; auto. exists k; auto.
      - right. apply A; auto. intros s Hs Hf.
        apply (flows_bound V) in Hf; auto. destruct Hf as [k [Hk Hf]].
        assert (X : existsb (fun t => if labelled_dec strm t then existsb (fun k => Nat.eqb (downs fdir k c) t) (seq 0 (S N)) else false) (seq 0 N) = true).
        { apply existsb_exists. exists s. split; [apply in_seq; assert (X := labelled_lt Hs); lia|].
          destruct (labelled_dec strm s); [|contradiction]. apply existsb_exists. exists k.
          split; [apply in_seq; lia|now apply Nat.eqb_eq]. }
        congruence. }
    split.
    - split; [intros H; destruct Z0; [auto|contradiction]|].
      intros H. destruct (G H) as [s [H1 [_ ->]]]. apply labelled_lab in H1. lia.
    - intros H. apply G. destruct Z0; [auto|contradiction].
  Qed.

  (** C51 is false wherever a stream label changes: if stream cell [u] runs on to a stream
      cell with other labels further down, and a landscape cell [p] drains into [u], then
      one of the two is not given the label of the first stream cell on its path (which is
      [u] for both). *)
  Theorem C51_label_change_refuted fuel u p : N < fuel ->
    labelled strm u -> labelled strm (down fdir u) ->
    (forall t, labelled strm t -> flows_through fdir (down fdir u) t -> lab strm t <> lab strm u) ->
    p < N -> ~ labelled strm p -> down fdir p = u ->
    first_labelled fdir strm u u /\ first_labelled fdir strm p u /\
    exists out, irunbnd fuel fdir strm = Ok out /\
      (nth u out 0%Z <> lab strm u \/ nth p out 0%Z <> lab strm u).
  Proof.
    intros HF Hu Hd Hlab Hp Hnp Hpu. assert (HuN := labelled_lt Hu). rewrite HL in HuN.
    split; [split; [auto|exists 0; split; [reflexivity|intros; lia]]|].
    split; [split; [auto|exists 1; split; [exact Hpu|intros j Hj; assert (j = 0) by lia; now subst]]|].
    destruct (C50_irunbnd_exact HF) as [out [E [L [A [B [C D]]]]]]. exists out. split; auto.
    destruct (@lowest_exists (down fdir u)) as [s Hs]; [now apply down_lt|exists (down fdir u); split; auto; exists 0; reflexivity|].
    assert (X := C u s Hu Hs). destruct Hs as [Hs [Hf Hmin]]. assert (Hl := Hlab s Hs Hf).
    destruct (le_lt_dec u s) as [H|H].
    - rewrite Nat.max_r in X by auto. left. congruence.
    - right. rewrite (B p s); auto. split; [auto|split].
      + destruct Hf as [k Hk]. exists (S (S k)). simpl. rewrite Hpu. exact Hk.
      + intros t Ht [k Hk]. destruct k as [|[|k]]; simpl in Hk.
        * congruence.
        * lia.
        * apply Hmin; auto. exists k. rewrite Hpu in Hk. exact Hk.
  Qed.

  (** What does hold: a landscape cell gets the label of its first stream cell whenever that
      cell has the smallest number of all stream cells on the path; and the array is right
      everywhere on paths with a single label. *)
  Theorem C51_first_cell_partial fuel : N < fuel ->
    exists out, irunbnd fuel fdir strm = Ok out /\
      (forall c s, c < N -> ~ labelled strm c -> first_labelled fdir strm c s ->
         (forall t, labelled strm t -> flows_through fdir c t -> s <= t) -> nth c out 0%Z = lab strm s) /\
      (forall c s, c < N -> first_labelled fdir strm c s ->
         (forall t, labelled strm t -> flows_through fdir c t -> lab strm t = lab strm s) ->
         nth c out 0%Z = lab strm s).
  Proof.
    intros HF. destruct (C50_irunbnd_exact HF) as [out [E [L [A [B [C D]]]]]].
    destruct (C50_irunbnd_covers_draining_cells HF) as [out' [E' [_ G]]].
    assert (out' = out) by congruence. subst out'.
    exists out. split; auto. split.
    - intros c s Hc Hn [Hs [k [Hk _]]] Hmin. apply B; auto. split; [auto|split; auto]. exists k; auto.
    - intros c s Hc [Hs [k [Hk _]]] Heq. destruct (G c Hc) as [G1 G2].
      destruct G2 as [t [Ht [Hf ->]]]; [apply G1; exists s; split; auto; exists k; auto|]. apply Heq; auto.
  Qed.
End P.

(** Instances: a river 3 -> 2 -> 1 -> 0 with a landscape cell 4 draining into 2; segments
    1 (cells 3, 2) and 2 (cells 1, 0). *)
Module Ex.
  Definition fdir := [0; 0; 1; 2; 2]%Z.
  Definition strm := [2; 2; 1; 1; 0]%Z.
  Example valid : valid_fdir fdir.
  Proof. repeat constructor; cbv; congruence. Qed.
  (** runoff of cell 4 enters the river in cell 2, segment 1, but is assigned to segment 2 *)
  Example run : irunbnd 6 fdir strm = Ok [2; 2; 1; 1; 2]%Z.
  Proof. vm_compute. reflexivity. Qed.
  (** cells 2 and 4 meet the hypotheses of C51_label_change_refuted *)
  Example hyps : labelled strm 2 /\ labelled strm (down fdir 2) /\ ~ labelled strm 4 /\ down fdir 4 = 2 /\
    (forall t, labelled strm t -> flows_through fdir (down fdir 2) t -> lab strm t <> lab strm 2).
  Proof.
    split; [exists 1%Z; split; [reflexivity|lia]|].
    split; [exists 2%Z; split; [reflexivity|lia]|].
    split; [intros [v [H Hv]]; cbv in H; inversion H; subst; lia|].
    split; [reflexivity|].
    intros t _ [k Hk]. assert (X : forall k, downs fdir k 1 = 1 \/ downs fdir k 1 = 0).
    { intros [|j]; [now left|]. right. change (downs fdir j 0 = 0). clear. induction j; auto. }
    change (down fdir 2) with 1 in Hk. destruct (X k) as [Y|Y]; rewrite Y in Hk; subst t; cbv; lia.
  Qed.
  Theorem C51_river_refuted : exists out, irunbnd 6 fdir strm = Ok out /\
    first_labelled fdir strm 4 2 /\ nth 4 out 0%Z <> lab strm 2.
  Proof.
    exists [2; 2; 1; 1; 2]%Z. split; [exact run|]. split; [|cbv; congruence].
    split; [exists 1%Z; split; [reflexivity|lia]|]. exists 1. split; [reflexivity|].
    intros j Hj. assert (j = 0) by lia. subst j. intros [v [H Hv]]; cbv in H; inversion H; subst; lia.
  Qed.
End Ex.
