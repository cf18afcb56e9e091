(** Facts about flow-direction arrays as functional graphs. *)
From Verif Require Import Py Spec.
Set Implicit Arguments.
Local Open Scope nat_scope.
Local Open Scope list_scope.

Section G.
  Variable fdir : list Z.
  Notation N := (length fdir).
  Hypothesis V : valid_fdir fdir.
  Notation d := (down fdir).
  Notation it := (downs fdir).

  Lemma fdir_pos c : c < N -> (0 <= nth c fdir 0 < Z.of_nat N)%Z.
  Proof. intros H. unfold valid_fdir in V. rewrite Forall_forall in V. apply V, nth_In, H. Qed.

  Lemma fdir_down c : c < N -> nth c fdir 0%Z = Z.of_nat (d c).
  Proof. intros H. unfold down. rewrite Z2Nat.id; auto. now apply fdir_pos. Qed.

  Lemma down_lt c : c < N -> d c < N.
  Proof. intros H. assert (X := fdir_pos H). rewrite (fdir_down H) in X. lia. Qed.

  Lemma downs_S k c : it (S k) c = d (it k c).
  Proof. revert c; induction k; intros c; simpl; auto. rewrite <- IHk. reflexivity. Qed.

  Lemma downs_add a b c : it (a + b) c = it b (it a c).
  Proof. revert c; induction a; intros c; simpl; auto. Qed.

  Lemma downs_lt k c : c < N -> it k c < N.
  Proof. intros H. induction k; [auto|]. rewrite downs_S. now apply down_lt. Qed.

  Definition cyc n := exists k, 0 < k /\ it k n = n.

  Lemma cyc_down n : cyc n -> cyc (d n).
  Proof. intros [k [Hk H]]. exists k. split; auto. change (it (1 + k) n = d n).
    rewrite Nat.add_comm, downs_add. rewrite H. reflexivity. Qed.

  Lemma cyc_downs k n : cyc n -> cyc (it k n).
  Proof. intros H. induction k; auto. rewrite downs_S. now apply cyc_down. Qed.

  Lemma cyc_pred n : n < N -> cyc n -> exists p, p < N /\ d p = n /\ cyc p.
  Proof. intros Hn [[|k] [Hk H]]; [lia|]. exists (it k n). split; [now apply downs_lt|].
    rewrite downs_S in H. split; auto. apply cyc_downs. exists (S k). split; auto. now rewrite downs_S. Qed.

  Lemma cyc_mult n k j : it k n = n -> it (j * k) n = n.
  Proof. intros H. induction j; simpl; auto. rewrite downs_add, H. auto. Qed.

  (** after N steps every path is on a cycle (possibly a terminal cell) *)
  Lemma pigeon c : c < N -> cyc (it N c).
  Proof.
    intros Hc.
    assert (D : NoDup (map (fun k => it k c) (seq 0 (S N))) -> False).
    { intros ND. apply (NoDup_incl_length (l' := seq 0 N)) in ND.
      - rewrite map_length, !seq_length in ND. lia.
      - intros x Hx. apply in_map_iff in Hx. destruct Hx as [k [<- _]]. apply in_seq.
        assert (X := @downs_lt k c Hc). lia. }
    assert (E : exists i j, i < j /\ j <= N /\ it i c = it j c).
    { clear - D.
      assert (G : forall m, (exists i j, i < j /\ j < m /\ it i c = it j c) \/
                            NoDup (map (fun k => it k c) (seq 0 m))).
      { induction m as [|m IH]; [right; constructor|].
        destruct IH as [[i [j [H1 [H2 H3]]]]|ND]; [left; exists i, j; repeat split; auto; lia|].
        destruct (in_dec Nat.eq_dec (it m c) (map (fun k => it k c) (seq 0 m))) as [Hi|Hi].
        - apply in_map_iff in Hi. destruct Hi as [i [E Hi]]. apply in_seq in Hi.
          left. exists i, m. repeat split; auto; lia.
        - right. rewrite seq_S, map_app. simpl.
          apply (Permutation_NoDup (Permutation_cons_append _ _)). constructor; auto. }
      destruct (G (S N)) as [[i [j [H1 [H2 H3]]]]|ND]; [|contradiction].
      exists i, j. repeat split; auto. lia. }
    destruct E as [i [j [H1 [H2 H3]]]].
    replace N with (i + (N - i)) by lia. rewrite downs_add. apply cyc_downs.
    exists (j - i). split; [lia|]. rewrite <- downs_add. replace (i + (j - i)) with j by lia. auto.
  Qed.

  Lemma cyc_iff n : cyc n <-> terminal fdir n \/ on_cycle fdir n.
  Proof.
    unfold terminal, on_cycle. split.
    - intros [k [Hk H]]. destruct (Nat.eq_dec (d n) n); [now left|]. right. split; auto. exists k. auto.
    - intros [H|[_ H]]; auto. exists 1. split; auto.
  Qed.

  Lemma flows_lt c n : c < N -> flows_through fdir c n -> n < N.
  Proof. intros Hc [k <-]. now apply downs_lt. Qed.

  Lemma flows_trans a b c : flows_through fdir a b -> flows_through fdir b c -> flows_through fdir a c.
  Proof. intros [i <-] [j <-]. exists (i + j). apply downs_add. Qed.

  (** two cells on the path of a third one are comparable *)
  Lemma flows_fork c a b : flows_through fdir c a -> flows_through fdir c b ->
    flows_through fdir a b \/ flows_through fdir b a.
  Proof. intros [i <-] [j <-]. destruct (le_lt_dec i j); [left; exists (j - i)|right; exists (i - j)];
    rewrite <- downs_add; f_equal; lia. Qed.

  (** reachability within N steps *)
  Lemma flows_bound c n : c < N -> flows_through fdir c n -> exists k, k <= N /\ it k c = n.
  Proof.
    intros Hc [k Hk]. revert Hk.
    induction k as [k IH] using lt_wf_ind. intros Hk.
    destruct (le_lt_dec k N) as [H|H]; [exists k; auto|].
    (* c .. it N c contains a repetition, shorten *)
    assert (E : exists i j, i < j /\ j <= N /\ it i c = it j c).
    { destruct (@pigeon c Hc) as [p [Hp HP]]. clear IH.
      assert (ND : ~ NoDup (map (fun k => it k c) (seq 0 (S N)))).
      { intros ND. apply (NoDup_incl_length (l' := seq 0 N)) in ND.
        - rewrite map_length, !seq_length in ND. lia.
        - intros x Hx. apply in_map_iff in Hx. destruct Hx as [q [<- _]]. apply in_seq.
          assert (X := @downs_lt q c Hc). lia. }
      assert (G : forall m, (exists i j, i < j /\ j < m /\ it i c = it j c) \/
                            NoDup (map (fun k => it k c) (seq 0 m))).
      { induction m as [|m IH]; [right; constructor|].
        destruct IH as [[i [j [H1 [H2 H3]]]]|ND']; [left; exists i, j; repeat split; auto; lia|].
        destruct (in_dec Nat.eq_dec (it m c) (map (fun k => it k c) (seq 0 m))) as [Hi|Hi].
        - apply in_map_iff in Hi. destruct Hi as [i [E Hi]]. apply in_seq in Hi.
          left. exists i, m. repeat split; auto; lia.
        - right. rewrite seq_S, map_app. simpl.
          apply (Permutation_NoDup (Permutation_cons_append _ _)). constructor; auto. }
      destruct (G (S N)) as [[i [j [H1 [H2 H3]]]]|ND']; [|contradiction].
      exists i, j. repeat split; auto. lia. }
    destruct E as [i [j [H1 [H2 H3]]]].
    apply (IH (i + (k - j))); [lia|]. rewrite downs_add, H3, <- downs_add.
    replace (j + (k - j)) with k by lia. auto.
  Qed.

  Lemma flows_dec c n : c < N -> flows_through fdir c n \/ ~ flows_through fdir c n.
  Proof.
    intros Hc. destruct (existsb (fun k => Nat.eqb (it k c) n) (seq 0 (S N))) eqn:E.
    - apply existsb_exists in E. destruct E as [k [_ E]]. apply Nat.eqb_eq in E. left. exists k. auto.
    - right. intros Hf. apply flows_bound in Hf; auto. destruct Hf as [k [Hk Hf]].
      assert (X : existsb (fun k => Nat.eqb (it k c) n) (seq 0 (S N)) = true).
      { apply existsb_exists. exists k. split; [apply in_seq; lia|now apply Nat.eqb_eq]. }
      congruence.
  Qed.
End G.

(** [sum_over] of a listed set *)
Section Sum.
  Context {W : Type} (plus : W -> W -> W) (zero : W).
  Hypothesis plus_comm : forall a b, plus a b = plus b a.
  Hypothesis plus_assoc : forall a b c, plus a (plus b c) = plus (plus a b) c.
  Hypothesis plus_0 : forall a, plus a zero = a.

  Definition wsum (w : nat -> W) (l : list nat) : W := fold_right (fun c s => plus (w c) s) zero l.

  Lemma wsum_app w l1 l2 : wsum w (l1 ++ l2) = plus (wsum w l1) (wsum w l2).
  Proof. induction l1 as [|x l1 IH]; simpl; [rewrite plus_comm; now rewrite plus_0|]. now rewrite IH, plus_assoc. Qed.

  Lemma wsum_perm w l1 l2 : Permutation l1 l2 -> wsum w l1 = wsum w l2.
  Proof. induction 1; simpl; auto; [congruence| |congruence].
    rewrite !plus_assoc. f_equal. apply plus_comm. Qed.

  Lemma wsum_sum_over w (P : nat -> Prop) n : forall l, NoDup l ->
    (forall c, In c l <-> c < n /\ P c) -> sum_over plus zero w P n (wsum w l).
  Proof.
    induction n as [|n IH]; intros l ND H.
    - destruct l as [|x l]; [constructor|]. destruct (proj1 (H x) (or_introl eq_refl)). lia.
    - destruct (in_dec Nat.eq_dec n l) as [Hi|Hi].
      + apply in_split in Hi. destruct Hi as [l1 [l2 ->]].
        assert (PP : Permutation (l1 ++ n :: l2) (n :: l1 ++ l2)) by (symmetry; apply Permutation_middle).
        rewrite (wsum_perm _ PP). simpl. rewrite plus_comm. constructor.
        * apply IH.
          -- apply NoDup_remove_1 in ND. auto.
          -- intros c. split.
             ++ intros Hc. destruct (proj1 (H c)) as [H1 H2]; [apply in_app_iff in Hc; apply in_app_iff; simpl; tauto|].
                split; auto. assert (c <> n); [|lia]. intros ->. apply NoDup_remove_2 in ND. auto.
             ++ intros [H1 H2]. assert (X : In c (l1 ++ n :: l2)) by (apply H; split; auto; lia).
                apply in_app_iff in X. apply in_app_iff. simpl in X. destruct X as [X|[X|X]]; auto. lia.
        * apply H. apply in_app_iff. simpl. auto.
      + apply so_out.
        * apply IH; auto. intros c. rewrite H. split.
          -- intros [H1 H2]. split; auto. assert (c <> n); [|lia]. intros ->. apply Hi, H. auto.
          -- intros [H1 H2]. split; auto.
        * intros HP. apply Hi, H. auto.
  Qed.

  Lemma sum_over_fun w P n s1 s2 : sum_over plus zero w P n s1 -> sum_over plus zero w P n s2 -> s1 = s2.
  Proof. intros H. revert s2. induction H; intros s2 H2; inversion H2; subst; auto; try contradiction; try (f_equal; auto). Qed.
End Sum.
