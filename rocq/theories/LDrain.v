(** Proofs about the drain fill ([MFill.flood_and_drain]). *)
From Verif Require Import Py Spec MHeap MFill.
Set Implicit Arguments.

Section Drain.
  Context {T : Type} (E : elev T) (ok : T -> Prop) (rk : T -> Z) (eps : T).
  Hypothesis LAWS : elev_laws E ok rk eps.
  Variable nb : list (list nat).
  Variable dem0 : list T.
  Variable seed : list nat.
  Let N := length dem0.
  Let d0 := e_zero E.
  Let z0 n := nth n dem0 d0.
  Notation up x := (e_add E x eps).
  Notation big := (e_big E).
  Hypothesis okdem : Forall ok dem0.
  Hypothesis nb_len : N <= length nb.
  Hypothesis nb_in : forall c l n, c < N -> nth_error nb c = Some l -> In n l -> n < N.
  Hypothesis seed_lt : forall s, In s seed -> s < N.

  Let v (wf : list T) n := nth n wf d0.

  Lemma ok_d0 n : n < N -> ok (z0 n).
  Proof. intros H. rewrite Forall_forall in okdem. apply okdem. unfold z0. now apply nth_In. Qed.

  (** drained in the current water surface *)
  Inductive dtr (wf : list T) : nat -> Prop :=
  | dtr_seed : forall s, In s seed -> dtr wf s
  | dtr_step : forall w n, dtr wf w -> adjacent nb n w -> n < N ->
      (rk (up (v wf w)) <= rk (v wf n))%Z -> dtr wf n.

  Record W (wf : list T) : Prop := {
    w_len : length wf = N;
    w_ok : forall n, n < N -> ok (v wf n);
    w_big : forall n, n < N -> ~ In n seed -> (rk (v wf n) <= rk big)%Z;
    w_ge : forall n, n < N -> (rk (z0 n) <= rk big)%Z -> (rk (z0 n) <= rk (v wf n))%Z;
    w_seed : forall s, In s seed -> v wf s = z0 s;
    w_dtr : forall n, n < N -> (rk (v wf n) < rk big)%Z -> dtr wf n
  }.

  Lemma dtr_lt wf n : dtr wf n -> n < N.
  Proof. destruct 1; auto. Qed.

  (** lowering one cell to a level supported by a lower, drained neighbour *)
  Lemma lower_dtr wf c w y : length wf = N -> (forall n, n < N -> ok (v wf n)) -> ok y ->
    c < N -> adjacent nb c w -> dtr wf w -> (rk (up (v wf w)) <= rk y)%Z -> (rk y < rk (v wf c))%Z ->
    forall m, dtr wf m -> dtr (upd wf c y) m.
  Proof.
    intros L Hok Hy Hc Ha Hw Hup Hlt.
    assert (Hw' := dtr_lt Hw).
    assert (Hv : forall m, m <> c -> v (upd wf c y) m = v wf m).
    { intros m Hm. unfold v. apply nth_upd_neq; auto. }
    assert (Hvc : v (upd wf c y) c = y).
    { unfold v. apply nth_upd_eq. lia. }
    assert (G : forall m, dtr wf m -> (rk (v wf m) < rk (v wf c))%Z -> dtr (upd wf c y) m).
    { induction 1 as [s Hs|u n Hd IH Had Hn Hr]; intros Hl; [now constructor|].
      assert (H1 := l_up LAWS _ (Hok _ (dtr_lt Hd))).
      apply dtr_step with u; auto; [apply IH; lia|].
      rewrite (Hv n), (Hv u); auto; intros ->; lia. }
    assert (H1 := l_up LAWS _ (Hok _ Hw')).
    assert (Dw : dtr (upd wf c y) w) by (apply G; auto; lia).
    assert (Dc : dtr (upd wf c y) c).
    { apply dtr_step with w; auto. rewrite Hvc, Hv; auto. intros ->. lia. }
    induction 1 as [s Hs|u n Hd IH Had Hn Hr]; [now constructor|].
    destruct (Nat.eq_dec n c) as [->|Hne]; auto.
    apply dtr_step with u; auto. rewrite (Hv n) by auto.
    destruct (Nat.eq_dec u c) as [->|Hu]; [|now rewrite Hv].
    rewrite Hvc. assert (H2 : (rk (up y) <= rk (up (v wf c)))%Z).
    { apply (l_mono LAWS); auto. lia. } lia.
  Qed.

  Lemma lower_dtr_c wf c w y : length wf = N -> (forall n, n < N -> ok (v wf n)) -> ok y ->
    c < N -> adjacent nb c w -> dtr wf w -> (rk (up (v wf w)) <= rk y)%Z -> (rk y < rk (v wf c))%Z ->
    dtr (upd wf c y) c.
  Proof.
    intros L Hok Hy Hc Ha Hw Hup Hlt.
    assert (Dw := lower_dtr L Hok Hy Hc Ha Hw Hup Hlt Hw).
    apply dtr_step with w; auto.
    assert (H1 := l_up LAWS _ (Hok _ (dtr_lt Hw))).
    unfold v. rewrite nth_upd_eq by lia. rewrite nth_upd_neq; auto. intros ->. lia.
  Qed.

  Lemma lower_W wf c w y : W wf -> c < N -> (rk (z0 c) < rk (v wf c))%Z -> ok y ->
    (rk (z0 c) <= rk y)%Z -> adjacent nb c w -> w < N ->
    (rk (up (v wf w)) <= rk y)%Z -> (rk y < rk (v wf c))%Z -> W (upd wf c y).
  Proof.
    intros H Hc Hgt Hy Hzy Ha Hw Hup Hlt.
    assert (Hcs : ~ In c seed).
    { intros Hs. rewrite (w_seed H _ Hs) in Hgt. lia. }
    assert (H1 := l_up LAWS _ (w_ok H Hw)). assert (H2 := w_big H Hc Hcs).
    assert (Dw : dtr wf w) by (apply (w_dtr H); auto; lia).
    assert (Hv : forall m, m <> c -> v (upd wf c y) m = v wf m).
    { intros m Hm. unfold v. apply nth_upd_neq; auto. }
    assert (Hvc : v (upd wf c y) c = y).
    { unfold v. apply nth_upd_eq. rewrite (w_len H). auto. }
    constructor.
    - rewrite upd_length. apply H.
    - intros n Hn. destruct (Nat.eq_dec n c) as [->|Hne]; [now rewrite Hvc|].
      rewrite Hv by auto. now apply (w_ok H).
    - intros n Hn Hs. destruct (Nat.eq_dec n c) as [->|Hne]; [rewrite Hvc; lia|].
      rewrite Hv by auto. now apply (w_big H).
    - intros n Hn Hb. destruct (Nat.eq_dec n c) as [->|Hne]; [now rewrite Hvc|].
      rewrite Hv by auto. now apply (w_ge H).
    - intros s Hs. rewrite Hv; [now apply (w_seed H)|]. intros ->; contradiction.
    - intros n Hn Hb. destruct (Nat.eq_dec n c) as [->|Hne].
      + eapply lower_dtr_c; eauto; apply H.
      + rewrite Hv in Hb by auto. eapply lower_dtr; eauto; try apply H; auto.
  Qed.

  (** ** one cell *)
  Lemma amax_in (x : T) l : In (amax E x l) (x :: l).
  Proof.
    unfold amax. revert x. induction l as [|y l IH]; intros x; simpl; auto.
    destruct (IH (if e_lt E x y then y else x)) as [H|H]; auto.
    rewrite <- H. destruct (e_lt E x y); auto.
  Qed.

  Definition msum (wf : list T) : Z :=
    fold_right Z.add 0%Z (map (fun n => Z.max 0 (rk (v wf n) - rk (z0 n)))%Z (seq 0 N)).

  Lemma fsum_le (f g : nat -> Z) l : (forall n, In n l -> (f n <= g n)%Z) ->
    (fold_right Z.add 0 (map f l) <= fold_right Z.add 0 (map g l))%Z.
  Proof. induction l as [|x l IH]; intros H; simpl; [lia|].
    assert (f x <= g x)%Z by (apply H; left; auto).
    assert (fold_right Z.add 0 (map f l) <= fold_right Z.add 0 (map g l))%Z
      by (apply IH; intros; apply H; right; auto). lia. Qed.

  Lemma fsum_lt (f g : nat -> Z) l c : In c l -> (forall n, In n l -> (f n <= g n)%Z) -> (f c < g c)%Z ->
    (fold_right Z.add 0 (map f l) < fold_right Z.add 0 (map g l))%Z.
  Proof. induction l as [|x l IH]; intros Hin H Hlt; simpl in *; [tauto|].
    assert (f x <= g x)%Z by (apply H; left; auto).
    assert (fold_right Z.add 0 (map f l) <= fold_right Z.add 0 (map g l))%Z
      by (apply fsum_le; intros; apply H; right; auto).
    destruct Hin as [->|Hin]; [lia|]. specialize (IH Hin ltac:(auto) Hlt). lia. Qed.

  Lemma msum_pos wf : (0 <= msum wf)%Z.
  Proof. unfold msum. induction (seq 0 N) as [|x l IH]; simpl; lia. Qed.

  Lemma msum_lower wf c y : length wf = N -> c < N -> (rk (z0 c) <= rk y)%Z -> (rk y < rk (v wf c))%Z ->
    (msum (upd wf c y) < msum wf)%Z.
  Proof.
    intros L Hc Hz Hlt. unfold msum. apply fsum_lt with c.
    - apply in_seq. lia.
    - intros n _. unfold v. rewrite nth_upd by lia. destruct (Nat.eq_dec c n) as [<-|]; [|lia].
      fold (v wf c). lia.
    - unfold v at 1. rewrite nth_upd_eq by lia. lia.
  Qed.

  Definition settled (wf : list T) (c : nat) : Prop :=
    (rk (v wf c) <= rk (z0 c))%Z \/
    forall w, adjacent nb c w -> (rk (v wf c) <= rk (up (v wf w)))%Z.

  Lemma drain_cell_spec m wf c : W wf -> c < N ->
    exists m' wf', drain_cell E nb dem0 eps (m, wf) c = Ok (m', wf') /\ W wf' /\
      ((m' = m /\ wf' = wf /\ settled wf c) \/ (m' = true /\ (msum wf' < msum wf)%Z)).
  Proof.
    intros H Hc. unfold drain_cell.
    destruct (nth_error nb c) as [nc|] eqn:En; [|apply nth_error_None in En; lia].
    assert (L := w_len H).
    cbv beta iota delta [bind]. rewrite (get_nth wf d0) by lia.
    rewrite (get_nth dem0 d0) by auto. fold (v wf c) (z0 c).
    assert (Hnc : forall n, In n nc -> n < N) by (intros n; exact (@nb_in c nc n Hc En)).
    assert (Oc := w_ok H Hc). assert (Oz := ok_d0 Hc).
    rewrite (l_lt LAWS) by auto.
    destruct (Z.ltb_spec (rk (z0 c)) (rk (v wf c))) as [Hgt|Hle].
    2:{ exists m, wf. split; auto. split; auto. left. split; auto. split; auto. now left. }
    rewrite (@mapM_ok _ _ _ (v wf)).
    2:{ intros n Hn. unfold v. apply get_nth. rewrite L. auto. }
    assert (Hwn : forall w, In w nc -> ok (v wf w) /\ ok (up (v wf w))).
    { intros w Hw. split; [|apply (l_ok LAWS)]; apply (w_ok H); auto. }
    destruct (existsb _ (map (v wf) nc)) eqn:Ex.
    - apply existsb_exists in Ex. destruct Ex as [x [Hx Hle]].
      apply in_map_iff in Hx. destruct Hx as [w [<- Hw]].
      destruct (Hwn w Hw). rewrite (l_le LAWS) in Hle by auto. apply Z.leb_le in Hle.
      rewrite set_lt by lia. eexists _, _. split; [reflexivity|].
      split.
      + apply lower_W with w; auto; try lia. exists nc; auto.
      + right. split; auto. apply msum_lower; auto. lia.
    - assert (Hno : forall w, In w nc -> (rk (z0 c) < rk (up (v wf w)))%Z).
      { intros w Hw. destruct (Hwn w Hw). apply Z.lt_nge. intros Hle.
        assert (X : existsb (fun w => e_le E (up w) (z0 c)) (map (v wf) nc) = true); [|congruence].
        apply existsb_exists. exists (v wf w). split; [now apply in_map|].
        rewrite (l_le LAWS) by auto. now apply Z.leb_le. }
      destruct (filter _ (map (v wf) nc)) as [|x l] eqn:Ef.
      + exists m, wf. split; auto. split; auto. left. split; auto. split; auto. right.
        intros w [nc' [En' Hw]]. rewrite En in En'. inversion En'; subst nc'.
        destruct (Hwn w Hw). apply Z.le_ngt. intros Hlt.
        assert (X : In (v wf w) []); [|destruct X].
        rewrite <- Ef. apply filter_In. split; [now apply in_map|].
        rewrite (l_lt LAWS) by auto. now apply Z.ltb_lt.
      + assert (Hin := amax_in x l). rewrite <- Ef in Hin. apply filter_In in Hin.
        destruct Hin as [Hin Hlt]. apply in_map_iff in Hin. destruct Hin as [w [Ew Hw]].
        rewrite <- Ew in Hlt |- *. destruct (Hwn w Hw). rewrite (l_lt LAWS) in Hlt by auto.
        apply Z.ltb_lt in Hlt. specialize (Hno w Hw).
        rewrite set_lt by lia. eexists _, _. split; [reflexivity|]. split.
        * apply lower_W with w; auto; try lia. exists nc; auto.
        * right. split; auto. apply msum_lower; auto. lia.
  Qed.

  (** ** one pass *)
  Lemma drain_pass_spec wf : W wf ->
    exists m wf', drain_pass E nb dem0 eps wf = Ok (m, wf') /\ W wf' /\
      ((m = false /\ wf' = wf /\ forall c, c < N -> settled wf c) \/
       (m = true /\ (msum wf' < msum wf)%Z)).
  Proof.
    intros H. unfold drain_pass.
    destruct (@foldM_inv _ _ (drain_cell E nb dem0 eps)
      (fun done s => W (snd s) /\
        ((fst s = false /\ snd s = wf /\ forall c, In c done -> settled wf c) \/
         (fst s = true /\ (msum (snd s) < msum wf)%Z))) (seq 0 (length dem0))) with (s := (false, wf))
      as [[m wf'] [E1 [H1 H2]]].
    - intros done c todo [m1 wf1] Hl [HW Hor]. simpl in *.
      assert (Hc : c < N).
      { assert (X : In c (seq 0 (length dem0))) by (rewrite Hl; apply in_or_app; right; left; auto).
        apply in_seq in X. unfold N. lia. }
      destruct (@drain_cell_spec m1 wf1 c HW Hc) as [m2 [wf2 [E2 [W2 H2]]]].
      exists (m2, wf2). split; auto. split; auto. simpl.
      destruct H2 as [[-> [-> Hs]]|[-> Hs]].
      + destruct Hor as [[-> [-> Hd]]|[-> Hd]]; [left|right; auto].
        split; auto. split; auto. intros c' Hc'. apply in_app_or in Hc'.
        destruct Hc' as [|[<-|[]]]; auto.
      + right. split; auto. destruct Hor as [[_ [-> _]]|[_ Hd]]; lia.
    - simpl. split; auto. left. split; auto. split; auto. intros c [].
    - exists m, wf'. split; auto. split; auto. simpl in H2.
      destruct H2 as [[-> [-> Hd]]|H2]; [left|right; auto].
      split; auto. split; auto. intros c Hc. apply Hd. apply in_seq. unfold N in Hc. lia.
  Qed.

  (** ** termination and the fixpoint *)
  Lemma drain_loop_spec fuel wf : W wf -> (msum wf < Z.of_nat fuel)%Z ->
    exists out, drain_loop E fuel nb dem0 eps wf = Ok out /\ W out /\
      (forall c, c < N -> settled out c) /\
      forall f, fuel <= f -> drain_loop E f nb dem0 eps wf = Ok out.
  Proof.
    revert wf; induction fuel as [|fuel IH]; intros wf H Hm.
    { assert (X := msum_pos wf). lia. }
    destruct (drain_pass_spec H) as [m [wf' [Ep [H' Hor]]]].
    destruct Hor as [[-> [-> Hs]]|[-> Hlt]].
    - exists wf. simpl. rewrite Ep. simpl. split; auto. split; auto. split; auto.
      intros [|f] Hf; [lia|]. simpl. rewrite Ep. auto.
    - destruct (IH wf' H' ltac:(lia)) as [out [E1 [H1 [H2 H3]]]].
      exists out. simpl. rewrite Ep. simpl. split; auto. split; auto. split; auto.
      intros [|f] Hf; [lia|]. simpl. rewrite Ep. simpl. apply H3. lia.
  Qed.

  Lemma init_wf : exists wf, drain_init E dem0 seed = Ok wf /\ W wf.
  Proof.
    unfold drain_init.
    destruct (@foldM_inv _ _ (fun wf n => e <- get dem0 n ;; set wf n e)
      (fun done wf => length wf = N /\ forall n, n < N ->
          (In n done /\ v wf n = z0 n) \/ (~ In n done /\ v wf n = big)) seed)
      with (s := repeat big (length dem0)) as [wf [E1 [L1 H1]]].
    - intros done s todo wf Hl [L H].
      assert (Hs : s < N) by (apply seed_lt; rewrite Hl; apply in_or_app; right; left; auto).
      rewrite (get_nth dem0 d0) by auto. simpl. fold (z0 s). rewrite set_lt by lia.
      eexists. split; [reflexivity|]. rewrite upd_length. split; auto.
      intros n Hn. unfold v. rewrite nth_upd by lia.
      destruct (Nat.eq_dec s n) as [<-|Hne].
      + left. split; auto. apply in_or_app. right. left. auto.
      + destruct (H n Hn) as [[A B]|[A B]]; [left|right]; rewrite in_app_iff; simpl; split; auto.
        intros [X|[X|[]]]; auto.
    - rewrite repeat_length. split; auto. intros n Hn. right. split; auto. unfold v.
      rewrite nth_indep with (d' := big) by (rewrite repeat_length; auto). apply nth_repeat.
    - exists wf. split; auto. constructor; auto.
      + intros n Hn. destruct (H1 n Hn) as [[A ->]|[A ->]]; [now apply ok_d0|apply (l_big LAWS)].
      + intros n Hn Hs. destruct (H1 n Hn) as [[A ->]|[A ->]]; [contradiction|lia].
      + intros n Hn Hb. destruct (H1 n Hn) as [[A ->]|[A ->]]; lia.
      + intros s Hs. destruct (H1 s (seed_lt _ Hs)) as [[A B]|[A B]]; [auto|contradiction].
      + intros n Hn Hb. destruct (H1 n Hn) as [[A B]|[A B]]; [now constructor|].
        rewrite B in Hb. lia.
  Qed.

  Theorem drain_spec : exists f0 out, W out /\ (forall c, c < N -> settled out c) /\
    forall f, f0 <= f -> flood_and_drain E f nb dem0 eps seed = Ok out.
  Proof.
    destruct init_wf as [wf [E1 HW]].
    destruct (@drain_loop_spec (S (Z.to_nat (msum wf))) wf HW) as [out [E2 [H2 [H3 H4]]]].
    { assert (X := msum_pos wf). lia. }
    exists (S (Z.to_nat (msum wf))), out. split; auto. split; auto.
    intros f Hf. unfold flood_and_drain. rewrite E1. simpl. auto.
  Qed.
End Drain.
