(** The heap of [MHeap] is a priority queue: pushes and pops permute the contents and
    a pop returns a least element. *)
From Verif Require Import Py MHeap.
Set Implicit Arguments.

Section Perm.
  Context {A : Type}.

  Lemma perm_swap_upd (l : list A) i j x d :
    i <> j -> i < length l -> j < length l ->
    Permutation (upd (upd l i (nth j l d)) j x) (upd l i x).
  Proof.
    intros N Hi Hj.
    apply (Permutation_nth (upd (upd l i (nth j l d)) j x) (upd l i x) d).
    split; [rewrite !upd_length; auto|].
    exists (fun k => if Nat.eq_dec k i then j else if Nat.eq_dec k j then i else k).
    rewrite !upd_length. split; [|split].
    - intros k Hk. destruct (Nat.eq_dec k i), (Nat.eq_dec k j); lia.
    - intros a b Ha Hb.
      destruct (Nat.eq_dec a i), (Nat.eq_dec a j), (Nat.eq_dec b i), (Nat.eq_dec b j); lia.
    - intros k Hk. rewrite (nth_upd _ k x d Hi).
      rewrite nth_upd by (rewrite upd_length; auto). rewrite nth_upd by auto.
      destruct (Nat.eq_dec k i); subst.
      + destruct (Nat.eq_dec i i); [|lia]. destruct (Nat.eq_dec j j); [auto|lia].
      + destruct (Nat.eq_dec k j); subst.
        * destruct (Nat.eq_dec j i); [lia|]. destruct (Nat.eq_dec i j); [lia|].
          destruct (Nat.eq_dec i i); [auto|lia].
        * destruct (Nat.eq_dec j k); [lia|]. destruct (Nat.eq_dec i k); [lia|auto].
  Qed.
End Perm.

Section HeapProof.
  Context {A : Type} (lt : A -> A -> bool) (P : A -> Prop).
  (** [le x y] is Python's [not (y < x)] *)
  Let le (x y : A) : Prop := lt y x = false.
  Hypothesis lt_le : forall x y, P x -> P y -> lt x y = true -> le x y.
  Hypothesis le_trans : forall x y z, P x -> P y -> P z -> le x y -> le y z -> le x z.
  Hypothesis le_refl : forall x, P x -> le x x.

  Definition par (i : nat) := (i - 1) / 2.

  Lemma par_lt i : 0 < i -> par i < i.
  Proof. intros H. unfold par. assert (H1 := Nat.div_lt (i - 1) 2).
    destruct (Nat.eq_dec i 1); [subst; simpl; lia|]. lia. Qed.

  Lemma par_child i p : 0 < i -> (par i = p <-> i = 2 * p + 1 \/ i = 2 * p + 2).
  Proof. intros H. unfold par. assert (H1 := Nat.div_mod (i - 1) 2).
    assert (H2 := Nat.mod_upper_bound (i - 1) 2). split; intros; lia. Qed.

  Definition heap (h : list A) : Prop :=
    forall i d, 0 < i -> i < length h -> le (nth (par i) h d) (nth i h d).

  Definition Pall (h : list A) := Forall P h.

  Lemma Pall_nth h i d : Pall h -> i < length h -> P (nth i h d).
  Proof. intros H Hi. unfold Pall in H. rewrite Forall_forall in H. apply H, nth_In, Hi. Qed.

  Lemma Pall_upd h i x : Pall h -> P x -> Pall (upd h i x).
  Proof. intros H Hx. unfold Pall in *. revert i. induction H as [|y l Hy Hl IH]; intros [|i]; simpl; constructor; auto. Qed.

  (** siftdown *)
  Lemma siftdown_length f h pos x : length (siftdown lt f h pos x) = length h.
  Proof. revert h pos; induction f as [|f IH]; intros h pos; simpl; [apply upd_length|].
    destruct (0 <? pos); [|apply upd_length].
    destruct (lt x _); [|apply upd_length]. rewrite IH. apply upd_length. Qed.

  Lemma siftdown_perm f h pos x : pos < length h ->
    Permutation (siftdown lt f h pos x) (upd h pos x).
  Proof.
    revert h pos; induction f as [|f IH]; intros h pos Hp; cbn [siftdown]; auto.
    destruct (Nat.ltb_spec 0 pos) as [H|H]; auto.
    destruct (lt x _); auto.
    assert (Hl := par_lt H). unfold par in Hl.
    rewrite IH by (rewrite upd_length; lia).
    apply perm_swap_upd; lia.
  Qed.

  Definition down_inv (g : list A) (pos : nat) : Prop :=
    (forall i d, 0 < i -> i < length g -> i <> pos -> le (nth (par i) g d) (nth i g d)) /\
    (forall j d, 0 < pos -> j < length g -> 0 < j -> par j = pos ->
        le (nth (par pos) g d) (nth j g d)).

  Lemma siftdown_heap f h pos x :
    pos <= f -> pos < length h -> Pall h -> P x ->
    down_inv (upd h pos x) pos -> heap (siftdown lt f h pos x).
  Proof.
    revert h pos; induction f as [|f IH]; intros h pos Hf Hp HP Hx [I1 I2]; cbn [siftdown].
    - assert (pos = 0) by lia. subst. intros i d Hi Hl. apply I1; auto. lia.
    - destruct (Nat.ltb_spec 0 pos) as [H|H].
      2:{ intros i d Hi Hl. apply I1; auto. lia. }
      assert (Hl := par_lt H). fold (par pos).
      set (p := nth (par pos) h x) in *.
      assert (HPp : P p) by (apply Pall_nth; auto; lia).
      assert (Ep : forall d, nth (par pos) h d = p) by (intros; apply nth_indep; lia).
      destruct (lt x p) eqn:E.
      + apply IH; try lia.
        * rewrite upd_length. lia.
        * apply Pall_upd; auto.
        * auto.
        * assert (G : forall i d, i < length h ->
            nth i (upd (upd h pos p) (par pos) x) d =
            if Nat.eq_dec (par pos) i then x else if Nat.eq_dec pos i then p else nth i h d).
          { intros i d Hi. rewrite nth_upd by (rewrite upd_length; lia).
            destruct (Nat.eq_dec (par pos) i); auto. rewrite nth_upd by lia. auto. }
          assert (G0 : forall i d, nth i (upd h pos x) d =
            if Nat.eq_dec pos i then x else nth i h d).
          { intros i d. rewrite nth_upd by lia. auto. }
          split.
          -- intros i d Hi Hil Hne. rewrite !upd_length in Hil.
             assert (Hpi := par_lt Hi).
             rewrite !G by lia.
             destruct (Nat.eq_dec (par pos) i); [lia|].
             destruct (Nat.eq_dec pos i) as [<-|Npi].
             ++ destruct (Nat.eq_dec (par pos) (par pos)); [|lia]. apply lt_le; auto.
             ++ destruct (Nat.eq_dec (par pos) (par i)) as [Ei|Ni].
                ** (* sibling *)
                   specialize (I1 i d Hi). rewrite upd_length in I1. specialize (I1 Hil ltac:(lia)).
                   rewrite !G0 in I1.
                   destruct (Nat.eq_dec pos (par i)); [lia|].
                   destruct (Nat.eq_dec pos i); [lia|].
                   rewrite <- Ei, Ep in I1.
                   apply le_trans with p; auto. apply Pall_nth; auto.
                ** destruct (Nat.eq_dec pos (par i)) as [Ec|Nc].
                   --- specialize (I2 i d H). rewrite upd_length in I2.
                       specialize (I2 Hil Hi (eq_sym Ec)). rewrite !G0 in I2.
                       destruct (Nat.eq_dec pos (par pos)); [lia|].
                       destruct (Nat.eq_dec pos i); [lia|]. now rewrite Ep in I2.
                   --- specialize (I1 i d Hi). rewrite upd_length in I1. specialize (I1 Hil ltac:(lia)).
                       rewrite !G0 in I1. destruct (Nat.eq_dec pos (par i)); [lia|].
                       destruct (Nat.eq_dec pos i); [lia|]. auto.
          -- intros j d Hpp Hj Hj0 Ej. rewrite !upd_length in Hj.
             assert (Hpp2 := par_lt Hpp).
             rewrite !G by lia.
             destruct (Nat.eq_dec (par pos) (par (par pos))); [lia|].
             destruct (Nat.eq_dec pos (par (par pos))); [lia|].
             assert (L1 : le (nth (par (par pos)) h d) p).
             { specialize (I1 (par pos) d Hpp). rewrite upd_length in I1.
               specialize (I1 ltac:(lia) ltac:(lia)). rewrite !G0 in I1.
               destruct (Nat.eq_dec pos (par (par pos))); [lia|].
               destruct (Nat.eq_dec pos (par pos)); [lia|]. now rewrite Ep in I1. }
             assert (Hpj := par_lt Hj0).
             destruct (Nat.eq_dec (par pos) j); [lia|].
             destruct (Nat.eq_dec pos j) as [<-|Nj]; auto.
             apply le_trans with p; auto; try (apply Pall_nth; auto; lia).
             specialize (I1 j d Hj0). rewrite upd_length in I1. specialize (I1 Hj ltac:(lia)).
             rewrite !G0 in I1. rewrite Ej in I1.
             destruct (Nat.eq_dec pos (par pos)); [lia|].
             destruct (Nat.eq_dec pos j); [lia|]. now rewrite Ep in I1.
      + intros i d Hi Hil. destruct (Nat.eq_dec i pos) as [->|N]; auto.
        rewrite nth_upd by lia. rewrite nth_upd_eq by lia.
        destruct (Nat.eq_dec pos (par pos)); [lia|]. rewrite Ep. exact E.
  Qed.

  (** siftup *)
  Lemma siftup_length f h pos x : length (siftup lt f h pos x) = length h.
  Proof. revert h pos; induction f as [|f IH]; intros h pos; cbn [siftup]; [apply siftdown_length|].
    destruct (_ <? _); [|apply siftdown_length]. rewrite IH. apply upd_length. Qed.

  Lemma siftup_perm f h pos x : pos < length h ->
    Permutation (siftup lt f h pos x) (upd h pos x).
  Proof.
    revert h pos; induction f as [|f IH]; intros h pos Hp; cbn [siftup]; [now apply siftdown_perm|].
    destruct (Nat.ltb_spec (2 * pos + 1) (length h)) as [H|H]; [|now apply siftdown_perm].
    set (c := if _ && _ then _ else _).
    assert (Hc : (c = 2 * pos + 1 \/ c = 2 * pos + 2) /\ c < length h).
    { subst c. destruct (Nat.ltb_spec (2 * pos + 1 + 1) (length h)); simpl; [|lia].
      destruct (negb _); lia. }
    rewrite IH by (rewrite upd_length; lia).
    apply perm_swap_upd; lia.
  Qed.

  Definition up_inv (h : list A) (pos : nat) : Prop :=
    (forall i d, 0 < i -> i < length h -> i <> pos -> par i <> pos ->
        le (nth (par i) h d) (nth i h d)) /\
    (forall j d, 0 < pos -> j < length h -> 0 < j -> par j = pos ->
        le (nth (par pos) h d) (nth j h d)).

  Lemma siftup_heap f h pos x :
    length h <= f + pos -> pos < length h -> Pall h -> P x ->
    up_inv h pos -> heap (siftup lt f h pos x).
  Proof.
    revert h pos; induction f as [|f IH]; intros h pos Hf Hp HP Hx [I1 I2]; cbn [siftup]; [lia|].
    destruct (Nat.ltb_spec (2 * pos + 1) (length h)) as [H|H].
    - set (c := if _ && _ then _ else _).
      assert (Hc : (c = 2 * pos + 1 \/ c = 2 * pos + 2) /\ c < length h /\
        forall j, 0 < j -> j < length h -> par j = pos -> le (nth c h x) (nth j h x)).
      { subst c. destruct (Nat.ltb_spec (2 * pos + 1 + 1) (length h)) as [H1|H1]; cbn [andb].
        - assert (P1 : P (nth (2 * pos + 1) h x)) by (apply Pall_nth; auto).
          assert (P2 : P (nth (2 * pos + 1 + 1) h x)) by (apply Pall_nth; auto).
          destruct (lt (nth (2 * pos + 1) h x) (nth (2 * pos + 1 + 1) h x)) eqn:E; cbn [negb].
          + split; [lia|]. split; [lia|]. intros j Hj0 Hj Ej.
            apply par_child in Ej; auto. destruct Ej as [->| ->]; [apply le_refl; auto|].
            replace (2 * pos + 2) with (2 * pos + 1 + 1) by lia. now apply lt_le.
          + split; [lia|]. split; [lia|]. intros j Hj0 Hj Ej.
            apply par_child in Ej; auto. destruct Ej as [->| ->].
            * exact E.
            * replace (2 * pos + 2) with (2 * pos + 1 + 1) by lia. now apply le_refl.
        - split; [lia|]. split; [lia|]. intros j Hj0 Hj Ej. apply par_child in Ej; auto.
          destruct Ej as [->| ->]; [|lia]. apply le_refl. apply Pall_nth; auto. }
      destruct Hc as [Hc1 [Hc2 Hc3]]. clearbody c.
      assert (Hc0 : 0 < c) by lia.
      assert (Hpc : par c = pos) by (apply par_child; auto).
      assert (HPc : P (nth c h x)) by (apply Pall_nth; auto).
      assert (G : forall i d, i < length h -> nth i (upd h pos (nth c h x)) d =
        if Nat.eq_dec pos i then nth c h x else nth i h d).
      { intros i d Hi. now rewrite nth_upd by lia. }
      apply IH; auto.
      + rewrite upd_length. lia.
      + rewrite upd_length. lia.
      + apply Pall_upd; auto.
      + split.
        * intros i d Hi Hil N1 N2. rewrite upd_length in Hil.
          assert (Hpi := par_lt Hi). rewrite !G by lia.
          destruct (Nat.eq_dec pos (par i)) as [E|N].
          -- destruct (Nat.eq_dec pos i); [lia|].
             rewrite (nth_indep h d x Hil). apply Hc3; auto.
          -- destruct (Nat.eq_dec pos i) as [<-|].
             ++ rewrite (nth_indep h x d Hc2). apply I2; auto.
             ++ apply I1; auto.
        * intros j d _ Hj Hj0 Ej. rewrite upd_length in Hj.
          rewrite Hpc, !G by lia. destruct (Nat.eq_dec pos pos); [|lia].
          destruct (Nat.eq_dec pos j) as [<-|].
          -- apply le_refl; auto.
          -- rewrite (nth_indep h x d Hc2). rewrite <- Ej. apply I1; auto; try lia.
    - apply siftdown_heap; auto. split.
      + intros i d Hi Hil Hne. rewrite upd_length in Hil.
        assert (Hpi := par_lt Hi).
        assert (par i <> pos).
        { intros E. apply par_child in E; auto. lia. }
        rewrite !nth_upd by lia. destruct (Nat.eq_dec pos (par i)); [lia|].
        destruct (Nat.eq_dec pos i); [lia|]. apply I1; auto.
      + intros j d _ Hj Hj0 E. apply par_child in E; auto. rewrite upd_length in Hj. lia.
  Qed.

  Lemma heap_root h d : heap h -> Pall h -> forall i, i < length h -> le (nth 0 h d) (nth i h d).
  Proof.
    intros H HP i. induction i as [i IH] using lt_wf_ind. intros Hi.
    destruct (Nat.eq_dec i 0) as [->|N].
    - apply le_refl. apply Pall_nth; auto.
    - assert (Hpi := @par_lt i ltac:(lia)).
      apply le_trans with (nth (par i) h d); try (apply Pall_nth; auto; lia).
      + apply IH; lia. + apply H; lia.
  Qed.

  (** ** Interface *)
  Lemma push_perm h x : Permutation (heappush lt h x) (x :: h).
  Proof.
    unfold heappush. rewrite siftdown_perm by (rewrite app_length; simpl; lia).
    rewrite upd_same by (rewrite nth_error_app2, Nat.sub_diag; auto).
    symmetry. apply Permutation_cons_append.
  Qed.

  Lemma push_heap h x : heap h -> Pall h -> P x -> heap (heappush lt h x).
  Proof.
    intros H HP Hx. unfold heappush. apply siftdown_heap; auto.
    - rewrite app_length; simpl; lia.
    - apply Forall_app; split; auto.
    - rewrite upd_same by (rewrite nth_error_app2, Nat.sub_diag; auto).
      split.
      + intros i d Hi Hil Hne. rewrite app_length in Hil. simpl in Hil.
        assert (Hpi := par_lt Hi). rewrite !app_nth1 by lia. apply H; lia.
      + intros j d H0 Hj Hj0 E. assert (Hpj := par_lt Hj0).
        rewrite app_length in Hj. simpl in Hj. lia.
  Qed.

  Lemma pop_none h : heappop lt h = None <-> h = [].
  Proof. destruct h as [|x h]; simpl; [tauto|].
    split; [|discriminate]. destruct h; [discriminate|]. simpl. discriminate. Qed.

  Lemma removelast_last (h : list A) d : h <> [] -> h = removelast h ++ [last h d].
  Proof. apply app_removelast_last. Qed.

  Lemma pop_spec h x h' : heappop lt h = Some (x, h') -> heap h -> Pall h ->
    Permutation h (x :: h') /\ heap h' /\ Forall (fun y => le x y) h.
  Proof.
    intros E H HP. destruct h as [|a l]; [discriminate|].
    unfold heappop in E. set (h := a :: l) in *.
    assert (Hne : h <> []) by discriminate.
    assert (D := @removelast_last h a Hne).
    assert (Hall : Forall (fun y => le (nth 0 h a) y) h).
    { apply Forall_forall. intros y Hy. apply In_nth with (d := a) in Hy.
      destruct Hy as [i [Hi <-]]. now apply heap_root. }
    destruct (removelast h) as [|r rest] eqn:R.
    - injection E as E1 E2. subst x h'. simpl in D.
      split; [|split].
      + rewrite D at 1. auto.
      + intros i d H0 Hi. simpl in Hi. lia.
      + replace (nth 0 h a) with (last h a) in Hall; auto. rewrite D at 2. auto.
    - set (le_ := last h a) in *. set (h0 := le_ :: rest) in *.
      assert (E1 : r = x) by congruence.
      assert (E2 : siftup lt (length h0) h0 0 le_ = h') by congruence.
      clear E. subst x h'.
      assert (HPall0 : Pall h0).
      { unfold Pall in HP. rewrite D in HP. apply Forall_app in HP. destruct HP as [HP1 HP2].
        inversion HP1; subst. inversion HP2; subst. constructor; auto. }
      assert (Hr : nth 0 h a = r) by (rewrite D; auto).
      split; [|split].
      + assert (H0 : Permutation (siftup lt (length h0) h0 0 le_) (upd h0 0 le_)).
        { apply siftup_perm. simpl. lia. }
        rewrite H0. simpl. rewrite D at 1. simpl. constructor.
        symmetry. apply Permutation_cons_append.
      + apply siftup_heap; auto; try (simpl; lia).
        * inversion HPall0; auto.
        * split; [|intros; lia].
          intros i d Hi Hil N1 N2. assert (Hpi := par_lt Hi).
          assert (Hlen : length h = S (S (length rest))).
          { rewrite D. rewrite app_length. simpl. lia. }
          simpl in Hil.
          specialize (H i d Hi ltac:(lia)). rewrite D in H.
          rewrite !app_nth1 in H by (simpl; lia).
          destruct i; [lia|]. destruct (par (S i)); [lia|]. exact H.
      + now rewrite Hr in Hall.
  Qed.
End HeapProof.
