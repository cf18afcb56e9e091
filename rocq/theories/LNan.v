(** Proofs about [MFill.fill_nan]. *)
From Coq Require Import String QArith Qabs.
From Verif Require Import Py Spec MFill.
Set Implicit Arguments.
Local Open Scope nat_scope.
Local Open Scope list_scope.

Section Nan.
  Context {T : Type}.
  Variable nb : list (list nat).
  Variable dem0 : list (option T).
  Let N := List.length dem0.
  Variable g : T -> list T -> T.
  Variable strict : bool.
  Hypothesis nb_len : N <= List.length nb.
  Hypothesis nb_in : forall c l n, c < N -> nth_error nb c = Some l -> In n l -> n < N.

  Definition valid0 n := is_valid dem0 n.
  Definition nan0 n := is_nan dem0 n.

  Lemma valid_or_nan n : n < N -> valid0 n \/ nan0 n.
  Proof. intros H. unfold valid0, nan0, is_valid, is_nan. destruct (nth_error dem0 n) as [[x|]|] eqn:E; eauto.
    apply nth_error_None in E. unfold N in H. lia. Qed.

  (** the condition of C14 for one cell *)
  Definition fillable c := exists n, adjacent nb c n /\ (valid0 n \/ (nan0 n /\ c < n)).

  Lemma somes_nil (l : list (option T)) : somes l = [] <-> forall o, In o l -> o = None.
  Proof. induction l as [|[x|] l IH]; simpl.
    - split; auto. intros _ o [].
    - split; [discriminate|]. intros H. specialize (H (Some x) (or_introl eq_refl)). discriminate.
    - rewrite IH. split; intros H o; [intros [<-|Ho]; auto|auto]. Qed.

  Lemma somes_in (l : list (option T)) x : In x (somes l) <-> In (Some x) l.
  Proof. induction l as [|[y|] l IH]; simpl; [tauto| |].
    - rewrite IH. split; intros [H|H]; auto; [left; congruence|left; congruence].
    - rewrite IH. split; auto. intros [H|H]; [discriminate|auto]. Qed.

  Definition v (d : list (option T)) n := nth n d None.

  (** invariant: the cells of [st] (descending) and only they are NaN; the others are
      originally valid (unchanged) or NaN cells above all of [st]. *)
  Record Inv (st : list nat) (d : list (option T)) : Prop := {
    i_len : List.length d = N;
    i_sorted : StronglySorted gt st;
    i_nan : forall n, In n st -> nan0 n /\ v d n = None;
    i_valid : forall n, valid0 n -> nth_error d n = nth_error dem0 n;
    i_done : forall n, nan0 n -> ~ In n st -> (exists x, v d n = Some x) /\ forall m, In m st -> m < n
  }.

  Lemma nan_lt n : nan0 n -> n < N.
  Proof. intros H. apply nth_error_Some. unfold nan0, is_nan in H. congruence. Qed.
  Lemma valid_lt n : valid0 n -> n < N.
  Proof. intros [x H]. apply nth_error_Some. congruence. Qed.

  Lemma slice c nn d : c < N -> nth_error nb c = Some nn -> List.length d = N ->
    mapM (get d) nn = Ok (map (v d) nn).
  Proof. intros Hc En L. apply mapM_ok. intros n Hn. unfold v. apply get_nth. rewrite L.
    eapply nb_in; eauto. Qed.

  Lemma slice_nil c nn st d : nth_error nb c = Some nn -> Inv (c :: st) d ->
    (somes (map (v d) nn) = [] <-> ~ fillable c).
  Proof.
    intros En I. destruct (i_nan I c (or_introl eq_refl)) as [Hc0 Hc1]. assert (Hc := nan_lt Hc0).
    rewrite somes_nil. split.
    - intros H [n [[l [El Hn]] Hor]]. rewrite En in El. inversion El; subst l.
      specialize (H (v d n) (in_map (v d) _ _ Hn)).
      destruct Hor as [Hv|[Hna Hlt]].
      + assert (X := i_valid I Hv). destruct Hv as [x Hx]. rewrite Hx in X.
        unfold v in H. rewrite (nth_error_nth _ _ None X) in H. discriminate.
      + destruct (i_done I Hna) as [[x Hx] _]; [|congruence].
        intros [->|Hin]; [lia|]. assert (S := i_sorted I). inversion S as [|? ? S1 S2]; subst.
        rewrite Forall_forall in S2. specialize (S2 _ Hin). lia.
    - intros H o Ho. apply in_map_iff in Ho. destruct Ho as [n [<- Hn]].
      assert (Hlt := @nb_in c nn n Hc En Hn).
      destruct (v d n) as [x|] eqn:Ev; auto. exfalso. apply H. exists n.
      split; [exists nn; auto|]. destruct (valid_or_nan Hlt) as [Hv|Hna]; auto. right. split; auto.
      destruct (in_dec Nat.eq_dec n (c :: st)) as [Hi|Hi].
      + destruct (i_nan I n Hi). congruence.
      + destruct (i_done I Hna Hi) as [_ X]. apply X. now left.
  Qed.

  Lemma fill_step c st d y : Inv (c :: st) d -> Inv st (upd d c (Some y)).
  Proof.
    intros I. destruct (i_nan I c (or_introl eq_refl)) as [Hc0 Hc1]. assert (Hc := nan_lt Hc0).
    assert (S := i_sorted I). inversion S as [|? ? S1 S2]; subst. rewrite Forall_forall in S2.
    assert (L := i_len I).
    constructor; auto.
    - now rewrite upd_length.
    - intros n Hn. destruct (i_nan I n (or_intror Hn)) as [A B]. split; auto. unfold v.
      rewrite nth_upd_neq; auto. intros ->. specialize (S2 _ Hn). lia.
    - intros n Hv. rewrite nth_error_upd_neq; [now apply (i_valid I)|]. intros ->.
      destruct Hv as [x Hx]. unfold nan0, is_nan in Hc0. congruence.
    - intros n Hna Hn. destruct (Nat.eq_dec n c) as [->|Hne].
      + split; [exists y; unfold v; apply nth_upd_eq; lia|]. intros m Hm. now apply S2.
      + destruct (i_done I Hna) as [[x Hx] Hm]; [intros [->|]; auto; contradiction|].
        split; [exists x; unfold v in *; rewrite nth_upd_neq; auto|]. intros m Hi. apply Hm. now right.
  Qed.

  Notation loop f st d := (nan_loop f nb (Some (g, strict)) st d).

  Lemma loop_ok st : forall d, Inv st d -> (forall c, In c st -> fillable c) ->
    exists out, Inv [] out /\ forall f, List.length st <= f -> loop f st d = Ok out.
  Proof.
    induction st as [|c st IH]; intros d I Hf.
    - exists d. split; auto. intros [|f] _; auto.
    - destruct (i_nan I c (or_introl eq_refl)) as [Hc0 Hc1]. assert (Hc := nan_lt Hc0).
      destruct (nth_error nb c) as [nn|] eqn:En; [|apply nth_error_None in En; lia].
      assert (Hs := slice_nil En I).
      destruct (somes (map (v d) nn)) as [|x l] eqn:Es.
      { destruct (proj1 Hs eq_refl). apply Hf. now left. }
      destruct (IH (upd d c (Some (g x l))) (fill_step _ I)) as [out [Io Ho]].
      { intros c' H'. apply Hf. now right. }
      exists out. split; auto. intros [|f] Hfu; simpl in Hfu; [lia|].
      simpl. rewrite En. simpl. rewrite (slice _ Hc En (i_len I)). simpl. rewrite Es.
      rewrite set_lt by (rewrite (i_len I); auto). simpl. apply Ho. lia.
  Qed.

  (** once the top cell cannot be filled the loop never returns *)
  Lemma loop_stuck c st d : Inv (c :: st) d -> ~ fillable c -> forall f out, loop f (c :: st) d <> Ok out.
  Proof.
    intros I Hnf. destruct (i_nan I c (or_introl eq_refl)) as [Hc0 Hc1]. assert (Hc := nan_lt Hc0).
    destruct (nth_error nb c) as [nn|] eqn:En; [|apply nth_error_None in En; lia].
    assert (Hs := proj2 (slice_nil En I) Hnf).
    induction f as [|f IH]; intros out; [discriminate|].
    cbn [nan_loop]. rewrite En. cbn [bind]. rewrite (slice _ Hc En (i_len I)). cbn [bind]. rewrite Hs.
    destruct (map (v d) nn); [destruct strict; [discriminate|]|]; apply IH.
  Qed.

  Lemma loop_bad st : forall d, Inv st d -> (exists c, In c st /\ ~ fillable c) ->
    forall f out, loop f st d <> Ok out.
  Proof.
    induction st as [|c st IH]; intros d I [c' [Hin Hnf]] f out; [destruct Hin|].
    destruct (i_nan I c (or_introl eq_refl)) as [Hc0 Hc1]. assert (Hc := nan_lt Hc0).
    destruct (nth_error nb c) as [nn|] eqn:En; [|apply nth_error_None in En; lia].
    assert (Hs := slice_nil En I).
    destruct (somes (map (v d) nn)) as [|x l] eqn:Es.
    - apply loop_stuck; auto. now apply Hs.
    - destruct f as [|f]; [discriminate|]. cbn [nan_loop]. rewrite En. cbn [bind].
      rewrite (slice _ Hc En (i_len I)). cbn [bind]. rewrite Es.
      rewrite set_lt by (rewrite (i_len I); auto). cbn [bind].
      apply IH; [now apply fill_step|]. destruct Hin as [->|Hin]; [|eauto].
      exfalso. apply Hs in Hnf. discriminate.
  Qed.

  (** the value written to each NaN cell: the statistic of the values of its neighbours
      that are valid at that moment (valid input cells and larger NaN cells) *)
  Definition seen (d : list (option T)) (n m : nat) := if n <? m then v d m else v dem0 m.
  Definition K (st : list nat) (d : list (option T)) : Prop :=
    forall n, nan0 n -> ~ In n st -> exists nn x l, nth_error nb n = Some nn /\
      somes (map (seen d n) nn) = x :: l /\ v d n = Some (g x l).

  Lemma loop_value st : forall d, Inv st d -> K st d -> (forall c, In c st -> fillable c) ->
    exists out, Inv [] out /\ K [] out /\ forall f, List.length st <= f -> loop f st d = Ok out.
  Proof.
    induction st as [|c st IH]; intros d I HK Hf.
    - exists d. split; auto. split; auto. intros [|f] _; auto.
    - destruct (i_nan I c (or_introl eq_refl)) as [Hc0 Hc1]. assert (Hc := nan_lt Hc0).
      destruct (nth_error nb c) as [nn|] eqn:En; [|apply nth_error_None in En; lia].
      assert (Hs := slice_nil En I).
      destruct (somes (map (v d) nn)) as [|x l] eqn:Es.
      { destruct (proj1 Hs eq_refl). apply Hf. now left. }
      assert (Hvu : forall m y, v (upd d c (Some y)) m = if Nat.eq_dec c m then Some y else v d m).
      { intros m y. unfold v. rewrite nth_upd; [|rewrite (i_len I); auto].
        destruct (Nat.eq_dec m c), (Nat.eq_dec c m); congruence. }
      destruct (IH (upd d c (Some (g x l))) (fill_step _ I)) as [out [Io [Ko Ho]]].
      { intros n Hn Hni. destruct (Nat.eq_dec c n) as [<-|Hcn].
        - exists nn, x, l. split; auto. split.
          + rewrite <- Es. f_equal. apply map_ext_in. intros m Hm. unfold seen.
            destruct (Nat.ltb_spec c m) as [Hlt|Hge].
            * rewrite Hvu. destruct (Nat.eq_dec c m); [lia|auto].
            * assert (HmN : m < N) by (eapply nb_in; eauto).
              destruct (valid_or_nan HmN) as [Hv|Hv].
              { unfold v. assert (X := i_valid I Hv). destruct Hv as [y Hy]. rewrite Hy in X.
                now rewrite (nth_error_nth _ _ None Hy), (nth_error_nth _ _ None X). }
              destruct (in_dec Nat.eq_dec m (c :: st)) as [Hi|Hi].
              { destruct (i_nan I m Hi) as [_ ->]. unfold v, nan0, is_nan in *.
                now rewrite (nth_error_nth _ _ None Hv). }
              destruct (i_done I Hv Hi) as [_ X]. specialize (X c (or_introl eq_refl)). lia.
          + rewrite Hvu. destruct (Nat.eq_dec c c); congruence.
        - assert (Hni' : ~ In n (c :: st)) by (simpl; tauto).
          destruct (HK n Hn Hni') as [nn' [x' [l' [H1 [H2 H3]]]]].
          destruct (i_done I Hn Hni') as [_ Hbig]. specialize (Hbig c (or_introl eq_refl)).
          exists nn', x', l'. split; auto. split.
          + rewrite <- H2. f_equal. apply map_ext_in. intros m _. unfold seen.
            destruct (Nat.ltb_spec n m); auto. rewrite Hvu. destruct (Nat.eq_dec c m); [lia|auto].
          + rewrite Hvu. destruct (Nat.eq_dec c n); [congruence|auto]. }
      { intros c' H'. apply Hf. now right. }
      exists out. split; auto. split; auto. intros [|f] Hfu; simpl in Hfu; [lia|].
      simpl. rewrite En. simpl. rewrite (slice _ Hc En (i_len I)). simpl. rewrite Es.
      rewrite set_lt by (rewrite (i_len I); auto). simpl. apply Ho. lia.
  Qed.

  Lemma loop_diverges st : (strict = false \/ forall c l, nth_error nb c = Some l -> l <> []) -> forall d, Inv st d -> (exists c, In c st /\ ~ fillable c) ->
    forall f, loop f st d = Err OutOfFuel.
  Proof.
    intros Hst. induction st as [|c st IH]; intros d I [c' [Hin Hnf]]; [destruct Hin|].
    destruct (i_nan I c (or_introl eq_refl)) as [Hc0 Hc1]. assert (Hc := nan_lt Hc0).
    destruct (nth_error nb c) as [nn|] eqn:En; [|apply nth_error_None in En; lia].
    assert (Hs := slice_nil En I).
    destruct (somes (map (v d) nn)) as [|x l] eqn:Es.
    - induction f as [|f IHf]; auto. cbn [nan_loop]. rewrite En. cbn [bind].
      rewrite (slice _ Hc En (i_len I)). cbn [bind]. rewrite Es.
      destruct Hst as [Hst|Hst].
      + rewrite Hst, <- Hst. destruct (map (v d) nn); apply IHf.
      + destruct nn as [|n0 nn]; [elim (Hst _ _ En); auto|]. apply IHf.
    - intros [|f]; auto. cbn [nan_loop]. rewrite En. cbn [bind].
      rewrite (slice _ Hc En (i_len I)). cbn [bind]. rewrite Es.
      rewrite set_lt by (rewrite (i_len I); auto). cbn [bind].
      apply IH; [now apply fill_step|]. destruct Hin as [->|Hin]; [|eauto].
      exfalso. apply Hs in Hnf. discriminate.
  Qed.

  Lemma rev_sorted (l : list nat) : StronglySorted lt l -> StronglySorted gt (rev l).
  Proof.
    induction 1 as [|x l S IH Hx]; simpl; [constructor|].
    rewrite Forall_forall in Hx.
    assert (G : forall l', StronglySorted gt l' -> (forall y, In y l' -> x < y) -> StronglySorted gt (l' ++ [x])).
    { induction 1 as [|y l' S' IH' Hy]; intros H; simpl; [repeat constructor|].
      constructor; [apply IH'; intros; apply H; now right|].
      apply Forall_app. split; auto. constructor; auto. apply H. now left. }
    apply G; auto. intros y Hy. apply Hx. now apply in_rev.
  Qed.

  Lemma init_inv : Inv (rev (where_ isnan dem0)) dem0.
  Proof.
    assert (Hw : forall n, In n (rev (where_ isnan dem0)) <-> nan0 n).
    { intros n. rewrite <- in_rev, in_where. unfold nan0, is_nan. split.
      - intros [[x|] [H1 H2]]; [discriminate|auto].
      - intros H. exists None. auto. }
    constructor; auto.
    - apply rev_sorted, where_sorted.
    - intros n Hn. apply Hw in Hn. split; auto. unfold v. now rewrite (nth_error_nth _ _ None Hn).
    - intros n Hn Hni. rewrite Hw in Hni. contradiction.
  Qed.

  (** an always-true property of filled values: agreement with any interval that
      contains the valid inputs *)
  Lemma loop_range (P : T -> Prop) : (forall x l, P x -> Forall P l -> P (g x l)) ->
    (forall n x, nth_error dem0 n = Some (Some x) -> P x) ->
    forall f st d out, (forall n x, nth_error d n = Some (Some x) -> P x) -> loop f st d = Ok out ->
    forall n x, nth_error out n = Some (Some x) -> P x.
  Proof.
    intros Hg H0. induction f as [|f IH]; intros st d out Hd Hl.
    - destruct st; [|discriminate]. inversion Hl; subst. auto.
    - destruct st as [|c st]; [inversion Hl; subst; auto|]. cbn [nan_loop] in Hl.
      destruct (nth_error nb c) as [nn|]; [|discriminate]. cbn [bind] in Hl.
      destruct (mapM (get d) nn) as [es|] eqn:Em; [|discriminate]. cbn [bind] in Hl.
      assert (Hes : forall x, In (Some x) es -> P x).
      { intros x Hx. clear Hl. revert es Em Hx. clear - Hd. induction nn as [|n nn IHn]; intros es Em Hx; simpl in Em.
        - inversion Em; subst. destruct Hx.
        - destruct (get d n) as [o|] eqn:Eo; [|discriminate]. simpl in Em.
          destruct (mapM (get d) nn) as [es'|]; [|discriminate]. simpl in Em. inversion Em; subst.
          destruct Hx as [->|Hx]; [apply get_ok in Eo; eauto|]. eapply IHn; eauto. }
      destruct (somes es) as [|x l] eqn:Es.
      + destruct es; [destruct strict; [discriminate|]|]; eapply IH; eauto.
      + destruct (set d c (Some (g x l))) as [d'|] eqn:Eset; [|discriminate]. simpl in Hl.
        apply set_ok in Eset. destruct Eset as [Hc ->].
        eapply IH; [|exact Hl]. intros n y Hn. destruct (Nat.eq_dec c n) as [<-|Hne].
        * rewrite nth_error_upd_eq in Hn by auto. inversion Hn; subst.
          assert (Hall : forall w, In w (x :: l) -> P w) by (intros w Hw; apply Hes, somes_in; now rewrite Es).
          apply Hg; [apply Hall; now left|]. apply Forall_forall. intros w Hw. apply Hall. now right.
        * rewrite nth_error_upd_neq in Hn by auto. eauto.
  Qed.
End Nan.
