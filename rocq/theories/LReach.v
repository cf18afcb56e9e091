(** Lemmas about segment_data and reach_data. *)
From Verif Require Import Py Spec MFlow LGraph LTopo MStream LStream LConn LSeg LSeg2 LSeg3 LSeg4 PropsSeg.
Set Implicit Arguments.
Local Open Scope nat_scope.
Local Open Scope list_scope.

Lemma zsorted_ext l1 : forall l2, StronglySorted Z.lt l1 -> StronglySorted Z.lt l2 -> (forall x, In x l1 <-> In x l2) -> l1 = l2.
Proof.
  induction l1 as [|a l1 IH]; intros [|b l2] S1 S2 H; auto.
  - exfalso. apply (H b). now left.
  - exfalso. apply (H a). now left.
  - inversion S1 as [|? ? S1' F1]; subst. inversion S2 as [|? ? S2' F2]; subst. rewrite Forall_forall in F1, F2.
    assert (a = b).
    { destruct (proj1 (H a) (or_introl eq_refl)) as [X|X]; auto. destruct (proj2 (H b) (or_introl eq_refl)) as [Y|Y]; auto.
      apply F1 in Y. apply F2 in X. lia. }
    subst b. f_equal. apply IH; auto. intros x. split; intros Hx.
    + destruct (proj1 (H x) (or_intror Hx)) as [X|X]; auto. subst x. apply F1 in Hx. lia.
    + destruct (proj2 (H x) (or_intror Hx)) as [X|X]; auto. subst x. apply F2 in Hx. lia.
Qed.

Lemma zseq_sorted n : forall s, StronglySorted Z.lt (map Z.of_nat (seq s n)).
Proof.
  induction n as [|n IH]; intros s; simpl; constructor; auto.
  apply Forall_forall. intros x Hx. apply in_map_iff in Hx. destruct Hx as [k [<- Hk]]. apply in_seq in Hk. lia.
Qed.

Lemma in_zseq x n : In x (map Z.of_nat (seq 1 n)) <-> (1 <= x <= Z.of_nat n)%Z.
Proof.
  rewrite in_map_iff. split.
  - intros [k [<- Hk]]. apply in_seq in Hk. lia.
  - intros H. exists (Z.to_nat x). split; [lia|]. apply in_seq. lia.
Qed.

(** sorting a dictionary with keys 1..n *)
Lemma sorted_items_1n {V} (t : list (Z * V)) : NoDup (map fst t) ->
  (forall s, In s (map fst t) <-> (1 <= s <= Z.of_nat (length t))%Z) ->
  map fst (sorted_items t) = map Z.of_nat (seq 1 (length t)).
Proof.
  intros ND H. rewrite sorted_items_keys. apply zsorted_ext; [now apply isort_zlt|apply zseq_sorted|].
  intros x. rewrite isort_in, H, in_zseq. tauto.
Qed.

Lemma insert_map {A B} (f : A -> B) (leb : B -> B -> bool) x l :
  insert leb (f x) (map f l) = map f (insert (fun a b => leb (f a) (f b)) x l).
Proof. induction l as [|y l IH]; simpl; auto. destruct (leb (f x) (f y)); simpl; auto. now rewrite IH. Qed.

Lemma isort_map {A B} (f : A -> B) (leb : B -> B -> bool) l :
  isort leb (map f l) = map f (isort (fun a b => leb (f a) (f b)) l).
Proof. induction l as [|x l IH]; simpl; auto. now rewrite IH, insert_map. Qed.

Section Reach.
  Variables (fdir strm : list Z) (ncol : Z).
  Variables (m : mf2005) (K : list nat) (len : nat -> nat) (sg tg : nat -> Z).
  Hypothesis C : conn5 fdir strm m K len sg tg.
  Hypothesis T1 : forall c, In c K -> tg c = 0%Z \/ (In (downs fdir (S (len c)) c) K /\ tg c = sg (downs fdir (S (len c)) c)).

  Lemma T0 c : In c K -> tg c = 0%Z \/ exists c', In c' K /\ tg c = sg c'.
  Proof. intros H. destruct (T1 c H) as [X|[X Y]]; eauto. Qed.

  (** the segments in order *)
  Definition Ks : list nat := isort (fun a b => (sg a <=? sg b)%Z) K.

  Lemma Ks_in c : In c Ks <-> In c K.
  Proof. apply isort_in. Qed.
  Lemma Ks_nodup : NoDup Ks.
  Proof. apply isort_nodup. apply (c_nd C). Qed.
  Lemma Ks_sorted_items : sorted_items (m_seg m) = map (fun c => (sg c, tg c)) Ks.
  Proof. rewrite (c_seg C). unfold sorted_items. now rewrite isort_map. Qed.
  Lemma seg_keys : NoDup (map fst (m_seg m)) /\ (forall s, In s (map fst (m_seg m)) <-> (1 <= s <= Z.of_nat (length (m_seg m)))%Z).
  Proof.
    rewrite (c_seg C), map_map, map_length. cbn [fst]. split.
    - apply nodup_map_in; [apply (c_nd C)|]. intros; now apply (c_inj C).
    - intros s. rewrite in_map_iff. split.
      + intros [c [<- Hc]]. now apply (c_rng C).
      + intros Hs. destruct (c_num C Hs) as [c [Hc Ec]]. eauto.
  Qed.
  Lemma Ks_numbers : map sg Ks = map Z.of_nat (seq 1 (length K)).
  Proof.
    destruct seg_keys as [H1 H2]. assert (X := sorted_items_1n (m_seg m) H1 H2).
    rewrite Ks_sorted_items, map_map in X. cbn [fst] in X. rewrite (c_seg C), map_length in X. exact X.
  Qed.

  (** the records of one segment, numbered from [id] *)
  Definition rec_of (c id j : nat) : rch :=
    let node := Z.of_nat (downs fdir j c) in
    Rch (node / ncol * ncol + node mod ncol) (node / ncol) (node mod ncol) (sg c) (1 + Z.of_nat j) (Z.of_nat (id + j))
        (if Nat.eqb j (len c) then (if (tg c =? 0)%Z then None else Some (Z.of_nat (downs fdir (S (len c)) c)))
         else Some (Z.of_nat (downs fdir (S j) c)))
        (if Nat.eqb j 0 then Some (Z.of_nat (id + j) + 1)%Z else if Nat.eqb j (len c) then None else Some (Z.of_nat (id + j) + 1)%Z).

  Definition recs_of (c id : nat) : list rch := map (rec_of c id) (seq 0 (S (len c))).

  Fixpoint all_recs (l : list nat) (id : nat) : list rch :=
    match l with [] => [] | c :: l' => recs_of c id ++ all_recs l' (id + S (len c)) end.

  Definition rstep (outseg iseg : Z) (numrch : nat) (rws nsr : list (Z * Z * Z)) (st : list rch * Z * list (Z * Z)) (p : nat * (Z * Z * Z)) :=
             let '(recs, reachid, lut) := st in
             let '(ix, (node, _, r)) := p in
             dn <- (if negb (Nat.eqb ix numrch) then
                      r' <- get rws (ix + 1) ;; Ok (Some (fst (fst r')))
                    else if (outseg =? 0)%Z then Ok None
                    else r' <- get (filter (fun r => (snd (fst r) =? outseg)%Z) nsr) 0 ;; Ok (Some (fst (fst r')))) ;;
             let i := (node / ncol)%Z in
             let j := (node mod ncol)%Z in
             let out := if Nat.eqb ix 0 then Some (reachid + 1)%Z
                        else if Nat.eqb ix numrch then None else Some (reachid + 1)%Z in
             let lut' := if Nat.eqb ix 0 then dset Z.eqb lut iseg reachid else lut in
             Ok (recs ++ [Rch (i * ncol + j) i j iseg r reachid dn out], (reachid + 1)%Z, lut').

  Definition out_ok (outseg : Z) (next : nat) (nsr : list (Z * Z * Z)) : Prop :=
    outseg = 0%Z \/ exists q r, get (filter (fun r => (snd (fst r) =? outseg)%Z) nsr) 0 = Ok (Z.of_nat next, q, r).

  Lemma rstep_ok outseg iseg numrch rws nsr next recs reachid lut ix node q r q' r' node' : out_ok outseg next nsr ->
    (ix <> numrch -> nth_error rws (ix + 1) = Some (node', q', r')) ->
    rstep outseg iseg numrch rws nsr (recs, reachid, lut) (ix, (node, q, r)) =
    Ok (recs ++ [Rch (node / ncol * ncol + node mod ncol)%Z (node / ncol)%Z (node mod ncol)%Z iseg r reachid
          (if Nat.eqb ix numrch then (if (outseg =? 0)%Z then None else Some (Z.of_nat next)) else Some node')
          (if Nat.eqb ix 0 then Some (reachid + 1)%Z else if Nat.eqb ix numrch then None else Some (reachid + 1)%Z)],
        (reachid + 1)%Z, if Nat.eqb ix 0 then dset Z.eqb lut iseg reachid else lut).
  Proof.
    intros Ho Hn. unfold rstep. destruct (Nat.eqb_spec ix numrch) as [->|N]; cbn [negb bind]; auto.
    - destruct Ho as [->|[q0 [r0 Hx]]]; auto. destruct (Z.eqb_spec outseg 0); auto. rewrite Hx. reflexivity.
    - unfold get at 1. rewrite Hn by auto. reflexivity.
  Qed.

  Lemma rfold c id lut recs nsr : out_ok (tg c) (downs fdir (S (len c)) c) nsr ->
    foldM (rstep (tg c) (sg c) (len c) (rows fdir len sg c) nsr) (combine (seq 0 (S (len c))) (rows fdir len sg c)) (recs, Z.of_nat id, lut)
    = Ok (recs ++ recs_of c id, Z.of_nat (id + S (len c)), dset Z.eqb lut (sg c) (Z.of_nat id)).
  Proof.
    intros Ho.
    assert (Hr : forall s, s <= len c -> nth_error (rows fdir len sg c) s = Some (Z.of_nat (downs fdir s c), sg c, (1 + Z.of_nat s)%Z)).
    { intros s Hs. unfold rows. rewrite nth_error_map, nth_error_seq by lia. reflexivity. }
    assert (G : forall n s recs lut, s + n <= S (len c) -> foldM (rstep (tg c) (sg c) (len c) (rows fdir len sg c) nsr)
        (combine (seq s n) (map (fun j => (Z.of_nat (downs fdir j c), sg c, (1 + Z.of_nat j)%Z)) (seq s n))) (recs, Z.of_nat (id + s), lut)
        = Ok (recs ++ map (rec_of c id) (seq s n), Z.of_nat (id + s + n),
              match n, s with O, _ => lut | _, O => dset Z.eqb lut (sg c) (Z.of_nat id) | _, _ => lut end)).
    { clear recs lut. induction n as [|n IH]; intros s recs lut Hs.
      - cbn [seq map combine foldM]. rewrite app_nil_r, Nat.add_0_r. reflexivity.
      - cbn [seq map combine foldM]. erewrite rstep_ok; [|exact Ho|intros N; apply Hr; lia]. cbn [bind].
        replace (Z.of_nat (id + s) + 1)%Z with (Z.of_nat (id + S s)) by lia. rewrite IH by lia. f_equal. f_equal; [f_equal|].
        + rewrite <- app_assoc. cbn [app]. f_equal. f_equal. unfold rec_of.
          replace (Z.of_nat (id + S s))%Z with (Z.of_nat (id + s) + 1)%Z by lia. rewrite (Nat.add_1_r s). reflexivity.
        + lia.
        + destruct n; destruct s; cbn [Nat.eqb]; auto; now rewrite Nat.add_0_r. }
    specialize (G (S (len c)) 0 recs lut (le_n _)). rewrite Nat.add_0_r in G. exact G.
  Qed.

  Lemma out_ok_tg c : In c K -> out_ok (tg c) (downs fdir (S (len c)) c) (m_nsr m).
  Proof.
    intros Hc. destruct (T1 c Hc) as [E|[Hc' E]]; [now left|right]. rewrite E, (c_nsr C).
    rewrite (@rows_of_seg fdir len sg K _); [|apply (c_nd C)|intros; now apply (c_inj C)|auto].
    unfold rows. cbn [seq map]. eexists _, _. reflexivity.
  Qed.

  Lemma seg_records_ok c id lut recs : In c K ->
    seg_records ncol (m_nsr m) (recs, Z.of_nat id, lut) (sg c, tg c) =
    Ok (recs ++ recs_of c id, Z.of_nat (id + S (len c)), dset Z.eqb lut (sg c) (Z.of_nat id)).
  Proof.
    intros Hc. unfold seg_records. assert (R := c_rng C _ Hc). destruct (Z.eqb_spec (sg c) 0); [lia|].
    cbv zeta. assert (Er : filter (fun r => (snd (fst r) =? sg c)%Z) (m_nsr m) = rows fdir len sg c).
    { rewrite (c_nsr C). apply rows_of_seg; [apply (c_nd C)|intros; now apply (c_inj C)|auto]. }
    rewrite Er. assert (El : length (rows fdir len sg c) = S (len c)) by (unfold rows; now rewrite map_length, seq_length).
    rewrite El. replace (S (len c) - 1) with (len c) by lia.
    rewrite <- (@rfold c id lut recs (m_nsr m) (out_ok_tg _ Hc)). reflexivity.
  Qed.

  Definition first_ids (l : list nat) (id : nat) : list (Z * Z) :=
    (fix go l id := match l with [] => [] | c :: l' => (sg c, Z.of_nat id) :: go l' (id + S (len c)) end) l id.

  Lemma first_ids_keys l : forall id, map fst (first_ids l id) = map sg l.
  Proof. induction l as [|c l IH]; intros id; auto. cbn. f_equal. apply IH. Qed.

  Lemma all_fold l : forall id recs lut, (forall c, In c l -> In c K) -> NoDup l -> (forall c, In c l -> ~ In (sg c) (map fst lut)) ->
    foldM (seg_records ncol (m_nsr m)) (map (fun c => (sg c, tg c)) l) (recs, Z.of_nat id, lut) =
    Ok (recs ++ all_recs l id, Z.of_nat (id + length (all_recs l id)), lut ++ first_ids l id).
  Proof.
    induction l as [|c l IH]; intros id recs lut H ND HF.
    - cbn. rewrite !app_nil_r, Nat.add_0_r. reflexivity.
    - cbn [map foldM]. rewrite seg_records_ok by (apply H; now left). cbn [bind].
      inversion ND as [|? ? N1 N2]; subst. rewrite dset_fresh by (apply HF; now left). rewrite IH; auto.
      + cbn [all_recs]. rewrite <- !app_assoc. rewrite app_length. unfold recs_of at 3. rewrite map_length, seq_length.
        f_equal. f_equal. f_equal. f_equal. lia.
      + intros; apply H; now right.
      + intros x Hx. rewrite map_app, in_app_iff. cbn [map fst]. intros [X|[X|[]]].
        * apply (HF x); auto. now right.
        * apply (c_inj C) in X; [|apply H; now left|apply H; now right]. subst. contradiction.
  Qed.

  Lemma reach_fold : foldM (seg_records ncol (m_nsr m)) (sorted_items (m_seg m)) ([], 1%Z, []) =
    Ok (all_recs Ks 1, Z.of_nat (1 + length (all_recs Ks 1)), first_ids Ks 1).
  Proof.
    rewrite Ks_sorted_items. apply (@all_fold Ks 1 [] []).
    - intros c. apply Ks_in.
    - apply Ks_nodup.
    - intros c _ [].
  Qed.

  (** ** properties of the record list *)
  Definition triple (r : rch) : Z * Z * Z := (r_node r, r_iseg r, r_ireach r).

  Lemma all_triples l : (0 < ncol)%Z -> forall id, map triple (all_recs l id) = flat_map (rows fdir len sg) l.
  Proof.
    intros Hn. induction l as [|c l IH]; intros id; auto. cbn [all_recs flat_map]. rewrite map_app, IH. f_equal.
    unfold recs_of, rows. rewrite map_map. apply map_ext. intros j. unfold triple, rec_of. cbn [r_node r_iseg r_ireach].
    f_equal. f_equal. rewrite Z.mul_comm. symmetry. apply Z.div_mod. lia.
  Qed.

  Lemma all_ids l : forall id, map r_id (all_recs l id) = map Z.of_nat (seq id (length (all_recs l id))).
  Proof.
    induction l as [|c l IH]; intros id; auto. cbn [all_recs]. rewrite map_app, app_length, seq_app, map_app, IH. f_equal.
    - unfold recs_of. rewrite map_map, map_length, seq_length. unfold rec_of. cbn [r_id]. rewrite <- (map_map (fun j => id + j) Z.of_nat).
      f_equal. generalize (S (len c)). intros n. clear. assert (G : forall s, map (fun j => id + j) (seq s n) = seq (id + s) n).
      { induction n as [|n IH]; intros s; auto. cbn. f_equal. rewrite IH. f_equal. lia. }
      rewrite G. f_equal. lia.
    - unfold recs_of. rewrite map_length, seq_length. reflexivity.
  Qed.

  Lemma in_all l : forall id r, In r (all_recs l id) -> exists c id' j, In c l /\ j <= len c /\ r = rec_of c id' j.
  Proof.
    induction l as [|c l IH]; intros id r H; [contradiction|]. cbn [all_recs] in H. apply in_app_iff in H. destruct H as [H|H].
    - unfold recs_of in H. apply in_map_iff in H. destruct H as [j [<- Hj]]. apply in_seq in Hj. exists c, id, j. repeat split; auto; [now left|lia].
    - apply IH in H. destruct H as [c' [id' [j [H1 H2]]]]. exists c', id', j. split; auto. now right.
  Qed.

  Lemma all_has l c : In c l -> forall id j, j <= len c -> exists id', In (rec_of c id' j) (all_recs l id).
  Proof.
    induction l as [|a l IH]; intros Hc id j Hj; [contradiction|]. cbn [all_recs]. destruct Hc as [->|Hc].
    - exists id. apply in_app_iff. left. unfold recs_of. apply in_map. apply in_seq. lia.
    - destruct (IH Hc (id + S (len a)) j Hj) as [id' H]. exists id'. apply in_app_iff. now right.
  Qed.

  Lemma lut_get c id : In c K -> exists v, dget Z.eqb (first_ids Ks id) (sg c) = Some v.
  Proof.
    intros Hc. apply (dget_key_some (first_ids Ks id)). rewrite first_ids_keys. apply in_map. now apply Ks_in.
  Qed.

  Lemma lut_none x id : ~ (1 <= x <= Z.of_nat (length K))%Z -> dget Z.eqb (first_ids Ks id) x = None.
  Proof.
    intros Hx. apply (dget_none Z.eqb zeqb). rewrite first_ids_keys, Ks_numbers, in_zseq. exact Hx.
  Qed.

  Lemma seg_get c : In c K -> dget Z.eqb (m_seg m) (sg c) = Some (tg c).
  Proof.
    intros Hc. apply (dget_in_nodup Z.eqb zeqb); [apply seg_keys|]. rewrite (c_seg C). apply in_map_iff. eauto.
  Qed.

  (** the segment whose number is the column of the last reach of [c] is the problem *)
  Definition bad (c : nat) : Prop :=
    0 < len c /\ exists c', In c' K /\ tg c' = 0%Z /\ sg c' = (Z.of_nat (downs fdir (len c) c) mod ncol)%Z.

  Lemma close_ok r : In r (all_recs Ks 1) -> (forall c, In c K -> ~ bad c) ->
    exists r', close_record (m_seg m) (first_ids Ks 1) r = Ok r' /\
      r_node r' = r_node r /\ r_i r' = r_i r /\ r_j r' = r_j r /\ r_iseg r' = r_iseg r /\ r_ireach r' = r_ireach r /\ r_id r' = r_id r /\ r_dn r' = r_dn r.
  Proof.
    intros Hr Hb. destruct (in_all _ _ _ Hr) as [c [id [j [Hc [Hj ->]]]]]. apply Ks_in in Hc. unfold close_record.
    destruct (r_out (rec_of c id j)) as [o|] eqn:Eo; [eexists; split; [reflexivity|auto 12]|].
    assert (Ej : j = len c /\ 0 < len c).
    { unfold rec_of in Eo. cbn [r_out] in Eo. destruct (Nat.eqb_spec j 0); [discriminate|]. destruct (Nat.eqb_spec j (len c)); [lia|discriminate]. }
    destruct Ej as [-> Hl]. set (jj := r_j (rec_of c id (len c))).
    destruct (dget Z.eqb (m_seg m) jj) as [outseg|] eqn:Ed.
    - assert (Hin := Ed). apply (dget_in Z.eqb zeqb) in Hin. rewrite (c_seg C) in Hin. apply in_map_iff in Hin. destruct Hin as [c' [Ec Hc']].
      assert (E1 := f_equal fst Ec). assert (E2 := f_equal snd Ec). cbn [fst snd] in E1, E2.
      destruct (T0 c' Hc') as [X|[c2 [Hc2 X]]].
      + exfalso. apply (Hb c Hc). split; auto. exists c'. repeat split; auto.
      + destruct (lut_get c2 1 Hc2) as [v Hv]. unfold dgetE. rewrite <- E2, X, Hv. cbn [bind]. eexists. split; [reflexivity|]. auto 12.
    - cbn [bind]. eexists. split; [reflexivity|]. auto 12.
  Qed.

  Lemma close_bad c id : In c K -> bad c -> close_record (m_seg m) (first_ids Ks 1) (rec_of c id (len c)) = Err KeyError.
  Proof.
    intros Hc [Hl [c' [Hc' [Ht Es]]]]. unfold close_record, rec_of. cbn [r_out r_j].
    destruct (Nat.eqb_spec (len c) 0); [lia|]. rewrite Nat.eqb_refl. rewrite <- Es, (seg_get c' Hc'), Ht.
    unfold dgetE. rewrite lut_none by lia. reflexivity.
  Qed.

  Lemma mapM_in {A B} (f : A -> res B) (R : A -> B -> Prop) l : (forall x, In x l -> exists y, f x = Ok y /\ R x y) ->
    exists l', mapM f l = Ok l' /\ Forall2 R l l'.
  Proof.
    induction l as [|x l IH]; intros H; [exists []; split; auto|]. cbn [mapM]. destruct (H x (or_introl eq_refl)) as [y [Hy HR]]. rewrite Hy. cbn [bind].
    destruct IH as [l' [E F]]; [intros; apply H; now right|]. rewrite E. cbn [bind]. exists (y :: l'). split; auto.
  Qed.

  Lemma mapM_err {A B} (f : A -> res B) l e : (exists x, In x l /\ f x = Err e) -> (forall x e', In x l -> f x = Err e' -> e' = e) -> mapM f l = Err e.
  Proof.
    induction l as [|x l IH]; intros [y [Hy Ey]] H; [contradiction|]. cbn [mapM].
    destruct (f x) as [z|e'] eqn:Ex; cbn [bind].
    - rewrite IH; auto; [|intros; eapply H; [right; eauto|auto]]. exists y. destruct Hy as [->|Hy]; [congruence|]. auto.
    - f_equal. eapply H; [now left|auto].
  Qed.

  Lemma close_err r e : close_record (m_seg m) (first_ids Ks 1) r = Err e -> e = KeyError.
  Proof.
    unfold close_record. destruct (r_out r); [discriminate|]. destruct (dget Z.eqb (m_seg m) (r_j r)); cbn [bind]; [|discriminate].
    unfold dgetE. destruct (dget Z.eqb (first_ids Ks 1) z); cbn [bind]; congruence.
  Qed.

  Definition same_rec (r r' : rch) : Prop :=
    r_node r' = r_node r /\ r_i r' = r_i r /\ r_j r' = r_j r /\ r_iseg r' = r_iseg r /\ r_ireach r' = r_ireach r /\ r_id r' = r_id r /\ r_dn r' = r_dn r.

  Lemma all_nonempty : K <> [] -> all_recs Ks 1 <> [].
  Proof.
    intros H E. assert (X : Ks <> []).
    { intros Y. destruct K as [|a K'] eqn:EK; [contradiction|]. assert (Z : In a Ks) by (apply isort_in; rewrite EK; now left). rewrite Y in Z. contradiction. }
    destruct Ks as [|a l]; [contradiction|]. cbn [all_recs] in E. unfold recs_of in E. cbn [seq map app] in E. discriminate.
  Qed.

  Lemma reach_data_ok : K <> [] -> (forall c, In c K -> ~ bad c) ->
    exists recs, reach_data ncol (m_seg m) (m_nsr m) = Ok recs /\ Forall2 same_rec (all_recs Ks 1) recs.
  Proof.
    intros HK Hb. unfold reach_data. rewrite reach_fold. cbn [bind].
    destruct (@mapM_in _ _ (close_record (m_seg m) (first_ids Ks 1)) same_rec (all_recs Ks 1)) as [recs [E F]].
    { intros r Hr. apply (close_ok _ Hr Hb). }
    rewrite E. cbn [bind]. exists recs. split; auto. destruct recs as [|r recs]; auto. exfalso.
    apply (all_nonempty HK). inversion F. auto.
  Qed.

  Lemma reach_data_err c : In c K -> bad c -> reach_data ncol (m_seg m) (m_nsr m) = Err KeyError.
  Proof.
    intros Hc Hb. unfold reach_data. rewrite reach_fold. cbn [bind].
    rewrite (@mapM_err _ _ (close_record (m_seg m) (first_ids Ks 1)) (all_recs Ks 1) KeyError); auto.
    - destruct (@all_has Ks c (proj2 (Ks_in c) Hc) 1 (len c) (le_n _)) as [id Hi].
      exists (rec_of c id (len c)). split; auto. now apply close_bad.
    - intros x e _. apply close_err.
  Qed.
End Reach.
