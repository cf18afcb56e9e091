(** PRMS cascades. *)
From Coq Require Import QArith Qabs Permutation.
From Verif Require Import Py Spec MStream LGraph LStream LRun LSum.
Set Implicit Arguments.
Local Open Scope nat_scope.
Local Open Scope list_scope.

(** the records of one entry of the (masked) flow-direction array *)
Definition one_entry (m : list Z) (h : Z) : list (Z * Z) :=
  if (h =? -9)%Z then []
  else map (fun u => (u, h)) (if (nth (Z.to_nat h) m 0 =? -9)%Z then [h] else map Z.of_nat (where_ (Z.eqb h) m)).

Lemma where_nil {A} (f : A -> bool) l x : In x l -> f x = true -> where_ f l <> [].
Proof. intros Hi Hf E. apply In_nth_error in Hi. destruct Hi as [i Hi].
  assert (X : In i (where_ f l)) by (apply in_where; eauto). rewrite E in X. exact X. Qed.

Definition mstep (m : list Z) (out : list (Z * Z)) (hru_down : Z) : res (list (Z * Z)) :=
  if (hru_down =? -9)%Z then Ok out
  else
    let idxs := map Z.of_nat (where_ (Z.eqb hru_down) m) in
    match idxs with
    | [] => Ok out
    | _ =>
        d <- npget m hru_down ;;
        let ups := if (d =? -9)%Z then [hru_down] else idxs in
        Ok (out ++ map (fun u => (u, hru_down)) ups)
    end.

Lemma many_step m : Forall (fun h => h = -9 \/ (0 <= h < Z.of_nat (length m)))%Z m ->
  foldM (mstep m) m [] = Ok (flat_map (one_entry m) m).
Proof.
  intros F.
  assert (G : forall l acc, incl l m -> foldM (mstep m) l acc = Ok (acc ++ flat_map (one_entry m) l)).
  { induction l as [|h l IH]; intros acc HI; [simpl; now rewrite app_nil_r|]. cbn [foldM flat_map].
    assert (Hh : In h m) by (apply HI; now left).
    assert (HI' : incl l m) by (intros x Hx; apply HI; now right).
    rewrite Forall_forall in F. assert (Fh := F h Hh). unfold mstep at 1, one_entry at 1.
    destruct (Z.eqb_spec h (-9)) as [->|Hn]; [cbn [bind app]; now apply IH|].
    destruct Fh as [?|Fh]; [contradiction|].
    assert (W := @where_nil Z (Z.eqb h) m h Hh (Z.eqb_refl h)).
    rewrite (npget_pos _ 0%Z Fh). cbn [bind].
    destruct (where_ (Z.eqb h) m) as [|w ws] eqn:EW; [contradiction|].
    cbn zeta. cbn [map]. cbn iota. cbn [bind]. rewrite IH by auto. now rewrite <- app_assoc. }
  now apply (G m []).
Qed.

Lemma many_to_one_eq fdir basin m : mask_fdir fdir basin = Ok m ->
  Forall (fun h => h = -9 \/ (0 <= h < Z.of_nat (length m)))%Z m ->
  many_to_one fdir basin = Ok (flat_map (one_entry m) m).
Proof. intros E F. unfold many_to_one. rewrite E. cbn [bind]. now apply many_step. Qed.

Lemma mask_fdir_spec fdir basin : valid_fdir fdir -> basin_fits basin (length fdir) ->
  exists m, mask_fdir fdir basin = Ok m /\ length m = length fdir /\
    Forall (fun h => h = -9 \/ (0 <= h < Z.of_nat (length m)))%Z m /\
    (forall c, c < length fdir -> inside basin c -> nth c m 0%Z = Z.of_nat (down fdir c)) /\
    (forall c, c < length fdir -> ~ inside basin c -> nth c m 0%Z = (-9)%Z).
Proof.
  intros V F. unfold mask_fdir. destruct basin as [b|]; simpl in F.
  - rewrite F, Nat.eqb_refl. simpl. eexists. split; [reflexivity|].
    assert (L : length (map (fun p : Z * Z => if (snd p =? 0)%Z then (-9)%Z else fst p) (combine fdir b)) = length fdir)
      by (rewrite map_length, combine_length; lia).
    assert (G : forall c, c < length fdir -> nth c (map (fun p : Z * Z => if (snd p =? 0)%Z then (-9)%Z else fst p) (combine fdir b)) 0%Z =
       if (nth c b 0 =? 0)%Z then (-9)%Z else nth c fdir 0%Z).
    { intros c Hc. set (g := fun p : Z * Z => if (snd p =? 0)%Z then (-9)%Z else fst p) in *.
      rewrite (nth_indep _ 0%Z (g (0, 0)%Z)) by lia. rewrite (map_nth g), combine_nth by lia. reflexivity. }
    split; [exact L|]. split.
    + rewrite L. apply Forall_forall. intros h Hh. apply in_map_iff in Hh. destruct Hh as [[x y] [<- Hh]].
      apply in_combine_l in Hh. simpl. destruct (y =? 0)%Z; auto. right.
      unfold valid_fdir in V. rewrite Forall_forall in V. auto.
    + split; intros c Hc Hi; rewrite G by auto.
      * destruct Hi as [v [H Hv]]. rewrite (nth_error_nth _ _ 0%Z H). destruct (Z.eqb_spec v 0); [contradiction|].
        now apply fdir_down.
      * destruct (Z.eqb_spec (nth c b 0%Z) 0); auto. exfalso. apply Hi. exists (nth c b 0%Z). split; auto.
        apply nth_error_nth'. lia.
  - exists fdir. split; auto. split; auto. split; [|split].
    + unfold valid_fdir in V. eapply Forall_impl; [|exact V]. auto.
    + intros c Hc _. now apply fdir_down.
    + intros c Hc H. exfalso. apply H. exact I.
Qed.

Lemma finish_ok {F} strm (l : list (Z * Z * F)) :
  (forall u d f, In (u, d, f) l -> (0 <= d < Z.of_nat (length strm))%Z) ->
  finish_cascades strm l = Ok (map (fun p => let '(u, d, f) := p in (u + 1, d + 1, f, nth (Z.to_nat d) strm 0)%Z) l).
Proof.
  intros H. unfold finish_cascades. apply mapM_ok. intros [[u d] f] Hi.
  rewrite (npget_pos _ 0%Z (H _ _ _ Hi)). cbn [bind].
  destruct (Z.eqb_spec (nth (Z.to_nat d) strm 0%Z) 0) as [E|]; auto. now rewrite E.
Qed.

(** ** Exact arithmetic: the operations of _build_many_to_many_cascades on rationals *)
Local Open Scope Q_scope.
Definition qdiv (x y : Q) : option Q := if Qeq_bool y 0 then None else Some (x / y).
Definition qle0 (x : Q) : bool := Qle_bool x 0.
Definition qkeep (x : Q) : bool := negb (Qle_bool x (1 # 100)).
Definition qsum (l : list Q) : Q := fold_left Qplus l 0.

Lemma qsum_acc l : forall a, fold_left Qplus l a == a + qsum l.
Proof. unfold qsum. induction l as [|x l IH]; intros a; simpl; [ring|]. rewrite IH, (IH (0 + x)). ring. Qed.
Lemma qsum_cons x l : qsum (x :: l) == x + qsum l.
Proof. unfold qsum at 1. simpl. rewrite qsum_acc. ring. Qed.
Lemma qsum_nonneg l : (forall x, In x l -> 0 <= x) -> 0 <= qsum l.
Proof. induction l as [|x l IH]; intros H; [unfold qsum; simpl; apply Qle_refl|]. rewrite qsum_cons.
  apply (Qplus_le_compat 0 x 0); [apply H; now left|apply IH; intros; apply H; now right]. Qed.
Lemma qsum_ge l x : (forall y, In y l -> 0 <= y) -> In x l -> x <= qsum l.
Proof. induction l as [|y l IH]; intros H Hx; [destruct Hx|]. destruct Hx as [->|Hi]; rewrite qsum_cons.
  - rewrite <- (Qplus_0_r x) at 1. apply Qplus_le_compat; [apply Qle_refl|]. apply qsum_nonneg. intros; apply H; now right.
  - rewrite <- (Qplus_0_l x). apply Qplus_le_compat; [apply H; now left|]. apply IH; auto. intros; apply H; now right. Qed.

Lemma qabs_in l : forall x, In x (map Qabs l) -> 0 <= x.
Proof. intros x Hx. apply in_map_iff in Hx. destruct Hx as [y [<- _]]. apply Qabs_nonneg. Qed.

(** np.sum over the rationals: the order of the terms does not matter *)
Definition qtotal : list Q -> Q := np_sum Qplus 0.
Lemma qsum_app a b : qsum (a ++ b) == qsum a + qsum b.
Proof. induction a as [|x a IH]; simpl app; [unfold qsum at 2; simpl; ring|]. rewrite !qsum_cons, IH. ring. Qed.
Lemma qsum_perm a b : Permutation a b -> qsum a == qsum b.
Proof.
  induction 1 as [|x a b P IH|x y a|a b c P1 IH1 P2 IH2]; [reflexivity| | |].
  - rewrite !qsum_cons, IH. reflexivity.
  - rewrite !qsum_cons. ring.
  - rewrite IH1. exact IH2.
Qed.
Lemma summed_qsum h l x : summed Qplus 0 h l x -> x == qsum l.
Proof.
  induction 1 as [|h x|h l1 l2 l x y H1 IH1 H2 IH2 P]; [reflexivity|unfold qsum; simpl; ring|].
  rewrite IH1, IH2, <- (qsum_perm P), qsum_app. reflexivity.
Qed.
Lemma qtotal_sum l : qtotal l == qsum l.
Proof. exact (summed_qsum (np_sum_adds_all Qplus 0 l)). Qed.

Notation qfractions := (fractions Qabs qtotal qdiv).

(** the fractions of a list with a non-zero entry add up to one *)
Lemma fractions_some l : ~ qtotal (map Qabs l) == 0 ->
  qfractions l = map (fun x => Some (Qabs x / qtotal (map Qabs l))) l.
Proof.
  intros H. unfold fractions. apply map_ext. intros x. unfold qdiv.
  destruct (Qeq_bool _ 0) eqn:E; auto. apply Qeq_bool_iff in E. contradiction.
Qed.

Lemma fractions_none l : qtotal (map Qabs l) == 0 -> qfractions l = map (fun _ => None) l.
Proof.
  intros H. unfold fractions. apply map_ext. intros x. unfold qdiv.
  destruct (Qeq_bool _ 0) eqn:E; auto. apply Qeq_bool_neq in E. contradiction.
Qed.

Lemma qsum_div l t : ~ t == 0 -> qsum (map (fun x => Qabs x / t) l) == qsum (map Qabs l) / t.
Proof. intros H. induction l as [|x l IH]; simpl map; [unfold qsum; simpl; field; auto|].
  rewrite !qsum_cons, IH. field. auto. Qed.

Lemma sub_sum (l : list (Z * Q)) (pcts : list (option Q)) f :
  qsum (map Qabs (map snd (map fst (filter f (combine l pcts))))) <= qsum (map Qabs (map snd l)).
Proof.
  revert pcts. induction l as [|x l IH]; intros pcts; simpl; [apply Qle_refl|].
  destruct pcts as [|p pcts]; simpl.
  - apply qsum_nonneg.
    intros y Hy. apply (@qabs_in (snd x :: map snd l)). exact Hy.
  - rewrite qsum_cons. destruct (f (x, p)); simpl.
    + rewrite qsum_cons. apply Qplus_le_compat; [apply Qle_refl|apply IH].
    + rewrite <- (Qplus_0_l (qsum _)) at 1. apply Qplus_le_compat; [apply Qabs_nonneg|apply IH].
Qed.

(** second normalisation: all fractions exceed 1/100 and add up to one *)
Lemma strong_good (l : list (Z * Q)) :
  let strong := filter (fun p => match snd p with Some f => qkeep f | None => false end)
                  (combine l (qfractions (map snd l))) in
  let l2 := map fst strong in
  l2 = [] \/ exists fs, qfractions (map snd l2) = map Some fs /\ length fs = length l2 /\
     (forall f, In f fs -> 1 # 100 < f) /\ qsum fs == 1.
Proof.
  intros strong l2. set (T := qtotal (map Qabs (map snd l))). set (T2 := qtotal (map Qabs (map snd l2))).
  assert (ET : T == qsum (map Qabs (map snd l))) by apply qtotal_sum. assert (ET2 : T2 == qsum (map Qabs (map snd l2))) by apply qtotal_sum.
  destruct (Qeq_dec T 0) as [HT|HT].
  - left. unfold l2, strong. rewrite fractions_none by exact HT.
    clear. induction (map snd l) as [|x xs IH] in l |- *; simpl; [destruct l; auto|].
    destruct l as [|y l]; simpl; auto.
  - assert (K : forall x, In x l2 -> 1 # 100 < Qabs (snd x) / T).
    { intros x Hx. unfold l2, strong in Hx. apply in_map_iff in Hx. destruct Hx as [[y o] [<- Hx]].
      apply filter_In in Hx. destruct Hx as [Hx Hf]. rewrite fractions_some in Hx by exact HT.
      rewrite map_map in Hx. simpl in Hf. simpl fst.
      assert (E : o = Some (Qabs (snd y) / T)).
      { clear - Hx. fold T in Hx. revert Hx. generalize T. clear. intros T. induction l as [|z l IH]; simpl; [easy|].
        intros [Hx|Hx]; auto. inversion Hx; subst; auto. }
      subst o. unfold qkeep in Hf. apply negb_true_iff in Hf.
      destruct (Qlt_le_dec (1 # 100) (Qabs (snd y) / T)) as [|Hle]; auto.
      apply Qle_bool_iff in Hle. congruence. }
    destruct l2 as [|x0 l2'] eqn:EL; [now left|]. right.
    assert (T0 : 0 < T).
    { assert (X : 0 <= T) by (rewrite ET; apply qsum_nonneg, qabs_in). apply Qle_lteq in X. destruct X as [X|X]; auto. symmetry in X. contradiction. }
    assert (T2T : T2 <= T).
    { rewrite ET, ET2, <- EL. unfold l2, strong. apply sub_sum. }
    assert (AP : forall x, In x (x0 :: l2') -> 0 < Qabs (snd x)).
    { intros x Hx. assert (Y := K x Hx). apply (Qmult_lt_compat_r _ _ T) in Y; auto.
      unfold Qdiv in Y. rewrite <- Qmult_assoc, (Qmult_comm (/ T)), Qmult_inv_r, Qmult_1_r in Y by auto.
      eapply Qlt_trans; [|exact Y]. rewrite <- (Qmult_0_l T). apply Qmult_lt_compat_r; auto. reflexivity. }
    assert (T2P : 0 < T2).
    { eapply Qlt_le_trans; [apply (AP x0); now left|]. rewrite ET2. apply qsum_ge; [apply qabs_in|]. simpl. now left. }
    assert (T2N : ~ T2 == 0) by (intros H; rewrite H in T2P; now apply Qlt_irrefl in T2P).
    exists (map (fun x => Qabs x / T2) (map snd (x0 :: l2'))). split; [|split; [|split]].
    + rewrite fractions_some by exact T2N. fold T2. now rewrite (map_map (fun x => Qabs x / T2) Some).
    + now rewrite !map_length.
    + intros f Hf. rewrite map_map in Hf. apply in_map_iff in Hf. destruct Hf as [x [<- Hx]].
      eapply Qlt_le_trans; [apply (K x Hx)|]. apply Qle_shift_div_l; auto.
      assert (I : 0 <= Qabs (snd x) / T) by (apply Qlt_le_weak; eapply Qlt_trans; [|apply (K x Hx)]; reflexivity).
      apply Qle_trans with (Qabs (snd x) / T * T).
      * rewrite (Qmult_comm _ T2), (Qmult_comm _ T). apply Qmult_le_compat_r; auto.
      * unfold Qdiv. rewrite <- Qmult_assoc, (Qmult_comm (/ T)), Qmult_inv_r, Qmult_1_r by auto. apply Qle_refl.
    + rewrite qsum_div by auto. rewrite <- ET2. unfold Qdiv. apply Qmult_inv_r. auto.
Qed.
