(** C99 (and C71): which landscape cells have a many-to-many cascade. *)
From Coq Require Import QArith Qabs.
From Verif Require Import Py Spec MDir LRat MStream LStream LCasc PropsCasc.
Set Implicit Arguments.
Unset Strict Implicit.
Local Open Scope nat_scope.
Local Open Scope list_scope.

Lemma filter_len {A} (f : A -> bool) l : length (filter f l) <= length l.
Proof. induction l as [|x l IH]; simpl; [lia|]. destruct (f x); simpl; lia. Qed.

Lemma filter_all {A} (f : A -> bool) l : (forall x, In x l -> f x = true) -> filter f l = l.
Proof. induction l as [|x l IH]; simpl; intros H; auto. rewrite H by auto. f_equal. auto. Qed.

(** with fewer than 100 candidates, no share above 1/100 is left only if all slopes are zero *)
Lemma qsum_bound (l : list Q) b : (forall x, In x l -> (x <= b)%Q) -> (qsum l <= inject_Z (Z.of_nat (length l)) * b)%Q.
Proof.
  induction l as [|x l IH]; intros H.
  - unfold qsum. simpl length. simpl Z.of_nat. simpl fold_left. change (inject_Z 0) with 0%Q. rewrite Qmult_0_l. apply Qle_refl.
  - rewrite qsum_cons. assert (E : (inject_Z (Z.of_nat (length (x :: l))) * b == b + inject_Z (Z.of_nat (length l)) * b)%Q).
    { cbn [length]. rewrite Nat2Z.inj_succ. unfold Z.succ. rewrite inject_Z_plus. ring. }
    rewrite E. apply Qplus_le_compat; [apply H; now left|]. apply IH. intros; apply H. now right.
Qed.

Lemma strong_nil (l : list (Z * Q)) : length l <= 99 ->
  (filter (fun p => match snd p with Some f => qkeep f | None => false end) (combine l (qfractions (map snd l))) = []
   <-> forall c x, In (c, x) l -> (x == 0)%Q).
Proof.
  intros L. set (T := qtotal (map Qabs (map snd l))). assert (ET : (T == qsum (map Qabs (map snd l)))%Q) by apply qtotal_sum.
  destruct (Qeq_dec T 0) as [HT|HT].
  - split; intros _.
    + intros c x I. assert (X : (Qabs x <= T)%Q).
      { rewrite ET. apply qsum_ge; [apply qabs_in|]. apply in_map. apply in_map_iff. exists (c, x). auto. }
      rewrite HT in X. assert (Y := Qabs_nonneg x). assert (Z : (Qabs x == 0)%Q) by (apply Qle_antisym; auto).
      destruct (Qlt_le_dec x 0) as [N|N].
      * rewrite Qabs_neg in Z by now apply Qlt_le_weak. rewrite <- (Qopp_involutive x), Z. reflexivity.
      * rewrite Qabs_pos in Z; auto.
    + rewrite fractions_none by exact HT. clear. induction l as [|y l IH]; simpl; auto.
  - split.
    + intros E c x I. exfalso. rewrite fractions_some in E by exact HT. fold T in E.
      assert (T0 : (0 < T)%Q).
      { assert (X : (0 <= T)%Q) by (rewrite ET; apply qsum_nonneg, qabs_in). apply Qle_lteq in X. destruct X as [X|X]; auto. symmetry in X. contradiction. }
      assert (B : forall y, In y (map (fun x => Qabs x / T)%Q (map snd l)) -> (y <= 1 # 100)%Q).
      { intros y Hy. rewrite map_map in Hy. apply in_map_iff in Hy. destruct Hy as [p [<- Hp]].
        destruct (Qlt_le_dec (1 # 100) (Qabs (snd p) / T)) as [G|]; auto. exfalso.
        assert (In (p, Some (Qabs (snd p) / T)%Q) (combine l (map (fun x => Some (Qabs x / T)%Q) (map snd l)))).
        { revert Hp. generalize T. clear. intros T Hp. induction l as [|z l IH]; [destruct Hp|]. simpl. destruct Hp as [->|Hp]; auto. }
        assert (F : In (p, Some (Qabs (snd p) / T)%Q) []).
        { rewrite <- E. apply filter_In. split; auto. simpl. unfold qkeep. apply negb_true_iff.
          destruct (Qle_bool _ _) eqn:Eb; auto. apply Qle_bool_iff in Eb. exfalso. now apply (Qlt_not_le _ _ G). }
        destruct F. }
      apply qsum_bound in B. rewrite qsum_div in B by auto. rewrite <- ET in B. rewrite !map_length in B.
      unfold Qdiv in B. rewrite Qmult_inv_r in B by auto. revert B. apply Qlt_not_le.
      apply Qle_lt_trans with (inject_Z 99 * (1 # 100))%Q; [|reflexivity].
      apply Qmult_le_compat_r; [|discriminate]. rewrite <- Zle_Qle. lia.
    + intros H. exfalso. apply HT. rewrite ET. clear - H. induction l as [|[c x] l IH]; [reflexivity|]. simpl. rewrite qsum_cons.
      rewrite (H c x (or_introl eq_refl)), IH by (intros c' x' I; apply (H c' x'); now right). reflexivity.
Qed.

(** the candidates of a landscape cell, and the records made of them *)
Definition strong (l : list (Z * Q)) : list (Z * Q) :=
  map fst (filter (fun p => match snd p with Some f => qkeep f | None => false end) (combine l (qfractions (map snd l)))).

Lemma landscape_links m row nbs l : qlandscape m row nbs = Ok l ->
  exists sl, length sl <= length row /\
    l = combine (map fst (strong sl)) (qfractions (map snd (strong sl))) /\
    forall c x, In (c, x) sl <-> exists k, nth_error row k = Some (Some x) /\ (x <= 0)%Q /\ nth_error nbs k = Some c /\ npget m c <> Ok 0%Z.
Proof.
  unfold landscape. set (ft := where_ _ row).
  assert (FT : forall k, In k ft <-> exists x, nth_error row k = Some (Some x) /\ (x <= 0)%Q).
  { intros k. unfold ft. rewrite in_where. split.
    - intros [[x|] [H1 H2]]; [|discriminate]. exists x. split; auto. now apply Qle_bool_iff.
    - intros [x [H1 H2]]. exists (Some x). split; auto. now apply Qle_bool_iff. }
  assert (LF : length ft <= length row).
  { unfold ft, where_. rewrite map_length. etransitivity; [apply filter_len|].
    rewrite combine_length, seq_length. lia. }
  intros H. apply bind_ok in H. destruct H as [conns [Ec H]]. apply bind_ok in H. destruct H as [kept [Ek H]]. cbn zeta in H.
  assert (C1 : forall c s, In (c, s) conns -> exists k x, s = Some x /\ nth_error row k = Some (Some x) /\ (x <= 0)%Q /\ nth_error nbs k = Some c).
  { intros c s I. destruct (@mapM_in _ _ _ _ _ _ Ec I) as [k [Hk E]]. apply FT in Hk. destruct Hk as [x [H1 H2]].
    apply bind_ok in E. destruct E as [c' [E1 E]]. apply bind_ok in E. destruct E as [s' [E2 E]]. inversion E; subst.
    apply get_ok in E1. apply get_ok in E2. exists k, x. split; [congruence|auto]. }
  assert (C2 : forall k x c, nth_error row k = Some (Some x) -> (x <= 0)%Q -> nth_error nbs k = Some c -> In (c, Some x) conns).
  { intros k x c H1 H2 H3. assert (Hk : In k ft) by (apply FT; eauto). clear - Ec Hk H1 H3. revert conns Ec.
    induction ft as [|k' ft IH]; intros conns Ec; [destruct Hk|]. simpl in Ec. apply bind_ok in Ec. destruct Ec as [y [E1 Ec]].
    apply bind_ok in Ec. destruct Ec as [ys [E2 Ec]]. inversion Ec; subst. destruct Hk as [->|Hk]; [left|right; eauto].
    apply get_ok in H1. apply get_ok in H3. rewrite H1, H3 in E1. simpl in E1. now inversion E1. }
  assert (LC : length conns = length ft).
  { clear - Ec. revert conns Ec. induction ft as [|k ft IH]; intros conns Ec; simpl in Ec; [now inversion Ec|].
    apply bind_ok in Ec. destruct Ec as [y [_ Ec]]. apply bind_ok in Ec. destruct Ec as [ys [E2 Ec]]. inversion Ec; subst. simpl. f_equal. auto. }
  assert (K : forall cs acc out, foldM (fun l (p : Z * option Q) => d <- npget m (fst p) ;; Ok (if (d =? 0)%Z then l else l ++ [p])) cs acc = Ok out ->
     length out <= length acc + length cs /\
     (forall p, In p acc -> In p out) /\
     (forall p, In p cs -> In p out \/ npget m (fst p) = Ok 0%Z) /\
     (forall p, In p out -> In p acc \/ (In p cs /\ npget m (fst p) <> Ok 0%Z))).
  { induction cs as [|p cs IH]; intros acc out E; simpl in E.
    - inversion E; subst. simpl. repeat split; auto; try lia.
    - apply bind_ok in E. destruct E as [d [E1 E]]. apply bind_ok in E1. destruct E1 as [v [E0 E1]]. inversion E1; subst.
      apply IH in E. destruct E as (A & B & C & D). destruct (Z.eqb_spec v 0) as [->|Nv].
      + repeat split; auto; [simpl; lia| |].
        * intros q [<-|I]; auto.
        * intros q I. destruct (D q I) as [X|[X Y]]; auto. right. split; auto. now right.
      + rewrite app_length in A. simpl in A. repeat split; auto.
        * simpl; lia.
        * intros q I. apply B. apply in_app_iff. auto.
        * intros q [<-|I]; auto. left. apply B. apply in_app_iff. right. now left.
        * intros q I. destruct (D q I) as [X|[X Y]].
          -- apply in_app_iff in X. destruct X as [X|[<-|[]]]; auto. right. split; [now left|]. rewrite E0. congruence.
          -- right. split; auto. now right. }
  apply K in Ek. destruct Ek as (K1 & _ & K2 & K3). simpl in K1.
  set (sl := fold_right _ [] kept) in H.
  assert (SL : forall c x, In (c, x) sl <-> In (c, Some x) kept).
  { intros c x. unfold sl. clear. induction kept as [|[a [b|]] kept IH]; simpl; [tauto| |].
    - rewrite IH. split; intros [E|E]; auto; inversion E; auto.
    - rewrite IH. split; [auto|intros [E|E]; [discriminate|auto]]. }
  assert (LS : length sl <= length kept).
  { unfold sl. clear. induction kept as [|[a [b|]] kept IH]; simpl; lia. }
  exists sl. split; [lia|]. split.
  { inversion H; subst l. unfold strong. reflexivity. }
  intros c x. rewrite SL. split.
  - intros I. destruct (K3 _ I) as [[]|[X Y]]. simpl in Y. destruct (C1 _ _ X) as (k & x' & Ex & H1 & H2 & H3).
    inversion Ex; subst x'. exists k. auto.
  - intros (k & H1 & H2 & H3 & H4). destruct (K2 (c, Some x)) as [X|X]; auto; [eapply C2; eauto|]. simpl in X. contradiction.
Qed.

Lemma strong_nil' sl : length sl <= 99 -> (strong sl = [] <-> forall c x, In (c, x) sl -> (x == 0)%Q).
Proof.
  intros L. rewrite <- (strong_nil L). unfold strong. match goal with |- map fst ?x = [] <-> _ => destruct x; simpl; split; auto; discriminate end.
Qed.

Lemma landscape_nil m row nbs l : length row <= 99 -> qlandscape m row nbs = Ok l ->
  (l = [] <-> forall k x c, nth_error row k = Some (Some x) -> (x < 0)%Q -> nth_error nbs k = Some c -> npget m c = Ok 0%Z).
Proof.
  intros L H. destruct (landscape_links H) as (sl & Ls & -> & SL).
  assert (E0 : combine (map fst (strong sl)) (qfractions (map snd (strong sl))) = [] <-> strong sl = []).
  { destruct (strong sl) as [|y st]; simpl; [tauto|]. split; discriminate. }
  rewrite E0, strong_nil' by lia. split.
  - intros HZ k x c H1 H2 H3. destruct (npget m c) as [z|e] eqn:E.
    + destruct (Z.eq_dec z 0) as [->|Nz]; auto. exfalso.
      assert (X : In (c, x) sl) by (apply SL; exists k; rewrite E; repeat split; auto; [now apply Qlt_le_weak|congruence]).
      apply HZ in X. rewrite X in H2. now apply Qlt_irrefl in H2.
    + exfalso. assert (X : In (c, x) sl) by (apply SL; exists k; rewrite E; repeat split; auto; [now apply Qlt_le_weak|congruence]).
      apply HZ in X. rewrite X in H2. now apply Qlt_irrefl in H2.
  - intros HZ c x I. apply SL in I. destruct I as (k & H1 & H2 & H3 & H4).
    apply Qle_lteq in H2. destruct H2 as [H2|H2]; auto. exfalso. apply H4. eauto.
Qed.

(** the records of landscape cell [n] are those of its block; [fdir] are the masked flow directions *)
Lemma leaving_landscape fdir0 basin fdir strm slopes fnb out n row nbs :
  qmany fdir0 strm basin slopes fnb = Ok out -> mask_fdir fdir0 basin = Ok fdir ->
  n < length fdir -> nth n fdir 0%Z <> (-9)%Z -> (forall z, nth_error strm n = Some z -> (z <= 0)%Z) ->
  nth_error slopes n = Some row -> nth_error fnb n = Some nbs ->
  exists l, qlandscape fdir row nbs = Ok l /\ leaving (Z.of_nat n + 1) out = map snd l /\
    forall c f, In (c, f) l -> exists s, In (Z.of_nat n + 1, c + 1, f, s)%Z out.
Proof.
  intros H Em Hn H9 Hs Hr Hb. unfold cascades_many in H. apply bind_ok in H. destruct H as [c [E H]].
  apply many_blocks in E. destruct E as [m [bs [Em' [E ->]]]]. rewrite Em in Em'. inversion Em'; subst m. clear Em'.
  assert (FIN2 : forall (c : list (Z * Z * option Q)) out, finish_cascades strm c = Ok out -> forall a d f, In (a, d, f) c -> exists s, In (a + 1, d + 1, f, s)%Z out).
  { clear. unfold finish_cascades. induction c as [|[[a d] f] c IH]; intros out H a' d' f' I; simpl in H; [easy|].
    apply bind_ok in H. destruct H as [y [E H]]. apply bind_ok in H. destruct H as [ys [E2 H]].
    inversion H; subst. apply bind_ok in E. destruct E as [s [_ E]]. inversion E; subst. destruct I as [I|I].
    - inversion I; subst. eexists. left. reflexivity.
    - destruct (IH _ E2 _ _ _ I) as [s' X]. exists s'. now right. }
  assert (FOUT := FIN2 _ _ H). clear FIN2.
  assert (FIN : forall u c out, finish_cascades strm c = Ok out ->
       leaving u out = map snd (filter (fun e : Z * Z * option Q => (fst (fst e) + 1 =? u)%Z) c)).
  { clear. intros u. unfold finish_cascades. induction c as [|[[a d] f] c IH]; intros out H; simpl in H.
    - inversion H; reflexivity.
    - apply bind_ok in H. destruct H as [y [E H]]. apply bind_ok in H. destruct H as [ys [E2 H]].
      inversion H; subst. apply bind_ok in E. destruct E as [s [_ E]]. inversion E; subst. clear E H.
      unfold leaving. cbn [filter fst snd]. specialize (IH _ E2). unfold leaving in IH.
      destruct (a + 1 =? u)%Z; simpl; rewrite IH; auto. }
  rewrite (FIN _ _ _ H). clear FIN H.
  assert (Sel : forall l bs0, mapM (block strm slopes fnb fdir) l = Ok bs0 -> NoDup (map fst l) ->
     (~ In n (map fst l) -> filter (fun e : Z * Z * option Q => (fst (fst e) + 1 =? Z.of_nat n + 1)%Z) (concat bs0) = []) /\
     (forall h, In (n, h) l -> exists b, block strm slopes fnb fdir (n, h) = Ok b /\
        filter (fun e : Z * Z * option Q => (fst (fst e) + 1 =? Z.of_nat n + 1)%Z) (concat bs0) = b)).
  { induction l as [|[n' h'] l IH]; intros bs0 E0 ND; simpl in E0.
    - inversion E0; subst. split; [auto|intros h []].
    - apply bind_ok in E0. destruct E0 as [b [E1 E0]]. apply bind_ok in E0. destruct E0 as [bs1 [E2 E0]]. inversion E0; subst.
      simpl in ND. inversion ND as [|? ? N1 N2]; subst. destruct (IH _ E2 N2) as [I1 I2]. clear IH.
      simpl. rewrite filter_app. destruct (block_shape _ _ _ _ _ _ E1) as [SH _].
      assert (Fb : filter (fun e : Z * Z * option Q => (fst (fst e) + 1 =? Z.of_nat n + 1)%Z) b = if Nat.eqb n' n then b else []).
      { destruct (Nat.eqb_spec n' n) as [->|Nn].
        - apply filter_all. intros [[u d] f] I. rewrite (SH _ _ _ I). simpl. apply Z.eqb_refl.
        - destruct (filter _ b) as [|[[u d] f] t] eqn:Ef; auto. exfalso.
          assert (I : In (u, d, f) (filter (fun e : Z * Z * option Q => (fst (fst e) + 1 =? Z.of_nat n + 1)%Z) b)) by (rewrite Ef; now left).
          apply filter_In in I. destruct I as [I X]. rewrite (SH _ _ _ I) in X. simpl in X. apply Z.eqb_eq in X. lia. }
      rewrite Fb. split.
      + intros NI. destruct (Nat.eqb_spec n' n) as [->|Nn]; [exfalso; apply NI; now left|]. simpl. apply I1. intros X; apply NI; now right.
      + intros h [X|X].
        * inversion X; subst. exists b. split; auto. rewrite Nat.eqb_refl, I1 by auto. apply app_nil_r.
        * destruct (Nat.eqb_spec n' n) as [->|Nn].
          { exfalso. apply N1. apply in_map_iff. exists (n, h). auto. }
          destruct (I2 _ X) as [b' [B1 B2]]. exists b'. split; auto. }
  assert (ND : NoDup (map fst (combine (seq 0 (length fdir)) fdir))).
  { rewrite map_fst_combine by (rewrite seq_length; lia). apply seq_NoDup. }
  destruct (Sel _ _ E ND) as [_ S]. clear Sel.
  assert (I : In (n, nth n fdir 0%Z) (combine (seq 0 (length fdir)) fdir)).
  { replace (n, nth n fdir 0%Z) with (nth n (combine (seq 0 (length fdir)) fdir) (0, 0%Z)).
    - apply nth_In. rewrite combine_length, seq_length. lia.
    - rewrite combine_nth by now rewrite seq_length. now rewrite seq_nth. }
  destruct (S _ I) as [b [B1 B2]]. rewrite B2. unfold block in B1.
  destruct (Z.eqb_spec (nth n fdir 0%Z) (-9)) as [|_]; [contradiction|].
  destruct (memn n _) eqn:Es.
  { exfalso. apply existsb_exists in Es. destruct Es as [y [Y1 Y2]]. apply Nat.eqb_eq in Y2. subst y. apply in_where in Y1.
    destruct Y1 as [z [Z1 Z2]]. apply Hs in Z1. apply Z.ltb_lt in Z2. lia. }
  assert (Gr := proj2 (get_ok slopes n row) Hr). assert (Gb := proj2 (get_ok fnb n nbs) Hb). rewrite Gr, Gb in B1. cbn [bind] in B1.
  apply bind_ok in B1. destruct B1 as [l [El B1]]. injection B1 as B1. exists l. split; auto. split; [rewrite <- B1; now rewrite map_map|].
  intros c f Ic. apply (FOUT (Z.of_nat n) c f).
  assert (X : In (Z.of_nat n, c, f) (map (fun c => (Z.of_nat n, fst c, snd c)) l)) by (apply in_map_iff; exists (c, f); auto).
  rewrite B1, <- B2 in X. apply filter_In in X. tauto.
Qed.

(** the records leaving landscape cell [n], when there is no boundary: none exactly if every
    strictly lower neighbour is a cell that flows to cell 0 *)
Theorem C99_which_cells_cascade fdir strm slopes fnb out n row nbs :
  qmany fdir strm None slopes fnb = Ok out ->
  n < length fdir -> nth n fdir 0%Z <> (-9)%Z -> (forall z, nth_error strm n = Some z -> (z <= 0)%Z) ->
  nth_error slopes n = Some row -> nth_error fnb n = Some nbs -> length row <= 99 ->
  (leaving (Z.of_nat n + 1) out = [] <->
   forall k x c, nth_error row k = Some (Some x) -> (x < 0)%Q -> nth_error nbs k = Some c -> npget fdir c = Ok 0%Z).
Proof.
  intros H Hn H9 Hs Hr Hb Hl. destruct (@leaving_landscape fdir None fdir strm slopes fnb out n row nbs H eq_refl Hn H9 Hs Hr Hb) as (l & El & -> & _).
  rewrite <- (landscape_nil Hl El). split; [|now intros ->]. destruct l; [auto|discriminate].
Qed.

Lemma inside_dec basin n : inside basin n \/ ~ inside basin n.
Proof.
  destruct basin as [b|]; [|left; exact I]. cbn [inside].
  destruct (nth_error b n) as [v|] eqn:E; [|right; intros [v [X _]]; congruence].
  destruct (Z.eq_dec v 0) as [->|N]; [right; intros [v [X Y]]; congruence|left; eauto].
Qed.

(** the same with a boundary: the strictly lower neighbours outside count, whichever way they flow *)
Theorem C99_which_cells_cascade_inside fdir strm basin slopes fnb out n row nbs :
  valid_fdir fdir -> basin_fits basin (length fdir) -> qmany fdir strm basin slopes fnb = Ok out ->
  n < length fdir -> inside basin n -> (forall z, nth_error strm n = Some z -> (z <= 0)%Z) ->
  nth_error slopes n = Some row -> nth_error fnb n = Some nbs -> length row <= 99 ->
  (forall k x c, nth_error row k = Some (Some x) -> (x < 0)%Q -> nth_error nbs k = Some c -> (0 <= c < Z.of_nat (length fdir))%Z) ->
  (leaving (Z.of_nat n + 1) out = [] <->
   forall k x c, nth_error row k = Some (Some x) -> (x < 0)%Q -> nth_error nbs k = Some c ->
     inside basin (Z.to_nat c) /\ down fdir (Z.to_nat c) = 0).
Proof.
  intros V B H Hn In_ Hs Hr Hb Hl HC. destruct (mask_fdir_spec basin V B) as [m [E [L [FA [I1 I2]]]]].
  destruct (@leaving_landscape fdir basin m strm slopes fnb out n row nbs H E) as (l & El & -> & _); auto; [lia|rewrite I1 by auto; lia|].
  assert (X : map snd l = [] <-> l = []) by (split; [destruct l; [auto|discriminate]|now intros ->]). rewrite X. clear X.
  rewrite (landscape_nil Hl El).
  assert (ST : forall k x c, nth_error row k = Some (Some x) -> (x < 0)%Q -> nth_error nbs k = Some c ->
     (npget m c = Ok 0%Z <-> inside basin (Z.to_nat c) /\ down fdir (Z.to_nat c) = 0)).
  { intros k x c H1 HX H2. assert (Hc := HC k x c H1 HX H2). rewrite (npget_pos m 0%Z) by lia.
    destruct (inside_dec basin (Z.to_nat c)) as [Y|Y].
    - rewrite I1 by (auto; lia). split; [|intros [_ ->]; reflexivity]. intros Z. inversion Z. split; auto. lia.
    - rewrite I2 by (auto; lia). split; [discriminate|tauto]. }
  split; intros G k x c H1 H2 H3; [apply (ST k x c); eauto|apply (ST k x c); eauto].
Qed.

(** the steepest of fewer than 100 candidates always has a record *)
Lemma strong_max (l : list (Z * Q)) c x : length l <= 99 -> In (c, x) l -> (x < 0)%Q -> (forall c' x', In (c', x') l -> (x <= x' <= 0)%Q) ->
  In (c, x) (strong l).
Proof.
  intros L I N M. set (T := qtotal (map Qabs (map snd l))). assert (ET : (T == qsum (map Qabs (map snd l)))%Q) by apply qtotal_sum.
  assert (NN : forall y, In y (map Qabs (map snd l)) -> (y <= - x)%Q).
  { intros y Hy. apply in_map_iff in Hy. destruct Hy as [y' [<- Hy]]. apply in_map_iff in Hy. destruct Hy as [[c' y2] [<- Hy]].
    destruct (M _ _ Hy) as [M1 M2]. cbn [snd]. rewrite Qabs_neg by auto. now apply Qopp_le_compat. }
  assert (GE : (- x <= T)%Q).
  { rewrite <- (Qabs_neg x) by now apply Qlt_le_weak. rewrite ET. apply qsum_ge; [apply qabs_in|]. apply in_map, in_map_iff. exists (c, x). auto. }
  assert (NX : (0 < - x)%Q) by (apply (Qopp_lt_compat x 0) in N; exact N).
  assert (T0 : (0 < T)%Q) by (eapply Qlt_le_trans; eauto).
  assert (TB := qsum_bound NN). rewrite <- ET in TB. rewrite !map_length in TB.
  unfold strong. rewrite fractions_some by (intros Z0; apply (Qlt_not_eq _ _ T0); symmetry; exact Z0). fold T.
  apply in_map_iff. exists ((c, x), Some (Qabs x / T)%Q). split; auto. apply filter_In. split.
  - clear - I. generalize T. intros t. induction l as [|z l IH]; [destruct I|]. simpl. destruct I as [->|I]; auto.
  - simpl. unfold qkeep. apply negb_true_iff. destruct (Qle_bool _ _) eqn:Eb; auto. apply Qle_bool_iff in Eb. exfalso.
    rewrite Qabs_neg in Eb by now apply Qlt_le_weak. apply (Qmult_le_compat_r _ _ T) in Eb; [|now apply Qlt_le_weak].
    unfold Qdiv in Eb. rewrite <- Qmult_assoc, (Qmult_comm (/ T)), Qmult_inv_r, Qmult_1_r in Eb by (intros Z0; apply (Qlt_not_eq _ _ T0); symmetry; exact Z0).
    assert (TB2 : (T <= inject_Z 99 * - x)%Q).
    { eapply Qle_trans; [exact TB|]. apply Qmult_le_compat_r; [|now apply Qlt_le_weak]. rewrite <- Zle_Qle. lia. }
    assert (X : (- x <= (1 # 100) * (inject_Z 99 * - x))%Q).
    { eapply Qle_trans; [exact Eb|]. rewrite !(Qmult_comm (1 # 100)). apply Qmult_le_compat_r; [auto|discriminate]. }
    revert X. apply Qlt_not_le. apply Qlt_le_trans with (1 * - x)%Q; [|rewrite Qmult_1_l; apply Qle_refl].
    rewrite Qmult_assoc. apply Qmult_lt_compat_r; auto. reflexivity.
Qed.

(** C55 is false in general: from every landscape cell inside the boundary whose steepest way down
    leads out of the boundary, a cascade leads out of the boundary *)
Theorem C55_outlets_cascade_out_refuted fdir strm basin slopes fnb out n row nbs k x c :
  valid_fdir fdir -> basin_fits basin (length fdir) -> qmany fdir strm basin slopes fnb = Ok out ->
  n < length fdir -> inside basin n -> (forall z, nth_error strm n = Some z -> (z <= 0)%Z) ->
  nth_error slopes n = Some row -> nth_error fnb n = Some nbs -> length row <= 99 ->
  nth_error row k = Some (Some x) -> (x < 0)%Q -> nth_error nbs k = Some (Z.of_nat c) -> c < length fdir ->
  (forall k' x', nth_error row k' = Some (Some x') -> (x <= x')%Q) -> ~ inside basin c ->
  exists f s, In (Z.of_nat n + 1, Z.of_nat c + 1, f, s)%Z out.
Proof.
  intros V B H Hn In_ Hs Hr Hb Hl Hk Hx Hc Lc HM HO. destruct (mask_fdir_spec basin V B) as [m [E [L [FA [I1 I2]]]]].
  destruct (@leaving_landscape fdir basin m strm slopes fnb out n row nbs H E) as (l & El & _ & HI); auto; [lia|rewrite I1 by auto; lia|].
  destruct (landscape_links El) as (sl & Ls & -> & SL).
  assert (X : In (Z.of_nat c, x) (strong sl)).
  { apply strong_max; auto; [lia| |].
    - apply SL. exists k. repeat split; auto; [now apply Qlt_le_weak|]. rewrite (npget_pos m 0%Z) by lia. rewrite Nat2Z.id, I2 by auto. discriminate.
    - intros c' x' I. apply SL in I. destruct I as (k' & K1 & K2 & _). split; eauto. }
  destruct (In_nth_error _ _ X) as [i Ei].
  assert (Lf : length (qfractions (map snd (strong sl))) = length (strong sl)) by (unfold fractions; now rewrite !map_length).
  destruct (nth_error (qfractions (map snd (strong sl))) i) as [f|] eqn:Ef.
  - exists f. apply HI. apply nth_error_In with (n := i). apply nth_error_combine. split; auto.
    now rewrite (map_nth_error fst _ _ Ei).
  - apply nth_error_None in Ef. assert (i < length (strong sl)) by (apply nth_error_Some; congruence). lia.
Qed.

(** C99 is false: a landscape cell without a strictly lower neighbour, for instance on a flat or
    in front of a burned step, has no cascade, wherever its flow direction leads *)
Theorem C99_flats_have_no_cascade_refuted fdir strm slopes fnb out n row nbs :
  qmany fdir strm None slopes fnb = Ok out ->
  n < length fdir -> nth n fdir 0%Z <> (-9)%Z -> (forall z, nth_error strm n = Some z -> (z <= 0)%Z) ->
  nth_error slopes n = Some row -> nth_error fnb n = Some nbs -> length row <= 99 ->
  (forall k x, nth_error row k = Some (Some x) -> (0 <= x)%Q) ->
  leaving (Z.of_nat n + 1) out = [].
Proof.
  intros H Hn H9 Hs Hr Hb Hl HF. apply (C99_which_cells_cascade H Hn H9 Hs Hr Hb Hl).
  intros k x c H1 H2. exfalso. apply HF in H1. now apply Qle_not_lt in H1.
Qed.

(** a line of five cells, cells 0 and 1 equally high, cells 2 and 3 a step below the burn
    threshold 1/2: cell 0 flows to cell 1 and cell 2 to cell 3, and both have no cascade *)
Module Flat.
  Definition dem : list (option Q) := [Some 9; Some 9; Some (51 # 10); Some (52 # 10); Some 1]%Q.
  Definition nb : list (list nat) := [[1]; [0; 2]; [1; 3]; [2; 4]; [3]].
  Definition fdir : list Z := [1; 2; 3; 4; 4]%Z.
  Definition fnb := pad_neighbors 5 nb.
  Definition one_apart (_ _ : nat) : Q := 1%Q.
  Definition slopes := calculate_slopes Qminus Qdiv q_lt 0%Q 10000000000%Q 5 (1 # 2)%Q one_apart dem fnb.
  Definition strm : list Z := [0; 0; 0; 0; 1]%Z.
  Theorem C99_witness_refuted :
    flow_directions Qminus Qdiv q_lt Qeq_bool 0%Q 10000000000%Q 50 one_apart dem nb (1 # 2)%Q [] = Ok (fdir, fnb) /\
    exists out, qmany fdir strm None slopes (map (map Z.of_nat) fnb) = Ok out /\
      leaving 1 out = [] /\ leaving 3 out = [] /\ leaving 2 out <> [].
  Proof.
    split; [vm_compute; reflexivity|]. eexists. split; [vm_compute; reflexivity|].
    split; [reflexivity|]. split; [reflexivity|discriminate].
  Qed.
End Flat.
