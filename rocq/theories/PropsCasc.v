(** C52-C55, C70, C71: PRMS cascades (PrmsStreams.get_cascades). *)
From Coq Require Import QArith Qabs.
From Verif Require Import Py Spec MStream LGraph LStream LRun LCasc.
Set Implicit Arguments.
Local Open Scope nat_scope.
Local Open Scope list_scope.

Section One.
  Context {F : Type} (one : F).
  Variables fdir strm : list Z.
  Hypothesis V : valid_fdir fdir.
  Hypothesis HL : length strm = length fdir.
  Notation N := (length fdir).

  (** the records: one block per cell of the array *)
  Lemma one_shape basin : basin_fits basin N ->
    exists m, length m = N /\
      (forall c, c < N -> inside basin c -> nth c m 0%Z = Z.of_nat (down fdir c)) /\
      (forall c, c < N -> ~ inside basin c -> nth c m 0%Z = (-9)%Z) /\
      cascades_one one fdir strm basin =
        Ok (map (fun p => (fst p + 1, snd p + 1, one, nth (Z.to_nat (snd p)) strm 0)%Z) (flat_map (one_entry m) m)).
  Proof.
    intros B. destruct (mask_fdir_spec basin V B) as [m [E [L [FA [I1 I2]]]]].
    exists m. split; [auto|split; [auto|split; [auto|]]].
    unfold cascades_one. rewrite (many_to_one_eq _ _ E FA). cbn [bind].
    rewrite finish_ok.
    - f_equal. rewrite map_map. apply map_ext. now intros [u d].
    - intros u d f Hi. apply in_map_iff in Hi. destruct Hi as [[u' d'] [H Hi]]. inversion H; subst.
      apply in_flat_map in Hi. destruct Hi as [h [Hh Hi]]. unfold one_entry in Hi.
      destruct (Z.eqb_spec h (-9)); [contradiction|].
      apply in_map_iff in Hi. destruct Hi as [x [Hx _]]. inversion Hx; subst.
      rewrite Forall_forall in FA. destruct (FA d Hh); [contradiction|]. lia.
  Qed.

  Lemma nth_in_bounds (m : list Z) h : In h m -> exists c, c < length m /\ nth c m 0%Z = h.
  Proof. intros H. apply (In_nth _ _ 0%Z) in H. destruct H as [c [H1 H2]]. eauto. Qed.

  (** C52: as a set, the cascades are the flow links. *)
  Theorem C52_cascades_are_flow_links :
    exists out, cascades_one one fdir strm None = Ok out /\
      forall u d f s, In (u, d, f, s) out <->
        exists c, c < N /\ u = (Z.of_nat c + 1)%Z /\ d = (Z.of_nat (down fdir c) + 1)%Z /\
                  f = one /\ s = nth (down fdir c) strm 0%Z.
  Proof.
    destruct (@one_shape None I) as [m [L [I1 [I2 E]]]].
    eexists. split; [exact E|]. intros u d f s.
    assert (P9 : forall c, c < N -> nth c m 0%Z <> (-9)%Z) by (intros c Hc; rewrite I1 by (auto; exact I); lia).
    split.
    - intros Hi. apply in_map_iff in Hi. destruct Hi as [[u' d'] [H Hi]]. simpl in H. inversion H; subst. clear H.
      apply in_flat_map in Hi. destruct Hi as [h [Hh Hi]].
      destruct (nth_in_bounds _ _ Hh) as [c0 [Hc0 E0]]. rewrite L in Hc0. rewrite I1 in E0 by (auto; exact I). subst h.
      assert (HD := down_lt V Hc0).
      unfold one_entry in Hi. destruct (Z.eqb_spec (Z.of_nat (down fdir c0)) (-9)); [contradiction|].
      rewrite Nat2Z.id in Hi. destruct (Z.eqb_spec (nth (down fdir c0) m 0%Z) (-9)) as [X|_]; [now apply P9 in X|].
      apply in_map_iff in Hi. destruct Hi as [x [Hx Hi]]. inversion Hx; subst x d'. clear Hx.
      apply in_map_iff in Hi. destruct Hi as [c [<- Hi]]. apply in_where_nth with (d := 0%Z) in Hi.
      destruct Hi as [Hc Hi]. apply Z.eqb_eq in Hi. rewrite L in Hc. rewrite I1 in Hi by (auto; exact I).
      exists c. split; auto. rewrite Hi, Nat2Z.id. repeat split; auto.
    - intros [c [Hc [-> [-> [-> ->]]]]]. apply in_map_iff.
      exists (Z.of_nat c, Z.of_nat (down fdir c)). simpl. rewrite Nat2Z.id. split; auto.
      apply in_flat_map. exists (nth c m 0%Z). split; [apply nth_In; lia|]. rewrite I1 by (auto; exact I).
      unfold one_entry. destruct (Z.eqb_spec (Z.of_nat (down fdir c)) (-9)); [lia|].
      rewrite Nat2Z.id. destruct (Z.eqb_spec (nth (down fdir c) m 0%Z) (-9)) as [X|_].
      { apply P9 in X; [contradiction|now apply down_lt]. }
      apply in_map_iff. exists (Z.of_nat c). split; auto. apply in_map_iff. exists c. split; auto.
      apply in_where_nth with (d := 0%Z). split; [lia|]. rewrite I1 by (auto; exact I). apply Z.eqb_refl.
  Qed.

  (** C53, exactly: each record is repeated once for every cell that flows to the same
      cell, so [k] inflows give [k] records of fraction one per inflow. *)
  Theorem C53_records_per_cell :
    exists out, cascades_one one fdir strm None = Ok out /\
      forall c l, c < N -> NoDup l -> (forall x, In x l <-> x < N /\ down fdir x = down fdir c) ->
        leaving (Z.of_nat c + 1) out = repeat one (length l).
  Proof.
    destruct (@one_shape None I) as [m [L [I1 [I2 E]]]].
    eexists. split; [exact E|]. intros c l Hc ND HIn.
    assert (Em : m = map (fun c => Z.of_nat (down fdir c)) (seq 0 N)).
    { apply nth_ext with (d := 0%Z) (d' := Z.of_nat (down fdir 0)).
      - rewrite map_length, seq_length. auto.
      - intros i Hi. rewrite I1 by (try exact I; lia). rewrite L in Hi.
        rewrite (map_nth (fun c => Z.of_nat (down fdir c)) (seq 0 N) 0 i). rewrite seq_nth by auto. reflexivity. }
    assert (One : forall h, In h m -> leaving (Z.of_nat c + 1)
        (map (fun p => (fst p + 1, snd p + 1, one, nth (Z.to_nat (snd p)) strm 0)%Z) (one_entry m h)) =
        if (h =? Z.of_nat (down fdir c))%Z then [one] else []).
    { intros h Hh. destruct (nth_in_bounds _ _ Hh) as [c0 [Hc0 E0]]. rewrite L in Hc0. rewrite I1 in E0 by (auto; exact I). subst h.
      assert (HD := down_lt V Hc0). unfold one_entry.
      destruct (Z.eqb_spec (Z.of_nat (down fdir c0)) (-9)); [lia|]. rewrite Nat2Z.id.
      destruct (Z.eqb_spec (nth (down fdir c0) m 0%Z) (-9)) as [X|_]; [rewrite I1 in X by (auto; exact I); lia|].
      unfold leaving. rewrite map_map. cbn [fst snd].
      assert (W : forall ws, NoDup ws ->
        map (fun e : Z * Z * F * Z => let '(_, _, f, _) := e in f)
          (filter (fun e : Z * Z * F * Z => let '(u', _, _, _) := e in (u' =? Z.of_nat c + 1)%Z)
            (map (fun x => (x + 1, Z.of_nat (down fdir c0) + 1, one, nth (down fdir c0) strm 0)%Z) (map Z.of_nat ws)))
        = if in_dec Nat.eq_dec c ws then [one] else []).
      { induction ws as [|w ws IH]; intros NDw; [reflexivity|]. inversion NDw; subst. cbn [map filter].
        specialize (IH ltac:(auto)).
        destruct (Z.eqb_spec (Z.of_nat w + 1) (Z.of_nat c + 1)) as [Ew|Ew].
        - assert (w = c) by lia. subst w. cbn [map]. rewrite IH.
          destruct (in_dec Nat.eq_dec c ws); [contradiction|].
          destruct (in_dec Nat.eq_dec c (c :: ws)) as [|X]; auto. exfalso; apply X; now left.
        - rewrite IH. destruct (in_dec Nat.eq_dec c ws) as [X|X], (in_dec Nat.eq_dec c (w :: ws)) as [Y|Y]; auto.
          + exfalso; apply Y; now right.
          + exfalso. destruct Y; [|contradiction]. subst. now apply Ew. }
      rewrite map_map. rewrite map_map in W || idtac.
      assert (W' := W (where_ (Z.eqb (Z.of_nat (down fdir c0))) m) (where_nodup _ _)).
      rewrite map_map in W'. rewrite Nat2Z.id. rewrite W'.
      destruct (in_dec Nat.eq_dec c _) as [X|X], (Z.eqb_spec (Z.of_nat (down fdir c0)) (Z.of_nat (down fdir c))) as [Y|Y]; auto; exfalso.
      - apply Y. apply in_where_nth with (d := 0%Z) in X. destruct X as [_ X]. apply Z.eqb_eq in X.
        rewrite I1 in X by (auto; exact I). exact X.
      - apply X. apply in_where_nth with (d := 0%Z). split; [lia|]. rewrite I1 by (auto; exact I). apply Z.eqb_eq. auto. }
    assert (G : forall hs, incl hs m -> leaving (Z.of_nat c + 1)
        (map (fun p => (fst p + 1, snd p + 1, one, nth (Z.to_nat (snd p)) strm 0)%Z) (flat_map (one_entry m) hs)) =
        repeat one (length (filter (fun h => (h =? Z.of_nat (down fdir c))%Z) hs))).
    { induction hs as [|h hs IH]; intros HI; [reflexivity|]. cbn [flat_map filter]. rewrite map_app.
      unfold leaving at 1. rewrite filter_app, map_app.
      fold (leaving (Z.of_nat c + 1) (map (fun p => (fst p + 1, snd p + 1, one, nth (Z.to_nat (snd p)) strm 0)%Z) (one_entry m h))).
      fold (leaving (Z.of_nat c + 1) (map (fun p => (fst p + 1, snd p + 1, one, nth (Z.to_nat (snd p)) strm 0)%Z) (flat_map (one_entry m) hs))).
      rewrite One by (apply HI; now left). rewrite IH by (intros x Hx; apply HI; now right).
      destruct (h =? Z.of_nat (down fdir c))%Z; reflexivity. }
    rewrite G by apply incl_refl. f_equal. rewrite Em.
    assert (K : forall xs, length (filter (fun h => (h =? Z.of_nat (down fdir c))%Z) (map (fun c => Z.of_nat (down fdir c)) xs)) =
       length (filter (fun x => down fdir x =? down fdir c) xs)).
    { induction xs as [|x xs IH]; simpl; auto.
      destruct (Z.eqb_spec (Z.of_nat (down fdir x)) (Z.of_nat (down fdir c))), (Nat.eqb_spec (down fdir x) (down fdir c)); simpl; try lia. }
    rewrite K. apply Permutation_length, NoDup_Permutation; auto.
    - apply NoDup_filter, seq_NoDup.
    - intros x. rewrite filter_In, in_seq, HIn, Nat.eqb_eq. intuition lia.
  Qed.

  (** With a basin boundary: C70 is false for every cell whose water leaves the basin - the
      record written links the outside cell to itself, and the cell has no record at all. *)
  Theorem C70_outlet_of_basin_refuted b c : length b = N -> c < N ->
    inside (Some b) c -> ~ inside (Some b) (down fdir c) ->
    exists out, cascades_one one fdir strm (Some b) = Ok out /\
      In (Z.of_nat (down fdir c) + 1, Z.of_nat (down fdir c) + 1, one, nth (down fdir c) strm 0)%Z out /\
      leaving (Z.of_nat c + 1) out = [].
  Proof.
    intros HB Hc Hin Hout. assert (HD := down_lt V Hc).
    destruct (@one_shape (Some b) HB) as [m [L [I1 [I2 E]]]].
    eexists. split; [exact E|]. split.
    - apply in_map_iff. exists (Z.of_nat (down fdir c), Z.of_nat (down fdir c)). cbn [fst snd]. rewrite Nat2Z.id.
      split; auto. apply in_flat_map. exists (nth c m 0%Z). split; [apply nth_In; lia|].
      rewrite I1 by auto. unfold one_entry. destruct (Z.eqb_spec (Z.of_nat (down fdir c)) (-9)); [lia|].
      rewrite Nat2Z.id, I2 by auto. simpl. auto.
    - unfold leaving. match goal with |- map _ ?x = [] => destruct x as [|e es] eqn:EE; auto end. exfalso.
      assert (X : In e (e :: es)) by now left. rewrite <- EE in X. apply filter_In in X. destruct X as [X Y].
      destruct e as [[[u d] f] s]. apply Z.eqb_eq in Y. apply in_map_iff in X. destruct X as [[u' d'] [H Hi]].
      cbn [fst snd] in H. apply in_flat_map in Hi. destruct Hi as [h [Hh Hi]].
      unfold one_entry in Hi. destruct (Z.eqb_spec h (-9)); [contradiction|].
      apply in_map_iff in Hi. destruct Hi as [x [Hx Hi]].
      assert (u' = x) by congruence. assert (d' = h) by congruence. subst x d'.
      assert (Hu : u' = Z.of_nat c) by (assert (A : (u' + 1 = u)%Z) by congruence; lia). subst u'.
      destruct (nth_in_bounds _ _ Hh) as [c0 [Hc0 E0]]. rewrite L in Hc0.
      assert (EC0 : h = Z.of_nat (down fdir c0)).
      { destruct (nth_error b c0) as [v|] eqn:Eb; [|apply nth_error_None in Eb; lia].
        destruct (Z.eq_dec v 0) as [->|Hv].
        - rewrite I2 in E0; [congruence|auto|]. intros [w [W1 W2]]. congruence.
        - rewrite I1 in E0; auto. exists v; auto. }
      rewrite EC0, Nat2Z.id in Hi.
      destruct (Z.eqb_spec (nth (down fdir c0) m 0%Z) (-9)) as [X9|X9].
      + (* the outside cell equals c: c is inside *)
        destruct Hi as [Hi|[]]. apply Nat2Z.inj in Hi. rewrite Hi in X9. rewrite I1 in X9 by auto. lia.
      + apply in_map_iff in Hi. destruct Hi as [y [Hy Hi]]. apply Nat2Z.inj in Hy. subst y.
        apply in_where_nth with (d := 0%Z) in Hi. destruct Hi as [_ Hi]. apply Z.eqb_eq in Hi.
        rewrite I1 in Hi by auto. apply Nat2Z.inj in Hi. rewrite Hi in X9. apply X9. apply I2; auto.
  Qed.
End One.

(** C53 fails as soon as two cells flow to the same cell (exact arithmetic). *)
Theorem C53_confluence_refuted fdir strm a b : valid_fdir fdir -> length strm = length fdir ->
  a < length fdir -> b < length fdir -> a <> b -> down fdir a = down fdir b ->
  exists out, cascades_one 1%Q fdir strm None = Ok out /\ ~ (qsum (leaving (Z.of_nat a + 1) out) == 1)%Q.
Proof.
  intros V HL Ha Hb Hab Hd.
  destruct (@C53_records_per_cell Q 1%Q fdir strm V HL) as [out [E G]]. exists out. split; auto.
  set (l := filter (fun x => down fdir x =? down fdir a) (seq 0 (length fdir))).
  assert (HI : forall x, In x l <-> x < length fdir /\ down fdir x = down fdir a).
  { intros x. unfold l. rewrite filter_In, in_seq, Nat.eqb_eq. intuition lia. }
  assert (ND : NoDup l) by (apply NoDup_filter, seq_NoDup).
  rewrite (G a l Ha ND HI).
  assert (L2 : 2 <= length l).
  { change 2 with (length [a; b]). apply NoDup_incl_length.
    - constructor; [simpl; intuition|constructor; [simpl; tauto|constructor]].
    - intros x [<-|[<-|[]]]; apply HI; auto. }
  assert (S : forall k, (qsum (repeat 1 k) == inject_Z (Z.of_nat k))%Q).
  { induction k; [reflexivity|]. cbn [repeat]. rewrite qsum_cons, IHk. rewrite Nat2Z.inj_succ. unfold Z.succ.
    rewrite inject_Z_plus. apply Qplus_comm. }
  intros H. rewrite S in H. change 1%Q with (inject_Z 1) in H. apply (proj1 (inject_Z_injective _ _)) in H. lia.
Qed.

(** ** Many to many *)
Notation qmany := (cascades_many 1%Q Qabs qtotal qdiv qle0 qkeep).
Notation qlandscape := (landscape Qabs qtotal qdiv qle0 qkeep).

(** the fractions of one block are empty, or exceed 1/100 each and add up to one *)
Definition balanced (fs : list (option Q)) : Prop :=
  fs = [] \/ exists qs, fs = map Some qs /\ (forall f, In f qs -> (1 # 100 < f)%Q) /\ (qsum qs == 1)%Q.

Lemma landscape_balanced fdir row nbs l : qlandscape fdir row nbs = Ok l -> balanced (map snd l).
Proof.
  unfold landscape. intros H. apply bind_ok in H. destruct H as [conns [_ H]].
  apply bind_ok in H. destruct H as [kept [_ H]]. cbn zeta in H.
  set (sl := fold_right _ [] kept) in H. assert (X := strong_good sl). cbn zeta in X.
  set (l2 := map fst (filter _ (combine sl _))) in *. inversion H; subst l. clear H.
  destruct X as [X|[fs [E [L [G S]]]]].
  - left. rewrite X. reflexivity.
  - right. exists fs. split; [|auto]. rewrite E. rewrite map_snd_combine; auto.
    rewrite !map_length. lia.
Qed.

Lemma foldM_blocks {A B} (f : A -> res (list B)) l : forall acc out,
  foldM (fun o x => b <- f x ;; Ok (o ++ b)) l acc = Ok out ->
  exists bs, mapM f l = Ok bs /\ out = acc ++ concat bs.
Proof.
  induction l as [|x l IH]; intros acc out H; simpl in *.
  - inversion H. exists []. split; auto. simpl. now rewrite app_nil_r.
  - destruct (f x) as [b|e]; simpl in *; [|discriminate]. apply IH in H. destruct H as [bs [E ->]].
    exists (b :: bs). rewrite E. simpl. split; auto. now rewrite app_assoc.
Qed.

Lemma foldM_ext {S A} (f g : S -> A -> res S) l : (forall s x, f s x = g s x) -> forall s, foldM f l s = foldM g l s.
Proof. intros H. induction l; intros s; simpl; auto. rewrite H. destruct (g s a); simpl; auto. Qed.

Section Many.
  Variables fdir strm : list Z.
  Variable basin : option (list Z).
  Variable slopes : list (list (option Q)).
  Variable fnb : list (list Z).

  (** the records of one cell *)
  Definition block (m : list Z) (p : nat * Z) : res (list (Z * Z * option Q)) :=
    let '(node, hru_down) := p in
    if (hru_down =? -9)%Z then Ok []
    else if memn node (where_ (fun z => (0 <? z)%Z) strm) then
      d <- npget m hru_down ;;
      Ok [(Z.of_nat node, if (d =? -9)%Z then Z.of_nat node else hru_down, Some 1%Q)]
    else row <- get slopes node ;; nbs <- get fnb node ;; l <- qlandscape m row nbs ;;
         Ok (map (fun c => (Z.of_nat node, fst c, snd c)) l).

  Lemma many_blocks c : many_to_many 1%Q Qabs qtotal qdiv qle0 qkeep fdir strm basin slopes fnb = Ok c ->
    exists m bs, mask_fdir fdir basin = Ok m /\ mapM (block m) (combine (seq 0 (length m)) m) = Ok bs /\ c = concat bs.
  Proof.
    unfold many_to_many. intros H. apply bind_ok in H. destruct H as [m [E H]]. exists m.
    rewrite (foldM_ext _ (fun o x => b <- block m x ;; Ok (o ++ b))) in H.
    - apply foldM_blocks in H. destruct H as [bs [H1 ->]]. exists bs. auto.
    - intros s [node h]. unfold block. destruct (h =? -9)%Z; [simpl; now rewrite app_nil_r|].
      destruct (memn node _).
      + destruct (npget m h); reflexivity.
      + destruct (get slopes node); [|reflexivity]. simpl. destruct (get fnb node); [|reflexivity]. simpl.
        destruct (qlandscape m a a0); reflexivity.
  Qed.

  Lemma block_shape m node h b : block m (node, h) = Ok b ->
    (forall u d f, In (u, d, f) b -> u = Z.of_nat node) /\ balanced (map snd b).
  Proof.
    unfold block. destruct (h =? -9)%Z.
    { intros H; inversion H; subst. split; [easy|now left]. }
    destruct (memn node _).
    - intros H. apply bind_ok in H. destruct H as [d [_ H]]. inversion H; subst. split.
      + intros u d' f [X|[]]. now inversion X.
      + right. exists [1%Q]. split; [reflexivity|]. split; [|reflexivity]. intros f [<-|[]]. reflexivity.
    - intros H. apply bind_ok in H. destruct H as [row [_ H]]. apply bind_ok in H. destruct H as [nbs [_ H]].
      apply bind_ok in H. destruct H as [l [E H]]. inversion H; subst. split.
      + intros u d f X. apply in_map_iff in X. destruct X as [y [X _]]. now inversion X.
      + rewrite map_map. simpl. apply landscape_balanced in E. exact E.
  Qed.

  (** C54: the fractions leaving each cell exceed 1/100 and add up to one. *)
  Theorem C54_fractions_add_up out : qmany fdir strm basin slopes fnb = Ok out ->
    forall u, leaving u out = [] \/
      exists qs, leaving u out = map Some qs /\ (forall f, In f qs -> (1 # 100 < f)%Q) /\
                 (fold_left Qplus qs 0 == 1)%Q.
  Proof.
    unfold cascades_many. intros H u. apply bind_ok in H. destruct H as [c [E H]].
    apply many_blocks in E. destruct E as [m [bs [_ [E ->]]]].
    (* finishing keeps the fractions and shifts the cell numbers *)
    assert (FIN : forall c out, finish_cascades strm c = Ok out ->
       leaving u out = map snd (filter (fun e : Z * Z * option Q => (fst (fst e) + 1 =? u)%Z) c)).
    { clear. unfold finish_cascades. induction c as [|[[a d] f] c IH]; intros out H; simpl in H.
      - inversion H; reflexivity.
      - apply bind_ok in H. destruct H as [y [E H]]. apply bind_ok in H. destruct H as [ys [E2 H]].
        inversion H; subst. apply bind_ok in E. destruct E as [s [_ E]]. inversion E; subst. clear E H.
        unfold leaving. cbn [filter fst snd]. specialize (IH _ E2). unfold leaving in IH.
        destruct (a + 1 =? u)%Z; cbn [map snd]; now rewrite IH. }
    rewrite (FIN _ _ H). clear FIN H.
    assert (G : forall ps bs, NoDup (map fst ps) -> mapM (block m) ps = Ok bs ->
      (forall u d f, In (u, d, f) (concat bs) -> exists n, In n (map fst ps) /\ u = Z.of_nat n) /\
      balanced (map snd (filter (fun e : Z * Z * option Q => (fst (fst e) + 1 =? u)%Z) (concat bs)))).
    { induction ps as [|[node h] ps IH]; intros bs' ND H; simpl in H.
      - inversion H. split; [easy|now left].
      - apply bind_ok in H. destruct H as [b [Eb H]]. apply bind_ok in H. destruct H as [bs2 [E2 H]].
        inversion H; subst bs'. clear H. inversion ND; subst. destruct (IH _ ltac:(auto) E2) as [K1 K2].
        destruct (block_shape _ _ _ Eb) as [S1 S2]. cbn [concat]. split.
        + intros a d f X. apply in_app_iff in X. destruct X as [X|X].
          * exists node. split; [now left|]. eapply S1; eauto.
          * destruct (K1 _ _ _ X) as [n [X1 X2]]. exists n. split; [now right|auto].
        + rewrite filter_app, map_app.
          destruct (Z.eqb_spec (Z.of_nat node + 1) u) as [Hu|Hu].
          * replace (filter _ (concat bs2)) with (@nil (Z * Z * option Q)).
            2:{ symmetry. match goal with |- ?x = [] => destruct x as [|e es] eqn:EE; auto end. exfalso.
                assert (X : In e (e :: es)) by now left. rewrite <- EE in X. apply filter_In in X. destruct X as [X Y].
                destruct e as [[a d] f]. destruct (K1 _ _ _ X) as [n [X1 X2]]. apply Z.eqb_eq in Y. simpl in Y.
                assert (n = node) by lia. subst n. contradiction. }
            simpl. rewrite app_nil_r. replace (filter _ b) with b; [exact S2|].
            clear - S1 Hu. induction b as [|[[a d] f] b IH]; simpl; auto.
            rewrite (S1 a d f) by now left. destruct (Z.eqb_spec (Z.of_nat node + 1) u); [|contradiction].
            f_equal. apply IH. intros; eapply S1; right; eauto.
          * replace (filter _ b) with (@nil (Z * Z * option Q)); [simpl; exact K2|].
            clear - S1 Hu. induction b as [|[[a d] f] b IH]; simpl; auto.
            rewrite (S1 a d f) by now left. destruct (Z.eqb_spec (Z.of_nat node + 1) u); [contradiction|].
            apply IH. intros; eapply S1; right; eauto. }
    apply G in E; [destruct E as [_ E]; exact E|].
    rewrite map_fst_combine by now rewrite seq_length. apply seq_NoDup.
  Qed.

  Hypothesis V : valid_fdir fdir.
  Hypothesis HL : length strm = length fdir.
  Hypothesis HB : basin_fits basin (length fdir).

  (** the slope table: rows for all cells, and a neighbour wherever the slope leads down (or is
      level); the padding has slope 1e+10 (or, beside a NaN cell, NaN) *)
  Definition slope_table : Prop :=
    length slopes = length fdir /\ length fnb = length fdir /\
    forall n row nbs k x, nth_error slopes n = Some row -> nth_error fnb n = Some nbs ->
      nth_error row k = Some (Some x) -> (x <= 0)%Q ->
      exists c, nth_error nbs k = Some c /\ (0 <= c < Z.of_nat (length fdir))%Z.

  Lemma mapM_exists {A B} (f : A -> res B) l : (forall x, In x l -> exists y, f x = Ok y) -> exists ys, mapM f l = Ok ys.
  Proof. induction l as [|x l IH]; intros H; [eexists; reflexivity|].
    destruct (H x) as [y E]; [now left|]. destruct IH as [ys E2]; [intros; apply H; now right|].
    simpl. rewrite E. simpl. rewrite E2. simpl. eauto. Qed.

  Lemma mapM_in {A B} (f : A -> res B) l ys y : mapM f l = Ok ys -> In y ys -> exists x, In x l /\ f x = Ok y.
  Proof. revert ys; induction l as [|x l IH]; intros ys H Hy; simpl in H.
    - inversion H; subst. destruct Hy.
    - apply bind_ok in H. destruct H as [b [E H]]. apply bind_ok in H. destruct H as [bs [E2 H]]. inversion H; subst.
      destruct Hy as [->|Hy]; [exists x; split; [now left|auto]|]. destruct (IH _ E2 Hy) as [z [Z1 Z2]]. exists z. split; [now right|auto]. Qed.

  (** the candidate links of a landscape cell *)
  Lemma landscape_ok m n row nbs : length m = length fdir -> slope_table ->
    nth_error slopes n = Some row -> nth_error fnb n = Some nbs ->
    exists l, qlandscape m row nbs = Ok l /\
      forall c f, In (c, f) l -> exists k x, nth_error row k = Some (Some x) /\ (x <= 0)%Q /\
         nth_error nbs k = Some c /\ (0 <= c < Z.of_nat (length fdir))%Z /\ nth (Z.to_nat c) m 0%Z <> 0%Z.
  Proof.
    intros Lm [_ [_ HT]] Hr Hn. unfold landscape.
    set (ft := where_ _ row).
    assert (FT : forall k, In k ft -> exists x, nth_error row k = Some (Some x) /\ (x <= 0)%Q).
    { intros k Hk. unfold ft in Hk. apply in_where in Hk. destruct Hk as [[x|] [H1 H2]]; [|discriminate].
      exists x. split; auto. now apply Qle_bool_iff. }
    assert (CO : exists conns, mapM (fun k => c <- get nbs k ;; s <- get row k ;; Ok (c, s)) ft = Ok conns /\
       forall c s, In (c, s) conns -> exists k x, s = Some x /\ nth_error row k = Some (Some x) /\ (x <= 0)%Q /\
          nth_error nbs k = Some c /\ (0 <= c < Z.of_nat (length fdir))%Z).
    { destruct (@mapM_exists _ _ (fun k => c <- get nbs k ;; s <- get row k ;; Ok (c, s)) ft) as [conns E].
      - intros k Hk. destruct (FT k Hk) as [x [H1 H2]]. destruct (HT n row nbs k x Hr Hn H1 H2) as [c [H3 H4]].
        apply get_ok in H3. rewrite H3. cbn [bind]. apply get_ok in H1. rewrite H1. simpl. eauto.
      - exists conns. split; auto. intros c s Hi. destruct (@mapM_in _ _ _ _ _ _ E Hi) as [k [Hk Ek]].
        destruct (FT k Hk) as [x [H1 H2]]. destruct (HT n row nbs k x Hr Hn H1 H2) as [c' [H3 H4]].
        assert (G3 := proj2 (get_ok nbs k c') H3). assert (G1 := proj2 (get_ok row k (Some x)) H1).
        rewrite G3, G1 in Ek. cbn [bind] in Ek. inversion Ek; subst. exists k, x. auto. }
    destruct CO as [conns [EC HC]]. rewrite EC. cbn [bind].
    set (step := fun (l : list (Z * option Q)) (p : Z * option Q) => d <- npget m (fst p) ;; Ok (if (d =? 0)%Z then l else l ++ [p])).
    assert (KE : forall cs acc, (forall c s, In (c, s) cs -> In (c, s) conns) -> exists kept, foldM step cs acc = Ok kept /\
       forall c s, In (c, s) kept -> In (c, s) acc \/ (In (c, s) conns /\ nth (Z.to_nat c) m 0%Z <> 0%Z)).
    { induction cs as [|[c s] cs IH]; intros acc HI; simpl.
      - exists acc. auto.
      - destruct (HC c s (HI c s (or_introl eq_refl))) as [k [x [_ [_ [_ [_ Hc]]]]]].
        unfold step at 1. cbn [fst]. rewrite (npget_pos m 0%Z) by (rewrite Lm; auto). cbn [bind].
        destruct (IH (if (nth (Z.to_nat c) m 0 =? 0)%Z then acc else acc ++ [(c, s)])) as [kept [E G]]; [intros; apply HI; now right|].
        exists kept. split; auto. intros c' s' Hi. destruct (G c' s' Hi) as [X|X]; auto.
        destruct (Z.eqb_spec (nth (Z.to_nat c) m 0%Z) 0); auto. apply in_app_iff in X. destruct X as [X|[X|[]]]; auto.
        inversion X; subst. right. split; auto. apply HI. now left. }
    destruct (KE conns [] ltac:(auto)) as [kept [EK HK]]. rewrite EK. cbn [bind]. cbn zeta.
    eexists. split; [reflexivity|]. intros c f Hi. apply in_combine_l in Hi.
    apply in_map_iff in Hi. destruct Hi as [[c' x'] [Hc Hi]]. simpl in Hc. subst c'.
    apply in_map_iff in Hi. destruct Hi as [[y o] [Hy Hi]]. simpl in Hy. subst y. apply filter_In in Hi.
    destruct Hi as [Hi _]. apply in_combine_l in Hi.
    assert (FR : In (c, Some x') kept).
    { clear - Hi. induction kept as [|[a [b|]] kept IH]; simpl in *; auto. destruct Hi as [Hi|Hi]; auto. left. now inversion Hi. }
    destruct (HK _ _ FR) as [[]|[X1 X2]]. destruct (HC _ _ X1) as [k [x [_ [Y1 [Y2 [Y3 Y4]]]]]].
    exists k, x. auto.
  Qed.

  (** the computation raises no exception *)
  Theorem C54_cascades_succeed : slope_table -> exists out, qmany fdir strm basin slopes fnb = Ok out.
  Proof.
    intros ST. destruct (mask_fdir_spec basin V HB) as [m [E [L [FA [I1 I2]]]]].
    assert (LS := proj1 ST). assert (LF := proj1 (proj2 ST)).
    assert (BK : forall p, In p (combine (seq 0 (length m)) m) -> exists b, block m p = Ok b /\
        forall u d f, In (u, d, f) b -> (0 <= d < Z.of_nat (length strm))%Z).
    { intros [node h] Hp. assert (Hn := in_combine_l _ _ _ _ Hp). apply in_seq in Hn.
      assert (Hh := in_combine_r _ _ _ _ Hp). rewrite Forall_forall in FA. assert (Fh := FA h Hh).
      unfold block. destruct (Z.eqb_spec h (-9)) as [|H9]; [exists []; split; [auto|easy]|].
      destruct Fh as [?|Fh]; [contradiction|].
      destruct (memn node _).
      - rewrite (npget_pos m 0%Z Fh). cbn [bind]. eexists. split; [reflexivity|]. intros u d f [X|[]]. inversion X; subst.
        destruct (_ =? -9)%Z; lia.
      - destruct (nth_error slopes node) as [row|] eqn:Er; [|apply nth_error_None in Er; lia].
        destruct (nth_error fnb node) as [nbs|] eqn:En; [|apply nth_error_None in En; lia].
        rewrite (proj2 (get_ok _ _ _) Er), (proj2 (get_ok _ _ _) En). cbn [bind].
        destruct (@landscape_ok m node row nbs L ST Er En) as [l [El Gl]]. rewrite El. cbn [bind].
        eexists. split; [reflexivity|]. intros u d f X. apply in_map_iff in X. destruct X as [[c g] [X Y]].
        cbn [fst snd] in X. inversion X; subst. destruct (Gl _ _ Y) as [k [x [_ [_ [_ [Z1 _]]]]]]. lia. }
    assert (MM : exists c, many_to_many 1%Q Qabs qtotal qdiv qle0 qkeep fdir strm basin slopes fnb = Ok c /\
        forall u d f, In (u, d, f) c -> (0 <= d < Z.of_nat (length strm))%Z).
    { unfold many_to_many. rewrite E. cbn [bind].
      rewrite (foldM_ext _ (fun o x => b <- block m x ;; Ok (o ++ b))).
      2:{ intros s [node h]. unfold block. destruct (h =? -9)%Z; [simpl; now rewrite app_nil_r|].
          destruct (memn node _).
          - destruct (npget m h); reflexivity.
          - destruct (get slopes node); [|reflexivity]. simpl. destruct (get fnb node); [|reflexivity]. simpl.
            destruct (qlandscape m a a0); reflexivity. }
      assert (G : forall ps acc, (forall p, In p ps -> In p (combine (seq 0 (length m)) m)) ->
        (forall u d f, In (u, d, f) acc -> (0 <= d < Z.of_nat (length strm))%Z) ->
        exists c, foldM (fun o x => b <- block m x ;; Ok (o ++ b)) ps acc = Ok c /\
          forall u d f, In (u, d, f) c -> (0 <= d < Z.of_nat (length strm))%Z).
      { induction ps as [|p ps IH]; intros acc HI HA; [exists acc; auto|]. cbn [foldM].
        destruct (BK p (HI p (or_introl eq_refl))) as [b [Eb Gb]]. rewrite Eb. cbn [bind]. apply IH.
        - intros q Hq. apply HI. now right.
        - intros u d f X. apply in_app_iff in X. destruct X; eauto. }
      apply G; [auto|easy]. }
    destruct MM as [c [EM GM]]. unfold cascades_many. rewrite EM. cbn [bind]. rewrite (finish_ok _ _ GM). eauto.
  Qed.
End Many.

(** C71 is false: a landscape cell all of whose downhill neighbours flow to cell 0 gets no
    cascade at all (the test [fdir[conn] != 0] is meant to detect cells outside the basin). *)
Theorem C71_links_dropped_refuted fdir row nbs :
  (forall k x, nth_error row k = Some (Some x) -> (x <= 0)%Q ->
     exists c, nth_error nbs k = Some c /\ (0 <= c < Z.of_nat (length fdir))%Z /\ nth (Z.to_nat c) fdir 1%Z = 0%Z) ->
  qlandscape fdir row nbs = Ok [].
Proof.
  intros H. unfold landscape. set (ft := where_ _ row).
  assert (FT : forall k, In k ft -> exists x, nth_error row k = Some (Some x) /\ (x <= 0)%Q).
  { intros k Hk. unfold ft in Hk. apply in_where in Hk. destruct Hk as [[x|] [H1 H2]]; [|discriminate].
    exists x. split; auto. now apply Qle_bool_iff. }
  destruct (@mapM_exists _ _ (fun k => c <- get nbs k ;; s <- get row k ;; Ok (c, s)) ft) as [conns E].
  { intros k Hk. destruct (FT k Hk) as [x [H1 H2]]. destruct (H k x H1 H2) as [c [H3 H4]].
    apply get_ok in H3. rewrite H3. cbn [bind]. apply get_ok in H1. rewrite H1. simpl. eauto. }
  rewrite E. cbn [bind].
  assert (Z0 : forall c s, In (c, s) conns -> npget fdir c = Ok 0%Z).
  { intros c s Hi. destruct (@mapM_in _ _ _ _ _ _ E Hi) as [k [Hk Ek]]. destruct (FT k Hk) as [x [H1 H2]].
    destruct (H k x H1 H2) as [c' [H3 [H4 H5]]].
    assert (G3 := proj2 (get_ok nbs k c') H3). assert (G1 := proj2 (get_ok row k (Some x)) H1).
    rewrite G3, G1 in Ek. cbn [bind] in Ek. inversion Ek; subst. rewrite (npget_pos fdir 1%Z H4). now rewrite H5. }
  assert (K : foldM (fun l p => d <- npget fdir (fst p) ;; Ok (if (d =? 0)%Z then l else l ++ [p])) conns ([] : list (Z * option Q)) = Ok []).
  { clear - Z0. induction conns as [|[c s] cs IH]; simpl; auto. rewrite (Z0 c s) by now left. simpl.
    apply IH. intros; eapply Z0; right; eauto. }
  rewrite K. reflexivity.
Qed.

Module Ex.
  (** a row of four cells flowing 3 -> 2 -> 1 -> 0; the stream is cell 0 *)
  Definition fdir := [0; 0; 1; 2]%Z.
  Definition strm := [1; 0; 0; 0]%Z.
  Definition slopes : list (list (option Q)) :=
    [[Some 1; Some 10000000000]; [Some (-1); Some 1]; [Some (-1); Some 1]; [Some (-1); Some 10000000000]]%Q.
  Definition fnb : list (list Z) := [[1; 4]; [0; 2]; [1; 3]; [2; 4]]%Z.
  Example valid : valid_fdir fdir. Proof. repeat constructor; cbv; congruence. Qed.
  Example table : slope_table fdir slopes fnb.
  Proof.
    split; [reflexivity|split; [reflexivity|]]. intros n row nbs k x H1 H2 H3 H4.
    do 4 (destruct n as [|n]; [cbn in H1, H2; inversion H1; inversion H2; subst row nbs;
      do 2 (destruct k as [|k]; [cbn in H3; first [injection H3 as <-; exfalso; apply H4; reflexivity | eexists; split; [reflexivity|cbv; split; congruence]]|]);
      destruct k; discriminate|]).
    destruct n; discriminate.
  Qed.
  (** only the landscape cell 3 keeps its cascade: cells 1 and 2 lead to cells that flow to
      cell 0 *)
  Theorem C71_no_cascade_refuted :
    qmany fdir strm None slopes fnb = Ok [(1, 1, Some 1%Q, 1); (4, 3, Some 1%Q, 0)]%Z.
  Proof. vm_compute. reflexivity. Qed.

  (** C55 is false: the basin is the cells 1-3 of a row flowing 1 -> 2 -> 3 -> 4; cell 4 is
      outside, and landscape cell 3 cascades to it *)
  Definition fdir2 := [0; 2; 3; 4; 4]%Z.
  Definition strm2 := [0; 0; 0; 0; 0]%Z.
  Definition basin2 := [0; 1; 1; 1; 0]%Z.
  Definition slopes2 : list (list (option Q)) :=
    [[None; None]; [Some 1; Some (-1)]; [Some 1; Some (-1)]; [Some 1; Some (-1)]; [Some 1; None]]%Q.
  Definition fnb2 : list (list Z) := [[1; 5]; [0; 2]; [1; 3]; [2; 4]; [3; 5]]%Z.
  Theorem C55_cascade_leaves_basin_refuted :
    exists out, qmany fdir2 strm2 (Some basin2) slopes2 fnb2 = Ok out /\
      inside (Some basin2) 3 /\ ~ inside (Some basin2) 4 /\ In (3 + 1, 4 + 1, Some 1%Q, 0)%Z out.
  Proof.
    eexists. split; [vm_compute; reflexivity|].
    split; [exists 1%Z; split; [reflexivity|lia]|].
    split; [intros [v [H Hv]]; cbv in H; inversion H; congruence|]. simpl. auto.
  Qed.
  (** C53: two cells draining to cell 0 *)
  Example confluence : cascades_one 1%Q [0; 0; 0]%Z [0; 0; 0]%Z None =
    Ok (concat (repeat [(1, 1, 1%Q, 0); (2, 1, 1%Q, 0); (3, 1, 1%Q, 0)]%Z 3)).
  Proof. vm_compute. reflexivity. Qed.
  (** C70: basin {1, 2} of the row above; cell 2 drains out of it *)
  Example basin_outlet : cascades_one 1%Q [0; 0; 1; 2]%Z [0; 0; 0; 0]%Z (Some [0; 1; 1; 0]%Z) = 
    Ok [(1, 1, 1%Q, 0); (3, 2, 1%Q, 0)]%Z.
  Proof. vm_compute. reflexivity. Qed.
End Ex.
