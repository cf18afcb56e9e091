(** C56, C57: StreamBase.threshold_from_control_points. *)
From Verif Require Import Py Spec MStream LGraph LStream.
Set Implicit Arguments.
Local Open Scope nat_scope.
Local Open Scope list_scope.

Section C.
  Context {T : Type} (minus5 : T -> T) (isnan : T -> bool) (gt : T -> T -> bool).
  Hypothesis W : weak_order isnan gt.
  Variables (nb : list (list nat)) (fdir : list Z) (facc : list T).
  Notation N := (length fdir).
  Hypothesis V : valid_fdir fdir.
  Hypothesis LA : length facc = N.
  Hypothesis LB : N <= length nb.
  Hypothesis NB : neighbours_in nb N.

  Notation inflow := (main_inflow isnan gt nb fdir facc).
  Notation climb := (climbs isnan gt nb fdir facc).

  (** what flows_in collects *)
  Definition ent (c n : nat) : list (nat * T) :=
    match nth_error fdir n, nth_error facc n with
    | Some d, Some a => if (d =? Z.of_nat c)%Z then (if isnan a then [] else [(n, a)]) else []
    | _, _ => []
    end.

  Definition fstep (c : nat) (l : list (nat * T)) (n : nat) : res (list (nat * T)) :=
    d <- get fdir n ;;
    if (d =? Z.of_nat c)%Z then a <- get facc n ;; Ok (if isnan a then l else l ++ [(n, a)]) else Ok l.

  Lemma flows_in_eq c l : nth_error nb c = Some l -> (forall n, In n l -> n < N) ->
    flows_in isnan nb fdir facc c = Ok (flat_map (ent c) l).
  Proof.
    intros E H. unfold flows_in. rewrite (proj2 (get_ok _ _ _) E). cbn [bind].
    assert (G : forall l acc, (forall n, In n l -> n < N) -> foldM (fstep c) l acc = Ok (acc ++ flat_map (ent c) l)).
    { clear - LA. induction l as [|n l IH]; intros acc H; [simpl; now rewrite app_nil_r|].
      cbn [foldM flat_map]. assert (Hn : n < N) by (apply H; now left). unfold ent at 1, fstep at 1.
      destruct (nth_error fdir n) as [d|] eqn:Ed; [|apply nth_error_None in Ed; lia].
      destruct (nth_error facc n) as [a|] eqn:Ea; [|apply nth_error_None in Ea; lia].
      rewrite (proj2 (get_ok _ _ _) Ed). cbn [bind].
      destruct (d =? Z.of_nat c)%Z; [rewrite (proj2 (get_ok _ _ _) Ea); cbn [bind]; destruct (isnan a)|];
        cbn [bind]; rewrite IH by (intros; apply H; now right); auto. now rewrite <- app_assoc. }
    apply (G l []). exact H.
  Qed.

  Lemma in_ent c n m a : In (m, a) (ent c n) <-> m = n /\ nth_error facc n = Some a /\ feeds isnan fdir facc c n.
  Proof.
    unfold ent, feeds. destruct (nth_error fdir n) as [d|]; [|split; [intros []|intros [_ [_ [H _]]]; discriminate]].
    destruct (nth_error facc n) as [b|]; [|split; [intros []|intros [_ [H _]]; discriminate]].
    destruct (Z.eqb_spec d (Z.of_nat c)) as [->|Hd].
    - destruct (isnan b) eqn:Eb.
      + split; [intros []|]. intros [_ [_ [_ [x [H1 H2]]]]]. congruence.
      + split.
        * intros [H|[]]. inversion H; subst. repeat split; auto. exists a. auto.
        * intros [-> [H _]]. left. congruence.
    - split; [intros []|]. intros [_ [_ [H _]]]. congruence.
  Qed.

  Lemma ent_single c n e es : ent c n = e :: es -> es = [].
  Proof. unfold ent. destruct (nth_error fdir n), (nth_error facc n); try discriminate.
    destruct (z =? Z.of_nat c)%Z; try discriminate. destruct (isnan t); intros H; inversion H; auto. Qed.

  (** argmax: the first largest entry of best :: l *)
  Lemma argmax_spec (good : nat * T -> Prop) (Hg : forall p, good p -> isnan (snd p) = false) l : forall best,
    good best -> (forall p, In p l -> good p) ->
    exists l1 l2, best :: l = l1 ++ argmax gt best l :: l2 /\
      (forall p, In p l1 -> gt (snd (argmax gt best l)) (snd p) = true) /\
      (forall p, In p l2 -> gt (snd p) (snd (argmax gt best l)) = false).
  Proof.
    destruct W as [W1 [W2 W3]].
    induction l as [|q l IH]; intros best HB HL; simpl.
    - exists [], []. repeat split; simpl; auto; easy.
    - assert (Hq : good q) by (apply HL; now left).
      assert (HL' : forall p, In p l -> good p) by (intros; apply HL; now right).
      destruct (gt (snd q) (snd best)) eqn:E.
      + destruct (IH q Hq HL') as [l1 [l2 [E1 [A B]]]]. exists (best :: l1), l2.
        split; [simpl; now rewrite <- E1|]. split; auto. intros p [<-|Hp]; auto.
        set (r := argmax gt q l) in *.
        assert (Hr : good r).
        { assert (X : In r (q :: l)) by (rewrite E1; apply in_app_iff; simpl; auto). destruct X as [<-|X]; auto. }
        destruct l1 as [|q' l1].
        * simpl in E1. inversion E1. rewrite <- H0. exact E.
        * simpl in E1. inversion E1; subst q'. apply (W2 _ (snd q)); auto. apply A. now left.
      + destruct (IH best HB HL') as [l1 [l2 [E1 [A B]]]]. set (r := argmax gt best l) in *.
        assert (Hr : good r).
        { assert (X : In r (best :: l)) by (rewrite E1; apply in_app_iff; simpl; auto). destruct X as [<-|X]; auto. }
        destruct l1 as [|b l1]; simpl in E1; inversion E1.
        * exists [], (q :: l2). simpl. split; [congruence|]. split; [easy|]. intros p [<-|Hp]; auto.
          rewrite <- H0. exact E.
        * subst b. exists (best :: q :: l1), l2. simpl. split; [congruence|]. split; auto.
          intros p [<-|[<-|Hp]]; [apply A; now left| |apply A; now right].
          assert (X : gt (snd r) (snd best) = true) by (apply A; now left).
          destruct (gt (snd r) (snd q)) eqn:F; auto.
          assert (Y : gt (snd r) (snd best) = false) by (apply (W3 _ (snd q)); auto). congruence.
  Qed.

  Lemma feeds_down c n : feeds isnan fdir facc c n -> n < N /\ down fdir n = c.
  Proof. intros [H _]. split; [apply nth_error_Some; congruence|]. unfold down.
    rewrite (nth_error_nth _ _ 0%Z H). apply Nat2Z.id. Qed.

  (** the next cell of the walk is the main inflow *)
  Lemma next_main c l p q : nth_error nb c = Some l -> flat_map (ent c) l = p :: q ->
    inflow c (fst (argmax gt p q)).
  Proof.
    intros E H. set (good := fun e : nat * T => nth_error facc (fst e) = Some (snd e) /\ feeds isnan fdir facc c (fst e)).
    assert (G : forall e, In e (p :: q) -> good e).
    { intros [m a] He. rewrite <- H in He. apply in_flat_map in He. destruct He as [n [_ He]].
      apply in_ent in He. destruct He as [-> [H1 H2]]. split; auto. }
    assert (Hg : forall e, good e -> isnan (snd e) = false).
    { intros e [H1 [_ [b [H2 H3]]]]. congruence. }
    destruct (@argmax_spec good Hg q p) as [k1 [k2 [E1 [A B]]]]; [apply G; now left|intros; apply G; now right|].
    set (r := argmax gt p q) in *. rewrite E1 in H.
    (* split the neighbour list at the occurrence that produced [r] *)
    assert (SP : forall l k1 r k2, flat_map (ent c) l = k1 ++ r :: k2 ->
       exists l1 n l2, l = l1 ++ n :: l2 /\ flat_map (ent c) l1 = k1 /\ ent c n = [r] /\ flat_map (ent c) l2 = k2).
    { clear. induction l as [|x l IH]; intros k1 r k2 H; simpl in H; [destruct k1; discriminate|].
      destruct (ent c x) as [|e es] eqn:Ex.
      - simpl in H. destruct (IH _ _ _ H) as [l1 [n [l2 [-> [H1 [H2 H3]]]]]].
        exists (x :: l1), n, l2. simpl. rewrite Ex. auto.
      - assert (es = []) by (eapply ent_single; eauto). subst es. simpl in H. destruct k1 as [|k k1]; simpl in H.
        + inversion H; subst. exists [], x, l. simpl. auto.
        + inversion H; subst. destruct (IH _ _ _ H2) as [l1 [n [l2 [-> [G1 [G2 G3]]]]]].
          exists (x :: l1), n, l2. simpl. rewrite Ex. simpl. rewrite G1. auto. }
    destruct (SP _ _ _ _ H) as [l1 [n [l2 [-> [H1 [H2 H3]]]]]].
    assert (Hr : good r) by (apply G; rewrite E1; apply in_app_iff; simpl; auto).
    assert (fst r = n).
    { assert (X : In r (ent c n)) by (rewrite H2; now left). destruct r as [m a]. apply in_ent in X. simpl. tauto. }
    destruct Hr as [R1 R2]. exists l1, l2, (snd r). rewrite H0 in *. split; [auto|split; [auto|split; [auto|split]]].
    - intros m b Hm Hf Hb. apply (A (m, b)). rewrite <- H1. apply in_flat_map. exists m. split; auto. apply in_ent. auto.
    - intros m b Hm Hf Hb. apply (B (m, b)). rewrite <- H3. apply in_flat_map. exists m. split; auto. apply in_ent. auto.
  Qed.

  Lemma main_inflow_next c l n : nth_error nb c = Some l -> inflow c n -> flat_map (ent c) l <> [].
  Proof. intros E [l1 [l2 [a [E1 [F [Ha _]]]]]] H. rewrite E1 in E. inversion E; subst l.
    assert (X : In (n, a) (flat_map (ent c) (l1 ++ n :: l2))).
    { apply in_flat_map. exists n. split; [apply in_app_iff; simpl; auto|]. apply in_ent. auto. }
    rewrite H in X. exact X. Qed.

  Lemma main_inflow_unique c n m : inflow c n -> inflow c m -> n = m.
  Proof.
    intros [l1 [l2 [a [E1 [F1 [Ha [A1 B1]]]]]]] [k1 [k2 [b [E2 [F2 [Hb [A2 B2]]]]]]].
    rewrite E1 in E2. injection E2 as E2.
    assert (Na : isnan a = false) by (destruct F1 as [_ [x [X1 X2]]]; congruence).
    assert (Nb : isnan b = false) by (destruct F2 as [_ [x [X1 X2]]]; congruence).
    assert (CMP : forall (l1 l2 k1 k2 : list nat) (n m : nat), l1 ++ n :: l2 = k1 ++ m :: k2 ->
       n = m \/ (In n k1 /\ In m l2) \/ (In m l1 /\ In n k2)).
    { clear. induction l1 as [|x l1 IH]; intros l2 k1 k2 n m H; destruct k1 as [|y k1]; simpl in H; inversion H; subst; auto.
      - right. left. split; [now left|]. apply in_app_iff. simpl; auto.
      - right. right. split; [now left|]. apply in_app_iff; simpl; auto.
      - destruct (IH _ _ _ _ _ H2) as [|[[]|[]]]; auto; [right; left|right; right]; split; auto; now right. }
    destruct (CMP _ _ _ _ _ _ E2) as [|[[H1 H2]|[H1 H2]]]; auto; exfalso.
    - assert (X := A2 n a H1 F1 Ha). assert (Y := B1 m b H2 F2 Hb). congruence.
    - assert (X := A1 m b H1 F2 Hb). assert (Y := B2 n a H2 F1 Ha). congruence.
  Qed.

  Lemma climb_first c n m : inflow c n -> climb c m -> m = c \/ climb n m.
  Proof. intros H C. induction C as [|m m' C IH HM]; [now left|]. destruct IH as [->|IH]; right.
    - rewrite (main_inflow_unique H HM). constructor.
    - econstructor; eauto. Qed.

  Lemma climb_up c n m : inflow c n -> climb n m -> climb c m.
  Proof. intros H C. induction C; [econstructor; [constructor|auto]|econstructor; eauto]. Qed.

  Lemma inflow_feeds c n : inflow c n -> feeds isnan fdir facc c n /\ adjacent nb c n.
  Proof. intros [l1 [l2 [a [E1 [F1 _]]]]]. split; auto. exists (l1 ++ n :: l2). split; auto. apply in_app_iff; simpl; auto. Qed.

  Lemma climb_downs c n : climb c n -> exists k, downs fdir k n = c.
  Proof. induction 1 as [|m n C [k IH] H]; [exists 0; reflexivity|].
    apply inflow_feeds in H. destruct H as [H _]. apply feeds_down in H. exists (S k). simpl. destruct H as [_ ->]. exact IH. Qed.

  (** the cells climbed from [c], down to up, when the climb ends *)
  Inductive chain : nat -> list nat -> Prop :=
  | ch_end : forall c, (forall n, ~ inflow c n) -> chain c [c]
  | ch_up : forall c n l, inflow c n -> chain n l -> chain c (c :: l).

  Lemma inflow_dec c : c < N ->
    exists l, nth_error nb c = Some l /\ (forall n, In n l -> n < N) /\
      match flat_map (ent c) l with
      | [] => forall n, ~ inflow c n
      | p :: q => inflow c (fst (argmax gt p q)) /\ fst (argmax gt p q) < N
      end.
  Proof.
    intros Hc. destruct (nth_error nb c) as [l|] eqn:El; [|apply nth_error_None in El; lia].
    exists l. split; auto. split; [intros n Hn; apply (NB Hc); exists l; auto|].
    destruct (flat_map (ent c) l) as [|p q] eqn:EF.
    - intros n H. eapply main_inflow_next; eauto.
    - assert (MI := @next_main c l p q El EF). split; auto.
      apply (feeds_down (proj1 (inflow_feeds MI))).
  Qed.

  Lemma chain_climb c l : chain c l -> forall n, climb c n <-> In n l.
  Proof.
    induction 1 as [c H|c n l H C IH]; intros m.
    - split; [|intros [<-|[]]; constructor]. induction 1 as [|x y C IH' HM]; [now left|].
      destruct IH' as [<-|[]]. exfalso. exact (H _ HM).
    - split.
      + intros HC. destruct (climb_first H HC) as [->|HC']; [now left|right; now apply IH].
      + intros [<-|Hi]; [constructor|]. eapply climb_up; eauto. now apply IH.
  Qed.

  Lemma walk_chain c l : chain c l -> forall fuel array, c < N -> length array = N -> length l <= fuel ->
    exists array', cp_walk minus5 isnan gt fuel nb fdir facc c array = Ok array' /\ length array' = N /\
      (forall n, In n l -> exists a, nth_error facc n = Some a /\ nth_error array' n = Some (minus5 a)) /\
      (forall n, ~ In n l -> nth_error array' n = nth_error array n).
  Proof.
    induction 1 as [c H|c n l H C IH]; intros fuel array Hc HA HF; (destruct fuel as [|fuel]; [simpl in HF; lia|]);
      cbn [cp_walk]; (destruct (nth_error facc c) as [a|] eqn:Ea; [|apply nth_error_None in Ea; lia]);
      rewrite (proj2 (get_ok _ _ _) Ea); cbn [bind]; rewrite set_lt by lia; cbn [bind];
      destruct (inflow_dec Hc) as [nl [El [HN HD]]]; rewrite (@flows_in_eq c nl El HN); cbn [bind];
      destruct (flat_map (ent c) nl) as [|p q] eqn:EF.
    - eexists. split; [reflexivity|]. rewrite upd_length. split; auto. split.
      + intros n [<-|[]]. exists a. split; auto. apply nth_error_upd_eq. lia.
      + intros n Hn. apply nth_error_upd_neq. intros ->. apply Hn. now left.
    - exfalso. destruct HD as [HD _]. exact (H _ HD).
    - exfalso. exact (HD _ H).
    - destruct HD as [HD HL]. rewrite (main_inflow_unique HD H) in *.
      destruct (IH fuel (upd array c (minus5 a))) as [array' [E [L [A B]]]]; [auto|now rewrite upd_length|simpl in HF; lia|].
      exists array'. split; auto. split; auto. split.
      + intros m [<-|Hm]; [|now apply A]. destruct (in_dec Nat.eq_dec c l) as [Hi|Hi]; [now apply A|].
        exists a. split; auto. rewrite B by auto. apply nth_error_upd_eq. lia.
      + intros m Hm. rewrite B; [|intros X; apply Hm; now right]. apply nth_error_upd_neq. intros ->. apply Hm. now left.
  Qed.

  Hypothesis NS : forall c, ~ adjacent nb c c.

  (** on a cycle-free network every climb ends, after at most N cells *)
  Lemma chain_exists : acyclic fdir -> forall c, c < N -> exists l, chain c l /\ NoDup l /\ forall x, In x l -> x < N.
  Proof.
    intros AC.
    assert (G : forall k c (below : list nat), c < N -> NoDup (c :: below) -> (forall x, In x below -> x < N) ->
      (forall x, In x below -> exists j, downs fdir (S j) c = x) -> N - length below <= k ->
      exists l, chain c l /\ NoDup l /\ forall x, In x l -> x < N).
    { induction k as [|k IH]; intros c below Hc ND HB HD HK.
      - exfalso. assert (X : length (c :: below) <= length (seq 0 N)).
        { apply NoDup_incl_length; auto. intros x [<-|Hx]; apply in_seq; [lia|]. specialize (HB x Hx). lia. }
        rewrite seq_length in X. simpl in X. lia.
      - destruct (inflow_dec Hc) as [nl [El [HN HI]]]. destruct (flat_map (ent c) nl) as [|p q].
        + exists [c]. split; [now constructor|]. split; [constructor; [easy|constructor]|intros x [<-|[]]; auto].
        + destruct HI as [HI HL]. set (n := fst (argmax gt p q)) in *.
          assert (F := inflow_feeds HI). destruct F as [F AD]. apply feeds_down in F. destruct F as [_ F].
          assert (HD' : forall x, In x (c :: below) -> exists j, downs fdir (S j) n = x).
          { intros x [<-|Hx]; [exists 0; exact F|]. destruct (HD x Hx) as [j Hj]. exists (S j).
            change (downs fdir (S j) (down fdir n) = x). rewrite F. exact Hj. }
          assert (NI : ~ In n (c :: below)).
          { intros Hi. destruct (HD' n Hi) as [j Hj]. apply (AC n HL). split.
            - rewrite F. intros E. rewrite E in AD. exact (NS AD).
            - exists (S j). split; auto. lia. }
          destruct (IH n (c :: below)) as [l [C [NDl HLl]]]; auto.
          { constructor; auto. } { intros x [<-|Hx]; auto. } { simpl. lia. }
          exists (c :: l). split; [econstructor; eauto|]. split.
          * constructor; auto. intros Hi. apply (chain_climb C) in Hi. apply climb_downs in Hi. destruct Hi as [j Hj].
            apply (AC n HL). split.
            -- rewrite F. intros E. rewrite E in AD. exact (NS AD).
            -- exists (S j). split; [lia|]. simpl. rewrite F. exact Hj.
          * intros x [<-|Hx]; auto. }
    intros c Hc. apply (G N c []); auto; try easy; [constructor; [easy|constructor]|lia].
  Qed.

  (** C56 *)
  Theorem C56_thresholds_follow_main_stem fuel cells threshold :
    acyclic fdir -> N <= fuel -> (forall c, In c cells -> c < N) ->
    exists out, control_thresholds minus5 isnan gt fuel nb fdir facc cells threshold = Ok out /\ length out = N /\
      (forall n c, In c cells -> climb c n ->
         exists a, nth_error facc n = Some a /\ nth_error out n = Some (minus5 a)) /\
      (forall n, n < N -> (forall c, In c cells -> ~ climb c n) -> nth_error out n = Some threshold).
  Proof.
    intros AC HF HC. unfold control_thresholds.
    destruct (@foldM_inv _ _ (fun array c => cp_walk minus5 isnan gt fuel nb fdir facc c array)
      (fun done array => length array = N /\
        (forall n c, In c done -> climb c n -> exists a, nth_error facc n = Some a /\ nth_error array n = Some (minus5 a)) /\
        (forall n, n < N -> (forall c, In c done -> ~ climb c n) -> nth_error array n = Some threshold)) cells)
      with (s := repeat threshold (length facc)) as [out [E [L [A B]]]].
    - intros done c todo array Hl [L [A B]].
      assert (Hc : c < N) by (apply HC; rewrite Hl; apply in_app_iff; simpl; auto).
      destruct (chain_exists AC Hc) as [l [CH [ND HL]]].
      destruct (@walk_chain c l CH fuel array Hc L) as [array' [E' [L' [A' B']]]].
      { etransitivity; [|exact HF]. rewrite <- (seq_length N 0). apply NoDup_incl_length; auto.
        intros x Hx. apply in_seq. specialize (HL x Hx). lia. }
      exists array'. split; auto. split; auto. split.
      + intros n c' Hi Hcl. destruct (in_dec Nat.eq_dec n l) as [Hn|Hn]; [now apply A'|].
        rewrite B' by auto. apply in_app_iff in Hi. destruct Hi as [Hi|[<-|[]]]; [eapply A; eauto|].
        exfalso. apply Hn. now apply (chain_climb CH).
      + intros n Hn Hno. rewrite B'.
        * apply B; auto. intros c' Hi. apply Hno, in_app_iff; auto.
        * intros Hi. apply (chain_climb CH) in Hi. apply (Hno c); auto. apply in_app_iff; simpl; auto.
    - rewrite repeat_length. split; auto. split; [easy|]. intros n Hn _. rewrite LA.
      rewrite nth_error_repeat; auto.
    - exists out. auto.
  Qed.

  (** C57 is false: a control point from which the climb never reaches a headwater (it
      runs into a flow cycle) keeps the loop going for ever. *)
  Theorem C57_climb_without_end_refuted c : c < N ->
    (forall n, climb c n -> exists m, inflow n m) ->
    forall fuel array, length array = N -> cp_walk minus5 isnan gt fuel nb fdir facc c array = Err OutOfFuel.
  Proof.
    intros Hc H fuel. revert c Hc H. induction fuel as [|fuel IH]; intros c Hc H array HA; [reflexivity|].
    cbn [cp_walk]. destruct (nth_error facc c) as [a|] eqn:Ea; [|apply nth_error_None in Ea; lia].
    rewrite (proj2 (get_ok _ _ _) Ea); cbn [bind]; rewrite set_lt by lia; cbn [bind].
    destruct (inflow_dec Hc) as [nl [El [HN HD]]]; rewrite (@flows_in_eq c nl El HN); cbn [bind].
    destruct (flat_map (ent c) nl) as [|p q].
    - destruct (H c) as [m Hm]; [constructor|]. exfalso. exact (HD _ Hm).
    - destruct HD as [HD HL]. apply IH; auto; [|now rewrite upd_length].
      intros n Hn. apply H. eapply climb_up; eauto.
  Qed.
End C.

(** Instances.  Integer accumulation, no NaN. *)
Module Ex.
  Definition nonan (_ : Z) := false.
  Definition gtz (x y : Z) := (y <? x)%Z.
  Example weak : weak_order nonan gtz.
  Proof. unfold weak_order, gtz. repeat split; intros; rewrite ?Z.ltb_lt, ?Z.ltb_ge in *; lia. Qed.
  (** 3 and 4 flow to 2, 2 to 1, 1 to 0 *)
  Definition nb := [[1]; [0; 2]; [1; 3; 4]; [2; 4]; [3; 2]].
  Definition fdir := [0; 0; 1; 2; 2]%Z.
  Definition facc := [5; 4; 3; 1; 1]%Z.
  Example run : control_thresholds (fun x => x - 5)%Z nonan gtz 5 nb fdir facc [1] 9%Z = Ok [9; -1; -2; -4; 9]%Z.
  Proof. vm_compute. reflexivity. Qed.
  Example setting : valid_fdir fdir /\ neighbours_in nb 5 /\ (forall c, ~ adjacent nb c c).
  Proof.
    split; [repeat constructor; cbv; congruence|split].
    - intros c n Hc [l [H1 H2]]. do 5 (destruct c as [|c]; [inversion H1; subst l; simpl in H2; lia|]). lia.
    - intros c [l [H1 H2]]. do 5 (destruct c as [|c]; [inversion H1; subst l; simpl in H2; lia|]). destruct c; discriminate.
  Qed.
  Example no_cycle : acyclic fdir.
  Proof.
    apply (acyclic_rank (fun n => n) (proj1 setting)).
    intros n Hn H. do 5 (destruct n as [|n]; [cbn in *; lia|]). simpl in Hn; lia.
  Qed.

  (** cells 0 and 1 flow to each other (flow_directions produces this, see C65): the walk
      from control point 0 never ends *)
  Theorem C57_two_cycle_refuted : forall fuel,
    control_thresholds (fun x => x - 5)%Z nonan gtz fuel [[1]; [0]] [1; 0]%Z [2; 2]%Z [0] 9%Z = Err OutOfFuel.
  Proof.
    intros fuel.
    assert (NI : neighbours_in [[1]; [0]] 2).
    { intros c n Hc [l [H1 H2]]. do 2 (destruct c as [|c]; [inversion H1; subst l; simpl in H2; lia|]). lia. }
    assert (UP : forall n, climbs nonan gtz [[1]; [0]] [1; 0]%Z [2; 2]%Z 0 n ->
       exists m, main_inflow nonan gtz [[1]; [0]] [1; 0]%Z [2; 2]%Z n m).
    { intros n Hn. assert (X : n = 0 \/ n = 1).
      { induction Hn as [|x y C IH H]; auto. destruct H as [l1 [l2 [a [E _]]]].
        destruct IH as [->| ->]; cbn in E; injection E as E; destruct l1 as [|z [|z' l1]]; inversion E; auto. }
      destruct X as [->| ->]; [exists 1|exists 0]; exists [], [], 2%Z; repeat split; try easy; exists 2%Z; auto. }
    unfold control_thresholds. cbn [foldM].
    assert (X := @C57_climb_without_end_refuted Z (fun x => x - 5)%Z nonan gtz weak [[1]; [0]] [1; 0]%Z [2; 2]%Z
                   eq_refl (le_n _) NI 0 ltac:(simpl; lia) UP fuel (repeat 9%Z 2) eq_refl).
    unfold bind. change (length [2; 2]%Z) with 2. rewrite X. reflexivity.
  Qed.
End Ex.
