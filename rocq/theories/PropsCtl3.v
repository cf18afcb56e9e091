(** C57 exactly: for which control points threshold_from_control_points returns. *)
From Verif Require Import Py Spec MStream LGraph LStream PropsCtl.
Set Implicit Arguments.
Unset Strict Implicit.
Local Open Scope nat_scope.
Local Open Scope list_scope.

Section C.
  Context {T : Type} (minus5 : T -> T) (isnan : T -> bool) (gt : T -> T -> bool).
  Hypothesis W : weak_order isnan gt.
  Variables (nb : list (list nat)) (fdir : list Z) (facc : list T).
  Notation N := (length fdir).
  Hypothesis V : valid_fdir fdir.
  Hypothesis LA : length facc = N.
  Hypothesis LB : N <= length nb.
  Hypothesis NB : neighbours_in nb N.

  Notation inflow := (main_inflow isnan gt nb fdir facc).
  Notation climb := (climbs isnan gt nb fdir facc).

  (** climbing from [c] along the main inflows comes back to [c] *)
  Definition climbs_round (c : nat) : Prop := exists n, inflow c n /\ climb n c.

  (** every cell met when climbing from [c] has an inflow *)
  Definition endless (c : nat) : Prop := forall n, climb c n -> exists m, inflow n m.

  Lemma climb_trans a b c : climb a b -> climb b c -> climb a c.
  Proof. intros H. induction 1; auto. econstructor; eauto. Qed.

  Lemma climbs_first a b : climb a b -> a = b \/ exists n, inflow a n /\ climb n b.
  Proof.
    induction 1 as [|m n C IH H]; [now left|]. right. destruct IH as [->|[x [Hx Hc]]].
    - exists n. split; auto. constructor.
    - exists x. split; auto. econstructor; eauto.
  Qed.

  Lemma inflow_down c n : inflow c n -> n < N /\ down fdir n = c.
  Proof. intros H. apply (@feeds_down T isnan fdir facc c n). exact (proj1 (inflow_feeds H)). Qed.

  (** cells have at most one cell below, so a climb that runs in circles is a circle *)
  Lemma round_back s n : climb s n -> (exists c, inflow c n /\ climb n c) -> climb n s.
  Proof.
    induction 1 as [|m n C IH H]; intros [c [Hc Hn]]; [constructor|].
    assert (c = m) by (rewrite <- (proj2 (inflow_down Hc)); apply (proj2 (inflow_down H))). subst c.
    eapply climb_trans; [exact Hn|]. apply IH. inversion Hn as [Q|x y Cx Hx Q]; subst.
    - exists m. split; auto.
    - exists x. split; auto. eapply climb_trans; [|exact Cx]. econstructor; [constructor|exact H].
  Qed.

  Lemma climb_path s : s < N ->
    (exists l, chain isnan gt nb fdir facc s l /\ length l <= N) \/ (endless s /\ climbs_round s).
  Proof.
    intros Hs.
    assert (G : forall k c (below : list nat), c < N -> NoDup (c :: below) -> (forall x, In x below -> x < N) ->
      In s (c :: below) -> (forall x, In x (c :: below) -> climb x c) ->
      (forall x, In x below -> exists y, In y (c :: below) /\ inflow x y) -> N - length below <= k ->
      (exists l, chain isnan gt nb fdir facc c l /\ length l + length below <= N) \/ (endless s /\ climbs_round s)).
    { induction k as [|k IH]; intros c below Hc ND HB IS HD HI HK.
      - exfalso. assert (X : length (c :: below) <= length (seq 0 N)).
        { apply NoDup_incl_length; auto. intros x [<-|Hx]; apply in_seq; [lia|]. specialize (HB x Hx). lia. }
        rewrite seq_length in X. simpl in X. lia.
      - destruct (@inflow_dec T minus5 isnan gt W nb fdir facc LA LB NB c Hc) as [nl [El [HN HE]]].
        destruct (flat_map (ent isnan fdir facc c) nl) as [|p q].
        + left. exists [c]. split; [now constructor|].
          assert (X : length (c :: below) <= length (seq 0 N)).
          { apply NoDup_incl_length; auto. intros x [<-|Hx]; apply in_seq; [lia|]. specialize (HB x Hx). lia. }
          rewrite seq_length in X. simpl in X |- *. lia.
        + destruct HE as [HE HL]. set (n := fst (argmax gt p q)) in *. clearbody n.
          assert (HD' : forall x, In x (c :: below) -> climb x n) by (intros x Hx; econstructor; [now apply HD|exact HE]).
          destruct (in_dec Nat.eq_dec n (c :: below)) as [Hi|Hi].
          * right.
            assert (C : forall x, climb s x -> In x (c :: below)).
            { induction 1 as [|x y C IHC H]; auto.
              destruct IHC as [<-|Hx]; [now rewrite (main_inflow_unique H HE)|].
              destruct (HI x Hx) as [z [Hz HIz]]. now rewrite (main_inflow_unique H HIz). }
            assert (E : endless s).
            { intros x Hx. destruct (C x Hx) as [<-|Hb]; [eauto|]. destruct (HI x Hb) as [y [_ Hy]]. eauto. }
            split; auto. destruct (E s) as [m Hm]; [constructor|]. exists m. split; auto.
            assert (NS : climb n s) by (apply (@round_back s n); [now apply HD'|exists c; split; auto]).
            destruct (climbs_first (HD' s IS)) as [Es|[m' [Hm' Hc']]].
            -- subst n. destruct (climbs_first (HD s IS)) as [Ec|[m' [Hm' Hc']]].
               ++ subst c. rewrite (main_inflow_unique Hm HE). constructor.
               ++ rewrite (main_inflow_unique Hm Hm'). econstructor; eauto.
            -- rewrite (main_inflow_unique Hm Hm'). eapply climb_trans; eauto.
          * destruct (IH n (c :: below)) as [[l [Cl Ll]]|R]; auto.
            -- constructor; auto.
            -- intros x [<-|Hx]; auto.
            -- now right.
            -- intros x [<-|Hx]; [constructor|auto].
            -- intros x [<-|Hx]; [exists n; split; [now left|auto]|]. destruct (HI x Hx) as [y [Hy Hxy]]. exists y. split; auto. now right.
            -- simpl. lia.
            -- left. exists (c :: l). split; [econstructor; eauto|]. simpl in *. lia. }
    destruct (G N s []) as [[l [C L]]|R]; auto; try easy.
    - constructor; [easy|constructor].
    - now left.
    - intros x [<-|[]]. constructor.
    - lia.
    - left. exists l. split; auto. simpl in L. lia.
  Qed.

  Lemma chain_unique c l : chain isnan gt nb fdir facc c l -> forall l', chain isnan gt nb fdir facc c l' -> l = l'.
  Proof.
    induction 1 as [c H|c n l H C IH]; intros l' C'; inversion C' as [x Hx|x y z Hx Cy]; subst; auto.
    - now apply H in Hx.
    - now apply Hx in H.
    - f_equal. apply IH. now rewrite (main_inflow_unique H Hx).
  Qed.

  Lemma chain_tail c m : climb c m -> forall l, chain isnan gt nb fdir facc c l ->
    exists l2, chain isnan gt nb fdir facc m l2 /\ length l2 <= length l.
  Proof.
    induction 1 as [|m n C IH H]; intros l CL; [eauto|].
    destruct (IH l CL) as [l2 [C2 L2]]. inversion C2 as [x Hx|x y z Hx Cy]; subst.
    - now apply Hx in H.
    - rewrite (main_inflow_unique H Hx). exists z. split; auto. simpl in L2. lia.
  Qed.

  Lemma chain_no_round c l : chain isnan gt nb fdir facc c l -> ~ climbs_round c.
  Proof.
    intros C [n [H Hn]]. inversion C as [x Hx|x y z Hx Cy]; subst; [now apply Hx in H|].
    rewrite (main_inflow_unique H Hx) in Hn. destruct (chain_tail Hn Cy) as [l2 [C2 L2]].
    rewrite (chain_unique C2 C) in L2. simpl in L2. lia.
  Qed.

  (** too few steps for a climb *)
  Lemma walk_short c l : chain isnan gt nb fdir facc c l -> forall fuel array, c < N -> length array = N -> fuel < length l ->
    cp_walk minus5 isnan gt fuel nb fdir facc c array = Err OutOfFuel.
  Proof.
    induction 1 as [c H|c n l H C IH]; intros fuel array Hc HA HF; (destruct fuel as [|fuel]; [reflexivity|simpl in HF; try lia]).
    cbn [cp_walk]. destruct (nth_error facc c) as [a|] eqn:Ea; [|apply nth_error_None in Ea; lia].
    rewrite (proj2 (get_ok _ _ _) Ea); cbn [bind]; rewrite set_lt by lia; cbn [bind].
    destruct (@inflow_dec T minus5 isnan gt W nb fdir facc LA LB NB c Hc) as [nl [El [HN HD]]].
    rewrite (@flows_in_eq T isnan nb fdir facc LA c nl El HN); cbn [bind].
    destruct (flat_map (ent isnan fdir facc c) nl) as [|p q]; [now apply HD in H|].
    destruct HD as [HD HL]. rewrite (main_inflow_unique HD H) in *. apply IH; [auto|now rewrite upd_length|lia].
  Qed.

  Lemma walk_or_round c : c < N ->
    (exists l, chain isnan gt nb fdir facc c l /\ length l <= N /\ ~ climbs_round c) \/
    (climbs_round c /\ forall fuel array, length array = N -> cp_walk minus5 isnan gt fuel nb fdir facc c array = Err OutOfFuel).
  Proof.
    intros Hc. destruct (climb_path Hc) as [[l [C L]]|[E R]].
    - left. exists l. split; auto. split; auto. eapply chain_no_round; eauto.
    - right. split; auto. intros fuel array HA.
      exact (@C57_climb_without_end_refuted T minus5 isnan gt W nb fdir facc LA LB NB c Hc E fuel array HA).
  Qed.

  (** C57 exactly: the call returns (and then with the thresholds of C56) exactly if no
      climb from a control point comes back to that control point; if one does, no number of
      steps is enough. *)
  Theorem C57_returns_exactly cells threshold : (forall c, In c cells -> c < N) ->
    ((forall c, In c cells -> ~ climbs_round c) /\
     forall fuel, N <= fuel -> exists out, control_thresholds minus5 isnan gt fuel nb fdir facc cells threshold = Ok out /\ length out = N /\
      (forall n c, In c cells -> climb c n -> exists a, nth_error facc n = Some a /\ nth_error out n = Some (minus5 a)) /\
      (forall n, n < N -> (forall c, In c cells -> ~ climb c n) -> nth_error out n = Some threshold)) \/
    ((exists c, In c cells /\ climbs_round c) /\
     forall fuel, control_thresholds minus5 isnan gt fuel nb fdir facc cells threshold = Err OutOfFuel).
  Proof.
    intros HC.
    assert (D : (forall c, In c cells -> ~ climbs_round c) \/ exists l1 c l2, cells = l1 ++ c :: l2 /\ climbs_round c /\ forall x, In x l1 -> ~ climbs_round x).
    { clear threshold. induction cells as [|c cells IH]; [left; easy|].
      destruct (walk_or_round (HC c (or_introl eq_refl))) as [[l [_ [_ A]]]|[A _]].
      - destruct IH as [H|[l1 [x [l2 [E [R P]]]]]]; [intros; apply HC; now right| |].
        + left. intros x [<-|Hx]; auto.
        + right. exists (c :: l1), x, l2. subst cells. repeat split; auto. intros y [<-|Hy]; auto.
      - right. exists [], c, cells. repeat split; auto. }
    destruct D as [D|[l1 [c0 [l2 [E0 [R0 P0]]]]]]; [left|right].
    - split; auto. intros fuel HF. unfold control_thresholds.
      destruct (@foldM_inv _ _ (fun array c => cp_walk minus5 isnan gt fuel nb fdir facc c array)
        (fun done array => length array = N /\
          (forall n c, In c done -> climb c n -> exists a, nth_error facc n = Some a /\ nth_error array n = Some (minus5 a)) /\
          (forall n, n < N -> (forall c, In c done -> ~ climb c n) -> nth_error array n = Some threshold)) cells)
        with (s := repeat threshold (length facc)) as [out [E [L [A B]]]].
      + intros done c todo array Hl [L [A B]].
        assert (IC : In c cells) by (rewrite Hl; apply in_app_iff; simpl; auto). assert (Hc := HC c IC).
        destruct (walk_or_round Hc) as [[l [CH [HL _]]]|[R _]]; [|now apply (D c) in R].
        destruct (@walk_chain T minus5 isnan gt W nb fdir facc LA LB NB c l CH fuel array Hc L) as [array' [E' [L' [A' B']]]]; [lia|].
        exists array'. split; auto. split; auto. split.
        * intros n c' Hi Hcl. destruct (in_dec Nat.eq_dec n l) as [Hn|Hn]; [now apply A'|].
          rewrite B' by auto. apply in_app_iff in Hi. destruct Hi as [Hi|[<-|[]]]; [eapply A; eauto|].
          exfalso. apply Hn. now apply (chain_climb CH).
        * intros n Hn Hno. rewrite B'.
          -- apply B; auto. intros c' Hi. apply Hno, in_app_iff; auto.
          -- intros Hi. apply (chain_climb CH) in Hi. apply (Hno c); auto. apply in_app_iff; simpl; auto.
      + rewrite repeat_length. split; auto. split; [easy|]. intros n Hn _. rewrite LA. rewrite nth_error_repeat; auto.
      + exists out. auto.
    - split; [exists c0; split; auto; subst cells; apply in_app_iff; simpl; auto|].
      intros fuel. unfold control_thresholds. subst cells.
      assert (LR : length (repeat threshold (length facc)) = N) by now rewrite repeat_length.
      revert LR. generalize (repeat threshold (length facc)) as array.
      assert (HC1 : forall c, In c (l1 ++ [c0]) -> c < N).
      { intros c Hc. apply HC. apply in_app_iff in Hc. apply in_app_iff. simpl. destruct Hc as [?|[<-|[]]]; auto. }
      clear HC. induction l1 as [|c l1 IH]; intros array LR; cbn [app foldM].
      + destruct (walk_or_round (HC1 c0 (or_introl eq_refl))) as [[l [_ [_ A]]]|[_ A]]; [contradiction|]. now rewrite A.
      + destruct (walk_or_round (HC1 c (or_introl eq_refl))) as [[l [CH [HL _]]]|[R _]]; [|now apply (P0 c (or_introl eq_refl)) in R].
        destruct (Nat.le_gt_cases (length l) fuel) as [G|G].
        * destruct (@walk_chain T minus5 isnan gt W nb fdir facc LA LB NB c l CH fuel array (HC1 c (or_introl eq_refl)) LR G) as [array' [E' [L' _]]].
          rewrite E'. cbn [bind]. apply IH; auto; intros x Hx; [apply P0; now right|apply HC1; now right].
        * rewrite (@walk_short c l CH fuel array (HC1 c (or_introl eq_refl)) LR G). reflexivity.
  Qed.

  (** control points that are not on a flow cycle always work, whatever cycles there are
      elsewhere *)
  Theorem C57_off_cycles cells threshold fuel : (forall c, ~ adjacent nb c c) ->
    (forall c, In c cells -> c < N /\ ~ on_cycle fdir c) -> N <= fuel ->
    exists out, control_thresholds minus5 isnan gt fuel nb fdir facc cells threshold = Ok out /\ length out = N /\
      (forall n c, In c cells -> climb c n -> exists a, nth_error facc n = Some a /\ nth_error out n = Some (minus5 a)) /\
      (forall n, n < N -> (forall c, In c cells -> ~ climb c n) -> nth_error out n = Some threshold).
  Proof.
    intros NS HC HF. destruct (@C57_returns_exactly cells threshold) as [[_ H]|[[c [Hc [n [Hn Hr]]]] _]].
    - intros c Hc. now apply HC.
    - now apply H.
    - exfalso. apply (proj2 (HC c Hc)). destruct (inflow_down Hn) as [Ln Dn].
      destruct (climb_downs Hr) as [k Hk]. split.
      + intros E. assert (X : downs fdir k c = c) by (clear - E; induction k; simpl; auto; now rewrite E).
        rewrite X in Hk. subst n. apply (NS c). exact (proj2 (inflow_feeds Hn)).
      + exists (S k). split; [lia|]. rewrite downs_S, Hk. exact Dn.
  Qed.
End C.

Module Ex57.
  Import PropsCtl.Ex.
  (** cells 0 and 1 flow to each other, 3 and 4 flow into the ring through 2.  From cell 2 the
      call returns; from cell 0 it does not as long as cell 1 is its largest inflow. *)
  Definition nb7 := [[1]; [0; 2]; [1; 3; 4]; [2]; [2]].
  Definition fdir7 := [1; 0; 1; 2; 2]%Z.
  Definition facc7 := [1; 2; 3; 1; 1]%Z.
  Example setting7 : valid_fdir fdir7 /\ neighbours_in nb7 5 /\ (forall c, ~ adjacent nb7 c c) /\ ~ on_cycle fdir7 2 /\ on_cycle fdir7 0.
  Proof.
    split; [repeat constructor; cbv; congruence|split; [|split; [|split]]].
    - intros c n Hc [l [H1 H2]]. do 5 (destruct c as [|c]; [inversion H1; subst l; simpl in H2; lia|]). lia.
    - intros c [l [H1 H2]]. do 5 (destruct c as [|c]; [inversion H1; subst l; simpl in H2; lia|]). destruct c; discriminate.
    - intros [_ [k [Hk H]]].
      assert (X : forall j, downs fdir7 j 0 <> 2 /\ downs fdir7 j 1 <> 2) by (induction j as [|j [I1 I2]]; simpl; auto).
      destruct k; [lia|]. exact (proj2 (X k) H).
    - split; [discriminate|]. exists 2. split; [lia|reflexivity].
  Qed.
  Example returns : control_thresholds (fun x => x - 5)%Z nonan gtz 5 nb7 fdir7 facc7 [2] 9%Z = Ok [9; 9; -2; -4; 9]%Z.
  Proof. vm_compute. reflexivity. Qed.
  (** from cell 1 the climb leaves the ring through the larger inflow 2 and returns, too *)
  Example returns_from_ring : control_thresholds (fun x => x - 5)%Z nonan gtz 5 nb7 fdir7 facc7 [0; 1] 9%Z = Ok [-4; -3; -2; -4; 9]%Z.
  Proof. vm_compute. reflexivity. Qed.
End Ex57.
