(** C120: threshold_from_control_points as a function of its arguments: the order and the
    repetition of the control points, more control points, a lower threshold, and the
    number type of the threshold. *)
From Coq Require Import QArith Qround.
From Verif Require Import Py Spec MFlow MStream LGraph LStream PropsStream PropsCtl PropsCtl2 PropsCtl3 PropsType.
Set Implicit Arguments.
Unset Strict Implicit.
Local Open Scope nat_scope.
Local Open Scope list_scope.

Section C.
  Context {T : Type} (minus5 : T -> T) (isnan : T -> bool) (gt : T -> T -> bool).
  Hypothesis W : weak_order isnan gt.
  Variables (nb : list (list nat)) (fdir : list Z) (facc : list T).
  Notation N := (length fdir).
  Hypothesis V : valid_fdir fdir.
  Hypothesis LA : length facc = N.
  Hypothesis LB : N <= length nb.
  Hypothesis NB : neighbours_in nb N.

  Notation climb := (climbs isnan gt nb fdir facc).

  Lemma on_stem_dec_any cells n : (forall c, In c cells -> c < N) ->
    (forall c, In c cells -> ~ climbs_round isnan gt nb fdir facc c) ->
    (exists c, In c cells /\ climb c n) \/ (forall c, In c cells -> ~ climb c n).
  Proof using W LA LB NB minus5.
    induction cells as [|c cells IH]; intros HC HR; [right; easy|].
    destruct IH as [[c' [H1 H2]]|H]; [intros; apply HC; now right|intros; apply HR; now right|left; exists c'; split; auto; now right|].
    destruct (@walk_or_round T minus5 isnan gt W nb fdir facc LA LB NB c (HC c (or_introl eq_refl))) as [[l [CH _]]|[R _]];
      [|exfalso; exact (HR c (or_introl eq_refl) R)].
    destruct (in_dec Nat.eq_dec n l) as [Hi|Hi].
    - left. exists c. split; [now left|]. now apply (chain_climb CH).
    - right. intros c' [<-|Hc'] HC'; [|exact (H _ Hc' HC')]. apply Hi. now apply (chain_climb CH).
  Qed.

  (** only the set of control points matters, cycles or not: naming the same cells in another
      order or more than once gives the same array, or no result in both cases *)
  Theorem C120_order_and_repeats_do_not_matter fuel cells cells' t :
    N <= fuel -> (forall c, In c cells -> c < N) -> (forall c, In c cells <-> In c cells') ->
    control_thresholds minus5 isnan gt fuel nb fdir facc cells t =
    control_thresholds minus5 isnan gt fuel nb fdir facc cells' t.
  Proof using W LA LB NB.
    intros HF HC EQ.
    assert (HC' : forall c, In c cells' -> c < N) by (intros c Hc; apply HC; now apply EQ).
    destruct (@C57_returns_exactly T minus5 isnan gt W nb fdir facc LA LB NB cells t HC) as [[R H]|[[c [Hc R]] H]];
    destruct (@C57_returns_exactly T minus5 isnan gt W nb fdir facc LA LB NB cells' t HC') as [[R' H']|[[c' [Hc' R']] H']].
    - destruct (H fuel HF) as [o [E [L [A B]]]]. destruct (H' fuel HF) as [o' [E' [L' [A' B']]]].
      rewrite E, E'. f_equal. apply nth_error_ext. intros n.
      destruct (Nat.lt_ge_cases n N) as [Hn|Hn].
      + destruct (@on_stem_dec_any cells n HC R) as [[c [Hc Hcl]]|Hno].
        * destruct (A n c Hc Hcl) as [a [E1 E2]]. destruct (A' n c (proj1 (EQ c) Hc) Hcl) as [a' [E1' E2']].
          rewrite E2, E2'. congruence.
        * rewrite (B n Hn Hno), (B' n Hn); auto. intros c Hc. apply Hno. now apply EQ.
      + rewrite (proj2 (nth_error_None o n)), (proj2 (nth_error_None o' n)) by lia. reflexivity.
    - exfalso. exact (R c' (proj2 (EQ c') Hc') R').
    - exfalso. exact (R' c (proj1 (EQ c) Hc) R).
    - now rewrite H, H'.
  Qed.
End C.

Section M.
  Context {T : Type} (isnan : T -> bool) (gt ge : T -> T -> bool).
  Hypothesis W : weak_order isnan gt.
  Variables (nb : list (list nat)) (fdir : list Z) (facc : list T).
  Notation N := (length fdir).
  Hypothesis LA : length facc = N.
  Hypothesis LB : N <= length nb.
  Hypothesis NB : neighbours_in nb N.
  Hypothesis NS : forall c, ~ adjacent nb c c.
  Hypothesis AC : acyclic fdir.

  (** the stream cells of [control points, threshold] with the given way of storing
      "accumulation - 5" *)
  Definition streams_of (minus5 : T -> T) (fuel : nat) (cells : list nat) (t : T) (strm : list Z) : Prop :=
    exists thr, control_thresholds minus5 isnan gt fuel nb fdir facc cells t = Ok thr /\
      delineate_streams ge facc (PerCell thr) None = Ok strm.

  Lemma streams_exactly minus5 (LOW : lowered minus5 isnan ge) fuel cells t strm :
    N <= fuel -> (forall c, In c cells -> c < N) -> streams_of minus5 fuel cells t strm ->
    length strm = N /\ forall n a, nth_error facc n = Some a ->
        (nth_error strm n = Some 1%Z \/ nth_error strm n = Some 0%Z) /\
        (nth_error strm n = Some 1%Z <->
           isnan a = false /\ ((exists c, In c cells /\ climbs isnan gt nb fdir facc c n) \/ ge a t = true)).
  Proof using W LA LB NB NS AC.
    intros HF HC [thr [E1 E2]].
    destruct (@C86_stems_and_large_streams T minus5 isnan gt ge W LOW nb fdir facc LA LB NB NS AC fuel cells t HF HC)
      as [thr' [strm' [E1' [E2' H]]]].
    assert (thr' = thr) by congruence. subst thr'. assert (strm' = strm) by congruence. subst strm'. exact H.
  Qed.

  (** control points added, threshold lowered: no stream cell is lost *)
  Theorem C120_more_control_points_only_add minus5 fuel cells cells' t t' strm strm' :
    lowered minus5 isnan ge -> N <= fuel ->
    (forall c, In c cells -> In c cells') -> (forall c, In c cells' -> c < N) ->
    (forall a, ge a t = true -> ge a t' = true) ->
    streams_of minus5 fuel cells t strm -> streams_of minus5 fuel cells' t' strm' ->
    forall n, nth_error strm n = Some 1%Z -> nth_error strm' n = Some 1%Z.
  Proof using W LA LB NB NS AC.
    intros LOW HF SUB HC TT S S' n Hn.
    destruct (streams_exactly LOW HF (fun c Hc => HC c (SUB c Hc)) S) as [L H].
    destruct (streams_exactly LOW HF HC S') as [L' H'].
    destruct (nth_error facc n) as [a|] eqn:Ea.
    - destruct (H n a Ea) as [_ I]. destruct (H' n a Ea) as [_ I']. apply I'. apply I in Hn.
      destruct Hn as [Na [[c [Hc Hcl]]|G]]; split; auto. left. exists c. auto.
    - apply nth_error_None in Ea. rewrite (proj2 (nth_error_None strm n)) in Hn by lia. discriminate.
  Qed.

  (** and exactly which cells the added control points add: those on the new main stems that
      were not stream cells *)
  Theorem C120_what_a_control_point_adds minus5 fuel cells c t strm strm' :
    lowered minus5 isnan ge -> N <= fuel -> (forall x, In x (c :: cells) -> x < N) ->
    streams_of minus5 fuel cells t strm -> streams_of minus5 fuel (c :: cells) t strm' ->
    forall n a, nth_error facc n = Some a ->
      (nth_error strm' n = Some 1%Z <->
       nth_error strm n = Some 1%Z \/ (isnan a = false /\ climbs isnan gt nb fdir facc c n)).
  Proof using W LA LB NB NS AC.
    intros LOW HF HC S S' n a Ea.
    destruct (streams_exactly LOW HF (fun x Hx => HC x (or_intror Hx)) S) as [L H].
    destruct (streams_exactly LOW HF HC S') as [L' H'].
    rewrite (proj2 (H n a Ea)), (proj2 (H' n a Ea)). split.
    - intros [Na [[x [[<-|Hx] Hcl]]|G]]; [right; auto|left; split; auto; left; eauto|left; auto].
    - intros [[Na [[x [Hx Hcl]]|G]]|[Na Hcl]]; split; auto; left; [exists x|exists c]; split; simpl; auto.
  Qed.

  (** however "accumulation - 5" is stored, as long as it is not above the accumulation, the
      delineated streams are the same *)
  Theorem C120_streams_do_not_depend_on_how_thresholds_are_stored minus5 minus5' fuel cells t strm strm' :
    lowered minus5 isnan ge -> lowered minus5' isnan ge -> N <= fuel -> (forall c, In c cells -> c < N) ->
    streams_of minus5 fuel cells t strm -> streams_of minus5' fuel cells t strm' -> strm = strm'.
  Proof using W LA LB NB NS AC.
    intros L1 L2 HF HC S S'.
    destruct (streams_exactly L1 HF HC S) as [L H]. destruct (streams_exactly L2 HF HC S') as [L' H'].
    apply nth_error_ext. intros n. destruct (nth_error facc n) as [a|] eqn:Ea.
    - destruct (H n a Ea) as [[X|X] I]; destruct (H' n a Ea) as [[X'|X'] I']; try congruence.
      + apply I, I' in X. congruence.
      + apply I', I in X'. congruence.
    - apply nth_error_None in Ea. rewrite (proj2 (nth_error_None strm n)), (proj2 (nth_error_None strm' n)) by lia. reflexivity.
  Qed.
End M.

(** ** A whole-number threshold
    np.full(shape, threshold) with an integer threshold (the default is the integer 0) makes an
    integer array, so that accumulation - 5 is cut to its whole part when it is stored
    (stream_util.py 434, 440). *)
Definition q_gt (x y : Q) : bool := negb (Qle_bool x y).
Definition q_ge (x y : Q) : bool := Qle_bool y x.
Definition q_minus5 (x : Q) : Q := (x - 5)%Q.
Definition q_minus5_int (x : Q) : Q := inject_Z (trunc (x - 5)).

Lemma q_gt_lt x y : q_gt x y = true <-> (y < x)%Q.
Proof.
  unfold q_gt. rewrite negb_true_iff. split; intros H.
  - apply Qnot_le_lt. intros G. apply Qle_bool_iff in G. congruence.
  - destruct (Qle_bool x y) eqn:E; auto. apply Qle_bool_iff in E. exfalso. exact (Qlt_not_le _ _ H E).
Qed.
Lemma q_gt_false x y : q_gt x y = false <-> (x <= y)%Q.
Proof. unfold q_gt. rewrite negb_false_iff. apply Qle_bool_iff. Qed.

Lemma weak_q : weak_order nonan q_gt.
Proof.
  unfold weak_order. repeat split; intros.
  - apply q_gt_false. apply Qle_refl.
  - rewrite q_gt_lt in *. eapply Qlt_trans; eauto.
  - rewrite q_gt_false in *. eapply Qle_trans; eauto.
Qed.

Lemma lowered_q : lowered q_minus5 nonan q_ge.
Proof.
  split; [|discriminate]. intros a _. apply Qle_bool_iff. unfold q_minus5.
  rewrite <- (Qplus_0_r a) at 2. apply Qplus_le_r. discriminate.
Qed.

Lemma lowered_q_int : lowered q_minus5_int nonan q_ge.
Proof.
  split; [|discriminate]. intros a _. apply Qle_bool_iff. unfold q_minus5_int, trunc.
  assert (X : (a - 5 <= a)%Q) by (rewrite <- (Qplus_0_r a) at 2; apply Qplus_le_r; discriminate).
  destruct (Qle_bool 0 (a - 5)) eqn:E.
  - eapply Qle_trans; [apply Qfloor_le|exact X].
  - assert (H := Qceiling_lt (a - 5)). apply Qlt_le_weak.
    apply Qlt_le_trans with (a - 5 + 1)%Q.
    + rewrite <- (Qplus_0_r (inject_Z _)). setoid_replace (inject_Z (Qceiling (a - 5)) + 0)%Q with (inject_Z (Qceiling (a - 5) - 1) + 1)%Q.
      * apply Qplus_lt_l. exact H.
      * unfold Zminus. rewrite inject_Z_plus. change (inject_Z (- (1))) with (- (1))%Q. ring.
    + rewrite <- (Qplus_0_r a) at 2. setoid_replace (a - 5 + 1)%Q with (a + (- (4)))%Q by ring. apply Qplus_le_r. discriminate.
Qed.

(** 5 and 5.0 give the same streams, whatever the accumulation values are *)
Theorem C120_type_of_threshold_irrelevant :
  forall nb fdir (facc : list Q) fuel cells t strm strm',
    length facc = length fdir -> length fdir <= length nb -> neighbours_in nb (length fdir) ->
    (forall c, ~ adjacent nb c c) -> acyclic fdir -> length fdir <= fuel ->
    (forall c, In c cells -> c < length fdir) ->
    streams_of nonan q_gt q_ge nb fdir facc q_minus5 fuel cells (inject_Z t) strm ->
    streams_of nonan q_gt q_ge nb fdir facc q_minus5_int fuel cells (inject_Z t) strm' ->
    strm = strm'.
Proof.
  intros nb fdir facc fuel cells t strm strm' LA LB NB NS AC HF HC S S'.
  exact (@C120_streams_do_not_depend_on_how_thresholds_are_stored Q nonan q_gt q_ge weak_q nb fdir facc LA LB NB NS AC
    q_minus5 q_minus5_int fuel cells (inject_Z t) strm strm' lowered_q lowered_q_int HF HC S S').
Qed.

Module Ex.
  (** seven cells: 6 and 2 flow into 1, 1 into 0; 3 and 5 into 2; 4 into 3 *)
  Import PropsCtl2.Ex.
  Definition faccq : list Q := [15 # 2; 13 # 2; 9 # 2; 5 # 2; 1; 1; 1]%Q.
  Example setting : length faccq = length fdir /\ length fdir <= length nb /\
    neighbours_in nb (length fdir) /\ (forall c, ~ adjacent nb c c) /\ acyclic fdir.
  Proof.
    split; [reflexivity|split; [apply Nat.leb_le; reflexivity|]].
    split; [|split].
    - intros c n Hc [l [H1 H2]]. do 7 (destruct c as [|c]; [inversion H1; subst l; simpl in *; lia|]). simpl in Hc. lia.
    - intros c [l [H1 H2]]. do 7 (destruct c as [|c]; [inversion H1; subst l; simpl in H2; lia|]). destruct c; discriminate.
    - intros c Hc [H1 [k [Hk H]]].
      assert (D : forall j x, downs fdir j x <= x).
      { induction j as [|j IH]; intros x; [simpl; lia|]. simpl. etransitivity; [apply IH|].
        do 7 (destruct x as [|x]; [cbn; lia|]). unfold down. simpl. destruct x; simpl; lia. }
      assert (E : forall x, down fdir x <> x -> x < 7 -> down fdir x < x).
      { intros x Hx Lx. do 7 (destruct x as [|x]; [cbn in *; lia|]). lia. }
      destruct k; [lia|]. simpl in H. specialize (D k (down fdir c)). specialize (E c H1 Hc). lia.
  Qed.
  (** both thresholds are usable and the streams are equal *)
  Example both : exists strm,
    streams_of nonan q_gt q_ge nb fdir faccq q_minus5 7 [2] 100%Q strm /\
    streams_of nonan q_gt q_ge nb fdir faccq q_minus5_int 7 [2] 100%Q strm /\ strm = [0; 0; 1; 1; 1; 0; 0]%Z.
  Proof.
    exists [0; 0; 1; 1; 1; 0; 0]%Z. split; [|split; [|reflexivity]]; eexists; split; vm_compute; reflexivity.
  Qed.
  (** three control points in another order, one of them twice *)
  Example order : control_thresholds q_minus5 nonan q_gt 7 nb fdir faccq [5; 2; 5; 6] 100%Q =
                  control_thresholds q_minus5 nonan q_gt 7 nb fdir faccq [6; 2; 5] 100%Q.
  Proof. vm_compute. reflexivity. Qed.
  (** adding control point 5 adds cell 5 *)
  Example added : streams_of nonan q_gt q_ge nb fdir faccq q_minus5 7 [5; 2] 100%Q [0; 0; 1; 1; 1; 1; 0]%Z.
  Proof. eexists; split; vm_compute; reflexivity. Qed.
End Ex.

(** The array that is returned does depend on the type: with a whole-number threshold the
    stored values are not the accumulation minus 5 (C56 is about an array of the accumulation's
    own type). *)
Theorem C120_stored_thresholds_are_cut :
  exists thr thr',
    control_thresholds q_minus5 nonan q_gt 7 PropsCtl2.Ex.nb PropsCtl2.Ex.fdir Ex.faccq [2] 100%Q = Ok thr /\
    control_thresholds q_minus5_int nonan q_gt 7 PropsCtl2.Ex.nb PropsCtl2.Ex.fdir Ex.faccq [2] 100%Q = Ok thr' /\
    nth_error thr' 2 = Some 0%Q /\ exists x, nth_error thr 2 = Some x /\ (x == -1 # 2)%Q.
Proof. eexists. eexists. split; [vm_compute; reflexivity|]. split; [vm_compute; reflexivity|]. split; [reflexivity|]. eexists. split; reflexivity. Qed.
