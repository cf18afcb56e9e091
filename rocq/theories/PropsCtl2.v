(** C86, C87, C88: streams delineated with the thresholds of threshold_from_control_points. *)
From Verif Require Import Py Spec MFlow MStream LGraph LStream PropsAcc PropsStream PropsCtl.
Set Implicit Arguments.
Local Open Scope nat_scope.
Local Open Scope list_scope.

(** what the thresholds and their comparison have to satisfy: taking 5 off an accumulation
    value never raises it, and comparisons with NaN fail *)
Definition lowered {T} (minus5 : T -> T) (isnan : T -> bool) (ge : T -> T -> bool) : Prop :=
  (forall a, isnan a = false -> ge a (minus5 a) = true) /\ (forall a x, isnan a = true -> ge a x = false).

Section C.
  Context {T : Type} (minus5 : T -> T) (isnan : T -> bool) (gt ge : T -> T -> bool).
  Hypothesis W : weak_order isnan gt.
  Hypothesis LOW : lowered minus5 isnan ge.
  Variables (nb : list (list nat)) (fdir : list Z) (facc : list T).
  Notation N := (length fdir).
  Hypothesis V : valid_fdir fdir.
  Hypothesis LA : length facc = N.
  Hypothesis LB : N <= length nb.
  Hypothesis NB : neighbours_in nb N.
  Hypothesis NS : forall c, ~ adjacent nb c c.
  Hypothesis AC : acyclic fdir.

  Notation climb := (climbs isnan gt nb fdir facc).

  Lemma climb_in c n : c < N -> climb c n -> n < N.
  Proof. intros Hc H. destruct H as [|m n H HM]; auto. apply inflow_feeds in HM. destruct HM as [[HM _] _].
    apply nth_error_Some. congruence. Qed.

  (** being on one of the main stems is decidable *)
  Lemma on_stem_dec cells n : (forall c, In c cells -> c < N) ->
    (exists c, In c cells /\ climb c n) \/ (forall c, In c cells -> ~ climb c n).
  Proof.
    induction cells as [|c cells IH]; intros HC; [right; easy|].
    destruct IH as [[c' [H1 H2]]|H]; [intros; apply HC; now right|left; exists c'; split; auto; now right|].
    destruct (@chain_exists T minus5 isnan gt W nb fdir facc LA LB NB NS AC c) as [l [CH _]]; [apply HC; now left|].
    destruct (in_dec Nat.eq_dec n l) as [Hi|Hi].
    - left. exists c. split; [now left|]. now apply (chain_climb CH).
    - right. intros c' [<-|Hc'] HC'; [|exact (H _ Hc' HC')]. apply Hi. now apply (chain_climb CH).
  Qed.

  (** C86: the stream cells are the main stems above the control points and the cells whose
      accumulation reaches the threshold, no others *)
  Theorem C86_stems_and_large_streams fuel cells t :
    N <= fuel -> (forall c, In c cells -> c < N) ->
    exists thr strm,
      control_thresholds minus5 isnan gt fuel nb fdir facc cells t = Ok thr /\
      delineate_streams ge facc (PerCell thr) None = Ok strm /\ length strm = N /\
      forall n a, nth_error facc n = Some a ->
        (nth_error strm n = Some 1%Z \/ nth_error strm n = Some 0%Z) /\
        (nth_error strm n = Some 1%Z <->
           isnan a = false /\ ((exists c, In c cells /\ climb c n) \/ ge a t = true)).
  Proof.
    intros HF HC.
    destruct (@C56_thresholds_follow_main_stem T minus5 isnan gt W nb fdir facc LA LB NB NS fuel cells t AC HF HC)
      as [thr [E [L [A B]]]].
    assert (D : exists strm, delineate_streams ge facc (PerCell thr) None = Ok strm).
    { unfold delineate_streams, above. rewrite LA, L, Nat.eqb_refl. cbn. eauto. }
    destruct D as [strm D]. exists thr, strm. split; auto. split; auto.
    destruct (C29_cells _ _ _ _ D) as [LS HS]. split; [congruence|].
    intros n a Ha. assert (Hn : n < N) by (rewrite <- LA; apply nth_error_Some; congruence).
    destruct (HS n a Ha) as [x [Hx [Hi H01]]]. split; [tauto|].
    assert (NN : forall y, ge a y = true -> isnan a = false).
    { intros y Hy. destruct (isnan a) eqn:Ea; auto. rewrite (proj2 LOW a y Ea) in Hy. discriminate. }
    rewrite Hi. simpl in Hx. split.
    - intros [G _]. split; [eapply NN; eauto|]. destruct (on_stem_dec cells n HC) as [Y|Y]; auto.
      right. rewrite (B n Hn Y) in Hx. congruence.
    - intros [Na H]. split; [|intros; discriminate].
      destruct (on_stem_dec cells n HC) as [[c [Y1 Y2]]|Y].
      + destruct (A n c Y1 Y2) as [a' [Ha' Hx']]. assert (a' = a) by congruence. subst a'.
        assert (x = minus5 a) by congruence. subst x. now apply (proj1 LOW).
      + destruct H as [[c [Y1 Y2]]|H]; [exfalso; exact (Y c Y1 Y2)|]. rewrite (B n Hn Y) in Hx. congruence.
  Qed.

  (** the main stem takes the largest of all inflows, provided the neighbour table lists
      every cell that flows in *)
  Theorem C86_largest_of_all_inflows :
    (forall m, m < N -> down fdir m <> m -> adjacent nb (down fdir m) m) ->
    forall c n a m b, main_inflow isnan gt nb fdir facc c n -> nth_error facc n = Some a ->
      m < N -> m <> c -> down fdir m = c -> (0 <= nth m fdir 0)%Z -> nth_error facc m = Some b -> isnan b = false ->
      gt b a = false.
  Proof.
    intros COV c n a m b [l1 [l2 [a' [E [F [Ha' [H1 H2]]]]]]] Ha Hm Hmc Hd Hz Hb Nb.
    assert (a' = a) by congruence. subst a'. clear Ha'.
    assert (FM : feeds isnan fdir facc c m).
    { split; [|eauto]. destruct (nth_error fdir m) as [z|] eqn:Ez; [|apply nth_error_None in Ez; lia].
      rewrite (nth_error_nth _ _ 0%Z Ez) in Hz. unfold down in Hd. rewrite (nth_error_nth _ _ 0%Z Ez) in Hd. f_equal. lia. }
    destruct (COV m Hm) as [l [El Il]]; [congruence|]. rewrite Hd, E in El. inversion El; subst l.
    assert (Na : isnan a = false) by (destruct F as [_ [x [X1 X2]]]; congruence).
    destruct W as [W1 [W2 W3]].
    apply in_app_iff in Il. destruct Il as [Il|[<-|Il]].
    - assert (G := H1 m b Il FM Hb). destruct (gt b a) eqn:Gb; auto.
      assert (X := W2 b a b Nb Na Nb Gb G). rewrite (W1 b Nb) in X. discriminate.
    - assert (b = a) by congruence. subst. now apply W1.
    - now apply (H2 m b).
  Qed.

  (** C87, exactly: if accumulation grows downstream, all streams run on downstream if and
      only if the cell below each control point is a stream cell *)
  Theorem C87_run_on_exactly fuel cells t thr strm :
    N <= fuel -> (forall c, In c cells -> c < N) ->
    (forall n a b x, nth_error facc n = Some a -> nth_error facc (down fdir n) = Some b -> isnan a = false ->
       isnan b = false /\ (ge a x = true -> ge b x = true)) ->
    control_thresholds minus5 isnan gt fuel nb fdir facc cells t = Ok thr ->
    delineate_streams ge facc (PerCell thr) None = Ok strm ->
    ((forall n, n < N -> nth_error strm n = Some 1%Z -> nth_error strm (down fdir n) = Some 1%Z) <->
     (forall c, In c cells -> nth_error strm c = Some 1%Z -> nth_error strm (down fdir c) = Some 1%Z)).
  Proof.
    intros HF HC MONO Et Es. split; [intros H c Hc; apply H; auto|]. intros H n Hn Ho.
    destruct (@C86_stems_and_large_streams fuel cells t HF HC) as [thr' [strm' [Et' [Es' [LS HS]]]]].
    assert (thr' = thr) by congruence. subst thr'. assert (strm' = strm) by congruence. subst strm'.
    destruct (nth_error facc n) as [a|] eqn:Ha; [|apply nth_error_None in Ha; lia].
    assert (Hd : down fdir n < N) by (now apply down_lt).
    destruct (nth_error facc (down fdir n)) as [b|] eqn:Hb; [|apply nth_error_None in Hb; lia].
    destruct (HS n a Ha) as [_ [I1 _]]. destruct (I1 Ho) as [Na [[c [Hc Hcl]]|G]].
    - destruct Hcl as [|m n Hcl HM]; [now apply H|].
      destruct (inflow_feeds HM) as [HFE _]. destruct (feeds_down HFE) as [_ HD]. rewrite HD in *.
      destruct (HS m b Hb) as [_ [_ I2]]. apply I2. split; [|left; eauto].
      destruct (MONO n a b a Ha) as [X _]; auto. now rewrite HD.
    - destruct (HS _ b Hb) as [_ [_ I2]]. apply I2. destruct (MONO n a b t Ha Hb Na) as [X Y]. split; auto.
  Qed.

  (** C88 is false in general: with a threshold no accumulation value is below (the default
      threshold 0), every cell with an accumulation value becomes a stream cell *)
  Theorem C88_everything_is_a_stream_refuted fuel cells t :
    N <= fuel -> (forall c, In c cells -> c < N) ->
    (forall n a, nth_error facc n = Some a -> isnan a = false -> ge a t = true) ->
    exists thr strm,
      control_thresholds minus5 isnan gt fuel nb fdir facc cells t = Ok thr /\
      delineate_streams ge facc (PerCell thr) None = Ok strm /\
      forall n a, nth_error facc n = Some a -> isnan a = false -> nth_error strm n = Some 1%Z.
  Proof.
    intros HF HC H0. destruct (@C86_stems_and_large_streams fuel cells t HF HC) as [thr [strm [Et [Es [LS HS]]]]].
    exists thr, strm. split; auto. split; auto. intros n a Ha Na. destruct (HS n a Ha) as [_ [_ I]]. apply I. split; eauto.
  Qed.

  (** what C88 asks for holds if the threshold is above every accumulation value *)
  Theorem C88_only_the_stems_partial fuel cells t thr strm :
    N <= fuel -> (forall c, In c cells -> c < N) ->
    (forall n a, nth_error facc n = Some a -> ge a t = false) ->
    control_thresholds minus5 isnan gt fuel nb fdir facc cells t = Ok thr ->
    delineate_streams ge facc (PerCell thr) None = Ok strm ->
    forall n a, nth_error facc n = Some a ->
      (nth_error strm n = Some 1%Z <-> isnan a = false /\ exists c, In c cells /\ climb c n).
  Proof.
    intros HF HC H0 Et Es n a Ha.
    destruct (@C86_stems_and_large_streams fuel cells t HF HC) as [thr' [strm' [Et' [Es' [LS HS]]]]].
    assert (thr' = thr) by congruence. subst thr'. assert (strm' = strm) by congruence. subst strm'.
    destruct (HS n a Ha) as [_ I]. rewrite I. rewrite (H0 n a Ha). split; [intros [? [?|?]]; [auto|discriminate]|tauto].
  Qed.
End C.

(** The two kinds of accumulation the code computes: cell counts and exact areas. *)
Definition nonan {T} (_ : T) := false.
Definition trunc5 (x : Z) := (x - 5)%Z.

Lemma lowered_cells : lowered trunc5 nonan Z.geb.
Proof. split; [|discriminate]. intros a _. unfold trunc5. rewrite Z.geb_leb, Z.leb_le. lia. Qed.
Lemma weak_cells : weak_order nonan Z.gtb.
Proof. unfold weak_order. repeat split; intros; rewrite ?Z.gtb_ltb, ?Z.ltb_lt, ?Z.ltb_ge in *; lia. Qed.

(** C87 for the accumulation in cells that the code computes *)
Theorem C87_run_on_cells :
  forall (A : Type) (wadd : A -> A -> A) (wzero : A) nb fdir (area : list A) fuel facc cells t thr strm,
    valid_fdir fdir -> acyclic fdir -> length area = length fdir -> length fdir <= length nb ->
    neighbours_in nb (length fdir) -> (forall c, ~ adjacent nb c c) -> (forall c, In c cells -> c < length fdir) ->
    S (length fdir) <= fuel ->
    flow_accumulation_cells wadd wzero fuel fdir area = Ok facc ->
    control_thresholds trunc5 nonan Z.gtb fuel nb fdir facc cells t = Ok thr ->
    delineate_streams Z.geb facc (PerCell thr) None = Ok strm ->
    ((forall n, n < length fdir -> nth_error strm n = Some 1%Z -> nth_error strm (down fdir n) = Some 1%Z) <->
     (forall c, In c cells -> nth_error strm (down fdir c) = Some 1%Z)).
Proof.
  intros A wadd wzero nb fdir area fuel facc cells t thr strm V AC La Lb NB NS HC HF Ef Et Es.
  assert (CNT : forall c, c < length fdir -> exists l, upstream_cells fdir c l /\
     nth_error facc c = Some (Z.of_nat (length l))).
  { intros c Hc. exact (@C19_accumulated_cells A wadd wzero fdir area fuel facc V La HF Ef c Hc (AC c Hc)). }
  assert (LF : length facc = length fdir).
  { destruct (@C18_accumulation_finishes A wadd wzero fdir area V La) as [cells' [areas' [L1 [L2 E1]]]].
    destruct (E1 fuel HF) as [E2 _]. clear E1. rename E2 into E1. rewrite Ef in E1. inversion E1; subst. lia. }
  assert (HF' : length fdir <= fuel) by lia.
  destruct (@C86_stems_and_large_streams Z trunc5 nonan Z.gtb Z.geb weak_cells lowered_cells nb fdir facc LF Lb NB NS AC
              fuel cells t HF' HC) as [thr' [strm' [Et' [Es' [LS HS]]]]].
  assert (thr' = thr) by congruence. subst thr'. assert (strm' = strm) by congruence. subst strm'.
  rewrite (@C87_run_on_exactly Z trunc5 nonan Z.gtb Z.geb weak_cells lowered_cells nb fdir facc V LF Lb NB NS AC
              fuel cells t thr strm HF' HC); auto.
  - assert (ON : forall c, In c cells -> nth_error strm c = Some 1%Z).
    { intros c Hc. destruct (CNT c (HC c Hc)) as [l [_ Hl]]. apply (proj2 (HS c _ Hl)). split; auto.
      left. exists c. split; auto. constructor. }
    split; intros H c Hc; auto.
  - intros n a b x Ha Hb _. split; [reflexivity|].
    assert (Hn : n < length fdir) by (rewrite <- LF; apply nth_error_Some; congruence).
    destruct (CNT n Hn) as [l [[ND Hl] E1]]. destruct (CNT (down fdir n) (down_lt V Hn)) as [l' [[ND' Hl'] E2]].
    rewrite E1 in Ha. rewrite E2 in Hb. inversion Ha; inversion Hb; subst.
    assert (G : length l <= length l').
    { apply NoDup_incl_length; auto. intros i Hi. apply Hl in Hi. destruct Hi as [Hi [k Hk]]. apply Hl'. split; auto.
      exists (S k). rewrite downs_S. now rewrite Hk. }
    rewrite !Z.geb_leb, !Z.leb_le. lia.
Qed.

(** Instances. *)
Module Ex.
  (** 4 flows to 3, 3 and 5 to 2, 2 to 1, 1 to 0, the outlet; 6 flows to 1 *)
  Definition nb := [[1]; [0; 2; 6]; [1; 3; 5]; [2; 4]; [3]; [2]; [1]].
  Definition fdir := [0; 0; 1; 2; 3; 2; 1]%Z.
  Definition facc := [7; 6; 4; 2; 1; 1; 1]%Z.
  Example acc : flow_accumulation_cells Z.add 0%Z 8 fdir (repeat 1%Z 7) = Ok facc.
  Proof. vm_compute. reflexivity. Qed.
  Example setting : valid_fdir fdir /\ neighbours_in nb 7 /\ (forall c, ~ adjacent nb c c).
  Proof.
    split; [repeat constructor; cbv; congruence|split].
    - intros c n Hc [l [H1 H2]]. do 7 (destruct c as [|c]; [inversion H1; subst l; simpl in H2; lia|]). lia.
    - intros c [l [H1 H2]]. do 7 (destruct c as [|c]; [inversion H1; subst l; simpl in H2; lia|]). destruct c; discriminate.
  Qed.
  Example no_cycle : acyclic fdir.
  Proof.
    apply (acyclic_rank (fun n => n) (proj1 setting)).
    intros n Hn H. do 7 (destruct n as [|n]; [cbn in *; lia|]). simpl in Hn; lia.
  Qed.
  (** a tributary traced from cell 3; the large streams are those with 6 cells and more *)
  Example run : exists thr, control_thresholds trunc5 nonan Z.gtb 7 nb fdir facc [3] 6%Z = Ok thr /\
    delineate_streams Z.geb facc (PerCell thr) None = Ok [1; 1; 0; 1; 1; 0; 0]%Z.
  Proof. eexists. split; vm_compute; reflexivity. Qed.
  (** C87 is false: the tributary ends at the control point, cell 2 below it is no stream cell *)
  Theorem C87_streams_end_in_the_landscape_refuted :
    exists thr strm, control_thresholds trunc5 nonan Z.gtb 7 nb fdir facc [3] 6%Z = Ok thr /\
      delineate_streams Z.geb facc (PerCell thr) None = Ok strm /\
      nth_error strm 3 = Some 1%Z /\ down fdir 3 = 2 /\ nth_error strm 2 = Some 0%Z.
  Proof. eexists. eexists. split; [|split; [|split; [|split]]]; vm_compute; reflexivity. Qed.
  (** with a control point next to the main stream they run on *)
  Example run2 : exists thr, control_thresholds trunc5 nonan Z.gtb 7 nb fdir facc [2] 6%Z = Ok thr /\
    delineate_streams Z.geb facc (PerCell thr) None = Ok [1; 1; 1; 1; 1; 0; 0]%Z.
  Proof. eexists. split; vm_compute; reflexivity. Qed.
  (** C88: the default threshold *)
  Theorem C88_default_threshold_refuted :
    exists thr, control_thresholds trunc5 nonan Z.gtb 7 nb fdir facc [3] 0%Z = Ok thr /\
      delineate_streams Z.geb facc (PerCell thr) None = Ok [1; 1; 1; 1; 1; 1; 1]%Z.
  Proof. eexists. split; vm_compute; reflexivity. Qed.
  (** with the table of cells sharing a side the trace misses an inflow across a corner: on a
      2 x 2 grid cell 3 flows to cell 0 and cell 1 flows to cell 0; the trace from 0 takes 1
      although 3 (which 2 flows to) carries more.  (Which table modelgrid.neighbors gives is
      flopy's business: DESIGN, not modelled.) *)
  Theorem C86_rook_table_misses_corner_inflow :
    exists thr, control_thresholds trunc5 nonan Z.gtb 4 [[1; 2]; [0; 3]; [0; 3]; [1; 2]] [0; 0; 3; 0]%Z [4; 1; 1; 2]%Z [0] 4%Z = Ok thr /\
      delineate_streams Z.geb [4; 1; 1; 2]%Z (PerCell thr) None = Ok [1; 1; 0; 0]%Z /\
      exists thr', control_thresholds trunc5 nonan Z.gtb 4 [[1; 2; 3]; [0; 2; 3]; [0; 1; 3]; [0; 1; 2]] [0; 0; 3; 0]%Z [4; 1; 1; 2]%Z [0] 4%Z = Ok thr' /\
      delineate_streams Z.geb [4; 1; 1; 2]%Z (PerCell thr') None = Ok [1; 0; 1; 1]%Z.
  Proof. eexists. split; [vm_compute; reflexivity|]. split; [vm_compute; reflexivity|]. eexists. split; vm_compute; reflexivity. Qed.
End Ex.
