(** C135: many-to-many cascades never run in a circle. *)
From Coq Require Import QArith Qabs Lqa Relations.Relation_Operators Relations.Operators_Properties.
From Verif Require Import Py Spec MFlow MDir MStream LGraph LStream LCasc LRat LAcc2 PropsAcc PropsStream PropsCasc PropsCasc2 PropsWorld3 LCircle.
Set Implicit Arguments.
Unset Strict Implicit.
Local Open Scope nat_scope.
Local Open Scope list_scope.
Local Notation length := List.length.

(** a cascade record leads from cell [u] to another cell [d] (records count cells from one) *)
Definition leads {F} (out : list (Z * Z * F * Z)) (u d : nat) : Prop :=
  u <> d /\ exists f s, In (Z.of_nat u + 1, Z.of_nat d + 1, f, s)%Z out.

(** following the records never returns to the start *)
Definition no_circle {F} (out : list (Z * Z * F * Z)) : Prop := forall c, ~ clos_trans nat (leads out) c c.

(** a cell that the stream array marks as a stream *)
Definition river (strm : list Z) (c : nat) : Prop := exists z, nth_error strm c = Some z /\ (0 < z)%Z.

(** streams do not stop in the landscape: the cell below a stream cell is a stream cell (or
    one of both lies outside the boundary) *)
Definition runs_on (fdir strm : list Z) (basin : option (list Z)) : Prop :=
  forall c, c < length fdir -> inside basin c -> inside basin (down fdir c) -> river strm c -> river strm (down fdir c).

Lemma height_no_circle {F} (out : list (Z * Z * F * Z)) (h : nat -> nat) :
  (forall u d, leads out u d -> h d < h u) -> no_circle out.
Proof.
  intros H. assert (G : forall u d, clos_trans nat (leads out) u d -> h d < h u).
  { induction 1; [auto|lia]. }
  intros c X. apply G in X. lia.
Qed.

Section Arithmetic.
  Context {T : Type} (tsub tdiv : T -> T -> T) (tlt : T -> T -> bool) (tzero tbig : T).
  Variables (fone : T) (fabs : T -> T) (fsum : list T -> T) (fdiv : T -> T -> option T) (fle0 fkeep : T -> bool).
  Variables (dist : nat -> nat -> T) (nb : list (list nat)) (ok : T -> Prop).

  (** what the proof needs of the arithmetic: [<] is a strict order on elevations, 1e10 is not
      negative, and a slope whose share is kept comes from a strictly lower neighbour *)
  Record down_laws : Prop := DownLaws {
    dl_irr : forall x, ok x -> tlt x x = false;
    dl_trans : forall x y z, ok x -> ok y -> ok z -> tlt x y = true -> tlt y z = true -> tlt x z = true;
    dl_big : fle0 tbig = false;
    dl_link : forall c n zn zc thr t q, adjacent nb c n -> ok zn -> ok zc ->
      let drop := if tlt (tsub zn zc) thr && tlt tzero (tsub zn zc) then tzero else tsub zn zc in
      fle0 (tdiv drop (dist c n)) = true -> fdiv (fabs (tdiv drop (dist c n))) t = Some q -> fkeep q = true ->
      tlt zn zc = true }.

  Variables (fdir strm : list Z) (basin : option (list Z)) (dem : list (option T)) (thr : T).
  Notation N := (length fdir).
  Notation cascades := (cascades_many fone fabs fsum fdiv fle0 fkeep fdir strm basin
                          (table tsub tdiv tlt tzero tbig dist nb dem thr) (table_nb nb dem)).
  Hypothesis LAWS : down_laws.
  Hypothesis V : valid_fdir fdir.
  Hypothesis LD : length dem = N.
  Hypothesis HB : basin_fits basin N.
  Hypothesis HN : forall c n, adjacent nb c n -> n < N.
  Hypothesis OK : forall c z, nth_error dem c = Some (Some z) -> ok z.

  (** every record of a landscape cell leads to a strictly lower neighbour *)
  Theorem C135_landscape_cascades_descend out : cascades = Ok out ->
    forall u d f s, In (u, d, f, s) out -> exists n c, u = (Z.of_nat n + 1)%Z /\ d = (Z.of_nat c + 1)%Z /\ n < N /\ c < N /\ inside basin n /\
      (river strm n -> (inside basin (down fdir n) /\ c = down fdir n) \/ (~ inside basin (down fdir n) /\ c = n)) /\
      (~ river strm n -> adjacent nb n c /\ exists zn zc, nth_error dem n = Some (Some zn) /\ nth_error dem c = Some (Some zc) /\ tlt zc zn = true).
  Proof using LAWS V LD HB HN OK.
    intros H u d f s I.
    destruct (@record_cases T fone fabs fsum fdiv fle0 fkeep fdir strm basin _ _ out V HB H u d f s I)
      as (n & c & -> & -> & Ln & Hin & [[R [_ D]]|[R (row & nbs & k & x & t & q & Er & En & Ek & E0 & Ec & Et & Eq)]]).
    - assert (LDn := down_lt V Ln). destruct D as [[D1 D2]|[D1 D2]]; subst c.
      + exists n, (down fdir n). do 5 (split; [auto|]). split; [auto|contradiction].
      + exists n, n. do 5 (split; [auto|]). split; [auto|contradiction].
    - apply get_ok in Er. rewrite table_row in Er. apply bind_ok in Er. destruct Er as [fn [Ef Er]]. injection Er as <-.
      apply get_ok in Ef. unfold table_nb in En. rewrite nth_error_map, Ef in En. cbn [option_map] in En. injection En as <-.
      rewrite nth_error_map in Ek, Ec. destruct (nth_error fn k) as [m|] eqn:Em; [|discriminate]. cbn [option_map] in Ek, Ec.
      injection Ec as <-. injection Ek as Ek. unfold slope in Ek. destruct (Nat.eqb_spec m (length dem)) as [|NE].
      { inversion Ek; subst x. rewrite (dl_big LAWS) in E0. discriminate. }
      destruct (nth m dem None) as [zm|] eqn:Zm; [|discriminate]. destruct (nth n dem None) as [zn|] eqn:Zn; [|discriminate].
      injection Ek as <-. 
      assert (nth_some : forall i (z : T), nth i dem None = Some z -> nth_error dem i = Some (Some z)).
      { intros i z E. destruct (nth_error dem i) as [o|] eqn:Eo; [|apply nth_error_None in Eo; rewrite nth_overflow in E by auto; discriminate].
        apply (nth_error_nth _ _ None) in Eo. congruence. }
      assert (AD : adjacent nb n m).
      { unfold pad_neighbors in Ef. rewrite nth_error_map in Ef. destruct (nth_error nb n) as [l|] eqn:El; [|discriminate].
        cbn [option_map] in Ef. injection Ef as <-. exists l. split; auto. apply nth_error_In in Em. apply in_app_iff in Em.
        destruct Em as [|Em]; auto. apply repeat_spec in Em. contradiction. }
      exists n, m. do 5 (split; [eauto|]). split; [contradiction|]. intros _. split; [exact AD|]. exists zn, zm. do 2 (split; [auto|]).
      eapply (dl_link LAWS); [exact AD| | |exact E0|exact Et|exact Eq]; eauto.
  Qed.

  Definition riverb (c : nat) : bool := match nth_error strm c with Some z => (0 <? z)%Z | None => false end.
  Lemma riverb_spec c : riverb c = true <-> river strm c.
  Proof using.
    unfold riverb, river. destruct (nth_error strm c) as [z|]; split.
    - intros H. apply Z.ltb_lt in H. eauto.
    - intros [y [H1 H2]]. inversion H1; subst. now apply Z.ltb_lt.
    - discriminate.
    - intros [y [H1 _]]. discriminate.
  Qed.
  Definition lowerb (c x : nat) : bool :=
    match nth x dem None, nth c dem None with Some a, Some b => tlt a b | _, _ => false end.
  Definition height (c : nat) : nat :=
    if riverb c then rest fdir c else N + 1 + length (filter (lowerb c) (seq 0 N)).

  Lemma filter_less {A} (p q : A -> bool) l x : (forall y, In y l -> p y = true -> q y = true) ->
    In x l -> p x = false -> q x = true -> length (filter p l) < length (filter q l).
  Proof using.
    clear. induction l as [|y l IH]; intros H I P Q; [destruct I|].
    assert (G : forall l', (forall y, In y l' -> p y = true -> q y = true) -> length (filter p l') <= length (filter q l')).
    { induction l' as [|z l' IH']; intros H'; auto. cbn [filter]. assert (Hz := H' z (or_introl eq_refl)).
      assert (X := IH' (fun y Hy => H' y (or_intror Hy))). destruct (p z); [rewrite Hz by auto; cbn; lia|destruct (q z); cbn; lia]. }
    cbn [filter]. destruct I as [->|I].
    - rewrite P, Q. cbn. apply le_n_S, G. intros; apply H; [now right|auto].
    - assert (X := IH (fun y Hy => H y (or_intror Hy)) I P Q). assert (Hy := H y (or_introl eq_refl)).
      destruct (p y); [rewrite Hy by auto; cbn; lia|destruct (q y); cbn; lia].
  Qed.

  Hypothesis A : acyclic fdir.
  Hypothesis RUN : runs_on fdir strm basin.

  Lemma height_decreases out : cascades = Ok out -> forall u d, leads out u d -> u < N /\ d < N /\ height d < height u.
  Proof using LAWS V LD HB HN OK A RUN.
    intros H u d [ND (f & s & I)].
    destruct (C135_landscape_cascades_descend H I) as (n & c & E1 & E2 & Ln & Lc & Hin & HR & HL).
    assert (n = u) by lia. assert (c = d) by lia. subst n c. split; [auto|split; [auto|]].
    unfold height. destruct (riverb u) eqn:Ru.
    - apply riverb_spec in Ru. destruct (HR Ru) as [[D1 D2]|[_ D2]]; [|congruence]. subst d.
      assert (Rd := RUN Ln Hin D1 Ru). apply riverb_spec in Rd. rewrite Rd. apply rest_down; auto.
    - assert (Nu : ~ river strm u) by (rewrite <- riverb_spec; congruence). destruct (HL Nu) as (_ & zu & zd & Zu & Zd & LT).
      assert (R0 := @rest_le fdir d). destruct (riverb d); [lia|]. apply Nat.add_lt_mono_l.
      apply filter_less with (x := d).
      + intros y Hy. unfold lowerb. rewrite (nth_error_nth _ _ None Zu), (nth_error_nth _ _ None Zd).
        destruct (nth y dem None) as [zy|] eqn:Zy; auto. intros X. eapply (dl_trans LAWS); [| | |exact X|exact LT]; eauto.
        apply in_seq in Hy. destruct (nth_error dem y) as [o|] eqn:Eo; [|apply nth_error_None in Eo; lia].
        apply (OK (c := y)). rewrite Eo. f_equal. apply (nth_error_nth _ _ None) in Eo. congruence.
      + apply in_seq. lia.
      + unfold lowerb. rewrite (nth_error_nth _ _ None Zd). apply (dl_irr LAWS). eauto.
      + unfold lowerb. now rewrite (nth_error_nth _ _ None Zu), (nth_error_nth _ _ None Zd).
  Qed.

  Theorem C135_no_circles out : cascades = Ok out -> no_circle out.
  Proof using LAWS V LD HB HN OK A RUN.
    intros H. apply (@height_no_circle _ out height). intros u d X. now apply (height_decreases H) in X.
  Qed.
End Arithmetic.

(** ** Exact arithmetic (doubles: PropsCircleF.v) *)
Theorem rational_down_laws dist nb : (forall c n, adjacent nb c n -> (0 < dist c n)%Q) ->
  down_laws Qminus Qdiv q_lt 0%Q 10000000000%Q Qabs qdiv qle0 qkeep dist nb (fun _ => True).
Proof.
  intros HD. constructor.
  - intros x _. destruct (q_lt x x) eqn:E; auto. apply q_lt_spec in E. now apply Qlt_irrefl in E.
  - intros x y z _ _ _ H1 H2. apply q_lt_spec in H1, H2. apply q_lt_spec. eapply Qlt_trans; eauto.
  - reflexivity.
  - intros c n zn zc thr t q AD _ _ drop H0 Ht Hk. assert (D := HD c n AD).
    apply q_lt_spec. unfold qle0 in H0. apply Qle_bool_iff in H0. unfold qdiv in Ht.
    destruct (Qeq_bool t 0) eqn:E0; [discriminate|]. assert (T0 : ~ (t == 0)%Q) by (intros X; apply Qeq_bool_iff in X; congruence).
    injection Ht as Ht. set (x := (drop / dist c n)%Q) in *.
    assert (NX : ~ (x == 0)%Q).
    { intros X. unfold qkeep in Hk. apply negb_true_iff in Hk. assert (Y : (q <= 1 # 100)%Q); [|apply Qle_bool_iff in Y; congruence].
      assert (Z : (Qabs x == 0)%Q) by (change 0%Q with (Qabs 0); apply Qabs_wd; exact X).
      assert (W0 : (q == Qabs x / t)%Q) by (rewrite <- Ht; reflexivity).
      assert (W : (q == 0)%Q) by (rewrite W0, Z; field; exact T0). rewrite W. discriminate. }
    assert (DX : (drop == x * dist c n)%Q) by (unfold x; field; lra).
    assert (ND : (drop < 0)%Q).
    { rewrite DX. assert (X : (x < 0)%Q) by lra. nra. }
    unfold drop in ND. destruct (q_lt (zn - zc) thr && q_lt 0 (zn - zc)); [lra|]. lra.
Qed.

(** the streams that delineate_streams returns run on, with or without the boundary *)
Theorem C135_delineated_streams_run_on (W : Type) (wadd : W -> W -> W) (wzero : W) fdir (area : list W) fuel facc t basin strm :
  valid_fdir fdir -> acyclic fdir -> length area = length fdir -> S (length fdir) <= fuel ->
  flow_accumulation_cells wadd wzero fuel fdir area = Ok facc ->
  delineate_streams Z.geb facc (Scalar t) basin = Ok strm -> runs_on fdir strm basin.
Proof.
  intros V A LA HF E D c Hc I1 I2 [z [Hz Pz]].
  assert (LF : length facc = length fdir).
  { destruct (@C18_accumulation_finishes W wadd wzero fdir area V LA) as (x & y & Lx & _ & Ex). destruct (Ex fuel HF). congruence. }
  set (s0 := map (fun a => if Z.geb a t then 1%Z else 0%Z) facc).
  assert (D0 : delineate_streams Z.geb facc (Scalar t) None = Ok s0) by reflexivity.
  assert (RO := @C30_streams_run_on_cells W wadd wzero fdir area fuel facc t s0 V A LA HF E D0 c Hc).
  assert (Hd := down_lt V Hc).
  destruct basin as [b|].
  - unfold delineate_streams in D. cbn [above bind] in D. fold s0 in D.
    destruct (Nat.eqb_spec (length b) (length s0)) as [Lb|]; cbn [negb] in D; [|discriminate]. injection D as <-.
    assert (G : forall i, i < length s0 -> nth_error (map (fun p : Z * Z => if (snd p =? 0)%Z then 0%Z else fst p) (combine s0 b)) i =
       Some (if (nth i b 0 =? 0)%Z then 0%Z else nth i s0 0%Z)).
    { intros i Hi. rewrite nth_error_map. rewrite (@nth_error_nth' _ _ i (0, 0)%Z) by (rewrite combine_length; lia).
      rewrite combine_nth by lia. reflexivity. }
    assert (Ls : length s0 = length fdir) by (unfold s0; now rewrite map_length).
    rewrite G in Hz by lia. injection Hz as Hz.
    destruct (Z.eqb_spec (nth c b 0%Z) 0) as [|]; [subst z; lia|].
    assert (V1 : nth_error s0 c = Some 1%Z).
    { rewrite (@nth_error_nth' _ s0 c 0%Z) by lia. rewrite Hz. f_equal. unfold s0 in Hz.
      destruct (nth_in_or_default c s0 0%Z) as [X|X]; [|unfold s0 in X; lia].
      unfold s0 in X at 2. apply in_map_iff in X. destruct X as [a [X _]]. fold s0 in Hz. destruct (a >=? t)%Z; lia. }
    apply RO in V1. exists 1%Z. split; [|lia]. rewrite G by lia. apply (nth_error_nth _ _ 0%Z) in V1. rewrite V1.
    destruct I2 as [v [E2 N2]]. apply (nth_error_nth _ _ 0%Z) in E2. rewrite E2. destruct (Z.eqb_spec v 0); congruence.
  - injection D as <-. assert (V1 : nth_error s0 c = Some 1%Z).
    { fold s0 in Hz. rewrite Hz. f_equal. unfold s0 in Hz. rewrite nth_error_map in Hz. destruct (nth_error facc c) as [a|]; [|discriminate].
      cbn in Hz. injection Hz as Hz. destruct (a >=? t)%Z; lia. }
    apply RO in V1. exists 1%Z. split; [exact V1|lia].
Qed.

(** ** Streams with a gap: circles.  A line of four cells; cell 1 is a pit that the burn threshold
    1/2 lets drain over cell 2 to cell 3; only cell 1 is marked as a stream.  Cell 1 sends its
    water to cell 2, and cell 2 sends a part of it back. *)
Module Gap.
  Definition dem : list (option Q) := [Some 9; Some 5; Some (53 # 10); Some 1]%Q.
  Definition nb : list (list nat) := [[1]; [0; 2]; [1; 3]; [2]].
  Definition fdir : list Z := [1; 2; 3; 3]%Z.
  Definition unit (_ _ : nat) : Q := 1%Q.
  Definition tab := table Qminus Qdiv q_lt 0%Q 10000000000%Q unit nb dem (1 # 2)%Q.
  Definition strm : list Z := [0; 1; 0; 0]%Z.
  Theorem C135_streams_with_gaps_refuted :
    flow_directions Qminus Qdiv q_lt Qeq_bool 0%Q 10000000000%Q 50 unit dem nb (1 # 2)%Q [] = Ok (fdir, pad_neighbors 4 nb) /\
    acyclic fdir /\
    exists out, qmany fdir strm None tab (table_nb nb dem) = Ok out /\ ~ no_circle out.
  Proof.
    split; [vm_compute; reflexivity|]. split.
    { assert (X : forall k, downs fdir k 3 = 3) by (induction k; auto).
      intros n Hn [D [k [Hk E]]]. destruct n as [|[|[|[|n]]]]; cbn in Hn; [| | |apply D; reflexivity|lia].
      - destruct k as [|[|[|k]]]; [lia|discriminate|discriminate|]. change (downs fdir k 3 = 0) in E. rewrite X in E. discriminate.
      - destruct k as [|[|k]]; [lia|discriminate|]. change (downs fdir k 3 = 1) in E. rewrite X in E. discriminate.
      - destruct k as [|k]; [lia|]. change (downs fdir k 3 = 2) in E. rewrite X in E. discriminate. }
    eexists. split; [vm_compute; reflexivity|]. intros NC. apply (NC 1).
    apply t_trans with 2; apply t_step; (split; [discriminate|]); do 2 eexists.
    - right. left. reflexivity.
    - right. right. left. reflexivity.
  Qed.
  (** with the stream running on to the outlet there is no circle, although cell 1 is a pit *)
  Example whole_stream : exists out, qmany fdir [0; 1; 1; 1]%Z None tab (table_nb nb dem) = Ok out /\ no_circle out /\ length out = 4.
  Proof.
    eexists. split; [vm_compute; reflexivity|]. split; [|reflexivity].
    eapply (@C135_no_circles Q Qminus Qdiv q_lt 0%Q 10000000000%Q 1%Q Qabs qtotal qdiv qle0 qkeep unit nb (fun _ => True) fdir [0; 1; 1; 1]%Z None dem (1 # 2)%Q).
    - apply rational_down_laws. reflexivity.
    - repeat constructor; cbn; lia.
    - reflexivity.
    - exact I.
    - intros c n [l [E I]]. destruct c as [|[|[|[|c]]]]; cbn in E; inversion E; subst; cbn in I; cbn; try lia. destruct c; discriminate.
    - auto.
    - apply C135_streams_with_gaps_refuted.
    - intros c Hc _ _ [z [Hz Pz]]. destruct c as [|[|[|[|c]]]]; cbn in *; inversion Hz; subst; try lia; exists 1%Z; split; (reflexivity || lia).
    - vm_compute. reflexivity.
  Qed.
End Gap.
