(** C137: from elevations to cascades: the rain reaches the outlets. *)
From Coq Require Import QArith Qabs Lqa.
From Verif Require Import Py Spec MFlow MDir MStream MSobj LGraph LStream LCasc LRat LAcc2 LDir4 PropsAcc PropsStream PropsCasc PropsCasc2
  PropsWorld3 PropsDir PropsSobj LCircle PropsCircle PropsWater.
Set Implicit Arguments.
Unset Strict Implicit.
Local Open Scope nat_scope.
Local Open Scope list_scope.
Local Notation length := List.length.

(** ** Specification *)
(** the slopes and neighbours that get_cascades takes from a FlowDirections object whose
    flow_directions(burn_threshold=thr) has been run *)
Notation slope_rows := (table Qminus Qdiv q_lt 0%Q 10000000000%Q).

(** terrain (NaN cells allowed) on which every cell but the outlets [base] has a strictly lower
    neighbour, no cell has to choose between an outlet and another steepest neighbour (C63), no cell
    has more than 99 neighbours and no neighbour of cell 0 is higher than cell 0 (C71) *)
Record falling (thr : Q) (dist : nat -> nat -> Q) (dem : list (option Q)) (nb : list (list nat))
       (terminals : list Z) (base : nat -> Prop) : Prop := {
  fa_terrain : terrain_ok Qops (fun _ => True) thr dist dem nb terminals;
  fa_dist : forall c n, adjacent nb c n -> (0 < dist c n)%Q;
  fa_nodup : forall l, In l nb -> NoDup l;
  fa_width : forall l, In l nb -> length l <= 99;
  fa_base : forall c, base c <-> lowest Qops dem c \/ In (Z.of_nat c) terminals;
  fa_lower : forall c, is_valid dem c -> ~ base c ->
     exists n zc zn, adjacent nb c n /\ nth_error dem c = Some (Some zc) /\
       nth_error dem n = Some (Some zn) /\ (zn < zc)%Q;
  fa_choice : forall c x n, base c -> n <> c -> steepest Qops thr dist dem nb x c -> ~ steepest Qops thr dist dem nb x n;
  fa_zero : forall c zc z0, adjacent nb c 0 -> nth_error dem c = Some (Some zc) -> nth_error dem 0 = Some (Some z0) -> (zc <= z0)%Q }.

(** ** Lemmas *)
Lemma widest_le_all nb w : (forall l, In l nb -> length l <= w) -> widest nb <= w.
Proof. apply widest_le. Qed.

(** the table of a grid satisfies what C54 asks for *)
Lemma real_slope_table thr dist dem nb fdir : length nb = length dem -> length fdir = length dem ->
  neighbours_in nb (length dem) -> slope_table fdir (slope_rows dist nb dem thr) (table_nb nb dem).
Proof.
  intros LN LF NI. assert (LP : length (pad_neighbors (length dem) nb) = length dem) by (unfold pad_neighbors; now rewrite map_length).
  split; [|split].
  - unfold table, calculate_slopes. rewrite map_length, combine_length, seq_length. lia.
  - unfold table_nb. rewrite map_length. lia.
  - intros n row nbs k x Er En Ek Le. apply get_ok in Er. rewrite table_row in Er. apply bind_ok in Er. destruct Er as [fn [Ef Er]]. injection Er as <-.
    apply get_ok in Ef. unfold table_nb in En. rewrite nth_error_map, Ef in En. cbn [option_map] in En. injection En as <-.
    rewrite nth_error_map in Ek. destruct (nth_error fn k) as [m|] eqn:Em; [|discriminate]. cbn [option_map] in Ek. injection Ek as Ek.
    exists (Z.of_nat m). split; [rewrite nth_error_map, Em; reflexivity|].
    unfold slope in Ek. destruct (Nat.eqb_spec m (length dem)) as [|NE].
    { injection Ek as <-. exfalso. apply Le. reflexivity. }
    assert (Ln : n < length dem) by (rewrite <- LP; apply nth_error_Some; congruence).
    assert (AD : adjacent nb n m).
    { unfold pad_neighbors in Ef. rewrite nth_error_map in Ef. destruct (nth_error nb n) as [l|] eqn:El; [|discriminate].
      cbn [option_map] in Ef. injection Ef as <-. exists l. split; auto. apply nth_error_In in Em. apply in_app_iff in Em.
      destruct Em as [|Em]; auto. apply repeat_spec in Em. contradiction. }
    assert (X := NI n m Ln AD). lia.
Qed.

(** a lower neighbour is in the table, with a negative slope *)
Lemma lower_in_table thr dist dem nb n m zn zm : length nb = length dem -> neighbours_in nb (length dem) -> n < length dem ->
  adjacent nb n m -> (0 < dist n m)%Q -> nth_error dem n = Some (Some zn) -> nth_error dem m = Some (Some zm) -> (zm < zn)%Q ->
  exists row nbs k x, nth_error (slope_rows dist nb dem thr) n = Some row /\ nth_error (table_nb nb dem) n = Some nbs /\
    length row = widest nb /\ nth_error row k = Some (Some x) /\ (x < 0)%Q /\ nth_error nbs k = Some (Z.of_nat m).
Proof.
  intros LN NI Ln AD DI Zn Zm LT. set (fn := nth n (pad_neighbors (length dem) nb) []).
  assert (LP : length (pad_neighbors (length dem) nb) = length dem) by (unfold pad_neighbors; now rewrite map_length).
  assert (Ef : get (pad_neighbors (length dem) nb) n = Ok fn) by (apply get_ok, nth_error_nth'; lia).
  exists (map (slope Qminus Qdiv q_lt 0%Q 10000000000%Q (length dem) thr dist dem n) fn), (map Z.of_nat fn).
  assert (I : In m fn).
  { unfold fn. rewrite nth_pad by lia. apply in_app_iff. left. now apply adj_nth. }
  apply In_nth_error in I. destruct I as [k Hk].
  assert (NG : q_lt 0 (zm - zn) = false).
  { destruct (q_lt 0 (zm - zn)) eqn:E; auto. apply q_lt_spec in E. lra. }
  exists k, ((zm - zn) / dist n m)%Q. split; [|split; [|split; [|split; [|split]]]].
  - apply get_ok. rewrite table_row, Ef. reflexivity.
  - unfold table_nb. rewrite nth_error_map. apply get_ok in Ef. now rewrite Ef.
  - rewrite map_length. unfold fn. apply pad_width. lia.
  - rewrite nth_error_map, Hk. cbn [option_map]. f_equal. unfold slope. assert (Lm := NI n m Ln AD).
    destruct (Nat.eqb_spec m (length dem)); [lia|]. rewrite (nth_error_nth _ _ None Zm), (nth_error_nth _ _ None Zn). cbv zeta.
    rewrite NG, andb_false_r. reflexivity.
  - unfold Qdiv. assert (P := Qinv_lt_0_compat _ DI). nra.
  - rewrite nth_error_map, Hk. reflexivity.
Qed.

Lemma filter_false {A} (f : A -> bool) l : (forall x, In x l -> f x = false) -> filter f l = [].
Proof. induction l as [|a l IH]; intros H; cbn [filter]; auto. rewrite (H a (or_introl eq_refl)). apply IH. intros x I. apply H. now right. Qed.

(** the record of a stream cell *)
Lemma mapM_each {A B} (f : A -> res B) l ys x : mapM f l = Ok ys -> In x l -> exists y, f x = Ok y /\ In y ys.
Proof.
  revert ys. induction l as [|a l IH]; intros ys H I; [destruct I|]. cbn [mapM] in H.
  apply bind_ok in H. destruct H as [y [Ey H]]. apply bind_ok in H. destruct H as [ys' [E H]]. injection H as <-.
  destruct I as [->|I]; [exists y; split; [auto|now left]|]. destruct (IH _ E I) as [z [Z1 Z2]]. exists z. split; [auto|now right].
Qed.
Lemma stream_record fdir strm slopes fnb out n : valid_fdir fdir -> qmany fdir strm None slopes fnb = Ok out ->
  n < length fdir -> river strm n -> exists s, In (Z.of_nat n + 1, Z.of_nat (down fdir n) + 1, Some 1%Q, s)%Z out.
Proof.
  intros V H Hn [z [Hz Pz]]. unfold cascades_many in H. apply bind_ok in H. destruct H as [c [E H]].
  apply many_blocks in E. destruct E as [m [bs [Em [E ->]]]]. injection Em as <-.
  assert (Vn := proj1 (Forall_forall _ _) V (nth n fdir 0%Z) (nth_In fdir 0%Z Hn)). cbn beta in Vn.
  assert (I : In (n, nth n fdir 0%Z) (combine (seq 0 (length fdir)) fdir)).
  { replace (n, nth n fdir 0%Z) with (nth n (combine (seq 0 (length fdir)) fdir) (0, 0%Z)).
    - apply nth_In. rewrite combine_length, seq_length. lia.
    - rewrite combine_nth by now rewrite seq_length. now rewrite seq_nth. }
  destruct (mapM_each E I) as [b [Eb Ib]]. unfold block in Eb.
  destruct (Z.eqb_spec (nth n fdir 0%Z) (-9)) as [|_]; [lia|].
  assert (ME : memn n (where_ (fun z => 0 <? z)%Z strm) = true).
  { apply existsb_exists. exists n. split; [|apply Nat.eqb_refl]. apply in_where. exists z. split; [auto|now apply Z.ltb_lt]. }
  rewrite ME in Eb. rewrite (npget_pos fdir 0%Z Vn) in Eb. cbn [bind] in Eb. injection Eb as <-.
  assert (Vd : (0 <= nth (Z.to_nat (nth n fdir 0)) fdir 0 < Z.of_nat (length fdir))%Z).
  { apply (proj1 (Forall_forall _ _) V). apply nth_In. lia. }
  destruct (Z.eqb_spec (nth (Z.to_nat (nth n fdir 0%Z)) fdir 0%Z) (-9)) as [|_]; [lia|].
  assert (IC : In (Z.of_nat n, nth n fdir 0%Z, Some 1%Q) (concat bs)) by (apply in_concat; eexists; split; [exact Ib|now left]).
  clear - H IC Vn. unfold finish_cascades in H. destruct (mapM_each H IC) as [y [Ey Iy]].
  apply bind_ok in Ey. destruct Ey as [s [_ Ey]]. injection Ey as <-. unfold down. rewrite Z2Nat.id by lia. eauto.
Qed.

Lemma passes_intro (out : list cascade) n d f s : In (Z.of_nat n + 1, d, f, s)%Z out -> (Z.of_nat n + 1)%Z <> d -> passes_on out n = true.
Proof.
  intros I ND. unfold passes_on. apply existsb_exists. exists (Z.of_nat n + 1, d, f, s)%Z. split; [exact I|]. cbn beta iota. rewrite Z.eqb_refl. cbn [andb].
  apply negb_true_iff, Z.eqb_neq. exact ND.
Qed.

Section Rain.
  Variables (thr : Q) (dist : nat -> nat -> Q) (dem : list (option Q)) (nb : list (list nat)) (terminals : list Z) (base : nat -> Prop).
  Notation N := (length dem).
  Hypothesis FA : falling thr dist dem nb terminals base.
  Variables (fuel : nat) (fdir : list Z) (nb' : list (list nat)).
  Hypothesis FU : enough_steps nb fuel.
  Hypothesis RUN : run Qops fuel dist dem nb thr terminals = Ok (fdir, nb').

  Lemma directions : length fdir = N /\ valid_fdir fdir /\ acyclic fdir /\
    (forall c, is_valid dem c -> ~ base c -> exists zc zn, adjacent nb c (down fdir c) /\
       nth_error dem c = Some (Some zc) /\ nth_error dem (down fdir c) = Some (Some zn) /\ (zn < zc)%Q) /\
    (forall c, is_valid dem c -> base c -> down fdir c = c) /\
    (forall c, is_nan dem c -> down fdir c = c).
  Proof using FA FU RUN.
    destruct FA as [TR DI ND WI BA LO CH ZE].
    assert (LV : length fdir = N /\ forall c d, nth_error fdir c = Some d -> d = (-2)%Z \/ (0 <= d < Z.of_nat N)%Z).
    { destruct (C61_always_computed Qlaws TR FU) as [fdir' [nb2 [Hrun [LF VAL]]]]. rewrite RUN in Hrun. injection Hrun as <- <-. auto. }
    destruct LV as [LF VAL].
    assert (DR := @C64_downhill_terrain_drains thr dist dem nb terminals fuel fdir nb' TR DI ND).
    cbn zeta in DR. destruct DR as [N2 [DW [EN AC]]]; auto.
    { intros c Hc Hb. apply LO; auto. now rewrite BA. }
    { intros c x n Hb. apply CH. now apply BA. }
    split; [auto|]. split; [|split; [auto|split; [|split]]].
    - unfold valid_fdir. rewrite Forall_forall. intros d Hd. apply In_nth_error in Hd. destruct Hd as [c Hc].
      destruct (VAL c d Hc) as [->|X]; [now apply N2 in Hc|]. rewrite LF. exact X.
    - intros c Vc Nb. destruct (DW c Vc) as [n [zc [zn [E [A [Zc [Zn L]]]]]]]; [now rewrite <- BA|].
      assert (E' : down fdir c = n) by (unfold down; rewrite (nth_error_nth _ _ 0%Z E); apply Nat2Z.id). rewrite E'. exists zc, zn. auto.
    - intros c Vc Bc. assert (Lc := val_lt Vc).
      assert (E : nth_error fdir c = Some (Z.of_nat c)).
      { apply (C63_uncontested_outlet_partial Qlaws TR FU RUN ND Lc); [now apply BA|]. intros [x [n [H1 [H2 H3]]]]. now apply (CH c x n). }
      unfold down. rewrite (nth_error_nth _ _ 0%Z E). apply Nat2Z.id.
    - intros c Nc. assert (Lc : c < N) by (apply nth_error_Some; unfold is_nan in Nc; congruence).
      destruct (C59_steepest_neighbour Qlaws TR FU RUN Lc) as [[E _]|[[_ [z E]]|[n [_ S]]]].
      + unfold down. rewrite (nth_error_nth _ _ 0%Z E). apply Nat2Z.id.
      + unfold is_nan in Nc. congruence.
      + destruct (proj1 (steep_valid S)) as [z E]. unfold is_nan in Nc. congruence.
  Qed.

  (** every cell with an elevation that is no outlet passes its water on *)
  Lemma all_pass strm out c : qmany fdir strm None (slope_rows dist nb dem thr) (table_nb nb dem) = Ok out ->
    is_valid dem c -> ~ base c -> passes_on out c = true.
  Proof using FA FU RUN.
    intros H Vc Nb. destruct directions as (LF & VF & AC & DW & BS & NA). assert (Lc := val_lt Vc).
    destruct (riverb strm c) eqn:R.
    - apply riverb_spec in R. destruct (stream_record VF H (eq_ind_r (fun k => c < k) Lc LF) R) as [s I].
      apply (passes_intro I). intros E. assert (E' : down fdir c = c) by lia.
      destruct (DW c Vc Nb) as (zc & zn & _ & Z1 & Z2 & LT). rewrite E', Z1 in Z2. injection Z2 as <-. now apply Qlt_irrefl in LT.
    - assert (NR : ~ river strm c) by (rewrite <- riverb_spec; congruence).
      destruct FA as [TR DI ND WI BA LO CH ZE]. assert (LN := tr_rows TR). assert (NI : neighbours_in nb (length dem)) by exact (@tr_nb _ _ _ _ _ _ _ _ TR).
      destruct (LO c Vc Nb) as (m & zc & zm & AD & Zc & Zm & LT).
      destruct (@lower_in_table thr dist dem nb c m zc zm LN NI Lc AD (DI c m AD) Zc Zm LT) as (row & nbs & k & x & Er & En & Lr & Ek & Lx & Em).
      assert (W := @widest_le_all nb 99 WI).
      assert (Lm := NI c m Lc AD).
      assert (NE : leaving (Z.of_nat c + 1) out <> []).
      { assert (Lc' : c < length fdir) by lia.
        assert (V9 : nth c fdir 0%Z <> (-9)%Z).
        { assert (X := proj1 (Forall_forall _ _) VF (nth c fdir 0%Z) (nth_In fdir 0%Z Lc')). cbn beta in X. lia. }
        assert (Hs : forall z, nth_error strm c = Some z -> (z <= 0)%Z).
        { intros z Hz. destruct (Z.le_gt_cases z 0); auto. exfalso. apply NR. exists z. split; [auto|lia]. }
        assert (Lr' : length row <= 99) by lia.
        intros X. apply (C99_which_cells_cascade H Lc' V9 Hs Er En Lr') with (k := k) (x := x) (c := Z.of_nat m) in X; auto.
        rewrite (npget_pos fdir 0%Z) in X by lia. injection X as X. rewrite Nat2Z.id in X.
        assert (D0 : down fdir m = 0) by (unfold down; now rewrite X).
        assert (Vm : is_valid dem m) by (exists zm; auto).
        destruct (Nat.eq_dec m 0) as [->|M0].
        { assert (Y := ZE c zc zm AD Zc Zm). apply Qle_not_lt in Y. contradiction. }
        assert (NBm : ~ base m) by (intros B; apply M0; rewrite <- (BS m Vm B); exact D0).
        destruct (DW m Vm NBm) as (z1 & z0 & A0 & E1 & E0 & L0). rewrite D0 in A0, E0.
        assert (Y := ZE m z1 z0 A0 E1 E0). apply Qle_not_lt in Y. contradiction. }
      unfold leaving in NE.
      destruct (filter (fun e : Z * Z * option Q * Z => let '(u', _, _, _) := e in (u' =? Z.of_nat c + 1)%Z) out) as [|[[[u d] f] s] l] eqn:EF; [now destruct NE|].
      assert (I : In (u, d, f, s) (filter (fun e : Z * Z * option Q * Z => let '(u', _, _, _) := e in (u' =? Z.of_nat c + 1)%Z) out)) by (rewrite EF; now left).
      apply filter_In in I. destruct I as [I E]. apply Z.eqb_eq in E. subst u. apply (passes_intro I). intros E0; subst d.
      assert (LD : N = length fdir) by auto.
      assert (HN : forall c n, adjacent nb c n -> n < length fdir /\ (0 < dist c n)%Q).
      { intros c' n' X. split; [|auto]. rewrite LF. apply (NI c'); auto. rewrite <- LN. destruct X as [l' [X _]]. apply nth_error_Some. congruence. }
      destruct (@shape fdir strm None dem thr dist nb out VF LD Logic.I HN H _ I) as (n' & c' & E1 & E2 & _ & _ & _ & X).
      assert (n' = c) by lia. subst n'. apply (X NR). lia.
  Qed.

  (** nothing arrives at a NaN cell *)
  Lemma nan_dry strm out q r c : qmany fdir strm None (slope_rows dist nb dem thr) (table_nb nb dem) = Ok out ->
    is_nan dem c -> (r + arriving out q c == r)%Q.
  Proof using FA FU RUN.
    intros H Nc. destruct directions as (LF & VF & AC & DW & BS & NA).
    destruct FA as [TR DI ND WI BA LO CH ZE]. assert (LN := tr_rows TR). assert (NI : neighbours_in nb (length dem)) by exact (@tr_nb _ _ _ _ _ _ _ _ TR).
    unfold arriving. replace (filter _ out) with (@nil cascade); [cbn; ring|]. symmetry. rewrite filter_false; [reflexivity|].
    intros [[[u d] f] s] I. destruct (Z.eqb_spec d (Z.of_nat c + 1)) as [Ed|]; [|reflexivity]. cbn [andb]. apply negb_false_iff, Z.eqb_eq.
    assert (LD : N = length fdir) by auto.
    assert (HN : forall c n, adjacent nb c n -> n < length fdir).
    { intros c' n' X. rewrite LF. apply (NI c'); auto. rewrite <- LN. destruct X as [l' [X _]]. apply nth_error_Some. congruence. }
    destruct (C135_landscape_cascades_descend (basin := None) (rational_down_laws DI) VF LD Logic.I HN (fun _ _ _ => Logic.I) H I)
      as (n & m & -> & -> & Ln & Lm & _ & HR & HL).
    assert (m = c) by lia. subst m. clear Ed. destruct (riverb strm n) eqn:R.
    - apply riverb_spec in R. destruct (HR R) as [[_ ->]|[_ ->]]; [|lia]. f_equal. f_equal.
      destruct (nth_error dem n) as [[z|]|] eqn:En; [|symmetry; now apply NA|apply nth_error_None in En; lia].
      assert (Vn : is_valid dem n) by (exists z; auto).
      destruct (unpack Qlaws TR FU RUN) as [s0 [fcells [_ [P0 _]]]]. destruct (P0 n ltac:(lia)) as [[_ B]|[_ [B1 B2]]].
      + symmetry. apply BS; auto. now apply BA.
      + exfalso. assert (NB : ~ base n) by (rewrite BA; tauto). destruct (DW n Vn NB) as (zc & zn & _ & _ & E & _). unfold is_nan in Nc. congruence.
    - assert (NR : ~ river strm n) by (rewrite <- riverb_spec; congruence). destruct (HL NR) as (_ & zn & zc & _ & E & _). unfold is_nan in Nc. congruence.
  Qed.
End Rain.

(** ** C137 *)
Section Pipeline.
  Context {W : Type} (wadd : W -> W -> W) (wzero : W) (ncol : Z).

  (** FlowDirections.flow_directions, flow_accumulation(as_cells=True), then on a new PrmsStreams
      delineate_streams(t) and get_cascades(many2many=True): the calls succeed, the cascades run in no
      circle, and whatever the rain, the water that they route all ends in outlets (and in NaN cells,
      which keep their own) *)
  Theorem C137_rain_reaches_the_outlets :
    forall thr dist dem nb terminals base (area : list W) fuel lim t,
    falling thr dist dem nb terminals base -> enough_steps nb fuel ->
    length area = length dem -> S (length dem) <= fuel -> length dem + 1 <= lim ->
    exists fdir nb' facc strm out,
      run Qops fuel dist dem nb thr terminals = Ok (fdir, nb') /\
      flow_accumulation_cells wadd wzero fuel fdir area = Ok facc /\
      let prms := PropsSobj.ask Z.geb 1%Q Qabs qtotal qdiv qle0 qkeep lim fuel ncol fdir facc
                    (slope_rows dist nb dem thr) (table_nb nb dem) KPrms in
      prms [] (DelineateStreams (Scalar t) None) = Ok (AArray strm) /\
      prms [DelineateStreams (Scalar t) None] (Cascades None None true false) = Ok (ACasc out) /\
      no_circle out /\
      forall rain, exists q ends, routed out (length dem) rain q /\
        (forall q', routed out (length dem) rain q' -> forall c, c < length dem -> (q' c == q c)%Q) /\
        NoDup ends /\ (forall c, In c ends -> c < length dem /\ passes_on out c = false /\ (base c \/ is_nan dem c)) /\
        (forall c, is_nan dem c -> (q c == rain c)%Q) /\
        (total ends q == total (seq 0 (length dem)) rain)%Q.
  Proof.
    intros thr dist dem nb terminals base area fuel lim t FA FU LA HF HL.
    destruct (C61_always_computed Qlaws (fa_terrain FA) FU) as [fdir [nb' [RUN [LF _]]]].
    destruct (directions FA FU RUN) as (_ & VF & AC & DW & BS & NA).
    assert (LA' : length area = length fdir) by congruence.
    destruct (@C18_accumulation_finishes W wadd wzero fdir area VF LA') as (facc & ar & L1 & L2 & EX).
    destruct (EX fuel) as [EC _]; [lia|].
    set (strm := map (fun a => if Z.geb a t then 1%Z else 0%Z) facc).
    assert (LS : length strm = length fdir) by (unfold strm; rewrite map_length; congruence).
    destruct (@C34_connectivity_succeeds fdir strm lim VF LS) as (s2 & g & E6); [lia|].
    destruct (@C34_reaches_number_the_cells fdir strm lim s2 g VF LS E6) as (Ls2 & _ & P2 & Z2 & _).
    assert (RV : forall c, river s2 c <-> river strm c).
    { intros c. split.
      - intros [z [Hz Pz]]. assert (Lc : c < length strm) by (rewrite <- Ls2; apply nth_error_Some; congruence).
        destruct (nth_error strm c) as [v|] eqn:Ev; [|apply nth_error_None in Ev; lia]. exists v. split; [auto|].
        destruct (Z.eq_dec v 0) as [->|Nv]; [apply Z2 in Ev; congruence|].
        unfold strm in Ev. rewrite nth_error_map in Ev. destruct (nth_error facc c) as [a|]; [|discriminate]. cbn in Ev. injection Ev as <-.
        destruct (a >=? t)%Z; lia.
      - intros [z [Hz Pz]]. destruct (P2 c) as (r & Hr & Er); [apply nth_error_Some; congruence|rewrite Hz; intros X; inversion X; lia|].
        exists r. split; [auto|lia]. }
    assert (TR := fa_terrain FA). assert (LN := tr_rows TR). assert (NI : neighbours_in nb (length dem)) by exact (@tr_nb _ _ _ _ _ _ _ _ TR).
    assert (ST := @real_slope_table thr dist dem nb fdir LN LF NI).
    destruct (@C54_cascades_succeed fdir s2 None (slope_rows dist nb dem thr) (table_nb nb dem) VF (eq_trans Ls2 LS) Logic.I ST) as [out EO].
    assert (LD : length dem = length fdir) by auto.
    assert (HN : forall c n, adjacent nb c n -> n < length fdir /\ (0 < dist c n)%Q).
    { intros c' n' X. split; [|now apply (fa_dist FA)]. rewrite LF. apply (NI c'); auto. rewrite <- LN. destruct X as [l' [X _]]. apply nth_error_Some. congruence. }
    assert (RO : runs_on fdir s2 None).
    { assert (R1 := @C135_delineated_streams_run_on W wadd wzero fdir area fuel facc t None strm VF AC LA' ltac:(lia) EC eq_refl).
      intros c Hc I1 I2 R. apply RV. apply (R1 c Hc I1 I2). now apply RV. }
    exists fdir, nb', facc, strm, out. split; [auto|]. split; [auto|]. cbv zeta. split; [reflexivity|]. split; [|split].
    - unfold PropsSobj.ask, sreply, scalls. cbn [fold_left scall_step fst]. unfold do_delineate. cbn [delineate_streams above bind].
      fold strm. cbn [andthen fst snd]. unfold do_cascades, pick. cbn [so_strm so_graph]. unfold prms_connect, run6, pick. cbn [so_strm bind]. rewrite E6. cbn [bind andthen so_strm].
      rewrite EO. reflexivity.
    - apply (@C135_no_circles Q Qminus Qdiv q_lt 0%Q 10000000000%Q 1%Q Qabs qtotal qdiv qle0 qkeep dist nb (fun _ => True) fdir s2 None dem thr); auto.
      + apply rational_down_laws. intros c n X. now apply HN in X.
      + exact Logic.I.
      + intros c n X. now apply HN in X.
    - intros rain.
      destruct (@C136_routing_is_defined fdir s2 None dem thr dist nb out VF LD Logic.I HN EO AC RO rain) as [q [Rq Uq]].
      exists q, (filter (fun c => negb (passes_on out c)) (seq 0 (length fdir))).
      rewrite LD. split; [exact Rq|]. split; [exact Uq|]. split; [apply NoDup_filter, seq_NoDup|]. split; [|split].
      + intros c Hc. apply filter_In in Hc. destruct Hc as [Hc P]. apply in_seq in Hc. apply negb_true_iff in P.
        split; [lia|]. split; [auto|].
        destruct (nth_error dem c) as [[z|]|] eqn:Ez; [|right; exact Ez|apply nth_error_None in Ez; lia]. left.
        destruct (nth_error fdir c) as [d|] eqn:Ed; [|apply nth_error_None in Ed; lia].
        assert (Vc : is_valid dem c) by (exists z; auto).
        apply (fa_base FA). destruct (unpack Qlaws TR FU RUN) as [s0 [fcells [_ [P0 _]]]].
        destruct (P0 c ltac:(lia)) as [[_ B]|[_ [B1 B2]]]; [exact B|]. exfalso.
        assert (NBc : ~ base c) by (intros B; apply (fa_base FA) in B; tauto).
        rewrite (@all_pass thr dist dem nb terminals base FA fuel fdir nb' FU RUN s2 out c EO Vc NBc) in P. discriminate.
      + intros c Nc. assert (Lc : c < length fdir) by (rewrite LF; apply nth_error_Some; unfold is_nan in Nc; congruence).
        rewrite (Rq c Lc). apply (@nan_dry thr dist dem nb terminals base FA fuel fdir nb' FU RUN s2 out q (rain c) c EO Nc).
      + apply C136_water_is_conserved with (strm := s2) (basin := None) (dem := dem) (thr := thr) (dist := dist) (nb := nb); auto. exact Logic.I.
  Qed.
End Pipeline.

(** the hypotheses are met: the 3 x 3 queen grid of PropsDir, outlet 8 *)
Module Example33.
  Import PropsDir.Ex.
  Lemma falling33 : falling thr one dem33 nb33 [] (fun c => c = 8).
  Proof.
    constructor.
    - exact terrain33.
    - reflexivity.
    - exact nodup33.
    - intros l I. assert (X : forallb (fun l => length l <=? 99) nb33 = true) by (vm_compute; reflexivity).
      apply Nat.leb_le. exact (proj1 (forallb_forall _ _) X l I).
    - intros c. rewrite low33. cbn. tauto.
    - intros c V NC. assert (L := val_lt V). change (length dem33) with 9 in *.
      assert (A : forall c n, In n (nth c nb33 []) -> adjacent nb33 c n) by (intros; now apply adj_nth).
      assert (X : exists n, In n (nth c nb33 []) /\ below Qops dem33 n c = true).
      { do 8 (destruct c as [|c]; [first [exists 4; split; [vm_compute; tauto|vm_compute; reflexivity] | exists 8; split; [vm_compute; tauto|vm_compute; reflexivity]]|]). lia. }
      destruct X as [n [X1 X2]]. unfold below in X2.
      destruct (nth n dem33 None) as [zn|] eqn:En; [|discriminate]. destruct (nth c dem33 None) as [zc|] eqn:Ec; [|discriminate].
      exists n, zc, zn. split; auto. split; [now apply nth_opt|]. split; [now apply nth_opt|]. now apply q_lt_spec.
    - intros c x n -> Hne S1 S2. apply steep33 in S1, S2.
      do 9 (destruct x as [|x]; [cbn in S1, S2; intuition lia|]). rewrite nth_overflow in S1; [destruct S1|cbn; lia].
    - intros c zc z0 _ Hc H0. injection H0 as <-. unfold dem33 in Hc.
      do 9 (destruct c as [|c]; [injection Hc as <-; apply Qle_bool_iff; reflexivity|]). destruct c; discriminate Hc.
  Qed.
  Example C137_case := @C137_rain_reaches_the_outlets Z Z.add 0%Z 3%Z thr one dem33 nb33 [] (fun c => c = 8) (repeat 1%Z 9) 103 20 3%Z
    falling33 steps33 eq_refl ltac:(cbn; lia) ltac:(cbn; lia).
End Example33.
