(** C92: the calls chained the way a user chains them - flow directions, accumulation,
    streams, connectivity, package data - from the elevations to the MODFLOW 6 tables. *)
From Coq Require Import String Sorting.Sorted Permutation QArith Reals Lra.
From Flocq Require Import Core.Core IEEE754.BinarySingleNaN.
From Verif Require Import Py Spec MFlow MStream MDir MFill MObj MSobj Grids LGraph LStream LSeg4 LRat LFloat LDir LDir2 LDir3 LDir4 PropsFill PropsAcc PropsBasin PropsDir PropsFloat
  PropsObj PropsStream PropsSeg PropsReach PropsSobj PropsApi.
Set Implicit Arguments.
Unset Strict Implicit.
Local Notation length := List.length.
Local Open Scope nat_scope.
Local Open Scope list_scope.

(** the tables of a MODFLOW 6 network on [size] cells with flow directions [fdir]: reach
    graph [g], reach numbers [s2] (0: no reach), connection data, package data *)
Record mf6_tables (size : nat) (fdir : list Z) (t : Z) (g : topology) (s2 : list Z)
       (conn : list (list Z)) (pk : list pkg) : Prop := {
  mt_size : length s2 = size /\ length pk = length g /\ length conn = length g;
  (** the reaches are the cells that at least [t] cells drain through ... *)
  mt_cells : forall c, c < size -> exists l, upstream_cells fdir c l /\
    (stream_cell s2 c <-> (t <= Z.of_nat (length l))%Z);
  (** ... each with its own number 1..n *)
  mt_numbers : forall r, (1 <= r <= Z.of_nat (length g))%Z <-> exists c, nth_error s2 c = Some r /\ r <> 0%Z;
  mt_one : forall c c' r, nth_error s2 c = Some r -> nth_error s2 c' = Some r -> r <> 0%Z -> c = c';
  (** the graph leads to the reach of the cell below, which has a larger number *)
  mt_below : forall c r, nth_error s2 c = Some r -> r <> 0%Z -> exists r',
    nth_error s2 (down fdir c) = Some r' /\ r' <> 0%Z /\ In (r, r') g /\ (down fdir c <> c -> (r < r')%Z);
  (** record i of both tables belongs to the cell of reach i + 1 *)
  mt_records : forall i p, nth_error pk i = Some p ->
    p_ifno p = Z.of_nat i /\ nth_error s2 (p_node p) = Some (Z.of_nat (i + 1)) /\ p_node_dn p = down fdir (p_node p) /\
    exists rec, nth_error conn i = Some rec /\ hd (-1)%Z rec = Z.of_nat i /\ p_ncon p = Z.of_nat (length (tl rec)) }.

(** the tables of a MODFLOW-2005 network made with group_segments=False: every stream cell is
    a segment of one reach; segment graph [g], segment numbers [s2], segment and reach data *)
Record mf2005_tables (size : nat) (fdir : list Z) (t : Z) (g : topology) (s2 : list Z)
       (segs : list (Z * Z)) (recs : list rch) : Prop := {
  ft_size : length s2 = size;
  (** the segments are the cells that at least [t] cells drain through ... *)
  ft_cells : forall c, c < size -> exists l, upstream_cells fdir c l /\
    (stream_cell s2 c <-> (t <= Z.of_nat (length l))%Z);
  (** ... each with its own number 1..n *)
  ft_numbers : forall s, (1 <= s <= Z.of_nat (length g))%Z <-> exists c, nth_error s2 c = Some s /\ s <> 0%Z;
  ft_one : forall c c' s, nth_error s2 c = Some s -> nth_error s2 c' = Some s -> s <> 0%Z -> c = c';
  (** the segment table: segments 1..n with the larger number of the segment below, and 0 at
      outlets, cells that flow to themselves, only *)
  ft_segments : map fst segs = map Z.of_nat (seq 1 (length g));
  ft_below : forall c s o, nth_error s2 c = Some s -> s <> 0%Z -> In (s, o) segs ->
    (down fdir c = c -> o = 0%Z) /\ (down fdir c <> c -> nth_error s2 (down fdir c) = Some o /\ (s < o)%Z);
  (** the reach table: one record for every segment, in order, with its cell *)
  ft_reaches : StronglySorted Z.lt (map r_iseg recs) /\
    (forall s, In s (map r_iseg recs) <-> (1 <= s <= Z.of_nat (length g))%Z) /\
    (forall x, In x recs -> r_ireach x = 1%Z /\ exists c, r_node x = Z.of_nat c /\ nth_error s2 c = Some (r_iseg x)) }.

Section Chain.
  Context {T W F : Type} (O : slope_ops T) (wadd : W -> W -> W) (wzero : W).
  Variables (fone : F) (fabs : F -> F) (fsum : list F -> F) (fdiv : F -> F -> option F)
            (fle0 fkeep : F -> bool).
  Variables (fuel lim : nat) (dist : nat -> nat -> T) (dem : list (option T)) (area : list W).
  Variables (nb : list (list nat)) (ncol : Z) (slopes : list (list (option F))) (fnb : list (list Z)).
  Notation N := (length dem).

  (** calls on a FlowDirections object for this DEM *)
  Notation fd := (@reply T W O wadd wzero fuel lim dist dem area nb).
  (** calls on a Sfr6 or Sfr2005 object made from the arrays [fdir] and [facc] *)
  Notation sfr k fdir facc := (@ask Z F Z.geb fone fabs fsum fdiv fle0 fkeep lim fuel ncol fdir facc slopes fnb k).

  (** the chain on any flow directions without cycles: all calls succeed; the reaches are the
      cells through which at least [t] cells drain, the streams never end in the landscape,
      and the number of the reach below is larger.  [h], [hs]: any earlier calls on the objects *)
  Lemma chain_sfr6 h hs thr terminals fdir nb' t grp :
    run O fuel dist dem nb thr terminals = Ok (fdir, nb') -> length fdir = N ->
    valid_fdir fdir -> acyclic fdir -> length area = N -> S N <= fuel -> N + 1 <= lim ->
    fd h (FlowDirections thr terminals) = Ok (Ints fdir) /\
    exists facc, fd (h ++ [FlowDirections thr terminals]) (FlowAccumulation true) = Ok (Ints facc) /\
    let run1 := hs ++ [DelineateStreams (Scalar t) None] in
    let run2 := run1 ++ [StreamConnectivity None grp] in
    exists strm g s2 conn pk,
      sfr KSfr6 fdir facc hs (DelineateStreams (Scalar t) None) = Ok (AArray strm) /\
      sfr KSfr6 fdir facc run1 (StreamConnectivity None grp) = Ok (AGraph g) /\
      sfr KSfr6 fdir facc run2 StreamArray = Ok (AArray s2) /\
      sfr KSfr6 fdir facc run2 (ConnectionData None) = Ok (AConn conn) /\
      sfr KSfr6 fdir facc run2 (PackageData None) = Ok (APkg pk) /\
      mf6_tables N fdir t g s2 conn pk.
  Proof.
    intros Hrun LF V A LA HFu HL.
    assert (R0 : fd [] (FlowDirections thr terminals) = Ok (Ints fdir)).
    { unfold PropsObj.reply, PropsObj.step. cbn [call]. unfold do_flow_directions. unfold run in Hrun.
      cbn [PropsObj.after calls fold_left new_object fo_nb]. rewrite Hrun. reflexivity. }
    split; [rewrite C66_any_history; exact R0|].
    assert (R1 : fd (h ++ [FlowDirections thr terminals]) FlowDirectionArray = Ok (Ints fdir)).
    { apply array_state. exact (@fdir_after T W O wadd wzero fuel lim dist dem area nb h thr terminals [] fdir R0 (fun c X => match X with end)). }
    destruct (@C19_object_cells T W O wadd wzero fuel lim dist dem area nb _ fdir R1 V ltac:(congruence) ltac:(lia)) as [facc [E1 [_ [L1 H1]]]].
    exists facc. split; [exact E1|]. cbn zeta.
    assert (EC : flow_accumulation_cells wadd wzero fuel fdir area = Ok facc).
    { unfold PropsObj.reply, PropsObj.step in E1. cbn [call] in E1. unfold do_accumulation in E1. apply array_state in R1.
      unfold fdir_of in E1. rewrite R1 in E1. cbn [bind] in E1. unfold flow_accumulation_cells.
      destruct (acc_run wadd wzero fuel fdir area) as [s|]; cbn in E1; [|discriminate]. cbn [bind]. now inversion E1. }
    set (strm := map (fun a => if Z.geb a t then 1%Z else 0%Z) facc).
    assert (D : sfr KSfr6 fdir facc hs (DelineateStreams (Scalar t) None) = Ok (AArray strm)) by reflexivity.
    assert (D' : delineate_streams Z.geb facc (Scalar t) None = Ok strm) by reflexivity.
    destruct (@C29_object Z F Z.geb fone fabs fsum fdiv fle0 fkeep lim fuel ncol fdir facc slopes fnb KSfr6 hs _ _ _ D) as [SA [LS _]].
    assert (LS' : length strm = length fdir) by congruence.
    destruct (@C34_object_succeeds Z F Z.geb fone fabs fsum fdiv fle0 fkeep lim fuel ncol fdir facc slopes fnb V (hs ++ [DelineateStreams (Scalar t) None]) None grp strm SA LS' ltac:(lia)) as [g G].
    destruct (@C35_object Z F Z.geb fone fabs fsum fdiv fle0 fkeep lim fuel ncol fdir facc slopes fnb V _ _ _ _ strm G SA LS') as [s2 [S2 [L2 [B1 [B2 [B3 [B4 B5]]]]]]].
    destruct (@C40_object Z F Z.geb fone fabs fsum fdiv fle0 fkeep lim fuel ncol fdir facc slopes fnb V _ _ _ _ strm s2 G SA LS' S2) as [conn [pk [K1 [K2 [K3 [K4 K5]]]]]].
    exists strm, g, s2, conn, pk.
    assert (SC : forall c, c < N -> stream_cell s2 c <-> nth_error strm c = Some 1%Z).
    { intros c Hc. assert (Hs : c < length strm) by lia.
      destruct (nth_error strm c) as [z|] eqn:Ez; [|apply nth_error_None in Ez; lia].
      assert (Z01 : z = 0%Z \/ z = 1%Z).
      { unfold strm in Ez. rewrite nth_error_map in Ez. destruct (nth_error facc c) as [a|]; [|discriminate]. cbn in Ez. inversion Ez.
        destruct (a >=? t)%Z; auto. }
      split.
      - intros [v [Hv Nv]]. destruct Z01 as [->| ->]; auto. apply B3 in Ez. congruence.
      - intros X. destruct (B2 c Hs) as [r [Hr Er]]; [rewrite Ez, X; discriminate|]. exists r. split; auto. lia. }
    split; [exact D|]. split; [exact G|]. split; [exact S2|]. split; [exact K1|]. split; [exact K2|].
    assert (M1 : forall c, c < N -> exists l, upstream_cells fdir c l /\ (stream_cell s2 c <-> (t <= Z.of_nat (length l))%Z)).
    { intros c Hc. destruct (H1 c ltac:(lia) (A c ltac:(lia))) as [l [Hl El]]. exists l. split; auto.
      rewrite SC by auto. unfold strm. rewrite nth_error_map, El. cbn [option_map].
      rewrite Z.geb_leb. destruct (Z.leb_spec t (Z.of_nat (length l))) as [X|X]; split; intro Y; auto; try discriminate; lia. }
    assert (INJ : forall c r, nth_error s2 c = Some r -> r <> 0%Z -> (1 <= r <= Z.of_nat (length g))%Z).
    { intros c r Hr Nr. assert (Hc : c < N) by (rewrite <- LF, <- L2; apply nth_error_Some; congruence).
      assert (X := proj1 (SC c Hc) (ex_intro _ r (conj Hr Nr))). destruct (B2 c ltac:(lia)) as [r' [Hr' Er']]; [rewrite X; discriminate|].
      assert (r' = r) by congruence. now subst. }
    assert (NX : forall c r, nth_error s2 c = Some r -> r <> 0%Z -> exists r',
      nth_error s2 (down fdir c) = Some r' /\ In (r, r') g /\ (down fdir c <> c -> (r < r')%Z) /\ r' <> 0%Z).
    { intros c r Hr Nr. assert (Hc : c < N) by (rewrite <- LF, <- L2; apply nth_error_Some; congruence).
      assert (X := proj1 (SC c Hc) (ex_intro _ r (conj Hr Nr))).
      assert (Y := @C30_streams_run_on_cells W wadd wzero fdir area fuel facc t strm V A ltac:(congruence) ltac:(lia) EC D' c ltac:(lia) X).
      assert (Hd : down fdir c < N) by (rewrite <- LF; apply down_lt; auto; lia).
      destruct (proj2 (SC _ Hd) Y) as [r' [Hr' Nr']]. exists r'. split; auto.
      assert (G1 : In (r, r') g).
      { apply B4. exists c. split; [lia|]. rewrite X. split; [discriminate|]. split; auto. rewrite Y. split; [discriminate|auto]. }
      split; [exact G1|]. split; auto.
      intros ND. destruct (B5 r r' A G1) as [Z|[Z|Z]]; auto; [contradiction|]. subst r'. exfalso. apply ND.
      destruct (B1 r (INJ _ _ Hr Nr)) as [x [_ Hx]]. assert (E' := Hx _ Hr'). assert (E'' := Hx _ Hr). congruence. }
    constructor; [split; [congruence|split; assumption]|exact M1| | | |].
    { intros r. split.
      - intros Hr. destruct (B1 r Hr) as [c [Hc _]]. exists c. split; auto. lia.
      - intros [c [Hc Nr]]. eauto. }
    { intros c c' r Hc Hc' Nr. destruct (B1 r (INJ _ _ Hc Nr)) as [x [_ Hx]]. rewrite (Hx c Hc), (Hx c' Hc'). reflexivity. }
    { intros c r Hr Nr. destruct (NX c r Hr Nr) as [r' [X1 [X2 [X3 X4]]]]. eauto. }
    intros i p Hp. destruct (K5 i p Hp) as [Q1 [Q2 [Q3 [rec [Q4 [Q5 Q6]]]]]].
    split; [lia|]. split; [exact Q2|]. split.
    - destruct (NX _ _ Q2 ltac:(lia)) as [r' [X1 [X2 [_ X4]]]]. destruct (Q3 r' X2) as [_ Q]. now apply Q.
    - exists rec. split; auto. split; [lia|]. exact Q6.
  Qed.

  (** the first half of the chain *)
  Lemma chain_streams h thr terminals fdir nb' t :
    run O fuel dist dem nb thr terminals = Ok (fdir, nb') -> length fdir = N ->
    valid_fdir fdir -> acyclic fdir -> length area = N -> S N <= fuel ->
    fd h (FlowDirections thr terminals) = Ok (Ints fdir) /\
    exists facc, fd (h ++ [FlowDirections thr terminals]) (FlowAccumulation true) = Ok (Ints facc) /\
    length facc = N /\
    let strm := map (fun a => if Z.geb a t then 1%Z else 0%Z) facc in
    (forall c, c < N -> exists l, upstream_cells fdir c l /\ (stream_cell strm c <-> (t <= Z.of_nat (length l))%Z)) /\
    (forall c, stream_cell strm c -> stream_cell strm (down fdir c)).
  Proof.
    intros Hrun LF V A LA HFu.
    assert (R0 : fd [] (FlowDirections thr terminals) = Ok (Ints fdir)).
    { unfold PropsObj.reply, PropsObj.step. cbn [call]. unfold do_flow_directions. unfold run in Hrun.
      cbn [PropsObj.after calls fold_left new_object fo_nb]. rewrite Hrun. reflexivity. }
    split; [rewrite C66_any_history; exact R0|].
    assert (R1 : fd (h ++ [FlowDirections thr terminals]) FlowDirectionArray = Ok (Ints fdir)).
    { apply array_state. exact (@fdir_after T W O wadd wzero fuel lim dist dem area nb h thr terminals [] fdir R0 (fun c X => match X with end)). }
    destruct (@C19_object_cells T W O wadd wzero fuel lim dist dem area nb _ fdir R1 V ltac:(congruence) ltac:(lia)) as [facc [E1 [_ [L1 H1]]]].
    exists facc. split; [exact E1|]. split; [congruence|]. cbn zeta.
    assert (EC : flow_accumulation_cells wadd wzero fuel fdir area = Ok facc).
    { unfold PropsObj.reply, PropsObj.step in E1. cbn [call] in E1. unfold do_accumulation in E1. apply array_state in R1.
      unfold fdir_of in E1. rewrite R1 in E1. cbn [bind] in E1. unfold flow_accumulation_cells.
      destruct (acc_run wadd wzero fuel fdir area) as [s|]; cbn in E1; [|discriminate]. cbn [bind]. now inversion E1. }
    set (strm := map (fun a => if Z.geb a t then 1%Z else 0%Z) facc).
    assert (D' : delineate_streams Z.geb facc (Scalar t) None = Ok strm) by reflexivity.
    assert (S1 : forall c, stream_cell strm c <-> nth_error strm c = Some 1%Z).
    { intros c. split; [|intros H; exists 1%Z; split; auto; lia]. intros [v [Hv Nv]]. rewrite Hv. f_equal. unfold strm in Hv.
      rewrite nth_error_map in Hv. destruct (nth_error facc c) as [a|]; [|discriminate]. cbn in Hv. inversion Hv as [X]. rewrite X.
      destruct (a >=? t)%Z; congruence. }
    split.
    - intros c Hc. destruct (H1 c ltac:(lia) (A c ltac:(lia))) as [l [Hl El]]. exists l. split; auto.
      rewrite S1. unfold strm. rewrite nth_error_map, El. cbn [option_map].
      rewrite Z.geb_leb. destruct (Z.leb_spec t (Z.of_nat (length l))) as [X|X]; split; intro Y; auto; try discriminate; lia.
    - intros c Hc. apply S1. apply S1 in Hc.
      assert (Hl : c < length fdir) by (rewrite <- L1; unfold strm in Hc; apply nth_error_Some; rewrite nth_error_map in Hc; destruct (nth_error facc c); [congruence|discriminate]).
      exact (@C30_streams_run_on_cells W wadd wzero fdir area fuel facc t strm V A ltac:(congruence) ltac:(lia) EC D' c Hl Hc).
  Qed.

  Lemma chain_sfr2005 h hs thr terminals fdir nb' t grp :
    run O fuel dist dem nb thr terminals = Ok (fdir, nb') -> length fdir = N ->
    valid_fdir fdir -> acyclic fdir -> length area = N -> S N <= fuel -> N + 1 <= lim -> (0 < ncol)%Z ->
    fd h (FlowDirections thr terminals) = Ok (Ints fdir) /\
    exists facc, fd (h ++ [FlowDirections thr terminals]) (FlowAccumulation true) = Ok (Ints facc) /\
    let run1 := hs ++ [DelineateStreams (Scalar t) None] in
    let run2 := run1 ++ [StreamConnectivity None false] in
    exists strm g s2 segs,
      sfr KSfr2005 fdir facc hs (DelineateStreams (Scalar t) None) = Ok (AArray strm) /\
      sfr KSfr2005 fdir facc run1 (StreamConnectivity None false) = Ok (AGraph g) /\
      sfr KSfr2005 fdir facc run2 StreamArray = Ok (AArray s2) /\
      sfr KSfr2005 fdir facc run2 (SegmentData None grp) = Ok (ASegs segs) /\
      ((exists c, stream_cell strm c) -> exists recs,
         sfr KSfr2005 fdir facc run2 (ReachData None grp) = Ok (AReach recs) /\
         mf2005_tables N fdir t g s2 segs recs).
  Proof.
    intros Hrun LF V A LA HFu HL Hn.
    destruct (@chain_streams h thr terminals fdir nb' t Hrun LF V A LA HFu) as [R0 [facc [R1 [L1 [CNT RUN]]]]].
    split; [exact R0|]. exists facc. split; [exact R1|]. cbn zeta.
    set (strm := map (fun a => if Z.geb a t then 1%Z else 0%Z) facc) in *.
    assert (D : sfr KSfr2005 fdir facc hs (DelineateStreams (Scalar t) None) = Ok (AArray strm)) by reflexivity.
    destruct (@C29_object Z F Z.geb fone fabs fsum fdiv fle0 fkeep lim fuel ncol fdir facc slopes fnb KSfr2005 hs _ _ _ D) as [SA [LS _]].
    assert (LS' : length strm = length fdir) by congruence.
    assert (Hf : length fdir <= fuel) by lia.
    destruct (@C44_object_succeeds Z F Z.geb fone fabs fsum fdiv fle0 fkeep lim fuel ncol fdir facc slopes fnb V (hs ++ [DelineateStreams (Scalar t) None]) None false strm SA LS' Hf ltac:(lia)) as [g G].
    destruct (conn5_state G) as [a' [m [P [M [Gm S]]]]].
    assert (a' = strm) by exact (@used_eq Z F Z.geb fone fabs fsum fdiv fle0 fkeep lim fuel ncol fdir facc slopes fnb KSfr2005 _ None strm a' SA P). subst a' g.
    exists strm, (m_seg m), (m_strm m), (segment_data (m_seg m)).
    split; [exact D|]. split; [exact G|].
    assert (S2 : sfr KSfr2005 fdir facc ((hs ++ [DelineateStreams (Scalar t) None]) ++ [StreamConnectivity None false]) StreamArray = Ok (AArray (m_strm m))).
    { apply array_is. now rewrite S. }
    split; [exact S2|]. split.
    { unfold PropsSobj.ask, sreply. rewrite S. reflexivity. }
    intros [c0 Hc0].
    destruct (@C46_ungrouped fdir strm lim fuel m V LS' M) as [B1 [B2 [B3 [B4 [B5 B6]]]]].
    destruct (@C47_segment_data fdir strm lim fuel false m V LS' Hf M) as [SD1 SD2].
    assert (Lm := labels_length V LS' Hf M).
    assert (SC : forall c, stream_cell (m_strm m) c <-> stream_cell strm c).
    { intros c. split.
      - intros [v [Hv Nv]]. assert (Hc : c < length strm) by (rewrite LS', <- Lm; apply nth_error_Some; congruence).
        destruct (nth_error strm c) as [z|] eqn:Ez; [|apply nth_error_None in Ez; lia]. exists z. split; auto. intros ->. apply B6 in Ez. congruence.
      - intros Sc. assert (X : exists s, nth_error (m_strm m) c = Some s).
        { destruct (nth_error (m_strm m) c) as [s|] eqn:Es; eauto. apply nth_error_None in Es. destruct Sc as [v [Hv _]].
          assert (c < length strm) by (apply nth_error_Some; congruence). lia. }
        destruct X as [s Hs]. exists s. split; auto.
        assert (X : exists o, In (s, o) (m_seg m)).
        { destruct (Nat.eq_dec (down fdir c) c) as [Ed|Ed].
          - exists 0%Z. apply B2. exists c. split; auto. split; auto. split; [intros [_ Y]; congruence|auto].
          - assert (Sd := RUN c Sc). destruct (nth_error (m_strm m) (down fdir c)) as [o|] eqn:Eo.
            + exists o. apply B2. exists c. split; auto. split; auto. split; auto. intros [Y|Y]; contradiction.
            + apply nth_error_None in Eo. destruct Sd as [v [Hv _]]. assert (down fdir c < length strm) by (apply nth_error_Some; congruence). lia. }
        destruct X as [o Ho]. apply (in_map fst) in Ho. apply B4 in Ho. cbn in Ho. lia. }
    assert (NE : m_seg m <> []).
    { destruct (proj2 (SC c0) Hc0) as [s [Hs Ns]]. intros X.
      destruct (@any_result fdir strm lim fuel false m V LS' Hf M) as [K [len [sg [tg [C _]]]]].
      assert (LK : length K = 0) by (rewrite <- (map_length (fun a => (sg a, tg a)) K), <- (c_seg C), X; reflexivity).
      destruct K; [|discriminate].
      assert (Y : In (Z.of_nat c0, s, 1%Z) (m_nsr m)) by (apply B1; exists c0; auto).
      rewrite (c_nsr C) in Y. destruct Y. }
    destruct (@C49_ungrouped_succeeds fdir strm lim fuel m ncol V LS' Hf Hn M NE) as [recs RD].
    exists recs. split.
    { unfold PropsSobj.ask, sreply. rewrite S. cbn [scall_step]. unfold do_reachdata, ensure_segs, pick. cbn. rewrite RD. reflexivity. }
    destruct (@C48_reach_data fdir strm lim fuel false m ncol recs V LS' Hf Hn M RD) as [PM [SS [ID RC]]].
    assert (ROW : forall x, In x recs -> r_ireach x = 1%Z /\ exists c, r_node x = Z.of_nat c /\ stream_cell strm c /\ nth_error (m_strm m) c = Some (r_iseg x)).
    { intros x Hx. assert (X : In (reach_row x) (m_nsr m)) by (apply (Permutation_in _ PM), in_map, Hx). apply B1 in X.
      destruct X as [c [X1 [X2 [X3 X4]]]]. split; auto. exists c. auto. }
    assert (INJ : forall c s, nth_error (m_strm m) c = Some s -> s <> 0%Z -> (1 <= s <= Z.of_nat (length (m_seg m)))%Z).
    { intros c s Hs Ns. assert (Sc : stream_cell strm c) by (apply SC; exists s; auto).
      assert (X : In (Z.of_nat c, s, 1%Z) (m_nsr m)) by (apply B1; exists c; auto).
      destruct (@any_result fdir strm lim fuel false m V LS' Hf M) as [K [len [sg [tg [C _]]]]].
      rewrite (c_nsr C) in X. apply in_rows in X. destruct X as [a [j [Ha [_ [_ [-> _]]]]]].
      apply B4. rewrite (c_seg C), map_map. cbn [fst]. now apply in_map. }
    constructor.
    - congruence.
    - intros c Hc. destruct (CNT c Hc) as [l [Hl El]]. exists l. split; auto. now rewrite SC.
    - intros s. split.
      + intros Hs. destruct (B5 s Hs) as [c [Hc _]]. exists c. split; auto. lia.
      + intros [c [Hc Ns]]. eauto.
    - intros c c' s Hc Hc' Ns. destruct (B5 s (INJ _ _ Hc Ns)) as [x [_ Hx]]. assert (X := Hx c Hc). assert (Y := Hx c' Hc'). congruence.
    - exact SD1.
    - intros c s o Hs Ns Ho. apply SD2 in Ho. assert (Ho' := Ho). apply B2 in Ho. destruct Ho as [c' [Sc' [Hs' [X1 X2]]]].
      assert (c' = c) by (destruct (B5 s (INJ _ _ Hs Ns)) as [x [_ Hx]]; assert (X := Hx c Hs); assert (Y := Hx c' Hs'); congruence). subst c'.
      split; [auto|]. intros Nd. assert (Sd := RUN c Sc'). specialize (X1 (conj Sd Nd)). split; auto.
      destruct (@C46_segments_increase fdir strm lim fuel false m V A LS' Hf M s o Ho') as [Z|[Z|Z]]; auto; exfalso.
      + apply SC in Sd. destruct Sd as [v [Hv Nv]]. congruence.
      + subst o. destruct (B5 s (INJ _ _ Hs Ns)) as [x [_ Hx]]. assert (X := Hx c Hs). assert (Y := Hx _ X1). congruence.
    - split; [|split].
      + clear -SS ROW. induction recs as [|a l IH]; cbn [map]; constructor.
        * apply IH; [now inversion SS|intros x Hx; apply ROW; now right].
        * inversion SS as [|? ? _ FA]; subst. rewrite Forall_forall in *. intros z Hz. apply in_map_iff in Hz. destruct Hz as [x [<- Hx]].
          destruct (FA x Hx) as [Y|[_ Y]]; auto. rewrite (proj1 (ROW x (or_intror Hx))), (proj1 (ROW a (or_introl eq_refl))) in Y. lia.
      + intros s. split.
        * intros Hs. apply in_map_iff in Hs. destruct Hs as [x [<- Hx]]. destruct (ROW x Hx) as [_ [c [_ [Sc Hc]]]].
          apply (INJ c); auto. intros Z. apply SC in Sc. destruct Sc as [v [Hv Nv]]. congruence.
        * intros Hs. destruct (B5 s Hs) as [c [Hc _]]. assert (X : In (Z.of_nat c, s, 1%Z) (m_nsr m)).
          { apply B1. exists c. split; auto. split; auto. split; auto. apply SC. exists s. split; auto. lia. }
          apply (Permutation_in _ (Permutation_sym PM)) in X. apply in_map_iff in X. destruct X as [x [Ex Hx]]. inversion Ex. now apply in_map.
      + intros x Hx. destruct (ROW x Hx) as [X1 [c [X2 [_ X3]]]]. split; auto. exists c. auto.
  Qed.
End Chain.

(** ** C92 for IEEE doubles
    [downhill]: a DEM (NaN cells allowed) on which every cell but the outlets [base] has a
    lower neighbour, and no cell has to choose between an outlet and another steepest
    neighbour (the restrictions of C64; without them: C63) *)
Record downhill (thr : b64) (dist : nat -> nat -> b64) (dem : list (option b64)) (nb : list (list nat))
       (terminals : list Z) (base : nat -> Prop) : Prop := {
  dh_terrain : terrain_ok Fops not_nan thr dist dem nb terminals;
  dh_finite : forall c z, nth_error dem c = Some (Some z) -> finite z;
  dh_dist : forall c n, adjacent nb c n -> finite (dist c n) /\ (0 < val (dist c n) <= bpow radix2 60)%R;
  dh_nodup : forall l, In l nb -> NoDup l;
  dh_base : forall c, base c <-> lowest Fops dem c \/ In (Z.of_nat c) terminals;
  dh_lower : forall c, is_valid dem c -> ~ base c ->
     exists n zc zn, adjacent nb c n /\ nth_error dem c = Some (Some zc) /\
       nth_error dem n = Some (Some zn) /\ (val zn + bpow radix2 (-1000) <= val zc)%R;
  dh_choice : forall c x n, base c -> n <> c -> steepest Fops thr dist dem nb x c -> ~ steepest Fops thr dist dem nb x n }.

Lemma down_nth fdir c n : nth_error fdir c = Some (Z.of_nat n) -> down fdir c = n.
Proof. intros E. apply (nth_error_nth _ _ 0%Z) in E. unfold down. rewrite E. apply Nat2Z.id. Qed.

(** the flow directions of downhill terrain *)
Lemma downhill_directions thr dist dem nb terminals base fuel :
  downhill thr dist dem nb terminals base -> enough_steps nb fuel ->
  exists fdir nb', run Fops fuel dist dem nb thr terminals = Ok (fdir, nb') /\ length fdir = length dem /\
    valid_fdir fdir /\ acyclic fdir /\
    (forall c, is_valid dem c -> ~ base c -> exists zc zn,
       adjacent nb c (down fdir c) /\ nth_error dem c = Some (Some zc) /\
       nth_error dem (down fdir c) = Some (Some zn) /\ (val zn < val zc)%R) /\
    (forall c, is_valid dem c -> exists k, base (downs fdir k c) /\ down fdir (downs fdir k c) = downs fdir k c).
Proof.
  intros DH FU. destruct DH as [TR FI DI ND BA LO CH].
  destruct (C61_always_computed b64_order TR FU) as [fdir [nb' [Hrun [LF VAL]]]].
  assert (DR := @C64_binary64 thr dist dem nb terminals fuel fdir nb' TR FI DI ND).
  cbn zeta in DR. destruct DR as [N2 [DW [EN AC]]]; auto.
  { intros c Hc Hb. apply LO; auto. now rewrite BA. }
  { intros c x n Hb. apply CH. now apply BA. }
  exists fdir, nb'. split; [exact Hrun|]. split; [exact LF|]. split; [|split; [exact AC|split]].
  - unfold valid_fdir. rewrite Forall_forall. intros d Hd. apply In_nth_error in Hd. destruct Hd as [c Hc].
    destruct (VAL c d Hc) as [->|X]; [now apply N2 in Hc|]. rewrite LF. exact X.
  - intros c Vc Nb. destruct (DW c Vc) as [n [zc [zn [E [A [Zc [Zn L]]]]]]]; [now rewrite <- BA|].
    apply down_nth in E. rewrite E. exists zc, zn. auto.
  - intros c Vc. destruct (EN c Vc) as [k [o [Ek [Bo Eo]]]]. exists k. rewrite Ek. split; [now apply BA|now apply down_nth].
Qed.

Section Doubles.
  Context {W F : Type} (wadd : W -> W -> W) (wzero : W).
  Variables (fone : F) (fabs : F -> F) (fsum : list F -> F) (fdiv : F -> F -> option F)
            (fle0 fkeep : F -> bool).
  Variables (ncol : Z) (slopes : list (list (option F))) (fnb : list (list Z)).
  Notation fd fuel lim dist dem area nb := (@reply b64 W Fops wadd wzero fuel lim dist dem area nb).
  Notation sfr fuel lim fdir facc k := (@ask Z F Z.geb fone fabs fsum fdiv fle0 fkeep lim fuel ncol fdir facc slopes fnb k).

  (** from elevations to tables: on downhill terrain every call of the chain succeeds, after
      any earlier calls; the tables describe the streams of the directions computed; the cell
      of the reach below lies lower; from every reach the streams lead to an outlet *)
  Theorem C92_terrain_to_sfr6 :
    forall thr dist dem nb terminals base (area : list W) fuel lim t h hs grp,
    downhill thr dist dem nb terminals base -> enough_steps nb fuel ->
    length area = length dem -> S (length dem) <= fuel -> length dem + 1 <= lim ->
    exists fdir facc,
      fd fuel lim dist dem area nb h (FlowDirections thr terminals) = Ok (Ints fdir) /\
      fd fuel lim dist dem area nb (h ++ [FlowDirections thr terminals]) (FlowAccumulation true) = Ok (Ints facc) /\
      let run1 := hs ++ [DelineateStreams (Scalar t) None] in
      let run2 := run1 ++ [StreamConnectivity None grp] in
      exists strm g s2 conn pk,
        sfr fuel lim fdir facc KSfr6 hs (DelineateStreams (Scalar t) None) = Ok (AArray strm) /\
        sfr fuel lim fdir facc KSfr6 run1 (StreamConnectivity None grp) = Ok (AGraph g) /\
        sfr fuel lim fdir facc KSfr6 run2 StreamArray = Ok (AArray s2) /\
        sfr fuel lim fdir facc KSfr6 run2 (ConnectionData None) = Ok (AConn conn) /\
        sfr fuel lim fdir facc KSfr6 run2 (PackageData None) = Ok (APkg pk) /\
        mf6_tables (length dem) fdir t g s2 conn pk /\
        (forall c, stream_cell s2 c -> is_valid dem c -> ~ base c -> exists zc zn,
           adjacent nb c (down fdir c) /\ nth_error dem c = Some (Some zc) /\
           nth_error dem (down fdir c) = Some (Some zn) /\ (val zn < val zc)%R) /\
        (forall c, stream_cell s2 c -> is_valid dem c -> exists o, base o /\ flows_through fdir c o /\
           down fdir o = o /\ stream_cell s2 o).
  Proof.
    intros thr dist dem nb terminals base area fuel lim t h hs grp DH FU LA HF HL.
    destruct (downhill_directions DH FU) as [fdir [nb' [Hrun [LF [V [AC [DW EN]]]]]]].
    destruct (@chain_sfr6 b64 W F Fops wadd wzero fone fabs fsum fdiv fle0 fkeep fuel lim dist dem area nb ncol slopes fnb
      h hs thr terminals fdir nb' t grp Hrun LF V AC LA HF HL) as [R0 [facc [R1 [strm [g [s2 [conn [pk [S1 [S2 [S3 [S4 [S5 MT]]]]]]]]]]]]].
    exists fdir, facc. split; [exact R0|]. split; [exact R1|]. cbn zeta.
    exists strm, g, s2, conn, pk. repeat (split; [assumption|]). split; [auto|].
    intros c Sc Vc. destruct (EN c Vc) as [k [Bo Eo]]. exists (downs fdir k c). split; [exact Bo|]. split; [now exists k|].
    split; [exact Eo|]. clear -MT Sc. revert c Sc.
    induction k as [|k IH]; intros c [r [Hr Nr]]; [now exists r|]. cbn [downs]. apply IH.
    destruct (mt_below MT Hr Nr) as [r' [Hr' [Nr' _]]]. now exists r'.
  Qed.

  (** the same for MODFLOW-2005 (group_segments=False; grouped segments: C42, C43, C93) *)
  Theorem C92_terrain_to_sfr2005 :
    forall thr dist dem nb terminals base (area : list W) fuel lim t h hs grp,
    downhill thr dist dem nb terminals base -> enough_steps nb fuel ->
    length area = length dem -> S (length dem) <= fuel -> length dem + 1 <= lim -> (0 < ncol)%Z ->
    exists fdir facc,
      fd fuel lim dist dem area nb h (FlowDirections thr terminals) = Ok (Ints fdir) /\
      fd fuel lim dist dem area nb (h ++ [FlowDirections thr terminals]) (FlowAccumulation true) = Ok (Ints facc) /\
      let run1 := hs ++ [DelineateStreams (Scalar t) None] in
      let run2 := run1 ++ [StreamConnectivity None false] in
      exists strm g s2 segs,
        sfr fuel lim fdir facc KSfr2005 hs (DelineateStreams (Scalar t) None) = Ok (AArray strm) /\
        sfr fuel lim fdir facc KSfr2005 run1 (StreamConnectivity None false) = Ok (AGraph g) /\
        sfr fuel lim fdir facc KSfr2005 run2 StreamArray = Ok (AArray s2) /\
        sfr fuel lim fdir facc KSfr2005 run2 (SegmentData None grp) = Ok (ASegs segs) /\
        ((exists c, stream_cell strm c) -> exists recs,
           sfr fuel lim fdir facc KSfr2005 run2 (ReachData None grp) = Ok (AReach recs) /\
           mf2005_tables (length dem) fdir t g s2 segs recs) /\
        (forall c, stream_cell strm c -> is_valid dem c -> ~ base c -> exists zc zn,
           adjacent nb c (down fdir c) /\ nth_error dem c = Some (Some zc) /\
           nth_error dem (down fdir c) = Some (Some zn) /\ (val zn < val zc)%R).
  Proof.
    intros thr dist dem nb terminals base area fuel lim t h hs grp DH FU LA HF HL Hn.
    destruct (downhill_directions DH FU) as [fdir [nb' [Hrun [LF [V [AC [DW EN]]]]]]].
    destruct (@chain_sfr2005 b64 W F Fops wadd wzero fone fabs fsum fdiv fle0 fkeep fuel lim dist dem area nb ncol slopes fnb
      h hs thr terminals fdir nb' t grp Hrun LF V AC LA HF HL Hn) as [R0 [facc [R1 [strm [g [s2 [segs [S1 [S2 [S3 [S4 S5]]]]]]]]]]].
    exists fdir, facc. split; [exact R0|]. split; [exact R1|]. cbn zeta.
    exists strm, g, s2, segs. repeat (split; [assumption|]). auto.
  Qed.
End Doubles.

(** a DEM filled with priority flooding is such terrain, if moreover the rim has no pits of its
    own (the restrictions of C65) *)
Theorem C92_filled_terrain iverts nb dem eps ffuel out thr dist terminals (base : nat -> Prop) :
  grid_of iverts nb (length dem) -> symmetric_grid nb ->
  (forall n, n < length dem -> reachable (link nb (length dem)) (boundary_cell iverts) n) ->
  Forall not_nan dem -> finite eps -> (bpow radix2 (-20) <= val eps)%R -> length dem <= ffuel ->
  fill_sinks Felev ffuel iverts nb dem eps None "priority" = Ok out ->
  Forall (fun x => finite x /\ (Rabs (val x) <= bpow radix2 30)%R) out ->
  (forall x y, In x out -> In y out -> (val x < val y)%R -> (val x + bpow radix2 (-1000) <= val y)%R) ->
  let filled := map Some out in
  terrain_ok Fops not_nan thr dist filled nb terminals ->
  (forall c n, adjacent nb c n -> finite (dist c n) /\ (0 < val (dist c n) <= bpow radix2 60)%R) ->
  (forall l, In l nb -> NoDup l) ->
  (forall c, base c <-> lowest Fops filled c \/ In (Z.of_nat c) terminals) ->
  (forall c, boundary_cell iverts c -> ~ base c ->
     exists n zc zn, adjacent nb c n /\ nth_error out c = Some zc /\ nth_error out n = Some zn /\ (val zn < val zc)%R) ->
  (forall c x n, base c -> n <> c -> steepest Fops thr dist filled nb x c -> ~ steepest Fops thr dist filled nb x n) ->
  length out = length dem /\ downhill thr dist filled nb terminals base.
Proof.
  intros G SY RE NN Fe He FF Hfill OB GAP filled TR DP ND BA RIM FREE.
  assert (P20 := bpow_gt_0 radix2 (-20)).
  destruct (@C03_binary64 iverts nb dem eps ffuel NN Fe) as [o [E [F2 [_ [_ DR]]]]]; auto; [lra|].
  assert (o = out) by congruence. subst o. specialize (DR He OB).
  assert (NT : forall c z, nth_error filled c = Some (Some z) <-> nth_error out c = Some z).
  { intros c z. unfold filled. rewrite nth_error_map. destruct (nth_error out c); cbn; split; congruence. }
  assert (FO : forall c z, nth_error out c = Some z -> finite z).
  { intros c z H. apply nth_error_In in H. rewrite Forall_forall in OB. now apply OB. }
  assert (LO : length out = length dem) by (clear - F2; induction F2; simpl; congruence).
  split; [exact LO|]. constructor; auto.
  - intros c z H. apply NT in H. eauto.
  - intros c V NB. assert (Hc := val_lt V). unfold filled in Hc. rewrite map_length, LO in Hc.
    destruct (DR c Hc (RE c Hc)) as [s Hs|c' n x y _ [LK _] Hx Hy HL].
    + destruct (RIM s Hs NB) as [n [zc [zn [A [B [C L]]]]]]. exists n, zc, zn. rewrite !NT. split; auto. split; auto. split; auto.
      apply GAP; auto; eapply nth_error_In; eauto.
    + exists c', y, x. rewrite !NT. split; [now apply SY|]. split; auto. split; auto.
      apply GAP; try (eapply nth_error_In; eauto). apply lt_val; eauto.
Qed.

(** the row of three cells 9, 5, 1 of PropsFloat is downhill terrain *)
Module Ex.
  Import PropsFloat.ExF.
  Example downhill3 : downhill thr one dem3 (queen 1 3) [] (fun c => c = 2).
  Proof.
    constructor.
    - exact terrain3.
    - exact fin3.
    - intros. exact one_ok.
    - apply rows_nodup. vm_compute. reflexivity.
    - intros c. rewrite low3. split; [auto|intros [H|[]]; exact H].
    - intros c V NC. assert (L := val_lt V). change (length dem3) with 3 in *. destruct c as [|[|c]]; [| |lia].
      + exists 1, (dbl 9 0), (dbl 5 0). split; [now apply adj_nth; vm_compute; auto|]. split; [reflexivity|]. split; [reflexivity|].
        apply gap_rank; [reflexivity|reflexivity|]. apply Z.leb_le. vm_compute. reflexivity.
      + exists 2, (dbl 5 0), (dbl 1 0). split; [now apply adj_nth; vm_compute; auto|]. split; [reflexivity|]. split; [reflexivity|].
        apply gap_rank; [reflexivity|reflexivity|]. apply Z.leb_le. vm_compute. reflexivity.
    - intros c x n -> Hne S1 S2. apply steep3 in S1, S2.
      destruct x as [|[|[|x]]]; cbn in S1, S2; try intuition lia. destruct x; destruct S1.
  Qed.
  Example chain3 := @C92_terrain_to_sfr6 Z Z Z.add 0%Z 1%Z Z.abs (np_sum Z.add 0%Z) (fun _ _ => None) (fun _ => false) (fun _ => true) 3 [] []
    thr one dem3 (queen 1 3) [] (fun c => c = 2) [1; 1; 1]%Z 100 100 2%Z [] [] false downhill3 steps3 eq_refl ltac:(cbn; lia) ltac:(cbn; lia).
End Ex.
