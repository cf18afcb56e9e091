(** C146: what flows to the reaches from the side.  The water accumulated at a reach is what its own
    landscape brings plus what the reaches above it pass on, and the reaches at the ends of the
    network together carry everything that drains into it. *)
From Verif Require Import Py Spec MFlow LGraph LAcc LAcc2 LWs LTopo LSub MStream LStream LConn PropsAcc PropsBasin
  PropsStream PropsAgree LSeg LSeg2 LSeg3 LSeg4 PropsSeg PropsSame PropsSubb.
Set Implicit Arguments.
Unset Strict Implicit.
Local Open Scope nat_scope.
Local Open Scope list_scope.
Local Notation length := List.length.

(** ** Specification *)
(** [c] is the first stream cell met by the flow path of [d] ([d] included) *)
Definition first_stream (fdir strm : list Z) (d c : nat) : Prop :=
  stream_cell strm c /\ exists k, downs fdir k d = c /\ forall j, j < k -> ~ stream_cell strm (downs fdir j d).
(** streams have no gaps: between two stream cells on one flow path there are stream cells only *)
Definition no_gaps (fdir strm : list Z) : Prop :=
  forall c k, stream_cell strm c -> stream_cell strm (downs fdir k c) -> forall j, j <= k -> stream_cell strm (downs fdir j c).
(** the last cell of a stream *)
Definition stream_end (fdir strm : list Z) (c : nat) : Prop :=
  stream_cell strm c /\ (down fdir c = c \/ ~ stream_cell strm (down fdir c)).
(** the landscape of a reach: the cells that meet its cell before any other stream cell *)
Definition landscape (fdir strm : list Z) (c : nat) (l : list nat) : Prop :=
  NoDup l /\ forall d, In d l <-> d < length fdir /\ first_stream fdir strm d c.

Section Net.
  Variables (fdir strm : list Z).
  Notation N := (length fdir).
  Hypothesis V : valid_fdir fdir.
  Hypothesis L : length strm = N.

  Lemma stream_lt c : stream_cell strm c -> c < N.
  Proof using L. intros [v [E _]]. rewrite <- L. apply nth_error_Some. congruence. Qed.

  Lemma first_stream_pour d c : first_stream fdir strm d c <-> first_pour fdir (nonzero strm) d c.
  Proof using.
    clear V L.
    unfold first_stream, first_pour. rewrite (stream_cell_in strm c). split; intros [H [k [E K]]]; split; auto; exists k; split; auto;
      intros j Hj; specialize (K j Hj); rewrite stream_cell_in in *; auto.
  Qed.

  (** without gaps, what enters directly at a stream cell comes from the reaches above it *)
  Lemma enters_next c d : no_gaps fdir strm -> stream_cell strm c ->
    (enters fdir (nonzero strm) c d <-> d <> c /\ stream_cell strm d /\ c = down fdir d).
  Proof using.
    clear V L.
    intros NG Sc. unfold enters. rewrite <- stream_cell_in. split.
    - intros [Sd [NE [k [K1 [K2 K3]]]]]. split; auto. split; auto. destruct k as [|[|k]]; [lia|now symmetry|].
      exfalso. apply (K3 1); [lia|]. apply stream_cell_in. apply (NG d (S (S k))) with (j := 1); [exact Sd|now rewrite K2|lia].
    - intros [NE [Sd E]]. split; auto. split; auto. exists 1. split; [lia|]. split; [now symmetry|]. intros j Hj. lia.
  Qed.

  Lemma own_list c fuel : N <= fuel -> stream_cell strm c -> exists own, landscape fdir strm c own.
  Proof using V L.
    intros Hf Sc. destruct (@list_of (fun d => first_stream fdir strm d c) N) as [l [ND Hl]].
    - intros d Hd. destruct (first_pour_dec V (nonzero strm) Hd) as [[p Fp]|Nd].
      + destruct (Nat.eq_dec p c) as [->|NE]; [left; now apply first_stream_pour|].
        right. intros F. apply first_stream_pour in F. apply NE. eapply first_pour_unique; eauto.
      + right. intros F. apply first_stream_pour in F. destruct F as [Hc [k [E _]]]. apply (Nd k). now rewrite E.
    - now exists l.
  Qed.

  Lemma split_reach fuel c own : no_gaps fdir strm -> N <= fuel -> stream_cell strm c -> ~ on_cycle fdir c ->
    landscape fdir strm c own ->
    exists l, NoDup l /\ (forall d, In d l <-> d < N /\ d <> c /\ stream_cell strm d /\ c = down fdir d) /\
      (forall d, In d l -> ~ on_cycle fdir d) /\
      Permutation (shed_cells fuel fdir c) (own ++ flat_map (shed_cells fuel fdir) l).
  Proof using V L.
    intros NG Hf Sc Hc [ND Ho].
    destruct (@first_split fdir (nonzero strm) fuel own c) as [l [NDl [Hl [OC P]]]]; auto.
    - intros q Hq. apply stream_lt. now apply stream_cell_in.
    - now apply stream_cell_in.
    - intros d. rewrite Ho, first_stream_pour. tauto.
    - exists l. split; auto. split; auto. intros d. rewrite Hl. rewrite (enters_next d NG Sc). tauto.
  Qed.
End Net.

(** a sum does not depend on how its cells are described *)
Lemma sum_over_iff {W} (wadd : W -> W -> W) wzero w (P Q : nat -> Prop) n s :
  (forall c, c < n -> (P c <-> Q c)) -> sum_over wadd wzero w P n s -> sum_over wadd wzero w Q n s.
Proof.
  intros H S. induction S as [|n s S IH p|n s S IH p].
  - constructor.
  - constructor; [apply IH; intros c Hc; apply H; lia|]. apply H; auto.
  - apply so_out; [apply IH; intros c Hc; apply H; lia|]. intros q. apply p. apply H; auto.
Qed.

(** ** C146.  Cells. *)
Theorem C146_reach_cells :
  forall (W : Type) (wadd : W -> W -> W) (wzero : W) (area : list W) fdir strm lim fuel s2 g cells,
    valid_fdir fdir -> length strm = length fdir -> length area = length fdir -> S (length fdir) <= fuel ->
    no_gaps fdir strm ->
    mf6_connectivity lim fdir strm = Ok (s2, g) ->
    flow_accumulation_cells wadd wzero fuel fdir area = Ok cells ->
    forall c, stream_cell strm c -> ~ on_cycle fdir c ->
      exists own s, landscape fdir strm c own /\
        sum_over Z.add 0%Z (fun d => nth d cells 0%Z) (fun d => d <> c /\ runs_into6 s2 g d c) (length fdir) s /\
        nth_error cells c = Some (Z.of_nat (length own) + s)%Z.
Proof.
  intros W wadd wzero area fdir strm lim fuel s2 g cells V L La Hf NG E6 Ea c Sc Hc.
  assert (Lc := stream_lt L Sc).
  destruct (@own_list fdir strm V L c fuel) as [own HO]; auto; [lia|].
  destruct (split_reach V L NG (fuel := fuel) ltac:(lia) Sc Hc HO) as [l [ND [Hl [OC P]]]].
  assert (Cell : forall q, q < length fdir -> ~ on_cycle fdir q -> nth_error cells q = Some (Z.of_nat (length (shed_cells fuel fdir q)))).
  { intros q Lq Oq. destruct (@C24_watershed_is_upstream fdir q fuel V Lq) as [o [Ew _]]; [lia|].
    rewrite (@C109_accumulation_is_watershed_size W wadd wzero fdir area fuel cells o q) by (auto; lia).
    rewrite count_where. unfold shed_cells. now rewrite Ew. }
  exists own, (wsum Z.add 0%Z (fun q => nth q cells 0%Z) l). split; auto. split.
  - apply (@sum_over_iff Z Z.add 0%Z) with (P := fun d => d <> c /\ stream_cell strm d /\ c = down fdir d).
    + intros d Hd. rewrite (mf6_next V L d c E6). tauto.
    + apply wsum_sum_over; auto; intros; lia.
  - rewrite (Cell c Lc Hc), (Permutation_length P), app_length, Nat2Z.inj_add. do 2 f_equal.
    rewrite <- wsum_ones, <- (@wsum_flat Z Z.add 0%Z) by (intros; lia). apply wsum_ext. intros q Hq.
    rewrite wsum_ones. symmetry. apply nth_error_nth. apply Cell; [now apply Hl|now apply OC].
Qed.

(** ** C146.  Areas. *)
Theorem C146_reach_areas :
  forall (W : Type) (wadd : W -> W -> W) (wzero : W) (area : list W) fdir strm lim fuel s2 g areas,
    exact_sum wadd wzero ->
    valid_fdir fdir -> length strm = length fdir -> length area = length fdir -> S (length fdir) <= fuel ->
    no_gaps fdir strm ->
    mf6_connectivity lim fdir strm = Ok (s2, g) ->
    flow_accumulation_area wadd wzero fuel fdir area = Ok areas ->
    forall c, stream_cell strm c -> ~ on_cycle fdir c ->
      exists own s,
        sum_over wadd wzero (fun d => nth d area wzero) (fun d => first_stream fdir strm d c) (length fdir) own /\
        sum_over wadd wzero (fun d => nth d areas wzero) (fun d => d <> c /\ runs_into6 s2 g d c) (length fdir) s /\
        nth_error areas c = Some (wadd own s).
Proof.
  intros W wadd wzero area fdir strm lim fuel s2 g areas X V L La Hf NG E6 Ea c Sc Hc.
  assert (X' := X). destruct X' as [C1 [C2 C3]].
  assert (Lc := stream_lt L Sc).
  destruct (@own_list fdir strm V L c fuel) as [own HO]; auto; [lia|].
  destruct (split_reach V L NG (fuel := fuel) ltac:(lia) Sc Hc HO) as [l [ND [Hl [OC P]]]].
  assert (Cell : forall q, q < length fdir -> ~ on_cycle fdir q ->
            nth_error areas q = Some (wsum wadd wzero (fun d => nth d area wzero) (shed_cells fuel fdir q))).
  { intros q Lq Oq.
    destruct (@C20_accumulated_area _ wadd wzero fdir area fuel areas X V La ltac:(lia) Ea q Lq Oq) as [s [Es S]].
    rewrite Es. f_equal. refine (sum_over_fun C3 S _).
    apply (wsum_sum_over wadd wzero C1 C2); [apply shed_nodup|]. intros d. apply in_shed; auto; lia. }
  exists (wsum wadd wzero (fun d => nth d area wzero) own), (wsum wadd wzero (fun q => nth q areas wzero) l).
  split; [|split].
  - apply (wsum_sum_over wadd wzero C1 C2); apply HO.
  - apply (@sum_over_iff W wadd wzero) with (P := fun d => d <> c /\ stream_cell strm d /\ c = down fdir d).
    + intros d Hd. rewrite (mf6_next V L d c E6). tauto.
    + apply (wsum_sum_over wadd wzero C1 C2); auto.
  - rewrite (Cell c Lc Hc), (wsum_perm wadd wzero C1 C2 _ P), (wsum_app wadd wzero C1 C2 C3). do 2 f_equal.
    rewrite <- (wsum_flat wadd wzero C1 C2 C3). apply wsum_ext. intros q Hq. assert (Hq' := Hq). apply Hl in Hq'.
    symmetry. apply nth_error_nth. apply Cell; [tauto|]. now apply OC.
Qed.

(** the reach above another one is the same in the MODFLOW-2005 network, so its budget is too *)
Theorem C146_reach_cells_2005 :
  forall (W : Type) (wadd : W -> W -> W) (wzero : W) (area : list W) fdir strm lim fuel m cells,
    valid_fdir fdir -> length strm = length fdir -> length area = length fdir -> S (length fdir) <= fuel ->
    no_gaps fdir strm ->
    mf2005_connectivity lim fuel true fdir strm = Ok m ->
    flow_accumulation_cells wadd wzero fuel fdir area = Ok cells ->
    forall c, stream_cell strm c -> ~ on_cycle fdir c ->
      exists own s, landscape fdir strm c own /\
        sum_over Z.add 0%Z (fun d => nth d cells 0%Z) (fun d => d <> c /\ runs_into5 (m_nsr m) (m_seg m) d c) (length fdir) s /\
        nth_error cells c = Some (Z.of_nat (length own) + s)%Z.
Proof.
  intros W wadd wzero area fdir strm lim fuel m cells V L La Hf NG E5 Ea c Sc Hc.
  assert (Lc := stream_lt L Sc).
  destruct (@own_list fdir strm V L c fuel) as [own HO]; auto; [lia|].
  destruct (split_reach V L NG (fuel := fuel) ltac:(lia) Sc Hc HO) as [l [ND [Hl [OC P]]]].
  assert (Cell : forall q, q < length fdir -> ~ on_cycle fdir q -> nth_error cells q = Some (Z.of_nat (length (shed_cells fuel fdir q)))).
  { intros q Lq Oq. destruct (@C24_watershed_is_upstream fdir q fuel V Lq) as [o [Ew _]]; [lia|].
    rewrite (@C109_accumulation_is_watershed_size W wadd wzero fdir area fuel cells o q) by (auto; lia).
    rewrite count_where. unfold shed_cells. now rewrite Ew. }
  exists own, (wsum Z.add 0%Z (fun q => nth q cells 0%Z) l). split; auto. split.
  - apply (@sum_over_iff Z Z.add 0%Z) with (P := fun d => d <> c /\ stream_cell strm d /\ c = down fdir d).
    + intros d Hd. rewrite (@mf5_next fdir strm V L lim fuel m d c ltac:(lia) E5). split; [|tauto].
      intros [NE [Sd Ed]]. split; auto. split; auto. split; auto. split; auto.
      intros [k [Hk [Ek _]]]. assert (Id : In d l) by (apply Hl; auto). apply (OC d Id). split.
      * unfold terminal. intros T. apply NE. now rewrite Ed.
      * exists k. auto.
    + apply wsum_sum_over; auto; intros; lia.
  - rewrite (Cell c Lc Hc), (Permutation_length P), app_length, Nat2Z.inj_add. do 2 f_equal.
    rewrite <- wsum_ones, <- (@wsum_flat Z Z.add 0%Z) by (intros; lia). apply wsum_ext. intros q Hq.
    rewrite wsum_ones. symmetry. apply nth_error_nth. apply Cell; [now apply Hl|now apply OC].
Qed.

(** with group_segments = False every reach is a segment of its own *)
Theorem C146_reach_cells_2005_ungrouped :
  forall (W : Type) (wadd : W -> W -> W) (wzero : W) (area : list W) fdir strm lim fuel m cells,
    valid_fdir fdir -> length strm = length fdir -> length area = length fdir -> S (length fdir) <= fuel ->
    no_gaps fdir strm ->
    mf2005_connectivity lim fuel false fdir strm = Ok m ->
    flow_accumulation_cells wadd wzero fuel fdir area = Ok cells ->
    forall c, stream_cell strm c -> ~ on_cycle fdir c ->
      exists own s, landscape fdir strm c own /\
        sum_over Z.add 0%Z (fun d => nth d cells 0%Z) (fun d => d <> c /\ runs_into5 (m_nsr m) (m_seg m) d c) (length fdir) s /\
        nth_error cells c = Some (Z.of_nat (length own) + s)%Z.
Proof.
  intros W wadd wzero area fdir strm lim fuel m cells V L La Hf NG E5 Ea c Sc Hc.
  destruct (@C34_connectivity_succeeds fdir strm (S (length fdir)) V L) as [s2 [g E6]]; [lia|].
  destruct (@C146_reach_cells W wadd wzero area fdir strm (S (length fdir)) fuel s2 g cells V L La Hf NG E6 Ea c Sc Hc) as [own [s [HO [HS HC]]]].
  exists own, s. split; auto. split; auto. revert HS. apply sum_over_iff. intros d _.
  split; intros [NE R]; split; auto; apply (@C122_same_river_ungrouped fdir strm V L (S (length fdir)) lim fuel s2 g m E6 E5 d c NE); auto.
Qed.

(** ** C146.  The ends of the network carry everything that drains into it. *)
Theorem C146_ends_carry_all :
  forall (W : Type) (wadd : W -> W -> W) (wzero : W) (area : list W) fdir strm fuel cells,
    valid_fdir fdir -> acyclic fdir -> length strm = length fdir -> length area = length fdir -> S (length fdir) <= fuel ->
    no_gaps fdir strm ->
    flow_accumulation_cells wadd wzero fuel fdir area = Ok cells ->
    exists draining,
      NoDup draining /\
      (forall d, In d draining <-> d < length fdir /\ exists c, stream_cell strm c /\ flows_through fdir d c) /\
      sum_over Z.add 0%Z (fun c => nth c cells 0%Z) (stream_end fdir strm) (length fdir) (Z.of_nat (length draining)).
Proof.
  intros W wadd wzero area fdir strm fuel cells V A L La Hf NG Ea.
  assert (SD : forall c, stream_cell strm c \/ ~ stream_cell strm c).
  { intros c. rewrite stream_cell_in. destruct (in_dec Nat.eq_dec c (nonzero strm)); auto. }
  destruct (@list_of (stream_end fdir strm) (length fdir)) as [l [ND Hl]].
  { intros c Hc. unfold stream_end. destruct (SD c), (SD (down fdir c)), (Nat.eq_dec (down fdir c) c); tauto. }
  assert (Cell : forall q, q < length fdir -> nth_error cells q = Some (Z.of_nat (length (shed_cells fuel fdir q)))).
  { intros q Lq. destruct (@C24_watershed_is_upstream fdir q fuel V Lq) as [o [Ew _]]; [lia|].
    rewrite (@C109_accumulation_is_watershed_size W wadd wzero fdir area fuel cells o q) by (auto; lia).
    rewrite count_where. unfold shed_cells. now rewrite Ew. }
  assert (End : forall k c, stream_cell strm c -> terminal fdir (downs fdir k c) -> exists e, stream_end fdir strm e /\ flows_through fdir c e).
  { induction k as [|k IH]; intros c Sc T.
    - exists c. split; [split; auto|now exists 0].
    - destruct (SD (down fdir c)) as [Sd|Nd].
      + destruct (IH (down fdir c) Sd T) as [e [He Fe]]. exists e. split; auto. destruct Fe as [j Ej]. now exists (S j).
      + exists c. split; [split; auto|now exists 0]. }
  assert (One : forall c a b, stream_end fdir strm a -> stream_end fdir strm b -> flows_through fdir c a -> flows_through fdir c b -> a = b).
  { assert (G : forall a b, stream_end fdir strm a -> stream_end fdir strm b -> flows_through fdir a b -> a = b).
    { intros a b [Sa Ea'] [Sb _] [k Ek]. destruct Ea' as [T|T].
      - rewrite <- Ek. clear -T. induction k; cbn; auto. now rewrite T.
      - destruct k as [|k]; [exact Ek|]. exfalso. apply T. apply (NG a (S k) Sa) with (j := 1); [now rewrite Ek|lia]. }
    intros c a b Ha Hb Fa Fb. destruct (flows_fork Fa Fb) as [F|F]; [now apply G|symmetry; now apply G]. }
  exists (flat_map (shed_cells fuel fdir) l). split; [|split].
  - apply nodup_flat; [exact ND|intros; apply shed_nodup|]. intros a b c Ha Hb Hca Hcb. apply Hl in Ha, Hb.
    apply in_shed in Hca; try tauto; [|lia]. apply in_shed in Hcb; try tauto; [|lia]. apply (One c); tauto.
  - intros d. rewrite in_flat_map. split.
    + intros [e [He Hd]]. apply Hl in He. apply in_shed in Hd; try tauto; [|lia]. split; [tauto|]. exists e. split; [apply He|tauto].
    + intros [Hd [c [Sc F]]]. assert (Lc := stream_lt L Sc).
      destruct (ends_terminal V A Lc) as [t [Lt [Tt [k Ek]]]]. destruct (End k c Sc) as [e [He Fe]]; [now rewrite Ek|].
      exists e. assert (Le : e < length fdir) by (apply (stream_lt L); apply He). split; [now apply Hl|].
      apply in_shed; auto; [lia|]. split; auto. eapply flows_trans; eauto.
  - replace (Z.of_nat (length (flat_map (shed_cells fuel fdir) l))) with (wsum Z.add 0%Z (fun c => nth c cells 0%Z) l).
    + apply wsum_sum_over; auto; intros; lia.
    + rewrite <- wsum_ones, <- (@wsum_flat Z Z.add 0%Z) by (intros; lia). apply wsum_ext. intros q Hq. apply Hl in Hq.
      rewrite wsum_ones. apply nth_error_nth. apply Cell. tauto.
Qed.

(** streams delineated with a constant threshold have no gaps *)
Theorem C146_delineated_streams_have_no_gaps :
  forall (W : Type) (wadd : W -> W -> W) (wzero : W) fdir (area : list W) fuel facc t strm,
    valid_fdir fdir -> acyclic fdir -> length area = length fdir -> S (length fdir) <= fuel ->
    flow_accumulation_cells wadd wzero fuel fdir area = Ok facc ->
    delineate_streams Z.geb facc (Scalar t) None = Ok strm ->
    length strm = length fdir /\ no_gaps fdir strm.
Proof.
  intros W wadd wzero fdir area fuel facc t strm V A La Hf Ea Ed.
  assert (RO := @C30_streams_run_on_cells W wadd wzero fdir area fuel facc t strm V A La Hf Ea Ed).
  assert (Lf : length facc = length fdir).
  { destruct (@C18_accumulation_finishes W wadd wzero fdir area V La) as (x & y & Lx & _ & Ex). destruct (Ex fuel Hf). congruence. }
  cbn in Ed. injection Ed as <-.
  assert (Ls : length (map (fun a => if Z.geb a t then 1%Z else 0%Z) facc) = length fdir) by now rewrite map_length.
  split; auto. set (s0 := map (fun a => if Z.geb a t then 1%Z else 0%Z) facc) in *.
  assert (One : forall c, stream_cell s0 c <-> nth_error s0 c = Some 1%Z).
  { intros c. split; [|intros E; exists 1%Z; split; auto; lia]. intros [v [E NZ]]. rewrite E. f_equal.
    unfold s0 in E. rewrite nth_error_map in E. destruct (nth_error facc c) as [a|]; [|discriminate]. cbn in E.
    destruct (Z.geb a t); injection E as <-; congruence. }
  assert (G : forall j c, stream_cell s0 c -> stream_cell s0 (downs fdir j c)).
  { induction j as [|j IH]; intros c Sc; cbn [downs]; auto. apply IH. apply One. apply RO; [apply (stream_lt Ls Sc)|now apply One]. }
  intros c k Sc _ j _. now apply G.
Qed.

(** ** a concrete case: 0 -> 1 -> 3 -> 5, 2 -> 3, 4 -> 5, the water ends at 5; streams from two cells on *)
Module ExLat.
  Definition fdir := [1; 3; 3; 5; 5; 5]%Z.
  Definition strm := [0; 1; 0; 1; 0; 1]%Z.
  Definition cells := [1; 2; 1; 4; 1; 6]%Z.
  Example setting :
    valid_fdir fdir /\ acyclic fdir /\
    flow_accumulation_cells Z.add 0%Z 10 fdir [1; 1; 1; 1; 1; 1]%Z = Ok cells /\
    delineate_streams Z.geb cells (Scalar 2%Z) None = Ok strm /\ no_gaps fdir strm /\
    exists s2 g, mf6_connectivity 10 fdir strm = Ok (s2, g) /\ runs_into6 s2 g 1 3 /\ runs_into6 s2 g 3 5 /\
      landscape fdir strm 3 [2; 3] /\ stream_end fdir strm 5.
  Proof.
    assert (V : valid_fdir fdir) by (repeat constructor; cbn; lia).
    assert (A : acyclic fdir).
    { assert (D : forall c, c < 6 -> c <= down fdir c < 6).
      { intros c Hc. do 6 (destruct c as [|c]; [cbn; lia|]). lia. }
      assert (Up : forall k c, c < 6 -> c <= downs fdir k c < 6).
      { induction k as [|k IH]; intros c Hc; cbn [downs]; [lia|]. assert (Q := D c Hc). assert (Y := IH (down fdir c) ltac:(lia)). lia. }
      intros c Hc [T [[|k] [Hk Ek]]]; [lia|]. cbn [downs] in Ek. cbn in Hc. assert (Q := D c Hc).
      assert (Y := Up k (down fdir c) ltac:(lia)). unfold terminal in T. lia. }
    assert (Ea : flow_accumulation_cells Z.add 0%Z 10 fdir [1; 1; 1; 1; 1; 1]%Z = Ok cells) by (vm_compute; reflexivity).
    assert (Ed : delineate_streams Z.geb cells (Scalar 2%Z) None = Ok strm) by (vm_compute; reflexivity).
    split; auto. split; auto. split; auto. split; auto. split.
    { apply (@C146_delineated_streams_have_no_gaps Z Z.add 0%Z fdir [1; 1; 1; 1; 1; 1]%Z 10 cells 2%Z strm V A eq_refl ltac:(cbn; lia) Ea Ed). }
    destruct (mf6_connectivity 10 fdir strm) as [[s2 g]|] eqn:E6; [|discriminate E6].
    assert (S : forall c, In c [1; 3; 5] -> stream_cell strm c) by (intros c [<- | [<- | [<- | []]]]; exists 1%Z; split; auto; lia).
    assert (NS : forall c, In c [0; 2; 4] -> ~ stream_cell strm c) by (intros c [<- | [<- | [<- | []]]] [v [Q NQ]]; cbn in Q; congruence).
    assert (Lq : length strm = length fdir) by reflexivity.
    exists s2, g. split; auto. split; [|split; [|split]].
    - apply (mf6_next V Lq 1 3 E6). split; [apply S; cbn; auto|split; [apply S; cbn; auto|reflexivity]].
    - apply (mf6_next V Lq 3 5 E6). split; [apply S; cbn; auto|split; [apply S; cbn; auto|reflexivity]].
    - split; [repeat constructor; cbn; lia|]. intros d. split.
      + intros [<- | [<- | []]]; (split; [cbn; lia|]); (split; [apply S; cbn; auto|]).
        * exists 1. split; [reflexivity|]. intros [|j] Hj; [|lia]. apply NS. cbn; auto.
        * exists 0. split; [reflexivity|]. intros j Hj; lia.
      + intros [Hd [_ [k [Ek Hk]]]]. cbn in Hd.
        assert (T4 : forall i, downs fdir i 5 = 5) by (induction i; auto).
        destruct d as [|[|[|[|[|[|d]]]]]]; try (cbn; now auto); try lia; exfalso.
        * (* 0 meets the stream cell 1 first *)
          destruct k as [|[|k]]; [discriminate|discriminate|]. apply (Hk 1); [lia|]. apply S. cbn; auto.
        * destruct k as [|k]; [discriminate|]. apply (Hk 0); [lia|]. apply S. cbn; auto.
        * destruct k as [|k]; [discriminate|]. cbn [downs] in Ek. change (down fdir 4) with 5 in Ek. rewrite T4 in Ek. discriminate.
        * rewrite T4 in Ek. discriminate.
    - split; [apply S; cbn; auto|]. now left.
  Qed.
End ExLat.
