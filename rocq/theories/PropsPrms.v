(** C82: the cascade object built for pyGSFLOW (PrmsStreams.get_pygsflow_builder_object).

    [builder o a basin grouped many] is the answer of the call on a PrmsStreams object [o] with
    arguments stream_array [a], basin_boundary [basin], group_segments and many2many. *)
From Verif Require Import Py Spec MFlow LGraph LTopo MStream LStream LConn LSeg LSeg2 LSeg3 LSeg4
  PropsStream PropsSeg LReach PropsReach LCasc PropsCasc MSobj.
Set Implicit Arguments.
Unset Strict Implicit.
Local Open Scope nat_scope.
Local Open Scope list_scope.

(** the number of stream cells *)
Definition count_cells (strm : list Z) (n : nat) : Prop :=
  exists l, NoDup l /\ (forall c, In c l <-> stream_cell strm c) /\ length l = n.

Lemma nonzero_count strm : count_cells strm (length (nonzero strm)).
Proof. exists (nonzero strm). split; [apply where_nodup|]. split; [intro; symmetry; apply stream_cell_in|reflexivity]. Qed.

Section C82.
  Context {F : Type}.
  Variables (fone : F) (fabs : F -> F) (fsum : list F -> F) (fdiv : F -> F -> option F)
            (fle0 fkeep : F -> bool).
  Variables (lim fuel : nat) (fdir : list Z).
  Variables (slopes : list (list (option F))) (fnb : list (list Z)).
  Notation builder o a basin grouped many :=
    (snd (do_prms_builder fone fabs fsum fdiv fle0 fkeep lim fuel fdir slopes fnb o a basin grouped many)).
  Notation cascades many strm basin :=
    (if many then cascades_many fone fabs fsum fdiv fle0 fkeep fdir strm basin slopes fnb
     else cascades_one (Some fone) fdir strm basin).

  Lemma builder_eq o a basin grouped many :
    builder o a basin grouped many =
    (strm <- pick o a ;;
     ' (s, n) <- (if grouped then m <- mf2005_connectivity lim fuel true fdir strm ;; Ok (m_strm m, length (m_seg m))
                  else ' (s, g) <- mf6_connectivity lim fdir strm ;; Ok (s, length g)) ;;
     c <- cascades many s basin ;;
     Ok (CascObject c (length c) (if many then 0%Z else 1%Z) n (length (nonzero (match a with Some a => a | None => s end))))).
  Proof.
    unfold do_prms_builder, prms_connect, run2005, run6. destruct (pick o a) as [strm|e] eqn:E; cbn [bind].
    2:{ destruct grouped; cbn [bind snd]; reflexivity. }
    destruct grouped.
    - destruct (mf2005_connectivity lim fuel true fdir strm) as [m|e]; cbn [bind snd]; [|reflexivity].
      unfold do_cascades, pick, lift. cbn [so_strm so_graph bind].
      destruct (cascades many (m_strm m) basin) as [c|e]; cbn [bind snd]; [|reflexivity]. destruct a; reflexivity.
    - destruct (mf6_connectivity lim fdir strm) as [[s g]|e]; cbn [bind snd]; [|reflexivity].
      unfold do_cascades, pick, lift. cbn [so_strm so_graph bind].
      destruct (cascades many s basin) as [c|e]; cbn [bind snd]; [|reflexivity]. destruct a; reflexivity.
  Qed.

  (** whatever was called before: the answer depends on the arguments and on the stream array now
      stored, not on connectivity computed for an earlier array *)
  Theorem C82_follows_current_streams : forall o o' a basin grouped many,
    a <> None \/ so_strm o = so_strm o' -> builder o a basin grouped many = builder o' a basin grouped many.
  Proof.
    intros o o' a basin grouped many H. rewrite !builder_eq. unfold pick. destruct a; auto.
    destruct H as [H|H]; [contradiction|]. now rewrite H.
  Qed.

  (** an array passed in gives the same as storing it first, but for nreaches *)
  Lemma finish_in_strm (strm : list Z) (c : list (Z * Z * option F)) out u d f s :
    finish_cascades strm c = Ok out -> In (u, d, f, s) out -> exists k, npidx (length strm) (d - 1) = Some k /\ nth_error strm k = Some s.
  Proof.
    unfold finish_cascades. revert out. induction c as [|[[u0 d0] f0] c IH]; intros out H Hi; cbn [mapM] in H; [inversion H; subst; contradiction|].
    apply bind_ok in H. destruct H as [x [Hx H]]. apply bind_ok in H. destruct H as [l [Hl H]]. inversion H; subst out; clear H.
    destruct Hi as [Hi|Hi]; [|eapply IH; eauto]. apply bind_ok in Hx. destruct Hx as [v [Hv Hx]]. rewrite Hi in Hx. inversion Hx; subst.
    unfold npget in Hv. replace (d0 + 1 - 1)%Z with d0 by lia. destruct (npidx (length strm) d0) as [k|]; [|discriminate]. exists k. split; auto.
    apply get_ok in Hv. rewrite Hv. f_equal. destruct (Z.eqb_spec v 0); auto.
  Qed.

  Lemma casc_in_strm (many : bool) (strm : list Z) basin out u d f s :
    (cascades many strm basin) = Ok out -> In (u, d, f, s) out -> exists k, npidx (length strm) (d - 1) = Some k /\ nth_error strm k = Some s.
  Proof.
    destruct many; intros H Hi.
    - unfold cascades_many in H. apply bind_ok in H. destruct H as [c [_ H]]. eapply finish_in_strm; eauto.
    - unfold cascades_one in H. apply bind_ok in H. destruct H as [c [_ H]]. eapply finish_in_strm; eauto.
  Qed.

  (** one segment per stream cell: the counts agree with the network, every stream link names the
      segment of the receiving cell *)
  Theorem C82_ungrouped : forall o a strm basin many obj,
    valid_fdir fdir -> pick o a = Ok strm -> length strm = length fdir ->
    builder o a basin false many = Ok obj ->
    co_ncascade obj = length (co_casc obj) /\ co_flag obj = (if many then 0 else 1)%Z /\
    count_cells strm (co_nreaches obj) /\ co_nsegments obj = co_nreaches obj /\
    forall u d f s, In (u, d, f, s) (co_casc obj) ->
      (0 <= s <= Z.of_nat (co_nsegments obj))%Z /\
      exists k, npidx (length strm) (d - 1) = Some k /\ (s = 0%Z <-> nth_error strm k = Some 0%Z).
  Proof.
    intros o a strm basin many obj V EP L H. rewrite builder_eq, EP in H. cbn [bind] in H.
    destruct (mf6_connectivity lim fdir strm) as [[s2 g]|] eqn:E; cbn [bind] in H; [|discriminate].
    destruct (cascades many s2 basin) as [c|] eqn:EC; cbn [bind] in H; [|discriminate]. inversion H; subst obj; clear H.
    cbn [co_casc co_ncascade co_flag co_nsegments co_nreaches].
    destruct (@C34_reaches_number_the_cells fdir strm lim s2 g V L E) as (L2 & U & N & Z0 & Kd & Kg).
    destruct (mf6_spec strm lim V L E) as [order R].
    assert (Lg : length g = length (nonzero strm)).
    { rewrite (r_graph R), map_length. apply Permutation_length. apply NoDup_Permutation; [apply (order_nodup R)|apply where_nodup|]. intro x. apply (order_in R). }
    assert (SC : forall x, stream_cell s2 x <-> stream_cell strm x).
    { intro x. split.
      - intros [v [Hv Nv]]. assert (x < length strm) by (rewrite <- L2; apply nth_error_Some; congruence).
        destruct (nth_error strm x) as [w|] eqn:Ew; [|apply nth_error_None in Ew; lia]. exists w. split; auto. intros ->. rewrite (Z0 _ Ew) in Hv. congruence.
      - intros [v [Hv Nv]]. destruct (N x) as [r [Hr Hs]]; [apply nth_error_Some; congruence|congruence|]. exists r. split; auto. lia. }
    assert (CN : length (nonzero (match a with Some a => a | None => s2 end)) = length (nonzero strm)).
    { destruct a as [a|]; [unfold pick in EP; inversion EP; reflexivity|].
      apply Permutation_length, NoDup_Permutation; [apply where_nodup|apply where_nodup|]. intro x. rewrite <- !stream_cell_in. apply SC. }
    rewrite CN. split; auto. split; auto. split; [apply nonzero_count|]. split; [auto|].
    intros u d f s Hi. destruct (casc_in_strm EC Hi) as [k [Hk Hs]]. rewrite L2 in Hk.
    assert (kl : k < length strm) by (eapply npidx_lt; eauto).
    destruct (nth_error strm k) as [w|] eqn:Ew; [|apply nth_error_None in Ew; lia].
    destruct (Z.eq_dec w 0) as [->|Nw].
    - rewrite (Z0 _ Ew) in Hs. inversion Hs; subst s. split; [lia|]. exists k. rewrite Ew. tauto.
    - destruct (N k kl) as [r [Hr Hs']]; [congruence|]. rewrite Hs in Hs'. inversion Hs'; subst r. split; [lia|]. exists k. split; auto. rewrite Ew.
      split; intro X; [lia|congruence].
  Qed.

  (** grouped into segments *)
  Theorem C82_grouped : forall o a strm basin many obj,
    valid_fdir fdir -> length fdir <= fuel -> pick o a = Ok strm -> length strm = length fdir ->
    builder o a basin true many = Ok obj ->
    co_ncascade obj = length (co_casc obj) /\ co_flag obj = (if many then 0 else 1)%Z /\
    (* nsegments: the headwaters and confluences *)
    (exists l, NoDup l /\ (forall c, In c l <-> starts_segment fdir strm c) /\ length l = co_nsegments obj) /\
    (* nreaches: the stream cells, if the array is passed in or no stream cell lies on a closed ring *)
    (a <> None \/ (forall c, ~ closed_ring fdir strm c) -> count_cells strm (co_nreaches obj)) /\
    forall u d f s, In (u, d, f, s) (co_casc obj) -> (0 <= s <= Z.of_nat (co_nsegments obj))%Z.
  Proof.
    intros o a strm basin many obj V Hf EP L H. rewrite builder_eq, EP in H. cbn [bind] in H.
    destruct (mf2005_connectivity lim fuel true fdir strm) as [m|] eqn:E; cbn [bind] in H; [|discriminate].
    destruct (cascades many (m_strm m) basin) as [c|] eqn:EC; cbn [bind] in H; [|discriminate]. inversion H; subst obj; clear H.
    cbn [co_casc co_ncascade co_flag co_nsegments co_nreaches].
    destruct (@grouped_result fdir strm lim fuel m V L Hf E) as [K [sg [tg [HS [HK [C [Tg [G U]]]]]]]].
    assert (LK : length (m_seg m) = length K) by (rewrite (c_seg C); apply map_length).
    split; auto. split; auto. split; [exists K; split; [apply (c_nd C)|split; [exact HS|auto]]|].
    assert (VAL : forall x, x < length strm -> In x (nonzero strm) ->
              (exists c j, In c K /\ j <= slen fdir strm K c /\ x = downs fdir j c) \/
              (forall c j, In c K -> j <= slen fdir strm K c -> x <> downs fdir j c)).
    { intros x Hx Hn. destruct (in_dec Nat.eq_dec x (flat_map (fun c => map (fun j => downs fdir j c) (seq 0 (S (slen fdir strm K c)))) K)) as [Y|Y].
      - left. apply in_flat_map in Y. destruct Y as [c0 [Hc Y]]. apply in_map_iff in Y. destruct Y as [j [<- Hj]]. apply in_seq in Hj. exists c0, j. repeat split; auto; lia.
      - right. intros c0 j Hc Hj ->. apply Y. apply in_flat_map. exists c0. split; auto. apply in_map_iff. exists j. split; auto. apply in_seq. lia. }
    split.
    - intros HH. destruct a as [a|]; [unfold pick in EP; inversion EP; subst a; apply nonzero_count|].
      destruct HH as [HH|HR]; [contradiction|].
      assert (X : length (nonzero (m_strm m)) = length (nonzero strm)).
      { apply Permutation_length, NoDup_Permutation; [apply where_nodup|apply where_nodup|]. intro x. split; intro Hx.
        - destruct (in_dec Nat.eq_dec x (nonzero strm)) as [Y|Y]; auto. apply in_nonzero in Hx. rewrite (c_off C x Y) in Hx. lia.
        - assert (Hl := Hx). apply in_nonzero in Hl. apply in_nonzero. rewrite (c_len C). split; [lia|].
          destruct (VAL x) as [[c0 [j [Hc [Hj ->]]]]|Y]; [lia|auto| |].
          + rewrite (c_at C c0 Hc Hj). assert (RR := c_rng C _ Hc). lia.
          + exfalso. destruct (@C42_segments_partition_the_streams fdir strm lim fuel m V L Hf E) as (_ & _ & HP & _).
            assert (SX : stream_cell strm x) by now apply stream_cell_in. destruct (proj2 (HP x SX) (HR x)) as (s & r & Hr).
            rewrite (c_nsr C) in Hr. apply in_rows in Hr. destruct Hr as [c0 [j [Hc [Hj [En _]]]]]. apply Nat2Z.inj in En. now apply (Y c0 j Hc Hj). }
      rewrite X. apply nonzero_count.
    - intros u d f s Hi. destruct (casc_in_strm EC Hi) as [k [Hk Hs]]. rewrite LK.
      rewrite (c_len C) in Hk. assert (kl := npidx_lt _ _ Hk).
      assert (Ev : s = nth k (m_strm m) 0%Z) by (symmetry; now apply nth_error_nth). rewrite Ev.
      destruct (in_dec Nat.eq_dec k (nonzero strm)) as [Y|Y]; [|rewrite (c_off C k Y); lia].
      destruct (VAL k) as [[c0 [j [Hc [Hj ->]]]]|Z1]; [lia|auto| |].
      + rewrite (c_at C c0 Hc Hj). assert (RR := c_rng C _ Hc). lia.
      + rewrite (U k Y Z1). destruct (_ && _)%bool; [|lia]. destruct (nth_error K _) as [c0|] eqn:E0; [|lia].
        apply nth_error_In in E0. assert (RR := c_rng C _ E0). lia.
  Qed.

  (** many-to-one cascades: the call succeeds on every network *)
  Theorem C82_succeeds : forall o a strm basin grouped,
    valid_fdir fdir -> length fdir <= fuel -> length fdir < lim ->
    pick o a = Ok strm -> length strm = length fdir -> basin_fits basin (length fdir) ->
    exists obj, builder o a basin grouped false = Ok obj.
  Proof.
    intros o a strm basin grouped V Hf Hl EP L HB. rewrite builder_eq, EP. cbn [bind]. destruct grouped.
    - destruct (@C44_connectivity_succeeds fdir strm lim fuel true V L Hf Hl) as [m E]. rewrite E. cbn [bind].
      destruct (@grouped_result fdir strm lim fuel m V L Hf E) as [K [sg [tg [_ [_ [C _]]]]]].
      destruct (@one_shape (option F) (Some fone) fdir (m_strm m) V (c_len C) basin HB) as (mm & _ & _ & _ & EC). rewrite EC. cbn [bind]. eauto.
    - destruct (@C34_connectivity_succeeds fdir strm lim V L) as (s2 & g & E); [lia|]. rewrite E. cbn [bind].
      destruct (@C34_reaches_number_the_cells fdir strm lim s2 g V L E) as (L2 & _).
      destruct (@one_shape (option F) (Some fone) fdir s2 V (eq_trans L2 L) basin HB) as (mm & _ & _ & _ & EC). rewrite EC. cbn [bind]. eauto.
  Qed.
End C82.

(** ** Instance: 0 -> 1 -> 2 -> 2 and 3 -> 1; cells 0, 1, 2 are stream cells *)
Module ExP.
  Definition fdir := [1; 2; 2; 1]%Z.
  Definition o := SObj (Some [1; 1; 1; 0]%Z) None None [].
  Definition call grouped := snd (do_prms_builder tt (fun x => x) (fun _ => tt) (fun x _ => Some x) (fun _ => true) (fun _ => true)
                                   100 100 fdir [] [] o None None grouped false).
  Example valid : valid_fdir fdir /\ pick o None = Ok [1; 1; 1; 0]%Z.
  Proof. split; [repeat constructor; lia|reflexivity]. Qed.
  Example ungrouped : exists obj, call false = Ok obj /\ co_nsegments obj = 3 /\ co_nreaches obj = 3 /\ In (4, 2, Some tt, 2)%Z (co_casc obj).
  Proof. eexists. split; [vm_compute; reflexivity|]. cbn. tauto. Qed.
  Example grouped : exists obj, call true = Ok obj /\ co_nsegments obj = 2 /\ co_nreaches obj = 3 /\ In (4, 2, Some tt, 1)%Z (co_casc obj).
  Proof. eexists. split; [vm_compute; reflexivity|]. cbn. tauto. Qed.
End ExP.
Print Assumptions C82_ungrouped.
Print Assumptions C82_grouped.
