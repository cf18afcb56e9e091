(** The result of the MODFLOW-2005 connectivity in both modes. *)
From Verif Require Import Py Spec MFlow LGraph LTopo MStream LStream LSeg LSeg2 LSeg3.
Set Implicit Arguments.
Local Open Scope nat_scope.
Local Open Scope list_scope.

Section Res.
  Variables (fdir strm : list Z).
  Notation nodes := (nonzero strm).
  Notation N := (length fdir).
  Notation dn := (down fdir).
  Notation it := (downs fdir).

  (** [K]: the first cells of the segments; [len c]: reaches of the segment of [c], less 1;
      [sg c]: its number; [tg c]: the number of the segment it flows to *)
  Definition rows (len : nat -> nat) (sg : nat -> Z) (c : nat) : list (Z * Z * Z) :=
    map (fun j => (Z.of_nat (it j c), sg c, (1 + Z.of_nat j)%Z)) (seq 0 (S (len c))).

  Record conn5 (m : mf2005) (K : list nat) (len : nat -> nat) (sg tg : nat -> Z) : Prop := {
    c_nd : NoDup K;
    c_num : forall y, (1 <= y <= Z.of_nat (length K))%Z -> exists c, In c K /\ sg c = y;
    c_rng : forall c, In c K -> (1 <= sg c <= Z.of_nat (length K))%Z;
    c_inj : forall c c', In c K -> In c' K -> sg c = sg c' -> c = c';
    c_node : forall c j, In c K -> j <= len c -> In (it j c) nodes;
    c_disj : forall c c' j j', In c K -> In c' K -> j <= len c -> j' <= len c' -> it j c = it j' c' -> c = c' /\ j = j';
    c_nsr : m_nsr m = flat_map (rows len sg) K;
    c_seg : m_seg m = map (fun c => (sg c, tg c)) K;
    c_len : length (m_strm m) = N;
    c_at : forall c j, In c K -> j <= len c -> nth (it j c) (m_strm m) 0%Z = sg c;
    c_off : forall x, ~ In x nodes -> nth x (m_strm m) 0%Z = 0%Z;
    c_tg0 : forall c, In c K -> ~ In (it (S (len c)) c) nodes -> tg c = 0%Z;
    c_ord : forall c, In c K -> tg c <> 0%Z -> tg c <> sg c -> ~ flows_through fdir (it (S (len c)) c) c -> (sg c < tg c)%Z
  }.

  Hypothesis V : valid_fdir fdir.
  Hypothesis L : length strm = length fdir.

  (** ** grouped *)
  Section Grouped.
    Variable K : list nat.
    Hypothesis NDK : NoDup K.
    Hypothesis HK : forall c, In c K <-> In c nodes /\ length (inflows fdir strm c) <> 1.
    Notation sno := (segno K).
    Notation sl := (slen fdir strm K).
    Notation stg := (starget fdir strm K).
    Notation gseg := (map (fun c => (sno c, stg c)) K).

    Lemma sno_rng c : In c K -> (1 <= sno c <= Z.of_nat (length K))%Z.
    Proof.
      intros H. destruct (In_nth_error _ _ H) as [i Hi]. rewrite (segno_at NDK _ Hi).
      assert (i < length K) by (apply nth_error_Some; congruence). lia.
    Qed.

    Lemma sno_inj c c' : In c K -> In c' K -> sno c = sno c' -> c = c'.
    Proof.
      intros H H' E. destruct (In_nth_error _ _ H) as [i Hi]. destruct (In_nth_error _ _ H') as [i' Hi'].
      rewrite (segno_at NDK _ Hi), (segno_at NDK _ Hi') in E. assert (i = i') by lia. congruence.
    Qed.

    Lemma sno_num y : (1 <= y <= Z.of_nat (length K))%Z -> exists c, In c K /\ sno c = y.
    Proof.
      intros Hy. destruct (nth_error K (Z.to_nat y - 1)) as [c|] eqn:E; [|apply nth_error_None in E; lia].
      exists c. split; [eapply nth_error_In; eauto|]. rewrite (segno_at NDK _ E). lia.
    Qed.

    Lemma stg_cases c : In c K -> (~ In (it (S (sl c)) c) nodes /\ stg c = 0%Z) \/
      (In (it (S (sl c)) c) K /\ stg c = sno (it (S (sl c)) c)).
    Proof.
      intros H. unfold starget. destruct (memn (it (S (sl c)) c) nodes) eqn:E.
      - right. split; auto. apply memn_spec in E. destruct (slen_segm fdir strm L K HK c H) as [S _]. now apply (sg_end S).
      - left. split; auto. now apply memn_false.
    Qed.

    Lemma gseg_ok : segs_ok gseg.
    Proof.
      constructor.
      - rewrite map_map. cbn [fst]. apply nodup_map_in; auto. intros; now apply sno_inj.
      - intros x. rewrite map_map, map_length. cbn [fst]. rewrite in_map_iff. split.
        + intros [c [<- H]]. now apply sno_rng.
        + intros H. destruct (sno_num H) as [c [H1 H2]]. eauto.
      - intros a b H. apply in_map_iff in H. destruct H as [c [E Hc]]. inversion E; subst.
        destruct (stg_cases c Hc) as [[_ X]|[X1 X2]]; [now left|right].
        rewrite map_map. cbn [fst]. rewrite X2. now apply (in_map sno).
    Qed.

    Lemma gseg_leads a b : leads gseg a b -> forall c c', In c K -> In c' K -> a = sno c -> b = sno c' -> flows_through fdir c c'.
    Proof.
      induction 1 as [a|a o b Ho Hl IH]; intros c c' Hc Hc' -> Eb.
      - apply sno_inj in Eb; auto. subst. now exists 0.
      - assert (Eo : o = stg c).
        { assert (X : dget Z.eqb gseg (sno c) = Some (stg c)).
          { apply (dget_in_nodup Z.eqb zeqb); [apply gseg_ok|]. apply in_map_iff. eauto. }
          congruence. }
        destruct (stg_cases c Hc) as [[_ X]|[X1 X2]].
        + exfalso. rewrite X in Eo. subst o. inversion Hl as [x Ex Ex2|x o' y Hx]; subst.
          * assert (Y := sno_rng c' Hc'). lia.
          * apply (dget_in Z.eqb zeqb) in Hx. apply in_map_iff in Hx. destruct Hx as [c2 [E2 Hc2]]. inversion E2.
            assert (Y := sno_rng c2 Hc2). lia.
        + destruct (IH _ c' X1 Hc') as [n Hn]; [congruence|auto|]. exists (S (sl c) + n). now rewrite downs_add.
    Qed.

    Lemma grouped_conn lim fuel : N <= fuel -> seg_starts (ng fdir strm) = enum (map Z.of_nat K) ->
      (forall m, mf2005_connectivity lim fuel true fdir strm = Ok m ->
         exists sg tg, conn5 m K sl sg tg /\ m_graph m = ng fdir strm /\
           (forall c, In c K -> In (it (S (sl c)) c) nodes -> In (it (S (sl c)) c) K /\ tg c = sg (it (S (sl c)) c)) /\
           (forall x, In x nodes -> (forall c j, In c K -> j <= sl c -> x <> it j c) ->
              nth x (m_strm m) 0%Z =
                if ((0 <=? nth x strm 0%Z) && (nth x strm 0%Z <=? Z.of_nat (length K)))%Z then
                  match nth_error K (Z.to_nat (nth x strm 0%Z) - 1) with Some c => sg c | None => 0%Z end
                else 0%Z)) /\
      (S (length K) <= lim -> exists m, mf2005_connectivity lim fuel true fdir strm = Ok m).
    Proof.
      intros Hf E. destruct (group_spec fdir strm L NDK HK Hf E) as [a [Eg [La [A1 A2]]]].
      rewrite mf2005_finish, (node_graph_eq strm V L). cbn [bind]. rewrite Eg. cbn [bind].
      set (s := Grp (flat_map (srows fdir strm K) K) a gseg).
      assert (O : segs_ok (g_seg s)) by apply gseg_ok.
      assert (Hn : forall n q r, In (n, q, r) (g_nsr s) -> In q (map fst (g_seg s))).
      { intros n q r H. cbn [s g_nsr g_seg] in *. apply in_flat_map in H. destruct H as [c [Hc H]].
        unfold srows in H. apply in_map_iff in H. destruct H as [j [Ej _]]. inversion Ej; subst.
        rewrite map_map. cbn [fst]. now apply (in_map sno). }
      split; [|intros Hl; apply (@finish_total lim (ng fdir strm) s O Hn); cbn [s g_seg]; now rewrite map_length].
      intros m Em. destruct (@finish_inv lim (ng fdir strm) s O Hn m Em) as [mu [R [Es [Egr [Eseg [En Ho]]]]]].
      cbn [s g_seg g_nsr g_strm] in *. rewrite map_length in R. clear Hn.
      assert (Es' : forall x, nth x (m_strm m) 0%Z =
        (if ((0 <=? nth x a 0%Z) && (nth x a 0%Z <=? Z.of_nat (length K)))%Z then mu (nth x a 0%Z) else 0%Z)).
      { intros x. rewrite Es. destruct (Nat.lt_ge_cases x (length a)) as [Hx|Hx].
        - apply nth_error_nth. rewrite nth_error_map, (nth_error_nth' a 0%Z Hx). unfold new_strm, s. cbn [option_map g_seg]. now rewrite map_length.
        - rewrite !nth_overflow by (try rewrite map_length; lia).
          destruct (Z.leb_spec 0 (Z.of_nat (length K))); [|lia]. simpl. now rewrite (rn_0 R). }
      exists (fun c => mu (sno c)), (fun c => mu (stg c)). split; [|split; [exact Egr|split]].
      - constructor.
        + exact NDK.
        + intros y Hy. destruct (rn_surj R Hy) as [x [Hx <-]]. destruct (sno_num Hx) as [c [H1 <-]]. eauto.
        + intros c Hc. apply (rn_in R). now apply sno_rng.
        + intros c c' Hc Hc' X. apply (rn_inj R) in X; try (now apply sno_rng). now apply sno_inj.
        + intros c j Hc Hj. destruct (slen_segm fdir strm L K HK c Hc) as [S _]. now apply (sg_node S).
        + intros c c' j j' Hc Hc' Hj Hj' X.
          exact (segm_disjoint L HK Hc Hc' (proj1 (slen_segm fdir strm L K HK c Hc)) (proj1 (slen_segm fdir strm L K HK c' Hc')) Hj Hj' X).
        + rewrite En. rewrite flat_map_concat_map, concat_map, map_map, <- flat_map_concat_map.
          apply flat_map_ext. intros c. unfold srows, rows. rewrite map_map. reflexivity.
        + rewrite Eseg, map_map. reflexivity.
        + rewrite Es, map_length. auto.
        + intros c j Hc Hj. rewrite Es', A1 by auto. assert (X := sno_rng c Hc).
          destruct (Z.leb_spec 0 (sno c)); [|lia]. destruct (Z.leb_spec (sno c) (Z.of_nat (length K))); [|lia]. reflexivity.
        + intros x Hx. rewrite Es', A2.
          * rewrite in_nonzero in Hx. assert (X : nth x strm 0%Z = 0%Z).
            { destruct (Nat.lt_ge_cases x (length strm)) as [Hl|Hl]; [|now apply nth_overflow].
              destruct (Z.eq_dec (nth x strm 0%Z) 0); auto. exfalso. auto. }
            rewrite X. destruct (Z.leb_spec 0 (Z.of_nat (length K))); [|lia]. simpl. apply (rn_0 R).
          * intros c j Hc Hj ->. apply Hx. destruct (slen_segm fdir strm L K HK c Hc) as [S _]. now apply (sg_node S).
        + intros c Hc H. destruct (stg_cases c Hc) as [[_ X]|[X _]]; [rewrite X; apply (rn_0 R)|].
          exfalso. apply H. now apply (K_node fdir strm K HK).
        + intros c Hc H0 H1 Hf'. destruct (stg_cases c Hc) as [[_ X]|[X1 X2]]; [rewrite X in H0; now rewrite (rn_0 R) in H0|].
          apply (Ho (sno c) (stg c)).
          * apply in_map_iff. eauto.
          * rewrite X2. assert (Y := sno_rng _ X1). lia.
          * intros Y. apply H1. now rewrite Y.
          * intros Hl. apply Hf'. apply (gseg_leads Hl); auto.
      - intros c Hc Hn. destruct (stg_cases c Hc) as [[X _]|[X1 X2]]; [contradiction|]. split; auto. now rewrite X2.
      - intros x Hx Hn. rewrite Es', A2 by auto.
        destruct ((0 <=? nth x strm 0%Z) && (nth x strm 0%Z <=? Z.of_nat (length K)))%Z eqn:B; auto.
        apply andb_true_iff in B. rewrite !Z.leb_le in B. apply in_nonzero in Hx.
        destruct (nth_error K (Z.to_nat (nth x strm 0%Z) - 1)) as [c|] eqn:Ec.
        + rewrite (segno_at NDK _ Ec). f_equal. lia.
        + apply nth_error_None in Ec. lia.
    Qed.
  End Grouped.

  (** ** one segment per cell *)
  Definition nstep (si : list (Z * Z) * Z) (kv : Z * option Z) : list (Z * Z) * Z :=
    let '(node, dn) := kv in
        let si1 := if dhas Z.eqb (fst si) node then si
                   else (dset Z.eqb (fst si) node (snd si), (snd si + 1)%Z) in
        match dn with
        | None => si1
        | Some d => if dhas Z.eqb (fst si1) d then si1
                    else (dset Z.eqb (fst si1) d (snd si1), (snd si1 + 1)%Z)
        end.

  Definition est (K : list nat) : list (Z * Z) * Z := (enum (map Z.of_nat K), Z.of_nat (S (length K))).

  Definition add1 (K : list nat) (x : nat) : list nat := if memn x K then K else K ++ [x].

  Lemma est_add K x : (if dhas Z.eqb (fst (est K)) (Z.of_nat x) then est K
     else (dset Z.eqb (fst (est K)) (Z.of_nat x) (snd (est K)), (snd (est K) + 1)%Z)) = est (add1 K x).
  Proof.
    unfold est, add1. cbn [fst snd]. rewrite enum_has, memz_nat. destruct (memn x K) eqn:M; auto.
    apply memn_false in M.
    replace (Z.of_nat (S (length K))) with (Z.of_nat (S (length (map Z.of_nat K)))) by (now rewrite map_length).
    rewrite enum_dset by (now rewrite in_zmap). rewrite map_app, app_length, map_length. cbn [length map]. f_equal. lia.
  Qed.

  Lemma add1_in K x y : In y (add1 K x) <-> In y K \/ y = x.
  Proof.
    unfold add1. destruct (memn x K) eqn:M.
    - apply memn_spec in M. split; auto. intros [H| ->]; auto.
    - rewrite in_app_iff. simpl. intuition.
  Qed.
  Lemma add1_nodup K x : NoDup K -> NoDup (add1 K x).
  Proof.
    intros H. unfold add1. destruct (memn x K) eqn:M; auto. apply memn_false in M.
    apply (Permutation_NoDup (Permutation_cons_append K x)). now constructor.
  Qed.

  Lemma numbers : exists K, number_nodes (ng fdir strm) = enum (map Z.of_nat K) /\ NoDup K /\ (forall c, In c K <-> In c nodes).
  Proof.
    change (number_nodes (ng fdir strm)) with (fst (fold_left nstep (ng fdir strm) (est []))).
    assert (G : forall l K, NoDup K -> (forall c, In c K -> In c nodes) -> (forall c, In c l -> In c nodes) ->
      exists K', fold_left nstep (map (fun c => (Z.of_nat c, option_map Z.of_nat (nx fdir strm c))) l) (est K) = est K' /\
        NoDup K' /\ (forall c, In c K' -> In c nodes) /\ (forall c, In c K \/ In c l -> In c K')).
    { induction l as [|c l IH]; intros K ND H1 H2; cbn [map fold_left].
      - exists K. repeat split; auto. intros c [H|[]]; auto.
      - unfold nstep at 2. cbv zeta. rewrite est_add.
        assert (Hc : In c nodes) by (apply H2; now left).
        assert (ND1 := add1_nodup c ND).
        unfold nx. destruct (memn (dn c) nodes) eqn:M; cbn [option_map].
        + rewrite est_add. apply memn_spec in M. destruct (IH (add1 (add1 K c) (dn c))) as [K' [E [N1 [N2 N3]]]].
          * now apply add1_nodup.
          * intros y Hy. rewrite !add1_in in Hy. destruct Hy as [[Hy| ->]| ->]; auto.
          * intros; apply H2; now right.
          * exists K'. split; [exact E|]. repeat split; auto. intros y [Hy|[<-|Hy]]; apply N3; rewrite !add1_in; auto.
        + destruct (IH (add1 K c)) as [K' [E [N1 [N2 N3]]]]; auto.
          * intros y Hy. rewrite !add1_in in Hy. destruct Hy as [Hy| ->]; auto.
          * intros; apply H2; now right.
          * exists K'. split; [exact E|]. repeat split; auto. intros y [Hy|[<-|Hy]]; apply N3; rewrite !add1_in; auto. }
    destruct (G nodes []) as [K [E [N1 [N2 N3]]]]; auto; [constructor|intros c []|].
    unfold ng. rewrite E. exists K. cbn [est fst]. repeat split; auto.
  Qed.

  Section Single.
    Variable K : list nat.
    Hypothesis NDK : NoDup K.
    Hypothesis HK : forall c, In c K <-> In c nodes.
    Notation sno := (segno K).
    Definition stg1 (c : nat) : Z := if memn (dn c) nodes then if Nat.eqb (dn c) c then 0%Z else sno (dn c) else 0%Z.
    Notation gseg := (map (fun c => (sno c, stg1 c)) nodes).

    Lemma klen : length K = length nodes.
    Proof.
      apply Nat.le_antisymm; apply NoDup_incl_length; auto; try apply nonzero_nodup; intros x; apply HK.
    Qed.

    Lemma stg1_cases c : In c nodes -> (stg1 c = 0%Z /\ (~ In (dn c) nodes \/ dn c = c)) \/ (In (dn c) nodes /\ dn c <> c /\ stg1 c = sno (dn c)).
    Proof.
      intros H. unfold stg1. destruct (memn (dn c) nodes) eqn:E.
      - apply memn_spec in E. destruct (Nat.eqb_spec (dn c) c); auto.
      - apply memn_false in E. auto.
    Qed.

    Lemma single_seg_ok : segs_ok gseg.
    Proof.
      constructor.
      - rewrite map_map. cbn [fst]. apply nodup_map_in; [apply nonzero_nodup|]. intros x y Hx Hy. apply (sno_inj NDK); now apply HK.
      - intros x. rewrite map_map, map_length. cbn [fst]. rewrite in_map_iff, <- klen. split.
        + intros [c [<- H]]. apply (sno_rng NDK). now apply HK.
        + intros H. destruct (sno_num NDK H) as [c [H1 H2]]. exists c. split; auto. now apply HK.
      - intros a b H. apply in_map_iff in H. destruct H as [c [E Hc]]. inversion E; subst.
        destruct (stg1_cases c Hc) as [[X _]|[X1 [_ X2]]]; [now left|right].
        rewrite map_map. cbn [fst]. rewrite X2. now apply (in_map sno).
    Qed.

    Lemma single_leads a b : leads gseg a b -> forall c c', In c nodes -> In c' nodes -> a = sno c -> b = sno c' -> flows_through fdir c c'.
    Proof.
      induction 1 as [a|a o b Ho Hl IH]; intros c c' Hc Hc' -> Eb.
      - apply (sno_inj NDK) in Eb; try now apply HK. subst. now exists 0.
      - assert (Eo : o = stg1 c).
        { assert (X : dget Z.eqb gseg (sno c) = Some (stg1 c)).
          { apply (dget_in_nodup Z.eqb zeqb); [apply single_seg_ok|]. apply in_map_iff. eauto. }
          congruence. }
        destruct (stg1_cases c Hc) as [[X _]|[X1 [_ X2]]].
        + exfalso. rewrite X in Eo. subst o. inversion Hl as [x Ex Ex2|x o' y Hx]; subst.
          * assert (Y := sno_rng NDK c' (proj2 (HK c') Hc')). lia.
          * apply (dget_in Z.eqb zeqb) in Hx. apply in_map_iff in Hx. destruct Hx as [c2 [E2 Hc2]]. inversion E2.
            assert (Y := sno_rng NDK c2 (proj2 (HK c2) Hc2)). lia.
        + destruct (IH _ c' X1 Hc') as [n Hn]; [congruence|auto|]. exists (S n). exact Hn.
    Qed.

    Lemma single_spec : number_nodes (ng fdir strm) = enum (map Z.of_nat K) ->
      exists a, single_segments (ng fdir strm) strm = Ok (Grp (map (fun c => (Z.of_nat c, sno c, 1%Z)) nodes) a gseg) /\
        length a = N /\ (forall c, In c nodes -> nth c a 0%Z = sno c) /\ (forall c, ~ In c nodes -> nth c a 0%Z = nth c strm 0%Z).
    Proof.
      intros E. unfold single_segments. cbv zeta. rewrite E.
      match goal with |- exists a, foldM ?f _ _ = _ /\ _ => set (F := f) end.
      assert (Hget : forall x, In x nodes -> dget Z.eqb (enum (map Z.of_nat K)) (Z.of_nat x) = Some (sno x)).
      { intros x Hx. apply HK, In_nth_error in Hx. destruct Hx as [i Hi].
        rewrite (segno_at NDK _ Hi). apply enum_get; [now apply nodup_zmap|]. rewrite nth_error_map, Hi. reflexivity. }
      assert (G : forall todo done, nodes = done ++ todo -> forall a, length a = N ->
         (forall c, In c done -> nth c a 0%Z = sno c) ->
         (forall c, In c nodes -> nth c a 0%Z = sno c \/ In c todo) ->
         (forall c, ~ In c nodes -> nth c a 0%Z = nth c strm 0%Z) ->
         exists a', foldM F (map (fun c => (Z.of_nat c, option_map Z.of_nat (nx fdir strm c))) todo)
             (Grp (map (fun c => (Z.of_nat c, sno c, 1%Z)) done) a (map (fun c => (sno c, stg1 c)) done)) =
             Ok (Grp (map (fun c => (Z.of_nat c, sno c, 1%Z)) nodes) a' gseg) /\
           length a' = N /\ (forall c, In c nodes -> nth c a' 0%Z = sno c) /\ (forall c, ~ In c nodes -> nth c a' 0%Z = nth c strm 0%Z)).
      { induction todo as [|c todo IH]; intros done EK a La A1 A3 A2.
        - rewrite app_nil_r in EK. rewrite <- EK in *. exists a. cbn [map foldM]. auto.
        - cbn [map foldM]. assert (Hc : In c nodes) by (rewrite EK; apply in_app_iff; right; now left).
          assert (Hcl : c < N) by (now apply (nlt fdir strm L)).
          unfold F at 1. cbv beta iota. unfold dgetE at 1. rewrite (Hget c Hc). cbn [bind g_strm g_nsr g_seg].
          rewrite npset_nat by lia. cbn [bind].
          assert (Hfresh : ~ In (sno c) (map fst (map (fun c => (sno c, stg1 c)) done))).
          { rewrite map_map. cbn [fst]. intros X. apply in_map_iff in X. destruct X as [c' [Ec Hc']].
            assert (HcK : In c' nodes) by (rewrite EK; apply in_app_iff; now left).
            apply (sno_inj NDK) in Ec; try now apply HK. subst c'.
            assert (NDn := nonzero_nodup strm). rewrite EK in NDn. apply NoDup_remove_2 in NDn. apply NDn. apply in_app_iff. now left. }
          destruct (stg1_cases c Hc) as [[T H]|[H1 [H2 T]]].
          + set (a1 := upd a c (sno c)).
            assert (Step : match option_map Z.of_nat (nx fdir strm c) with
                 | Some d => segdn <- dgetE Z.eqb (enum (map Z.of_nat K)) d;;
                    (if (segdn =? sno c)%Z then Ok (Grp (map (fun c0 => (Z.of_nat c0, sno c0, 1%Z)) done ++ [(Z.of_nat c, sno c, 1%Z)]) a1 (dset Z.eqb (map (fun c0 => (sno c0, stg1 c0)) done) (sno c) 0%Z))
                     else strm2 <- npset a1 d segdn ;; Ok (Grp (map (fun c0 => (Z.of_nat c0, sno c0, 1%Z)) done ++ [(Z.of_nat c, sno c, 1%Z)]) strm2 (dset Z.eqb (map (fun c0 => (sno c0, stg1 c0)) done) (sno c) segdn)))
                 | None => Ok (Grp (map (fun c0 => (Z.of_nat c0, sno c0, 1%Z)) done ++ [(Z.of_nat c, sno c, 1%Z)]) a1 (dset Z.eqb (map (fun c0 => (sno c0, stg1 c0)) done) (sno c) 0%Z))
                 end = Ok (Grp (map (fun c => (Z.of_nat c, sno c, 1%Z)) (done ++ [c])) a1 (map (fun c => (sno c, stg1 c)) (done ++ [c])))).
            { rewrite !map_app. cbn [map]. rewrite T. rewrite dset_fresh by exact Hfresh. unfold nx.
              destruct H as [H| H].
              - apply memn_false in H. rewrite H. reflexivity.
              - rewrite H. assert (M := Hc). apply memn_spec in M. rewrite M. cbn [option_map]. unfold dgetE. rewrite (Hget c Hc). cbn [bind].
                rewrite Z.eqb_refl. reflexivity. }
            fold a1. rewrite Step. cbn [bind]. destruct (IH (done ++ [c])) with (a := a1) as [a' R]; auto.
            * now rewrite <- app_assoc.
            * unfold a1. now rewrite upd_length.
            * intros x Hx. unfold a1. rewrite nth_upd by lia. destruct (Nat.eq_dec c x) as [<-|Ne]; auto.
              apply A1. apply in_app_iff in Hx. simpl in Hx. intuition.
            * intros x Hx. unfold a1. rewrite nth_upd by lia. destruct (Nat.eq_dec c x) as [<-|Ne]; auto.
              destruct (A3 x Hx) as [X|[X|X]]; auto. contradiction.
            * intros x Hx. unfold a1. rewrite nth_upd by lia. destruct (Nat.eq_dec c x) as [<-|Ne]; auto. contradiction.
            * exists a'. exact R.
          + assert (Hdl : dn c < N) by (now apply (nlt fdir strm L)).
            unfold nx. assert (M := H1). apply memn_spec in M. rewrite M. cbn [option_map]. unfold dgetE. rewrite (Hget _ H1). cbn [bind].
            destruct (Z.eqb_spec (sno (dn c)) (sno c)) as [X|X]; [apply (sno_inj NDK) in X; try (now apply HK); contradiction|].
            rewrite npset_nat by (rewrite upd_length; lia). cbn [bind].
            set (a1 := upd (upd a c (sno c)) (dn c) (sno (dn c))).
            rewrite dset_fresh by exact Hfresh.
            destruct (IH (done ++ [c])) with (a := a1) as [a' R]; auto.
            * now rewrite <- app_assoc.
            * unfold a1. now rewrite !upd_length.
            * intros x Hx. unfold a1. rewrite nth_upd by (rewrite upd_length; lia). destruct (Nat.eq_dec (dn c) x) as [<-|Ne1]; auto.
              rewrite nth_upd by lia. destruct (Nat.eq_dec c x) as [<-|Ne]; auto.
              apply A1. apply in_app_iff in Hx. simpl in Hx. intuition.
            * intros x Hx. unfold a1. rewrite nth_upd by (rewrite upd_length; lia). destruct (Nat.eq_dec (dn c) x) as [<-|Ne1]; auto.
              rewrite nth_upd by lia. destruct (Nat.eq_dec c x) as [<-|Ne]; auto.
              destruct (A3 x Hx) as [Y|[Y|Y]]; auto. contradiction.
            * intros x Hx. unfold a1. rewrite nth_upd by (rewrite upd_length; lia). destruct (Nat.eq_dec (dn c) x) as [<-|Ne1]; [contradiction|].
              rewrite nth_upd by lia. destruct (Nat.eq_dec c x) as [<-|Ne]; auto. contradiction.
            * exists a'. rewrite !map_app in R. cbn [map] in R. rewrite T in R. exact R. }
      destruct (G nodes [] eq_refl strm) as [a R]; auto.
      - intros c [].
      - exists a. exact R.
    Qed.

    Lemma single_conn lim fuel : number_nodes (ng fdir strm) = enum (map Z.of_nat K) ->
      (forall m, mf2005_connectivity lim fuel false fdir strm = Ok m ->
         exists sg tg, conn5 m nodes (fun _ => 0) sg tg /\ m_graph m = ng fdir strm /\
           (forall c, In c nodes -> In (dn c) nodes -> dn c <> c -> tg c = sg (dn c)) /\
           (forall c, In c nodes -> dn c = c -> tg c = 0%Z)) /\
      (S (length nodes) <= lim -> exists m, mf2005_connectivity lim fuel false fdir strm = Ok m).
    Proof.
      intros E. destruct (single_spec E) as [a [Eg [La [A1 A2]]]].
      rewrite mf2005_finish, (node_graph_eq strm V L). cbn [bind]. rewrite Eg. cbn [bind].
      set (s := Grp (map (fun c => (Z.of_nat c, sno c, 1%Z)) nodes) a gseg).
      assert (O : segs_ok (g_seg s)) by apply single_seg_ok.
      assert (Hn : forall n q r, In (n, q, r) (g_nsr s) -> In q (map fst (g_seg s))).
      { intros n q r H. cbn [s g_nsr g_seg] in *. apply in_map_iff in H. destruct H as [c [Ec Hc]]. inversion Ec; subst.
        rewrite map_map. cbn [fst]. now apply (in_map sno). }
      split; [|intros Hl; apply (@finish_total lim (ng fdir strm) s O Hn); cbn [s g_seg]; now rewrite map_length].
      intros m Em. destruct (@finish_inv lim (ng fdir strm) s O Hn m Em) as [mu [R [Es [Egr [Eseg [En Ho]]]]]].
      cbn [s g_seg g_nsr g_strm] in *. rewrite map_length in R. clear Hn.
      assert (Es' : forall x, nth x (m_strm m) 0%Z =
        (if ((0 <=? nth x a 0%Z) && (nth x a 0%Z <=? Z.of_nat (length nodes)))%Z then mu (nth x a 0%Z) else 0%Z)).
      { intros x. rewrite Es. destruct (Nat.lt_ge_cases x (length a)) as [Hx|Hx].
        - apply nth_error_nth. rewrite nth_error_map, (nth_error_nth' a 0%Z Hx). unfold new_strm, s. cbn [option_map g_seg]. now rewrite map_length.
        - rewrite !nth_overflow by (try rewrite map_length; lia).
          destruct (Z.leb_spec 0 (Z.of_nat (length nodes))); [|lia]. simpl. now rewrite (rn_0 R). }
      assert (Rg : forall c, In c nodes -> (1 <= sno c <= Z.of_nat (length nodes))%Z).
      { intros c Hc. rewrite <- klen. apply (sno_rng NDK). now apply HK. }
      assert (Ij : forall c c', In c nodes -> In c' nodes -> sno c = sno c' -> c = c').
      { intros c c' Hc Hc'. apply (sno_inj NDK); now apply HK. }
      exists (fun c => mu (sno c)), (fun c => mu (stg1 c)). split; [|split; [exact Egr|split]].
      - constructor.
        + apply nonzero_nodup.
        + intros y Hy. destruct (rn_surj R Hy) as [x [Hx <-]]. rewrite <- klen in Hx. destruct (sno_num NDK Hx) as [c [H1 <-]].
          exists c. split; auto. now apply HK.
        + intros c Hc. apply (rn_in R). auto.
        + intros c c' Hc Hc' X. apply (rn_inj R) in X; auto.
        + intros c j Hc Hj. replace j with 0 by lia. exact Hc.
        + intros c c' j j' Hc Hc' Hj Hj' X. replace j with 0 in * by lia. replace j' with 0 in * by lia. auto.
        + rewrite En. rewrite map_map. clear. induction nodes as [|c l IH]; auto.
        + rewrite Eseg, map_map. reflexivity.
        + rewrite Es, map_length. auto.
        + intros c j Hc Hj. replace j with 0 by lia. cbn [downs]. rewrite Es', A1 by auto. assert (X := Rg c Hc).
          destruct (Z.leb_spec 0 (sno c)); [|lia]. destruct (Z.leb_spec (sno c) (Z.of_nat (length nodes))); [|lia]. reflexivity.
        + intros x Hx. rewrite Es', A2 by auto.
          rewrite in_nonzero in Hx. assert (X : nth x strm 0%Z = 0%Z).
          { destruct (Nat.lt_ge_cases x (length strm)) as [Hl|Hl]; [|now apply nth_overflow].
            destruct (Z.eq_dec (nth x strm 0%Z) 0); auto. exfalso. auto. }
          rewrite X. destruct (Z.leb_spec 0 (Z.of_nat (length nodes))); [|lia]. simpl. apply (rn_0 R).
        + intros c Hc H. cbn [downs] in H. destruct (stg1_cases c Hc) as [[X _]|[X _]]; [rewrite X; apply (rn_0 R)|contradiction].
        + intros c Hc H0 H1 Hf'. cbn [downs] in *. destruct (stg1_cases c Hc) as [[X _]|[X1 [X2 X3]]]; [rewrite X in H0; now rewrite (rn_0 R) in H0|].
          apply (Ho (sno c) (stg1 c)).
          * apply in_map_iff. eauto.
          * rewrite X3. assert (Y := Rg _ X1). lia.
          * intros Y. apply H1. now rewrite Y.
          * intros Hl. apply Hf'. apply (single_leads Hl); auto.
      - intros c Hc Hd Hne. destruct (stg1_cases c Hc) as [[_ [X|X]]|[_ [_ X]]]; try contradiction. now rewrite X.
      - intros c Hc Hd. destruct (stg1_cases c Hc) as [[X _]|[_ [X _]]]; [rewrite X; apply (rn_0 R)|contradiction].
    Qed.
  End Single.
End Res.
