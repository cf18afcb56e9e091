(** Walking down the segments. *)
From Verif Require Import Py Spec MFlow LGraph LTopo MStream LStream LSeg.
Set Implicit Arguments.
Local Open Scope nat_scope.
Local Open Scope list_scope.

Section Walk.
  Variables (fdir strm : list Z).
  Hypothesis V : valid_fdir fdir.
  Hypothesis L : length strm = length fdir.
  Notation nodes := (nonzero strm).
  Notation N := (length fdir).
  Notation dn := (down fdir).
  Notation it := (downs fdir).
  Variable K : list nat.
  Hypothesis NDK : NoDup K.
  Hypothesis HK : forall c, In c K <-> In c nodes /\ length (inflows fdir strm c) <> 1.

  (** outside [K] the inflow is unique *)
  Lemma unique_inflow x y z : In x nodes -> ~ In x K -> In y nodes -> In z nodes -> dn y = x -> dn z = x -> y = z.
  Proof.
    intros Hx Nx Hy Hz Ey Ez.
    assert (Iy : In y (inflows fdir strm x)) by (apply in_inflows; auto).
    assert (Iz : In z (inflows fdir strm x)) by (apply in_inflows; auto).
    destruct (inflows fdir strm x) as [|a [|b r]] eqn:E.
    - contradiction.
    - simpl in *. intuition congruence.
    - exfalso. apply Nx, HK. split; auto. rewrite E. discriminate.
  Qed.

  Lemma has_inflow x : In x nodes -> ~ In x K -> exists y, In y nodes /\ dn y = x.
  Proof.
    intros Hx Nx. destruct (inflows fdir strm x) as [|a r] eqn:E.
    - exfalso. apply Nx, HK. split; auto. rewrite E. discriminate.
    - exists a. apply in_inflows. rewrite E. now left.
  Qed.

  Lemma K_node c : In c K -> In c nodes.
  Proof. intros H. now apply HK in H. Qed.

  (** the segment that starts at [c] has reaches [it 0 c], ..., [it m c] *)
  Record segm (c m : nat) : Prop := {
    sg_node : forall j, j <= m -> In (it j c) nodes;
    sg_in : forall j, 1 <= j <= m -> ~ In (it j c) K;
    sg_end : In (it (S m) c) nodes -> In (it (S m) c) K
  }.

  (** the walk from a start never repeats a cell *)
  Lemma walk_inj c m : In c K -> (forall j, j <= m -> In (it j c) nodes) -> (forall j, 1 <= j <= m -> ~ In (it j c) K) ->
    forall i j, i <= m -> j <= m -> it i c = it j c -> i = j.
  Proof.
    intros Hc Hn Hk. induction i as [|i IH]; intros [|j] Hi Hj E; auto.
    - exfalso. apply (Hk (S j)); [lia|]. rewrite <- E. exact Hc.
    - exfalso. apply (Hk (S i)); [lia|]. rewrite E. exact Hc.
    - f_equal. apply IH; try lia. rewrite !downs_S in E.
      assert (A1 : In (it (S i) c) nodes) by (apply Hn; lia). rewrite downs_S in A1.
      assert (A2 : ~ In (it (S i) c) K) by (apply Hk; lia). rewrite downs_S in A2.
      apply (@unique_inflow _ (it i c) (it j c) A1 A2); try (apply Hn; lia); auto.
  Qed.

  Lemma segm_or c m : In c K -> (exists m', m' < m /\ segm c m') \/
    ((forall j, j <= m -> In (it j c) nodes) /\ (forall j, 1 <= j <= m -> ~ In (it j c) K)).
  Proof.
    intros Hc. induction m as [|m IH].
    - right. split; intros j Hj; [|lia]. replace j with 0 by lia. now apply K_node.
    - destruct IH as [[m' [H1 H2]]|[H1 H2]].
      + left. exists m'. split; auto.
      + destruct (in_dec Nat.eq_dec (it (S m) c) nodes) as [Hn|Hn]; [destruct (in_dec Nat.eq_dec (it (S m) c) K) as [Hk|Hk]|].
        * left. exists m. split; auto. constructor; auto.
        * right. split; intros j Hj.
          -- destruct (Nat.eq_dec j (S m)); [subst; auto|apply H1; lia].
          -- destruct (Nat.eq_dec j (S m)); [subst; auto|apply H2; lia].
        * left. exists m. split; auto. constructor; auto. contradiction.
  Qed.

  Lemma segm_exists c : In c K -> exists m, m < N /\ segm c m.
  Proof.
    intros Hc. destruct (@segm_or c N Hc) as [H|[H1 H2]]; auto. exfalso.
    assert (ND : NoDup (map (fun j => it j c) (seq 0 (S N)))).
    { apply nodup_map_in; [apply seq_NoDup|]. intros i j Hi Hj E. apply in_seq in Hi, Hj.
      apply (@walk_inj c N Hc H1 H2); auto; lia. }
    assert (I : incl (map (fun j => it j c) (seq 0 (S N))) (seq 0 N)).
    { intros x Hx. apply in_map_iff in Hx. destruct Hx as [j [<- Hj]]. apply in_seq in Hj. apply in_seq.
      assert (X := H1 j ltac:(lia)). apply in_nonzero in X. lia. }
    apply NoDup_incl_length in I; auto. rewrite map_length, !seq_length in I. lia.
  Qed.

  Lemma segm_fun c m m' : segm c m -> segm c m' -> m = m'.
  Proof.
    intros A B. destruct (Nat.lt_trichotomy m m') as [H|[H|H]]; auto; exfalso.
    - apply (@sg_in _ _ B (S m)); [lia|]. apply (sg_end A). apply (sg_node B). lia.
    - apply (@sg_in _ _ A (S m')); [lia|]. apply (sg_end B). apply (sg_node A). lia.
  Qed.

  (** the computed number of steps *)
  Fixpoint seglen (f c : nat) : nat :=
    match f with
    | O => O
    | S f' => if memn (dn c) nodes && negb (memn (dn c) K) then S (seglen f' (dn c)) else O
    end.

  Lemma seglen_spec m : forall f c, segm c m -> m < f -> seglen f c = m.
  Proof.
    induction m as [|m IH]; intros [|f] c S Hf; try lia; simpl.
    - destruct (memn (dn c) nodes) eqn:E; auto. apply memn_spec in E. apply (sg_end S) in E. apply memn_spec in E.
      change (it 1 c) with (dn c) in E. now rewrite E.
    - assert (E : In (dn c) nodes) by (apply (@sg_node _ _ S 1); lia). apply memn_spec in E. rewrite E.
      assert (E2 : ~ In (dn c) K) by (apply (@sg_in _ _ S 1); lia). apply memn_false in E2. rewrite E2. simpl. f_equal.
      apply IH; [|lia]. constructor.
      + intros j Hj. apply (@sg_node _ _ S (Datatypes.S j)). lia.
      + intros j Hj. apply (@sg_in _ _ S (Datatypes.S j)). lia.
      + apply (sg_end S).
  Qed.

  Definition slen (c : nat) : nat := seglen N c.

  Lemma slen_segm c : In c K -> segm c (slen c) /\ slen c < N.
  Proof. intros H. destruct (@segm_exists c H) as [m [Hm S]]. unfold slen. rewrite (@seglen_spec m N c S Hm). auto. Qed.

  (** two segments do not share a cell *)
  Lemma segm_disjoint c m c' m' : In c K -> In c' K -> segm c m -> segm c' m' ->
    forall j j', j <= m -> j' <= m' -> it j c = it j' c' -> c = c' /\ j = j'.
  Proof.
    intros Hc Hc' S S'. induction j as [|j IH]; intros [|j'] Hj Hj' E; auto.
    - exfalso. apply (@sg_in _ _ S' (Datatypes.S j')); [lia|]. rewrite <- E. exact Hc.
    - exfalso. apply (@sg_in _ _ S (Datatypes.S j)); [lia|]. rewrite E. exact Hc'.
    - rewrite !downs_S in E. assert (A1 := sg_node S Hj). assert (A2 := @sg_in _ _ S (Datatypes.S j) ltac:(lia)). rewrite downs_S in A1, A2.
      destruct (IH j') as [-> ->]; try lia; auto.
      apply (@unique_inflow _ (it j c) (it j' c') A1 A2); auto; [apply (sg_node S)|apply (sg_node S')]; lia.
  Qed.

  (** ** the loop *)
  Definition segno (x : nat) : Z := match dget Z.eqb (enum (map Z.of_nat K)) (Z.of_nat x) with Some v => v | None => 0%Z end.

  Lemma segno_at i c : nth_error K i = Some c -> segno c = Z.of_nat (S i).
  Proof. intros H. unfold segno. rewrite (enum_get (K := map Z.of_nat K) i); auto. - now apply nodup_zmap. - rewrite nth_error_map, H. reflexivity. Qed.

  Lemma segno_off c : ~ In c K -> segno c = 0%Z.
  Proof. intros H. unfold segno. rewrite enum_get_none; auto. now rewrite in_zmap. Qed.

  Lemma seg_walk_spec m : forall c fuel seg rch s,
    (forall j, j <= m -> In (it j c) nodes) -> (forall j, 1 <= j <= m -> ~ In (it j c) K) ->
    (In (it (S m) c) nodes -> In (it (S m) c) K) -> m < fuel -> length (g_strm s) = N ->
    exists a, seg_walk fuel (ng fdir strm) (enum (map Z.of_nat K)) seg (Z.of_nat c) rch s =
        Ok (Grp (g_nsr s ++ map (fun j => (Z.of_nat (it j c), seg, (rch + Z.of_nat j)%Z)) (seq 0 (S m))) a
                (dset Z.eqb (g_seg s) seg (if memn (it (S m) c) nodes then segno (it (S m) c) else 0%Z))) /\
      length a = N /\
      (forall j, j <= m -> nth (it j c) a 0%Z = seg) /\
      (forall x, (forall j, j <= m -> x <> it j c) -> nth x a 0%Z = nth x (g_strm s) 0%Z).
  Proof.
    induction m as [|m IH]; intros c fuel seg rch s Hn Hk He Hf Hl; destruct fuel as [|fuel]; try lia; cbn [seg_walk].
    - assert (Hc : In c nodes) by (apply (Hn 0); lia). assert (Hcl := @nlt fdir strm L c Hc).
      rewrite npset_nat by lia. cbn [bind]. unfold dgetE. rewrite (ng_get fdir strm c Hc). cbn [bind]. unfold nx.
      change (it 1 c) with (dn c) in *.
      exists (upd (g_strm s) c seg). split; [|split; [|split]].
      + destruct (memn (dn c) nodes) eqn:E; cbn [option_map].
        * apply memn_spec in E. apply He in E. destruct (In_nth_error _ _ E) as [i Hi].
          rewrite (segno_at _ Hi). rewrite (enum_get (K := map Z.of_nat K) i); [|now apply nodup_zmap|rewrite nth_error_map, Hi; reflexivity].
          cbn [map seq downs]. now rewrite Z.add_0_r.
        * cbn [map seq downs]. now rewrite Z.add_0_r.
      + rewrite upd_length. auto.
      + intros j Hj. replace j with 0 by lia. simpl. apply nth_upd_eq. lia.
      + intros x Hx. apply nth_upd_neq. intros ->. apply (Hx 0); auto.
    - assert (Hc : In c nodes) by (apply (Hn 0); lia). assert (Hcl := @nlt fdir strm L c Hc).
      rewrite npset_nat by lia. cbn [bind]. unfold dgetE. rewrite (ng_get fdir strm c Hc). cbn [bind]. unfold nx.
      assert (E : In (dn c) nodes) by (apply (Hn 1); lia). assert (E2 : ~ In (dn c) K) by (apply (Hk 1); lia).
      apply memn_spec in E. rewrite E. cbn [option_map]. rewrite enum_get_none by (now rewrite in_zmap).
      set (s' := Grp (g_nsr s ++ [(Z.of_nat c, seg, rch)]) (upd (g_strm s) c seg) (g_seg s)).
      destruct (IH (dn c) fuel seg (rch + 1)%Z s') as [a [Ea [La [A1 A2]]]].
      + intros j Hj. apply (Hn (S j)). lia.
      + intros j Hj. apply (Hk (S j)). lia.
      + exact He.
      + lia.
      + simpl. now rewrite upd_length.
      + exists a. rewrite Ea. split; [|split; [|split]]; auto.
        * f_equal. cbn [g_nsr g_seg s']. f_equal. rewrite <- app_assoc. f_equal.
          rewrite <- (cons_seq (S m) 0), <- seq_shift, map_cons, map_map. cbn [app downs]. rewrite Z.add_0_r. f_equal.
          apply map_ext. intros j. cbn [downs]. f_equal. lia.
        * intros [|j] Hj; [|apply (A1 j); lia]. simpl.
          destruct (existsb (fun j => Nat.eqb (it j (dn c)) c) (seq 0 (S m))) eqn:Ex.
          -- apply existsb_exists in Ex. destruct Ex as [j [Hj1 Hj2]]. apply in_seq in Hj1. apply Nat.eqb_eq in Hj2.
             rewrite <- Hj2. apply A1. lia.
          -- rewrite A2.
             ++ simpl. apply nth_upd_eq. lia.
             ++ intros j Hj' X. assert (Y : existsb (fun j => Nat.eqb (it j (dn c)) c) (seq 0 (S m)) = true).
                { apply existsb_exists. exists j. split; [apply in_seq; lia|]. apply Nat.eqb_eq. auto. }
                congruence.
        * intros x Hx. rewrite A2.
          -- simpl. apply nth_upd_neq. intros ->. apply (Hx 0); [lia|reflexivity].
          -- intros j Hj. apply (Hx (S j)). lia.
  Qed.

  (** ** the whole grouping *)
  Definition starget (c : nat) : Z :=
    if memn (it (S (slen c)) c) nodes then segno (it (S (slen c)) c) else 0%Z.
  Definition srows (c : nat) : list (Z * Z * Z) :=
    map (fun j => (Z.of_nat (it j c), segno c, (1 + Z.of_nat j)%Z)) (seq 0 (S (slen c))).

  Lemma group_spec fuel : N <= fuel -> seg_starts (ng fdir strm) = enum (map Z.of_nat K) ->
    exists a, group_segments fuel (ng fdir strm) strm =
        Ok (Grp (flat_map srows K) a (map (fun c => (segno c, starget c)) K)) /\
      length a = N /\
      (forall c j, In c K -> j <= slen c -> nth (it j c) a 0%Z = segno c) /\
      (forall x, (forall c j, In c K -> j <= slen c -> x <> it j c) -> nth x a 0%Z = nth x strm 0%Z).
  Proof.
    intros Hf E. unfold group_segments. cbv zeta. rewrite E.
    set (f := fun (s : grp) (ns : Z * Z) => seg_walk fuel (ng fdir strm) (enum (map Z.of_nat K)) (snd ns) (fst ns) 1 s).
    assert (G : forall todo done, K = done ++ todo -> forall a, length a = N ->
       (forall c j, In c done -> j <= slen c -> nth (it j c) a 0%Z = segno c) ->
       (forall x, (forall c j, In c done -> j <= slen c -> x <> it j c) -> nth x a 0%Z = nth x strm 0%Z) ->
       exists a', foldM f (map (fun c => (Z.of_nat c, segno c)) todo)
           (Grp (flat_map srows done) a (map (fun c => (segno c, starget c)) done)) =
           Ok (Grp (flat_map srows K) a' (map (fun c => (segno c, starget c)) K)) /\
         length a' = N /\
         (forall c j, In c K -> j <= slen c -> nth (it j c) a' 0%Z = segno c) /\
         (forall x, (forall c j, In c K -> j <= slen c -> x <> it j c) -> nth x a' 0%Z = nth x strm 0%Z)).
    { induction todo as [|c todo IH]; intros done EK a La A1 A2.
      - rewrite app_nil_r in EK. subst done. exists a. simpl. auto.
      - cbn [map foldM]. assert (Hc : In c K) by (rewrite EK; apply in_app_iff; right; now left).
        destruct (slen_segm _ Hc) as [S Hs].
        destruct (@seg_walk_spec (slen c) c fuel (segno c) 1%Z (Grp (flat_map srows done) a (map (fun c => (segno c, starget c)) done)))
          as [a' [Ea [La' [B1 B2]]]]; auto; try apply S; try lia.
        unfold f at 1. cbn [fst snd]. rewrite Ea. cbn [bind g_nsr g_seg].
        assert (Hfresh : ~ In (segno c) (map fst (map (fun c => (segno c, starget c)) done))).
        { rewrite map_map. cbn [fst]. intros X. apply in_map_iff in X. destruct X as [c' [Ec Hc']].
          assert (HcK : In c' K) by (rewrite EK; apply in_app_iff; now left).
          assert (c' = c).
          { destruct (In_nth_error _ _ Hc) as [i Hi]. destruct (In_nth_error _ _ HcK) as [i' Hi'].
            rewrite (segno_at _ Hi), (segno_at _ Hi') in Ec. assert (i' = i) by lia. congruence. }
          subst c'. rewrite EK in NDK. apply NoDup_remove_2 in NDK. apply NDK. apply in_app_iff. now left. }
        rewrite dset_fresh by exact Hfresh. fold (starget c). fold (srows c).
        destruct (IH (done ++ [c])) with (a := a') as [a'' [Ea'' R]]; auto.
        + now rewrite <- app_assoc.
        + intros c1 j H1 Hj. apply in_app_iff in H1. destruct H1 as [H1|[<-|[]]]; [|now apply B1].
          rewrite B2; [cbn [g_strm]; now apply A1|]. intros j' Hj' X.
          assert (H1K : In c1 K) by (rewrite EK; apply in_app_iff; now left).
          destruct (@segm_disjoint _ _ _ _ H1K Hc (proj1 (@slen_segm _ H1K)) S _ _ Hj Hj' X) as [-> _].
          rewrite EK in NDK. apply NoDup_remove_2 in NDK. apply NDK. apply in_app_iff. now left.
        + intros x Hx. rewrite B2; [cbn [g_strm]; apply A2|].
          * intros c1 j H1 Hj. apply Hx; auto. apply in_app_iff. now left.
          * intros j Hj. apply Hx; auto. apply in_app_iff. right. now left.
        + exists a''. split; auto. rewrite <- Ea''. rewrite flat_map_app, map_app. cbn [flat_map map]. rewrite app_nil_r. reflexivity. }
    destruct (G K [] eq_refl strm) as [a' [Ea R]].
    - lia.
    - intros c j [].
    - auto.
    - exists a'. split; auto. rewrite <- Ea. cbn [flat_map map]. f_equal. unfold enum.
      apply nth_error_ext. intros i. rewrite !nth_error_map.
      destruct (nth_error K i) as [c|] eqn:Ei.
      + simpl. apply nth_error_combine. rewrite !nth_error_map, Ei. split; auto. rewrite map_length.
        rewrite nth_error_seq by (apply nth_error_Some; congruence). simpl. f_equal. symmetry. now apply segno_at.
      + apply nth_error_None. apply nth_error_None in Ei. rewrite combine_length, !map_length, seq_length. lia.
  Qed.

  (** ** which cells are reached *)
  Definition lost (x : nat) : Prop :=
    exists k, 0 < k /\ it k x = x /\ forall j, In (it j x) nodes /\ length (inflows fdir strm (it j x)) = 1.

  Lemma not_K x : In x nodes -> ~ In x K -> length (inflows fdir strm x) = 1.
  Proof. intros H1 H2. destruct (Nat.eq_dec (length (inflows fdir strm x)) 1); auto. exfalso. apply H2, HK. auto. Qed.

  Lemma back x m : In x nodes ->
    (exists c j, In c K /\ j <= slen c /\ x = it j c) \/
    (exists p, it m p = x /\ (forall j, j <= m -> In (it j p) nodes /\ ~ In (it j p) K)).
  Proof.
    intros Hx. induction m as [|m IH].
    - destruct (in_dec Nat.eq_dec x K) as [Hk|Hk].
      + left. exists x, 0. split; auto. split; auto. lia.
      + right. exists x. split; auto. intros j Hj. replace j with 0 by lia. auto.
    - destruct IH as [H|[p [Hp H]]]; [now left|].
      destruct (H 0 ltac:(lia)) as [P1 P2]. simpl in P1, P2.
      destruct (has_inflow _ P1 P2) as [y [Hy Ey]].
      destruct (in_dec Nat.eq_dec y K) as [Hk|Hk].
      + left. exists y, (S m). split; auto. split; [|simpl; now rewrite Ey].
        destruct (le_lt_dec (S m) (slen y)) as [Hle|Hlt]; auto. exfalso.
        destruct (slen_segm _ Hk) as [S Hs].
        assert (X : In (it (Datatypes.S (slen y)) y) nodes /\ ~ In (it (Datatypes.S (slen y)) y) K).
        { simpl. rewrite Ey. apply H. lia. }
        apply (proj2 X). apply (sg_end S). apply X.
      + right. exists y. split; [simpl; now rewrite Ey|]. intros [|j] Hj; simpl; auto. rewrite Ey. apply H. lia.
  Qed.

  Lemma cover x : In x nodes -> (exists c j, In c K /\ j <= slen c /\ x = it j c) \/ lost x.
  Proof.
    intros Hx. destruct (@back x N Hx) as [H|[p [Hp H]]]; [now left|]. right.
    assert (Hpl : p < N) by (apply (@nlt fdir strm L); apply (H 0); lia).
    assert (C : cyc fdir (it N p)) by (now apply pigeon). rewrite Hp in C. destruct C as [k [Hk Ck]].
    (* the cells of the cycle appear among it 0 p .. it N p *)
    exists k. split; auto. split; auto.
    assert (F : forall j, exists i, i <= N /\ it j x = it i p).
    { intros j. assert (FT : flows_through fdir p (it j x)) by (exists (N + j); rewrite downs_add; now rewrite Hp).
      destruct (flows_bound V Hpl FT) as [i [Hi Ei]]. exists i. auto. }
    intros j. destruct (F j) as [i [Hi ->]]. destruct (H i Hi) as [H1 H2]. split; auto. now apply not_K.
  Qed.

  Lemma lost_not_covered x c j : lost x -> In c K -> j <= slen c -> x <> it j c.
  Proof.
    intros [k [Hk [Ck Hl]]] Hc. revert x Ck Hl. induction j as [|j IH]; intros x Ck Hl Hj E.
    - simpl in E. subst x. apply HK in Hc. destruct Hc as [_ Hc]. apply Hc. apply (Hl 0).
    - (* the predecessor on the cycle is the predecessor on the segment *)
      destruct k as [|k]; [lia|]. set (y := it k x).
      assert (Ey : dn y = x) by (unfold y; rewrite <- downs_S; exact Ck).
      assert (Hy : In y nodes) by apply (Hl k).
      destruct (slen_segm _ Hc) as [S Hs].
      assert (E2 : y = it j c).
      { apply (@unique_inflow x).
        - apply (Hl 0).
        - intros X. apply HK in X. apply X. apply (Hl 0).
        - exact Hy.
        - apply (sg_node S). lia.
        - exact Ey.
        - rewrite <- downs_S. now symmetry. }
      apply (IH y); auto; [| |lia].
      + change (it (Datatypes.S k) y) with (it k (dn y)). rewrite Ey. reflexivity.
      + intros i. unfold y. rewrite <- downs_add. apply Hl.
  Qed.
End Walk.
