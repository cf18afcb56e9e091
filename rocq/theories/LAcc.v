(** flow_accumulation: invariants and final values. *)
From Verif Require Import Py Spec MFlow LGraph.
Set Implicit Arguments.
Local Open Scope nat_scope.
Local Open Scope list_scope.

Definition cnt (f : nat -> bool) (l : list nat) : nat := length (filter f l).

Lemma cnt_cons f x l : cnt f (x :: l) = (if f x then 1 else 0) + cnt f l.
Proof. unfold cnt. simpl. destruct (f x); auto. Qed.

Section NIDP.
  Variable fdir : list Z.
  Notation N := (length fdir).
  Hypothesis V : valid_fdir fdir.
  Notation d := (down fdir).

  Definition indeg n := cnt (fun c => Nat.eqb (d c) n) (seq 0 N).

  Lemma nidp_fold l : forall a, length a = N -> Forall (fun z => (0 <= z < Z.of_nat N)%Z) l ->
    exists a', foldM (fun a cell => v <- npget a cell ;; npset a cell (v + 1)%Z) l a = Ok a' /\
      length a' = N /\ forall n, n < N ->
        nth n a' 0%Z = (nth n a 0 + Z.of_nat (length (filter (fun z => Nat.eqb (Z.to_nat z) n) l)))%Z.
  Proof.
    induction l as [|z l IH]; intros a La Hl; simpl.
    - exists a. split; auto. split; auto. intros. lia.
    - inversion Hl; subst. rewrite (npget_pos a 0%Z) by (rewrite La; auto). simpl.
      rewrite npset_pos by (rewrite La; auto). simpl.
      destruct (IH (upd a (Z.to_nat z) (nth (Z.to_nat z) a 0 + 1)%Z)) as [a' [E [L' H']]]; auto.
      { now rewrite upd_length. }
      exists a'. split; auto. split; auto. intros n Hn. rewrite H' by auto.
      rewrite nth_upd by lia. destruct (Nat.eq_dec (Z.to_nat z) n) as [<-|Hne].
      + rewrite Nat.eqb_refl. simpl List.length. lia.
      + destruct (Nat.eqb_spec (Z.to_nat z) n); [congruence|]. lia.
  Qed.

  Lemma indeg_filter n : indeg n = length (filter (fun z => Nat.eqb (Z.to_nat z) n) fdir).
  Proof.
    unfold indeg, cnt. assert (G : forall l s, (forall i, i < length l -> nth (s + i) fdir 0%Z = nth i l 0%Z) ->
      length (filter (fun c => Nat.eqb (d c) n) (seq s (length l))) = length (filter (fun z => Nat.eqb (Z.to_nat z) n) l)).
    { induction l as [|z l IH]; intros s H; simpl; auto.
      assert (X := H 0 ltac:(simpl; lia)). rewrite Nat.add_0_r in X. simpl in X. unfold down at 1. rewrite X.
      assert (Y := IH (S s)). destruct (Nat.eqb (Z.to_nat z) n); simpl; rewrite Y; auto;
      intros i Hi; assert (Q := H (S i)); simpl in Q; rewrite <- Q by lia; f_equal; lia. }
    apply G. intros; auto.
  Qed.

  Lemma get_nidp_spec : exists a, get_nidp fdir = Ok a /\ length a = N /\
    forall n, n < N -> nth n a 0%Z = Z.of_nat (indeg n).
  Proof.
    unfold get_nidp. destruct (@nidp_fold fdir (repeat 0%Z N)) as [a [E [L H]]]; auto.
    { apply repeat_length. }
    exists a. split; auto. split; auto. intros n Hn. rewrite H by auto. rewrite indeg_filter.
    rewrite nth_repeat. lia.
  Qed.

  Lemma indeg_pos n : 0 < indeg n <-> exists c, c < N /\ d c = n.
  Proof.
    unfold indeg, cnt. split.
    - intros H. destruct (filter _ (seq 0 N)) as [|c l] eqn:E; [simpl in H; lia|].
      assert (X : In c (c :: l)) by now left. rewrite <- E in X. apply filter_In in X.
      destruct X as [X1 X2]. apply in_seq in X1. apply Nat.eqb_eq in X2. exists c. split; auto. lia.
    - intros [c [Hc Hd]]. assert (X : In c (filter (fun c => Nat.eqb (d c) n) (seq 0 N))).
      { apply filter_In. split; [apply in_seq; lia|now apply Nat.eqb_eq]. }
      destruct (filter _ _); [destruct X|simpl; lia].
  Qed.
End NIDP.

Section Acc.
  Variable fdir : list Z.
  Notation N := (length fdir).
  Hypothesis V : valid_fdir fdir.
  Notation d := (down fdir).
  Notation ideg := (indeg fdir).
  Context {W : Type} (wadd : W -> W -> W) (wzero : W).
  Hypothesis wadd_comm : forall a b, wadd a b = wadd b a.
  Hypothesis wadd_assoc : forall a b c, wadd a (wadd b c) = wadd (wadd a b) c.
  Hypothesis wadd_0 : forall a, wadd a wzero = a.
  Variable area : list W.
  Hypothesis Larea : length area = N.

  Definition into (F : list nat) n := cnt (fun m => Nat.eqb (d m) n) F.
  Notation csum := (wsum Z.add 0%Z (fun _ => 1%Z)).
  Notation asum := (wsum wadd wzero (fun c => nth c area wzero)).

  Record inv (F : list nat) (up : nat -> list nat) (exc : nat -> Prop) (s : acc (W := W)) : Prop := {
    v_nd : NoDup F;
    v_lt : forall m, In m F -> m < N;
    v_closed : forall m c, In m F -> c < N -> d c = m -> In c F;
    v_nocyc : forall m, In m F -> ~ cyc fdir m;
    v_nidp : forall n, n < N -> ~ In n F -> ~ exc n ->
      (nth n (a_nidp s) 0 + Z.of_nat (into F n) = Z.of_nat (ideg n))%Z;
    v_zero : forall n, n < N -> nth n (a_nidp s) 0%Z = 0%Z <-> ideg n = 0;
    v_up : forall n c, n < N -> (In c (up n) <-> c = n \/ exists m, In m F /\ d m = n /\ In c (up m));
    v_upnd : forall n, n < N -> NoDup (up n);
    v_path : forall n c, n < N -> In c (up n) -> c < N /\ flows_through fdir c n;
    v_l1 : length (a_cnt s) = N; v_l2 : length (a_area s) = N; v_l3 : length (a_nidp s) = N;
    v_c : forall n, n < N -> nth n (a_cnt s) 0%Z = csum (up n);
    v_a : forall n, n < N -> nth n (a_area s) wzero = asum (up n)
  }.

  Lemma into_cons m F n : into (m :: F) n = (if Nat.eqb (d m) n then 1 else 0) + into F n.
  Proof. apply cnt_cons. Qed.

  Lemma into_le F n : NoDup F -> (forall m, In m F -> m < N) -> into F n <= ideg n.
  Proof.
    intros ND HF. unfold into, indeg, cnt. apply NoDup_incl_length; [now apply NoDup_filter|].
    intros m Hm. apply filter_In in Hm. apply filter_In. split; [|tauto]. apply in_seq. split; [lia|].
    simpl. apply HF. tauto.
  Qed.

  (** a child outside F leaves room *)
  Lemma into_lt F n m : NoDup F -> (forall m, In m F -> m < N) -> m < N -> d m = n -> ~ In m F ->
    S (into F n) <= ideg n.
  Proof.
    intros ND HF Hm Hd Hni. assert (X : into (m :: F) n <= ideg n).
    { apply into_le; [constructor; auto|]. intros k [<-|Hk]; auto. }
    rewrite into_cons in X. rewrite (proj2 (Nat.eqb_eq _ _) Hd) in X. simpl in X. lia.
  Qed.

  Lemma into_all F n : NoDup F -> (forall m, In m F -> m < N) -> ideg n <= into F n ->
    forall c, c < N -> d c = n -> In c F.
  Proof.
    intros ND HF Hle c Hc Hd. destruct (in_dec Nat.eq_dec c F) as [|Hni]; auto.
    assert (X := into_lt ND HF Hc Hd Hni). lia.
  Qed.

  Lemma all_into F n : (forall c, c < N -> d c = n -> In c F) -> ideg n <= into F n.
  Proof.
    intros H. unfold into, indeg, cnt. apply NoDup_incl_length; [apply NoDup_filter, seq_NoDup|].
    intros m Hm. apply filter_In in Hm. destruct Hm as [H1 H2]. apply in_seq in H1.
    apply filter_In. split; auto. apply H; [lia|now apply Nat.eqb_eq].
  Qed.

  Definition upd_up (up : nat -> list nat) n l := fun k => if Nat.eq_dec k n then l else up k.

  Lemma upd_up_eq up n l : upd_up up n l n = l.
  Proof. unfold upd_up. destruct (Nat.eq_dec n n); congruence. Qed.
  Lemma upd_up_neq up n l k : k <> n -> upd_up up n l k = up k.
  Proof. unfold upd_up. destruct (Nat.eq_dec k n); congruence. Qed.

  (** pending cell [m]: all its inflows have arrived *)
  Definition ready (F : list nat) m :=
    m < N /\ ~ In m F /\ (forall c, c < N -> d c = m -> In c F) /\ ~ cyc fdir m.

  Definition same (m : nat) : nat -> Prop := fun n => n = m.
  Definition none : nat -> Prop := fun _ => False.

  Lemma into_absent F n : ~ In n F -> (forall m c, In m F -> c < N -> d c = m -> In c F) ->
    forall m, In m F -> m < N -> d m = n -> True.
  Proof. auto. Qed.

  (** the visit of [n = d m] by the pending cell m *)
  Lemma visit F up s m : inv F up (same m) s -> ready F m ->
    let n := d m in
    let up' := upd_up up n (up n ++ up m) in
    let cnts := upd (a_cnt s) n (nth n (a_cnt s) 0 + csum (up m))%Z in
    let areas := upd (a_area s) n (wadd (nth n (a_area s) wzero) (asum (up m))) in
    n < N /\ n <> m /\ ~ In n F /\ (1 <= nth n (a_nidp s) 0)%Z /\
    ((2 <= nth n (a_nidp s) 0)%Z ->
       inv (m :: F) up' none (Acc cnts areas (upd (a_nidp s) n (nth n (a_nidp s) 0 - 1)%Z))) /\
    ((nth n (a_nidp s) 0 < 2)%Z -> inv (m :: F) up' (same n) (Acc cnts areas (a_nidp s)) /\ ready (m :: F) n) /\
    csum (up' n) = (nth n (a_cnt s) 0 + csum (up m))%Z /\
    asum (up' n) = wadd (nth n (a_area s) wzero) (asum (up m)).
  Proof.
    intros I [Hm [HmF [Hch Hnc]]] n up' cnts areas.
    assert (Hn : n < N) by (now apply down_lt).
    assert (Hnm : n <> m).
    { intros E. apply Hnc. exists 1. split; auto. }
    assert (HnF : ~ In n F).
    { intros H. apply HmF. apply (v_closed I H); auto. }
    assert (Hnid := v_nidp I Hn HnF Hnm).
    assert (Hroom := @into_lt F n m (v_nd I) (v_lt I) Hm eq_refl HmF).
    assert (H1 : (1 <= nth n (a_nidp s) 0)%Z) by lia.
    assert (Hs1 : csum (up' n) = (nth n (a_cnt s) 0 + csum (up m))%Z).
    { unfold up'. rewrite upd_up_eq. rewrite (v_c I Hn). apply wsum_app; intros; lia. }
    assert (Hs2 : asum (up' n) = wadd (nth n (a_area s) wzero) (asum (up m))).
    { unfold up'. rewrite upd_up_eq. rewrite (v_a I Hn). apply wsum_app; auto. }
    assert (HupF : forall k, In k F -> up' k = up k).
    { intros k Hk. apply upd_up_neq. intros ->. contradiction. }
    assert (Hupm : up' m = up m) by (apply upd_up_neq; auto).
    assert (Hup : forall k c, k < N -> (In c (up' k) <-> c = k \/ exists q, In q (m :: F) /\ d q = k /\ In c (up' q))).
    { intros k c Hk. destruct (Nat.eq_dec k n) as [->|Hkn].
      - unfold up' at 1. rewrite upd_up_eq, in_app_iff, (v_up I c Hn). split.
        + intros [[H|[q [Q1 [Q2 Q3]]]]|H]; auto.
          * right. exists q. split; [now right|]. split; auto. rewrite HupF; auto.
          * right. exists m. split; [now left|]. split; auto. rewrite Hupm; auto.
        + intros [H|[q [[<-|Q1] [Q2 Q3]]]]; auto.
          * right. now rewrite Hupm in Q3.
          * left. right. exists q. rewrite HupF in Q3; auto.
      - unfold up' at 1. rewrite upd_up_neq by auto. rewrite (v_up I c Hk). split.
        + intros [H|[q [Q1 [Q2 Q3]]]]; auto. right. exists q. split; [now right|]. split; auto. rewrite HupF; auto.
        + intros [H|[q [[<-|Q1] [Q2 Q3]]]]; auto.
          * exfalso. apply Hkn. auto.
          * right. exists q. rewrite HupF in Q3; auto. }
    assert (Hupnd : forall k, k < N -> NoDup (up' k)).
    { intros k Hk. destruct (Nat.eq_dec k n) as [->|Hkn]; [|unfold up'; rewrite upd_up_neq; auto; now apply (v_upnd I)].
      unfold up'. rewrite upd_up_eq.
      assert (Disj : forall c, In c (up n) -> In c (up m) -> False).
      { intros c H2 H3. destruct (v_path I _ Hm H3) as [Hc Hf].
        apply (v_up I c Hn) in H2. destruct H2 as [->|[q [Q1 [Q2 Q3]]]].
        - (* n flows to m flows to n *)
          apply Hnc. destruct Hf as [k Hk']. exists (S k). split; [lia|]. simpl. exact Hk'.
        - assert (Hq := v_lt I _ Q1). destruct (v_path I _ Hq Q3) as [_ Hf2].
          destruct Hf as [a Ha], Hf2 as [b Hb].
          assert (Hqm : q <> m) by (intros ->; contradiction).
          destruct (le_lt_dec a b) as [L|L].
          + (* m reaches q, d q = n = d m: q on a cycle *)
            apply (v_nocyc I Q1). exists (b - a). assert (a <> b) by (intros ->; congruence).
            split; [lia|].
            assert (X : downs fdir (b - a) m = q) by (rewrite <- Ha, <- downs_add; rewrite <- Hb; f_equal; lia).
            destruct (b - a) as [|k'] eqn:Ek; [lia|]. simpl in X. simpl. rewrite Q2. exact X.
          + apply Hnc. exists (a - b). split; [lia|].
            assert (X : downs fdir (a - b) q = m) by (rewrite <- Hb, <- downs_add; rewrite <- Ha; f_equal; lia).
            destruct (a - b) as [|k'] eqn:Ek; [lia|]. simpl in X. simpl.
            rewrite Q2 in X. exact X. }
      assert (G : forall l1 l2 : list nat, NoDup l1 -> NoDup l2 -> (forall c, In c l1 -> In c l2 -> False) -> NoDup (l1 ++ l2)).
      { clear. induction 1; intros H2 H3; simpl; auto. constructor.
        - rewrite in_app_iff. intros [H4|H4]; auto. eapply H3; [now left|]; auto.
        - apply IHNoDup; auto. intros c Hc. apply H3. now right. }
      apply G; auto; apply (v_upnd I); auto. }
    assert (Hpath : forall k c, k < N -> In c (up' k) -> c < N /\ flows_through fdir c k).
    { intros k c Hk Hc. destruct (Nat.eq_dec k n) as [->|Hkn].
      - unfold up' in Hc. rewrite upd_up_eq in Hc. apply in_app_iff in Hc. destruct Hc as [Hc|Hc].
        + now apply (v_path I).
        + destruct (v_path I _ Hm Hc) as [Hc1 [q Hq]]. split; auto. exists (S q). rewrite downs_S. now rewrite Hq.
      - unfold up' in Hc. rewrite upd_up_neq in Hc by auto. now apply (v_path I). }
    assert (L1 : length cnts = N) by (unfold cnts; rewrite upd_length; apply (v_l1 I)).
    assert (L2 : length areas = N) by (unfold areas; rewrite upd_length; apply (v_l2 I)).
    assert (Hc : forall k, k < N -> nth k cnts 0%Z = csum (up' k)).
    { intros k Hk. unfold cnts. rewrite nth_upd by (rewrite (v_l1 I); auto).
      destruct (Nat.eq_dec n k) as [<-|Hkn]; auto. unfold up'. rewrite upd_up_neq by auto. now apply (v_c I). }
    assert (Ha : forall k, k < N -> nth k areas wzero = asum (up' k)).
    { intros k Hk. unfold areas. rewrite nth_upd by (rewrite (v_l2 I); auto).
      destruct (Nat.eq_dec n k) as [<-|Hkn]; auto. unfold up'. rewrite upd_up_neq by auto. now apply (v_a I). }
    assert (Hnd' : NoDup (m :: F)) by (constructor; auto; apply (v_nd I)).
    assert (Hlt' : forall k, In k (m :: F) -> k < N) by (intros k [<-|Hk]; auto; now apply (v_lt I)).
    assert (Hcl' : forall k c, In k (m :: F) -> c < N -> d c = k -> In c (m :: F)).
    { intros k c [<-|Hk] Hc' Hd; right; auto. eapply (v_closed I); eauto. }
    assert (Hnc' : forall k, In k (m :: F) -> ~ cyc fdir k) by (intros k [<-|Hk]; auto; now apply (v_nocyc I)).
    assert (Hinto : forall k, k <> n -> into (m :: F) k = into F k).
    { intros k Hk. rewrite into_cons. destruct (Nat.eqb_spec (d m) k); [exfalso; apply Hk; auto|auto]. }
    assert (Hinton : into (m :: F) n = S (into F n)).
    { rewrite into_cons. fold n. now rewrite Nat.eqb_refl. }
    split; [exact Hn|]. split; [exact Hnm|]. split; [exact HnF|]. split; [exact H1|].
    split; [|split; [|split; [exact Hs1|exact Hs2]]].
    - intros H2. constructor; simpl; auto.
      + intros k Hk HkF _. rewrite nth_upd by (rewrite (v_l3 I); auto).
        destruct (Nat.eq_dec n k) as [<-|Hkn].
        * rewrite Hinton. lia.
        * rewrite Hinto by auto. apply (v_nidp I); auto.
      + intros k Hk. rewrite nth_upd by (rewrite (v_l3 I); auto).
        destruct (Nat.eq_dec n k) as [<-|Hkn]; [|now apply (v_zero I)]. rewrite <- (v_zero I Hn). lia.
      + rewrite upd_length. apply (v_l3 I).
    - intros H2. split.
      + constructor; simpl; auto.
        * intros k Hk HkF Hex. unfold same in Hex. rewrite Hinto by auto. apply (v_nidp I); auto.
        * intros k Hk. now apply (v_zero I).
        * apply (v_l3 I).
      + assert (Hall : forall c, c < N -> d c = n -> In c (m :: F)).
        { apply into_all; auto. rewrite Hinton. lia. }
        split; auto. split; [intros [E|E]; auto|]. split; auto.
        intros Hcy. destruct (cyc_pred V Hn Hcy) as [p [Hp [Hd Hcp]]].
        apply (Hnc' p); auto.
  Qed.

  Lemma walk f : forall F up s m, inv F up (same m) s -> ready F m -> N <= f + length F ->
    exists F' up' s', acc_walk wadd f fdir s (Z.of_nat (d m)) (csum (up m)) (asum (up m)) = Ok s' /\
      inv F' up' none s' /\ In m F' /\ (forall k, In k F -> In k F') /\
      (forall k, In k F' -> In k F \/ k = m \/ 0 < ideg k).
  Proof.
    induction f as [|f IH]; intros F up s m I R Hf.
    - exfalso. destruct R as [Hm [HmF _]].
      assert (X : NoDup (m :: F)) by (constructor; auto; apply (v_nd I)).
      apply (NoDup_incl_length (l' := seq 0 N)) in X.
      + rewrite seq_length in X. simpl in X. simpl in Hf. lia.
      + intros k [<-|Hk]; apply in_seq; simpl; [lia|]. split; [lia|]. now apply (v_lt I).
    - destruct (visit I R) as [Hn [Hnm [HnF [H1 [Hbr [Hgo [Hs1 Hs2]]]]]]].
      set (n := d m) in *.
      cbn [acc_walk].
      rewrite (npget_nat (a_cnt s) 0%Z) by (rewrite (v_l1 I); auto). cbn [bind].
      rewrite npset_nat by (rewrite (v_l1 I); auto). cbn [bind].
      rewrite (npget_nat (a_area s) wzero) by (rewrite (v_l2 I); auto). cbn [bind].
      rewrite npset_nat by (rewrite (v_l2 I); auto). cbn [bind].
      rewrite (npget_nat _ 0%Z) by (rewrite upd_length, (v_l1 I); auto). cbn [bind].
      rewrite (npget_nat _ wzero) by (rewrite upd_length, (v_l2 I); auto). cbn [bind].
      rewrite (npget_nat (a_nidp s) 0%Z) by (rewrite (v_l3 I); auto). cbn [bind].
      rewrite nth_upd_eq by (rewrite (v_l1 I); auto). rewrite nth_upd_eq by (rewrite (v_l2 I); auto).
      destruct (Z.leb_spec 2 (nth n (a_nidp s) 0%Z)) as [H2|H2].
      + rewrite npset_nat by (rewrite (v_l3 I); auto). cbn [bind].
        eexists (m :: F), _, _. split; [reflexivity|]. split; [apply Hbr; auto|].
        split; [now left|]. split; [intros; now right|]. intros k [<-|Hk]; auto.
      + rewrite (npget_nat fdir 0%Z) by auto. cbn [bind].
        rewrite (fdir_down V Hn). destruct (Hgo H2) as [I' R'].
        destruct (IH _ _ _ _ I' R') as [F' [up' [s' [E [I'' [Hin [Hsub Hnew]]]]]]].
        { simpl. lia. }
        exists F', up', s'. split; [rewrite Hs1, Hs2 in E; exact E|]. split; auto. split; [apply Hsub; now left|].
        split; [intros k Hk; apply Hsub; now right|].
        intros k Hk. destruct (Hnew k Hk) as [[->|H]|[->|H]]; auto.
        right. right. apply indeg_pos. exists m. split; auto. apply R.
  Qed.

  (** the outer loop up to cell [ix] *)
  Definition outer (ix : nat) (s : acc (W := W)) : Prop := exists F up, inv F up none s /\
    (forall h, h < ix -> ideg h = 0 -> In h F) /\ (forall h, ix <= h -> ideg h = 0 -> ~ In h F).

  Lemma start_inv nidp : length nidp = N -> (forall n, n < N -> nth n nidp 0%Z = Z.of_nat (ideg n)) ->
    outer 0 (Acc (repeat 1%Z N) area nidp).
  Proof.
    intros L H. exists [], (fun n => [n]). split; [|split; [intros; lia|intros ? ? ? []]].
    constructor; simpl; auto; try tauto.
    - constructor.
    - intros n Hn _ _. rewrite H by auto. unfold into, cnt. simpl. lia.
    - intros n Hn. rewrite H by auto. lia.
    - intros n c Hn. split; [intros [->|[]]; auto|intros [->|[m [[] _]]]; auto].
    - intros. repeat constructor. auto.
    - intros n c Hn [<-|[]]. split; auto. exists 0. auto.
    - apply repeat_length.
    - intros n Hn. rewrite (nth_indep _ 0%Z 1%Z) by (rewrite repeat_length; auto). now rewrite nth_repeat.
  Qed.

  Lemma outer_step fuel ix s : S N <= fuel -> ix < N -> outer ix s ->
    exists s', (nidp_val <- get (a_nidp s) ix ;;
             if negb (nidp_val =? 0)%Z then Ok s
             else acc_walk wadd fuel fdir s (Z.of_nat ix) 0%Z wzero) = Ok s' /\ outer (S ix) s'.
  Proof.
    intros Hfu Hix [F [up [I [Hlo Hhi]]]].
    rewrite (get_nth (a_nidp s) 0%Z) by (rewrite (v_l3 I); auto). cbn [bind].
    destruct (Z.eqb_spec (nth ix (a_nidp s) 0%Z) 0%Z) as [E|E]; cbn [negb].
    - assert (E0 := E). apply (v_zero I Hix) in E.
      destruct fuel as [|f]; [lia|]. cbn [acc_walk].
      rewrite (npget_nat (a_cnt s) 0%Z) by (rewrite (v_l1 I); auto). cbn [bind].
      rewrite npset_nat by (rewrite (v_l1 I); auto). cbn [bind].
      rewrite (npget_nat (a_area s) wzero) by (rewrite (v_l2 I); auto). cbn [bind].
      rewrite npset_nat by (rewrite (v_l2 I); auto). cbn [bind].
      rewrite (npget_nat _ 0%Z) by (rewrite upd_length, (v_l1 I); auto). cbn [bind].
      rewrite (npget_nat _ wzero) by (rewrite upd_length, (v_l2 I); auto). cbn [bind].
      rewrite (npget_nat (a_nidp s) 0%Z) by (rewrite (v_l3 I); auto). cbn [bind].
      rewrite nth_upd_eq by (rewrite (v_l1 I); auto). rewrite nth_upd_eq by (rewrite (v_l2 I); auto).
      rewrite E0. cbn [Z.leb Z.compare].
      rewrite (npget_nat fdir 0%Z) by auto. cbn [bind]. rewrite (fdir_down V Hix).
      rewrite wadd_0, Z.add_0_r.
      rewrite (upd_same (a_cnt s)) by (apply nth_error_nth'; rewrite (v_l1 I); auto).
      rewrite (upd_same (a_area s)) by (apply nth_error_nth'; rewrite (v_l2 I); auto).
      rewrite (v_c I Hix), (v_a I Hix).
      assert (Hno : forall c, c < N -> d c = ix -> False).
      { intros c Hc Hd. assert (X : 0 < ideg ix) by (apply indeg_pos; exists c; auto). lia. }
      destruct s as [sc sa sn]. simpl in *.
      destruct (@walk f F up (Acc sc sa sn) ix) as [F' [up' [s' [Ew [I' [Hin [Hsub Hnew]]]]]]].
      + destruct I. constructor; auto.
      + split; auto. split; [apply Hhi; auto|]. split; [intros c Hc Hd; destruct (Hno c Hc Hd)|].
        intros Hcy. destruct (cyc_pred V Hix Hcy) as [p [Hp [Hd _]]]. eauto.
      + lia.
      + exists s'. split; auto. exists F', up'. split; auto. split.
        * intros h Hh Hz. destruct (Nat.eq_dec h ix) as [->|]; auto. apply Hsub, Hlo; auto. lia.
        * intros h Hh Hz HF. destruct (Hnew h HF) as [H|[H|H]]; [|lia|lia].
          revert H. apply Hhi; auto. lia.
    - exists s. split; auto. exists F, up. split; auto. split.
      + intros h Hh Hz. destruct (Nat.eq_dec h ix) as [->|]; [|apply Hlo; auto; lia].
        exfalso. apply E. now apply (v_zero I).
      + intros h Hh. apply Hhi. lia.
  Qed.

  Lemma acc_run_spec fuel : S N <= fuel -> exists s F up, acc_run wadd wzero fuel fdir area = Ok s /\
    inv F up none s /\ (forall h, h < N -> ideg h = 0 -> In h F).
  Proof.
    intros Hfu. unfold acc_run. destruct (get_nidp_spec V) as [a [E [L H]]]. rewrite E. cbn [bind].
    assert (G : forall k s ix, outer ix s -> ix + k = N ->
      exists s', foldM (fun s ix => nidp_val <- get (a_nidp s) ix ;;
             if negb (nidp_val =? 0)%Z then Ok s
             else acc_walk wadd fuel fdir s (Z.of_nat ix) 0%Z wzero) (seq ix k) s = Ok s' /\ outer N s').
    { induction k as [|k IH]; intros s ix HO Hk; simpl.
      - exists s. split; auto. replace N with ix by lia. auto.
      - destruct (@outer_step fuel ix s Hfu ltac:(lia) HO) as [s1 [E1 O1]]. rewrite E1. cbn [bind].
        apply IH; auto. lia. }
    destruct (G N _ 0 (start_inv a L H) eq_refl) as [s [Es [F [up [I [Hh _]]]]]].
    exists s, F, up. split; auto.
  Qed.

  (** cells left out of F are on cycles (or terminal) *)
  Lemma unpassed_cyc F up s : inv F up none s -> (forall h, h < N -> ideg h = 0 -> In h F) ->
    forall n, n < N -> ~ In n F -> cyc fdir n.
  Proof.
    intros I Hh n Hn HF.
    assert (Hback : forall n, n < N -> ~ In n F -> exists c, c < N /\ d c = n /\ ~ In c F).
    { intros k Hk HkF. assert (X := v_nidp I Hk HkF (fun x => x)).
      assert (Hz := v_zero I Hk).
      assert (Hpos : 0 < ideg k). { destruct (Nat.eq_dec (ideg k) 0); [exfalso; apply HkF; auto|lia]. }
      assert (Hle := @into_le F k (v_nd I) (v_lt I)).
      destruct (Forall_Exists_dec (fun c => In c F) (fun c => in_dec Nat.eq_dec c F)
                  (filter (fun c => Nat.eqb (d c) k) (seq 0 N))) as [HA|HE].
      - exfalso. rewrite Forall_forall in HA. assert (Y : ideg k <= into F k).
        { apply all_into. intros c Hc Hd. apply HA. apply filter_In. split; [apply in_seq; lia|now apply Nat.eqb_eq]. }
        assert (nth k (a_nidp s) 0%Z = 0%Z) by lia. apply Hz in H. lia.
      - apply Exists_exists in HE. destruct HE as [c [Hc HcF]]. apply filter_In in Hc. destruct Hc as [H1 H2].
        apply in_seq in H1. apply Nat.eqb_eq in H2. exists c. repeat split; auto. lia. }
    assert (Hk : forall k, exists c, c < N /\ ~ In c F /\ downs fdir k c = n).
    { induction k as [|k [c [Hc [HcF Hd]]]]; [exists n; auto|].
      destruct (Hback c Hc HcF) as [b [Hb [Hbd HbF]]]. exists b. repeat split; auto. simpl. now rewrite Hbd. }
    destruct (Hk N) as [c [Hc [_ Hd]]]. rewrite <- Hd. now apply pigeon.
  Qed.

  (** the upstream list of a cell off the cycles *)
  Lemma up_complete F up s : inv F up none s -> (forall h, h < N -> ideg h = 0 -> In h F) ->
    forall n, n < N -> ~ on_cycle fdir n -> forall c, c < N -> (In c (up n) <-> flows_through fdir c n).
  Proof.
    intros I Hh n Hn Hnc c Hc. split; [intros H; now apply (v_path I c Hn)|].
    intros [k Hk]. revert n Hn Hnc Hk. induction k as [k IH] using lt_wf_ind. intros n Hn Hnc Hk.
    destruct k as [|k]; [simpl in Hk; subst; apply (v_up I); auto|].
    rewrite downs_S in Hk. set (m := downs fdir k c) in *.
    assert (Hm : m < N) by (apply downs_lt; auto).
    destruct (Nat.eq_dec m n) as [E|E]; [apply (IH k); auto|].
    assert (HmF : In m F).
    { destruct (in_dec Nat.eq_dec m F) as [|HF]; auto. exfalso.
      assert (X := unpassed_cyc I Hh Hm HF). assert (Y := cyc_down X). rewrite Hk in Y.
      apply cyc_iff in Y. destruct Y as [Y|Y]; [|contradiction]. unfold terminal in Y.
      destruct X as [q [Hq Hqm]]. apply E.
      assert (Z : forall j, downs fdir j n = n) by (induction j; auto; rewrite downs_S; congruence).
      destruct q as [|q]; [lia|]. simpl in Hqm. rewrite Hk, Z in Hqm. auto. }
    apply (v_up I); auto. right. exists m. split; auto. split; auto.
    apply (IH k); auto. intros Ho. apply (v_nocyc I HmF). apply cyc_iff. now right.
  Qed.
End Acc.
