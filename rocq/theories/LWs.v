(** Reversed flow directions and watersheds. *)
From Verif Require Import Py Spec MFlow LGraph LAcc.
Set Implicit Arguments.
Local Open Scope nat_scope.
Local Open Scope list_scope.

Definition colOf (rows : list (list Z)) (n : nat) : list Z := map (fun r => nth n r 0%Z) rows.

Lemma npmax_spec l : l <> [] -> exists m, npmax l = Ok m /\ (forall x, In x l -> (x <= m)%Z) /\ In m l.
Proof.
  destruct l as [|x l]; [congruence|]. intros _. exists (fold_left Z.max l x). split; auto.
  revert x. induction l as [|y l IH]; intros x; cbn [fold_left].
  - split; [intros z [<-|[]]; lia|now left].
  - destruct (IH (Z.max x y)) as [H1 H2]. split.
    + assert (X := H1 _ (or_introl eq_refl)). intros z [<-|[<-|Hz]]; [lia|lia|]. apply H1. now right.
    + destruct H2 as [H2|H2]; [|right; now right].
      destruct (Z.max_dec x y) as [E|E]; rewrite E in *; [left|right; left]; auto.
Qed.

Section Rev.
  Variable fdir : list Z.
  Notation N := (length fdir).
  Hypothesis V : valid_fdir fdir.
  Notation d := (down fdir).

  Lemma rev_insert_spec z ix : z < N -> forall rows l k,
    Forall (fun r => length r = N) rows -> colOf rows z = l ++ repeat (-1)%Z (S k) -> ~ In (-1)%Z l ->
    exists rows', rev_insert rows (Z.of_nat z) ix = Ok rows' /\ Forall (fun r => length r = N) rows' /\
      length rows' = length rows /\
      colOf rows' z = l ++ ix :: repeat (-1)%Z k /\ (forall n, n <> z -> colOf rows' n = colOf rows n).
  Proof.
    intros Hz. induction rows as [|r rows IH]; intros l k HF Hc Hl.
    - simpl in Hc. destruct l; discriminate.
    - inversion HF as [|? ? Hr HF']; subst. cbn [rev_insert].
      rewrite (npget_nat r 0%Z) by lia. cbn [bind]. simpl in Hc.
      destruct l as [|y l].
      + simpl in Hc. inversion Hc as [[H1 H2]]. rewrite H1. cbn [Z.eqb Pos.eqb].
        rewrite npset_nat by lia. cbn [bind]. eexists. split; [reflexivity|]. split; [|split; [|split]].
        * constructor; auto. now rewrite upd_length.
        * reflexivity.
        * unfold colOf in *. simpl. rewrite nth_upd_eq by lia. simpl in H2. now rewrite H2.
        * intros n Hn. simpl. rewrite nth_upd_neq; auto.
      + simpl in Hc. inversion Hc as [[H1 H2]]. rewrite H1. destruct (Z.eqb_spec y (-1)) as [E|E].
        { exfalso. apply Hl. left. auto. }
        destruct (IH l k HF' H2) as [rows' [E1 [E2 [E3 [E4 E5]]]]]; [intros H; apply Hl; now right|].
        rewrite E1. cbn [bind]. eexists. split; [reflexivity|]. split; [|split; [|split]].
        * constructor; auto.
        * simpl. now rewrite E3.
        * simpl. rewrite E4. congruence.
        * intros n Hn. simpl. now rewrite E5.
  Qed.

  Definition children (i n : nat) : list nat := filter (fun c => Nat.eqb (d c) n) (seq 0 i).

  Lemma children_S i n : children (S i) n = children i n ++ (if Nat.eqb (d i) n then [i] else []).
  Proof. unfold children. rewrite seq_S, filter_app. simpl. destruct (Nat.eqb (d i) n); auto. Qed.

  Lemma children_le i n : i <= N -> length (children i n) <= indeg fdir n.
  Proof. intros H. unfold indeg, cnt, children.
    replace N with (i + (N - i)) by lia. rewrite seq_app, filter_app, app_length. lia. Qed.

  Lemma in_children n c : In c (children N n) <-> c < N /\ d c = n.
  Proof. unfold children. rewrite filter_In, in_seq, Nat.eqb_eq. intuition lia. Qed.

  Lemma reverse_spec : 0 < N -> exists rows, reverse_flow_directions fdir = Ok rows /\
    Forall (fun r => length r = N) rows /\
    (forall n, n < N -> indeg fdir n <= length rows) /\
    forall n, n < N -> firstn (indeg fdir n) (colOf rows n) = map Z.of_nat (children N n).
  Proof.
    intros HN. unfold reverse_flow_directions. destruct (get_nidp_spec V) as [nd [E [L H]]]. rewrite E. cbn [bind].
    destruct (@npmax_spec nd) as [m [Em [Hm Hin]]]; [destruct nd; simpl in L; [lia|congruence]|].
    rewrite Em. cbn [bind]. set (R := Z.to_nat m).
    assert (HR : forall n, n < N -> indeg fdir n <= R).
    { intros n Hn. assert (X : (nth n nd 0 <= m)%Z) by (apply Hm, nth_In; lia). rewrite H in X by auto. unfold R. lia. }
    assert (Inv : forall k i rows, i + k = N -> Forall (fun r => length r = N) rows -> length rows = R ->
      (forall n, n < N -> colOf rows n = map Z.of_nat (children i n) ++ repeat (-1)%Z (R - length (children i n))) ->
      exists rows', foldM (fun rows p => rev_insert rows (snd p) (Z.of_nat (fst p)))
        (combine (seq i k) (skipn i fdir)) rows = Ok rows' /\ Forall (fun r => length r = N) rows' /\ length rows' = R /\
      (forall n, n < N -> colOf rows' n = map Z.of_nat (children N n) ++ repeat (-1)%Z (R - length (children N n)))).
    { induction k as [|k IH]; intros i rows Hi HF HL HC.
      - exists rows. replace i with N in HC by lia. auto.
      - assert (Es : skipn i fdir = nth i fdir 0%Z :: skipn (S i) fdir).
        { assert (Hi' : i < N) by lia. clear - Hi'. revert i Hi'. induction fdir as [|z l IHl]; intros [|i] Hi; simpl in *; try lia; auto.
          rewrite IHl by lia. destruct l; auto. }
        rewrite Es. cbn [seq combine foldM fst snd].
        rewrite (fdir_down V) by lia. assert (Hd : d i < N) by (apply down_lt; auto; lia).
        assert (Hch := @children_le (S i) (d i) ltac:(lia)). rewrite children_S, Nat.eqb_refl, app_length in Hch. simpl in Hch.
        assert (HRd := HR _ Hd).
        destruct (@rev_insert_spec (d i) (Z.of_nat i) Hd rows (map Z.of_nat (children i (d i))) (R - length (children i (d i)) - 1))
          as [rows' [E1 [E2 [E3 [E4 E5]]]]]; auto.
        + rewrite HC by auto. do 2 f_equal. lia.
        + intros Hm1. apply in_map_iff in Hm1. destruct Hm1 as [c [Hc _]]. lia.
        + rewrite E1. cbn [bind]. apply IH; auto; try lia.
          intros n Hn. rewrite children_S. destruct (Nat.eqb_spec (d i) n) as [<-|Hne].
          * rewrite E4, map_app, <- app_assoc, app_length. simpl. do 3 f_equal. lia.
          * rewrite app_nil_r. rewrite E5 by auto. now apply HC. }
    destruct (Inv N 0 (repeat (repeat (-1)%Z N) R)) as [rows' [E1 [E2 [E3 E4]]]]; auto.
    - apply Forall_forall. intros r Hr. apply repeat_spec in Hr. subst. apply repeat_length.
    - apply repeat_length.
    - intros n Hn. simpl. rewrite Nat.sub_0_r. unfold colOf. generalize R. induction R0 as [|q IHq]; simpl; auto.
      rewrite IHq. f_equal. rewrite (nth_indep _ 0%Z (-1)%Z) by (now rewrite repeat_length). apply nth_repeat.
    - exists rows'. split; [exact E1|]. split; auto. split; [intros; rewrite E3; auto|].
      intros n Hn. rewrite E4 by auto.
      assert (X : length (map Z.of_nat (children N n)) = indeg fdir n) by (now rewrite map_length).
      rewrite <- X. rewrite firstn_app, Nat.sub_diag, firstn_all. simpl. now rewrite app_nil_r.
  Qed.

  Lemma column_spec rows n : Forall (fun r => length r = N) rows -> n < N ->
    forall k, column rows (Z.of_nat k) (Z.of_nat n) = Ok (firstn k (colOf rows n)).
  Proof.
    intros HF Hn k. unfold column. rewrite Nat2Z.id. unfold colOf. rewrite firstn_map. apply mapM_ok.
    intros r Hr. rewrite (npget_nat r 0%Z); auto. rewrite Forall_forall in HF.
    rewrite HF; auto. rewrite <- (firstn_skipn k rows). apply in_app_iff. now left.
  Qed.
End Rev.

Section WS.
  Variable fdir : list Z.
  Notation N := (length fdir).
  Hypothesis V : valid_fdir fdir.
  Notation d := (down fdir).
  Variables (rows : list (list Z)) (nd : list Z).
  Hypothesis Hnd : length nd = N.
  Hypothesis Hndv : forall n, n < N -> nth n nd 0%Z = Z.of_nat (indeg fdir n).
  Hypothesis Hrows : Forall (fun r => length r = N) rows.
  Hypothesis Hcols : forall n, n < N -> firstn (indeg fdir n) (colOf rows n) = map Z.of_nat (children fdir N n).
  Variables (sub0 : list Z) (id : Z) (pour : nat).
  Hypothesis L0 : length sub0 = N.
  Hypothesis id0 : id <> 0%Z.
  Hypothesis Hpour : pour < N.
  Hypothesis Hfresh : forall c, c < N -> nth c sub0 0%Z <> id.

  (** the path of c reaches the pour point, through cells not labelled before *)
  Definition reaches c := exists k, downs fdir k c = pour /\ forall j, j < k -> nth (downs fdir j c) sub0 0%Z = 0%Z.

  Record winv (stack : list Z) (sub : list Z) : Prop := {
    w_len : length sub = N;
    w_reach : forall c, c < N -> nth c sub 0%Z = id -> reaches c;
    w_keep : forall c, c < N -> nth c sub 0%Z <> id -> nth c sub 0%Z = nth c sub0 0%Z;
    w_stack : forall x, In x stack -> exists c, x = Z.of_nat c /\ c < N /\ nth (d c) sub 0%Z = id;
    w_closed : forall c, c < N -> nth (d c) sub 0%Z = id ->
      nth c sub 0%Z = id \/ In (Z.of_nat c) stack \/ nth c sub0 0%Z <> 0%Z;
    w_pour : nth pour sub 0%Z = id
  }.

  Definition open_ (sub : list Z) : nat := cnt (fun c => Z.eqb (nth (d c) sub 0%Z) 0%Z) (seq 0 N).

  Lemma cnt_split (f g h : nat -> bool) l :
    (forall x, In x l -> (if f x then 1 else 0) = (if g x then 1 else 0) + (if h x then 1 else 0)) ->
    cnt f l = cnt g l + cnt h l.
  Proof. induction l as [|x l IH]; intros H; auto. rewrite !cnt_cons. rewrite IH by (intros; apply H; now right).
    rewrite (H x) by now left. lia. Qed.

  Lemma open_mark sub c : length sub = N -> c < N -> nth c sub 0%Z = 0%Z ->
    open_ sub = open_ (upd sub c id) + indeg fdir c.
  Proof.
    intros L Hc H0. unfold open_, indeg. apply cnt_split. intros x Hx. apply in_seq in Hx.
    assert (Hd : d x < N) by (apply down_lt; auto; lia).
    rewrite nth_upd by lia. destruct (Nat.eq_dec c (d x)) as [<-|Hne].
    - rewrite H0, Nat.eqb_refl. destruct (Z.eqb_spec id 0); [contradiction|]. reflexivity.
    - destruct (Nat.eqb_spec (d x) c); [congruence|]. destruct (_ =? 0)%Z; reflexivity.
  Qed.

  Lemma ws_step_inv stack sub c : winv (Z.of_nat c :: stack) sub -> c < N -> nth c sub 0%Z = 0%Z ->
    winv (stack ++ map Z.of_nat (children fdir N c)) (upd sub c id).
  Proof.
    intros I Hc H0.
    destruct (w_stack I (Z.of_nat c) (or_introl eq_refl)) as [c' [Ec [_ Hdc]]]. apply Nat2Z.inj in Ec. subst c'.
    assert (Hc0 : nth c sub0 0%Z = 0%Z).
    { rewrite <- (w_keep I Hc); auto. rewrite H0. auto. }
    assert (Hr : reaches c).
    { destruct (w_reach I (@down_lt _ V c Hc) Hdc) as [k [Hk1 Hk2]]. exists (S k). split; auto.
      intros [|j] Hj; auto. simpl. apply Hk2. lia. }
    assert (U : forall k, nth k (upd sub c id) 0%Z = if Nat.eq_dec c k then id else nth k sub 0%Z).
    { intros k. apply nth_upd. rewrite (w_len I). auto. }
    constructor.
    - rewrite upd_length. apply (w_len I).
    - intros k Hk. rewrite U. destruct (Nat.eq_dec c k) as [<-|]; auto. now apply (w_reach I).
    - intros k Hk. rewrite U. destruct (Nat.eq_dec c k) as [<-|]; [congruence|]. now apply (w_keep I).
    - intros x Hx. apply in_app_iff in Hx. destruct Hx as [Hx|Hx].
      + destruct (w_stack I x (or_intror Hx)) as [k [E [Hk Hd]]]. exists k. split; auto. split; auto.
        rewrite U. destruct (Nat.eq_dec c (d k)); auto.
      + apply in_map_iff in Hx. destruct Hx as [k [E Hk]]. apply in_children in Hk. exists k.
        split; auto. split; [tauto|]. rewrite U. destruct (Nat.eq_dec c (d k)); auto. exfalso. apply n. symmetry. tauto.
    - intros k Hk. rewrite !U. destruct (Nat.eq_dec c (d k)) as [E|E].
      + intros _. right. left. apply in_app_iff. right. apply in_map, in_children. auto.
      + intros Hd. destruct (Nat.eq_dec c k) as [|Hck]; auto.
        destruct (w_closed I Hk Hd) as [H|[[H|H]|H]]; auto.
        * apply Nat2Z.inj in H. contradiction.
        * right. left. apply in_app_iff. auto.
    - rewrite U. destruct (Nat.eq_dec c pour); auto. apply (w_pour I).
  Qed.

  Lemma ws_skip_inv stack sub c : winv (Z.of_nat c :: stack) sub -> c < N -> nth c sub 0%Z <> 0%Z ->
    winv stack sub.
  Proof.
    intros I Hc H0. constructor; try apply I.
    - intros x Hx. apply (w_stack I). now right.
    - intros k Hk Hd. destruct (w_closed I Hk Hd) as [H|[[H|H]|H]]; auto.
      apply Nat2Z.inj in H. subst k. destruct (Z.eq_dec (nth c sub 0%Z) id); auto.
      right. right. rewrite <- (w_keep I Hc); auto.
  Qed.

  Lemma ws_loop_spec fuel : forall stack sub, winv stack sub -> length stack + open_ sub <= fuel ->
    exists sub', ws_loop fuel rows nd id stack sub = Ok sub' /\ winv [] sub'.
  Proof.
    induction fuel as [|f IH]; intros stack sub I Hf.
    - destruct stack as [|x stack]; [|simpl in Hf; lia]. exists sub. auto.
    - destruct stack as [|x stack]; [exists sub; auto|].
      destruct (w_stack I x (or_introl eq_refl)) as [c [-> [Hc Hd]]]. simpl in Hf.
      cbn [ws_loop]. rewrite (npget_nat sub 0%Z) by (rewrite (w_len I); auto). cbn [bind].
      destruct (Z.eqb_spec (nth c sub 0%Z) 0) as [E|E]; cbn [negb].
      + rewrite npset_nat by (rewrite (w_len I); auto). cbn [bind].
        rewrite (npget_nat nd 0%Z) by (rewrite Hnd; auto). cbn [bind]. rewrite Hndv by auto.
        assert (Hm := @open_mark sub c (w_len I) Hc E).
        assert (I' := ws_step_inv I Hc E).
        destruct (Z.eqb_spec (Z.of_nat (indeg fdir c)) 0) as [E0|E0].
        * apply IH; [|lia]. assert (X : children fdir N c = []).
          { destruct (children fdir N c) eqn:Ec; auto. exfalso.
            assert (Y : length (children fdir N c) = indeg fdir c) by reflexivity. rewrite Ec in Y. simpl in Y. lia. }
          rewrite X in I'. simpl in I'. now rewrite app_nil_r in I'.
        * rewrite (column_spec fdir Hrows Hc). cbn [bind]. rewrite Hcols by auto. apply IH; auto.
          rewrite app_length, map_length. assert (Y : length (children fdir N c) = indeg fdir c) by reflexivity. lia.
      + apply IH; [now apply (ws_skip_inv I Hc E)|lia].
  Qed.

  Lemma winv_start : winv (map Z.of_nat (children fdir N pour)) (upd sub0 pour id).
  Proof.
    assert (U : forall k, nth k (upd sub0 pour id) 0%Z = if Nat.eq_dec pour k then id else nth k sub0 0%Z).
    { intros k. apply nth_upd. rewrite L0. auto. }
    constructor.
    - now rewrite upd_length.
    - intros c Hc. rewrite U. destruct (Nat.eq_dec pour c) as [<-|]; intros H.
      + exists 0. split; auto. intros; lia.
      + destruct (Hfresh Hc H).
    - intros c Hc. rewrite U. destruct (Nat.eq_dec pour c); auto. congruence.
    - intros x Hx. apply in_map_iff in Hx. destruct Hx as [c [<- Hc]]. apply in_children in Hc. exists c.
      split; auto. split; [tauto|]. rewrite U. destruct (Nat.eq_dec pour (d c)); auto. exfalso; apply n; symmetry; tauto.
    - intros c Hc. rewrite !U. destruct (Nat.eq_dec pour (d c)) as [E|E].
      + intros _. right. left. apply in_map, in_children. auto.
      + intros H. exfalso. apply (@Hfresh (d c)); auto. now apply down_lt.
    - rewrite U. destruct (Nat.eq_dec pour pour); congruence.
  Qed.

  Lemma winv_end sub : winv [] sub -> forall c, c < N ->
    (reaches c -> nth c sub 0%Z = id) /\ (~ reaches c -> nth c sub 0%Z = nth c sub0 0%Z).
  Proof.
    intros I c Hc. split.
    - intros [k [Hk Hj]]. revert c Hc Hk Hj. induction k as [|k IH]; intros c Hc Hk Hj.
      + simpl in Hk. subst. apply (w_pour I).
      + simpl in Hk. assert (X : nth (d c) sub 0%Z = id).
        { apply IH; auto; [now apply down_lt|]. intros j Hjk. apply (Hj (S j)). lia. }
        destruct (w_closed I Hc X) as [H|[[]|H]]; auto. exfalso. apply H. apply (Hj 0). lia.
    - intros Hr. destruct (Z.eq_dec (nth c sub 0%Z) id) as [E|E]; [|now apply (w_keep I)].
      exfalso. apply Hr. now apply (w_reach I).
  Qed.

  Lemma open_start : length (children fdir N pour) + open_ (upd sub0 pour id) <= N.
  Proof.
    assert (Y : length (children fdir N pour) = indeg fdir pour) by reflexivity. rewrite Y.
    assert (X : cnt (fun c => Nat.eqb (d c) pour || Z.eqb (nth (d c) (upd sub0 pour id) 0%Z) 0%Z) (seq 0 N)
                = indeg fdir pour + open_ (upd sub0 pour id)).
    { unfold indeg, open_. apply cnt_split. intros x Hx. apply in_seq in Hx. destruct (Nat.eqb_spec (d x) pour) as [E|E]; simpl; auto.
      rewrite E, nth_upd_eq by (rewrite L0; auto). destruct (Z.eqb_spec id 0); [contradiction|auto]. }
    rewrite <- X. unfold cnt. etransitivity; [apply NoDup_incl_length with (l' := seq 0 N); [apply NoDup_filter, seq_NoDup|]|now rewrite seq_length].
    intros y Hy. apply filter_In in Hy. tauto.
  Qed.
End WS.

(** the whole call *)
Section Call.
  Variable fdir : list Z.
  Notation N := (length fdir).
  Hypothesis V : valid_fdir fdir.

  Lemma watershed_spec fuel pour (sub : option (list Z)) :
    pour < N -> N <= fuel ->
    let sub0 := match sub with Some s => s | None => repeat 0%Z N end in
    length sub0 = N -> Forall (fun z => (0 <= z)%Z) sub0 ->
    exists m out, get_watershed_boundary fuel fdir (Z.of_nat pour) sub = Ok out /\ length out = N /\
      In m sub0 /\ (forall x, In x sub0 -> (x <= m)%Z) /\
      forall c, c < N ->
        (reaches fdir sub0 pour c -> nth c out 0%Z = (m + 1)%Z) /\
        (~ reaches fdir sub0 pour c -> nth c out 0%Z = nth c sub0 0%Z).
  Proof.
    intros Hp Hf sub0 L0 Hpos.
    destruct (reverse_spec V) as [rows [Er [HF [_ Hc]]]]; [lia|].
    destruct (get_nidp_spec V) as [nd [En [Ln Hn]]].
    destruct (@npmax_spec sub0) as [m [Em [Hm Hin]]]; [destruct sub0; simpl in L0; [lia|congruence]|].
    exists m. unfold get_watershed_boundary. rewrite Er. cbn [bind]. unfold watershed_with. rewrite En. cbn [bind].
    fold sub0. rewrite Em. cbn [bind]. rewrite npset_nat by lia. cbn [bind].
    rewrite (npget_nat nd 0%Z) by lia. cbn [bind]. rewrite Hn by auto. rewrite (column_spec fdir HF Hp). cbn [bind].
    rewrite Hc by auto.
    assert (Hm0 : (0 <= m)%Z). { rewrite Forall_forall in Hpos. now apply Hpos. }
    assert (Hfr : forall c, c < N -> nth c sub0 0%Z <> (m + 1)%Z).
    { intros c Hc'. assert (X : (nth c sub0 0 <= m)%Z) by (apply Hm, nth_In; lia). lia. }
    assert (Hid : (m + 1 <> 0)%Z) by lia.
    assert (W0 : winv fdir sub0 (m + 1)%Z pour (map Z.of_nat (children fdir N pour)) (upd sub0 pour (m + 1)%Z))
      by (eapply winv_start; eauto).
    assert (O0 : length (children fdir N pour) + open_ fdir (upd sub0 pour (m + 1)%Z) <= N) by (eapply open_start; eauto).
    assert (G : exists out, ws_loop fuel rows nd (m + 1)%Z (map Z.of_nat (children fdir N pour)) (upd sub0 pour (m + 1)%Z) = Ok out
                 /\ winv fdir sub0 (m + 1)%Z pour [] out).
    { eapply ws_loop_spec; eauto. rewrite map_length. lia. }
    destruct G as [out [E I]].
    exists out. split; auto. split; [apply (w_len I)|]. split; auto. split; auto.
    eapply winv_end; eauto.
  Qed.
End Call.
