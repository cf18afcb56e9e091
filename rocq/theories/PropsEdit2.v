(** C113 for any way of adding (floating point included): what is accumulated at a cell depends
    only on the cells upstream of it, so cells that no re-routed cell drains to keep bitwise the
    same value.  No law of the addition is used. *)
From Verif Require Import Py Spec MFlow LGraph LAcc LAcc2 LWs PropsAcc PropsBasin PropsEdit.
Set Implicit Arguments.
Unset Strict Implicit.
Local Open Scope nat_scope.
Local Open Scope list_scope.

Section Run.
  Context {W : Type} (wadd : W -> W -> W) (wzero : W).
  Variable w0 : W.
  Variable N : nat.
  Variable U : nat -> Prop.
  Hypothesis Udec : forall c, c < N -> U c \/ ~ U c.

  Definition good (s : @acc W) : Prop :=
    length (a_cnt s) = N /\ length (a_area s) = N /\ length (a_nidp s) = N.

  (** the two states agree on [U] *)
  Definition same (s s' : @acc W) : Prop :=
    forall c, c < N -> U c ->
      nth c (a_cnt s) 0%Z = nth c (a_cnt s') 0%Z /\ nth c (a_area s) w0 = nth c (a_area s') w0 /\
      nth c (a_nidp s) 0%Z = nth c (a_nidp s') 0%Z.

  Lemma same_trans s t u : same s t -> same t u -> same s u.
  Proof using. intros A B c Hc Hu. destruct (A c Hc Hu) as [? [? ?]], (B c Hc Hu) as [? [? ?]]. repeat split; congruence. Qed.
  Lemma same_sym s t : same s t -> same t s.
  Proof using. intros A c Hc Hu. destruct (A c Hc Hu) as [? [? ?]]. repeat split; congruence. Qed.

  (** one step of the walk, with the reads resolved *)
  Lemma walk_step f fdir s n na ar :
    good s -> valid_fdir fdir -> length fdir = N -> n < N ->
    acc_walk wadd (S f) fdir s (Z.of_nat n) na ar =
    let cnt := upd (a_cnt s) n (nth n (a_cnt s) 0 + na)%Z in
    let areas := upd (a_area s) n (wadd (nth n (a_area s) w0) ar) in
    let d := nth n (a_nidp s) 0%Z in
    if (2 <=? d)%Z then Ok (Acc cnt areas (upd (a_nidp s) n (d - 1)%Z))
    else acc_walk wadd f fdir (Acc cnt areas (a_nidp s)) (Z.of_nat (down fdir n))
           (nth n (a_cnt s) 0 + na)%Z (wadd (nth n (a_area s) w0) ar).
  Proof using.
    intros [L1 [L2 L3]] V LF Hn. cbn [acc_walk].
    rewrite (npget_nat (a_cnt s) 0%Z) by lia. cbn [bind].
    unfold npset at 1. rewrite npidx_nat by lia. cbn [bind].
    rewrite (npget_nat (a_area s) w0) by lia. cbn [bind].
    unfold npset at 1. rewrite npidx_nat by lia. cbn [bind].
    rewrite (npget_nat (upd (a_cnt s) n _) 0%Z) by (rewrite upd_length; lia). cbn [bind].
    rewrite (npget_nat (upd (a_area s) n _) w0) by (rewrite upd_length; lia). cbn [bind].
    rewrite (npget_nat (a_nidp s) 0%Z) by lia. cbn [bind]. cbv zeta.
    rewrite !nth_upd_eq by lia.
    destruct (2 <=? nth n (a_nidp s) 0)%Z.
    - unfold npset. rewrite npidx_nat by lia. reflexivity.
    - rewrite (npget_nat fdir 0%Z) by lia. cbn [bind]. f_equal.
      unfold down. rewrite Z2Nat.id; auto. unfold valid_fdir in V. rewrite Forall_forall in V.
      apply V, nth_In. lia.
  Qed.

  Lemma down_lt' fdir n : valid_fdir fdir -> length fdir = N -> n < N -> down fdir n < N.
  Proof using.
    intros V LF Hn. unfold down. unfold valid_fdir in V. rewrite Forall_forall in V.
    assert (X := V (nth n fdir 0%Z) ltac:(apply nth_In; lia)). lia.
  Qed.

  (** a walk that starts outside [U] does not change [U] *)
  Section Out.
    Variable fdir : list Z.
    Hypothesis (V : valid_fdir fdir) (LF : length fdir = N).
    Hypothesis out : forall c, c < N -> ~ U c -> ~ U (down fdir c).

    Lemma walk_out f : forall s n na ar t,
      good s -> n < N -> ~ U n -> acc_walk wadd f fdir s (Z.of_nat n) na ar = Ok t -> good t /\ same s t.
    Proof using V LF out.
      induction f as [|f IH]; intros s n na ar t G Hn Hu E; [cbn in E; congruence|].
      rewrite (walk_step f na ar G V LF Hn) in E. cbv zeta in E.
      destruct G as [L1 [L2 L3]]. destruct (2 <=? nth n (a_nidp s) 0)%Z.
      - injection E as <-. split; [repeat split; cbn; rewrite upd_length; auto|].
        intros c Hc Uc. cbn. rewrite !nth_upd_neq by congruence. auto.
      - apply IH in E.
        + destruct E as [Gt St]. split; auto. eapply same_trans; [|exact St].
          intros c Hc Uc. cbn. rewrite !nth_upd_neq by congruence. auto.
        + repeat split; cbn; rewrite ?upd_length; auto.
        + now apply down_lt'.
        + now apply out.
    Qed.

    Lemma walk_good f : forall s n na ar t,
      good s -> n < N -> acc_walk wadd f fdir s (Z.of_nat n) na ar = Ok t -> good t.
    Proof using w0 V LF.
      induction f as [|f IH]; intros s n na ar t G Hn E; [cbn in E; congruence|].
      rewrite (walk_step f na ar G V LF Hn) in E. cbv zeta in E.
      destruct G as [L1 [L2 L3]]. destruct (2 <=? nth n (a_nidp s) 0)%Z.
      - injection E as <-. repeat split; cbn; rewrite upd_length; auto.
      - apply IH in E; auto; [repeat split; cbn; rewrite ?upd_length; auto|now apply down_lt'].
    Qed.
  End Out.

  Variables fdir fdir' : list Z.
  Hypothesis (V : valid_fdir fdir) (LF : length fdir = N).
  Hypothesis (V' : valid_fdir fdir') (LF' : length fdir' = N).
  Hypothesis out : forall c, c < N -> ~ U c -> ~ U (down fdir c).
  Hypothesis out' : forall c, c < N -> ~ U c -> ~ U (down fdir' c).
  (** [turned c]: [c] flowed out of [U] and is now an outlet *)
  Variable turned : nat -> bool.
  Hypothesis agree : forall c, c < N -> U c -> turned c = false ->
    down fdir c = down fdir' c \/ (~ U (down fdir c) /\ ~ U (down fdir' c)).
  Hypothesis turn : forall c, c < N -> U c -> turned c = true ->
    ~ U (down fdir c) /\ down fdir' c = c /\ exists b, b < N /\ down fdir b = c.

  (** the inflows still to come: an outlet counts itself *)
  Definition nrel (c : nat) (d d' : Z) : Prop :=
    if turned c then (1 <= d /\ d' = d + 1)%Z \/ (d = 1 /\ d' = 1)%Z else d = d'.

  Definition rel (s s' : @acc W) : Prop :=
    forall c, c < N -> U c ->
      nth c (a_cnt s) 0%Z = nth c (a_cnt s') 0%Z /\ nth c (a_area s) w0 = nth c (a_area s') w0 /\
      nrel c (nth c (a_nidp s) 0%Z) (nth c (a_nidp s') 0%Z).

  Lemma rel_same s s' t t' : rel s s' -> same s t -> same s' t' -> rel t t'.
  Proof using.
    intros R A B c Hc Hu. destruct (R c Hc Hu) as [? [? ?]], (A c Hc Hu) as [? [? X]], (B c Hc Hu) as [? [? Y]].
    rewrite <- X, <- Y. repeat split; auto; congruence.
  Qed.

  (** an outlet without inflows to come is not entered again by a walk that ends *)
  Lemma walk_stuck f : forall s n na ar t,
    good s -> n < N -> down fdir' n = n -> (nth n (a_nidp s) 0 < 2)%Z ->
    acc_walk wadd f fdir' s (Z.of_nat n) na ar = Ok t -> False.
  Proof using V' LF' LF w0.
    induction f as [|f IH]; intros s n na ar t G Hn D B E; [cbn in E; congruence|].
    rewrite (walk_step f na ar G V' LF' Hn) in E. cbv zeta in E.
    destruct (Z.leb_spec 2 (nth n (a_nidp s) 0%Z)); [lia|]. rewrite D in E. destruct G as [L1 [L2 L3]].
    refine (IH _ _ _ _ _ _ Hn D _ E); [repeat split; cbn; rewrite ?upd_length; auto|exact B].
  Qed.

  Lemma walk_same f : forall f' s s' n na ar t t',
    good s -> good s' -> rel s s' -> n < N -> U n ->
    acc_walk wadd f fdir s (Z.of_nat n) na ar = Ok t ->
    acc_walk wadd f' fdir' s' (Z.of_nat n) na ar = Ok t' -> rel t t'.
  Proof using V LF V' LF' out out' agree turn Udec.
    induction f as [|f IH]; intros f' s s' n na ar t t' G G' R Hn Hu E E'; [cbn in E; congruence|].
    destruct f' as [|f']; [cbn in E'; congruence|]. assert (E0 := E').
    rewrite (walk_step f na ar G V LF Hn) in E. rewrite (walk_step f' na ar G' V' LF' Hn) in E'. cbv zeta in E, E'.
    destruct (R n Hn Hu) as [R1 [R2 R3]]. rewrite <- R1, <- R2 in E'.
    assert (L1 := proj1 G). assert (L2 := proj1 (proj2 G)). assert (L3 := proj2 (proj2 G)).
    assert (L1' := proj1 G'). assert (L2' := proj1 (proj2 G')). assert (L3' := proj2 (proj2 G')).
    assert (RU : forall b b' : list Z, length b = N -> length b' = N ->
       (forall c, c < N -> U c -> nrel c (nth c b 0%Z) (nth c b' 0%Z)) ->
       rel (Acc (upd (a_cnt s) n (nth n (a_cnt s) 0 + na)%Z) (upd (a_area s) n (wadd (nth n (a_area s) w0) ar)) b)
           (Acc (upd (a_cnt s') n (nth n (a_cnt s) 0 + na)%Z) (upd (a_area s') n (wadd (nth n (a_area s) w0) ar)) b')).
    { intros b b' Lb Lb' Hb c Hc Uc. destruct (R c Hc Uc) as [Q1 [Q2 Q3]]. cbn.
      rewrite !nth_upd by lia. destruct (Nat.eq_dec n c); repeat split; auto. }
    assert (GU : forall b, length b = N -> good (Acc (upd (a_cnt s) n (nth n (a_cnt s) 0 + na)%Z) (upd (a_area s) n (wadd (nth n (a_area s) w0) ar)) b))
      by (repeat split; cbn; rewrite ?upd_length; auto).
    assert (GU' : forall b, length b = N -> good (Acc (upd (a_cnt s') n (nth n (a_cnt s) 0 + na)%Z) (upd (a_area s') n (wadd (nth n (a_area s) w0) ar)) b))
      by (repeat split; cbn; rewrite ?upd_length; auto).
    assert (Gs := GU _ L3). assert (Gs' := GU' _ L3').
    assert (R' : rel _ _) by (apply (RU (a_nidp s) (a_nidp s') L3 L3'); intros c Hc Uc; apply R; auto).
    assert (Hd := down_lt' V LF Hn). assert (Hd' := down_lt' V' LF' Hn).
    destruct (turned n) eqn:T.
    - destruct (turn Hn Hu T) as [O1 [O2 _]]. unfold nrel in R3. rewrite T in R3.
      destruct R3 as [[B1 B2]|[B1 B2]]; [|exfalso; apply (walk_stuck G' Hn O2) in E0; auto; lia].
      destruct (Z.leb_spec 2 (nth n (a_nidp s') 0%Z)); [|lia]. injection E' as <-.
      destruct (Z.leb_spec 2 (nth n (a_nidp s) 0%Z)) as [D2|D2].
      + injection E as <-. apply RU; try (rewrite upd_length; auto).
        intros c Hc Uc. rewrite !nth_upd by lia. destruct (Nat.eq_dec n c) as [->|]; [|apply R; auto].
        unfold nrel. rewrite T. lia.
      + destruct (walk_out V LF out Gs Hd O1 E) as [_ S1].
        refine (rel_same (RU (a_nidp s) (upd (a_nidp s') n (nth n (a_nidp s') 0 - 1)%Z) L3 _ _) S1 _).
        * now rewrite upd_length.
        * intros c Hc Uc. rewrite nth_upd by lia. destruct (Nat.eq_dec n c) as [->|]; [|apply R; auto].
          unfold nrel. rewrite T. lia.
        * intros c _ _. auto.
    - unfold nrel in R3. rewrite T in R3. rewrite <- R3 in E'.
      destruct (2 <=? nth n (a_nidp s) 0)%Z.
      + injection E as <-. injection E' as <-. apply RU; try (rewrite upd_length; auto).
        intros c Hc Uc. rewrite !nth_upd by lia. destruct (Nat.eq_dec n c) as [->|]; [|apply R; auto].
        unfold nrel. now rewrite T.
      + assert (OUT : ~ U (down fdir n) -> ~ U (down fdir' n) -> rel t t').
        { intros A A'. destruct (walk_out V LF out Gs Hd A E) as [_ S1]. destruct (walk_out V' LF' out' Gs' Hd' A' E') as [_ S2].
          exact (rel_same R' S1 S2). }
        destruct (agree Hn Hu T) as [D|[A A']]; [|auto].
        destruct (Udec Hd) as [D1|D1].
        * rewrite <- D in E'. eapply IH; [exact Gs|exact Gs'|exact R'|exact Hd|exact D1|exact E|exact E'].
        * apply OUT; congruence.
  Qed.

  Lemma run_same f f' : forall l s s' t t',
    good s -> good s' -> rel s s' -> Forall (fun c => c < N) l ->
    foldM (fun s ix => nidp_val <- get (a_nidp s) ix ;;
             if negb (nidp_val =? 0)%Z then Ok s else acc_walk wadd f fdir s (Z.of_nat ix) 0 wzero) l s = Ok t ->
    foldM (fun s ix => nidp_val <- get (a_nidp s) ix ;;
             if negb (nidp_val =? 0)%Z then Ok s else acc_walk wadd f' fdir' s (Z.of_nat ix) 0 wzero) l s' = Ok t' ->
    good t /\ good t' /\ rel t t'.
  Proof using V LF V' LF' out out' agree turn Udec.
    induction l as [|x l IH]; intros s s' t t' G G' R F E E'; cbn [foldM] in E, E'.
    - injection E as <-. injection E' as <-. auto.
    - inversion F as [|x0 l0 Hx Fl]; subst x0 l0.
      assert (L3 : length (a_nidp s) = N) by apply G. assert (L3' : length (a_nidp s') = N) by apply G'.
      rewrite (@get_nth _ (a_nidp s) x 0%Z) in E by lia. rewrite (@get_nth _ (a_nidp s') x 0%Z) in E' by lia. cbn [bind] in E, E'.
      destruct (if negb (nth x (a_nidp s) 0 =? 0)%Z then Ok s else acc_walk wadd f fdir s (Z.of_nat x) 0 wzero) as [u|] eqn:B;
        cbn [bind] in E; [|congruence].
      destruct (if negb (nth x (a_nidp s') 0 =? 0)%Z then Ok s' else acc_walk wadd f' fdir' s' (Z.of_nat x) 0 wzero) as [u'|] eqn:B';
        cbn [bind] in E'; [|congruence].
      assert (Gu : good u) by (revert B; destruct (negb (nth x (a_nidp s) 0 =? 0)%Z); intros B; [cbn in B; inversion B; subst; auto|exact (walk_good V LF G Hx B)]).
      assert (Gu' : good u') by (revert B'; destruct (negb (nth x (a_nidp s') 0 =? 0)%Z); intros B'; [cbn in B'; inversion B'; subst; auto|exact (walk_good V' LF' G' Hx B')]).
      assert (Ru : rel u u').
      { destruct (Udec Hx) as [Ux|Ux].
        - destruct (R x Hx Ux) as [_ [_ R3]].
          assert (Z3 : (nth x (a_nidp s') 0 =? 0)%Z = (nth x (a_nidp s) 0 =? 0)%Z).
          { unfold nrel in R3. destruct (turned x); [|now rewrite R3].
            destruct (Z.eqb_spec (nth x (a_nidp s') 0%Z) 0), (Z.eqb_spec (nth x (a_nidp s) 0%Z) 0); lia. }
          rewrite Z3 in B'. revert B B'. destruct (negb (nth x (a_nidp s) 0 =? 0)%Z); intros B B'.
          + cbn in B; inversion B; subst. cbn in B'; inversion B'; subst. exact R.
          + eapply walk_same; [exact G|exact G'|exact R|exact Hx|exact Ux|exact B|exact B'].
        - assert (S1 : same s u).
          { revert B. destruct (negb (nth x (a_nidp s) 0 =? 0)%Z); intros B; [cbn in B; inversion B; subst; intros c _ _; auto|].
            exact (proj2 (walk_out V LF out G Hx Ux B)). }
          assert (S2 : same s' u').
          { revert B'. destruct (negb (nth x (a_nidp s') 0 =? 0)%Z); intros B'; [cbn in B'; inversion B'; subst; intros c _ _; auto|].
            exact (proj2 (walk_out V' LF' out' G' Hx Ux B')). }
          exact (rel_same R S1 S2). }
      eapply IH; [exact Gu|exact Gu'|exact Ru|exact Fl|exact E|exact E'].
  Qed.

  (** the same number of cells flow directly into each cell of [U] *)
  Lemma indeg_same n : n < N -> U n -> turned n = false -> indeg fdir n = indeg fdir' n.
  Proof using LF LF' out out' agree turn Udec.
    clear V V'. intros Hn Hu T. unfold indeg, cnt. rewrite LF, LF'. f_equal. apply filter_ext_in.
    intros c Hc. apply in_seq in Hc. assert (Hc' : c < N) by lia.
    assert (TC : turned c = true -> U c -> down fdir c <> n /\ down fdir' c <> n).
    { intros T1 U1. destruct (turn Hc' U1 T1) as [X1 [X2 _]]. split; congruence. }
    destruct (Nat.eqb_spec (down fdir c) n) as [A|A], (Nat.eqb_spec (down fdir' c) n) as [B|B]; auto; exfalso.
    - destruct (Udec Hc') as [Uc|Uc]; [|apply (out Hc' Uc); congruence].
      destruct (turned c) eqn:E; [destruct (TC eq_refl Uc); congruence|].
      destruct (agree Hc' Uc E) as [D|[D _]]; congruence.
    - destruct (Udec Hc') as [Uc|Uc]; [|apply (out' Hc' Uc); congruence].
      destruct (turned c) eqn:E; [destruct (TC eq_refl Uc); congruence|].
      destruct (agree Hc' Uc E) as [D|[_ D]]; congruence.
  Qed.

  (** a new outlet counts itself *)
  Lemma indeg_turned n : n < N -> U n -> turned n = true -> 0 < indeg fdir n /\ indeg fdir' n = S (indeg fdir n).
  Proof using LF LF' out out' agree turn Udec.
    clear V V'. intros Hn Hu T. destruct (turn Hn Hu T) as [O1 [O2 [b [Hb Db]]]].
    split; [apply indeg_pos; exists b; rewrite LF; auto|].
    unfold indeg, cnt. rewrite LF, LF'.
    assert (X : forall l, NoDup l -> (forall c, In c l -> c < N) ->
       length (filter (fun c => Nat.eqb (down fdir' c) n) l) =
       (if in_dec Nat.eq_dec n l then 1 else 0) + length (filter (fun c => Nat.eqb (down fdir c) n) l)).
    { induction l as [|c l IH]; intros ND HL; [reflexivity|]. inversion ND as [|x0 l0 NI ND']; subst x0 l0.
      assert (Hc : c < N) by (apply HL; now left). specialize (IH ND' (fun x H => HL x (or_intror H))).
      cbn [filter]. destruct (in_dec Nat.eq_dec n (c :: l)) as [I|I].
      - destruct (Nat.eq_dec c n) as [->|NE].
        + rewrite O2, Nat.eqb_refl. destruct (Nat.eqb_spec (down fdir n) n) as [Y|Y]; [exfalso; apply O1; congruence|].
          cbn [List.length]. rewrite IH. destruct (in_dec Nat.eq_dec n l); [contradiction|]. reflexivity.
        + destruct I as [I|I]; [congruence|]. destruct (in_dec Nat.eq_dec n l) as [_|?]; [|contradiction].
          assert (Q : Nat.eqb (down fdir' c) n = Nat.eqb (down fdir c) n).
          { destruct (Nat.eqb_spec (down fdir c) n) as [A|A], (Nat.eqb_spec (down fdir' c) n) as [B|B]; auto; exfalso.
            - destruct (Udec Hc) as [Uc|Uc]; [|apply (out Hc Uc); congruence].
              destruct (turned c) eqn:E; [destruct (turn Hc Uc E) as [? [? _]]; congruence|].
              destruct (agree Hc Uc E) as [D|[D _]]; congruence.
            - destruct (Udec Hc) as [Uc|Uc]; [|apply (out' Hc Uc); congruence].
              destruct (turned c) eqn:E; [destruct (turn Hc Uc E) as [? [? _]]; congruence|].
              destruct (agree Hc Uc E) as [D|[_ D]]; congruence. }
          rewrite Q. destruct (Nat.eqb (down fdir c) n); cbn [List.length]; rewrite IH; lia.
      - assert (NE : c <> n) by (intros ->; apply I; now left).
        destruct (in_dec Nat.eq_dec n l) as [?|_]; [exfalso; apply I; now right|].
        assert (Q : Nat.eqb (down fdir' c) n = Nat.eqb (down fdir c) n).
        { destruct (Nat.eqb_spec (down fdir c) n) as [A|A], (Nat.eqb_spec (down fdir' c) n) as [B|B]; auto; exfalso.
          - destruct (Udec Hc) as [Uc|Uc]; [|apply (out Hc Uc); congruence].
            destruct (turned c) eqn:E; [destruct (turn Hc Uc E) as [? [? _]]; congruence|].
            destruct (agree Hc Uc E) as [D|[D _]]; congruence.
          - destruct (Udec Hc) as [Uc|Uc]; [|apply (out' Hc Uc); congruence].
            destruct (turned c) eqn:E; [destruct (turn Hc Uc E) as [? [? _]]; congruence|].
            destruct (agree Hc Uc E) as [D|[_ D]]; congruence. }
        rewrite Q. destruct (Nat.eqb (down fdir c) n); cbn [List.length]; rewrite IH; lia. }
    rewrite X; [|apply seq_NoDup|intros c Hc; apply in_seq in Hc; lia].
    destruct (in_dec Nat.eq_dec n (seq 0 N)) as [_|I]; [reflexivity|]. exfalso. apply I. apply in_seq. lia.
  Qed.

  Lemma acc_same f f' area area' t t' :
    length area = N -> length area' = N -> (forall c, c < N -> U c -> nth c area w0 = nth c area' w0) ->
    acc_run wadd wzero f fdir area = Ok t -> acc_run wadd wzero f' fdir' area' = Ok t' ->
    good t /\ good t' /\ rel t t'.
  Proof using V LF V' LF' out out' agree turn Udec.
    intros La La' Ha E E'. unfold acc_run in E, E'.
    destruct (get_nidp_spec V) as [a [Ea [Ln Hn]]]. destruct (get_nidp_spec V') as [a' [Ea' [Ln' Hn']]].
    rewrite Ea in E. rewrite Ea' in E'. cbn [bind] in E, E'. rewrite LF in E, Ln, Hn. rewrite LF' in E', Ln', Hn'.
    eapply run_same; [| | | |exact E|exact E'].
    - repeat split; cbn; auto. apply repeat_length.
    - repeat split; cbn; auto. apply repeat_length.
    - intros c Hc Uc. cbn. repeat split; auto. rewrite Hn, Hn' by auto. unfold nrel.
      destruct (turned c) eqn:T; [destruct (indeg_turned Hc Uc T); lia|]. f_equal. now apply indeg_same.
    - apply Forall_forall. intros c Hc. apply in_seq in Hc. lia.
  Qed.
End Run.

(** ** C113: the value accumulated at a cell depends only on its catchment *)
Theorem C113_any_addition_untouched :
  forall (W : Type) (wadd : W -> W -> W) (wzero : W) (fdir fdir' : list Z) (area area' : list W) fuel fuel' cells cells' areas areas' n,
    valid_fdir fdir -> valid_fdir fdir' -> length fdir' = length fdir ->
    length area = length fdir -> length area' = length fdir -> n < length fdir ->
    flow_accumulation_cells wadd wzero fuel fdir area = Ok cells ->
    flow_accumulation_cells wadd wzero fuel' fdir' area' = Ok cells' ->
    flow_accumulation_area wadd wzero fuel fdir area = Ok areas ->
    flow_accumulation_area wadd wzero fuel' fdir' area' = Ok areas' ->
    (** no re-routed cell other than [n] drains to [n], and if [n] itself is re-routed it is
        not on a cycle, was no outlet, and if it becomes one it has an inflow *)
    untouched fdir fdir' n ->
    (rerouted fdir fdir' n -> ~ on_cycle fdir n /\ ~ on_cycle fdir' n /\ ~ terminal fdir n /\
       (terminal fdir' n -> exists b, b < length fdir /\ down fdir b = n)) ->
    (** the cells of the catchment have the same areas *)
    (forall c, flows_through fdir c n -> nth_error area' c = nth_error area c) ->
    nth_error cells' n = nth_error cells n /\ nth_error areas' n = nth_error areas n.
Proof.
  intros W wadd wzero fdir fdir' area area' fuel fuel' cells cells' areas areas' n V V' L La La' Hn Ec Ec' Ea Ea' U RN HA.
  assert (w0 : W) by exact wzero.
  unfold flow_accumulation_cells in Ec, Ec'. unfold flow_accumulation_area in Ea, Ea'.
  destruct (acc_run wadd wzero fuel fdir area) as [t|] eqn:E; cbn [bind] in Ec, Ea; [|congruence].
  destruct (acc_run wadd wzero fuel' fdir' area') as [t'|] eqn:E'; cbn [bind] in Ec', Ea'; [|congruence].
  injection Ec as <-. injection Ec' as <-. injection Ea as <-. injection Ea' as <-.
  assert (O : forall f c, ~ flows_through f c n -> ~ flows_through f (down f c) n)
    by (intros f c A [k B]; apply A; now exists (S k)).
  destruct (@acc_same W wadd wzero w0 (length fdir) (fun c => flows_through fdir c n)
    (fun c Hc => @flows_dec fdir V c n Hc) fdir fdir' V eq_refl V' L) with (f := fuel) (f' := fuel') (area := area) (area' := area') (t := t) (t' := t')
    (turned := fun c => if rerouted_dec fdir fdir' c then Nat.eqb (down fdir' c) c else false)
    as [[G1 [G2 _]] [[G1' [G2' _]] S]]; auto.
  - intros c Hc A B. apply A. apply (untouched_ft c U). apply (untouched_ft _ U) in B. destruct B as [k B]. now exists (S k).
  - intros c Hc A T. destruct (rerouted_dec fdir fdir' c) as [R|R]; [|left; now apply same_down].
    apply Nat.eqb_neq in T.
    destruct (Nat.eq_dec c n) as [->|NE]; [|exfalso; exact (proj1 (U c R NE) A)].
    right. destruct (RN R) as [C1 [C2 [T1 T2]]]. split; intros B.
    + destruct B as [k B]. apply C1. split; [exact T1|]. exists (S k). split; [lia|exact B].
    + apply (untouched_ft _ U) in B. destruct B as [k B]. apply C2. split; [exact T|]. exists (S k). split; [lia|exact B].
  - intros c Hc A T. destruct (rerouted_dec fdir fdir' c) as [R|R]; [|discriminate]. apply Nat.eqb_eq in T.
    destruct (Nat.eq_dec c n) as [->|NE]; [|exfalso; exact (proj1 (U c R NE) A)].
    destruct (RN R) as [C1 [C2 [T1 T2]]]. split; [|split; [exact T|exact (T2 T)]].
    intros [k B]. apply C1. split; [exact T1|]. exists (S k). split; [lia|exact B].
  - intros c Hc A. assert (X := HA c A). rewrite (nth_error_nth' area w0), (nth_error_nth' area' w0) in X by lia. congruence.
  - assert (F : flows_through fdir n n) by now exists 0.
    destruct (S n Hn F) as [S1 [S2 _]].
    rewrite (nth_error_nth' (a_cnt t') 0%Z), (nth_error_nth' (a_cnt t) 0%Z) by lia.
    rewrite (nth_error_nth' (a_area t') w0), (nth_error_nth' (a_area t) w0) by lia. split; congruence.
Qed.

(** a case with an addition that depends on the order of arrival: [a + b] is rounded down to a
    multiple of 4 once it exceeds 8.  Cell 4 collects 0, 1 and 2; cells 3 and 5, outside its
    catchment, are re-routed and get other areas. *)
Definition round4 (a b : Z) : Z := (let s := a + b in if 8 <? s then s / 4 * 4 else s)%Z.

Example C113_any_addition_ex :
  let fdir := [4; 4; 4; 5; 5; 5]%Z in let fdir' := [4; 4; 4; 3; 5; 3]%Z in
  let area := [3; 7; 2; 1; 1; 1]%Z in let area' := [3; 7; 2; 50; 1; 9]%Z in
  flow_accumulation_area round4 0%Z 20 fdir area = Ok [3; 7; 2; 1; 8; 8]%Z /\
  flow_accumulation_area round4 0%Z 20 fdir' area' = Ok [3; 7; 2; 64; 8; 16]%Z /\
  valid_fdir fdir /\ valid_fdir fdir' /\ untouched fdir fdir' 4 /\ ~ rerouted fdir fdir' 4 /\
  round4 (round4 3 7) 2 <> round4 (round4 3 2) 7.
Proof.
  cbv zeta. split; [vm_compute; reflexivity|]. split; [vm_compute; reflexivity|].
  split; [repeat constructor; cbn; lia|]. split; [repeat constructor; cbn; lia|]. split; [|split].
  - intros e R _. unfold rerouted in R.
    assert (Q1 : forall j, downs [4; 4; 4; 5; 5; 5]%Z j 5 = 5) by (induction j; auto).
    assert (Q2 : forall j, downs [4; 4; 4; 3; 5; 3]%Z j 3 = 3) by (induction j; auto).
    destruct e as [|[|[|[|[|[|e]]]]]]; cbn in R; try congruence.
    + split; intros [k E]; [destruct k as [|k]; [discriminate|]; cbn in E; rewrite Q1 in E|rewrite Q2 in E]; discriminate.
    + split; intros [k E]; [rewrite Q1 in E|destruct k as [|k]; [discriminate|]; cbn in E; rewrite Q2 in E]; discriminate.
  - intros R. apply R. reflexivity.
  - vm_compute. congruence.
Qed.
