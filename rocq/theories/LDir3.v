(** Proofs about MDir: the loop over the cells. *)
From Verif Require Import Py MFlow MDir LDir LDir2.
Set Implicit Arguments.
Unset Strict Implicit.
Local Open Scope nat_scope.
Local Open Scope list_scope.

(** a smallest element of a finite set *)
Lemma minimal_in (R : nat -> nat -> bool) (l : list nat) :
  (forall a b c, R a b = true -> R b c = true -> R a c = true) -> (forall a, R a a = false) ->
  l <> [] -> exists m, In m l /\ forall x, In x l -> R x m = false.
Proof.
  intros T I. induction l as [|a l IH]; [congruence|]. intros _.
  destruct l as [|b l]; [exists a; split; [now left|intros x [<-|[]]; auto]|].
  destruct IH as [m [Hm Hl]]; [discriminate|].
  destruct (R a m) eqn:E.
  - exists a. split; [now left|]. intros x [<-|Hx]; auto. destruct (R x a) eqn:E2; auto.
    assert (X := T _ _ _ E2 E). rewrite Hl in X; auto.
  - exists m. split; [now right|]. intros x [<-|Hx]; auto.
Qed.

Section Loop.
  Variables (N : nat) (fnb : list (list nat)) (nan : nat -> bool).
  Hypothesis Lfnb : length fnb = N.
  Variable F0 : list (list nat).
  Hypothesis RF0 : regular N fnb nan F0.
  Variables (W fuel : nat).
  Hypothesis HW : forall c, good N nan c -> length (nth c F0 []) <= W.
  Hypothesis FU : fueled N W fuel.
  Hypothesis HN : (Z.of_nat N < 999000)%Z.
  Variable s0 : list Z.
  Hypothesis Ls0 : length s0 = N.
  Hypothesis start : forall c, c < N -> nth c s0 0%Z = (-1)%Z \/ nth c s0 0%Z = Z.of_nat c.
  Notation good := (good N nan).
  Notation tg := (tg fnb).

  Definition fixedc (c : nat) : Prop := nth c s0 0%Z = Z.of_nat c.
  (** [c] is one of several minima of another cell *)
  Definition tied (c : nat) : Prop := exists x, good x /\ 1 < length (tg F0 x) /\ In c (tg F0 x).

  Record linv (done : list nat) (st : list Z * list (list nat)) : Prop := {
    l_len : length (fst st) = N;
    l_reg : regular N fnb nan (snd st);
    l_w : forall c, good c -> length (nth c (snd st) []) <= W;
    l_sub : forall c, incl (nth c (snd st) []) (nth c F0 []) /\
                      length (nth c (snd st) []) <= length (nth c F0 []) /\
                      (length (nth c F0 []) = 1 -> nth c (snd st) [] = nth c F0 []);
    l_val : forall c, c < N ->
       nth c (fst st) 0%Z = (-1)%Z \/
       (nth c (fst st) 0%Z = (-2)%Z /\ good c /\ length (tg F0 c) <> 1) \/
       (nth c (fst st) 0%Z = Z.of_nat c /\ (fixedc c \/ nan c = true)) \/
       (good c /\ exists t, In t (tg F0 c) /\ nth c (fst st) 0%Z = Z.of_nat t);
    l_done : forall c, In c done -> nth c (fst st) 0%Z <> (-1)%Z;
    l_fix : forall c, c < N -> fixedc c -> nth c (fst st) 0%Z <> (-1)%Z;
    l_keep : forall c, c < N -> fixedc c -> ~ tied c -> nth c (fst st) 0%Z = Z.of_nat c
  }.

  Lemma tg_sub fcells c : incl (nth c fcells []) (nth c F0 []) -> incl (tg fcells c) (tg F0 c).
  Proof. intros H t Ht. unfold LDir.tg in *. apply in_map_iff in Ht. destruct Ht as [k [<- Hk]]. apply in_map. now apply H. Qed.
  Lemma tg_len fcells c : length (tg fcells c) = length (nth c fcells []).
  Proof. apply map_length. Qed.

  Lemma linv0 : linv [] (s0, F0).
  Proof.
    constructor; cbn; auto.
    - intros c. split; [apply incl_refl|auto].
    - intros c Hc. destruct (start Hc) as [E|E]; auto. right. right. left. split; [exact E|left; exact E].
    - intros c Hc F. unfold fixedc in F. rewrite F. lia.
  Qed.

  Lemma linv_step done st ix : linv done st -> ix < N ->
    exists st', flow_cell fuel nan fnb st ix = Ok st' /\ linv (done ++ [ix]) st' /\ moved N fnb nan ix st st'.
  Proof.
    intros I Hix. destruct st as [fdir fcells].
    destruct (@flow_cell_spec N fnb nan Lfnb fuel W fdir fcells ix (l_reg I) (l_len I) Hix (l_w I) FU HN)
      as [fdir' [fcells' [E [L' [R' [W' M]]]]]].
    exists (fdir', fcells'). split; auto. split; auto.
    assert (Lf := l_len I). cbn [fst snd] in Lf.
    inversion M as [? ? Hne|? ? Hm1 Hnan|? ? ? ? Hm1 Hnan HF HK HR]; subst.
    - (* already solved *)
      constructor; cbn [fst snd]; try apply I; auto. intros c Hc. apply in_app_iff in Hc.
      destruct Hc as [Hc|[<-|[]]]; auto. now apply (l_done I).
    - (* NaN cell *)
      constructor; cbn [fst snd]; try apply I; auto.
      + intros c Hc. destruct (Nat.eq_dec c ix) as [->|Hne].
        * rewrite nth_upd_eq by lia. right. right. left. auto.
        * rewrite nth_upd_neq by auto. now apply (l_val I).
      + intros c Hc. destruct (Nat.eq_dec c ix) as [->|Hne]; [rewrite nth_upd_eq by lia; lia|].
        rewrite nth_upd_neq by auto. apply in_app_iff in Hc. destruct Hc as [Hc|[<-|[]]]; [now apply (l_done I)|congruence].
      + intros c Hc F. destruct (Nat.eq_dec c ix) as [->|Hne]; [rewrite nth_upd_eq by lia; lia|].
        rewrite nth_upd_neq by auto. now apply (l_fix I).
      + intros c Hc F T. destruct (Nat.eq_dec c ix) as [->|Hne]; [now rewrite nth_upd_eq by lia|].
        rewrite nth_upd_neq by auto. now apply (l_keep I).
    - (* a cell that is settled or marked *)
      assert (G : good ix) by (split; auto).
      assert (SUB : forall c, incl (nth c fcells' []) (nth c F0 []) /\ length (nth c fcells' []) <= length (nth c F0 []) /\
                              (length (nth c F0 []) = 1 -> nth c fcells' [] = nth c F0 [])).
      { intros c. destruct (l_sub I c) as [S1 [S2 S3]]. cbn [snd] in *. destruct HF as [->|[HL ->]]; auto.
        destruct (Nat.eq_dec c ix) as [->|Hne]; [|rewrite nth_upd_neq by auto; auto].
        rewrite nth_upd_eq by (rewrite (proj1 (l_reg I) : length fcells = N); auto). split; [|split].
        - intros k Hk. apply filter_In in Hk. now apply S1.
        - assert (X : length (filter (keeps fnb fdir ix) (nth ix fcells [])) <= length (nth ix fcells [])).
          { generalize (nth ix fcells []). clear. induction l as [|k l IH]; cbn; auto. destruct (keeps fnb fdir ix k); cbn; lia. }
          lia.
        - intros H1. rewrite (S3 H1) in HL. lia. }
      assert (NONE : forall c, length (tg fcells' c) <> 1 -> length (tg F0 c) <> 1).
      { intros c H1 H2. apply H1. rewrite tg_len in *. destruct (SUB c) as [_ [_ S3]]. rewrite S3; auto. }
      assert (TIE : forall c, In c (tg fcells' ix) -> length (tg fcells' ix) <> 1 -> tied c).
      { intros c Hc H1. exists ix. split; auto. destruct (SUB ix) as [S1 [S2 S3]]. split; [|now apply (tg_sub S1)].
        assert (length (tg fcells' ix) <> 0) by (intros Z; apply length_zero_iff_nil in Z; rewrite Z in Hc; destruct Hc).
        rewrite !tg_len in *. lia. }
      assert (FIX : forall c, c < N -> fixedc c -> ~ tied c -> ~ unsolved (nth c fdir 0%Z) /\ nth c fdir 0%Z = Z.of_nat c).
      { intros c Hc F T. assert (X := l_keep I Hc F T). cbn [fst] in X. split; auto. rewrite X. unfold unsolved. lia. }
      destruct HR as [[R1 R2]|[HL1 [K [K1 [K2 [K3 [K4 K5]]]]]]].
      + constructor; cbn [fst snd]; auto.
        * intros c Hc. destruct (R1 c) as [->|[Gc [_ [t [Ht ->]]]]]; [now apply (l_val I)|].
          right. right. right. split; auto. exists t. split; auto. now apply (tg_sub (proj1 (SUB c))).
        * intros c Hc. destruct R2 as [t [_ Ht]]. destruct (R1 c) as [X|[_ [_ [u [_ ->]]]]]; [|lia].
          apply in_app_iff in Hc. destruct Hc as [Hc|[<-|[]]]; [rewrite X; now apply (l_done I)|rewrite Ht; lia].
        * intros c Hc F. destruct (R1 c) as [X|[_ [_ [u [_ ->]]]]]; [|lia]. rewrite X. now apply (l_fix I).
        * intros c Hc F T. destruct (FIX c Hc F T) as [Y1 Y2]. destruct (R1 c) as [X|[_ [Y _]]]; [congruence|].
          exfalso. destruct Y as [->|[[Y Z]|Y]]; [|now apply T, TIE|auto]. rewrite Y2 in Hm1. lia.
      + constructor; cbn [fst snd]; auto.
        * intros c Hc. destruct (in_dec Nat.eq_dec c K) as [Hk|Hk].
          -- right. left. destruct (K2 c Hk) as [Gc [_ [X _]]]. auto.
          -- destruct (Nat.eq_dec c ix) as [->|Hne]; [right; left; auto|]. rewrite (K5 c Hk Hne). now apply (l_val I).
        * intros c Hc. destruct (in_dec Nat.eq_dec c K) as [Hk|Hk]; [rewrite K3 by auto; lia|].
          destruct (Nat.eq_dec c ix) as [->|Hne]; [rewrite K4; lia|]. rewrite (K5 c Hk Hne).
          apply in_app_iff in Hc. destruct Hc as [Hc|[<-|[]]]; [now apply (l_done I)|congruence].
        * intros c Hc F. destruct (in_dec Nat.eq_dec c K) as [Hk|Hk]; [rewrite K3 by auto; lia|].
          destruct (Nat.eq_dec c ix) as [->|Hne]; [rewrite K4; lia|]. rewrite (K5 c Hk Hne). now apply (l_fix I).
        * intros c Hc F T. destruct (FIX c Hc F T) as [Y1 Y2].
          destruct (in_dec Nat.eq_dec c K) as [Hk|Hk].
          -- exfalso. destruct (K2 c Hk) as [_ [[Y|Y] _]]; [now apply T, TIE|auto].
          -- destruct (Nat.eq_dec c ix) as [->|Hne]; [rewrite Y2 in Hm1; lia|]. now rewrite (K5 c Hk Hne).
  Qed.

  Lemma linv_all : forall l done st, linv done st -> (forall c, In c l -> c < N) ->
    exists st', foldM (flow_cell fuel nan fnb) l st = Ok st' /\ linv (done ++ l) st'.
  Proof.
    induction l as [|ix l IH]; intros done st I B; cbn [foldM].
    - exists st. rewrite app_nil_r. auto.
    - destruct (@linv_step done st ix I) as [st1 [E [I1 _]]]; [apply B; now left|]. rewrite E. cbn [bind].
      destruct (IH _ _ I1) as [st' [E' I']]; [intros c Hc; apply B; now right|].
      exists st'. rewrite <- app_assoc in I'. auto.
  Qed.

  (** the whole loop *)
  Lemma calc_spec : exists fdir fcells, calculate_flowcell fuel nan fnb F0 s0 = Ok fdir /\
    linv (seq 0 N) (fdir, fcells).
  Proof.
    unfold calculate_flowcell. rewrite Ls0.
    destruct (@linv_all (seq 0 N) [] (s0, F0) linv0) as [[fdir fcells] [E I]].
    { intros c Hc. apply in_seq in Hc. lia. }
    rewrite E. cbn [bind]. exists fdir, fcells. auto.
  Qed.

  (** *** terrain on which every cell has a lower target *)
  Variable R : nat -> nat -> bool.
  Hypothesis Rtrans : forall a b c, R a b = true -> R b c = true -> R a c = true.
  Hypothesis Rirr : forall a, R a a = false.
  Hypothesis Rdown : forall c, good c -> ~ fixedc c -> tg F0 c <> [] /\ forall t, In t (tg F0 c) -> R t c = true.
  Hypothesis Runtied : forall c, c < N -> fixedc c -> ~ tied c.

  Record dnv (st : list Z * list (list nat)) : Prop := {
    n_cells : snd st = F0;
    n_nosink : forall c, c < N -> nth c (fst st) 0%Z <> (-2)%Z
  }.

  Lemma dnv0 : dnv (s0, F0).
  Proof. constructor; cbn; auto. intros c Hc. destruct (start Hc) as [->| ->]; lia. Qed.

  Lemma dnv_step done st ix st' : linv done st -> dnv st -> ix < N -> moved N fnb nan ix st st' -> dnv st'.
  Proof.
    intros I D Hix M. destruct M as [fdir fcells Hne|fdir fcells Hm1 Hnan|fdir fcells fdir' fcells' Hm1 Hnan HF HK HR]; auto.
    - constructor; cbn; [apply (n_cells D)|]. intros c Hc. destruct (Nat.eq_dec c ix) as [->|Hne].
      + rewrite nth_upd_eq by (rewrite (l_len I : length fdir = N); auto). lia.
      + rewrite nth_upd_neq by auto. now apply (n_nosink D).
    - assert (EF : fcells = F0) by apply (n_cells D). subst fcells.
      assert (G : good ix) by (split; auto).
      assert (NF : ~ fixedc ix).
      { intros F. assert (X := l_fix I Hix F). cbn in X. congruence. }
      destruct (Rdown G NF) as [T1 T2].
      assert (NP : forall k, In k (nth ix F0 []) -> keeps fnb fdir ix k = true).
      { intros k Hk. unfold keeps. apply negb_true_iff. apply Z.eqb_neq. intros E.
        set (n := nbr fnb ix k) in *. assert (Hn : In n (tg F0 ix)) by (unfold LDir.tg, n; now apply in_map).
        assert (Rn := T2 n Hn). destruct (proj2 RF0 ix Hix Hnan k Hk) as [_ [Ln Nn]]. fold n in Ln, Nn.
        destruct (l_val I Ln) as [X|[[X _]|[[X Y]|[Gn [t [Ht X]]]]]]; cbn [fst] in X; try lia.
        - assert (n = ix) by lia. subst n. rewrite H in Rn. rewrite Rirr in Rn. discriminate.
        - assert (t = ix) by lia. subst t. destruct (Z.eq_dec (nth n s0 0%Z) (Z.of_nat n)) as [F|F].
          + assert (Y := l_keep I Ln F (Runtied Ln F)). cbn [fst] in Y. assert (n = ix) by lia. rewrite H in Rn. rewrite Rirr in Rn. discriminate.
          + destruct (Rdown Gn F) as [_ Z]. assert (Y := Rtrans Rn (Z ix Ht)). rewrite Rirr in Y. discriminate. }
      assert (EC : fcells' = F0).
      { destruct HF as [->|[HL ->]]; auto.
        replace (filter (keeps fnb fdir ix) (nth ix F0 [])) with (nth ix F0 []).
        - apply upd_same. apply nth_error_nth'. rewrite (proj1 RF0). auto.
        - revert NP. generalize (nth ix F0 []). clear. induction l as [|k l IH]; cbn; auto. intros H.
          rewrite (H k) by now left. f_equal. apply IH. intros j Hj. apply H. now right. }
      subst fcells'. constructor; cbn [fst snd]; auto. intros c Hc.
      destruct HR as [[R1 R2]|[HL1 [K [K1 [K2 [K3 [K4 K5]]]]]]].
      + destruct (R1 c) as [->|[_ [_ [t [_ ->]]]]]; [now apply (n_nosink D)|lia].
      + exfalso. destruct (@minimal_in R K) as [m [Hm Hmin]]; auto.
        { intros ->. destruct (tg F0 ix) as [|t r]; [congruence|]. now destruct (K1 t (or_introl eq_refl)). }
        destruct (K2 m Hm) as [Gm [Um [_ Cm]]].
        assert (NFm : ~ fixedc m).
        { intros F. assert (Y := l_keep I (proj1 Gm) F (Runtied (proj1 Gm) F)). cbn [fst] in Y.
          destruct Um as [Um|Um]; [|rewrite Y in Um; unfold unsolved in Um; lia].
          apply (Runtied (proj1 Gm) F). exists ix. split; auto. split; auto.
          destruct (tg F0 ix) as [|a [|b r]]; cbn in *; [destruct Um|congruence|lia]. }
        destruct (Rdown Gm NFm) as [T1m T2m]. destruct (tg F0 m) as [|t r] eqn:Et; [congruence|].
        assert (X := T2m t (or_introl eq_refl)). rewrite Hmin in X; [discriminate|]. apply Cm. now left.
  Qed.

  Lemma dnv_all : forall l done st, linv done st -> dnv st -> (forall c, In c l -> c < N) ->
    exists st', foldM (flow_cell fuel nan fnb) l st = Ok st' /\ linv (done ++ l) st' /\ dnv st'.
  Proof.
    induction l as [|ix l IH]; intros done st I D B; cbn [foldM].
    - exists st. rewrite app_nil_r. auto.
    - assert (Hix : ix < N) by (apply B; now left).
      destruct (@linv_step done st ix I Hix) as [st1 [E [I1 M]]]. rewrite E. cbn [bind].
      destruct (IH _ _ I1 (dnv_step I D Hix M)) as [st' [E' [I' D']]]; [intros c Hc; apply B; now right|].
      exists st'. rewrite <- app_assoc in I'. auto.
  Qed.

  Lemma calc_downhill : exists fdir fcells, calculate_flowcell fuel nan fnb F0 s0 = Ok fdir /\
    linv (seq 0 N) (fdir, fcells) /\ dnv (fdir, fcells).
  Proof.
    unfold calculate_flowcell. rewrite Ls0.
    destruct (@dnv_all (seq 0 N) [] (s0, F0) linv0 dnv0) as [[fdir fcells] [E I]].
    { intros c Hc. apply in_seq in Hc. lia. }
    rewrite E. cbn [bind]. exists fdir, fcells. auto.
  Qed.
End Loop.
