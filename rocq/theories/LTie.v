(** Proofs about MDir: cells settled by the tie rule, and what marked cells have in common. *)
From Coq Require Import Permutation.
From Verif Require Import Py Spec MFlow MDir LDir LDir2 LDir3.
Set Implicit Arguments.
Unset Strict Implicit.
Local Open Scope nat_scope.
Local Open Scope list_scope.

(** the entries of a list at the positions found by np.where are the filtered list *)
Lemma where_filter {A B} (p : B -> bool) (h : A -> B) (d : A) (l : list A) :
  map (fun k => nth k l d) (where_ p (map h l)) = filter (fun x => p (h x)) l.
Proof.
  unfold where_. rewrite map_length.
  assert (X : forall (l pre : list A),
    map (fun k => nth k (pre ++ l) d) (map fst (filter (fun q => p (snd q)) (combine (seq (length pre) (length l)) (map h l))))
    = filter (fun x => p (h x)) l).
  { clear l. induction l as [|a l IH]; intros pre; auto. cbn [map filter length seq combine snd].
    specialize (IH (pre ++ [a])). rewrite app_length in IH. cbn [length] in IH. rewrite Nat.add_1_r in IH.
    rewrite <- app_assoc in IH. cbn [app] in IH. destruct (p (h a)); cbn [map fst]; auto.
    rewrite nth_middle. now f_equal. }
  exact (X l []).
Qed.

Lemma map_filter {A B} (f : A -> B) (p : B -> bool) (l : list A) :
  map f (filter (fun x => p (f x)) l) = filter p (map f l).
Proof. induction l as [|a l IH]; auto. cbn [filter map]. destruct (p (f a)); cbn [map]; now rewrite IH. Qed.
Lemma filter_ext_in' {A} (p q : A -> bool) (l : list A) : (forall x, In x l -> p x = q x) -> filter p l = filter q l.
Proof. induction l as [|a l IH]; intros H; auto. cbn [filter]. rewrite (H a (or_introl eq_refl)), IH; auto. intros x Hx. apply H. now right. Qed.

Section Continuous.
  Variables (N : nat) (fnb : list (list nat)).
  Hypothesis Lfnb : length fnb = N.

  Lemma remove1_perm x l : In x l -> Permutation l (x :: remove1 x l).
  Proof.
    induction l as [|z l IH]; cbn; [tauto|]. intros [->|H].
    - rewrite Nat.eqb_refl. apply Permutation_refl.
    - destruct (Nat.eqb_spec x z) as [->|]; [apply Permutation_refl|].
      eapply perm_trans; [apply perm_skip, IH, H|apply perm_swap].
  Qed.

  (** links used by the test: a row of the padded array *)
  Definition linkf (a b : nat) : Prop := In b (nth a fnb []).
  Definition within (l : list nat) (a b : nat) : Prop := In a l /\ In b l /\ linkf a b.

  Lemma tie_fold_perm t ns : forall are stack found are' stack' found',
    fold_left tie_step ns (are, stack, found) = (are', stack', found') -> incl ns (nth t fnb []) -> In t are ->
    Permutation (are ++ stack) (are' ++ stack') /\ incl are are' /\
    (forall x, In x are' -> In x are \/ (In x stack /\ linkf t x)) /\
    (found = true -> found' = true) /\
    (found' = false -> are' = are /\ stack' = stack /\ forall n, In n ns -> ~ In n stack).
  Proof.
    induction ns as [|n ns IH]; intros are stack found are' stack' found' E HI Ht; cbn [fold_left] in E.
    - inversion E; subst. split; [apply Permutation_refl|]. split; [apply incl_refl|]. split; auto.
    - assert (HI' : incl ns (nth t fnb [])) by (intros x Hx; apply HI; now right).
      unfold tie_step at 2 in E. destruct (memn n stack) eqn:EM.
      + apply memn_spec in EM. apply IH in E; auto; [|apply in_app_iff; now left]. destruct E as [P [A [B [C D]]]].
        split; [|split; [|split; [|split; [auto|]]]].
        * eapply perm_trans; [|exact P]. rewrite <- app_assoc. apply Permutation_app_head. cbn. now apply remove1_perm.
        * intros x Hx. apply A. apply in_app_iff. now left.
        * intros x Hx. destruct (B x Hx) as [Y|[Y Z]]; [|right; split; auto; eapply remove1_incl; eauto].
          apply in_app_iff in Y. destruct Y as [Y|[<-|[]]]; auto. right. split; auto. apply HI. now left.
        * intros F. rewrite C in F by auto. discriminate.
      + apply IH in E; auto. destruct E as [P [A [B [C D]]]]. split; auto. split; auto. split; auto. split; auto.
        intros F. destruct (D F) as [D1 [D2 D3]]. split; auto. split; auto. intros m [<-|Hm]; auto. intros X. apply memn_spec in X. congruence.
  Qed.

  Lemma cont_pass_perm fuel l s0 : forall i are stack found are' stack' found',
    Permutation (are ++ stack) l -> (forall x, In x l -> x < N) ->
    (forall x, In x are -> reachable (within l) (eq s0) x) ->
    cont_pass fuel fnb i are stack found = Ok (are', stack', found') ->
    Permutation (are' ++ stack') l /\ incl are are' /\
    (forall x, In x are' -> reachable (within l) (eq s0) x) /\
    (found = true -> found' = true) /\
    (found' = false -> are' = are /\ stack' = stack /\
       forall j t, i <= j -> nth_error are j = Some t -> forall n, In n (nth t fnb []) -> ~ In n stack).
  Proof.
    induction fuel as [|f IH]; intros i are stack found are' stack' found' P B R E; cbn [cont_pass] in E; [discriminate|].
    assert (IA : forall x, In x are -> In x l) by (intros x Hx; apply (Permutation_in x P); apply in_app_iff; now left).
    assert (IS : forall x, In x stack -> In x l) by (intros x Hx; apply (Permutation_in x P); apply in_app_iff; now right).
    destruct (nth_error are i) as [t|] eqn:Et.
    - assert (It : In t are) by (eapply nth_error_In; eauto). assert (Ht : t < N) by (apply B; auto).
      rewrite (get_row Lfnb Ht) in E. cbn [bind] in E.
      change (fold_left _ (nth t fnb []) (are, stack, found)) with (fold_left tie_step (nth t fnb []) (are, stack, found)) in E.
      destruct (fold_left tie_step (nth t fnb []) (are, stack, found)) as [[a1 s1] f1] eqn:EF.
      destruct (tie_fold_perm EF (incl_refl _) It) as [K0 [K1 [K2 [K3 K4]]]].
      apply IH in E; auto.
      + destruct E as [P0 [P1 [P2 [P4 P5]]]]. split; auto. split; [intros x Hx; auto|]. split; auto. split; auto.
        intros F. destruct (P5 F) as [-> [-> Q]]. assert (F1 : f1 = false) by (destruct f1; auto; rewrite P4 in F; auto).
        destruct (K4 F1) as [-> [-> Q1]]. split; auto. split; auto.
        intros j u Hj Hu n Hn. destruct (Nat.eq_dec j i) as [->|]; [|apply (Q j u); auto; lia].
        assert (u = t) by congruence. subst u. auto.
      + eapply perm_trans; [apply Permutation_sym, K0|exact P].
      + intros x Hx. destruct (K2 x Hx) as [Y|[Y Z]]; auto.
        destruct (R t It) as [s [q [Hs Hp]]]. exists s, (x :: q). split; auto. apply gp_step with t; auto. split; auto.
    - inversion E; subst. split; auto. split; [apply incl_refl|]. split; auto. split; auto.
      intros _. split; auto. split; auto. intros j t Hj Hu. exfalso. apply nth_error_None in Et.
      assert (j < length are') by (apply nth_error_Some; congruence). lia.
  Qed.

  Lemma cont_loop_exact fuel l s0 : NoDup l -> (forall x, In x l -> x < N) -> forall are stack,
    Permutation (are ++ stack) l -> In s0 are -> (forall x, In x are -> reachable (within l) (eq s0) x) ->
    forall b, cont_loop fuel fnb are stack = Ok b -> b = true <-> forall x, In x l -> reachable (within l) (eq s0) x.
  Proof.
    intros ND B. induction fuel as [|f IH]; intros are stack P I0 R b E.
    - destruct stack; [|discriminate]. inversion E; subst. split; auto. intros _ x Hx. apply R.
      rewrite app_nil_r in P. apply (Permutation_in x (Permutation_sym P)); auto.
    - destruct stack as [|y stack].
      { inversion E; subst. split; auto. intros _ x Hx. apply R.
        rewrite app_nil_r in P. apply (Permutation_in x (Permutation_sym P)); auto. }
      cbn [cont_loop] in E.
      destruct (cont_pass (length are + length (y :: stack) + 1) fnb 0 are (y :: stack) false) as [[[a s] fd]|] eqn:EP; [|discriminate].
      cbn [bind] in E. destruct (cont_pass_perm P B R EP) as [P0 [P1 [P2 [P4 P5]]]].
      destruct fd; [apply (IH a s); auto|]. inversion E; subst b. destruct (P5 eq_refl) as [-> [-> Q]].
      split; [discriminate|]. intros H. exfalso.
      assert (CL : forall x, reachable (within l) (eq s0) x -> In x are).
      { intros x [s1 [q [<- Hq]]]. induction Hq as [|c n q Hq IHq [H1 [H2 H3]]]; auto.
        assert (X := Permutation_in n (Permutation_sym P) H2). apply in_app_iff in X. destruct X as [X|X]; auto.
        exfalso. apply In_nth_error in IHq. destruct IHq as [j Hj]. apply (Q j c ltac:(lia) Hj n H3 X). }
      assert (NDp : NoDup (are ++ y :: stack)) by (apply (Permutation_NoDup (Permutation_sym P)); auto).
      apply NoDup_remove_2 in NDp. apply NDp. apply in_app_iff. left. apply CL, H.
      apply (Permutation_in y P). apply in_app_iff. right. now left.
  Qed.

  (** the test answers exactly whether the cells hang together *)
  Lemma ties_exact fuel s0 l : NoDup (s0 :: l) -> (forall x, In x (s0 :: l) -> x < N) -> length (s0 :: l) <= fuel ->
    exists b, continuous_ties fuel fnb (s0 :: l) = Ok b /\
      (b = true <-> forall x, In x (s0 :: l) -> reachable (within (s0 :: l)) (eq s0) x).
  Proof.
    intros ND B L. destruct (@ties_spec N fnb (fun _ => false) Lfnb fuel (s0 :: l)) as [b E]; auto; [discriminate|].
    exists b. split; auto. cbn [continuous_ties] in E. apply (@cont_loop_exact fuel (s0 :: l) s0 ND B [s0] l); auto.
    - now left.
    - intros x [<-|[]]. exists s0, [s0]. split; auto. constructor.
  Qed.
End Continuous.

(** ** Terrain on which every cell is settled without the search through flats *)
Section Settled.
  Variables (N : nat) (fnb : list (list nat)) (nan : nat -> bool).
  Hypothesis Lfnb : length fnb = N.
  Variable F0 : list (list nat).
  Hypothesis RF0 : regular N fnb nan F0.
  Variables (fuel : nat) (s0 : list Z).
  Hypothesis FUEL : N <= fuel.
  Hypothesis Ls0 : length s0 = N.
  Hypothesis start : forall c, c < N -> nth c s0 0%Z = (-1)%Z \/ nth c s0 0%Z = Z.of_nat c.
  Hypothesis NDT : forall c, good N nan c -> NoDup (tg fnb F0 c).
  Variable g : nat -> nat.

  Definition linked (l : list nat) : Prop := forall x, In x l -> reachable (within fnb l) (eq (hd 0 l)) x.
  Definition choice (k : list nat) (d : nat) : Prop :=
    k = [d] \/ (exists e, k = [d; e] /\ linked k) \/ (exists a b, k = [a; b; d] /\ linked k).
  Definition away (c n : nat) : bool := negb ((n <? c) && (g n =? c)).

  Hypothesis Gfix : forall c, c < N -> fixedc s0 c -> g c = c.
  Hypothesis Gnan : forall c, c < N -> nan c = true -> g c = c.
  Hypothesis Grule : forall c, good N nan c -> ~ fixedc s0 c ->
    tg fnb F0 c = [g c] \/ (1 < length (tg fnb F0 c) /\ choice (filter (away c) (tg fnb F0 c)) (g c)).

  Definition val (ix c : nat) : Z :=
    if (c <? ix) || (nth c s0 0%Z =? Z.of_nat c)%Z then Z.of_nat (g c) else (-1)%Z.

  Record sinv (ix : nat) (st : list Z * list (list nat)) : Prop := {
    s_len : length (fst st) = N;
    s_val : forall c, c < N -> nth c (fst st) 0%Z = val ix c;
    s_flen : length (snd st) = N;
    s_row : forall c, ix <= c -> nth c (snd st) [] = nth c F0 [] }.

  Lemma sinv0 : sinv 0 (s0, F0).
  Proof.
    constructor; cbn [fst snd]; auto; [|apply RF0]. intros c Hc. unfold val. cbn [Nat.ltb Nat.leb orb].
    destruct (Z.eqb_spec (nth c s0 0%Z) (Z.of_nat c)) as [E|E]; [rewrite (Gfix Hc E); auto|].
    destruct (start Hc); auto. contradiction.
  Qed.

  Lemma val_S ix c : c <> ix -> val (S ix) c = val ix c.
  Proof.
    intros H. unfold val. replace (c <? S ix) with (c <? ix); auto.
    destruct (Nat.ltb_spec c ix), (Nat.ltb_spec c (S ix)); auto; lia.
  Qed.
  Lemma val_at ix : val (S ix) ix = Z.of_nat (g ix).
  Proof. unfold val. replace (ix <? S ix) with true by (symmetry; apply Nat.ltb_lt; lia). reflexivity. Qed.

  Lemma sinv_set ix fdir fcells fcells' : ix < N -> sinv ix (fdir, fcells) -> length fcells' = N ->
    (forall c, c <> ix -> nth c fcells' [] = nth c fcells []) -> sinv (S ix) (upd fdir ix (Z.of_nat (g ix)), fcells').
  Proof.
    intros Hix I Lc Ec. assert (L := s_len I). cbn [fst] in L. constructor; cbn [fst snd]; auto.
    - now rewrite upd_length.
    - intros c Hc. destruct (Nat.eq_dec c ix) as [->|Hne]; [rewrite nth_upd_eq by lia; now rewrite val_at|].
      rewrite nth_upd_neq by auto. rewrite val_S by auto. now apply (s_val I).
    - intros c Hc. rewrite Ec by lia. apply (s_row I). cbn. lia.
  Qed.

  Lemma keeps_away ix fdir fcells : sinv ix (fdir, fcells) -> good N nan ix -> ~ fixedc s0 ix ->
    map (nbr fnb ix) (filter (keeps fnb fdir ix) (nth ix F0 [])) = filter (away ix) (tg fnb F0 ix).
  Proof.
    intros I G NF. unfold tg. rewrite <- map_filter. f_equal. apply filter_ext_in'. intros k Hk.
    assert (Hn : nbr fnb ix k < N) by (destruct G as [G1 G2]; now destruct (proj2 RF0 ix G1 G2 k Hk) as [_ [? _]]).
    unfold keeps, away. f_equal. assert (X := s_val I Hn). cbn [fst] in X. rewrite X. unfold val.
    destruct (nbr fnb ix k <? ix) eqn:E1; cbn [orb andb].
    - destruct (Nat.eqb_spec (g (nbr fnb ix k)) ix) as [->|H]; [apply Z.eqb_refl|]. apply Z.eqb_neq. lia.
    - destruct (Z.eqb_spec (nth (nbr fnb ix k) s0 0%Z) (Z.of_nat (nbr fnb ix k))) as [E|E].
      + rewrite (Gfix Hn E). apply Z.eqb_neq. intros Y. apply Nat2Z.inj in Y. apply NF. unfold fixedc. now rewrite <- Y.
      + apply Z.eqb_neq. lia.
  Qed.

  Lemma linked_true k a l : k = a :: l -> NoDup k -> (forall x, In x k -> x < N) -> linked k ->
    continuous_ties fuel fnb k = Ok true.
  Proof.
    intros -> ND B H. destruct (@ties_exact N fnb Lfnb fuel a l ND B) as [b [E X]].
    - etransitivity; [apply (@bounded_nodup N); auto|auto].
    - rewrite E. f_equal. apply X. exact H.
  Qed.

  Lemma sinv_step ix st : ix < N -> sinv ix st -> exists st', flow_cell fuel nan fnb st ix = Ok st' /\ sinv (S ix) st'.
  Proof.
    intros Hix I. destruct st as [fdir fcells]. assert (L := s_len I). assert (Lc := s_flen I). cbn [fst snd] in L, Lc.
    assert (V := s_val I Hix). cbn [fst] in V. unfold flow_cell. rewrite (get_nth _ 0%Z) by lia. cbn [bind]. rewrite V.
    unfold val. rewrite Nat.ltb_irrefl. cbn [orb].
    destruct (Z.eqb_spec (nth ix s0 0%Z) (Z.of_nat ix)) as [EF|NF].
    { replace (Z.of_nat (g ix) =? -1)%Z with false by (symmetry; apply Z.eqb_neq; lia). cbn [negb].
      exists (fdir, fcells). split; auto. constructor; cbn [fst snd]; auto.
      - intros c Hc. destruct (Nat.eq_dec c ix) as [->|Hne]; [|rewrite val_S by auto; now apply (s_val I)].
        rewrite val_at, V. unfold val. rewrite EF, Z.eqb_refl, orb_true_r. reflexivity.
      - intros c Hc. apply (s_row I). cbn. lia. }
    cbn [negb Z.eqb]. change (negb (-1 =? -1)%Z) with false. cbn [negb]. destruct (nan ix) eqn:En.
    { rewrite set_lt by lia. cbn [bind]. eexists. split; [reflexivity|]. replace (Z.of_nat ix) with (Z.of_nat (g ix)) by (now rewrite (Gnan Hix En)). apply sinv_set with fcells; auto. }
    assert (G : good N nan ix) by (split; auto). assert (R0 := proj2 RF0 ix Hix En).
    rewrite (get_nth _ []) by lia. rewrite (get_row Lfnb Hix). cbn [bind].
    assert (RW := s_row I (le_n ix)). cbn [snd] in RW. rewrite RW.
    assert (MM : forall l, incl l (nth ix F0 []) -> mapM (get (nth ix fnb [])) l = Ok (map (nbr fnb ix) l)).
    { intros l Hl. apply mapM_ok. intros k Hk. apply get_nth. now apply (R0 k), Hl. }
    destruct (Grule G NF) as [E1|[HL CH]].
    - assert (LE : length (nth ix F0 []) = 1) by (apply (f_equal (@length nat)) in E1; unfold tg in E1; now rewrite map_length in E1).
      rewrite LE. cbn [Nat.ltb Nat.leb bind]. rewrite MM by apply incl_refl. cbn [bind].
      change (map (nbr fnb ix) (nth ix F0 [])) with (tg fnb F0 ix). rewrite E1. rewrite set_lt by lia. cbn [bind].
      eexists. split; [reflexivity|]. apply sinv_set with fcells; auto.
    - unfold tg in HL. rewrite map_length in HL. assert (HL' := HL). apply Nat.ltb_lt in HL'. rewrite HL'.
      rewrite MM by apply incl_refl. cbn [bind].
      rewrite (@drop_spec N fnb) by (auto; intros k Hk; now apply R0). cbn [bind].
      rewrite set_lt by lia. cbn [bind]. rewrite (keeps_away I G NF).
      set (fl := filter (keeps fnb fdir ix) (nth ix F0 [])) in *.
      assert (Ifl : incl fl (nth ix F0 [])) by (intros k Hk; apply filter_In in Hk; tauto).
      assert (EK := keeps_away I G NF). fold fl in EK. set (k := filter (away ix) (tg fnb F0 ix)) in *.
      assert (Lfl : length fl = length k) by (rewrite <- EK; now rewrite map_length).
      assert (NDk : NoDup k) by (apply NoDup_filter, NDT; auto).
      assert (Bk : forall x, In x k -> x < N).
      { intros x Hx. apply filter_In in Hx. destruct (tg_good RF0 G (proj1 Hx)). auto. }
      assert (SI : sinv (S ix) (upd fdir ix (Z.of_nat (g ix)), upd fcells ix fl)).
      { apply sinv_set with fcells; auto; [now rewrite upd_length|]. intros c Hc. apply nth_upd_neq; auto. }
      assert (FIN : exists b, (if 1 <? length fl then c <- continuous_ties fuel fnb k ;; Ok (fl, upd fcells ix fl, c)
                     else Ok (fl, upd fcells ix fl, false)) = Ok (fl, upd fcells ix fl, b) /\ (1 < length k -> b = true)).
      { destruct (1 <? length fl) eqn:EL; [|exists false; split; auto; rewrite <- Lfl; apply Nat.ltb_ge in EL; lia].
        apply Nat.ltb_lt in EL. rewrite Lfl in EL.
        assert (LK : linked k) by (destruct CH as [C|[[e [C1 C2]]|[a [b [C1 C2]]]]]; auto; rewrite C in EL; cbn in EL; lia).
        destruct k as [|a l] eqn:Ek; [cbn in EL; lia|]. rewrite (@linked_true (a :: l) a l) by auto. cbn [bind]. exists true. auto. }
      destruct FIN as [b [-> HB]]. cbn [bind]. rewrite MM by auto. cbn [bind]. rewrite EK.
      destruct CH as [C|[[e [C1 C2]]|[a [b' [C1 C2]]]]].
      + rewrite C. rewrite set_lt by lia. cbn [bind]. eexists. split; [reflexivity|auto].
      + rewrite C1 in *. rewrite HB by (cbn; lia). rewrite set_lt by lia. cbn [bind]. eexists. split; [reflexivity|auto].
      + rewrite C1 in *. rewrite HB by (cbn; lia). rewrite set_lt by lia. cbn [bind]. eexists. split; [reflexivity|auto].
  Qed.

  Lemma sinv_all : forall m ix st, ix + m = N -> sinv ix st ->
    exists st', foldM (flow_cell fuel nan fnb) (seq ix m) st = Ok st' /\ sinv N st'.
  Proof.
    induction m as [|m IH]; intros ix st E I; cbn [seq foldM].
    - exists st. split; auto. replace N with ix by lia. auto.
    - destruct (@sinv_step ix st) as [st1 [E1 I1]]; auto; [lia|]. rewrite E1. cbn [bind]. apply IH; auto. lia.
  Qed.

  Lemma settled : calculate_flowcell fuel nan fnb F0 s0 = Ok (map (fun c => Z.of_nat (g c)) (seq 0 N)).
  Proof.
    unfold calculate_flowcell. rewrite Ls0. destruct (@sinv_all N 0 (s0, F0) eq_refl sinv0) as [[fdir fcells] [E I]].
    rewrite E. cbn [bind]. f_equal. assert (L := s_len I). cbn [fst] in L. apply nth_ext with (d := 0%Z) (d' := 0%Z).
    - now rewrite map_length, seq_length.
    - intros c Hc. rewrite L in Hc. assert (X := s_val I Hc). cbn [fst] in X. rewrite X. unfold val.
      replace (c <? N) with true by (symmetry; now apply Nat.ltb_lt). cbn [orb].
      rewrite (nth_indep _ 0%Z (Z.of_nat (g 0))) by (now rewrite map_length, seq_length).
      rewrite (map_nth (fun c => Z.of_nat (g c))). now rewrite seq_nth.
  Qed.
End Settled.

(** ** What the cells marked as sinks have in common *)
Section Sinks.
  Variables (N : nat) (fnb : list (list nat)) (nan : nat -> bool).
  Hypothesis Lfnb : length fnb = N.
  Variable F0 : list (list nat).
  Hypothesis RF0 : regular N fnb nan F0.
  Variables (W fuel : nat).
  Hypothesis HW : forall c, good N nan c -> length (nth c F0 []) <= W.
  Hypothesis FU : fueled N W fuel.
  Hypothesis HN : (Z.of_nat N < 999000)%Z.
  Variable s0 : list Z.
  Hypothesis Ls0 : length s0 = N.
  Hypothesis start : forall c, c < N -> nth c s0 0%Z = (-1)%Z \/ nth c s0 0%Z = Z.of_nat c.
  Notation good := (good N nan).
  Notation tg := (tg fnb).
  Notation linv := (linv N fnb nan F0 W s0).

  Definition trap (K : list nat) : Prop := forall x, In x K -> good x /\ length (tg F0 x) <> 1 /\
    forall n, In n (tg F0 x) -> In n K \/ In x (tg F0 n).

  Record kinv (st : list Z * list (list nat)) : Prop := {
    k_pop : forall c n, c < N -> In n (tg F0 c) -> In n (tg (snd st) c) \/ In c (tg F0 n);
    k_trap : forall c, c < N -> nth c (fst st) 0%Z = (-2)%Z -> exists K, In c K /\ trap K }.

  Lemma kinv0 : kinv (s0, F0).
  Proof.
    constructor; cbn [fst snd]; auto. intros c Hc E. destruct (start Hc); lia.
  Qed.

  Lemma kinv_step done st ix st' : linv done st -> kinv st -> ix < N -> moved N fnb nan ix st st' -> kinv st'.
  Proof.
    intros I K Hix M. inversion M as [? ? Hne|fdir fcells Hm1 Hnan|fdir fcells fdir' fcells' Hm1 Hnan HF HK HR]; subst; auto.
    - constructor; cbn [fst snd]; [apply (k_pop K)|]. intros c Hc. assert (L := l_len I). cbn [fst] in L.
      destruct (Nat.eq_dec c ix) as [->|Hne]; [rewrite nth_upd_eq by lia; lia|]. rewrite nth_upd_neq by auto. now apply (k_trap K).
    - assert (G : good ix) by (split; auto).
      assert (POP : forall c n, c < N -> In n (tg F0 c) -> In n (tg fcells' c) \/ In c (tg F0 n)).
      { intros c n Hc Hn. destruct (k_pop K Hc Hn) as [X|X]; auto. cbn [snd] in X.
        destruct HF as [->|[HL ->]]; auto. destruct (Nat.eq_dec c ix) as [->|Hne].
        2:{ left. unfold LDir.tg in *. rewrite nth_upd_neq by auto. auto. }
        unfold LDir.tg in X. apply in_map_iff in X. destruct X as [k [Ek Hk]].
        destruct (keeps fnb fdir ix k) eqn:EK.
        - left. unfold LDir.tg. rewrite nth_upd_eq by (rewrite (proj1 (l_reg I) : length fcells = N); auto).
          apply in_map_iff. exists k. split; auto. apply filter_In. auto.
        - right. unfold keeps in EK. apply negb_false_iff in EK. apply Z.eqb_eq in EK. rewrite Ek in EK.
          assert (Gn : good n) by (apply (tg_good RF0 G); auto). assert (Ln : n < N) by apply Gn.
          destruct (l_val I Ln) as [Y|[[Y _]|[[Y _]|[_ [t [Ht Y]]]]]]; cbn [fst] in Y; [lia|lia| |].
          + assert (n = ix) by lia. subst n. congruence.
          + assert (t = ix) by lia. now subst t. }
      assert (NONE : forall c, length (tg fcells' c) <> 1 -> length (tg F0 c) <> 1).
      { intros c H1 H2. apply H1. rewrite (tg_len fnb) in *. destruct (l_sub I c) as [_ [_ S3]]. cbn [snd] in S3.
        destruct HF as [->|[HL ->]]; [rewrite S3; auto|].
        destruct (Nat.eq_dec c ix) as [->|Hne]; [rewrite S3 in HL by auto; lia|]. rewrite nth_upd_neq by auto. rewrite S3; auto. }
      constructor; cbn [fst snd]; auto. intros c Hc E.
      destruct HR as [[R1 R2]|[HL1 [S [K1 [K2 [K3 [K4 K5]]]]]]].
      + destruct (R1 c) as [X|[_ [_ [t [_ X]]]]]; [|lia]. rewrite X in E. now apply (k_trap K).
      + assert (TR : trap (ix :: S)).
        { intros x Hx.
          assert (Gx : good x) by (destruct Hx as [<-|Hx]; auto; now apply K2).
          assert (Lx : length (tg fcells' x) <> 1) by (destruct Hx as [<-|Hx]; auto; now apply K2).
          assert (Ix : incl (tg fcells' x) S) by (destruct Hx as [<-|Hx]; auto; now apply K2).
          split; auto. split; [now apply NONE|]. intros n Hn. destruct (POP x n (proj1 Gx) Hn) as [Y|Y]; auto.
          left. right. now apply Ix. }
        destruct (in_dec Nat.eq_dec c S) as [Hk|Hk]; [exists (ix :: S); split; auto; now right|].
        destruct (Nat.eq_dec c ix) as [->|Hne]; [exists (ix :: S); split; auto; now left|].
        rewrite (K5 c Hk Hne) in E. now apply (k_trap K).
  Qed.

  Lemma kinv_all : forall l done st, linv done st -> kinv st -> (forall c, In c l -> c < N) ->
    exists st', foldM (flow_cell fuel nan fnb) l st = Ok st' /\ kinv st'.
  Proof.
    induction l as [|ix l IH]; intros done st I K B; cbn [foldM]; [now exists st|].
    assert (Hix : ix < N) by (apply B; now left).
    destruct (@linv_step N fnb nan Lfnb F0 W fuel FU HN s0 Ls0 done st ix I Hix) as [st1 [E [I1 M]]]. rewrite E. cbn [bind].
    apply (IH (done ++ [ix])); auto; [exact (kinv_step I K Hix M)|]. intros c Hc. apply B. now right.
  Qed.

  Lemma sinks_trapped fdir : calculate_flowcell fuel nan fnb F0 s0 = Ok fdir ->
    forall c, c < N -> nth c fdir 0%Z = (-2)%Z -> exists K, In c K /\ trap K.
  Proof.
    unfold calculate_flowcell. rewrite Ls0.
    destruct (@kinv_all (seq 0 N) [] (s0, F0)) as [[fd fc] [E K]]; [apply linv0; auto|apply kinv0|intros c Hc; apply in_seq in Hc; lia|].
    rewrite E. cbn [bind]. intros H. inversion H; subst. apply (k_trap K).
  Qed.
End Sinks.
