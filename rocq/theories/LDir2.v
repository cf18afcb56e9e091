(** Proofs about MDir: one step of the flow-direction loop. *)
From Verif Require Import Py MFlow MDir LDir.
Set Implicit Arguments.
Unset Strict Implicit.
Local Open Scope nat_scope.
Local Open Scope list_scope.

(** assignments to distinct cells *)
Lemma set_all {X A} (f : X -> nat) (g : X -> A) (l : list X) (d : A) : forall a, NoDup (map f l) ->
  (forall x, In x l -> f x < length a) ->
  exists a', foldM (fun a x => set a (f x) (g x)) l a = Ok a' /\ length a' = length a /\
    (forall x, In x l -> nth (f x) a' d = g x) /\
    (forall c, ~ In c (map f l) -> nth c a' d = nth c a d).
Proof.
  induction l as [|x l IH]; intros a ND B; cbn [foldM].
  - exists a. split; auto. split; auto. split; [intros ? []|auto].
  - inversion ND as [|? ? N1 N2]; subst. rewrite set_lt by (apply B; now left). cbn [bind].
    destruct (IH (upd a (f x) (g x)) N2) as [a' [E [L [P Q]]]].
    { intros y Hy. rewrite upd_length. apply B. now right. }
    exists a'. split; auto. rewrite upd_length in L. split; auto. split.
    + intros y [<-|Hy]; auto. rewrite (Q _ N1). apply nth_upd_eq. apply B. now left.
    + intros c Hc. cbn [map In] in Hc. rewrite Q by tauto. apply nth_upd_neq. tauto.
Qed.

Section Step.
  Variables (N : nat) (fnb : list (list nat)) (nan : nat -> bool).
  Hypothesis Lfnb : length fnb = N.
  Notation tg := (tg fnb).
  Notation good := (good N nan).

  Definition routed (fcells : list (list nat)) (ix : nat) (fdir fdir' : list Z) : Prop :=
    (forall c, nth c fdir' 0%Z = nth c fdir 0%Z \/
       (good c /\ (c = ix \/ (In c (tg fcells ix) /\ length (tg fcells ix) <> 1) \/ unsolved (nth c fdir 0%Z)) /\
        exists t, In t (tg fcells c) /\ nth c fdir' 0%Z = Z.of_nat t)) /\
    exists t, In t (tg fcells ix) /\ nth ix fdir' 0%Z = Z.of_nat t.

  Definition sunk (fcells : list (list nat)) (ix : nat) (fdir fdir' : list Z) : Prop :=
    exists K, incl (tg fcells ix) K /\
      (forall c, In c K -> good c /\ (In c (tg fcells ix) \/ unsolved (nth c fdir 0%Z)) /\
                           length (tg fcells c) <> 1 /\ incl (tg fcells c) K) /\
      (forall c, In c K -> nth c fdir' 0%Z = (-2)%Z) /\ nth ix fdir' 0%Z = (-2)%Z /\
      (forall c, ~ In c K -> c <> ix -> nth c fdir' 0%Z = nth c fdir 0%Z).

  Lemma flat_spec fcells fdir ix W fuel : regular N fnb nan fcells -> length fdir = N -> good ix ->
    (forall c, good c -> length (nth c fcells []) <= W) ->
    N * W + W + 2 < fuel -> 2 * N < fuel -> (Z.of_nat N < 999000)%Z -> length (tg fcells ix) <> 1 ->
    exists fdir', flat_cell fuel fnb fcells ix (tg fcells ix) fdir = Ok fdir' /\ length fdir' = N /\
      (routed fcells ix fdir fdir' \/ sunk fcells ix fdir fdir').
  Proof.
    intros RF Lfd G HW F1 F2 HN HL1. rewrite flat_cell_eq.
    destruct (@dij_spec N fnb nan Lfnb fcells RF fdir Lfd ix (tg fcells ix) W G eq_refl HW fuel F1) as [s [E [V D]]].
    rewrite E. cbn [bind]. clear E.
    assert (KG : forall k, In k (map fst (d_stack s)) -> good k).
    { intros k Hk. destruct (key_ex Hk) as [l Hl]. destruct (dv_entry V Hl) as [p [_ [Hp Ht]]].
      apply (tg_good RF (c:=p)); auto. destruct Hp as [->|Hp]; auto. apply (dv_vis V) in Hp. now apply (dv_tmp V). }
    assert (LS : length (d_stack s) <= N).
    { rewrite <- (map_length fst). apply bounded_nodup; [apply (dv_nd V)|]. intros c Hc. now apply KG. }
    destruct (d_dest s) as [dest|] eqn:Ed.
    - destruct (dv_some V Ed) as [Hd Hne]. destruct (key_ex Hd) as [l Hl].
      destruct (dv_entry V Hl) as [p [-> [Hp Ht]]].
      rewrite (dget_in_nodup Nat.eqb Nat.eqb_eq _ _ _ (dv_nd V) Hl). cbn [bind get nth_error].
      assert (SG : single (d_stack s)).
      { intros k l' Hk. destruct (dv_entry V Hk) as [q [-> _]]. now exists q. }
      assert (SZ : (999 + Z.of_nat (length (d_stack s)) < 1000000)%Z) by lia.
      assert (T0 : tinv (d_stack s) (d_stack s) [(p, (dest, 0%Z))]).
      { constructor.
        - apply incl_refl.
        - apply (dv_nd V).
        - lia.
        - cbn. constructor; [intros []|constructor].
        - intros n t d [X|[]]. inversion X; subst. split; auto. lia.
        - intros t n Hi Hn. exfalso. apply Hn. now apply (key_in (l:=[n])). }
      destruct (@trace_spec (d_stack s) dest (dv_nd V) SG SZ fuel dest (d_stack s) _ T0) as [ft [E [T1 T2]]].
      { assert (X : memn dest (map fst (d_stack s)) = true) by now apply memn_spec. rewrite X. lia. }
      rewrite E. cbn [bind].
      assert (FT : forall n t d, In (n, (t, d)) ft -> (n = ix \/ In n (d_visited s)) /\ In t (tg fcells n)).
      { intros n t d Hi. destruct (ti_ft T1 Hi) as [Hi' _]. destruct (dv_entry V Hi') as [q [X [Y Z]]]. inversion X; subst. auto. }
      assert (FG : forall n, (n = ix \/ In n (d_visited s)) -> good n /\ (n = ix \/ (In n (tg fcells ix) /\ length (tg fcells ix) <> 1) \/ unsolved (nth n fdir 0%Z))).
      { intros n [->|Hn]; [auto|]. apply (dv_vis V) in Hn. destruct (dv_tmp V Hn) as [X [Y _]]. split; auto. destruct Y; auto. }
      destruct (@set_all _ _ (fun kv : nat * (nat * Z) => fst kv) (fun kv => Z.of_nat (fst (snd kv))) ft 0%Z fdir) as [fdir' [E' [L' [P Q]]]].
      { apply (ti_ftnd T1). }
      { intros [n [t d]] Hi. cbn. rewrite Lfd. destruct (FT n t d Hi) as [X _]. destruct (FG n X) as [[Y _] _]. exact Y. }
      exists fdir'. split; [exact E'|]. split; [lia|]. left. split.
      + intros c. destruct (in_dec Nat.eq_dec c (map fst ft)) as [Hc|Hc]; [right|left; apply Q; auto].
        apply in_map_iff in Hc. destruct Hc as [[n [t d]] [En Hi]]. cbn in En. subst n.
        destruct (FT c t d Hi) as [X Y]. destruct (FG c X) as [X1 X2]. split; auto. split; auto.
        exists t. split; auto. apply (P (c, (t, d)) Hi).
      + assert (Z : exists c, In c (tg fcells ix)).
        { destruct (tg fcells ix) as [|c r]; [congruence|]. exists c; now left. }
        destruct Z as [c Hc]. assert (Y := dv_c0 V Hc).
        assert (Hix : In ix (map fst ft)) by (apply (ti_pop T1 Y); intros []).
        apply in_map_iff in Hix. destruct Hix as [[n [t d]] [En Hi]]. cbn in En. subst n.
        exists t. split; [apply (FT ix t d Hi)|]. apply (P (ix, (t, d)) Hi).
    - rewrite set_lt by (rewrite Lfd; apply G). cbn [bind].
      destruct (@set_all _ _ (fun c : nat => c) (fun _ => (-2)%Z) (map fst (d_stack s)) 0%Z (upd fdir ix (-2)%Z)) as [fdir' [E' [L' [P Q]]]].
      { rewrite map_id. apply (dv_nd V). }
      { intros c Hc. rewrite upd_length, Lfd. now apply KG. }
      exists fdir'. split; [exact E'|]. rewrite upd_length in L'. split; [lia|]. right.
      destruct (dv_none V Ed) as [X1 X2].
      exists (map fst (d_stack s)). rewrite map_id in Q. split; [|split; [|split; [|split]]].
      + intros c Hc. apply (key_in (l:=[ix])). now apply (dv_c0 V).
      + intros c Hc. split; auto. assert (Hv : In c (d_visited s)) by (apply D; auto).
        destruct (dv_tmp V (X1 c Hc)) as [_ [Y _]]. split; auto.
      + intros c Hc. now apply P.
      + destruct (in_dec Nat.eq_dec ix (map fst (d_stack s))) as [H|H]; [now apply P|]. rewrite Q by auto.
        apply nth_upd_eq. rewrite Lfd. apply G.
      + intros c Hc Hne. rewrite Q by auto. apply nth_upd_neq. auto.
  Qed.

  (** *** the test whether tied cells hang together *)
  Lemma remove1_len x l : In x l -> S (length (remove1 x l)) = length l.
  Proof. induction l as [|y l IH]; simpl; [tauto|]. intros H. destruct (Nat.eqb_spec x y); auto. simpl. f_equal. apply IH.
    destruct H; [congruence|auto]. Qed.
  Lemma remove1_incl x l : incl (remove1 x l) l.
  Proof. induction l as [|y l IH]; intros z Hz; simpl in *; auto. destruct (Nat.eqb_spec x y); [now right|].
    destruct Hz as [<-|Hz]; [now left|right; now apply IH]. Qed.

  Definition tie_step (st : list nat * list nat * bool) (tn : nat) : list nat * list nat * bool :=
    let '(are, stack, found) := st in
    if memn tn stack then (are ++ [tn], remove1 tn stack, true) else st.

  Lemma tie_fold ns : forall are stack found are' stack' found',
    fold_left tie_step ns (are, stack, found) = (are', stack', found') ->
    length are' + length stack' = length are + length stack /\ length are <= length are' /\
    incl stack' stack /\ (forall x, In x are' -> In x are \/ In x stack) /\
    (found' = true -> found = true \/ length stack' < length stack).
  Proof.
    induction ns as [|n ns IH]; intros are stack found are' stack' found' E; cbn [fold_left] in E.
    - inversion E; subst. repeat split; auto. apply incl_refl.
    - unfold tie_step at 2 in E. destruct (memn n stack) eqn:EM.
      + apply memn_spec in EM. apply IH in E. destruct E as [A [A0 [B [C D]]]]. assert (L := remove1_len EM).
        rewrite app_length in A, A0. cbn in A, A0. split; [lia|]. split; [lia|]. split; [|split].
        * intros x Hx. apply B in Hx. now apply remove1_incl in Hx.
        * intros x Hx. destruct (C x Hx) as [Y|Y]; [|right; now apply remove1_incl in Y].
          apply in_app_iff in Y. destruct Y as [Y|[<-|[]]]; auto.
        * intros _. right. lia.
      + now apply IH in E.
  Qed.

  Lemma cont_pass_spec fuel : forall i are stack found, (forall x, In x are \/ In x stack -> x < N) ->
    length are + length stack - i < fuel ->
    exists are' stack' found', cont_pass fuel fnb i are stack found = Ok (are', stack', found') /\
      (forall x, In x are' \/ In x stack' -> x < N) /\ length stack' <= length stack /\
      (found' = true -> found = true \/ length stack' < length stack).
  Proof.
    induction fuel as [|f IH]; intros i are stack found B HF; [lia|]. cbn [cont_pass].
    destruct (nth_error are i) as [t|] eqn:E.
    - assert (Ht : t < N) by (apply B; left; eapply nth_error_In; eauto).
      rewrite (get_row Lfnb Ht). cbn [bind].
      change (fold_left _ (nth t fnb []) (are, stack, found)) with (fold_left tie_step (nth t fnb []) (are, stack, found)).
      destruct (fold_left tie_step (nth t fnb []) (are, stack, found)) as [[a1 s1] f1] eqn:EF.
      apply tie_fold in EF. destruct EF as [A [A0 [B1 [C1 D1]]]].
      assert (i < length are) by (apply nth_error_Some; congruence).
      destruct (IH (S i) a1 s1 f1) as [a2 [s2 [f2 [E2 [P [Q R]]]]]].
      { intros x [Hx|Hx]; apply B; auto. }
      { lia. }
      exists a2, s2, f2. split; auto. split; auto. split; [lia|]. intros Hf. destruct (R Hf) as [X|X]; [|right; lia].
      destruct (D1 X) as [?|?]; auto. right; lia.
    - exists are, stack, found. auto.
  Qed.

  Lemma cont_loop_spec fuel : forall are stack, (forall x, In x are \/ In x stack -> x < N) ->
    length stack <= fuel -> exists b, cont_loop fuel fnb are stack = Ok b.
  Proof.
    induction fuel as [|f IH]; intros are stack B L.
    - destruct stack; [|simpl in L; lia]. now exists true.
    - destruct stack as [|x stack]; [now exists true|]. cbn [cont_loop].
      destruct (@cont_pass_spec (length are + length (x :: stack) + 1) 0 are (x :: stack) false B ltac:(lia)) as [a [s [fd [E [P [Q R]]]]]].
      rewrite E. cbn [bind]. destruct fd; [|now exists false]. apply IH; auto. destruct (R eq_refl); [discriminate|lia].
  Qed.

  Lemma ties_spec fuel stack : stack <> [] -> (forall x, In x stack -> x < N) -> length stack <= fuel ->
    exists b, continuous_ties fuel fnb stack = Ok b.
  Proof.
    destruct stack as [|x stack]; [congruence|]. intros _ B L. cbn [continuous_ties length] in *. apply cont_loop_spec; [|lia].
    intros y [[<-|[]]|Hy]; apply B; [now left|now right].
  Qed.

  (** *** dropping the tied neighbours that flow back *)
  Definition keeps (fdir : list Z) (ix k : nat) : bool := negb (nth (nbr fnb ix k) fdir 0%Z =? Z.of_nat ix)%Z.

  Lemma drop_spec fdir ix flow_to : length fdir = N -> (forall k, In k flow_to -> nbr fnb ix k < N) ->
    drop_solved fdir ix flow_to (map (nbr fnb ix) flow_to) =
      Ok (filter (keeps fdir ix) flow_to, map (nbr fnb ix) (filter (keeps fdir ix) flow_to)).
  Proof.
    intros L B. unfold drop_solved.
    set (step := fun (l : list (nat * nat)) p => d <- get fdir (snd p) ;; Ok (if (d =? Z.of_nat ix)%Z then l else l ++ [p])).
    assert (X : forall fl acc, (forall k, In k fl -> nbr fnb ix k < N) ->
       foldM step (combine fl (map (nbr fnb ix) fl)) acc =
       Ok (acc ++ map (fun k => (k, nbr fnb ix k)) (filter (keeps fdir ix) fl))).
    { induction fl as [|k fl IH]; intros acc Hb; cbn [map combine foldM filter]; [now rewrite app_nil_r|].
      unfold step at 1. cbn [snd]. rewrite (get_nth _ 0%Z) by (rewrite L; apply Hb; now left). cbn [bind].
      rewrite IH by (intros j Hj; apply Hb; now right). unfold keeps at 2.
      destruct (nth (nbr fnb ix k) fdir 0%Z =? Z.of_nat ix)%Z; cbn [negb map]; auto. now rewrite <- app_assoc. }
    rewrite X by auto. cbn [bind]. rewrite app_nil_l, !map_map. cbn [fst snd]. now rewrite map_id.
  Qed.

  (** *** one cell *)
  Inductive moved (ix : nat) : list Z * list (list nat) -> list Z * list (list nat) -> Prop :=
  | mv_done fdir fcells : nth ix fdir 0%Z <> (-1)%Z -> moved ix (fdir, fcells) (fdir, fcells)
  | mv_nan fdir fcells : nth ix fdir 0%Z = (-1)%Z -> nan ix = true ->
      moved ix (fdir, fcells) (upd fdir ix (Z.of_nat ix), fcells)
  | mv_good fdir fcells fdir' fcells' : nth ix fdir 0%Z = (-1)%Z -> nan ix = false ->
      (fcells' = fcells \/
       (1 < length (nth ix fcells []) /\ fcells' = upd fcells ix (filter (keeps fdir ix) (nth ix fcells [])))) ->
      (1 < length (nth ix fcells []) -> forall k, In k (nth ix fcells' []) -> keeps fdir ix k = true) ->
      (routed fcells' ix fdir fdir' \/ (length (tg fcells' ix) <> 1 /\ sunk fcells' ix fdir fdir')) ->
      moved ix (fdir, fcells) (fdir', fcells').

  Definition fueled (W fuel : nat) : Prop := N * W + W + 2 < fuel /\ 2 * N < fuel.

  Lemma flow_cell_spec fuel W fdir fcells ix : regular N fnb nan fcells -> length fdir = N -> ix < N ->
    (forall c, good c -> length (nth c fcells []) <= W) -> fueled W fuel -> (Z.of_nat N < 999000)%Z ->
    exists fdir' fcells', flow_cell fuel nan fnb (fdir, fcells) ix = Ok (fdir', fcells') /\
      length fdir' = N /\ regular N fnb nan fcells' /\
      (forall c, good c -> length (nth c fcells' []) <= W) /\
      moved ix (fdir, fcells) (fdir', fcells').
  Proof.
    intros RF Lfd Hix HW [F1 F2] HN. unfold flow_cell.
    rewrite (get_nth _ 0%Z) by lia. cbn [bind].
    destruct (Z.eqb_spec (nth ix fdir 0%Z) (-1)%Z) as [E0|E0]; cbn [negb].
    2:{ exists fdir, fcells. split; auto. split; auto. split; auto. split; auto. now constructor. }
    destruct (nan ix) eqn:Enan.
    { rewrite set_lt by lia. cbn [bind]. exists (upd fdir ix (Z.of_nat ix)), fcells. split; auto. rewrite upd_length.
      split; auto. split; auto. split; auto. now apply mv_nan. }
    assert (G : good ix) by (split; auto).
    rewrite (get_nth _ []) by (rewrite (proj1 RF); lia). rewrite (get_row Lfnb Hix). cbn [bind].
    set (f0 := nth ix fcells []).
    assert (B0 : forall k, In k f0 -> k < length (nth ix fnb []) /\ nbr fnb ix k < N) by (intros k Hk; destruct (proj2 RF ix Hix Enan k Hk) as [? [? _]]; auto).
    set (f1 := if 1 <? length f0 then filter (keeps fdir ix) f0 else f0).
    set (fcells' := if 1 <? length f0 then upd fcells ix f1 else fcells).
    assert (Lfc : ix < length fcells) by (rewrite (proj1 RF); lia).
    assert (N1 : nth ix fcells' [] = f1).
    { unfold fcells', f1. destruct (1 <? length f0); auto. apply nth_upd_eq. auto. }
    assert (N2 : forall c, c <> ix -> nth c fcells' [] = nth c fcells []).
    { intros c Hc. unfold fcells'. destruct (1 <? length f0); auto. apply nth_upd_neq. auto. }
    assert (IN1 : incl f1 f0).
    { unfold f1. destruct (1 <? length f0); [|apply incl_refl]. intros k Hk. now apply filter_In in Hk. }
    assert (LEF : forall l, length (filter (keeps fdir ix) l) <= length l).
    { clear. induction l as [|k l IH]; cbn; auto. destruct (keeps fdir ix k); cbn; lia. }
    assert (LE1 : length f1 <= length f0) by (unfold f1; destruct (1 <? length f0); auto).
    assert (RF' : regular N fnb nan fcells').
    { split; [unfold fcells'; destruct (1 <? length f0); rewrite ?upd_length; apply RF|].
      intros c Hc Hn k Hk. destruct (Nat.eq_dec c ix) as [->|Hne].
      - rewrite N1 in Hk. apply IN1 in Hk. now apply (proj2 RF).
      - rewrite N2 in Hk by auto. now apply (proj2 RF). }
    assert (HW' : forall c, good c -> length (nth c fcells' []) <= W).
    { intros c Hc. destruct (Nat.eq_dec c ix) as [->|Hne]; [rewrite N1; specialize (HW ix G); fold f0 in HW; lia|rewrite N2 by auto; auto]. }
    assert (X : exists b, (if 1 <? length f0 then
         stack <- mapM (get (nth ix fnb [])) f0 ;;
         ' (flow_to, stack) <- drop_solved fdir ix f0 stack ;;
         fcells' <- set fcells ix flow_to ;;
         if 1 <? length flow_to then
           c <- continuous_ties fuel fnb stack ;; Ok (flow_to, fcells', c)
         else Ok (flow_to, fcells', false)
       else Ok (f0, fcells, false)) = Ok (f1, fcells', b)).
    { unfold fcells', f1. destruct (1 <? length f0) eqn:EL; [|now exists false].
      rewrite (mapM_ok (get (nth ix fnb [])) (nbr fnb ix) f0) by (intros k Hk; unfold nbr; apply get_nth; now apply B0).
      cbn [bind]. rewrite drop_spec by (auto; intros k Hk; now apply B0). cbn [bind].
      rewrite set_lt by auto. cbn [bind].
      destruct (1 <? length (filter (keeps fdir ix) f0)) eqn:EL2; [|now exists false].
      apply Nat.ltb_lt in EL2.
      destruct (@ties_spec fuel (map (nbr fnb ix) (filter (keeps fdir ix) f0))) as [b E].
      { intros Y. apply (f_equal (@length nat)) in Y. rewrite map_length in Y. cbn in Y. lia. }
      { intros x Hx. apply in_map_iff in Hx. destruct Hx as [k [<- Hk]]. apply filter_In in Hk. now apply B0. }
      { rewrite map_length. specialize (HW ix G). fold f0 in HW. specialize (LEF f0). lia. }
      rewrite E. cbn [bind]. now exists b. }
    destruct X as [b ->]. cbn [bind].
    assert (TG : tg fcells' ix = map (nbr fnb ix) f1) by (unfold LDir.tg; now rewrite N1).
    rewrite (mapM_ok (get (nth ix fnb [])) (nbr fnb ix) f1) by (intros k Hk; unfold nbr; apply get_nth; now apply B0, IN1).
    cbn [bind]. rewrite <- TG.
    assert (FC : fcells' = fcells \/ (1 < length f0 /\ fcells' = upd fcells ix (filter (keeps fdir ix) f0))).
    { unfold fcells', f1. destruct (1 <? length f0) eqn:EL; auto. right. split; auto. now apply Nat.ltb_lt. }
    assert (FK : 1 < length f0 -> forall k, In k (nth ix fcells' []) -> keeps fdir ix k = true).
    { intros L1 k Hk. rewrite N1 in Hk. unfold f1 in Hk. apply Nat.ltb_lt in L1. rewrite L1 in Hk. now apply filter_In in Hk. }
    assert (SET : forall d, In d (tg fcells' ix) -> exists fdir' fc, (fdir' <- set fdir ix (Z.of_nat d) ;; Ok (fdir', fcells')) = Ok (fdir', fc) /\
       length fdir' = N /\ regular N fnb nan fc /\ (forall c, good c -> length (nth c fc []) <= W) /\ moved ix (fdir, fcells) (fdir', fc)).
    { intros d Hd. rewrite set_lt by lia. cbn [bind]. exists (upd fdir ix (Z.of_nat d)), fcells'. split; auto. rewrite upd_length.
      split; auto. split; auto. split; auto. apply mv_good; auto. left.
      assert (U : nth ix (upd fdir ix (Z.of_nat d)) 0%Z = Z.of_nat d) by (apply nth_upd_eq; lia). split.
      - intros c. destruct (Nat.eq_dec c ix) as [->|Hne]; [|left; apply nth_upd_neq; auto].
        right. split; auto. split; auto. exists d. auto.
      - exists d. auto. }
    assert (FLAT : length (tg fcells' ix) <> 1 -> exists fdir' fc, (fdir' <- flat_cell fuel fnb fcells' ix (tg fcells' ix) fdir ;; Ok (fdir', fcells')) = Ok (fdir', fc) /\
       length fdir' = N /\ regular N fnb nan fc /\ (forall c, good c -> length (nth c fc []) <= W) /\ moved ix (fdir, fcells) (fdir', fc)).
    { intros L1. destruct (@flat_spec fcells' fdir ix W fuel RF' Lfd G HW' F1 F2 HN L1) as [fdir' [E [L2 RS]]].
      rewrite E. cbn [bind]. exists fdir', fcells'. split; auto. split; auto. split; auto. split; auto.
      apply mv_good; auto. destruct RS; auto. }
    destruct (tg fcells' ix) as [|d1 [|d2 [|d3 [|d4 r]]]] eqn:ET; destruct b;
      try (apply FLAT; cbn; lia); try (apply SET; cbn; tauto).
  Qed.
End Step.
