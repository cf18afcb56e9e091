(** Proofs about MDir: the search through flats and the flow-direction loop. *)
From Verif Require Import Py MFlow MDir.
Set Implicit Arguments.
Unset Strict Implicit.
Local Open Scope nat_scope.
Local Open Scope list_scope.

Definition unsolved (z : Z) : Prop := z = (-1)%Z \/ z = (-2)%Z.
Lemma unsolved_b z : (z =? -1)%Z || (z =? -2)%Z = true <-> unsolved z.
Proof. unfold unsolved. rewrite orb_true_iff, !Z.eqb_eq. tauto. Qed.

(** the search ends with a sink exactly if it found no destination *)
Lemma dij_loop_sink fnb fcells fdir fuel : forall s s', dij_loop fuel fnb fcells fdir s = Ok s' ->
  d_sink s' = match d_dest s' with None => true | Some _ => false end.
Proof.
  induction fuel as [|f IH]; intros s s' E; [discriminate|]. cbn [dij_loop] in E.
  destruct (dij_pass _ _ _ _ _ _ s) as [s1|]; cbn [bind] in E; [|discriminate].
  destruct (d_dest s1) eqn:Ed.
  - inversion E; subst. reflexivity.
  - destruct (d_sink s1) eqn:Es; [inversion E; subst; now rewrite Ed|]. eapply IH; exact E.
Qed.

Lemma flat_cell_eq fuel fnb fcells ix conns fdir : flat_cell fuel fnb fcells ix conns fdir =
  (s <- dij_loop fuel fnb fcells fdir (Dij conns [] None true (fold_left (fun s conn => dd_add s conn ix) conns [])) ;;
   match d_dest s with
   | None => fdir <- set fdir ix (-2)%Z ;; foldM (fun a cell => set a cell (-2)%Z) (map fst (d_stack s)) fdir
   | Some dest =>
       from <- match dget Nat.eqb (d_stack s) dest with Some l => Ok l | None => Ok [] end ;;
       first <- get from 0 ;;
       ft <- trace_loop fuel dest [dest] (d_stack s) [(first, (dest, 0%Z))] ;;
       foldM (fun a kv => set a (fst kv) (Z.of_nat (fst (snd kv)))) ft fdir
   end).
Proof.
  unfold flat_cell. destruct (dij_loop _ _ _ _ _) as [s|] eqn:E; cbn [bind]; [|reflexivity].
  rewrite (dij_loop_sink E). destruct (d_dest s); reflexivity.
Qed.

Lemma key_in (s : smap) k l : In (k, l) s -> In k (map fst s).
Proof. intros H. change k with (fst (k, l)). now apply in_map. Qed.
Lemma key_ex (s : smap) k : In k (map fst s) -> exists l, In (k, l) s.
Proof. intros H. apply in_map_iff in H. destruct H as [[k' l] [<- H]]. exists l. exact H. Qed.

Lemma dset_absent (s : smap) k v : ~ In k (map fst s) -> dset Nat.eqb s k v = s ++ [(k, v)].
Proof. induction s as [|[k' v'] s IH]; simpl; auto. intros H. destruct (Nat.eqb_spec k k') as [->|]; [tauto|].
  f_equal. apply IH. tauto. Qed.

Lemma dset_present (s : smap) k v : dget Nat.eqb s k = Some v -> dset Nat.eqb s k v = s.
Proof. induction s as [|[k' v'] s IH]; simpl; [discriminate|]. destruct (Nat.eqb_spec k k') as [->|]; intros H.
  - now inversion H. - f_equal; auto. Qed.

Lemma dd_add_absent (s : smap) k x : ~ In k (map fst s) -> dd_add s k x = s ++ [(k, [x])].
Proof. intros H. unfold dd_add. rewrite (proj2 (dget_none Nat.eqb Nat.eqb_eq s k) H). simpl. now apply dset_absent. Qed.

(** entries are singletons: every cell was found from one cell *)
Definition single (s : smap) : Prop := forall k l, In (k, l) s -> exists p, l = [p].

Lemma init_stack ix conns : forall s, single s -> NoDup (map fst s) -> (forall k l, In (k, l) s -> l = [ix]) ->
  let s' := fold_left (fun s conn => dd_add s conn ix) conns s in
  NoDup (map fst s') /\ (forall k l, In (k, l) s' -> l = [ix]) /\
  (forall k, In k (map fst s') <-> In k (map fst s) \/ In k conns).
Proof.
  induction conns as [|c conns IH]; intros s Hs ND HI; simpl.
  - split; auto. split; auto. intros; tauto.
  - assert (X : exists s1, dd_add s c ix = s1 /\ NoDup (map fst s1) /\ (forall k l, In (k, l) s1 -> l = [ix]) /\
        (forall k, In k (map fst s1) <-> In k (map fst s) \/ c = k)).
    { destruct (in_dec Nat.eq_dec c (map fst s)) as [Hc|Hc].
      - exists s. destruct (key_ex Hc) as [l Hl]. assert (HL := HI c l Hl). subst l.
        assert (G : dget Nat.eqb s c = Some [ix]) by (apply (dget_in_nodup Nat.eqb Nat.eqb_eq); auto).
        split; [|split; [auto|split; [auto|intros k; split; [tauto|intros [?|<-]; auto]]]].
        unfold dd_add. rewrite G. unfold sadd. simpl. rewrite Nat.eqb_refl. simpl. now apply dset_present.
      - exists (s ++ [(c, [ix])]). rewrite dd_add_absent by auto. split; auto. rewrite map_app. simpl. split; [|split].
        + apply (Permutation_NoDup (Permutation_cons_append (map fst s) c)). now constructor.
        + intros k l Hi. apply in_app_iff in Hi. destruct Hi as [Hi|[Hi|[]]]; [eauto|]. now inversion Hi.
        + intros k. rewrite in_app_iff. simpl. tauto. }
    destruct X as [s1 [-> [ND1 [HI1 HK1]]]].
    destruct (IH s1) as [A [B C]]; auto.
    { intros k l Hi. rewrite (HI1 k l Hi). eauto. }
    split; auto. split; auto. intros k. rewrite C, HK1. tauto.
Qed.

Lemma firstn_snoc {A} (l : list A) i x : nth_error l i = Some x -> firstn (S i) l = firstn i l ++ [x].
Proof. revert i. induction l as [|a l IH]; intros [|i] H; simpl in *; try discriminate.
  - now inversion H. - f_equal. now apply IH. Qed.

Lemma bounded_nodup N l : NoDup l -> (forall c, In c l -> c < N) -> length l <= N.
Proof. intros ND H. rewrite <- (seq_length N 0). apply NoDup_incl_length; auto.
  intros c Hc. apply in_seq. specialize (H c Hc). lia. Qed.

Section Dir.
  Variables (N : nat) (fnb : list (list nat)) (nan : nat -> bool).
  Hypothesis Lfnb : length fnb = N.

  Definition nbr (c k : nat) : nat := nth k (nth c fnb []) 0.
  (** current minimum-slope neighbours *)
  Definition tg (fcells : list (list nat)) (c : nat) : list nat := map (nbr c) (nth c fcells []).

  Definition regular (fcells : list (list nat)) : Prop :=
    length fcells = N /\
    forall c, c < N -> nan c = false -> forall k, In k (nth c fcells []) ->
      k < length (nth c fnb []) /\ nbr c k < N /\ nan (nbr c k) = false.

  Definition good (c : nat) : Prop := c < N /\ nan c = false.

  Lemma tg_good fcells c t : regular fcells -> good c -> In t (tg fcells c) -> good t.
  Proof. intros [L R] [H1 H2] Ht. unfold tg in Ht. apply in_map_iff in Ht. destruct Ht as [k [<- Hk]].
    destruct (R c H1 H2 k Hk) as [_ [A B]]. split; auto. Qed.

  Lemma conns_ok fcells c : regular fcells -> good c ->
    mapM (get (nth c fnb [])) (nth c fcells []) = Ok (tg fcells c).
  Proof. intros [L R] [H1 H2]. apply mapM_ok. intros k Hk. destruct (R c H1 H2 k Hk) as [A _].
    unfold nbr. apply get_nth. exact A. Qed.

  Lemma get_row c : c < N -> get fnb c = Ok (nth c fnb []).
  Proof. intros H. apply get_nth. now rewrite Lfnb. Qed.

  Variable fcells : list (list nat).
  Hypothesis RF : regular fcells.
  Variable fdir : list Z.
  Hypothesis Lfd : length fdir = N.
  Notation fd c := (nth c fdir 0%Z).

  (** *** _resolve_flats *)
  Lemma resolve_fold cell conns : (forall t, In t conns -> t < N) ->
    forall dest sink (stack : smap), NoDup (map fst stack) ->
    exists dest' sink' stack', foldM (resolve_conn fdir cell)
          conns (dest, sink, stack) = Ok (dest', sink', stack') /\
      NoDup (map fst stack') /\ incl stack stack' /\
      (forall k l, In (k, l) stack' -> In (k, l) stack \/ (In k conns /\ ~ In k (map fst stack) /\ l = [cell])) /\
      incl conns (map fst stack') /\
      (dest' = None -> dest = None /\ forall k, In k (map fst stack') -> In k (map fst stack) \/ unsolved (fd k)) /\
      (forall d, dest' = Some d -> dest = Some d \/ (In d conns /\ ~ unsolved (fd d) /\ ~ In d (map fst stack))) /\
      (sink' = false -> sink = false \/ exists k, In k conns /\ ~ In k (map fst stack)) /\
      (dest <> None -> dest' <> None).
  Proof.
    induction conns as [|c conns IH]; intros Hc dest sink stack ND; cbn [foldM].
    - exists dest, sink, stack. repeat split; auto; try (intros ? []); auto using incl_refl.
    - unfold resolve_conn at 1. destruct (dhas Nat.eqb stack c) eqn:EH.
      + apply (dhas_spec Nat.eqb Nat.eqb_eq) in EH. cbn [bind].
        destruct (IH (fun t Ht => Hc t (or_intror Ht)) dest sink stack ND) as [d' [s' [st' [E [A [B [C [D [F [G [H I]]]]]]]]]]].
        exists d', s', st'. rewrite E. split; auto. split; auto. split; auto. split; [|split; [|split; [|split; [|split]]]]; auto.
        * intros k l Hk. destruct (C k l Hk) as [?|[? [? ?]]]; auto. right; split; [now right|auto].
        * intros k [<-|Hk]; auto. destruct (key_ex EH) as [l Hl]. apply (key_in (l:=l)). now apply B.
        * intros d Ed. destruct (G d Ed) as [?|[? [? ?]]]; auto. right; split; [now right|auto].
        * intros Es. destruct (H Es) as [?|[k [? ?]]]; auto. right. exists k. split; [now right|auto].
      + assert (NC : ~ In c (map fst stack)) by (intros X; apply (dhas_spec Nat.eqb Nat.eqb_eq) in X; congruence).
        rewrite (get_nth _ 0%Z) by (rewrite Lfd; apply Hc; now left). cbn [bind].
        rewrite dd_add_absent by auto.
        set (dest1 := if (fd c =? -1)%Z || (fd c =? -2)%Z then dest else Some c).
        set (stack1 := (stack ++ [(c, [cell])]) : smap).
        assert (K1 : forall k, In k (map fst stack1) <-> In k (map fst stack) \/ c = k).
        { intros k. unfold stack1. rewrite map_app, in_app_iff. simpl. tauto. }
        assert (ND1 : NoDup (map fst stack1)).
        { unfold stack1. rewrite map_app. simpl. apply (Permutation_NoDup (Permutation_cons_append (map fst stack) c)). now constructor. }
        destruct (IH (fun t Ht => Hc t (or_intror Ht)) dest1 false stack1 ND1) as [d' [s' [st' [E [A [B [C [D [F [G [H I]]]]]]]]]]].
        exists d', s', st'. split; [exact E|]. split; auto. split; [|split; [|split; [|split; [|split; [|split]]]]].
        * intros x Hx. apply B. unfold stack1. apply in_app_iff. now left.
        * intros k l Hk. destruct (C k l Hk) as [Hi|[Hi [Hn El]]].
          -- unfold stack1 in Hi. apply in_app_iff in Hi. destruct Hi as [?|[Hi|[]]]; auto. inversion Hi; subst. right. split; [now left|auto].
          -- right. split; [now right|]. split; auto. intros X. apply Hn, K1. now left.
        * intros k [<-|Hk]; auto. apply (key_in (l:=[cell])). apply B. unfold stack1. apply in_app_iff. right; now left.
        * intros Ed. destruct (F Ed) as [F1 F2]. unfold dest1 in F1.
          destruct ((fd c =? -1)%Z || (fd c =? -2)%Z) eqn:EU; [|discriminate]. apply unsolved_b in EU.
          split; auto. intros k Hk. destruct (F2 k Hk) as [X|X]; auto. apply K1 in X. destruct X as [X|<-]; auto.
        * intros d Ed. destruct (G d Ed) as [X|[X [Y Z]]].
          -- unfold dest1 in X. destruct ((fd c =? -1)%Z || (fd c =? -2)%Z) eqn:EU; auto.
             inversion X; subst. right. split; [now left|]. split; auto. rewrite <- unsolved_b. congruence.
          -- right. split; [now right|]. split; auto. intros W. apply Z, K1. now left.
        * intros _. right. exists c. split; [now left|auto].
        * intros Hd. apply I. unfold dest1. destruct ((fd c =? -1)%Z || (fd c =? -2)%Z); [auto|discriminate].
  Qed.

  Lemma resolve_spec (stack : smap) cell dest : good cell -> NoDup (map fst stack) ->
    exists dest' sink' stack', resolve_flats fnb fdir stack cell (nth cell fcells []) dest
        = Ok (dest', tg fcells cell, sink', stack') /\
      NoDup (map fst stack') /\ incl stack stack' /\
      (forall k l, In (k, l) stack' -> In (k, l) stack \/ (In k (tg fcells cell) /\ ~ In k (map fst stack) /\ l = [cell])) /\
      incl (tg fcells cell) (map fst stack') /\
      (dest' = None -> dest = None /\ length (tg fcells cell) <> 1 /\
         forall k, In k (map fst stack') -> In k (map fst stack) \/ unsolved (fd k)) /\
      (forall d, dest' = Some d -> dest = Some d \/ In d (tg fcells cell)) /\
      (dest <> None -> dest' <> None).
  Proof.
    intros G ND. unfold resolve_flats. rewrite get_row by apply G. cbn [bind].
    rewrite (conns_ok RF G). cbn [bind].
    set (dest1 := match tg fcells cell with [d] => Some d | _ => dest end).
    destruct (@resolve_fold cell (tg fcells cell) (fun t Ht => proj1 (tg_good RF G Ht)) dest1 true stack ND)
      as [d' [s' [st' [E [A [B [C [D [F [H [I J]]]]]]]]]]].
    exists d', s', st'. rewrite E. cbn [bind]. split; auto. split; auto. split; auto. split; auto. split; auto. split; [|split].
    - intros Ed. destruct (F Ed) as [F1 F2]. unfold dest1 in F1.
      destruct (tg fcells cell) as [|a [|b r]] eqn:ET; simpl; auto; discriminate.
    - intros d Ed. destruct (H d Ed) as [X|[X _]]; auto. unfold dest1 in X.
      destruct (tg fcells cell) as [|a [|b r]] eqn:ET; auto. inversion X; subst. right. now left.
    - intros Hd. apply J. unfold dest1. destruct (tg fcells cell) as [|a [|b r]]; auto. discriminate.
  Qed.

  (** *** the search *)
  Variables (ix : nat) (conns0 : list nat) (W : nat).
  Hypothesis Gix : good ix.
  Hypothesis Hconns : conns0 = tg fcells ix.
  Hypothesis HW : forall c, good c -> length (nth c fcells []) <= W.

  Record dinv (s : dij) : Prop := {
    dv_nd : NoDup (map fst (d_stack s));
    dv_entry : forall k l, In (k, l) (d_stack s) -> exists p, l = [p] /\ (p = ix \/ In p (d_visited s)) /\ In k (tg fcells p);
    dv_vis : incl (d_visited s) (d_tmp s);
    dv_vnd : NoDup (d_visited s);
    dv_tmp : forall c, In c (d_tmp s) -> good c /\ (In c conns0 \/ unsolved (fd c)) /\ In c (map fst (d_stack s));
    dv_c0 : forall c, In c conns0 -> In (c, [ix]) (d_stack s);
    dv_none : d_dest s = None ->
      incl (map fst (d_stack s)) (d_tmp s) /\
      forall v, In v (d_visited s) -> length (tg fcells v) <> 1 /\ incl (tg fcells v) (map fst (d_stack s));
    dv_some : forall d, d_dest s = Some d -> In d (map fst (d_stack s)) /\ conns0 <> [];
    dv_empty : conns0 = [] -> d_tmp s = [];
    dv_len : length (d_tmp s) <= W + length (d_visited s) * W
  }.

  Lemma dij_pass_spec fuel : forall i n s, dinv s ->
    (N - length (d_visited s)) * W + (length (d_tmp s) - i) < fuel -> i <= length (d_tmp s) ->
    (forall c, In c (firstn i (d_tmp s)) -> In c (d_visited s)) ->
    exists s', dij_pass fuel fnb fcells fdir i n s = Ok s' /\ dinv s' /\
      (forall c, In c (d_tmp s') -> In c (d_visited s')) /\
      (d_dest s' = None -> d_dest s = None) /\
      ((forall c, In c (d_tmp s) -> In c (d_visited s)) -> d_dest s = None ->
         d_dest s' = None /\ d_tmp s' = d_tmp s /\ d_visited s' = d_visited s /\
         (i < length (d_tmp s) -> length (d_stack s) <= n + (length (d_tmp s) - i) -> d_sink s' = true) /\
         (i = length (d_tmp s) -> d_sink s' = d_sink s)).
  Proof.
    induction fuel as [|f IH]; intros i n s V HF Hi Hdone; [now apply Nat.nlt_0_r in HF|]. cbn [dij_pass].
    destruct (nth_error (d_tmp s) i) as [cell|] eqn:En.
    - assert (Hcell : In cell (d_tmp s)) by (eapply nth_error_In; eauto).
      assert (Hlt : i < length (d_tmp s)) by (apply nth_error_Some; congruence).
      destruct (@dv_tmp _ V cell Hcell) as [Gc [Gu Gk]].
      destruct (memn cell (d_visited s)) eqn:Ev; cbn [negb].
      + apply memn_spec in Ev.
        assert (Hdone' : forall c, In c (firstn (S i) (d_tmp s)) -> In c (d_visited s)).
        { intros c Hc.
          assert (X : firstn (S i) (d_tmp s) = firstn i (d_tmp s) ++ [cell]).
          { now apply firstn_snoc. }
          rewrite X in Hc. apply in_app_iff in Hc. destruct Hc as [Hc|[<-|[]]]; auto. }
        destruct (d_dest s) as [d|] eqn:Ed.
        * destruct (IH (S i) n s V ltac:(lia) ltac:(lia) Hdone') as [s' [E [V' [A [B C]]]]].
          exists s'. split; auto. split; auto. split; auto. split; [rewrite Ed in B; auto|]. intros; discriminate.
        * set (s1 := Dij (d_tmp s) (d_visited s) None (if length (d_stack s) <=? S n then true else d_sink s) (d_stack s)).
          assert (V1 : dinv s1).
          { constructor; cbn; [apply (dv_nd V)|apply (dv_entry V)|apply (dv_vis V)|apply (dv_vnd V)|apply (dv_tmp V)|apply (dv_c0 V)| |discriminate|apply (dv_empty V)|apply (dv_len V)].
            intros _. now apply (dv_none V). }
          destruct (IH (S i) (S n) s1 V1 ltac:(cbn; lia) ltac:(cbn; lia) Hdone') as [s' [E [V' [A [B C]]]]].
          exists s'. split; auto. split; auto. split; auto. split; auto. intros HA _.
          destruct (C HA eq_refl) as [C1 [C2 [C3 [C4 C5]]]]. split; auto. split; auto. split; auto. split; [|intros; lia].
          intros _ HL. destruct (Nat.eq_dec (S i) (length (d_tmp s))) as [He|He].
          -- rewrite (C5 He). unfold s1. cbn. destruct (Nat.leb_spec (length (d_stack s)) (S n)); [auto|lia].
          -- apply C4; cbn; lia.
      + apply memn_false in Ev.
        rewrite (get_nth _ []) by (rewrite (proj1 RF); apply Gc). cbn [bind].
        destruct (@resolve_spec (d_stack s) cell (d_dest s) Gc (dv_nd V)) as [d' [k' [st' [E [A [B [C [D [F [G J]]]]]]]]]].
        rewrite E. cbn [bind].
        set (s1 := Dij (match d' with None => d_tmp s ++ tg fcells cell | Some _ => d_tmp s end) (d_visited s ++ [cell]) d' k' st').
        assert (KK : forall k, In k (map fst (d_stack s)) -> In k (map fst st')).
        { intros k Hk. destruct (key_ex Hk) as [l Hl]. apply (key_in (l:=l)). now apply B. }
        assert (V1 : dinv s1).
        { constructor; cbn.
          - auto.
          - intros k l Hk. destruct (C k l Hk) as [X|[X [Y ->]]].
            + destruct (@dv_entry _ V k l X) as [p [-> [Hp Ht]]]. exists p. split; auto. split; auto.
              destruct Hp; auto. right. apply in_app_iff. now left.
            + exists cell. split; auto. split; auto. right. apply in_app_iff. right; now left.
          - intros c Hc. assert (X : In c (d_tmp s)).
            { apply in_app_iff in Hc. destruct Hc as [Hc|[<-|[]]]; auto. now apply (dv_vis V). }
            destruct d'; auto. apply in_app_iff. now left.
          - apply (Permutation_NoDup (Permutation_cons_append (d_visited s) cell)). constructor; auto. apply (dv_vnd V).
          - intros c Hc. assert (Y : In c (d_tmp s) \/ (d' = None /\ In c (tg fcells cell))).
            { destruct d'; [now left|]. apply in_app_iff in Hc. tauto. }
            destruct Y as [Y|[Y1 Y2]].
            + destruct (@dv_tmp _ V c Y) as [? [? ?]]. auto.
            + split; [eapply tg_good; eauto|]. split; [|auto].
              destruct (F Y1) as [F1 [F2 F3]]. destruct (F3 c (D c Y2)) as [X|X]; auto.
              destruct (dv_none V F1) as [X1 _]. destruct (@dv_tmp _ V c (X1 c X)) as [? [? ?]]. auto.
          - intros c Hc. apply B. now apply (dv_c0 V).
          - intros Ed. subst d'. destruct (F eq_refl) as [F1 [F2 F3]]. destruct (dv_none V F1) as [X1 X2]. split.
            + intros k Hk. destruct (key_ex Hk) as [l Hl]. destruct (C k l Hl) as [X|[X [Y Z]]]; apply in_app_iff; auto.
              left. apply X1. now apply (key_in (l:=l)).
            + intros v Hv. apply in_app_iff in Hv. destruct Hv as [Hv|[<-|[]]]; auto.
              destruct (X2 v Hv) as [Y1 Y2]. split; auto. intros t Ht. auto.
          - intros d Ed. split.
            + destruct (G d Ed) as [X|X]; auto. apply KK. now apply (@dv_some _ V d).
            + intros X. rewrite (dv_empty V X) in Hcell. destruct Hcell.
          - intros X. rewrite (dv_empty V X) in Hcell. destruct Hcell.
          - assert (X := dv_len V). assert (LT : length (tg fcells cell) <= W) by (unfold tg; rewrite map_length; now apply HW).
            rewrite app_length. cbn [length]. rewrite Nat.mul_add_distr_r, Nat.mul_1_l.
            destruct d'; [|rewrite app_length]; lia. }
        assert (LV : length (d_visited s) + 1 <= N).
        { assert (X := @bounded_nodup N (d_visited s ++ [cell]) (dv_vnd V1)). rewrite app_length in X. apply X.
          intros c Hc. apply (dv_vis V1) in Hc. now apply (@dv_tmp _ V1). }
        assert (LT : length (tg fcells cell) <= W) by (unfold tg; rewrite map_length; now apply HW).
        assert (LT1 : length (d_tmp s) <= length (d_tmp s1) <= length (d_tmp s) + W).
        { unfold s1; cbn. destruct d'; [lia|]. rewrite app_length. lia. }
        assert (PM : (N - length (d_visited s)) * W = (N - length (d_visited s1)) * W + W).
        { unfold s1; cbn [d_visited]. rewrite app_length. cbn [length].
          replace (N - length (d_visited s)) with (S (N - (length (d_visited s) + 1))) by lia. cbn [Nat.mul]. apply Nat.add_comm. }
        assert (D1 : forall c, In c (firstn (S i) (d_tmp s1)) -> In c (d_visited s1)).
        { assert (X : firstn (S i) (d_tmp s1) = firstn (S i) (d_tmp s)).
          { unfold s1; cbn [d_tmp]. destruct d'; auto. rewrite firstn_app. replace (S i - length (d_tmp s)) with 0 by lia.
            now rewrite firstn_O, app_nil_r. }
          rewrite X, (firstn_snoc En). intros c Hc. unfold s1; cbn [d_visited]. apply in_app_iff in Hc. apply in_app_iff.
          destruct Hc as [Hc|Hc]; auto. }
        destruct (IH (S i) n s1 V1 ltac:(rewrite PM in HF; lia) ltac:(lia) D1) as [s' [E' [V' [A' [B' C']]]]].
        exists s'. split; auto. split; auto. split; auto. split.
        * intros Hn. apply B' in Hn. unfold s1 in Hn; cbn in Hn. subst d'. now apply F.
        * intros HA _. exfalso. apply Ev. auto.
    - exists s. split; auto. split; auto. apply nth_error_None in En. assert (i = length (d_tmp s)) by lia. subst i.
      rewrite firstn_all in Hdone. split; auto. split; auto. intros _ Hn. split; auto. split; auto. split; auto. split; [lia|auto].
  Qed.

  Lemma dij_spec fuel : N * W + W + 2 < fuel ->
    let stack0 := fold_left (fun s conn => dd_add s conn ix) conns0 [] in
    exists s, dij_loop fuel fnb fcells fdir (Dij conns0 [] None true stack0) = Ok s /\ dinv s /\
      (d_dest s = None -> forall c, In c (d_tmp s) -> In c (d_visited s)).
  Proof.
    intros HF stack0.
    destruct (@init_stack ix conns0 []) as [A [B C]]; [intros ? ? []|constructor|intros ? ? []|].
    fold stack0 in A, B, C.
    assert (LC : length conns0 <= W) by (rewrite Hconns; unfold tg; rewrite map_length; now apply HW).
    assert (V0 : dinv (Dij conns0 [] None true stack0)).
    { constructor; cbn.
      - auto.
      - intros k l Hk. exists ix. split; [now apply (B k)|]. split; auto. rewrite <- Hconns.
        apply (key_in (l:=l)), C in Hk. destruct Hk as [[]|Hk]; auto.
      - intros ? [].
      - constructor.
      - intros c Hc. split; [rewrite Hconns in Hc; eapply tg_good; eauto|]. split; auto. apply C. now right.
      - intros c Hc. assert (K : In c (map fst stack0)) by (apply C; now right).
        destruct (key_ex K) as [l Hl]. now rewrite <- (B c l Hl).
      - intros _. split; [|intros ? []]. intros k Hk. apply C in Hk. destruct Hk as [[]|Hk]; auto.
      - discriminate.
      - auto.
      - lia. }
    assert (NV : forall s, dinv s -> (N - length (d_visited s)) * W + (length (d_tmp s) - 0) <= N * W + W).
    { intros s V. assert (X := dv_len V). rewrite Nat.sub_0_r, Nat.mul_sub_distr_r.
      assert (Y : length (d_visited s) <= N).
      { apply bounded_nodup; [apply (dv_vnd V)|]. intros c Hc. apply (dv_vis V) in Hc. now apply (@dv_tmp _ V). }
      assert (length (d_visited s) * W <= N * W) by (now apply Nat.mul_le_mono_r). lia. }
    destruct fuel as [|f]; [lia|]. cbn [dij_loop].
    assert (B0 := NV _ V0).
    destruct (@dij_pass_spec (S f) 0 0 _ V0) as [s [E [V [P1 [P2 P3]]]]]; [lia|apply Nat.le_0_l|intros c []|].
    rewrite E. cbn [bind]. destruct (d_dest s) as [d|] eqn:Ed.
    - eexists. split; [reflexivity|]. split; [|cbn; congruence].
      constructor; cbn; try apply V; [discriminate|]. intros d0 H0. apply (dv_some V). congruence.
    - destruct (d_sink s) eqn:Es; [exists s; auto|].
      destruct f as [|f]; [lia|]. cbn [dij_loop].
      assert (B1 := NV _ V).
      destruct (@dij_pass_spec (S f) 0 0 _ V) as [s2 [E2 [V2 [Q1 [Q2 Q3]]]]]; [lia|apply Nat.le_0_l|intros c []|].
      rewrite E2. cbn [bind]. destruct (Q3 P1 Ed) as [R1 [R2 [R3 [R4 R5]]]]. rewrite R1.
      assert (SK : d_sink s2 = true).
      { destruct (Nat.eq_dec (length (d_tmp s)) 0) as [Z|NZ].
        - exfalso. destruct (dv_none V Ed) as [X _].
          assert (C0 : conns0 = []).
          { assert (D : conns0 = [] \/ exists c, In c conns0) by (clear; destruct conns0 as [|c l]; [now left|right; exists c; now left]).
            destruct D as [D|[c D]]; [exact D|]. exfalso.
            assert (Y : In c (d_tmp s)) by (apply (X c); apply (key_in (l:=[ix])); apply (dv_c0 V); exact D).
            apply length_zero_iff_nil in Z. rewrite Z in Y. destruct Y. }
          cbn in P3. rewrite C0 in P3.
          destruct (P3 (fun _ F => F) eq_refl) as [_ [_ [_ [_ P5]]]].
          specialize (P5 eq_refl). congruence.
        - apply R4; [lia|]. rewrite <- (map_length fst (d_stack s)). rewrite Nat.sub_0_r. cbn.
          apply NoDup_incl_length; [apply (dv_nd V)|]. now apply (dv_none V). }
      rewrite SK. exists s2. split; auto.
  Qed.
End Dir.

(** *** the distances along the search tree *)
Section Trace.
  Variables (S0 : smap) (dest : nat).
  Hypothesis ND0 : NoDup (map fst S0).
  Hypothesis SG0 : single S0.
  Hypothesis SZ : (999 + Z.of_nat (length S0) < 1000000)%Z.

  Record tinv (stack : smap) (ft : ftrace) : Prop := {
    ti_incl : incl stack S0;
    ti_nd : NoDup (map fst stack);
    ti_len : length stack <= length S0;
    ti_ftnd : NoDup (map fst ft);
    ti_ft : forall n t d, In (n, (t, d)) ft -> In (t, [n]) S0 /\ (d <= 999 + Z.of_nat (length S0 - length stack))%Z;
    ti_pop : forall t n, In (t, [n]) S0 -> ~ In t (map fst stack) -> In n (map fst ft)
  }.

  Lemma ddel_in (s : smap) k x : NoDup (map fst s) -> In x (ddel Nat.eqb s k) <-> In x s /\ fst x <> k.
  Proof.
    induction s as [|[k' v] s IH]; simpl; intros ND; [tauto|]. inversion ND as [|? ? H1 H2]; subst.
    destruct (Nat.eqb_spec k k') as [->|Hne].
    - split; [|intros [[<-|?] ?]; [now destruct H|auto]]. intros Hx. split; auto. intros <-. apply H1. now apply in_map.
    - simpl. rewrite IH by auto. split.
      + intros [<-|[? ?]]; auto.
      + intros [[<-|?] ?]; auto.
  Qed.
  Lemma ddel_keys (s : smap) k : NoDup (map fst s) -> NoDup (map fst (ddel Nat.eqb s k)).
  Proof.
    induction s as [|[k' v] s IH]; simpl; intros ND; auto. inversion ND as [|? ? H1 H2]; subst.
    destruct (Nat.eqb_spec k k') as [->|Hne]; auto. simpl. constructor; auto.
    intros Hi. apply in_map_iff in Hi. destruct Hi as [x [Ex Hx]]. apply ddel_in in Hx; auto. destruct Hx as [Hx _].
    apply H1. rewrite <- Ex. now apply in_map.
  Qed.
  Lemma ddel_len (s : smap) k : In k (map fst s) -> S (length (ddel Nat.eqb s k)) = length s.
  Proof.
    induction s as [|[k' v] s IH]; simpl; [tauto|]. intros H. destruct (Nat.eqb_spec k k') as [->|Hne]; auto.
    simpl. f_equal. apply IH. destruct H; [congruence|auto].
  Qed.
  Lemma ddel_absent (s : smap) k v : ~ In k (map fst s) -> ddel Nat.eqb (s ++ [(k, v)]) k = s.
  Proof.
    induction s as [|[k' v'] s IH]; simpl; intros H; [now rewrite Nat.eqb_refl|].
    destruct (Nat.eqb_spec k k') as [->|]; [tauto|]. f_equal. apply IH. tauto.
  Qed.

  Lemma dset_in (ft : ftrace) k v x : NoDup (map fst ft) -> In x (dset Nat.eqb ft k v) -> x = (k, v) \/ In x ft.
  Proof.
    induction ft as [|[k' v'] ft IH]; simpl; intros ND Hx; [destruct Hx as [<-|[]]; auto|].
    inversion ND; subst. destruct (Nat.eqb_spec k k') as [->|]; simpl in Hx; destruct Hx as [<-|Hx]; auto.
    destruct (IH H2 Hx); auto.
  Qed.
  Lemma dset_has (ft : ftrace) k v n : In n (map fst (dset Nat.eqb ft k v)) <-> n = k \/ In n (map fst ft).
  Proof.
    rewrite (dset_keys Nat.eqb). destruct (dhas Nat.eqb ft k) eqn:E.
    - apply (dhas_spec Nat.eqb Nat.eqb_eq) in E. split; auto. intros [->|]; auto.
    - rewrite in_app_iff. simpl. split; [intros [?|[?|[]]]; auto|intros [?|?]; auto].
  Qed.

  Lemma node_spec stack ft t n : tinv stack ft -> In (t, [n]) stack ->
    tinv (ddel Nat.eqb stack t) (trace_node dest t ft n).
  Proof.
    intros I Hi. assert (L1 : S (length (ddel Nat.eqb stack t)) = length stack) by (apply ddel_len; now apply (key_in (l:=[n]))).
    assert (LL := ti_len I). set (stack' := ddel Nat.eqb stack t) in *.
    assert (X : exists v, (snd v <= 999 + Z.of_nat (length S0 - length stack'))%Z /\ fst v = t /\
       (trace_node dest t ft n = dset Nat.eqb ft n v \/ (trace_node dest t ft n = ft /\ In n (map fst ft)))).
    { unfold trace_node. destruct (Nat.eqb t dest).
      - exists (t, 0%Z). cbn [fst snd]. split; [lia|auto].
      - destruct (dget Nat.eqb ft t) as [[u d]|] eqn:Eu.
        + apply (dget_in Nat.eqb Nat.eqb_eq) in Eu. destruct (ti_ft I Eu) as [_ Hd].
          exists (t, (d + 1)%Z). cbn [fst snd]. split; [lia|]. split; auto.
          destruct (dget Nat.eqb ft n) as [[u0 d0]|] eqn:En.
          * destruct (d + 1 <? d0)%Z; auto. right. split; auto.
            apply (dget_in Nat.eqb Nat.eqb_eq) in En. change n with (fst (n, (u0, d0))). now apply in_map.
          * left. destruct (Z.ltb_spec (d + 1) 1000000); [auto|lia].
        + exists (t, 999%Z). cbn [fst snd]. split; [lia|auto]. }
    destruct X as [v [V1 [V2 V3]]].
    assert (Hn : In n (map fst (trace_node dest t ft n))).
    { destruct V3 as [->|[-> ?]]; auto. apply dset_has. now left. }
    assert (Hk : forall m, In m (map fst ft) -> In m (map fst (trace_node dest t ft n))).
    { intros m Hm. destruct V3 as [->|[-> ?]]; auto. apply dset_has. now right. }
    constructor.
    - intros x Hx. apply ddel_in in Hx; [|apply (ti_nd I)]. now apply (ti_incl I).
    - apply ddel_keys, (ti_nd I).
    - lia.
    - destruct V3 as [->|[-> ?]]; [|apply (ti_ftnd I)]. apply (dset_nodup Nat.eqb Nat.eqb_eq), (ti_ftnd I).
    - intros m u d Hm.
      assert (Y : (m, (u, d)) = (n, v) \/ In (m, (u, d)) ft).
      { destruct V3 as [E|[E _]]; rewrite E in Hm; auto. now apply dset_in in Hm; [|apply (ti_ftnd I)]. }
      destruct Y as [Y|Y].
      + inversion Y; subst. cbn [fst snd] in *. split; [now apply (ti_incl I)|lia].
      + destruct (ti_ft I Y) as [Y1 Y2]. split; auto. lia.
    - intros u m Hu Hnot. destruct (Nat.eq_dec u t) as [->|Hne].
      + assert (E : [m] = [n]).
        { assert (A1 : dget Nat.eqb S0 t = Some [m]) by (apply (dget_in_nodup Nat.eqb Nat.eqb_eq); auto).
          assert (A2 : dget Nat.eqb S0 t = Some [n]) by (apply (dget_in_nodup Nat.eqb Nat.eqb_eq); [auto|now apply (ti_incl I)]). congruence. }
        inversion E; subst. auto.
      + apply Hk. apply (ti_pop I Hu). intros Y. apply Hnot. apply in_map_iff in Y. destruct Y as [x [Ex Hx]].
        apply in_map_iff. exists x. split; auto. apply ddel_in; [apply (ti_nd I)|]. split; auto. congruence.
  Qed.

  Lemma trace_spec fuel : forall x stack ft, tinv stack ft ->
    2 * length stack + (if memn x (map fst stack) then 0 else 1) <= fuel ->
    exists ft', trace_loop fuel dest [x] stack ft = Ok ft' /\ tinv [] ft' /\ incl (map fst ft) (map fst ft').
  Proof.
    induction fuel as [|f IH]; intros x stack ft I HF.
    - assert (stack = []) by (destruct stack; [auto|simpl in HF; lia]). subst. simpl. exists ft. split; auto. split; auto. apply incl_refl.
    - destruct stack as [|e0 st0] eqn:ES; [simpl; exists ft; split; auto; split; auto; apply incl_refl|]. rewrite <- ES in *. 
      assert (U : trace_loop (S f) dest [x] stack ft =
         let '(stack, ft, last) := trace_round dest [x] stack ft in
          match last with
          | None => Err KeyError
          | Some (node_to, nodes_from) =>
              let stack := ddel Nat.eqb stack node_to in
              ldest <- (match nodes_from with
                        | [] => match rev (map fst stack) with
                                | [] => Err IndexError
                                | k :: _ => Ok [k]
                                end
                        | _ => Ok nodes_from
                        end) ;;
              trace_loop f dest ldest stack ft
          end) by (rewrite ES; reflexivity).
      rewrite U. clear U. unfold trace_round. cbn [fold_left].
      destruct (memn x (map fst stack)) eqn:EM.
      + apply memn_spec in EM. destruct (key_ex EM) as [l Hl]. destruct (SG0 (ti_incl I Hl)) as [p ->].
        rewrite (dget_in_nodup Nat.eqb Nat.eqb_eq stack _ _ (ti_nd I) Hl). cbn [fold_left bind].
        assert (I' := node_spec I Hl).
        destruct (IH p _ _ I') as [ft' [E [T1 T2]]].
        { assert (Y := ddel_len EM). destruct (memn p (map fst (ddel Nat.eqb stack x))); lia. }
        exists ft'. split; auto. split; auto. intros m Hm. apply T2.
        unfold trace_node. destruct (Nat.eqb x dest); [apply dset_has; auto|].
        destruct (dget Nat.eqb ft x) as [[? ?]|]; [destruct (_ <? _)%Z|]; auto; apply dset_has; auto.
      + apply memn_false in EM. rewrite (proj2 (dget_none Nat.eqb Nat.eqb_eq stack x) EM).
        rewrite dset_absent by auto. cbn [fold_left]. rewrite ddel_absent by auto.
        destruct (rev (map fst stack)) as [|k r] eqn:ER.
        * exfalso. apply (f_equal (@length nat)) in ER. rewrite rev_length, map_length in ER. rewrite ES in ER. discriminate.
        * cbn [bind]. destruct (IH k _ _ I) as [ft' [E [T1 T2]]].
          { assert (Hk : In k (map fst stack)) by (apply in_rev; rewrite ER; now left).
            apply memn_spec in Hk. rewrite Hk. lia. }
          exists ft'. auto.
  Qed.
End Trace.
