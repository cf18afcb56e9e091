(** irunbnd: which stream cell each cell is assigned to. *)
From Verif Require Import Py Spec MStream LGraph LStream.
Set Implicit Arguments.
Local Open Scope nat_scope.
Local Open Scope list_scope.

Section R.
  Variables fdir : list Z.
  Hypothesis V : valid_fdir fdir.
  Notation N := (length fdir).
  Notation d := (down fdir).

  Definition ups (n : nat) : list nat := filter (fun c => Nat.eqb (d c) n) (seq 0 N).

  Lemma in_ups c n : In c (ups n) <-> c < N /\ d c = n.
  Proof. unfold ups. rewrite filter_In, in_seq, Nat.eqb_eq. intuition lia. Qed.

  Definition rv (l : list (nat * Z)) (m : list (Z * list Z)) : list (Z * list Z) :=
    fold_left (fun m p =>
               let '(node, dn) := p : nat * Z in
               match dget Z.eqb m dn with
               | None => dset Z.eqb m dn [Z.of_nat node]
               | Some l => dset Z.eqb m dn (l ++ [Z.of_nat node])
               end) l m.

  Lemma dget_dset {W} (m : list (Z * W)) k k' v :
    dget Z.eqb (dset Z.eqb m k v) k' = if (k' =? k)%Z then Some v else dget Z.eqb m k'.
  Proof.
    induction m as [|[k0 v0] m IH]; simpl.
    - destruct (k' =? k)%Z; auto.
    - destruct (Z.eqb_spec k k0) as [->|H]; simpl.
      + destruct (k' =? k0)%Z; auto.
      + rewrite IH. destruct (Z.eqb_spec k' k0), (Z.eqb_spec k' k); subst; auto; congruence.
  Qed.

  Lemma rv_get l : forall m n,
    dget Z.eqb (rv l m) n =
      match map (fun p => Z.of_nat (fst p)) (filter (fun p => (snd p =? n)%Z) l), dget Z.eqb m n with
      | [], o => o
      | e, None => Some e
      | e, Some e0 => Some (e0 ++ e)
      end.
  Proof.
    induction l as [|[c x] l IH]; intros m n; simpl; auto.
    unfold rv in *. simpl. rewrite IH. clear IH.
    destruct (dget Z.eqb m x) as [e0|] eqn:E0; rewrite dget_dset;
      rewrite (Z.eqb_sym n x); destruct (Z.eqb_spec x n) as [->|Hx]; simpl; rewrite ?E0; auto;
      destruct (map (fun p : nat * Z => Z.of_nat (fst p)) (filter (fun p : nat * Z => (snd p =? n)%Z) l)); simpl; auto.
    now rewrite <- app_assoc.
  Qed.

  Lemma filter_ups n : map (fun p => Z.of_nat (fst p)) (filter (fun p => (snd p =? Z.of_nat n)%Z) (combine (seq 0 N) fdir))
    = map Z.of_nat (ups n).
  Proof.
    assert (G : forall l s, (forall i, i < length l -> nth i l 0%Z = Z.of_nat (d (s + i))) ->
       map (fun p => Z.of_nat (fst p)) (filter (fun p => (snd p =? Z.of_nat n)%Z) (combine (seq s (length l)) l)) =
       map Z.of_nat (filter (fun c => Nat.eqb (d c) n) (seq s (length l)))).
    { induction l as [|x l IH]; intros s H; simpl; auto.
      assert (Hx := H 0 ltac:(simpl; lia)). simpl in Hx. rewrite Nat.add_0_r in Hx. subst x.
      assert (E : (Z.of_nat (d s) =? Z.of_nat n)%Z = (d s =? n)).
      { destruct (Z.eqb_spec (Z.of_nat (d s)) (Z.of_nat n)), (Nat.eqb_spec (d s) n); auto; lia. }
      assert (IH2 := IH (S s) ltac:(intros i Hi; assert (Y := H (S i) ltac:(simpl; lia)); cbn [nth] in Y; rewrite Y; f_equal; f_equal; lia)).
      rewrite E. destruct (d s =? n); simpl; rewrite IH2; auto. }
    apply (G fdir 0). intros i Hi. now apply fdir_down.
  Qed.

  Lemma reversed_get n : dget Z.eqb (reversed fdir) (Z.of_nat n) =
    match ups n with [] => None | l => Some (map Z.of_nat l) end.
  Proof.
    unfold reversed. fold (rv (combine (seq 0 N) fdir) []). rewrite rv_get, filter_ups. simpl.
    destruct (ups n); auto.
  Qed.

  (** number of cells whose downstream cell is not yet visited *)
  Definition cnt (vis : list nat) : nat := length (filter (fun c => negb (memn (d c) vis)) (seq 0 N)).

  Lemma cnt_step vis n : ~ In n vis -> cnt vis = length (ups n) + cnt (vis ++ [n]).
  Proof.
    intros H. unfold cnt, ups. induction (seq 0 N) as [|c l IH]; simpl; auto.
    destruct (Nat.eqb_spec (d c) n) as [E|E].
    - rewrite E. replace (memn n vis) with false by (symmetry; now apply memn_false).
      replace (memn n (vis ++ [n])) with true by (symmetry; apply memn_spec, in_app_iff; simpl; auto).
      simpl. lia.
    - replace (memn (d c) (vis ++ [n])) with (memn (d c) vis).
      + destruct (memn (d c) vis); simpl; lia.
      + unfold memn. rewrite existsb_app. simpl. destruct (Nat.eqb_spec (d c) n); [contradiction|].
        now rewrite !orb_false_r.
  Qed.

  Lemma cnt_le vis : cnt vis <= N.
  Proof. unfold cnt. rewrite <- (seq_length N 0) at 2. induction (seq 0 N); simpl; auto. destruct negb; simpl; lia. Qed.

  Lemma foldM_npset iseg l : forall (a : list Z), (forall c, In c l -> c < length a) ->
    exists a', foldM (fun a u => npset a u iseg) (map Z.of_nat l) a = Ok a' /\ length a' = length a /\
      (forall c, nth c a' 0%Z = if in_dec Nat.eq_dec c l then iseg else nth c a 0%Z).
  Proof.
    induction l as [|c l IH]; intros a H; simpl.
    - exists a. repeat split; auto.
    - rewrite npset_nat by (apply H; now left). simpl.
      destruct (IH (upd a c iseg)) as [a' [E [L G]]].
      { intros x Hx. rewrite upd_length. apply H. now right. }
      exists a'. rewrite upd_length in L. repeat split; auto. intros x. rewrite G.
      rewrite nth_upd by (apply H; now left).
      destruct (in_dec Nat.eq_dec x l), (Nat.eq_dec c x); auto.
  Qed.

  Lemma memz_map x l : memz (Z.of_nat x) (map Z.of_nat l) = memn x l.
  Proof.
    destruct (memn x l) eqn:E.
    - apply memz_spec. apply memn_spec in E. now apply in_map.
    - apply memz_false. apply memn_false in E. rewrite in_map_iff. intros [y [Hy Hi]].
      apply Nat2Z.inj in Hy. now subst.
  Qed.

  Lemma irun_loop_spec iseg fuel : forall st vis irun,
    length st + cnt vis <= fuel -> length irun = N -> (forall c, In c st -> c < N) ->
    exists new irun',
      irun_loop fuel (reversed fdir) iseg (map Z.of_nat st) (map Z.of_nat vis) irun
        = Ok (map Z.of_nat (vis ++ new), irun') /\ length irun' = N /\
      (forall c, c < N -> nth c irun' 0%Z = if in_dec Nat.eq_dec (d c) new then iseg else nth c irun 0%Z) /\
      (forall n, In n new -> ~ In n vis /\ ups n <> [] /\ exists s, In s st /\ flows_through fdir n s) /\
      (forall n, In n st -> ups n <> [] -> In n (vis ++ new)) /\
      (forall n c, In n new -> c < N -> d c = n -> ups c <> [] -> In c (vis ++ new)).
  Proof.
    induction fuel as [|fuel IH]; intros st vis irun HF HL HS.
    - destruct st; [|simpl in HF; lia]. simpl. exists [], irun. rewrite app_nil_r. repeat split; auto; simpl in *; contradiction.
    - destruct st as [|n st]; simpl.
      + exists [], irun. rewrite app_nil_r. repeat split; auto; simpl in *; contradiction.
      + rewrite reversed_get. destruct (ups n) as [|u us] eqn:EU.
        * destruct (IH st vis irun) as [new [irun' [E [L [A [B [C D]]]]]]]; [simpl in HF; lia|auto|intros; apply HS; now right|].
          exists new, irun'. split; [exact E|split; [exact L|split; [exact A|split; [|split; [|exact D]]]]].
          -- intros x Hx. destruct (B _ Hx) as [B1 [B2 [s [Hs Hf]]]]. split; [auto|split; [auto|]]. exists s. split; [now right|auto].
          -- intros x [->|Hx] Hu; auto. congruence.
        * rewrite memz_map. destruct (memn n vis) eqn:EM.
          -- apply memn_spec in EM.
             destruct (IH st vis irun) as [new [irun' [E [L [A [B [C D]]]]]]]; [simpl in HF; lia|auto|intros; apply HS; now right|].
             exists new, irun'. split; [exact E|split; [exact L|split; [exact A|split; [|split; [|exact D]]]]].
             ++ intros x Hx. destruct (B _ Hx) as [B1 [B2 [s [Hs Hf]]]]. split; [auto|split; [auto|]]. exists s. split; [now right|auto].
             ++ intros x [->|Hx] Hu; auto. apply in_app_iff. auto.
          -- apply memn_false in EM. rewrite <- EU.
             destruct (@foldM_npset iseg (ups n) irun) as [irun1 [E1 [L1 G1]]].
             { intros c Hc. apply in_ups in Hc. lia. }
             rewrite E1. simpl.
             replace (rev (map Z.of_nat (ups n)) ++ map Z.of_nat st) with (map Z.of_nat (rev (ups n) ++ st))
               by (now rewrite map_app, map_rev).
             replace (map Z.of_nat vis ++ [Z.of_nat n]) with (map Z.of_nat (vis ++ [n])) by now rewrite map_app.
             assert (CS := @cnt_step vis n EM).
             destruct (IH (rev (ups n) ++ st) (vis ++ [n]) irun1) as [new [irun' [E [L [A [B [C D]]]]]]].
             { rewrite app_length, rev_length. simpl in HF. lia. }
             { lia. }
             { intros c Hc. apply in_app_iff in Hc. destruct Hc as [Hc|Hc]; [|apply HS; now right].
               apply in_rev, in_ups in Hc. tauto. }
             exists (n :: new), irun'. rewrite E.
             assert (AP : (vis ++ [n]) ++ new = vis ++ n :: new) by now rewrite <- app_assoc.
             rewrite AP in *. split; [auto|]. split; [auto|]. split; [|split; [|split]].
             ++ intros c Hc. rewrite A by auto. rewrite G1.
                destruct (in_dec Nat.eq_dec (d c) new) as [Hi|Hi].
                ** destruct (in_dec Nat.eq_dec (d c) (n :: new)) as [Hj|Hj]; auto. exfalso; apply Hj; now right.
                ** destruct (in_dec Nat.eq_dec c (ups n)) as [Hu|Hu];
                     destruct (in_dec Nat.eq_dec (d c) (n :: new)) as [Hj|Hj]; auto.
                   --- exfalso. apply Hj. left. apply in_ups in Hu. symmetry; tauto.
                   --- exfalso. apply Hu. apply in_ups. split; auto. destruct Hj; [auto|contradiction].
             ++ intros x [<-|Hx].
                ** repeat split; auto; [congruence|]. exists n. split; [now left|]. exists 0. reflexivity.
                ** destruct (B _ Hx) as [B1 [B2 [s [Hs Hf]]]]. split; [|split; auto].
                   --- intros Hv. apply B1. apply in_app_iff; auto.
                   --- apply in_app_iff in Hs. destruct Hs as [Hs|Hs].
                       +++ exists n. split; [now left|]. apply in_rev, in_ups in Hs.
                           eapply flows_trans; [exact Hf|]. exists 1. simpl. tauto.
                       +++ exists s. split; [now right|auto].
             ++ intros x [<-|Hx] Hu.
                ** apply in_app_iff. right. now left.
                ** apply C; auto. apply in_app_iff; auto.
             ++ intros x c [<-|Hx] Hc HD Hu.
                ** apply C; auto. apply in_app_iff. left. apply -> in_rev. apply in_ups. auto.
                ** eapply D; eauto.
  Qed.

  Variable strm : list Z.
  Hypothesis HL : length strm = N.
  Notation lab c := (nth c strm 0%Z).

  (** state after the stream cells [done] *)
  Record rinv (done vis : list nat) (irun : list Z) : Prop := {
    r_len : length irun = N;
    r_vis : forall n, n < N -> (In n vis <-> ups n <> [] /\ exists s, In s done /\ flows_through fdir n s);
    r_none : forall c, c < N -> ~ In c done -> (forall s, In s done -> ~ flows_through fdir (d c) s) ->
       nth c irun 0%Z = 0%Z;
    r_low : forall c s, c < N -> In s done -> flows_through fdir (d c) s ->
       (forall t, In t done -> flows_through fdir (d c) t -> s <= t) -> (In c done -> c <= s) ->
       nth c irun 0%Z = lab s;
    r_own : forall c, c < N -> In c done ->
       (exists s, In s done /\ s <= c /\ flows_through fdir (d c) s) \/
       (forall s, In s done -> ~ flows_through fdir (d c) s) ->
       nth c irun 0%Z = lab c
  }.

  Lemma ups_down c : c < N -> ups (d c) <> [].
  Proof. intros H E. assert (X : In c (ups (d c))) by (apply in_ups; auto). rewrite E in X. exact X. Qed.

  Lemma rinv_step fuel done s vis irun : N < fuel -> s < N -> (forall t, In t done -> t < s) ->
    (forall t, In t done -> t < N) -> rinv done vis irun ->
    exists vis' irun',
      (iseg <- get strm s ;; irun1 <- set irun s iseg ;;
       irun_loop fuel (reversed fdir) iseg [Z.of_nat s] (map Z.of_nat vis) irun1)
      = Ok (map Z.of_nat vis', irun') /\ rinv (done ++ [s]) vis' irun'.
  Proof.
    intros HF Hs Hlt HdN I. destruct I as [I1 I2 I3 I4 I5].
    rewrite (get_nth strm 0%Z) by lia. cbn [bind]. rewrite set_lt by lia. cbn [bind].
    assert (CN := cnt_le vis).
    destruct (@irun_loop_spec (lab s) fuel [s] vis (upd irun s (lab s))) as [new [irun' [E [L [A [B [C D]]]]]]].
    { simpl. lia. } { now rewrite upd_length. } { intros c [<-|[]]; auto. }
    exists (vis ++ new), irun'. split; [exact E|].
    assert (NV : forall n, n < N -> (In n new <-> ups n <> [] /\ flows_through fdir n s /\
        (forall t, In t done -> ~ flows_through fdir n t))).
    { intros n Hn. split.
      - intros Hi. destruct (B _ Hi) as [B1 [B2 [s' [[<-|[]] Hf]]]]. split; [auto|split; [auto|]].
        intros t Ht Hft. apply B1. apply I2; auto. split; auto. exists t. auto.
      - intros [Hu [[k Hk] Hno]]. revert n Hn Hu Hk Hno. induction k as [|k IH]; intros n Hn Hu Hk Hno.
        + simpl in Hk. subst n. assert (X : In s (vis ++ new)) by (apply C; simpl; auto).
          apply in_app_iff in X. destruct X as [X|X]; auto. exfalso. apply I2 in X; auto.
          destruct X as [_ [t [Ht Hf]]]. exact (Hno t Ht Hf).
        + simpl in Hk. assert (Hd : d n < N) by (now apply down_lt).
          assert (X : In (d n) new).
          { apply IH; auto; [now apply ups_down|]. intros t Ht [j Hj]. apply (Hno t Ht). exists (S j). exact Hj. }
          assert (Y : In n (vis ++ new)) by (eapply D; eauto).
          apply in_app_iff in Y. destruct Y as [Y|Y]; auto. exfalso. apply I2 in Y; auto.
          destruct Y as [_ [t [Ht Hf]]]. exact (Hno t Ht Hf). }
    assert (NW : forall c, c < N -> (In (d c) new <-> flows_through fdir (d c) s /\
        (forall t, In t done -> ~ flows_through fdir (d c) t))).
    { intros c Hc. rewrite NV by (now apply down_lt). assert (X := ups_down Hc). tauto. }
    assert (A' : forall c, c < N -> ~ In (d c) new -> c <> s -> nth c irun' 0%Z = nth c irun 0%Z).
    { intros c Hc H1 H2. rewrite A by auto. destruct (in_dec Nat.eq_dec (d c) new); [contradiction|].
      apply nth_upd_neq. auto. }
    assert (A1 : forall c, c < N -> In (d c) new -> nth c irun' 0%Z = lab s).
    { intros c Hc H1. rewrite A by auto. destruct (in_dec Nat.eq_dec (d c) new); [auto|contradiction]. }
    constructor; auto.
    - intros n Hn. rewrite in_app_iff, I2, NV by auto. split.
      + intros [[Hu [t [Ht Hf]]]|[Hu [Hf _]]]; split; auto; [exists t|exists s]; rewrite in_app_iff; simpl; auto.
      + intros [Hu [t [Ht Hf]]].
        destruct (Exists_dec (fun t => flows_through fdir n t) done) as [X|X].
        { intros t'. destruct (existsb (fun k => Nat.eqb (downs fdir k n) t') (seq 0 (S N))) eqn:EE.
          - left. apply existsb_exists in EE. destruct EE as [k [_ EE]]. apply Nat.eqb_eq in EE. exists k; auto.
          - right. intros Hx. apply flows_bound in Hx; auto. destruct Hx as [k [Hk Hx]].
            assert (Y : existsb (fun k => Nat.eqb (downs fdir k n) t') (seq 0 (S N)) = true).
            { apply existsb_exists. exists k. split; [apply in_seq; lia|now apply Nat.eqb_eq]. }
            congruence. }
        * left. split; auto. apply Exists_exists in X. auto.
        * right. split; auto. assert (X' : forall t', In t' done -> ~ flows_through fdir n t').
          { intros t' H1 H2. apply X. apply Exists_exists. exists t'. auto. }
          split; auto. apply in_app_iff in Ht. destruct Ht as [Ht|[<-|[]]]; auto. exfalso; exact (X' _ Ht Hf).
    - intros c Hc Hni Hno. rewrite A'; auto.
      + apply I3; auto. { intros H; apply Hni, in_app_iff; auto. }
        intros t Ht. apply Hno, in_app_iff; auto.
      + rewrite NW by auto. intros [H _]. apply (Hno s); auto. apply in_app_iff; simpl; auto.
      + intros ->. apply Hni, in_app_iff; simpl; auto.
    - intros c t Hc Ht Hf Hmin Hown. apply in_app_iff in Ht. destruct Ht as [Ht|[<-|[]]].
      + rewrite A'; auto.
        * apply I4; auto. { intros t' H1. apply Hmin, in_app_iff; auto. }
          intros H. apply Hown, in_app_iff; auto.
        * rewrite NW by auto. intros [_ H]. exact (H t Ht Hf).
        * intros ->. assert (X : s <= t) by (apply Hown, in_app_iff; simpl; auto). specialize (Hlt t Ht). lia.
      + apply A1; auto. apply NW; auto. split; auto. intros t Ht Hft.
        assert (X : s <= t) by (apply Hmin; auto; apply in_app_iff; auto). specialize (Hlt t Ht). lia.
    - intros c Hc Hi Hor. apply in_app_iff in Hi. destruct Hi as [Hi|[<-|[]]].
      + assert (c < s) by auto. rewrite A'; auto; [|rewrite NW by auto|lia].
        * apply I5; auto. destruct Hor as [[t [Ht [Hle Hf]]]|Hno].
          -- left. apply in_app_iff in Ht. destruct Ht as [Ht|[<-|[]]]; [|lia]. exists t. auto.
          -- right. intros t Ht. apply Hno, in_app_iff; auto.
        * intros [H1 H2]. destruct Hor as [[t [Ht [Hle Hf]]]|Hno].
          -- apply in_app_iff in Ht. destruct Ht as [Ht|[<-|[]]]; [|lia]. exact (H2 t Ht Hf).
          -- apply (Hno s); auto. apply in_app_iff; simpl; auto.
      + rewrite A by auto. destruct (in_dec Nat.eq_dec (d s) new); auto. apply nth_upd_eq. lia.
  Qed.

  Lemma irunbnd_spec fuel : N < fuel ->
    exists out vis, irunbnd fuel fdir strm = Ok out /\ rinv (where_ (fun z => (0 <? z)%Z) strm) vis out.
  Proof.
    intros HF. unfold irunbnd.
    set (ws := where_ (fun z => (0 <? z)%Z) strm).
    assert (WL : forall c, In c ws -> c < N).
    { intros c Hc. apply in_where_nth with (d := 0%Z) in Hc. lia. }
    assert (WS : StronglySorted lt ws) by apply where_sorted.
    destruct (@foldM_inv _ _ (fun (vi : list Z * list Z) cell =>
        let '(visited, irun) := vi in
        iseg <- get strm cell ;;
        irun1 <- set irun cell iseg ;;
        irun_loop fuel (reversed fdir) iseg [Z.of_nat cell] visited irun1)
        (fun done vi => exists vis irun, vi = (map Z.of_nat vis, irun) /\ rinv done vis irun) ws)
      with (s := (@nil Z, repeat 0%Z (length strm))) as [[v out] [E [vis [irun [Hvi HI]]]]].
    - intros done x todo vi Hl [vis [irun [-> HI]]].
      assert (Hx : In x ws) by (rewrite Hl; apply in_app_iff; simpl; auto).
      destruct (@rinv_step fuel done x vis irun HF) as [vis' [irun' [E' HI']]]; auto.
      + intros t Ht. rewrite Hl in WS. clear - WS Ht. induction done as [|y done IH]; simpl in *; [contradiction|].
        inversion WS as [|? ? W1 W2]; subst. destruct Ht as [<-|Ht]; auto.
        rewrite Forall_forall in W2. apply W2, in_app_iff. simpl; auto.
      + intros t Ht. apply WL. rewrite Hl. apply in_app_iff; auto.
      + rewrite E'. eexists; split; eauto.
    - exists [], (repeat 0%Z (length strm)). split; auto. constructor; simpl; try contradiction.
      + now rewrite repeat_length.
      + intros n Hn. split; [contradiction|]. intros [_ [s [[] _]]].
      + intros c Hc _ _. apply nth_repeat.
    - inversion Hvi; subst. rewrite E. simpl. exists irun, vis. auto.
  Qed.
End R.
