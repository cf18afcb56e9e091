(** create_stream_vectors: the worklist loop on a segment graph. *)
From Verif Require Import Py Spec MFlow LGraph LTopo MStream LStream LSeg.
Set Implicit Arguments.
Unset Strict Implicit.
Local Open Scope nat_scope.
Local Open Scope list_scope.

Section Vec.
  Variables (t : topology) (nsr : list (Z * Z * Z)).
  Notation keys := (map fst t).
  Hypothesis NDt : NoDup keys.
  Hypothesis H0 : ~ In 0%Z keys.
  Hypothesis HT : forall s o, In (s, o) t -> o = 0%Z \/ In o keys.
  Hypothesis HR : forall s, In s keys -> rows_of nsr s <> [].

  Definition tt_ (s : Z) : Z := match dget Z.eqb t s with Some o => o | None => 0%Z end.
  Definition line (s : Z) : list Z :=
    rows_of nsr s ++ (if (tt_ s =? 0)%Z then [] else [hd 0%Z (rows_of nsr (tt_ s))]).
  Definition big (s : Z) : bool := 1 <? length (line s).

  Lemma tt_in s o : In (s, o) t -> tt_ s = o /\ dget Z.eqb t s = Some o.
  Proof.
    intros H. assert (X : dget Z.eqb t s = Some o).
    { clear H0 HT HR. induction t as [|[k v] t' IH]; simpl in *; [contradiction|]. inversion NDt; subst.
      destruct H as [H|H].
      - inversion H; subst. now rewrite Z.eqb_refl.
      - destruct (Z.eqb_spec s k) as [->|]; [|auto]. exfalso. apply H2. apply in_map_iff. exists (k, o). auto. }
    split; auto. unfold tt_. now rewrite X.
  Qed.

  Lemma key_in s : In s keys -> In (s, tt_ s) t.
  Proof. intros H. apply in_map_iff in H. destruct H as [[k o] [E H]]. simpl in E. subst k.
    destruct (tt_in H) as [-> _]. exact H. Qed.

  Lemma tt_key s : In s keys -> tt_ s <> 0%Z -> In (tt_ s) keys.
  Proof. intros H Hn. destruct (HT (key_in H)); [contradiction|auto]. Qed.

  Lemma big_tt s : In s keys -> tt_ s <> 0%Z -> big s = true.
  Proof. intros H Hn. unfold big, line. destruct (Z.eqb_spec (tt_ s) 0); [contradiction|].
    assert (X := HR H). destruct (rows_of nsr s); [contradiction|]. rewrite app_length. simpl. apply Nat.ltb_lt. lia. Qed.

  Definition push (s : Z) (processed stack : list Z) : list Z :=
    if (tt_ s =? 0)%Z then stack else if memz (tt_ s) processed then stack else stack ++ [tt_ s].

  Lemma body s processed stack (K : list Z * list Z -> res (list (Z * list Z))) : In s keys ->
    (dn <- dgetE Z.eqb t s ;;
     ' (nodes, stack) <-
       (if (dn =? 0)%Z then Ok (rows_of nsr s, stack)
        else first <- get (rows_of nsr dn) 0 ;;
             Ok (rows_of nsr s ++ [first], if memz dn processed then stack else stack ++ [dn])) ;;
     K (nodes, stack)) = K (line s, push s processed stack).
  Proof.
    intros H. destruct (tt_in (key_in H)) as [_ E]. unfold dgetE. rewrite E. cbn [bind]. unfold line, push.
    destruct (Z.eqb_spec (tt_ s) 0) as [|Hn]; cbn [bind]; [now rewrite app_nil_r|].
    assert (X := HR (tt_key H Hn)). destruct (rows_of nsr (tt_ s)) as [|r rs] eqn:Er; [contradiction|]. reflexivity.
  Qed.

  Definition heads0 : list Z := filter (fun k => negb (memz k (map snd t))) keys.

  Lemma in_heads h : In h heads0 <-> In h keys /\ forall s, ~ In (s, h) t.
  Proof.
    unfold heads0. rewrite filter_In, negb_true_iff, memz_false. split; intros [H1 H2]; split; auto.
    - intros s Hs. apply H2. apply in_map_iff. exists (s, h). auto.
    - intros Hi. apply in_map_iff in Hi. destruct Hi as [[s h'] [E Hi]]. simpl in E. subst h'. exact (H2 _ Hi).
  Qed.

  Definition unproc (processed : list Z) : nat := length (filter (fun k => negb (memz k processed)) keys).

  Lemma unproc_step p s : In s keys -> ~ In s p -> S (unproc (p ++ [s])) <= unproc p.
  Proof.
    unfold unproc. intros Hk Hp. clear H0 HT HR NDt.
    assert (M : forall ks, length (filter (fun k => negb (memz k (p ++ [s]))) ks) <= length (filter (fun k => negb (memz k p)) ks)).
    { induction ks as [|k ks IH]; simpl; auto. destruct (memz k p) eqn:E.
      - replace (memz k (p ++ [s])) with true; [exact IH|]. symmetry. apply memz_spec, in_app_iff. left. now apply memz_spec.
      - destruct (memz k (p ++ [s])); simpl; lia. }
    induction keys as [|k ks IH]; [destruct Hk|]. cbn [filter]. destruct (Z.eq_dec k s) as [->|Hn].
    - replace (memz s (p ++ [s])) with true by (symmetry; apply memz_spec, in_app_iff; simpl; auto).
      replace (memz s p) with false by (symmetry; now apply memz_false). simpl. specialize (M ks). lia.
    - destruct Hk as [?|Hk]; [contradiction|]. specialize (IH Hk). destruct (memz k p) eqn:E.
      + replace (memz k (p ++ [s])) with true; [exact IH|]. symmetry. apply memz_spec, in_app_iff. left. now apply memz_spec.
      + replace (memz k (p ++ [s])) with false; [simpl; lia|]. symmetry. apply memz_false. apply memz_false in E.
        rewrite in_app_iff. intros [X|[X|[]]]; auto.
  Qed.

  Record vinv (heads stack processed done : list Z) (vectors : list (Z * list Z)) : Prop := {
    v_heads : NoDup heads /\ incl heads heads0;
    v_hd : forall h, In h heads -> ~ In h done;
    v_all : forall h, In h heads0 -> In h heads \/ In h done;
    v_stack : stack = [] \/ exists s, stack = [s] /\ In s keys /\ ~ In s heads0 /\ (~ In s processed \/ tt_ s = s);
    v_done : forall s, In s done -> In s keys /\ exists h, In h heads0 /\ drains_into t h s;
    v_st : forall s, In s stack -> exists h, In h heads0 /\ drains_into t h s;
    v_closed : forall s, In s done -> tt_ s <> 0%Z -> In (tt_ s) done \/ In (tt_ s) stack;
    v_proc : forall s, In s processed <-> In s done /\ big s = true;
    v_vec : NoDup (map fst vectors) /\ forall s l, In (s, l) vectors <-> In s processed /\ l = line s
  }.

  Lemma drains_snoc a b : drains_into t a b -> In b keys -> tt_ b <> 0%Z -> drains_into t a (tt_ b).
  Proof. intros H Hb Hn. induction H as [b|a o b Hi H IH].
    - econstructor; [apply key_in, Hb|constructor].
    - econstructor; [exact Hi|auto]. Qed.

  Lemma dset_vec (v : list (Z * list Z)) s l : NoDup (map fst v) ->
    NoDup (map fst (dset Z.eqb v s l)) /\ forall s' l', In (s', l') (dset Z.eqb v s l) <-> (s' = s /\ l' = l) \/ (s' <> s /\ In (s', l') v).
  Proof.
    clear. induction v as [|[k x] v IH]; intros ND; simpl.
    - split; [repeat constructor; easy|]. intros s' l'. split; [intros [H|[]]; inversion H; auto|].
      intros [[-> ->]|[_ []]]; auto.
    - inversion ND; subst. destruct (IH H2) as [I1 I2]. destruct (Z.eqb_spec s k) as [->|Hn]; simpl.
      + split; [constructor; auto|]. intros s' l'. split.
        * intros [H|H]; [inversion H; auto|]. right. split; auto. intros ->. apply H1. apply in_map_iff. exists (k, l'). auto.
        * intros [[-> ->]|[Hk [H|H]]]; auto. inversion H; congruence.
      + split.
        * constructor; auto. intros Hi. apply in_map_iff in Hi. destruct Hi as [[a b] [E Hi]]. simpl in E. subst a.
          apply I2 in Hi. destruct Hi as [[-> _]|[_ Hi]]; [congruence|]. apply H1. apply in_map_iff. exists (k, b). auto.
        * intros s' l'. rewrite I2. split.
          -- intros [H|[H|H]]; auto. { inversion H; subst. auto. } tauto.
          -- intros [H|[H3 [H|H]]]; auto.
  Qed.

  (** one iteration preserves the invariant *)
  Lemma vstep heads0' stack0 seg heads stack processed done vectors :
    vinv heads0' stack0 processed done vectors ->
    (stack0 = seg :: stack /\ heads = heads0' \/ stack0 = [] /\ heads0' = seg :: heads /\ stack = []) ->
    In seg keys /\
    vinv heads (push seg processed stack) (if big seg then processed ++ [seg] else processed) (done ++ [seg])
      (if big seg then dset Z.eqb vectors seg (line seg) else vectors) /\
    length heads + 2 * unproc (if big seg then processed ++ [seg] else processed) + length (push seg processed stack)
      < length heads0' + 2 * unproc processed + length stack0.
  Proof.
    intros [[V1 V1'] V2 V3 V4 V5 V6 V7 V8 [V9 V9']] C.
    assert (SE : stack = []).
    { destruct C as [[-> _]|[_ [_ ->]]]; auto. destruct V4 as [E|[s [E _]]]; inversion E; auto. }
    assert (SEG : In seg keys /\ (exists h, In h heads0 /\ drains_into t h seg) /\ (~ In seg processed \/ tt_ seg = seg)).
    { destruct C as [[-> ->]|[-> [-> ->]]].
      - destruct V4 as [E|[s [E [H1 [H2 H3]]]]]; inversion E; subst. split; auto. split; auto. apply V6. now left.
      - assert (Hs : In seg heads0) by (apply V1'; now left). split; [apply in_heads in Hs; tauto|].
        split; [exists seg; split; auto; constructor|]. left. intros Hp. apply V8 in Hp. apply (V2 seg); [now left|tauto]. }
    destruct SEG as [HK [HD HP]]. split; auto.
    assert (HI : incl heads heads0) by (destruct C as [[_ ->]|[_ [-> _]]]; auto; intros x Hx; apply V1'; now right).
    assert (HND : NoDup heads) by (destruct C as [[_ ->]|[_ [-> _]]]; auto; now inversion V1).
    assert (HNS : ~ In seg heads).
    { destruct C as [[-> ->]|[_ [-> _]]]; [|now inversion V1].
      intros Hi. destruct V4 as [E|[s [E [H1 [H2 H3]]]]]; inversion E; subst. apply H2, V1', Hi. }
    assert (PR : forall s, In s (if big seg then processed ++ [seg] else processed) <-> In s (done ++ [seg]) /\ big s = true).
    { intros s. destruct (big seg) eqn:EB.
      - rewrite !in_app_iff, V8. simpl. split.
        + intros [[H1 H2]|[<-|[]]]; auto.
        + intros [[H1|[<-|[]]] H2]; auto.
      - rewrite V8, in_app_iff. simpl. split; [tauto|]. intros [[H1|[<-|[]]] H2]; auto. congruence. }
    assert (TC : forall s, push seg processed stack = [s] -> s = tt_ seg /\ tt_ seg <> 0%Z /\ ~ In (tt_ seg) processed).
    { intros s E. subst stack. unfold push in E. destruct (Z.eqb_spec (tt_ seg) 0); [discriminate|].
      destruct (memz (tt_ seg) processed) eqn:EM; [discriminate|]. simpl in E. apply memz_false in EM. inversion E. auto. }
    assert (PC : push seg processed stack = [] \/ push seg processed stack = [tt_ seg]).
    { subst stack. unfold push. destruct (_ =? 0)%Z; auto. destruct (memz _ _); auto. }
    split.
    - constructor.
      + split; auto.
      + intros h Hh Hi. apply in_app_iff in Hi. destruct Hi as [Hi|[<-|[]]]; [|contradiction].
        apply (V2 h); auto. destruct C as [[_ ->]|[_ [-> _]]]; auto. now right.
      + intros h Hh. rewrite in_app_iff. destruct (V3 h Hh) as [X|X]; auto.
        destruct C as [[_ ->]|[_ [-> _]]]; auto. destruct X as [<-|X]; simpl; auto.
      + destruct PC as [->|E]; [now left|]. right. destruct (TC _ E) as [_ [T1 T2]]. exists (tt_ seg). split; auto.
        split; [now apply tt_key|]. split.
        * intros Hh. apply in_heads in Hh. destruct Hh as [_ Hh]. apply (Hh seg). now apply key_in.
        * destruct (big seg); [|auto]. destruct (Z.eq_dec (tt_ seg) seg) as [Es|Es]; [right; now rewrite Es|left].
          rewrite in_app_iff. intros [X|[X|[]]]; auto.
      + intros s Hs. apply in_app_iff in Hs. destruct Hs as [Hs|[<-|[]]]; auto.
      + intros s Hs. destruct PC as [E|E]; rewrite E in Hs; [destruct Hs|]. destruct Hs as [<-|[]].
        destruct (TC _ E) as [_ [T1 T2]]. destruct HD as [h [Hh HD]]. exists h. split; auto. now apply drains_snoc.
      + intros s Hs Hn. rewrite in_app_iff. apply in_app_iff in Hs. destruct Hs as [Hs|[<-|[]]].
        * destruct (V7 s Hs Hn) as [X|X]; auto. destruct C as [[-> _]|[-> _]]; [|destruct X].
          subst stack. destruct X as [<-|[]]. left. right. now left.
        * subst stack. unfold push. destruct (Z.eqb_spec (tt_ seg) 0); [contradiction|].
          destruct (memz (tt_ seg) processed) eqn:EM; [|right; simpl; auto].
          apply memz_spec in EM. apply V8 in EM. tauto.
      + exact PR.
      + destruct (big seg); [|auto]. destruct (dset_vec seg (line seg) V9) as [D1 D2]. split; auto.
        intros s l. rewrite D2, V9', in_app_iff. simpl. split.
        * intros [[-> ->]|[Hn [H1 H2]]]; auto.
        * intros [[H1|[<-|[]]] H2]; auto. destruct (Z.eq_dec s seg) as [->|Hn]; auto.
    - subst stack. assert (LS : length stack0 + length heads0' = S (length heads)).
      { destruct C as [[-> ->]|[-> [-> _]]]; simpl; lia. }
      destruct HP as [HP|HP].
      + destruct (big seg) eqn:EB.
        * assert (U := @unproc_step processed seg HK HP). destruct PC as [->|E]; [|rewrite E]; simpl length; lia.
        * assert (PN : push seg processed [] = []).
          { destruct PC as [E|E]; auto. destruct (TC _ E) as [_ [T1 _]]. rewrite (big_tt HK T1) in EB. discriminate. }
          rewrite PN. simpl length. lia.
      + (* self loop: already processed, or processed now *)
        destruct (in_dec Z.eq_dec seg processed) as [Hi|Hi].
        * assert (PN : push seg processed [] = []).
          { destruct PC as [E|E]; auto. destruct (TC _ E) as [_ [_ T2]]. rewrite HP in T2. contradiction. }
          rewrite PN. simpl length. assert (M : unproc (if big seg then processed ++ [seg] else processed) <= unproc processed).
          { destruct (big seg); auto. unfold unproc. clear. induction keys as [|k ks IH]; simpl; auto.
            destruct (memz k processed) eqn:E.
            - replace (memz k (processed ++ [seg])) with true; [exact IH|]. symmetry. apply memz_spec, in_app_iff. left. now apply memz_spec.
            - destruct (memz k (processed ++ [seg])); simpl; lia. }
          lia.
        * destruct (big seg) eqn:EB.
          -- assert (U := @unproc_step processed seg HK Hi). destruct PC as [->|E]; [|rewrite E]; simpl length; lia.
          -- assert (PN : push seg processed [] = []).
             { destruct PC as [E|E]; auto. destruct (TC _ E) as [_ [T1 _]]. rewrite (big_tt HK T1) in EB. discriminate. }
             rewrite PN. simpl length. lia.
  Qed.

  Lemma vec_loop_spec fuel : forall heads stack processed done vectors,
    vinv heads stack processed done vectors ->
    length heads + 2 * unproc processed + length stack < fuel ->
    exists v processed' done', vec_loop fuel t nsr heads stack processed vectors = Ok v /\
      vinv [] [] processed' done' v.
  Proof.
    induction fuel as [|fuel IH]; intros heads stack processed done vectors I HF; [lia|].
    assert (ST : forall seg heads' stack',
      (stack = seg :: stack' /\ heads' = heads \/ stack = [] /\ heads = seg :: heads' /\ stack' = []) ->
      exists v processed' done',
        (dn <- dgetE Z.eqb t seg ;;
         ' (nodes, stack2) <-
            (if (dn =? 0)%Z then Ok (rows_of nsr seg, stack')
             else first <- get (rows_of nsr dn) 0 ;;
                  Ok (rows_of nsr seg ++ [first], if memz dn processed then stack' else stack' ++ [dn])) ;;
          if (1 <? length nodes)
          then vec_loop fuel t nsr heads' stack2 (processed ++ [seg]) (dset Z.eqb vectors seg nodes)
          else vec_loop fuel t nsr heads' stack2 processed vectors) = Ok v /\ vinv [] [] processed' done' v).
    { intros seg heads' stack' C. destruct (vstep I C) as [HK [I' M]].
      rewrite (@body seg processed stack' (fun p => let '(nodes, stack2) := p in
          if (1 <? length nodes)
          then vec_loop fuel t nsr heads' stack2 (processed ++ [seg]) (dset Z.eqb vectors seg nodes)
          else vec_loop fuel t nsr heads' stack2 processed vectors)) by auto.
      fold (big seg). destruct (big seg); apply IH with (done := done ++ [seg]); auto; lia. }
    cbn [vec_loop]. destruct stack as [|s st].
    - destruct heads as [|h hs].
      + exists vectors, processed, done. auto.
      + apply ST. right. auto.
    - apply ST. left. auto.
  Qed.

  (** the lines: one per segment that can be reached from a headwater segment and has a
      line of two cells or more *)
  Lemma vectors_spec fuel : 3 * length t < fuel ->
    exists v done, stream_vectors fuel t nsr = Ok v /\ NoDup (map fst v) /\
      (forall s l, In (s, l) v <-> In s done /\ big s = true /\ l = line s) /\
      (forall s, In s done <-> exists h, In h heads0 /\ drains_into t h s /\ s <> 0%Z) /\
      (forall h, In h heads0 -> In h done) /\
      (forall s, In s done -> tt_ s <> 0%Z -> In (tt_ s) done).
  Proof.
    intros HF. unfold stream_vectors. fold heads0.
    destruct (@vec_loop_spec fuel heads0 [] [] [] []) as [v [p [done [E I]]]].
    - constructor; simpl; auto; try easy.
      + split; [apply NoDup_filter; auto|apply incl_refl].
      + split; [constructor|]. intros s l. split; [easy|intros [[] _]].
    - assert (L1 : length heads0 <= length t).
      { unfold heads0. rewrite <- (map_length fst t). clear. induction (map fst t); simpl; auto. destruct negb; simpl; lia. }
      assert (L2 : unproc [] <= length t).
      { unfold unproc. rewrite <- (map_length fst t). generalize (fun k : Z => negb (memz k [])). clear. intros f. induction (map fst t); simpl; auto. destruct (f a); simpl; lia. }
      simpl length. lia.
    - destruct I as [_ V2 V3 _ V5 _ V7 V8 [V9 V9']]. exists v, done. split; auto. split; auto. split; [|split; [|split]].
      + intros s l. rewrite V9', V8. tauto.
      + intros s. split.
        * intros Hs. destruct (V5 s Hs) as [H1 [h [H2 H3]]]. exists h. split; auto. split; auto. intros ->. contradiction.
        * intros [h [Hh [HD Hn]]]. assert (Hd : In h done) by (destruct (V3 h Hh); [contradiction|auto]).
          revert Hd. clear Hh. induction HD as [s|a o b Hi HD IH]; auto. intros Ha. apply IH; auto.
          destruct (tt_in Hi) as [Ea _]. destruct (Z.eq_dec o 0) as [->|Ho].
          -- exfalso. inversion HD; subst; [congruence|]. apply H0. apply in_map_iff. exists (0%Z, o). auto.
          -- destruct (V7 a Ha) as [X|[]]; rewrite Ea in *; auto.
      + intros h Hh. destruct (V3 h Hh); [contradiction|auto].
      + intros s Hs Hn. destruct (V7 s Hs Hn) as [X|[]]; auto.
  Qed.
End Vec.
