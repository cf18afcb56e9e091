(** The stream objects of a session (MWorld.v) behave as the single objects of MSobj.v. *)
From Verif Require Import Py MFlow MDir MObj MStream MSobj MWorld LWorld LWorld2.
Set Implicit Arguments.
Unset Strict Implicit.
Local Open Scope nat_scope.
Local Open Scope list_scope.

Local Arguments w_graph_of : simpl never.
Local Arguments mbind : simpl never.

Section Sim.
  Context {T W : Type}.
  Notation heap := (@heap T W).
  Notation cell := (@cell T W).
  Notation flow := (@flow T).
  Variables (tsub tdiv : T -> T -> T) (tlt teq : T -> T -> bool) (tzero tbig : T).
  Variables (fone : T) (fabs : T -> T) (fsum : list T -> T) (fdiv : T -> T -> option T)
            (fle0 fkeep : T -> bool).
  Variable vge : Z + W -> Z + W -> bool.
  Variables (fuel lim : nat) (ncol : Z) (dist : nat -> nat -> T).

  Definition rep_graph (h : heap) (g : option (ref + ngraph)) (p : option ngraph) : Prop :=
    match g, p with
    | Some (inl r), Some p => exists t, get h r = Ok (CDict t) /\ p = some_graph t
    | Some (inr g), Some p => p = g
    | None, None => True
    | _, _ => False
    end.
  Definition rep_dict (h : heap) (r : option ref) (p : option topology) : Prop :=
    match r, p with Some r, Some t => get h r = Ok (CDict t) | None, None => True | _, _ => False end.

  (** in [h], the stream object [s] works on the flow directions [fdir] and accumulation [fa] and
      has the attributes [o] *)
  Definition srep (h : heap) (s : strm) (fdir : list Z) (fa : @facc W) (o : sobj) : Prop :=
    get h (s_fdir s) = Ok (CInts fdir) /\ get h (s_facc s) = Ok (CAcc fa) /\
    rep_ints h (s_strm s) (so_strm o) /\ rep_graph h (s_graph s) (so_graph o) /\
    rep_dict h (s_seg s) (so_seg o) /\ s_nsr s = so_nsr o.
  Definition same_base (s s' : strm) : Prop :=
    s_kind s' = s_kind s /\ s_fa s' = s_fa s /\ s_fdir s' = s_fdir s /\ s_facc s' = s_facc s.

  Lemma rep_graph_ext h h' g p : ext h h' -> rep_graph h g p -> rep_graph h' g p.
  Proof.
    intros E. unfold rep_graph. destruct g as [[r|g]|], p; auto. intros [t [A B]]. eauto.
  Qed.
  Lemma rep_dict_ext h h' g p : ext h h' -> rep_dict h g p -> rep_dict h' g p.
  Proof. intros E. unfold rep_dict. destruct g, p; auto. Qed.
  Lemma srep_ext h h' s d a o : ext h h' -> srep h s d a o -> srep h' s d a o.
  Proof.
    intros E (A & B & C & D & F & G).
    repeat split; eauto using rep_ints_ext, rep_graph_ext, rep_dict_ext.
  Qed.

  (** the contents, in [h], of the arrays passed to a call *)
  Definition res_ints (h : heap) (a : option ref) (l : option (list Z)) : Prop := rep_ints h a l.
  Definition resolves (h : heap) (c : @wcall W) (p : @scall (Z + W)) : Prop :=
    match c, p with
    | WDelineate t b, DelineateStreams t' b' =>
        match t, t' with
        | inl v, Scalar v' => v' = v
        | inr r, PerCell l => exists f, get h r = Ok (CAcc f) /\ l = fvals f
        | _, _ => False
        end /\ res_ints h b b'
    | WSetStreamArray a, SetStreamArray l => get h a = Ok (CInts l)
    | WStreamArray, StreamArray => True
    | WConnectivity a g, StreamConnectivity a' g' => res_ints h a a' /\ g' = g
    | WVectors a g, CreateStreamVectors a' g' => res_ints h a a' /\ g' = g
    | WConnectionData d, ConnectionData d' => rep_dict h d d'
    | WPackageData a, PackageData a' => res_ints h a a'
    | WSegmentData a g, SegmentData a' g' => res_ints h a a' /\ g' = g
    | WReachData a g, ReachData a' g' => res_ints h a a' /\ g' = g
    | WIrunbnd a d g, Irunbnd a' d' g' => res_ints h a a' /\ rep_dict h d d' /\ g' = g
    | WCascades a b m g, Cascades a' b' m' g' => res_ints h a a' /\ res_ints h b b' /\ m' = m /\ g' = g
    | _, _ => False
    end.

  (** what an answer shows when it is looked at in heap [h] *)
  Definition sshow (h : heap) (x : @wanswer T) : option (@sanswer T) :=
    match x with
    | ARef r => match get h r with
                | Ok (CInts l) => Some (AArray l)
                | Ok (CDict g) => Some (AGraph g)
                | _ => None
                end
    | APlain a | ALevels a _ => Some a
    | ANothing => Some ANone
    end.
  Definition sagrees (h : heap) (x : res wanswer) (y : res sanswer) : Prop :=
    match x, y with Ok a, Ok b => sshow h a = Some b | Err e, Err e' => e = e' | _, _ => False end.

  Lemma ext_app2 (h : heap) c d : ext h ((h ++ [c]) ++ [d]).
  Proof. eapply ext_trans; eapply ext_app. Qed.

  Lemma sim_pick h s d a o x x' : srep h s d a o -> res_ints h x x' ->
    match pick o x' with
    | Ok l => exists r, get h r = Ok (CInts l) /\ w_pick x h s = (h, s, Ok r)
    | Err e => w_pick x h s = (h, s, Err e)
    end.
  Proof. clear.
    intros (A & B & C & D & F & G) X. unfold w_pick, pick. rewrite do_this. unfold res_ints, rep_ints in *.
    destruct x as [r|], x' as [l|]; try tauto; eauto.
    destruct (s_strm s) as [r|], (so_strm o) as [l|]; try tauto; eauto.
  Qed.

  Lemma sim_run6 h s d a o x x' : srep h s d a o -> res_ints h x x' ->
    exists h' s', same_base s s' /\ ext h h' /\
    match run6 lim d o x' with
    | Ok (o', g) => exists r, w_run6 lim x h s = (h', s', Ok r) /\ srep h' s' d a o' /\ get h' r = Ok (CDict g)
    | Err e => w_run6 lim x h s = (h', s', Err e) /\ s' = s
    end.
  Proof. clear.
    intros R X. pose proof R as (A & B & C & D & F & G). unfold w_run6, run6. pose proof (sim_pick R X) as P.
    destruct (pick o x') as [l|e]; simpl.
    2:{ exists h, s. split; [repeat split|]. split; [apply ext_refl|]. now rewrite (mbind_err _ P). }
    destruct P as [r [P1 P2]]. rewrite (mbind_ok _ P2), do_this, (do_copy _ _ P1).
    rewrite (do_ints _ _ (get_app_new _ _)), (do_ints _ _ (get_app_old _ A)).
    destruct (mf6_connectivity lim d l) as [[s1 g]|e]; simpl.
    - rewrite do_ok, do_write, upd_app_new. cbn [fst snd]. rewrite do_alloc, do_store.
      eexists _, _. split; [|split]; [| |eexists; split; [reflexivity|split]].
      + repeat split.
      + apply ext_app2.
      + repeat split; simpl.
        * now apply ext_app2.
        * now apply ext_app2.
        * apply get_app_old, get_app_new.
        * exists g. split; auto. apply get_app_new.
        * eapply rep_dict_ext; eauto. apply ext_app2.
        * auto.
      + apply get_app_new.
    - rewrite do_err. eexists _, _. split; [|split]; [| |split; reflexivity]; [repeat split|apply ext_app].
  Qed.

  Lemma sim_run2005 h s d a o x x' b : srep h s d a o -> res_ints h x x' ->
    exists h' s', same_base s s' /\ ext h h' /\
    match run2005 lim fuel d o x' b with
    | Ok (o', m) => exists r, w_run2005 fuel lim x b h s = (h', s', Ok r) /\ srep h' s' d a o' /\
                              get h' r = Ok (CDict (m_seg m)) /\ s_seg s' = Some r
    | Err e => w_run2005 fuel lim x b h s = (h', s', Err e) /\ s' = s
    end.
  Proof. clear.
    intros R X. pose proof R as (A & B & C & D & F & G). unfold w_run2005, run2005. pose proof (sim_pick R X) as P.
    destruct (pick o x') as [l|e]; simpl.
    2:{ exists h, s. split; [repeat split|]. split; [apply ext_refl|]. now rewrite (mbind_err _ P). }
    destruct P as [r [P1 P2]]. rewrite (mbind_ok _ P2), do_this, (do_copy _ _ P1).
    rewrite (do_ints _ _ (get_app_new _ _)), (do_ints _ _ (get_app_old _ A)).
    destruct (mf2005_connectivity lim fuel b d l) as [m|e]; simpl.
    - rewrite do_ok, do_write, upd_app_new, do_alloc, do_alloc, do_store.
      assert (E3 : ext h (((h ++ [CInts (m_strm m)]) ++ [CInts (m_strm m)]) ++ [CDict (m_seg m)]))
        by (eapply ext_trans; [apply ext_app2|apply ext_app]).
      eexists _, _. split; [|split]; [| |eexists; split; [reflexivity|split]].
      + repeat split.
      + exact E3.
      + repeat split; simpl; auto.
        * apply get_app_old, get_app_new.
        * apply get_app_new.
      + split; [apply get_app_new|reflexivity].
    - rewrite do_err. eexists _, _. split; [|split]; [| |split; reflexivity]; [repeat split|apply ext_app].
  Qed.

  Lemma sim_graph h s d a o g p : srep h s d a o -> rep_graph h (Some g) (Some p) ->
    w_graph_of g h s = (h, s, Ok p).
  Proof.
    intros R X. unfold w_graph_of. destruct g as [r|g]; simpl in X.
    - destruct X as [t [E ->]]. now rewrite (do_dict _ _ E).
    - now subst.
  Qed.

  Notation step_of fdir fa sl fnb :=
    (scall_step vge fone fabs fsum fdiv fle0 fkeep lim fuel ncol fdir (fvals fa) sl fnb).
  Notation scall_in := (w_scall tsub tdiv tlt tzero tbig fone fabs fsum fdiv fle0 fkeep vge fuel lim ncol dist).

  (** the result of a call: the object after it and the answer are those of [p] *)
  Definition simulates (h : heap) (s : strm) (m : M strm wanswer) (d : list Z) (a : facc) (p : sobj * res sanswer) : Prop :=
    exists h' s' x, m h s = (h', s', x) /\ ext h h' /\ srep h' s' d a (fst p) /\ same_base s s' /\ sagrees h' x (snd p).

  Lemma same_base_refl s : same_base s s. Proof. repeat split. Qed.
  Lemma same_base_trans s1 s2 s3 : same_base s1 s2 -> same_base s2 s3 -> same_base s1 s3.
  Proof. intros (A & B & C & D) (A' & B' & C' & D'). repeat split; congruence. Qed.

  Lemma run2005_obj d o x b o' m : run2005 lim fuel d o x b = Ok (o', m) ->
    o' = SObj (Some (m_strm m)) (Some (m_graph m)) (Some (m_seg m)) (m_nsr m).
  Proof.
    unfold run2005. destruct (pick o x); simpl; [|discriminate].
    destruct (mf2005_connectivity lim fuel b d _); simpl; [|discriminate]. intros E. now inversion E.
  Qed.

  Ltac finish :=
    eexists _, _, _; split; [reflexivity|];
    split; [first [assumption|apply ext_refl|eapply ext_trans; eassumption]|];
    split; [first [eassumption|eapply srep_ext; eassumption]|];
    split; [first [assumption|apply same_base_refl]|]; simpl; auto.

  Lemma sim_vectors h s d a o x x' b : srep h s d a o -> res_ints h x x' ->
    simulates h s (w_vectors fuel lim x b) d a (do_vectors lim fuel d o x' b).
  Proof.
    intros R X. unfold w_vectors, do_vectors.
    assert (H : exists h1 x1, ext h h1 /\ res_ints h1 x1 x' /\
      (forall B (f : _ -> M strm B), mbind (match x with None => ret None | Some r => mbind (copy r) (fun r => ret (Some r)) end) f h s
                   = f x1 h1 s)).
    { unfold res_ints, rep_ints in *. destruct x as [r|], x' as [l|]; try tauto.
      - exists (h ++ [CInts l]), (Some (length h)). split; [apply ext_app|]. split; [apply get_app_new|].
        intros B f. now rewrite do_assoc, (do_copy _ _ X), do_ret.
      - exists h, None. split; [apply ext_refl|]. split; auto. }
    destruct H as [h1 [x1 [E1 [X1 H]]]]. unfold simulates. rewrite H. apply (srep_ext E1) in R.
    destruct (sim_run2005 b R X1) as (h2 & s2 & B2 & E2 & P).
    destruct (run2005 lim fuel d o x' b) as [[o' m]|e] eqn:Er; simpl.
    - pose proof (run2005_obj Er) as ->. destruct P as [g [P1 [P2 [P3 P4]]]].
      rewrite (mbind_ok _ P1), (do_dict _ _ P3), do_this.
      assert (Hn : s_nsr s2 = m_nsr m) by apply P2.
      rewrite Hn. destruct (stream_vectors fuel (m_seg m) (m_nsr m)) as [v|e]; simpl.
      + rewrite do_ok. finish.
      + rewrite do_err. finish.
    - destruct P as [P1 ->]. rewrite (mbind_err _ P1). finish.
  Qed.

  Lemma sim_conndata h s d a o x x' : srep h s d a o -> rep_dict h x x' ->
    simulates h s (w_conndata lim x) d a (do_conndata lim d o x').
  Proof.
    intros R X. pose proof R as (A & B & C & D & F & G). unfold simulates, w_conndata, do_conndata.
    destruct x as [r|], x' as [t|]; simpl in X; try tauto.
    - erewrite mbind_ok by (eapply sim_graph; [exact R|simpl; eauto]).
      destruct (connectiondata (some_graph t)); simpl; [rewrite do_ok|rewrite do_err]; finish.
    - rewrite do_assoc, do_this. destruct (s_graph s) as [g|] eqn:Eg, (so_graph o) as [p|] eqn:Ep; try (simpl in D; tauto).
      2:{ simpl in D. destruct g; tauto. }
      + erewrite mbind_ok by (eapply sim_graph; [exact R|exact D]).
        destruct (connectiondata p); simpl; [rewrite do_ok|rewrite do_err]; finish.
      + rewrite do_assoc. assert (X0 : res_ints h None None) by exact I.
        destruct (sim_run6 R X0) as (h2 & s2 & B2 & E2 & P).
        destruct (run6 lim d o None) as [[o' g]|e] eqn:Er; simpl.
        * destruct P as [r [P1 [P2 P3]]]. rewrite (mbind_ok _ P1).
          erewrite mbind_ok by (eapply sim_graph; [exact P2|simpl; eauto]).
          destruct (connectiondata (some_graph g)); simpl; [rewrite do_ok|rewrite do_err]; finish.
        * destruct P as [P1 ->]. rewrite (mbind_err _ P1). finish.
  Qed.

  Lemma sim_segs h s d a o x x' b : srep h s d a o -> res_ints h x x' ->
    exists h' s', same_base s s' /\ ext h h' /\
    match ensure_segs lim fuel d o x' b with
    | Ok (o', q) => w_segs fuel lim x b h s = (h', s', Ok q) /\ srep h' s' d a o'
    | Err e => w_segs fuel lim x b h s = (h', s', Err e) /\ s' = s
    end.
  Proof.
    intros R X. pose proof R as (A & B & C & D & F & G). unfold w_segs, ensure_segs. pose proof (sim_pick R X) as P.
    destruct (pick o x') as [l|e]; simpl.
    2:{ exists h, s. split; [repeat split|]. split; [apply ext_refl|]. now rewrite (mbind_err _ P). }
    destruct P as [r [P1 P2]]. rewrite (mbind_ok _ P2), do_this. unfold rep_dict in F.
    destruct (s_seg s) as [g|] eqn:Eg, (so_seg o) as [t|] eqn:Et; try tauto.
    - rewrite (do_dict _ _ F), G. exists h, s. split; [repeat split|]. split; [apply ext_refl|]. split; auto.
    - assert (X1 : res_ints h (Some r) (Some l)) by exact P1.
      destruct (sim_run2005 b R X1) as (h2 & s2 & B2 & E2 & Q). exists h2, s2. split; [exact B2|]. split; [exact E2|].
      destruct (run2005 lim fuel d o (Some l) b) as [[o' m]|e] eqn:Er; simpl.
      + pose proof (run2005_obj Er) as ->. destruct Q as [g [Q1 [Q2 [Q3 Q4]]]].
        rewrite (mbind_ok _ Q1), (do_dict _ _ Q3), do_this.
        assert (Hn : s_nsr s2 = m_nsr m) by apply Q2. rewrite Hn. split; auto.
      + destruct Q as [Q1 Q2]. rewrite (mbind_err _ Q1). auto.
  Qed.

  Lemma sim_segdata h s d a o x x' b : srep h s d a o -> res_ints h x x' ->
    simulates h s (w_segdata fuel lim x b) d a (do_segdata lim fuel d o x' b).
  Proof.
    intros R X. unfold simulates, w_segdata, do_segdata.
    destruct (sim_segs b R X) as (h2 & s2 & B2 & E2 & P). destruct (ensure_segs lim fuel d o x' b) as [[o' q]|e]; simpl.
    - destruct P as [P1 P2]. rewrite (mbind_ok _ P1). finish.
    - destruct P as [P1 ->]. rewrite (mbind_err _ P1). finish.
  Qed.

  Lemma sim_reachdata h s d a o x x' b tr top : srep h s d a o -> res_ints h x x' -> get h tr = Ok (CElevs top) ->
    simulates h s (w_reachdata fuel lim ncol (Some tr) x b) d a (do_reachdata lim fuel ncol d o x' b).
  Proof.
    intros R X Ht. unfold simulates, w_reachdata, do_reachdata.
    destruct (sim_segs b R X) as (h2 & s2 & B2 & E2 & P). destruct (ensure_segs lim fuel d o x' b) as [[o' q]|e]; simpl.
    - destruct P as [P1 P2]. rewrite (mbind_ok _ P1). unfold w_top. rewrite (do_elevs _ _ (E2 _ _ Ht)).
      destruct (reach_data ncol (fst q) (snd q)); simpl; [rewrite do_ok|rewrite do_err]; finish.
    - destruct P as [P1 ->]. rewrite (mbind_err _ P1). finish.
  Qed.

  Lemma sim_pkgdata h s d a o x x' tr top : srep h s d a o -> res_ints h x x' -> get h tr = Ok (CElevs top) ->
    simulates h s (w_pkgdata lim (Some tr) x) d a (do_pkgdata lim d o x').
  Proof.
    intros R X Ht. pose proof R as (A & B & C & D & F & G). unfold simulates, w_pkgdata, do_pkgdata.
    destruct x as [r|], x' as [l|]; simpl in X; try tauto.
    - assert (X1 : res_ints h (Some r) (Some l)) by exact X.
      rewrite do_assoc. destruct (sim_run6 R X1) as (h2 & s2 & B2 & E2 & P).
      destruct (run6 lim d o (Some l)) as [[o' g]|e] eqn:Er; simpl.
      + destruct P as [rg [P1 [P2 P3]]]. rewrite (mbind_ok _ P1), do_assoc.
        erewrite mbind_ok by (eapply sim_graph; [exact P2|simpl; eauto]).
        rewrite do_assoc, (do_ints _ _ (E2 _ _ X)), do_ret. unfold w_top. rewrite (do_elevs _ _ (E2 _ _ Ht)). cbn [fst snd].
        destruct (packagedata (some_graph g) l); simpl; [rewrite do_ok|rewrite do_err]; finish.
      + destruct P as [P1 ->]. rewrite (mbind_err _ P1). finish.
    - rewrite do_assoc, do_this, do_assoc.
      assert (Tail : forall h1 s1 o1 p, ext h h1 -> same_base s s1 -> srep h1 s1 d a o1 ->
        simulates h s (fun _ _ => mbind (mbind (w_pick None) (fun r => mbind (copy r) (fun r' => mbind (ints r') (fun l => ret (p, l)))))
             (fun q => mbind (w_top (Some tr)) (fun top => mbind (liftr (packagedata (fst q) (snd q)))
                (fun recs => ret (ALevels (APkg recs) (map (fun p => nth (p_node p) top None) recs))))) h1 s1) d a
          (lift o1 (s <- pick o1 None ;; packagedata p s) (@APkg T))).
      { intros h1 s1 o1 p E1 B1 R1. unfold simulates, lift. rewrite do_assoc.
        assert (X0 : res_ints h1 None None) by exact I. pose proof (sim_pick R1 X0) as Q.
        destruct (pick o1 None) as [l|e]; simpl.
        - destruct Q as [rr [Q1 Q2]]. rewrite (mbind_ok _ Q2), do_assoc, (do_copy _ _ Q1), do_assoc, (do_ints _ _ (get_app_new _ _)), do_ret.
          unfold w_top. rewrite (do_elevs _ _ (get_app_old _ (E1 _ _ Ht))). cbn [fst snd].
          assert (E1' : ext h (h1 ++ [CInts l])) by (eapply ext_trans; [exact E1|apply ext_app]).
          assert (R1' : srep (h1 ++ [CInts l]) s1 d a o1) by (eapply srep_ext; [apply ext_app|exact R1]).
          destruct (packagedata p l); simpl; [rewrite do_ok|rewrite do_err]; finish.
        - rewrite (mbind_err _ Q). finish. }
      destruct (s_graph s) as [g|] eqn:Eg, (so_graph o) as [p|] eqn:Ep; try (simpl in D; tauto).
      2:{ simpl in D. destruct g; tauto. }
      + erewrite mbind_ok by (eapply sim_graph; [exact R|exact D]).
        apply (Tail h s o p (@ext_refl T W h) (same_base_refl _) R).
      + rewrite do_assoc. assert (X0 : res_ints h None None) by exact I.
        destruct (sim_run6 R X0) as (h2 & s2 & B2 & E2 & P).
        destruct (run6 lim d o None) as [[o' g]|e] eqn:Er; simpl.
        * destruct P as [r [P1 [P2 P3]]]. rewrite (mbind_ok _ P1).
          erewrite mbind_ok by (eapply sim_graph; [exact P2|simpl; eauto]).
          apply (Tail h2 s2 o' (some_graph g) E2 B2 P2).
        * destruct P as [P1 ->]. rewrite (mbind_err _ P1). finish.
  Qed.

  Lemma sim_irunbnd h s d a o x x' g g' b : srep h s d a o -> res_ints h x x' -> rep_dict h g g' ->
    simulates h s (w_irunbnd fuel lim x g b) d a (do_irunbnd lim fuel d o x' g' b).
  Proof.
    intros R X XG. pose proof R as (A & B & C & D & F & G). unfold simulates, w_irunbnd, do_irunbnd.
    pose proof (sim_pick R X) as P. destruct (pick o x') as [l|e]; simpl.
    2:{ rewrite (mbind_err _ P). finish. }
    destruct P as [r [P1 P2]]. rewrite (mbind_ok _ P2), do_this.
    assert (Tail : forall h1 s1 o1 r1 l1, ext h h1 -> same_base s s1 -> srep h1 s1 d a o1 -> get h1 r1 = Ok (CInts l1) ->
      simulates h s (fun _ _ => mbind (copy r1) (fun r' => mbind (ints r') (fun l => mbind (ints (s_fdir s)) (fun fdir =>
          mbind (liftr (irunbnd fuel fdir l)) (fun out => mbind (alloc (CInts out)) (fun o => ret (@ARef T o)))))) h1 s1) d a
        (lift o1 (irunbnd fuel d l1) (@AArray T))).
    { intros h1 s1 o1 r1 l1 E1 B1 R1 H1. unfold simulates, lift.
      rewrite (do_copy _ _ H1), (do_ints _ _ (get_app_new _ _)), (do_ints _ _ (get_app_old _ (E1 _ _ A))).
      destruct (irunbnd fuel d l1) as [out|e]; simpl.
      - rewrite do_ok, do_alloc. eexists _, _, _. split; [reflexivity|].
        assert (E2 : ext h1 ((h1 ++ [CInts l1]) ++ [CInts out])) by apply ext_app2.
        split; [eapply ext_trans; eauto|]. split; [eapply srep_ext; eauto|]. split; [exact B1|].
        simpl. now rewrite get_app_new.
      - rewrite do_err. eexists _, _, _. split; [reflexivity|]. split; [eapply ext_trans; [exact E1|apply ext_app]|].
        split; [eapply srep_ext; [apply ext_app|exact R1]|]. split; [exact B1|]. reflexivity. }
    assert (Plain : simulates h s (fun _ _ => mbind (ret r) (fun r => mbind (copy r) (fun r' => mbind (ints r') (fun l => mbind (ints (s_fdir s)) (fun fdir =>
          mbind (liftr (irunbnd fuel fdir l)) (fun out => mbind (alloc (CInts out)) (fun o => ret (@ARef T o))))))) h s) d a
        (lift o (irunbnd fuel d l) (@AArray T))).
    { unfold simulates. rewrite do_ret. apply (Tail h s o r l (@ext_refl T W h) (same_base_refl _) R P1). }
    unfold rep_dict in XG, F. destruct g as [rg|], g' as [t|]; try tauto; try exact Plain.
    destruct (s_seg s) as [rs|] eqn:Es, (so_seg o) as [t|] eqn:Et; try tauto; try exact Plain.
    rewrite do_assoc. assert (X1 : res_ints h (Some r) (Some l)) by exact P1.
    destruct (sim_run2005 b R X1) as (h2 & s2 & B2 & E2 & Q).
    destruct (run2005 lim fuel d o (Some l) b) as [[o' m]|e] eqn:Er; simpl.
    - pose proof (run2005_obj Er) as ->. destruct Q as [rg [Q1 [Q2 [Q3 Q4]]]]. rewrite (mbind_ok _ Q1).
      assert (X0 : res_ints h2 None None) by exact I. pose proof (sim_pick Q2 X0) as Q. simpl in Q.
      destruct Q as [r1 [K1 K2]]. rewrite (mbind_ok _ K2). apply (Tail h2 s2 _ r1 (m_strm m) E2 B2 Q2 K1).
    - destruct Q as [Q1 ->]. rewrite (mbind_err _ Q1). finish.
  Qed.

  Lemma sim_prms h s d a o x x' b : srep h s d a o -> res_ints h x x' ->
    exists h' s', same_base s s' /\ ext h h' /\
    match prms_connect lim fuel d o x' b with
    | Ok (o', g) => exists r, w_prms_connect fuel lim x b h s = (h', s', Ok r) /\ srep h' s' d a o' /\ get h' r = Ok (CDict g)
    | Err e => w_prms_connect fuel lim x b h s = (h', s', Err e) /\ s' = s
    end.
  Proof.
    intros R X. unfold prms_connect, w_prms_connect. destruct b; [|now apply sim_run6].
    destruct (sim_run2005 true R X) as (h2 & s2 & B2 & E2 & Q). exists h2, s2. split; [exact B2|]. split; [exact E2|].
    destruct (run2005 lim fuel d o x' true) as [[o' m]|e]; simpl; auto.
    destruct Q as [r [Q1 [Q2 [Q3 _]]]]. eauto.
  Qed.

  Lemma cascades_masked {F} (one : F) d l bl masked : mask_fdir d bl = Ok masked ->
    cascades_one one d l bl = cascades_one one masked l None.
  Proof. intros E. unfold cascades_one, many_to_one. now rewrite E. Qed.
  Lemma cascades_many_masked d l bl masked sl fnb : mask_fdir d bl = Ok masked ->
    cascades_many fone fabs fsum fdiv fle0 fkeep d l bl sl fnb =
    cascades_many fone fabs fsum fdiv fle0 fkeep masked l None sl fnb.
  Proof. intros E. unfold cascades_many, many_to_many. now rewrite E. Qed.

  Lemma sim_cascades h s d a o x x' bs bs' many b fa dem : srep h s d a o -> res_ints h x x' -> res_ints h bs bs' ->
    get h (f_dem fa) = Ok (CElevs dem) ->
    simulates h s (w_cascades tsub tdiv tlt tzero tbig fone fabs fsum fdiv fle0 fkeep fuel lim dist (Some fa) x bs many b) d a
      (do_cascades fone fabs fsum fdiv fle0 fkeep lim fuel d
         (w_slopes tsub tdiv tlt tzero tbig dist fa dem) (w_fnb fa dem) o x' bs' many b).
  Proof.
    intros R X XB Hd. pose proof R as (A & B & C & D & F & G). unfold simulates, w_cascades, do_cascades.
    assert (H : match pick o x' with
                | Ok l => exists h1 r, ext h h1 /\ get h1 r = Ok (CInts l) /\
                    forall K (f : _ -> M strm K), mbind (match x with Some a => ret a | None => mbind (w_pick None) (fun r => copy r) end) f h s = f r h1 s
                | Err e => forall K (f : _ -> M strm K), mbind (match x with Some a => ret a | None => mbind (w_pick None) (fun r => copy r) end) f h s = (h, s, Err e)
                end).
    { pose proof (sim_pick R X) as P. destruct (pick o x') as [l|e] eqn:Epk.
      - destruct P as [r [P1 P2]]. destruct x as [rx|].
        + assert (rx = r) as -> by (unfold w_pick in P2; rewrite do_this in P2; now inversion P2).
          exists h, r. split; [apply ext_refl|]. split; auto.
        + exists (h ++ [CInts l]), (length h). split; [apply ext_app|]. split; [apply get_app_new|].
          intros K f. rewrite do_assoc, (mbind_ok _ P2), (do_copy _ _ P1). reflexivity.
      - intros K f. destruct x as [rx|]; [unfold w_pick in P; rewrite do_this in P; discriminate|].
        now rewrite do_assoc, (mbind_err _ P). }
    destruct (pick o x') as [l|e].
    2:{ rewrite H. finish. }
    destruct H as (h1 & r & E1 & H1 & H). rewrite H. clear H. rewrite do_this.
    assert (R1 : srep h1 s d a o) by (eapply srep_ext; eauto).
    assert (Tail : forall h2 s2 o2 r2 l2, ext h h2 -> same_base s s2 -> srep h2 s2 d a o2 -> get h2 r2 = Ok (CInts l2) ->
      simulates h s (fun _ _ => mbind (copy r2) (fun r' => mbind (ints r') (fun l => mbind (opt_ints bs) (fun bl =>
         mbind (copy (s_fdir s)) (fun f' => mbind (ints f') (fun fdir => mbind (liftr (mask_fdir fdir bl)) (fun masked =>
         mbind (write f' (CInts masked)) (fun _ => mbind (ints f') (fun fdir =>
         mbind (if many then mbind (elevs (f_dem fa)) (fun dem => liftr (cascades_many fone fabs fsum fdiv fle0 fkeep fdir l None
                    (w_slopes tsub tdiv tlt tzero tbig dist fa dem) (w_fnb fa dem)))
                else liftr (cascades_one (Some fone) fdir l None)) (fun c => ret (APlain (ACasc c))))))))))) h2 s2) d a
       (lift o2 (if many then cascades_many fone fabs fsum fdiv fle0 fkeep d l2 bs' (w_slopes tsub tdiv tlt tzero tbig dist fa dem) (w_fnb fa dem)
                 else cascades_one (Some fone) d l2 bs') (@ACasc T))).
    { intros h2 s2 o2 r2 l2 E2 B2 R2 H2. unfold simulates, lift. rewrite (do_copy _ _ H2), (do_ints _ _ (get_app_new _ _)).
      assert (HB : forall K (f : _ -> M strm K), mbind (opt_ints bs) f (h2 ++ [CInts l2]) s2 = f bs' (h2 ++ [CInts l2]) s2).
      { intros K f. unfold opt_ints. unfold res_ints, rep_ints in XB. destruct bs as [rb|], bs' as [bl|]; try tauto; auto.
        rewrite do_assoc, (do_ints _ _ (get_app_old _ (E2 _ _ XB))). reflexivity. }
      rewrite HB, (do_copy _ _ (get_app_old _ (E2 _ _ A))), (do_ints _ _ (get_app_new _ _)).
      assert (K1 : forall c1 c2, ext h ((h2 ++ [c1]) ++ [c2])) by (intros; eapply ext_trans; [exact E2|apply ext_app2]).
      assert (K2 : forall c1 c2, srep ((h2 ++ [c1]) ++ [c2]) s2 d a o2) by (intros; eapply srep_ext; [apply ext_app2|exact R2]).
      destruct (mask_fdir d bs') as [masked|e] eqn:Em.
      - rewrite do_ok, do_write, upd_app_new, (do_ints _ _ (get_app_new _ _)).
        rewrite (cascades_many_masked _ _ _ Em), (cascades_masked _ _ Em).
        destruct many.
        + rewrite do_assoc, (do_elevs _ _ (K1 _ _ _ _ Hd)).
          match goal with |- context [cascades_many ?a ?b ?c ?e ?f ?g ?i ?j ?k ?l ?m] =>
            destruct (cascades_many a b c e f g i j k l m) end; simpl; [rewrite do_ok|rewrite do_err];
          (eexists _, _, _; split; [reflexivity|]; split; [apply K1|]; split; [apply K2|]; split; [exact B2|]; simpl; auto).
        + destruct (cascades_one (Some fone) masked l2 None); simpl; [rewrite do_ok|rewrite do_err];
          (eexists _, _, _; split; [reflexivity|]; split; [apply K1|]; split; [apply K2|]; split; [exact B2|]; simpl; auto).
      - rewrite do_err. eexists _, _, _; split; [reflexivity|]; split; [apply K1|]; split; [apply K2|]; split; [exact B2|].
        simpl. unfold cascades_many, many_to_many, cascades_one, many_to_one. rewrite Em. destruct many; reflexivity. }
    unfold rep_graph in D. destruct (s_graph s) as [g|] eqn:Eg, (so_graph o) as [p|] eqn:Ep.
    - rewrite do_ret. apply (Tail h1 s o r l E1 (same_base_refl _) R1 H1).
    - destruct g; tauto.
    - tauto.
    - rewrite do_assoc. assert (X1 : res_ints h1 (Some r) (Some l)) by exact H1.
      destruct (sim_prms b R1 X1) as (h2 & s2 & B2 & E2 & Q).
      destruct (prms_connect lim fuel d o (Some l) b) as [[o' g]|e] eqn:Er; cbn [andthen].
      + destruct Q as [rg [Q1 [Q2 Q3]]]. rewrite (mbind_ok _ Q1).
        assert (X0 : res_ints h2 None None) by exact I. pose proof (sim_pick Q2 X0) as Q.
        destruct (pick o' None) as [l2|e].
        * destruct Q as [r1 [K1 K2]]. rewrite do_assoc, (mbind_ok _ K2), (do_copy _ _ K1).
          apply (Tail (h2 ++ [CInts l2]) s2 o' (length h2) l2); auto.
          -- eapply ext_trans; [exact E1|]. eapply ext_trans; [exact E2|apply ext_app].
          -- eapply srep_ext; [apply ext_app|exact Q2].
          -- apply get_app_new.
        * rewrite do_assoc, (mbind_err _ Q). finish.
      + destruct Q as [Q1 ->]. rewrite (mbind_err _ Q1). finish.
  Qed.

  Lemma sim_delineate h s d a o t t' b b' : srep h s d a o -> resolves h (WDelineate t b) (DelineateStreams t' b') ->
    simulates h s (mbind (w_delineate vge t b) (fun r => ret (ARef r))) d a (do_delineate vge (fvals a) o t' b').
  Proof.
    intros R [XT XB]. pose proof R as (A & B & C & D & F & G). unfold simulates, w_delineate, do_delineate.
    rewrite do_assoc, do_this, do_assoc.
    assert (HT : forall K (f : _ -> M strm K), mbind (w_threshold t) f h s = f t' h s).
    { intros K f. unfold w_threshold. destruct t as [v|r], t' as [v'|l]; try tauto.
      - now subst.
      - destruct XT as [fc [E ->]]. now rewrite do_assoc, (do_accs _ _ E). }
    rewrite HT, do_assoc, (do_accs _ _ B), do_assoc.
    destruct (delineate_streams vge (fvals a) t' None) as [l0|e] eqn:E0.
    2:{ rewrite do_err. assert (Eb : delineate_streams vge (fvals a) t' b' = Err e).
        { unfold delineate_streams in *. destruct (above vge (fvals a) t'); simpl in *; congruence. }
        rewrite Eb. finish. }
    rewrite do_ok, do_assoc, do_alloc, do_assoc.
    unfold res_ints, rep_ints in XB. destruct b as [rb|], b' as [bl|]; try tauto.
    - rewrite do_assoc, (do_ints _ _ (get_app_old _ XB)), do_assoc.
      destruct (delineate_streams vge (fvals a) t' (Some bl)) as [out|e].
      + rewrite do_ok, do_write, upd_app_new, do_assoc, do_store, do_ret. eexists _, _, _. split; [reflexivity|].
        split; [apply ext_app|]. split.
        * repeat split; simpl; auto using get_app_old, get_app_new.
          -- eapply rep_graph_ext; eauto using ext_app.
          -- eapply rep_dict_ext; eauto using ext_app.
        * split; [repeat split|]. simpl. now rewrite get_app_new.
      + rewrite do_err. eexists _, _, _. split; [reflexivity|].
        split; [apply ext_app|]. split; [eapply srep_ext; eauto using ext_app|]. split; [repeat split|]. reflexivity.
    - rewrite do_ret, do_assoc, do_store, do_ret. rewrite E0. eexists _, _, _. split; [reflexivity|].
      split; [apply ext_app|]. split.
      + repeat split; simpl; auto using get_app_old, get_app_new.
        * eapply rep_graph_ext; eauto using ext_app.
        * eapply rep_dict_ext; eauto using ext_app.
      + split; [repeat split|]. simpl. now rewrite get_app_new.
  Qed.

  (** the arrays a call reads besides the object's own: the modelgrid top and, for PrmsStreams, the
      elevations of the FlowDirections object it keeps *)
  Theorem sim_scall k h s d a o c p tr top fa dem : srep h s d a o -> resolves h c p ->
    get h tr = Ok (CElevs top) -> get h (f_dem fa) = Ok (CElevs dem) ->
    simulates h s (scall_in k (Some tr) (Some fa) c) d a
      (step_of d a (w_slopes tsub tdiv tlt tzero tbig dist fa dem) (w_fnb fa dem) k o p).
  Proof.
    intros R X Ht Hd.
    assert (Bad : simulates h s (fail AttributeError) d a (o, Err AttributeError)).
    { unfold simulates. eexists _, _, _. split; [reflexivity|]. split; [apply ext_refl|]. split; [exact R|]. split; [repeat split|]. reflexivity. }
    assert (Conn6 : forall x x', res_ints h x x' ->
      simulates h s (mbind (w_run6 lim x) (fun g => ret (ARef g))) d a (andthen o (run6 lim d o x') (fun o g => (o, Ok (AGraph g))))).
    { intros x x' X'. unfold simulates. destruct (sim_run6 R X') as (h2 & s2 & B2 & E2 & P).
      destruct (run6 lim d o x') as [[o' g]|e]; simpl.
      - destruct P as [r [P1 [P2 P3]]]. rewrite (mbind_ok _ P1). eexists _, _, _. split; [reflexivity|].
        split; [exact E2|]. split; [exact P2|]. split; [exact B2|]. simpl. now rewrite P3.
      - destruct P as [P1 ->]. rewrite (mbind_err _ P1). finish. }
    assert (Conn5 : forall x x' b, res_ints h x x' ->
      simulates h s (mbind (w_run2005 fuel lim x b) (fun g => ret (ARef g))) d a (andthen o (run2005 lim fuel d o x' b) (fun o m => (o, Ok (AGraph (m_seg m)))))).
    { intros x x' b X'. unfold simulates. destruct (sim_run2005 b R X') as (h2 & s2 & B2 & E2 & P).
      destruct (run2005 lim fuel d o x' b) as [[o' m]|e]; simpl.
      - destruct P as [r [P1 [P2 [P3 _]]]]. rewrite (mbind_ok _ P1). eexists _, _, _. split; [reflexivity|].
        split; [exact E2|]. split; [exact P2|]. split; [exact B2|]. simpl. now rewrite P3.
      - destruct P as [P1 ->]. rewrite (mbind_err _ P1). finish. }
    assert (ConnP : forall x x' b, res_ints h x x' ->
      simulates h s (mbind (w_prms_connect fuel lim x b) (fun g => ret (ARef g))) d a (andthen o (prms_connect lim fuel d o x' b) (fun o g => (o, Ok (AGraph g))))).
    { intros x x' b X'. unfold simulates. destruct (sim_prms b R X') as (h2 & s2 & B2 & E2 & P).
      destruct (prms_connect lim fuel d o x' b) as [[o' g]|e]; simpl.
      - destruct P as [r [P1 [P2 P3]]]. rewrite (mbind_ok _ P1). eexists _, _, _. split; [reflexivity|].
        split; [exact E2|]. split; [exact P2|]. split; [exact B2|]. simpl. now rewrite P3.
      - destruct P as [P1 ->]. rewrite (mbind_err _ P1). finish. }
    assert (Arr : simulates h s (mbind (w_pick None) (fun r => mbind (copy r) (fun r' => ret (ARef r')))) d a (lift o (pick o None) (@AArray T))).
    { unfold simulates, lift. assert (X0 : res_ints h None None) by exact I. pose proof (sim_pick R X0) as P.
      destruct (pick o None) as [l|e]; simpl.
      - destruct P as [r [P1 P2]]. rewrite (mbind_ok _ P2), (do_copy _ _ P1). eexists _, _, _. split; [reflexivity|].
        split; [apply ext_app|]. split; [eapply srep_ext; eauto using ext_app|]. split; [repeat split|]. simpl. now rewrite get_app_new.
      - rewrite (mbind_err _ P). finish. }
    assert (SetA : forall r l, get h r = Ok (CInts l) ->
      simulates h s (mbind (w_set r) (fun _ => ret ANothing)) d a (do_set d o l)).
    { intros r l E. pose proof R as (A & B & C & D & F & G). unfold simulates, w_set, do_set.
      rewrite do_assoc, do_this, do_assoc, (do_ints _ _ E), do_assoc, (do_ints _ _ A).
      destruct (negb (Nat.eqb (length l) (length d))).
      - rewrite do_fail. finish.
      - rewrite do_store. eexists _, _, _. split; [reflexivity|]. split; [apply ext_refl|].
        split; [repeat split; simpl; auto|]. split; [repeat split|]. reflexivity. }
    destruct c, p; simpl in X; try tauto; destruct k; cbn [w_scall scall_step]; try exact Bad;
      repeat match goal with H : _ /\ _ |- _ => destruct H end; subst;
      try exact Arr; try (apply SetA; assumption); try (apply Conn6; assumption); try (apply Conn5; assumption);
      try (apply ConnP; assumption);
      eauto using sim_vectors, sim_conndata, sim_segdata, sim_reachdata, sim_pkgdata, sim_irunbnd, sim_cascades.
    all: apply sim_delineate; auto; split; auto.
  Qed.
End Sim.
