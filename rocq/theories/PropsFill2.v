(** C09: what the fill with a stream mask guarantees along the stream line: every stream cell with
    two or more stream neighbours has one that is at most eps higher; no stream cell is a pit when
    eps = 0 (method 'complete'). *)
From Coq Require Import String.
From Verif Require Import Py Spec MHeap LHeap MFill LFill LFill3 Grids.
Set Implicit Arguments.
Unset Strict Implicit.
Local Open Scope nat_scope.
Local Open Scope list_scope.
Local Notation length := List.length.

Section SF.
  Context {T : Type} (E : elev T) (ok : T -> Prop) (rk : T -> Z) (eps : T).
  Hypothesis LAWS : elev_laws E ok rk eps.
  Variable nb : list (list nat).
  Variable dem0 : list T.
  Variable seed : list nat.
  Let N := length dem0.
  Let d0 := e_zero E.
  Hypothesis okdem : Forall ok dem0.
  Hypothesis nb_len : N <= length nb.
  Hypothesis seed_nodup : NoDup seed.
  Hypothesis seed_lt : forall s, In s seed -> s < N.
  Hypothesis sym : symmetric_grid nb.
  Notation up x := (e_add E x eps).
  Notation z := (LFill.z E).
  Notation inv := (@InvA T E ok rk eps nb dem0 seed).

  Definition stream_nbs (c : nat) : list nat := filter (fun n => memn n seed) (nth c nb []).

  Lemma amin_le l : forall x y, (forall y, In y (x :: l) -> ok y) -> In y (x :: l) -> (rk (amin E x l) <= rk y)%Z.
  Proof.
    unfold amin. induction l as [|w l IH]; intros x y O H; cbn [fold_left].
    - destruct H as [->|[]]. lia.
    - assert (Ox : ok x) by (apply O; now left). assert (Ow : ok w) by (apply O; right; now left).
      rewrite !(l_eq LAWS) by auto. rewrite !Z.eqb_refl. cbn [negb orb].
      assert (Om : ok (if e_lt E w x then w else x)) by now destruct (e_lt E w x).
      assert (O' : forall v, In v ((if e_lt E w x then w else x) :: l) -> ok v).
      { intros v [<-|V]; auto. apply O. right; now right. }
      assert (M := IH _ _ O' (or_introl eq_refl)).
      assert (B : (rk (if e_lt E w x then w else x) <= rk x /\ rk (if e_lt E w x then w else x) <= rk w)%Z).
      { rewrite (l_lt LAWS) by auto. destruct (Z.ltb_spec (rk w) (rk x)); lia. }
      destruct H as [<-|[<-|H]]; [lia|lia|]. apply IH; auto. now right.
  Qed.

  (** the elevation of a stream cell once it had its turn *)
  Lemma burn_exact c ns (s : pf (T := T)) dem' : c < N -> length (pf_dem s) = N -> (forall n, n < N -> ok (z s n)) ->
    nth_error nb c = Some ns -> In c seed -> pf_burn E eps seed c ns (pf_dem s) = Ok dem' ->
    2 <= length (stream_nbs c) ->
    (dem' = pf_dem s /\ exists n, In n (stream_nbs c) /\ (rk (z s n) <= rk (z s c))%Z) \/
    (exists n, In n (stream_nbs c) /\ dem' = upd (pf_dem s) c (up (z s n)) /\ (rk (z s c) < rk (z s n))%Z /\
       forall n', In n' (stream_nbs c) -> (rk (z s n) <= rk (z s n'))%Z).
  Proof.
    intros Hc L Hok Hn Hs H L2. unfold pf_burn in H.
    replace (memn c seed) with true in H by (symmetry; now apply memn_spec).
    assert (EL : filter (fun n => memn n seed) ns = stream_nbs c) by (unfold stream_nbs; now rewrite (nth_error_nth _ _ [] Hn)).
    rewrite EL in H.
    assert (SL : forall n, In n (stream_nbs c) -> In n seed).
    { intros n Hi. unfold stream_nbs in Hi. apply filter_In in Hi. now apply memn_spec. }
    rewrite (@mapM_ok _ _ _ (z s)) in H.
    2:{ intros n Hi. unfold LFill.z. apply get_nth. rewrite L. auto. }
    cbv beta iota delta [bind] in H.
    assert (Hl : forall y, In y (map (z s) (stream_nbs c)) -> ok y).
    { intros y Hy. apply in_map_iff in Hy. destruct Hy as [n [<- Hi]]. auto. }
    assert (LM : length (map (z s) (stream_nbs c)) = length (stream_nbs c)) by apply map_length.
    destruct (map (z s) (stream_nbs c)) as [|x [|y r]] eqn:EM; [simpl in LM; lia|simpl in LM; lia|].
    rewrite (get_nth _ (e_zero E)) in H by lia. fold (z s c) in H.
    assert (Hm := amin_in E x (y :: r)). assert (MIN := fun v => @amin_le (y :: r) x v Hl).
    set (m := amin E x (y :: r)) in *. rewrite (l_lt LAWS) in H by auto.
    assert (Hm2 := Hm). rewrite <- EM in Hm2. apply in_map_iff in Hm2. destruct Hm2 as [n [En Hi]].
    destruct (Z.ltb_spec (rk (z s c)) (rk m)).
    - right. rewrite set_lt in H by lia. injection H as <-. exists n. rewrite En. repeat split; auto.
      intros n' Hn'. apply MIN. rewrite <- EM. now apply in_map.
    - left. injection H as <-. split; auto. exists n. split; auto. now rewrite En.
  Qed.

  (** waiting cells during the neighbour loop: the old ones, and cells that were open before *)
  Lemma visits_waiting c ns s s' : nth_error nb c = Some ns -> inv [c] (D s) s ->
    foldM (pf_visit E eps true seed c) ns s = Ok s' ->
    (forall m, In m (waiting s) -> In m (waiting s')) /\ (forall m, In m (waiting s') -> In m (waiting s) \/ ~ cl s m).
  Proof.
    intros Hn I HF.
    assert (G : (forall m, cl s m -> cl s' m) /\ (forall m, In m (waiting s) -> In m (waiting s')) /\
                (forall m, In m (waiting s') -> In m (waiting s) \/ ~ cl s m)); [|tauto].
    refine (@visits_ind T E ok rk eps LAWS nb dem0 seed nb_len true c ns s s'
      (fun s1 => (forall m, cl s m -> cl s1 m) /\ (forall m, In m (waiting s) -> In m (waiting s1)) /\
                 (forall m, In m (waiting s1) -> In m (waiting s) \/ ~ cl s m)) Hn I _ _ HF); [repeat split; auto|].
    intros n s1 s2 I1 (K0 & K1 & K2) Ha Hv.
    assert (Hc : c < N) by (apply (a_act I1); now left).
    rewrite (@visit_spec T E eps nb dem0 seed nb_len true c n s1 (a_len I1) (a_clen I1) Hc (a_seed I1)) in Hv.
    destruct (Nat.leb_spec (length dem0) n) as [|Hn']; [injection Hv as <-; auto|].
    destruct (nth n (pf_closed s1) false) eqn:Ec; [injection Hv as <-; auto|].
    assert (NC : ~ cl s n) by (intros X; apply K0 in X; unfold cl in X; congruence).
    assert (CU : forall m, cl s m -> nth m (upd (pf_closed s1) n true) false = true).
    { intros m Hm. destruct (Nat.eq_dec m n) as [->|Nm]; [contradiction|]. rewrite nth_upd_neq by auto. now apply K0. }
    destruct (e_le E (z s1 n) (z s1 c)); injection Hv as <-.
    - split; [exact CU|]. unfold waiting in *. cbn [pf_pit pf_open] in *. split.
      + intros m Hm. apply K1 in Hm. rewrite !in_app_iff in *. tauto.
      + intros m Hm. rewrite !in_app_iff in Hm. destruct Hm as [[Hm|[<-|[]]]|Hm].
        * apply K2. apply in_app_iff. auto.
        * auto.
        * apply K2. apply in_app_iff. auto.
    - split; [exact CU|]. unfold waiting in *. cbn [pf_pit pf_open] in *.
      assert (P := push_perm (entry_lt E) (pf_open s1) (z s1 n, n)). apply (Permutation_map snd) in P. cbn [map snd] in P. split.
      + intros m Hm. apply K1 in Hm. rewrite in_app_iff in *. destruct Hm as [Hm|Hm]; auto.
        right. eapply Permutation_in; [symmetry; exact P|]. now right.
      + intros m Hm. rewrite in_app_iff in Hm. destruct Hm as [Hm|Hm]; [apply K2; apply in_app_iff; auto|].
        eapply Permutation_in in Hm; [|exact P]. destruct Hm as [<-|Hm]; auto. apply K2. apply in_app_iff. auto.
  Qed.

  (** every stream cell that had its turn has a stream neighbour that is no higher, or had its turn
      later and is at most eps higher *)
  Definition level (s : pf (T := T)) : Prop :=
    forall c, In c seed -> ~ In c (waiting s) -> 2 <= length (stream_nbs c) ->
      exists n, In n (stream_nbs c) /\
        ((rk (z s n) <= rk (z s c))%Z \/ ~ In n (waiting s) /\ (rk (z s n) <= rk (up (z s c)))%Z).

  Lemma nbs_in c n : In n (stream_nbs c) -> In n seed /\ adjacent nb c n.
  Proof.
    unfold stream_nbs. intros H. apply filter_In in H. destruct H as [H1 H2]. split; [now apply memn_spec|].
    destruct (nth_error nb c) as [l|] eqn:En.
    - exists l. split; auto. now rewrite (nth_error_nth _ _ [] En) in H1.
    - apply nth_error_None in En. rewrite nth_overflow in H1 by auto. easy.
  Qed.

  Lemma nbs_sym c n : In c seed -> In n (stream_nbs c) -> In c (stream_nbs n).
  Proof.
    intros Hc Hn. apply nbs_in in Hn. destruct Hn as [Hn Ha]. apply sym in Ha. destruct Ha as [l [Hl Hi]].
    unfold stream_nbs. rewrite (nth_error_nth _ _ [] Hl). apply filter_In. split; auto. now apply memn_spec.
  Qed.

  Lemma level_step s c s1 s' : inv [] (D s) s -> level s -> pop E s = Some (c, s1) ->
    inv [c] (fun n => D s1 n /\ n <> c) s1 -> pf_step E nb eps true seed c s1 = Ok s' -> inv [] (D s') s' -> level s'.
  Proof.
    intros I J Hp I1 HS I'.
    destruct (popA LAWS nb_len I Hp) as (_ & _ & Ed & Ecl & PP).
    assert (WP : forall m, In m (waiting s) <-> m = c \/ In m (waiting s1)).
    { unfold waiting. destruct PP as [(p & -> & -> & ->)|(-> & -> & _ & P & _)].
      - intros m. cbn [app In]. rewrite in_app_iff. intuition.
      - intros m. cbn [app]. apply (Permutation_map snd) in P. cbn [map snd] in P. split; intros H.
        + eapply Permutation_in in H; [|exact P]. destruct H; auto.
        + eapply Permutation_in; [symmetry; exact P|]. destruct H as [->|]; [now left|now right]. }
    destruct (a_act I1 c ltac:(now left)) as [Hc Hcc].
    assert (NCW : ~ In c (waiting s1)) by (assert (X := a_nodup I1); simpl in X; now inversion X).
    unfold pf_step in HS. destruct (nth_error nb c) as [ns|] eqn:En; [|discriminate]. cbn [bind] in HS.
    apply bind_ok in HS. destruct HS as [dem' [EB HF]].
    destruct (burn_spec LAWS nb dem0 seed nb_len seed_lt ns s1 Hc (a_len I1) (a_ok I1)) as [dem2 [EB2 HB]].
    rewrite EB in EB2. injection EB2 as <-.
    assert (I2 := @burnA T E ok rk eps nb dem0 seed nb_len c s1 dem' I1 HB). cbv zeta in I2.
    set (s2 := PF dem' (pf_closed s1) (pf_open s1) (pf_pit s1)) in *.
    destruct (@visitsA T E ok rk eps LAWS nb dem0 seed nb_len true c ns s2 En I2) as (s3 & E3 & _ & Z3 & _).
    rewrite HF in E3. injection E3 as <-.
    destruct (visits_waiting En I2 HF) as [W1 W2]. change (waiting s2) with (waiting s1) in W1, W2.
    assert (CLS : forall m, In m seed -> cl s2 m) by (intros m Hm; apply (a_seed I2); auto).
    assert (ZS : forall m, In m seed -> z s' m = nth m dem' (e_zero E)) by (intros m Hm; apply (Z3 m (CLS m Hm))).
    assert (ZN : forall m, In m seed -> m <> c -> z s' m = z s m).
    { intros m Hm Nm. rewrite ZS by auto. unfold LFill.z. rewrite <- Ed.
      destruct HB as [->|[_ [y [-> _]]]]; auto. now rewrite nth_upd_neq by auto. }
    assert (DN : forall m, In m seed -> ~ In m (waiting s1) -> ~ In m (waiting s')).
    { intros m Hm Nm X. destruct (W2 m X) as [|Y]; auto. }
    assert (OK1 : forall m, In m seed -> ok (z s m)) by (intros m Hm; apply (a_ok I); auto).
    assert (Z1 : forall m, z s1 m = z s m) by (intros m; unfold LFill.z; now rewrite Ed).
    intros c' Hc' Dc' L2. destruct (Nat.eq_dec c' c) as [->|Nc].
    - (* its turn *)
      destruct (burn_exact Hc (a_len I1) (a_ok I1) En Hc' EB L2) as [[-> (n & Hn & Le)]|(n & Hn & -> & Lt & _)].
      + exists n. split; auto. left. destruct (nbs_in Hn) as [Sn _]. rewrite !ZS by auto. exact Le.
      + exists n. split; auto. left. destruct (nbs_in Hn) as [Sn _]. assert (n <> c) by (intros ->; lia).
        rewrite (ZN n) by auto. rewrite (ZS c) by auto. rewrite nth_upd_eq by (rewrite (a_len I1); exact Hc).
        rewrite Z1. apply (l_up LAWS). auto.
    - assert (Dc : ~ In c' (waiting s)).
      { intros X. apply WP in X. destruct X as [|X]; auto. }
      destruct (J c' Hc' Dc L2) as (n & Hn & Lev). exists n. split; auto. destruct (nbs_in Hn) as [Sn _].
      rewrite (ZN c') by auto. destruct (Nat.eq_dec n c) as [->|Nn].
      + destruct Lev as [Le|[X _]]; [|exfalso; apply X, WP; now left].
        destruct (le_lt_dec 2 (length (stream_nbs c))) as [L2c|L2c].
        * destruct (burn_exact Hc (a_len I1) (a_ok I1) En Sn EB L2c) as [[-> _]|(k & Hk & -> & Lt & MIN)].
          -- left. rewrite ZS by auto. unfold LFill.z in Le. rewrite <- Ed in Le at 1. exact Le.
          -- right. split; [apply DN; auto|]. rewrite ZS by auto. rewrite nth_upd_eq by (rewrite (a_len I1); exact Hc).
             rewrite Z1. assert (M := MIN c' (nbs_sym Hc' Hn)). rewrite !Z1 in M. destruct (nbs_in Hk) as [Sk _].
             apply (l_mono LAWS); auto.
        * left. assert (SAME : dem' = pf_dem s1).
          { unfold pf_burn in EB. replace (memn c seed) with true in EB by (symmetry; now apply memn_spec).
            assert (EL : filter (fun n => memn n seed) ns = stream_nbs c) by (unfold stream_nbs; now rewrite (nth_error_nth _ _ [] En)).
            rewrite EL in EB. apply bind_ok in EB. destruct EB as [el [Em EB]]. apply mapM_length in Em.
            destruct el as [|x [|y r]]; simpl in *; try lia; now injection EB as <-. }
          rewrite ZS by auto. rewrite SAME. unfold LFill.z in Le. rewrite <- Ed in Le at 1. exact Le.
      + rewrite (ZN n) by auto. destruct Lev as [Le|[X Le]]; [now left|right]. split; auto. apply DN; auto.
        intros Y. apply X, WP. now right.
  Qed.

  Theorem stream_levels fuel out : N <= fuel -> priority_flood E fuel nb dem0 eps seed true = Ok out ->
    forall c, In c seed -> 2 <= length (stream_nbs c) ->
      exists n, In n (stream_nbs c) /\ (rk (nth n out d0) <= rk (up (nth c out d0)))%Z.
  Proof.
    intros HF H c Hc L2. unfold priority_flood in H.
    destruct (initA LAWS nb okdem nb_len seed_nodup seed_lt) as (s & E1 & I & Mu & _ & Pt & _ & P). rewrite E1 in H. cbn [bind] in H.
    assert (J : level s).
    { intros c' Hc' X _. exfalso. apply X. unfold waiting. rewrite Pt. eapply Permutation_in; [symmetry; exact P|auto]. }
    destruct (@loopA T E ok rk eps LAWS nb dem0 seed nb_len seed_lt true level level_step fuel s I J) as (s' & E2 & I' & J' & W); [lia|].
    rewrite E2 in H. cbn [bind] in H. injection H as <-.
    destruct (J' c Hc ltac:(rewrite W; auto) L2) as (n & Hn & [Le|[_ Le]]); exists n; (split; [exact Hn|]); [|exact Le].
    assert (X := l_up LAWS (z s' c) (a_ok I' (seed_lt Hc))). unfold d0. unfold LFill.z in *. lia.
  Qed.
End SF.

(** C09 as far as it is true: every stream cell with two or more stream neighbours has one that is
    at most eps higher.  [e_add E x (step_eps ...)] is the elevation [x] plus eps. *)
Section Props.
  Context {T : Type} (E : elev T) (ok : T -> Prop) (rk : T -> Z).
  Variables (iverts nb : list (list nat)) (dem : list T) (eps : T).
  Notation N := (length dem).
  Definition stream (m : list Z) (n : nat) : Prop := exists v, nth_error m n = Some v /\ (0 < v)%Z.
  Definition two_stream_neighbours (m : list Z) (c : nat) : Prop :=
    exists a b, a <> b /\ adjacent nb c a /\ adjacent nb c b /\ stream m a /\ stream m b.

  Theorem C09_at_most_eps_below m method fuel :
    elev_laws E ok rk (step_eps E method eps) -> Forall ok dem -> grid_of iverts nb N -> symmetric_grid nb ->
    length m = N -> N <= fuel ->
    exists out, fill_sinks E fuel iverts nb dem eps (Some m) method = Ok out /\ length out = N /\
      forall c x, stream m c -> two_stream_neighbours m c -> nth_error out c = Some x ->
        exists n y, adjacent nb c n /\ stream m n /\ nth_error out n = Some y /\ e_le E y (e_add E x (step_eps E method eps)) = true.
  Proof.
    intros L O G SY M U.
    assert (F : flood_method method (Some m)) by (right; right; discriminate).
    destruct (flood_facts eps L O G (mask := Some m) M F U) as [out H]. destruct H as [R [Lo [Ho _]]].
    exists out. split; auto. split; auto. intros c x Sc (a & b & Nab & Aa & Ab & Sa & Sb) Hx.
    destruct (flood_dispatch E dem eps G (mask := Some m) M F) as (seed & strm & Er & ND & LT & IN & ->).
    rewrite Er in R. destruct G as (G1 & G2 & G3).
    assert (IN2 : forall s, In s seed <-> stream m s) by (intros s; apply IN).
    assert (L2 : 2 <= length (stream_nbs nb seed c)).
    { assert (I2 : forall k, adjacent nb c k -> stream m k -> In k (stream_nbs nb seed c)).
      { intros k [l [Hl Hk]] Sk. unfold stream_nbs. rewrite (nth_error_nth _ _ [] Hl). apply filter_In. split; auto. apply memn_spec. now apply IN2. }
      assert (Ia := I2 a Aa Sa). assert (Ib := I2 b Ab Sb).
      destruct (stream_nbs nb seed c) as [|x1 [|x2 l]]; [easy| |simpl; lia]. destruct Ia as [<-|[]], Ib as [<-|[]]. congruence. }
    destruct (@stream_levels T E ok rk (step_eps E method eps) L nb dem seed O G3 ND LT SY fuel out U R c (proj2 (IN2 c) Sc) L2) as (n & Hn & Le).
    destruct (nbs_in Hn) as [Sn An]. rewrite (nth_error_nth _ _ (e_zero E) Hx) in Le.
    assert (Ln : n < length out) by (rewrite Lo; now apply LT).
    exists n, (nth n out (e_zero E)). split; auto. split; [now apply IN2|]. split; [now apply nth_error_nth'|].
    rewrite Forall_forall in Ho. assert (Ox : ok x) by (apply Ho; eapply nth_error_In; eauto).
    rewrite (l_le L); [now apply Z.leb_le|apply Ho, nth_In; auto|now apply (l_ok L)].
  Qed.

  (** C09 holds of the method 'complete' *)
  Theorem C09_complete_has_no_stream_pits m method fuel :
    lower method = "complete"%string ->
    elev_laws E ok rk (e_zero E) -> eps_null E ok (e_zero E) -> Forall ok dem -> grid_of iverts nb N -> symmetric_grid nb ->
    length m = N -> N <= fuel ->
    exists out, fill_sinks E fuel iverts nb dem eps (Some m) method = Ok out /\ length out = N /\
      forall c x, stream m c -> two_stream_neighbours m c -> nth_error out c = Some x ->
        exists n y, adjacent nb c n /\ stream m n /\ nth_error out n = Some y /\ e_le E y x = true.
  Proof.
    intros Em L NU O G SY M U. assert (Ee : step_eps E method eps = e_zero E) by (unfold step_eps; now rewrite Em).
    assert (L' := L). rewrite <- Ee in L'.
    destruct (C09_at_most_eps_below L' O G SY M U) as (out & R & Lo & H).
    assert (F : flood_method method (Some m)) by (right; right; discriminate).
    destruct (flood_facts eps L' O G (mask := Some m) M F U) as [out' [R' [_ [Ho _]]]]. rewrite R in R'. injection R' as <-.
    rewrite Forall_forall in Ho.
    exists out. split; auto. split; auto. intros c x Sc TN Hx. destruct (H c x Sc TN Hx) as (n & y & An & Sn & Hy & Le).
    exists n, y. repeat split; auto. rewrite Ee in Le. assert (Ox : ok x) by (apply Ho; eapply nth_error_In; eauto).
    assert (Oy : ok y) by (apply Ho; eapply nth_error_In; eauto). assert (Oz := l_ok L x Ox).
    specialize (NU x Ox). rewrite (l_eq L) in NU by auto. rewrite (l_le L) in Le |- * by auto. apply Z.eqb_eq in NU. rewrite NU in Le. exact Le.
  Qed.
End Props.

(** a 1 x 4 grid of stream cells, 3 2 1 4: 'priority' leaves cell 2 one eps below its neighbours,
    'complete' does not *)
Module Ex9.
  Local Open Scope Z_scope.
  Definition dem : list Z := [3; 2; 1; 4].
  Definition nb : list (list nat) := [[1]; [0; 2]; [1; 3]; [2]]%nat.
  Definition m : list Z := [1; 1; 1; 1].
  Example priority : fill_sinks Zelev 4 (quad_iverts 1 4) nb dem 1 (Some m) "priority" = Ok [3; 4; 3; 4].
  Proof. vm_compute. reflexivity. Qed.
  Example complete : fill_sinks Zelev 4 (quad_iverts 1 4) nb dem 1 (Some m) "complete" = Ok [3; 2; 2; 4].
  Proof. vm_compute. reflexivity. Qed.
  Example two : two_stream_neighbours nb m 2.
  Proof. exists 1%nat, 3%nat. split; [lia|]. split; [exists [1; 3]%nat; simpl; auto|]. split; [exists [1; 3]%nat; simpl; auto|].
    split; exists 1; split; auto; lia. Qed.
  Example grid : grid_of (quad_iverts 1 4) nb 4.
  Proof. split; [reflexivity|]. split; [|simpl; lia]. repeat constructor; discriminate. Qed.
  Example symm : symmetric_grid nb.
  Proof.
    intros c n [l [Hl Hn]].
    do 4 (destruct c as [|c]; [inversion Hl; subst l; simpl in Hn;
      repeat (destruct Hn as [<-|Hn]; [eexists; split; [reflexivity|simpl; auto]|]); easy|]).
    destruct c; discriminate.
  Qed.
  Example instance := C09_complete_has_no_stream_pits (E := Zelev) 7 (m := m) (method := "complete") eq_refl
    (Zlaws (eps := 0) ltac:(lia)) Znull (dem := dem) (iverts := quad_iverts 1 4) (nb := nb)
    ltac:(repeat constructor) grid symm eq_refl (le_n 4).
End Ex9.
