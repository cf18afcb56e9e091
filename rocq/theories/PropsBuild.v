(** C100: what get_pygsflow_builder_object does to the tables it is given. *)
From Coq Require Import Reals String Lra Lia.
From Verif Require Import Py MFlow MStream MGeo MNum PropsNum MBuild.
Set Implicit Arguments.
Unset Strict Implicit.
Local Notation length := List.length.
Local Open Scope R_scope.
Local Open Scope list_scope.

Definition pair_of (r : reach) : nat * Z := (b_node r, b_out r).
Definition with_num (r : reach) (n : option R * option R) : reach := Reach (b_node r) (b_out r) (fst n) (snd n) 1 1.

(** one row of MNum.builder_reaches *)
Definition row_num cfg centers top (recs : list (nat * Z)) (r : nat * Z) : res (option R * option R) :=
  let '(node, outreach) := r in
  let ix := (outreach - 1)%Z in
  node_dn <- (if (Z.of_nat (length recs) <=? ix)%Z then Ok node else r' <- npget recs ix ;; Ok (fst r')) ;;
  Ok (level top node, builder_slope cfg centers top node node_dn).

Lemma npget_pair l i : npget (map pair_of l) i = (r <- npget l i ;; Ok (pair_of r)).
Proof.
  unfold npget. rewrite map_length. destruct (npidx (length l) i) as [k|]; auto. simpl. unfold get. rewrite nth_error_map.
  destruct (nth_error l k); auto.
Qed.

(** the loop: rows before [k] are done; each row depends only on the columns that do not change *)
Lemma write_loop cfg centers top recs : forall m done rest,
  length rest = m -> map pair_of (done ++ rest) = recs ->
  match mapM (row_num cfg centers top recs) (map pair_of rest) with
  | Ok out => write_reaches cfg centers top (seq (length done) m) (done ++ rest)
                = (done ++ map (fun p => with_num (fst p) (snd p)) (combine rest out), Ok tt)
  | Err e => exists l, write_reaches cfg centers top (seq (length done) m) (done ++ rest) = (l, Err e)
  end.
Proof.
  induction m as [|m IH]; intros done rest Hm Hr.
  - destruct rest; [|discriminate]. simpl. now rewrite app_nil_r.
  - destruct rest as [|r rest]; [discriminate|]. simpl in Hm. simpl map. simpl mapM. cbn [seq write_reaches].
    rewrite nth_error_app2 by lia. rewrite Nat.sub_diag. cbn [nth_error].
    assert (L : length (done ++ r :: rest) = length recs) by (rewrite <- Hr; now rewrite map_length).
    rewrite L. unfold row_num at 1. unfold pair_of at 1. cbn beta iota.
    assert (E : npget recs (b_out r - 1) = (x <- npget (done ++ r :: rest) (b_out r - 1) ;; Ok (pair_of x))) by (rewrite <- Hr; apply npget_pair).
    rewrite E.
    set (row := Reach (b_node r) (b_out r) (level top (b_node r))).
    assert (Step : forall dn, upd (done ++ r :: rest) (length done) (row (builder_slope cfg centers top (b_node r) dn) 1 1)
                     = (done ++ [row (builder_slope cfg centers top (b_node r) dn) 1 1]) ++ rest).
    { intros dn. rewrite <- app_assoc. clear. induction done as [|y done IH]; simpl; [reflexivity|]. now rewrite IH. }
    assert (Go : forall dn,
      match (ys <- mapM (row_num cfg centers top recs) (map pair_of rest) ;;
             Ok ((level top (b_node r), builder_slope cfg centers top (b_node r) dn) :: ys)) with
      | Ok out => write_reaches cfg centers top (seq (S (length done)) m)
                    (upd (done ++ r :: rest) (length done) (row (builder_slope cfg centers top (b_node r) dn) 1 1))
                  = (done ++ map (fun p => with_num (fst p) (snd p)) (combine (r :: rest) out), Ok tt)
      | Err e => exists l, write_reaches cfg centers top (seq (S (length done)) m)
                    (upd (done ++ r :: rest) (length done) (row (builder_slope cfg centers top (b_node r) dn) 1 1)) = (l, Err e)
      end).
    { intros dn. rewrite Step. specialize (IH (done ++ [row (builder_slope cfg centers top (b_node r) dn) 1 1]) rest ltac:(lia)).
      rewrite app_length in IH. simpl length in IH. rewrite Nat.add_1_r in IH.
      assert (Hr' : map pair_of ((done ++ [row (builder_slope cfg centers top (b_node r) dn) 1 1]) ++ rest) = recs).
      { rewrite <- Hr, !map_app. simpl. now rewrite <- app_assoc. }
      specialize (IH Hr'). destruct (mapM _ (map pair_of rest)) as [out|e]; simpl; auto.
      rewrite IH. now rewrite <- app_assoc. }
    destruct (Z.of_nat (length recs) <=? b_out r - 1)%Z; cbn [bind].
    + apply Go.
    + destruct (npget (done ++ r :: rest) (b_out r - 1)) as [x|e]; cbn [bind]; [|eauto]. apply Go.
Qed.

(** the table after the loop: row by row what MNum.builder_reaches gives *)
Theorem write_reaches_spec cfg centers top l :
  match builder_reaches cfg centers top (map pair_of l) with
  | Ok out => write_reaches cfg centers top (seq 0 (length l)) l = (map (fun p => with_num (fst p) (snd p)) (combine l out), Ok tt)
  | Err e => exists l', write_reaches cfg centers top (seq 0 (length l)) l = (l', Err e)
  end.
Proof. exact (@write_loop cfg centers top (map pair_of l) (length l) [] l eq_refl eq_refl). Qed.

Section Builder.
  Variables (centers : list point) (top : list (option R)).
  Variables (own_reach own_seg own_run : res tab).
  Notation build := (builder centers top own_reach own_seg own_run).

  Definition keeps_tab (h h' : tabs) (r : nat) : Prop := forall t, nth_error h r = Some t -> nth_error h' r = Some t.

  Lemma given_spec h a own h' r : given_or h a own = Ok (h', r) ->
    (forall k t, nth_error h k = Some t -> nth_error h' k = Some t) /\
    match a with Some x => r = x /\ h' = h | None => r = length h /\ exists t, own = Ok t /\ h' = h ++ [t] end.
  Proof.
    unfold given_or. destruct a as [x|].
    - intros E. inversion E; subst. auto.
    - intros E. apply bind_ok in E. destruct E as [t [E1 E2]]. inversion E2; subst. split; [|eauto].
      intros k u Hk. rewrite nth_error_app1; auto. apply nth_error_Some. congruence.
  Qed.

  (** success: the three tables of the returned object *)
  Lemma builder_ok keys ra sa ia h h' r s i : build keys ra sa ia true h = (h', Ok (r, s, i)) ->
    exists h1 l out g,
      (forall k t, nth_error h k = Some t -> nth_error h1 k = Some t) /\
      (forall x, ra = Some x -> r = x) /\ (forall x, sa = Some x -> s = x) /\ (forall x, ia = Some x -> i = x) /\
      (ra = None -> (length h <= r)%nat) /\ (sa = None -> (length h <= s)%nat) /\
      nth_error h1 r = Some (TReach l) /\ builder_reaches builder_cfg centers top (map pair_of l) = Ok out /\
      nth_error h1 s = Some (TSeg g) /\ r <> s /\
      h' = upd (upd h1 r (TReach (map (fun p => with_num (fst p) (snd p)) (combine l out)))) s (TSeg (write_segments g)).
  Proof.
    unfold builder. destruct (builder_kwargs keys); [|discriminate].
    destruct (given_or h ra own_reach) as [[h1 r1]|] eqn:E1; cbn [bind]; [|discriminate].
    destruct (given_or (fst (h1, r1)) sa own_seg) as [[h2 s2]|] eqn:E2; cbn [bind]; [|discriminate].
    destruct (given_or (fst (h2, s2)) ia own_run) as [[h3 i3]|] eqn:E3; cbn [bind fst snd]; [|discriminate].
    cbn [fst] in *. apply given_spec in E1. apply given_spec in E2. apply given_spec in E3.
    destruct E1 as [K1 F1], E2 as [K2 F2], E3 as [K3 F3].
    destruct (get h3 r1) as [[l|l|l]|] eqn:Er; try discriminate.
    pose proof (write_reaches_spec builder_cfg centers top l) as WS.
    destruct (builder_reaches builder_cfg centers top (map pair_of l)) as [out|e] eqn:Eb.
    2:{ destruct WS as [l' ->]. discriminate. }
    rewrite WS. destruct (get (upd h3 r1 _) s2) as [[g|g|g]|] eqn:Es; try discriminate.
    intros X. inversion X; subst. apply get_ok in Er. apply get_ok in Es.
    assert (N : r <> s).
    { intros ->. rewrite nth_error_upd_eq in Es; [discriminate|]. apply nth_error_Some. congruence. }
    rewrite nth_error_upd_neq in Es by auto.
    exists h3, l, out, g.
    split; [intros; auto|]. split; [intros x ->; tauto|]. split; [intros x ->; tauto|]. split; [intros x ->; tauto|].
    split; [intros ->; destruct F1; lia|]. split.
    { intros ->. destruct F2 as [-> _]. destruct ra; [destruct F1; subst; auto|destruct F1 as [_ (t & _ & ->)]; rewrite app_length; simpl; lia]. }
    auto.
  Qed.

  Lemma row_of {A B} (f : A * B -> A) (l : list A) (out : list B) k r n : length out = length l -> nth_error l k = Some r -> nth_error out k = Some n ->
    nth_error (map f (combine l out)) k = Some (f (r, n)).
  Proof.
    intros L. revert out k L. induction l as [|a l IH]; intros [|b out] k L H1 H2; try (destruct k; discriminate).
    destruct k; simpl in *; [congruence|]. apply IH; auto.
  Qed.

  (** C100 is false: the reach table the caller passed is the table of the returned object, and
      its columns strtop, slope, strhc1 and strthick are overwritten in every row *)
  Theorem C100_reach_table_overwritten_refuted keys r l sa ia h h' x : 
    nth_error h r = Some (TReach l) ->
    build keys (Some r) sa ia true h = (h', Ok x) ->
    fst (fst x) = r /\ exists l', nth_error h' r = Some (TReach l') /\ length l' = length l /\
      forall k row, nth_error l k = Some row -> exists row', nth_error l' k = Some row' /\
        b_node row' = b_node row /\ b_out row' = b_out row /\
        b_top row' = nth (b_node row) top None /\ b_hc row' = 1 /\ b_thick row' = 1 /\
        (forall v, b_slope row' = Some v -> 0.0001 <= v <= 1).
  Proof.
    intros Hr E. destruct x as [[r1 s1] i1]. destruct (builder_ok E) as (h1 & l0 & out & g & K & A & B & C & _ & _ & Hl & Hb & Hg & N & ->).
    rewrite (A _ eq_refl) in *. apply K in Hr. rewrite Hr in Hl. inversion Hl; subst l0. split; auto.
    destruct (builder_nth Hb) as [Lo HN]. rewrite map_length in Lo.
    eexists. split; [rewrite nth_error_upd_neq by auto; apply nth_error_upd_eq; apply nth_error_Some; congruence|].
    split; [rewrite map_length, combine_length; lia|].
    intros k row Hk. assert (Hp : nth_error (map pair_of l) k = Some (b_node row, b_out row)) by (rewrite nth_error_map, Hk; reflexivity).
    destruct (HN _ _ _ Hp) as (d & _ & _ & Ho). eexists. split; [apply (row_of _ Lo Hk Ho)|]. simpl.
    repeat split; auto.
    - destruct (@C79_slopes_within_limits builder_cfg _ _ _ _ k _ v ltac:(simpl; lra) Hb ltac:(rewrite Ho; f_equal; f_equal; exact H)). simpl in *; lra.
    - destruct (@C79_slopes_within_limits builder_cfg _ _ _ _ k _ v ltac:(simpl; lra) Hb ltac:(rewrite Ho; f_equal; f_equal; exact H)). simpl in *; lra.
  Qed.

  (** ... and so are the default columns of the segment table *)
  Theorem C100_segment_table_overwritten_refuted keys ra s g ia h h' x :
    nth_error h s = Some (TSeg g) ->
    build keys ra (Some s) ia true h = (h', Ok x) ->
    snd (fst x) = s /\ nth_error h' s =
      Some (TSeg (map (fun q => Seg (g_nseg q) (g_out q) 0 1 1 0 0 0.025 0 10 10) g)).
  Proof.
    intros Hs E. destruct x as [[r1 s1] i1]. destruct (builder_ok E) as (h1 & l0 & out & g0 & K & A & B & C & _ & _ & Hl & Hb & Hg & N & ->).
    rewrite (B _ eq_refl) in *. apply K in Hs. rewrite Hs in Hg. inversion Hg; subst g0. split; auto.
    apply nth_error_upd_eq. rewrite upd_length. apply nth_error_Some. congruence.
  Qed.

  (** without defaults, and for tables that are not passed as reach or segment data, nothing is
      changed; tables passed in are handed on as they are *)
  Theorem C100_tables_not_passed_stay keys ra sa ia b h h' x r t :
    build keys ra sa ia b h = (h', x) -> nth_error h r = Some t ->
    b = false \/ (ra <> Some r /\ sa <> Some r) -> nth_error h' r = Some t.
  Proof.
    unfold builder. destruct (builder_kwargs keys); [|intros E; now inversion E].
    destruct (given_or h ra own_reach) as [[h1 r1]|] eqn:E1; cbn [bind]; [|intros E; now inversion E].
    destruct (given_or (fst (h1, r1)) sa own_seg) as [[h2 s2]|] eqn:E2; cbn [bind]; [|intros E; now inversion E].
    destruct (given_or (fst (h2, s2)) ia own_run) as [[h3 i3]|] eqn:E3; cbn [bind fst snd]; [|intros E; now inversion E].
    cbn [fst] in *. apply given_spec in E1. apply given_spec in E2. apply given_spec in E3.
    destruct E1 as [K1 F1], E2 as [K2 F2], E3 as [K3 F3]. intros E Hr D.
    assert (Lr : (r < length h)%nat) by (apply nth_error_Some; congruence).
    assert (L2 : (length h <= length h1)%nat) by (destruct ra; [destruct F1; subst; auto|destruct F1 as [_ (u & _ & ->)]; rewrite app_length; lia]).
    assert (H3 : nth_error h3 r = Some t) by auto.
    destruct b; [|inversion E; subst; auto]. destruct D as [D|[D1 D2]]; [discriminate|].
    assert (Nr : r1 <> r).
    { destruct ra as [y|]; [destruct F1; subst; congruence|]. destruct F1 as [-> _]. lia. }
    assert (Ns : s2 <> r).
    { destruct sa as [y|]; [destruct F2; subst; congruence|]. destruct F2 as [-> _]. lia. }
    destruct (get h3 r1) as [[l|l|l]|]; try (inversion E; subst; auto; fail).
    destruct (write_reaches _ _ _ _ l) as [l' [u|e]]; [|inversion E; subst; now rewrite nth_error_upd_neq].
    destruct (get _ s2) as [[g|g|g]|]; inversion E; subst; rewrite ?nth_error_upd_neq by auto; auto.
  Qed.

  (** a second call on the tables of the returned object changes nothing more *)
  Lemma set_twice l out : length out = length l ->
    map pair_of (map (fun p => with_num (fst p) (snd p)) (combine l out)) = map pair_of l /\
    map (fun p => with_num (fst p) (snd p)) (combine (map (fun p => with_num (fst p) (snd p)) (combine l out)) out) =
    map (fun p => with_num (fst p) (snd p)) (combine l out).
  Proof.
    revert out. induction l as [|a l IH]; intros [|b out] L; try discriminate; auto. simpl in L.
    destruct (IH out ltac:(lia)) as [I1 I2]. simpl. split; f_equal; auto.
  Qed.
  Theorem C100_second_call_changes_nothing keys ra sa ia h h' r s i :
    build keys ra sa ia true h = (h', Ok (r, s, i)) -> build keys (Some r) (Some s) (Some i) true h' = (h', Ok (r, s, i)).
  Proof.
    intros E. pose proof E as E'. destruct (builder_ok E) as (h1 & l & out & g & K & A & B & C & _ & _ & Hl & Hb & Hg & N & ->).
    unfold builder in *. destruct (builder_kwargs keys); [|discriminate]. clear E E'. cbn [given_or bind fst snd].
    destruct (builder_nth Hb) as [Lo _]. rewrite map_length in Lo. destruct (set_twice Lo) as [T1 T2].
    set (l1 := map _ (combine l out)) in *. set (h2 := upd (upd h1 r (TReach l1)) s (TSeg (write_segments g))).
    assert (Lr : (r < length h1)%nat) by (apply nth_error_Some; congruence).
    assert (Ls : (s < length h1)%nat) by (apply nth_error_Some; congruence).
    assert (G1 : nth_error h2 r = Some (TReach l1)).
    { unfold h2. rewrite nth_error_upd_neq by auto. now apply nth_error_upd_eq. }
    assert (G2 : nth_error h2 s = Some (TSeg (write_segments g))) by (unfold h2; apply nth_error_upd_eq; now rewrite upd_length).
    rewrite (proj2 (get_ok _ _ _) G1). pose proof (write_reaches_spec builder_cfg centers top l1) as WS.
    rewrite T1, Hb in WS. rewrite WS, T2.
    assert (U : forall (A : Type) (q : list A) k v, nth_error q k = Some v -> upd q k v = q).
    { intros T q. induction q as [|y q IHq]; intros [|k] v Hv; simpl in *; try discriminate; [congruence|]. f_equal. auto. }
    rewrite (U _ _ _ _ G1), (proj2 (get_ok _ _ _) G2).
    replace (write_segments (write_segments g)) with (write_segments g).
    - now rewrite (U _ _ _ _ G2).
    - unfold write_segments. rewrite map_map. reflexivity.
  Qed.
End Builder.

(** the caller's values are lost: strhc1 = 5 and slope = 1/2 become 1 and the drop over the distance *)
Example C100_witness : exists h' x,
  builder [(0, 0); (1, 0)] [Some 3; Some 2] (Err KeyError) (Err KeyError) (Err KeyError) [] (Some 0%nat) (Some 1%nat) (Some 2%nat) true
    [TReach [Reach 0 2 (Some 7) (Some 0.5) 5 5; Reach 1 3 (Some 7) (Some 0.5) 5 5]; TSeg [Seg 1 0 1 2 3 4 5 6 7 8 9]; TRun [1%Z; 1%Z]]
  = (h', Ok x) /\ nth_error h' 1 = Some (TSeg [Seg 1 0 0 1 1 0 0 0.025 0 10 10]).
Proof. eexists _, _. split; reflexivity. Qed.
