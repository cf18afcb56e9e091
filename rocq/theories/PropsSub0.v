(** C28: what get_subbasins does with a pour point at cell 0. *)
From Verif Require Import Py Spec MFlow LGraph LAcc LWs LTopo LSub PropsBasin.
Set Implicit Arguments.
Unset Strict Implicit.
Local Open Scope nat_scope.
Local Open Scope list_scope.

(** ** Key 0 of a topology is never looked at *)
Definition nz {B} (kv : Z * B) : bool := negb (fst kv =? 0)%Z.

Lemma nz_cons {B} k (v : B) d : filter nz ((k, v) :: d) = if (k =? 0)%Z then filter nz d else (k, v) :: filter nz d.
Proof. cbn [filter]. unfold nz at 1. cbn [fst]. now destruct (k =? 0)%Z. Qed.

Lemma dset_filter {B} (d : list (Z * B)) k v : filter nz (dset Z.eqb d k v) = if (k =? 0)%Z then filter nz d else dset Z.eqb (filter nz d) k v.
Proof.
  induction d as [|[k' v'] d IH]; cbn [dset].
  - rewrite nz_cons. now destruct (k =? 0)%Z.
  - destruct (Z.eqb_spec k k') as [<-|Hne].
    + rewrite !nz_cons. destruct (Z.eqb_spec k 0); auto. cbn [dset]. now rewrite Z.eqb_refl.
    + rewrite !nz_cons, IH. destruct (Z.eqb_spec k' 0), (Z.eqb_spec k 0); auto. cbn [dset]. destruct (Z.eqb_spec k k'); [contradiction|reflexivity].
Qed.

Lemma dget_filter {B} (d : list (Z * B)) k : k <> 0%Z -> dget Z.eqb (filter nz d) k = dget Z.eqb d k.
Proof.
  intros Hk. induction d as [|[k' v'] d IH]; auto. cbn [filter]. unfold nz at 1. cbn [fst dget].
  destruct (Z.eqb_spec k' 0) as [->|H0]; cbn [negb dget].
  - destruct (Z.eqb_spec k 0); [contradiction|auto].
  - now rewrite IH.
Qed.

Lemma sort_util_filter t lim : forall seg v st, sort_util lim (filter nz t) seg v st = sort_util lim t seg v st.
Proof.
  induction lim as [|lim IH]; intros seg v st; auto. cbn [sort_util].
  destruct (Z.eqb_spec seg 0) as [->|H0].
  - cbn [bind]. destruct (dgetE Z.eqb _ 0%Z) as [[|]|]; cbn [bind]; auto. now rewrite IH.
  - unfold dgetE. rewrite dget_filter by auto. destruct (dget Z.eqb t seg) as [o|]; cbn [bind]; auto.
    destruct (dget Z.eqb _ o) as [[|]|]; cbn [bind]; auto. now rewrite IH.
Qed.

Lemma vis0_filter t : vis0 (filter nz t) = vis0 t.
Proof.
  unfold vis0. generalize (@nil (Z * bool)) as v.
  induction t as [|[k o] t IH]; intros v; auto. cbn [filter]. unfold nz at 1. cbn [fst fold_left].
  destruct (Z.eqb_spec k 0) as [->|H0]; cbn [negb fold_left fst dset].
  - apply IH.
  - destruct (Z.eqb_spec k 0); [contradiction|]. apply IH.
Qed.

Lemma foldM_ext {A B} (f g : A -> B -> res A) : (forall s x, f s x = g s x) -> forall l s, foldM f l s = foldM g l s.
Proof. intros H. induction l as [|x l IH]; intros s; auto. cbn [foldM]. rewrite H. destruct (g s x); cbn [bind]; auto. Qed.

Lemma topo_sort_filter lim t : topo_sort lim (filter nz t) = topo_sort lim t.
Proof.
  unfold topo_sort. fold (vis0 (filter nz t)). fold (vis0 t). rewrite vis0_filter. f_equal.
  apply foldM_ext. intros [v st] i. destruct (Z.eqb_spec i 0); auto. destruct (dgetE Z.eqb v i) as [[|]|]; cbn [bind]; auto.
  apply sort_util_filter.
Qed.

(** ** traces that do not end at cell 0 do not depend on it *)
Definition no0 (ids : list Z) : list Z := filter (fun c => negb (c =? 0)%Z) ids.

Lemma memz_no0 ids x : x <> 0%Z -> memz x (no0 ids) = memz x ids.
Proof.
  intros Hx. destruct (memz x ids) eqn:E.
  - apply memz_spec in E. apply memz_spec, filter_In. split; auto. destruct (Z.eqb_spec x 0); [contradiction|auto].
  - apply memz_false in E. apply memz_false. intros H. apply filter_In in H. now apply E.
Qed.

Lemma trace_no0 fdir ids cur : cur <> 0%Z -> forall fuel cell vis,
  sub_trace fuel fdir ids cur cell vis <> Ok 0%Z -> In 0%Z ids ->
  sub_trace fuel fdir (no0 ids) cur cell vis = sub_trace fuel fdir ids cur cell vis.
Proof.
  intros Hcur. induction fuel as [|f IH]; intros cell vis H H0; auto. cbn [sub_trace] in *.
  destruct (memz cell vis); auto. destruct (Z.eqb_spec cell 0) as [->|Hc].
  - (* cell 0 would have ended the trace *)
    exfalso. destruct (Z.eqb_spec 0 cur); [congruence|]. apply memz_spec in H0. rewrite H0 in H. cbn [negb orb] in H. now apply H.
  - rewrite memz_no0 by auto. destruct (negb (memz cell ids) || (cell =? cur)%Z); auto.
    destruct (negb (cell =? cur)%Z).
    + destruct (npget fdir cell); cbn [bind] in *; auto.
    + destruct (npget fdir cell) as [nx|]; cbn [bind] in *; auto. destruct (nx =? cur)%Z; auto.
Qed.

(** the graph built from the traces *)
Definition graph_of (fuel : nat) (fdir ids cells : list Z) (g : list (Z * Z)) : res (list (Z * Z)) :=
  foldM (fun g c => v <- sub_trace fuel fdir ids c c [] ;; Ok (dset Z.eqb g c v)) cells g.

Lemma graph_no0 fuel fdir ids : In 0%Z ids -> forall cells g gr, graph_of fuel fdir ids cells g = Ok gr ->
  (forall c, In c cells -> c <> 0%Z -> sub_trace fuel fdir ids c c [] <> Ok 0%Z) ->
  graph_of fuel fdir (no0 ids) (no0 cells) (filter nz g) = Ok (filter nz gr).
Proof.
  intros H0. unfold graph_of. induction cells as [|c cells IH]; intros g gr E H.
  - cbn in E |- *. inversion E. reflexivity.
  - cbn [foldM] in E. apply bind_ok in E. destruct E as [g1 [E1 E]]. apply bind_ok in E1. destruct E1 as [v [Ev E1]]. inversion E1; subst g1. clear E1.
    apply IH in E; [|intros x Hx; apply H; now right]. rewrite dset_filter in E.
    cbn [no0 filter]. destruct (Z.eqb_spec c 0) as [->|Hc]; cbn [negb]; [exact E|].
    cbn [foldM]. rewrite trace_no0; auto; [|apply H; auto; now left]. rewrite Ev. cbn [bind]. exact E.
Qed.

Lemma topo_filter g : forall t, filter nz (fold_left (fun t kv => add_connection t (fst kv) (snd kv)) g t) =
  fold_left (fun t (kv : Z * Z) => add_connection t (fst kv) (snd kv)) (filter nz g) (filter nz t).
Proof.
  induction g as [|[k v] g IH]; intros t; auto. cbn [fold_left fst snd]. rewrite IH, nz_cons.
  assert (E : filter nz (add_connection t k v) = if (k =? 0)%Z then filter nz t else add_connection (filter nz t) k v) by apply dset_filter.
  rewrite E. destruct (Z.eqb_spec k 0); auto.
Qed.

(** ** the points are looked up by cell number, so their order in the list does not matter *)
Lemma index_get {B} (f : B -> Z -> res B) ids : forall so idxs, mapM (fun c => list_index c ids 0) so = Ok idxs ->
  forall s, foldM (fun s i => c <- get ids i ;; f s c) idxs s = foldM f so s.
Proof.
  assert (L : forall l k c i, list_index c l k = Ok i -> exists j, i = k + j /\ get l j = Ok c).
  { induction l as [|y l IH]; intros k c i E; [discriminate|]. cbn [list_index] in E. destruct (Z.eqb_spec c y) as [->|].
    - inversion E; subst. exists 0. split; [lia|reflexivity].
    - apply IH in E. destruct E as [j [-> E]]. exists (S j). split; [lia|]. exact E. }
  induction so as [|c so IH]; intros idxs E s; cbn [mapM] in E.
  - inversion E. reflexivity.
  - apply bind_ok in E. destruct E as [i [Ei E]]. apply bind_ok in E. destruct E as [r [Er E]]. inversion E; subst. cbn [foldM].
    apply L in Ei. destruct Ei as [j [-> Ej]]. cbn [Nat.add]. rewrite Ej. cbn [bind]. destruct (f s c); cbn [bind]; auto.
Qed.

Lemma index_fails ids so : (exists c, In c so /\ ~ In c ids) -> mapM (fun c => list_index c ids 0) so = Err ValueError.
Proof.
  assert (L : forall l k c, (In c l -> exists i, list_index c l k = Ok i) /\ (~ In c l -> list_index c l k = Err ValueError)).
  { induction l as [|y l IH]; intros k c; cbn [list_index]; split; intros H; try (now destruct H); auto.
    - destruct (Z.eqb_spec c y); [eauto|]. destruct H as [->|H]; [congruence|]. now apply IH.
    - destruct (Z.eqb_spec c y) as [->|]; [exfalso; apply H; now left|]. apply IH. intros X; apply H; now right. }
  intros [c [Hc Hn]]. induction so as [|d so IH]; [destruct Hc|]. cbn [mapM].
  destruct (in_dec Z.eq_dec d ids) as [Hd|Hd].
  - destruct (proj1 (L ids 0 d) Hd) as [i ->]. cbn [bind]. destruct Hc as [->|Hc]; [contradiction|]. now rewrite IH.
  - now rewrite (proj2 (L ids 0 d) Hd).
Qed.

Lemma index_ok ids so : (forall c, In c so -> In c ids) -> exists r, mapM (fun c => list_index c ids 0) so = Ok r.
Proof.
  assert (L : forall l k c, In c l -> exists i, list_index c l k = Ok i).
  { induction l as [|y l IH]; intros k c H; [destruct H|]; cbn [list_index]. destruct (Z.eqb_spec c y); [eauto|]. destruct H as [->|H]; [congruence|]. now apply IH. }
  induction so as [|d so IH]; intros H; [eexists; reflexivity|]. cbn [mapM].
  destruct (L ids 0 d (H d (or_introl eq_refl))) as [i ->]. cbn [bind]. destruct IH as [r ->]; [intros; apply H; now right|]. cbn [bind]. eauto.
Qed.

(** ** A connection to cell 0 puts the segment behind the marker -1 *)
Definition behind (t : topology) (st : list Z) : Prop :=
  exists l1 l2, st = l1 ++ (-1)%Z :: l2 /\ forall s, In s st -> tget t s = Some 0%Z -> In s l2.

Lemma util_behind t : tget t (-1)%Z = Some (-1)%Z -> forall lim seg v st v' st',
  sort_util lim t seg v st = Ok (v', st') -> behind t st -> behind t st'.
Proof.
  intros M1. induction lim as [|lim IH]; intros seg v st v' st' E B; [discriminate|].
  cbn [sort_util] in E. apply bind_ok in E. destruct E as [o [Eo E]]. apply bind_ok in E. destruct E as [b [Eb E]].
  apply bind_ok in E. destruct E as [[v2 st2] [E2 E]]. inversion E; subst v' st'. clear E.
  assert (B2 : behind t st2) by (destruct b; [inversion E2; now subst|eapply IH; eauto]).
  destruct (Z.eqb_spec seg 0) as [->|Hs]; auto. unfold dgetE in Eo. destruct (tget t seg) as [o'|] eqn:Et; [|discriminate]. inversion Eo; subst o'. clear Eo.
  destruct B2 as [l1 [l2 [-> P]]]. destruct (Z.eqb_spec o 0) as [->|Ho].
  - exists l1, (l2 ++ [seg]). split; [now rewrite <- app_assoc|]. intros s Hi Hz. apply in_app_iff in Hi. destruct Hi as [Hi|Hi].
    + apply in_app_iff. left. now apply P.
    + apply in_app_iff. now right.
  - exists (seg :: l1), l2. split; auto. intros s [<-|Hi] Hz; [congruence|]. now apply P.
Qed.

Lemma sort_behind t lim l : tget t (-1)%Z = Some (-1)%Z -> (forall k, In k (map fst t) -> (-1 <= k)%Z) ->
  topo_sort lim t = Ok l -> behind t l.
Proof.
  intros M1 K E. unfold topo_sort in E. fold (vis0 t) in E.
  change (bind (foldM (step t lim) (isort Z.leb (map fst (vis0 t))) (vis0 t, [])) (fun '(_, stack) => Ok stack) = Ok l) in E.
  destruct (vis0_spec t) as [N0 [K0 [F0 T0]]].
  assert (I1 : In (-1)%Z (map fst t)) by (apply (dget_in Z.eqb zeqb) in M1; apply in_map with (f := fst) in M1; exact M1).
  destruct (@isort_min (map fst (vis0 t)) (-1)%Z) as [r Er].
  - apply K0. auto.
  - intros y Hy. apply K0 in Hy. destruct Hy as [->|Hy]; [lia|auto].
  - rewrite Er in E. cbn [foldM] in E.
    destruct (step t lim (vis0 t, []) (-1)%Z) as [[v1 st1]|] eqn:E1; cbn [bind] in E; [|discriminate].
    assert (S1 : st1 = [-1]%Z).
    { unfold step in E1. cbn [Z.eqb] in E1. unfold dgetE in E1. rewrite F0 in E1 by auto.
      cbn [bind] in E1. destruct lim as [|lim']; [discriminate|]. cbn [sort_util] in E1. cbn [Z.eqb] in E1.
      unfold dgetE in E1. rewrite M1 in E1. cbn [bind] in E1. rewrite (dget_dset_eq _ zeqb) in E1. cbn [bind] in E1.
      cbn [Z.eqb] in E1. inversion E1. reflexivity. }
    assert (B1 : behind t st1).
    { subst st1. exists [], []. split; auto. intros s [<-|[]] Hz. congruence. }
    clear E1 S1 Er. revert v1 st1 B1 E. induction r as [|k r IH]; intros v1 st1 B1 E.
    + cbn in E. inversion E; now subst.
    + cbn [foldM] in E. unfold step at 1 in E. destruct (Z.eqb_spec k 0) as [->|Hk]; [cbn [bind] in E; eapply IH; eauto|].
      destruct (dgetE Z.eqb v1 k) as [b|]; cbn [bind] in E; [|discriminate]. destruct b; cbn [bind] in E; [eapply IH; eauto|].
      destruct (sort_util lim t k v1 st1) as [[v2 st2]|] eqn:E2; cbn [bind] in E; [|discriminate].
      eapply IH; [|exact E]. eapply util_behind; eauto.
Qed.

(** ** The two cases *)
(** below pour cell [p], the next pour cell is [q] *)
Definition next_below (fdir : list Z) (pours : list nat) (p q : nat) : Prop :=
  exists k, 0 < k /\ downs fdir k p = q /\ forall j, 0 < j < k -> ~ In (downs fdir j p) pours.

Section Zero.
  Variable fdir : list Z.
  Notation N := (length fdir).
  Hypothesis V : valid_fdir fdir.
  Variable pours : list nat.
  Hypothesis Hlt : forall p, In p pours -> p < N.
  Hypothesis H0 : In 0 pours.
  Notation ids := (map Z.of_nat pours).

  Lemma next_pour_0 p : In p pours -> p <> 0 ->
    (next_pour fdir pours p 0 <-> next_below fdir pours p 0).
  Proof.
    intros Hp Hn. split.
    - intros [_ [_ [k [Hk [E H]]]]]. revert Hk E H. induction k as [k IH] using lt_wf_ind. intros Hk E H.
      destruct (in_dec Nat.eq_dec 0 (map (fun j => if in_dec Nat.eq_dec (downs fdir j p) pours then 0 else 1) (seq 1 (k - 1)))) as [Hi|Hi].
      + apply in_map_iff in Hi. destruct Hi as [j [Ej Hj]]. apply in_seq in Hj. destruct (in_dec Nat.eq_dec (downs fdir j p) pours) as [Hi|]; [|discriminate].
        assert (Q := H j ltac:(lia) Hi). apply (IH (k - j)); try lia.
        * replace k with (j + (k - j)) in E by lia. rewrite downs_add, Q in E. exact E.
        * intros i Hi' Hin. assert (X := H (j + i) ltac:(lia)). rewrite downs_add, Q in X. auto.
      + exists k. split; auto. split; auto. intros j Hj Hin. apply Hi. apply in_map_iff. exists j.
        split; [destruct (in_dec Nat.eq_dec (downs fdir j p) pours); [auto|contradiction]|apply in_seq; lia].
    - intros [k [Hk [E H]]]. split; auto. split; auto. exists k. split; auto. split; auto. intros j Hj Hin. now apply H in Hin.
  Qed.

  Lemma tr_val_0 p z : In p pours -> p <> 0 -> tr_val fdir pours p z -> (z = 0%Z <-> next_below fdir pours p 0).
  Proof.
    intros Hp Hn T. split.
    - intros ->. destruct T as [[q [E Hq]]|[E _]]; [|discriminate]. replace q with 0 in Hq by lia. now apply next_pour_0.
    - intros [k0 [Hk0 [E0 H]]]. destruct T as [[q [-> [Hq [Hne [k [Hk [E Hk']]]]]]]|[-> Hno]].
      + destruct (Nat.lt_trichotomy k k0) as [L|[->|L]].
        * exfalso. apply (H k ltac:(lia)). now rewrite E.
        * lia.
        * exfalso. apply Hn. rewrite <- (Hk' k0 ltac:(lia)); rewrite E0; auto.
      + exfalso. apply Hn. rewrite <- (Hno k0); rewrite E0; auto.
  Qed.

  Lemma trace_ok fuel p : In p pours -> 2 * N + 1 < fuel ->
    exists z, sub_trace fuel fdir ids (Z.of_nat p) (Z.of_nat p) [] = Ok z /\ tr_val fdir pours p z.
  Proof.
    intros Hp Hf. apply (@trace_spec fdir V pours p (Hlt Hp) fuel 0 []).
    - intros; lia.
    - constructor.
    - intros x. split; [intros []|]. intros [j [Hj _]]. lia.
    - simpl. destruct (Nat.eq_dec p p); lia.
  Qed.

  (** C28: a pour point whose water reaches the pour point at cell 0 next makes the call fail *)
  Theorem C28_pour_above_cell_0_fails lim fuel p : In p pours -> p <> 0 -> next_below fdir pours p 0 ->
    length pours + 2 <= lim -> 2 * N + 2 <= fuel ->
    get_subbasins lim fuel fdir ids = Err ValueError.
  Proof.
    intros Hp Hn HB Hlim Hfuel. unfold get_subbasins.
    destruct (@graph_fold fdir V pours Hlt fuel ltac:(lia) pours []) as [g [Eg [NDg [Hg Hgk]]]]; auto.
    { constructor. } { intros k z H. discriminate. }
    rewrite Eg. cbn [bind].
    destruct (@topo_fold g [] NDg (NoDup_nil _)) as [ND1 [K1 G1]].
    set (t1 := fold_left (fun t (kv : Z * Z) => add_connection t (fst kv) (snd kv)) g []) in *.
    assert (Hm1g : ~ In (-1)%Z (map fst t1)).
    { rewrite K1, Hgk. simpl. intros [[]|[[]|H]]. apply in_map_iff in H. destruct H as [x [Hx _]]. lia. }
    set (t := add_connection t1 (-1)%Z (-1)%Z).
    assert (NDt : NoDup (map fst t)) by (apply dset_nodup; auto; apply zeqb).
    assert (Hkeys : forall k, In k (map fst t) <-> k = (-1)%Z \/ exists p, k = Z.of_nat p /\ In p pours).
    { intros k. unfold t, add_connection. rewrite dset_keys. destruct (dhas Z.eqb t1 (-1)%Z) eqn:Eh.
      { apply (dhas_spec Z.eqb zeqb) in Eh. contradiction. }
      rewrite in_app_iff, K1, Hgk. simpl. rewrite in_map_iff. split.
      - intros [[[]|[[]|[q [<- Hq]]]]|[<-|[]]]; eauto.
      - intros [->|[q [-> Hq]]]; auto. left. right. right. eauto. }
    assert (Ht : forall p z, In p pours -> tget t (Z.of_nat p) = Some z -> tr_val fdir pours p z).
    { intros q z Hq. unfold t, add_connection. rewrite (dget_dset_neq _ zeqb) by lia. rewrite G1.
      destruct (tget g (Z.of_nat q)) as [z'|] eqn:E; simpl; [|discriminate]. intros X. inversion X; subst.
      destruct (Hg _ _ E) as [q' [Eq [_ Hq']]]. apply Nat2Z.inj in Eq. now subst. }
    assert (Hm1 : tget t (-1)%Z = Some (-1)%Z) by (apply (dget_dset_eq _ zeqb)).
    assert (Hlen : length t <= S (length pours)).
    { rewrite <- (map_length fst t). apply (NoDup_incl_length (l' := (-1)%Z :: ids)) in NDt.
      - simpl in NDt. rewrite !map_length in NDt. rewrite map_length. lia.
      - intros k Hk. apply Hkeys in Hk. simpl. destruct Hk as [->|[q [-> Hq]]]; auto. right. now apply in_map. }
    destruct (@topo_sort_total t lim NDt (@t_closed fdir pours t Hkeys Ht Hm1)) as [l El]; [lia|].
    rewrite El. cbn [bind].
    destruct (topo_sort_ok t lim NDt El) as [v [I Hl]].
    destruct (@sort_behind t lim l Hm1) as [l1 [l2 [El2 P]]]; auto.
    { intros k Hk. apply Hkeys in Hk. destruct Hk as [->|[q [-> _]]]; lia. }
    assert (Ip : In (Z.of_nat p) l) by (apply Hl; split; [lia|]; apply Hkeys; eauto).
    assert (Tp : tget t (Z.of_nat p) = Some 0%Z).
    { destruct (s_key I _ Ip) as [z Hz]. rewrite Hz. f_equal. now apply (tr_val_0 Hp Hn (Ht _ _ Hp Hz)). }
    assert (P2 := P _ Ip Tp).
    rewrite (@index_fails ids (removelast l)); [reflexivity|].
    exists (-1)%Z. split; [|intros X; apply in_map_iff in X; destruct X as [x [Hx _]]; lia].
    subst l. rewrite removelast_app by discriminate. apply in_app_iff. right.
    destruct l2 as [|a l2]; [destruct P2|]. now left.
  Qed.

  (** C28: otherwise the pour point at cell 0 is ignored *)
  Theorem C28_pour_at_cell_0_ignored lim fuel : (forall p, In p pours -> p <> 0 -> ~ next_below fdir pours p 0) ->
    length pours + 2 <= lim -> 2 * N + 2 <= fuel ->
    get_subbasins lim fuel fdir ids = get_subbasins lim fuel fdir (map Z.of_nat (filter (fun p => negb (p =? 0)) pours)).
  Proof.
    intros HB Hlim Hfuel.
    assert (EI : map Z.of_nat (filter (fun p => negb (p =? 0)) pours) = no0 ids).
    { clear. induction pours as [|p l IH]; auto. cbn [map filter no0]. destruct (Nat.eqb_spec p 0) as [->|H]; cbn [negb].
      - exact IH.
      - destruct (Z.eqb_spec (Z.of_nat p) 0); [lia|]. cbn [negb map]. f_equal. exact IH. }
    rewrite EI. unfold get_subbasins.
    destruct (@graph_fold fdir V pours Hlt fuel ltac:(lia) pours []) as [g [Eg [NDg [Hg Hgk]]]]; auto.
    { constructor. } { intros k z H. discriminate. }
    assert (I0 : In 0%Z ids) by (change 0%Z with (Z.of_nat 0); now apply in_map).
    assert (E' := @graph_no0 fuel fdir ids I0 ids [] g Eg). unfold graph_of in E'. cbn [filter] in E'. rewrite E'.
    2:{ intros c Hc Hc0 Ec. apply in_map_iff in Hc. destruct Hc as [p [<- Hp]].
        destruct (@trace_ok fuel p Hp ltac:(lia)) as [z [Ez Hz]]. assert (z = 0%Z) by congruence. subst z.
        apply (HB p Hp ltac:(lia)). now apply (tr_val_0 Hp ltac:(lia) Hz). }
    rewrite Eg. cbn [bind].
    set (t1 := fold_left (fun t (kv : Z * Z) => add_connection t (fst kv) (snd kv)) g []).
    assert (T1 := topo_filter g []). fold t1 in T1. cbn [filter] in T1. rewrite <- T1.
    assert (T2 : add_connection (filter nz t1) (-1) (-1) = filter nz (add_connection t1 (-1) (-1))) by (unfold add_connection; now rewrite dset_filter).
    rewrite T2, topo_sort_filter. destruct (topo_sort lim (add_connection t1 (-1) (-1))) as [l|] eqn:El; cbn [bind]; auto.
    assert (NDt : NoDup (map fst (add_connection t1 (-1)%Z (-1)%Z))).
    { apply dset_nodup; [apply zeqb|]. apply (@topo_fold g [] NDg (NoDup_nil _)). }
    destruct (topo_sort_ok _ lim NDt El) as [v [I Hl]].
    assert (NZ : forall c, In c (removelast l) -> c <> 0%Z).
    { intros c Hc ->. apply (s_nz I). clear - Hc. induction l as [|a [|b l] IH]; try (now destruct Hc). destruct Hc as [->|Hc]; [now left|right; auto]. }
    destruct (Forall_dec (fun c => In c ids) (fun c => in_dec Z.eq_dec c ids) (removelast l)) as [F|F].
    - rewrite Forall_forall in F.
      assert (F' : forall c, In c (removelast l) -> In c (no0 ids)).
      { intros c Hc. apply filter_In. split; auto. specialize (NZ c Hc). destruct (Z.eqb_spec c 0); [contradiction|auto]. }
      destruct (index_ok F) as [r Er]. destruct (index_ok F') as [r' Er']. rewrite Er, Er'. cbn [bind].
      rewrite (index_get (fun sub c => get_watershed_boundary fuel fdir c (Some sub)) Er).
      now rewrite (index_get (fun sub c => get_watershed_boundary fuel fdir c (Some sub)) Er').
    - apply neg_Forall_Exists_neg in F; [|intros c; destruct (in_dec Z.eq_dec c ids); auto].
      apply Exists_exists in F. destruct F as [c [Hc Hn]].
      rewrite (@index_fails ids), (@index_fails (no0 ids)); auto; [exists c; split; auto|exists c; split; auto].
      intros X. apply filter_In in X. now apply Hn.
  Qed.
End Zero.

(** Both cases together, with C27 for the remaining pour points. *)
Theorem C28_cell_0_exactly : forall fdir pours lim fuel,
  valid_fdir fdir -> (forall p, In p pours -> p < length fdir) -> In 0 pours ->
  (forall p q, In p pours -> In q pours -> p <> q -> flows_through fdir p q -> ~ flows_through fdir q p) ->
  length pours + 2 <= lim -> 2 * length fdir + 2 <= fuel ->
  ((exists p, In p pours /\ p <> 0 /\ next_below fdir pours p 0) ->
     get_subbasins lim fuel fdir (map Z.of_nat pours) = Err ValueError) /\
  ((forall p, In p pours -> p <> 0 -> ~ next_below fdir pours p 0) ->
     let rest := filter (fun p => negb (p =? 0)) pours in
     exists out order, get_subbasins lim fuel fdir (map Z.of_nat pours) = Ok out /\
      length out = length fdir /\ NoDup order /\ (forall p, In p order <-> In p pours /\ p <> 0) /\
      (forall i p c, nth_error order i = Some p -> c < length fdir -> first_pour fdir rest c p ->
         nth_error out c = Some (Z.of_nat (i + 1))) /\
      (forall c, c < length fdir -> (forall p, In p pours -> p <> 0 -> ~ flows_through fdir c p) ->
         nth_error out c = Some 0%Z)).
Proof.
  intros fdir pours lim fuel V Hlt H0 HC Hlim Hf. split.
  - intros [p [Hp [Hn HB]]]. eapply C28_pour_above_cell_0_fails; eauto.
  - intros HB rest. assert (IR : forall p, In p rest <-> In p pours /\ p <> 0).
    { intros p. unfold rest. rewrite filter_In. destruct (Nat.eqb_spec p 0); cbn [negb]; intuition congruence. }
    rewrite (@C28_pour_at_cell_0_ignored fdir V pours Hlt H0 lim fuel HB Hlim Hf). fold rest.
    assert (LR : length rest <= length pours) by (unfold rest; clear; induction pours as [|p l IH]; simpl; [lia|destruct (negb (p =? 0)); simpl; lia]).
    destruct (@C27_subbasins_first_pour fdir rest lim fuel V) as [out [order [E [L [ND [IO [A B]]]]]]]; auto.
    + intros p Hp. apply Hlt. now apply IR.
    + intros X. apply IR in X. now destruct X.
    + intros p q Hp Hq. apply HC; now apply IR.
    + lia.
    + exists out, order. split; auto. split; auto. split; auto. split; [intros p; now rewrite IO|]. split; auto.
      intros c Hc Hno. apply B; auto. intros p Hp. apply IR in Hp. now apply Hno.
Qed.

Module Ex28.
  (** a row that drains to cell 0, and one that drains the other way *)
  Example fails : exists p, In p [0; 2] /\ p <> 0 /\ next_below [0; 0; 1]%Z [0; 2] p 0.
  Proof. exists 2. split; [simpl; auto|]. split; auto. exists 2. split; [lia|]. split; auto. intros j Hj. replace j with 1 by lia. intros [X|[X|[]]]; vm_compute in X; discriminate. Qed.
  Example ignored : get_subbasins 100 100 [1; 2; 3; 3]%Z [0; 2]%Z = Ok [1; 1; 1; 0]%Z /\
    forall p, In p [0; 2] -> p <> 0 -> ~ next_below [1; 2; 3; 3]%Z [0; 2] p 0.
  Proof.
    split; [vm_compute; reflexivity|]. intros p [<-|[<-|[]]] Hp; [congruence|]. intros [k [Hk [E _]]].
    assert (X : forall j, 2 <= downs [1; 2; 3; 3]%Z j 2 /\ 2 <= downs [1; 2; 3; 3]%Z j 3) by (induction j as [|j [I1 I2]]; simpl; auto).
    destruct (X k) as [X1 _]. lia.
  Qed.
End Ex28.
