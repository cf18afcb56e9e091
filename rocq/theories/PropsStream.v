(** C29, C30, C34-C41: stream delineation and MODFLOW 6 reaches.

    Stream arrays and flow directions are raveled arrays; a cell is a stream cell if its
    entry is not 0.  [lim] is the number of stack frames available to the topological sort. *)
From Verif Require Import Py Spec MFlow LGraph LTopo MStream LStream LConn PropsAcc.
Set Implicit Arguments.
Local Open Scope nat_scope.
Local Open Scope list_scope.

(** ** C29 *)
(** the threshold that applies to cell [c] *)
Definition threshold_at {T} (t : threshold T) (c : nat) (x : T) : Prop :=
  match t with Scalar s => x = s | PerCell l => nth_error l c = Some x end.

Lemma above_nth {T} (ge : T -> T -> bool) facc t out c a : above ge facc t = Ok out -> nth_error facc c = Some a ->
  exists x, threshold_at t c x /\ nth_error out c = Some (if ge a x then 1 else 0)%Z.
Proof.
  intros E H. destruct t as [s|l]; simpl in E.
  - inversion E; subst. exists s. split; [reflexivity|]. rewrite nth_error_map, H. reflexivity.
  - destruct (Nat.eqb_spec (length l) (length facc)) as [L|L]; [|discriminate]. cbn [negb] in E. inversion E; subst.
    destruct (nth_error l c) as [x|] eqn:Ex.
    + exists x. split; auto. rewrite nth_error_map.
      assert (Ec : nth_error (combine facc l) c = Some (a, x)) by (now apply nth_error_combine). now rewrite Ec.
    + exfalso. apply nth_error_None in Ex. assert (c < length facc) by (apply nth_error_Some; congruence). lia.
Qed.

Lemma above_length {T} (ge : T -> T -> bool) facc t out : above ge facc t = Ok out -> length out = length facc.
Proof.
  destruct t as [s|l]; simpl.
  - intros E. inversion E. apply map_length.
  - destruct (Nat.eqb_spec (length l) (length facc)); [|discriminate]. intros E. inversion E. rewrite map_length, combine_length. lia.
Qed.

(** what delineate_streams returns, cell by cell *)
Theorem C29_cells :
  forall (T : Type) (ge : T -> T -> bool) facc t basin out,
    delineate_streams ge facc t basin = Ok out ->
    length out = length facc /\
    forall c a, nth_error facc c = Some a ->
      exists x, threshold_at t c x /\
        (nth_error out c = Some 1%Z <->
           ge a x = true /\ forall b, basin = Some b -> nth_error b c <> Some 0%Z) /\
        (nth_error out c = Some 0%Z \/ nth_error out c = Some 1%Z).
Proof.
  intros T ge facc t basin out E. unfold delineate_streams in E. apply bind_ok in E. destruct E as [strm [Ea E]].
  assert (La := above_length _ _ _ Ea). destruct basin as [b|].
  - destruct (Nat.eqb_spec (length b) (length strm)) as [Lb|Lb]; [|discriminate]. cbn [negb] in E. inversion E; subst. clear E.
    split; [rewrite map_length, combine_length; lia|]. intros c a Hc.
    destruct (above_nth _ _ _ _ Ea Hc) as [x [Hx Ho]]. exists x. split; auto.
    assert (Hl : c < length b) by (rewrite Lb, La; apply nth_error_Some; congruence).
    destruct (nth_error b c) as [z|] eqn:Ez; [|apply nth_error_None in Ez; lia].
    rewrite nth_error_map. assert (Ec : nth_error (combine strm b) c = Some ((if ge a x then 1 else 0)%Z, z)) by (now apply nth_error_combine).
    rewrite Ec. cbn [option_map fst snd]. destruct (Z.eqb_spec z 0) as [->|Nz].
    + split; [|auto]. split; [discriminate|]. intros [_ H]. exfalso. apply (H b); auto.
    + split; [|destruct (ge a x); auto]. destruct (ge a x); split; intros H; auto; try discriminate; try (now destruct H).
      split; auto. intros b' Eb. inversion Eb; subst. congruence.
  - inversion E; subst. split; auto. intros c a Hc. destruct (above_nth _ _ _ _ Ea Hc) as [x [Hx Ho]]. exists x.
    split; auto. rewrite Ho. split; [|destruct (ge a x); auto].
    destruct (ge a x); split; intros H; auto; try discriminate; try (now destruct H). all: split; auto; intros; discriminate.
Qed.

(** a larger threshold and a smaller basin can only remove stream cells *)
Theorem C29_threshold_monotone :
  forall (T : Type) (ge : T -> T -> bool) facc t1 t2 basin1 basin2 out1 out2,
    (forall a x y, ge a y = true -> ge y x = true -> ge a x = true) ->
    (forall c x1 x2, threshold_at t1 c x1 -> threshold_at t2 c x2 -> ge x2 x1 = true) ->
    (forall b1 c, basin1 = Some b1 -> nth_error b1 c = Some 0%Z ->
       exists b2, basin2 = Some b2 /\ nth_error b2 c = Some 0%Z) ->
    delineate_streams ge facc t1 basin1 = Ok out1 -> delineate_streams ge facc t2 basin2 = Ok out2 ->
    forall c, nth_error out2 c = Some 1%Z -> nth_error out1 c = Some 1%Z.
Proof.
  intros T ge facc t1 t2 b1 b2 out1 out2 Tr Hle Hb E1 E2 c Hc.
  destruct (C29_cells _ _ _ _ E1) as [L1 H1]. destruct (C29_cells _ _ _ _ E2) as [L2 H2].
  destruct (nth_error facc c) as [a|] eqn:Ha.
  - destruct (H1 c a Ha) as [x1 [X1 [A1 _]]]. destruct (H2 c a Ha) as [x2 [X2 [A2 _]]].
    apply A2 in Hc. destruct Hc as [Hg Hm]. apply A1. split.
    + eapply Tr; eauto.
    + intros b Eb X. destruct (Hb b c Eb X) as [b' [Eb' X']]. apply (Hm b' Eb' X').
  - exfalso. apply nth_error_None in Ha. assert (c < length out2) by (apply nth_error_Some; congruence). lia.
Qed.

(** ** C30 *)
(** an ordered type of areas with exact addition *)
Definition ordered_sum {W} (wadd : W -> W -> W) (wzero : W) (ge : W -> W -> bool) : Prop :=
  exact_sum wadd wzero /\ (forall a, ge a a = true) /\
  (forall a b c, ge a b = true -> ge b c = true -> ge a c = true) /\
  (forall a b c, ge a b = true -> ge (wadd a c) (wadd b c) = true).

Lemma sum_over_mono {W} (wadd : W -> W -> W) wzero ge (w : nat -> W) (P Q : nat -> Prop) n a b :
  ordered_sum wadd wzero ge -> (forall c, c < n -> ge (w c) wzero = true) ->
  (forall c, c < n -> P c -> Q c) ->
  sum_over wadd wzero w P n a -> sum_over wadd wzero w Q n b -> ge b a = true.
Proof.
  intros [[C1 [C2 C3]] [O1 [O2 O3]]] Hw. revert a b. induction n as [|n IH]; intros a b HPQ Ha Hb.
  - inversion Ha; inversion Hb; subst. apply O1.
  - assert (Hw' : ge (w n) wzero = true) by (apply Hw; lia).
    inversion Ha as [|n1 s1 S1 P1|n1 s1 S1 P1]; subst; inversion Hb as [|n2 s2 S2 Q2|n2 s2 S2 Q2]; subst.
    + apply O3. eapply IH; eauto; intros; try apply Hw; try apply HPQ; auto; lia.
    + exfalso. apply Q2, HPQ; auto.
    + assert (X : ge s2 a = true) by (eapply IH; eauto; intros; try apply Hw; try apply HPQ; auto; lia).
      eapply O2; [|exact X]. rewrite <- (C3 s2) at 2. rewrite (C1 s2 (w n)), (C1 s2 wzero). now apply O3.
    + eapply IH; eauto; intros; try apply Hw; try apply HPQ; auto; lia.
Qed.

Theorem C30_streams_run_on :
  forall (W : Type) (wadd : W -> W -> W) (wzero : W) (ge : W -> W -> bool) fdir area fuel facc t out,
    ordered_sum wadd wzero ge ->
    valid_fdir fdir -> acyclic fdir -> length area = length fdir -> S (length fdir) <= fuel ->
    Forall (fun a => ge a wzero = true) area ->
    flow_accumulation_area wadd wzero fuel fdir area = Ok facc ->
    delineate_streams ge facc (Scalar t) None = Ok out ->
    forall c, c < length fdir -> nth_error out c = Some 1%Z -> nth_error out (down fdir c) = Some 1%Z.
Proof.
  intros W wadd wzero ge fdir area fuel facc t out O V A La Hf Hw Ef Ed c Hc Ho.
  assert (Hd : down fdir c < length fdir) by (now apply down_lt).
  destruct (@C20_accumulated_area W wadd wzero fdir area fuel facc (proj1 O) V La Hf Ef c Hc (A c Hc)) as [s [Hs Ss]].
  destruct (@C20_accumulated_area W wadd wzero fdir area fuel facc (proj1 O) V La Hf Ef _ Hd (A _ Hd)) as [s' [Hs' Ss']].
  assert (G : ge s' s = true).
  { eapply sum_over_mono; [exact O| | |exact Ss|exact Ss'].
    - intros i Hi. rewrite Forall_forall in Hw. apply Hw. apply nth_In. lia.
    - intros i Hi [k Hk]. exists (S k). rewrite downs_S. now rewrite Hk. }
  destruct (C29_cells _ _ _ _ Ed) as [Lo H].
  destruct (H c s Hs) as [x [Hx [Hi _]]]. destruct (H _ s' Hs') as [x' [Hx' [Hi' _]]]. simpl in Hx, Hx'. subst.
  apply Hi'. apply Hi in Ho. destruct Ho as [Ho _]. split; [|intros; discriminate].
  destruct O as [_ [_ [Tr _]]]. eapply Tr; eauto.
Qed.

(** the same for accumulation in cells *)
Theorem C30_streams_run_on_cells :
  forall (W : Type) (wadd : W -> W -> W) (wzero : W) fdir (area : list W) fuel facc t out,
    valid_fdir fdir -> acyclic fdir -> length area = length fdir -> S (length fdir) <= fuel ->
    flow_accumulation_cells wadd wzero fuel fdir area = Ok facc ->
    delineate_streams Z.geb facc (Scalar t) None = Ok out ->
    forall c, c < length fdir -> nth_error out c = Some 1%Z -> nth_error out (down fdir c) = Some 1%Z.
Proof.
  intros W wadd wzero fdir area fuel facc t out V A La Hf Ef Ed c Hc Ho.
  assert (Hd : down fdir c < length fdir) by (now apply down_lt).
  destruct (@C19_accumulated_cells W wadd wzero fdir area fuel facc V La Hf Ef c Hc (A c Hc)) as [l [[ND Hl] Hs]].
  destruct (@C19_accumulated_cells W wadd wzero fdir area fuel facc V La Hf Ef _ Hd (A _ Hd)) as [l' [[ND' Hl'] Hs']].
  assert (G : length l <= length l').
  { apply NoDup_incl_length; auto. intros i Hi. apply Hl in Hi. destruct Hi as [Hi [k Hk]]. apply Hl'. split; auto.
    exists (S k). rewrite downs_S. now rewrite Hk. }
  destruct (C29_cells _ _ _ _ Ed) as [Lo H].
  destruct (H c _ Hs) as [x [Hx [Hi _]]]. destruct (H _ _ Hs') as [x' [Hx' [Hi' _]]]. simpl in Hx, Hx'. subst.
  apply Hi'. apply Hi in Ho. destruct Ho as [Ho _]. split; [|intros; discriminate].
  rewrite Z.geb_leb, Z.leb_le in *. lia.
Qed.

(** ** C34 *)
Theorem C34_reaches_number_the_cells :
  forall fdir strm lim s2 g,
    valid_fdir fdir -> length strm = length fdir ->
    mf6_connectivity lim fdir strm = Ok (s2, g) ->
    let n := Z.of_nat (length g) in
    length s2 = length strm /\
    (* every reach number 1..n is on exactly one cell, a stream cell *)
    (forall r, (1 <= r <= n)%Z -> exists c, nth_error s2 c = Some r /\ (forall c', nth_error s2 c' = Some r -> c' = c)) /\
    (forall c, c < length strm -> nth_error strm c <> Some 0%Z -> exists r, (1 <= r <= n)%Z /\ nth_error s2 c = Some r) /\
    (* the other cells hold 0 *)
    (forall c, nth_error strm c = Some 0%Z -> nth_error s2 c = Some 0%Z) /\
    (* the keys of the graph are 1..n *)
    NoDup (map fst g) /\ (forall r, In r (map fst g) <-> (1 <= r <= n)%Z).
Proof.
  intros fdir strm lim s2 g V L E n. destruct (mf6_spec strm lim V L E) as [order R].
  assert (Lg : length g = length order) by (rewrite (r_graph R); apply map_length).
  assert (L2 := r_len R).
  assert (Hn : forall c, In c (nonzero strm) -> exists r, (1 <= r <= n)%Z /\ nth_error s2 c = Some r).
  { intros c Hc. assert (Hl := Hc). apply in_nonzero in Hl. apply (order_in R), In_nth_error in Hc. destruct Hc as [i Hi].
    exists (Z.of_nat (S i)). assert (i < length order) by (apply nth_error_Some; congruence). split; [lia|].
    rewrite (nth_error_nth' s2 0%Z) by lia. now rewrite (r_at R _ Hi). }
  split; [lia|]. split; [|split; [|split; [|split]]].
  - intros r Hr. destruct (nth_error order (Z.to_nat r - 1)) as [c|] eqn:Ec; [|apply nth_error_None in Ec; lia].
    assert (Er : nth c s2 0%Z = r) by (rewrite (r_at R _ Ec); lia).
    assert (Hc : In c (nonzero strm)) by (apply (order_in R); eapply nth_error_In; eauto).
    exists c. assert (Hl := Hc). apply in_nonzero in Hl. split.
    + rewrite (nth_error_nth' s2 0%Z) by lia. now rewrite Er.
    + intros c' Hc'. apply nth_error_nth with (d := 0%Z) in Hc'. apply (s2_inj R); auto; [|congruence].
      apply (s2_nonzero R). lia.
  - intros c Hc Hz. apply Hn. apply in_nonzero. split; auto. intros X. apply Hz. rewrite (nth_error_nth' strm 0%Z) by auto. now rewrite X.
  - intros c Hc. assert (c < length strm) by (apply nth_error_Some; congruence).
    rewrite (nth_error_nth' s2 0%Z) by lia. f_equal. apply (r_off R). rewrite in_nonzero.
    apply nth_error_nth with (d := 0%Z) in Hc. tauto.
  - apply (g_nodup R).
  - intros r. rewrite (g_keys R), in_map_iff. split.
    + intros [k [<- Hk]]. apply in_seq in Hk. lia.
    + intros Hr. exists (Z.to_nat r). split; [lia|]. apply in_seq. lia.
Qed.

(** it succeeds when the recursion limit exceeds the number of stream cells *)
Theorem C34_connectivity_succeeds :
  forall fdir strm lim,
    valid_fdir fdir -> length strm = length fdir -> length strm + 1 <= lim ->
    exists s2 g, mf6_connectivity lim fdir strm = Ok (s2, g).
Proof.
  intros fdir strm lim V L Hl. apply mf6_total; auto. assert (X := where_length (fun z => negb (z =? 0)%Z) strm).
  unfold nonzero. lia.
Qed.

(** ** C35 *)
Theorem C35_graph_follows_flow :
  forall fdir strm lim s2 g,
    valid_fdir fdir -> length strm = length fdir ->
    mf6_connectivity lim fdir strm = Ok (s2, g) ->
    forall r to, In (r, to) g <->
      exists c, c < length strm /\ nth_error strm c <> Some 0%Z /\ nth_error s2 c = Some r /\
        (* [to] is the reach of the cell below, or 0 if that is not a stream cell *)
        (nth_error strm (down fdir c) = Some 0%Z -> to = 0%Z) /\
        (nth_error strm (down fdir c) <> Some 0%Z -> nth_error s2 (down fdir c) = Some to).
Proof.
  intros fdir strm lim s2 g V L E r to. destruct (mf6_spec strm lim V L E) as [order R]. assert (L2 := r_len R).
  rewrite (g_in R). split.
  - intros [c [Hc [-> ->]]]. apply in_nonzero in Hc. destruct Hc as [Hc Hz]. exists c. split; auto.
    assert (Hd : down fdir c < length fdir) by (apply down_lt; auto; lia).
    split; [rewrite (nth_error_nth' strm 0%Z) by auto; congruence|].
    split; [apply nth_error_nth'; lia|]. split.
    + intros X. apply nth_error_nth with (d := 0%Z) in X. apply (r_off R). rewrite in_nonzero. tauto.
    + intros X. apply nth_error_nth'. lia.
  - intros [c [Hc [Hz [Hr [H1 H2]]]]]. rewrite (nth_error_nth' strm 0%Z) in Hz by auto.
    assert (Hd : down fdir c < length fdir) by (apply down_lt; auto; lia).
    exists c. split; [apply in_nonzero; split; auto; congruence|]. apply nth_error_nth with (d := 0%Z) in Hr. split; auto.
    rewrite (nth_error_nth' strm 0%Z) in H1, H2 by lia.
    destruct (Z.eq_dec (nth (down fdir c) strm 0%Z) 0) as [Ez|Ez].
    + rewrite Ez in *. rewrite H1 by auto. symmetry. apply (r_off R). rewrite in_nonzero. tauto.
    + symmetry. apply nth_error_nth. apply H2. congruence.
Qed.

(** a sink (flow direction -2) is linked to the reach in cell N-2 *)
Theorem C35_sink_is_linked_refuted :
  (* cell 0 is a sink marked -2; the graph sends its reach to the reach in cell 2 *)
  exists s2 g, mf6_connectivity 100 [-2; 2; 3; 3]%Z [1; 1; 1; 0]%Z = Ok (s2, g) /\
    exists r, nth_error s2 0 = Some r /\ nth_error s2 2 = Some 3%Z /\ In (r, 3%Z) g.
Proof. eexists _, _. split; [vm_compute; reflexivity|]. exists 2%Z. vm_compute. auto. Qed.

(** ** C36 *)
Theorem C36_numbers_increase :
  forall fdir strm lim s2 g,
    valid_fdir fdir -> acyclic fdir -> length strm = length fdir ->
    mf6_connectivity lim fdir strm = Ok (s2, g) ->
    forall r to, In (r, to) g -> to = 0%Z \/ to = r \/ (r < to)%Z.
Proof.
  intros fdir strm lim s2 g V A L E r to H. destruct (mf6_spec strm lim V L E) as [order R].
  apply (g_in R) in H. destruct H as [c [Hc [-> ->]]].
  destruct (in_dec Nat.eq_dec (down fdir c) (nonzero strm)) as [Hd|Hd]; [|left; now apply (r_off R)].
  destruct (Nat.eq_dec (down fdir c) c) as [Ec|Ec]; [right; left; now rewrite Ec|].
  right. right. apply (r_ord R); auto. intros [k Hk]. apply (A c).
  - apply in_nonzero in Hc. lia.
  - split; auto. exists (S k). split; [lia|]. exact Hk.
Qed.

(** without the hypothesis: no link inside a cycle-free part of the network goes backwards *)
Theorem C36_numbers_increase_off_cycles :
  forall fdir strm lim s2 g,
    valid_fdir fdir -> length strm = length fdir ->
    mf6_connectivity lim fdir strm = Ok (s2, g) ->
    forall c r to, nth_error s2 c = Some r -> r <> 0%Z -> In (r, to) g -> ~ on_cycle fdir c ->
      to = 0%Z \/ to = r \/ (r < to)%Z.
Proof.
  intros fdir strm lim s2 g V L E c r to Hr Nr H A. destruct (mf6_spec strm lim V L E) as [order R].
  apply (g_in R) in H. destruct H as [c' [Hc' [Er ->]]].
  apply nth_error_nth with (d := 0%Z) in Hr.
  assert (c = c') by (apply (s2_inj R); auto; [apply (s2_nonzero R); congruence|congruence]). subst c' r.
  destruct (in_dec Nat.eq_dec (down fdir c) (nonzero strm)) as [Hd|Hd]; [|left; now apply (r_off R)].
  destruct (Nat.eq_dec (down fdir c) c) as [Ec|Ec]; [right; left; now rewrite Ec|].
  right. right. apply (r_ord R); auto. intros [k Hk]. apply A. split; auto. exists (S k). split; [lia|]. exact Hk.
Qed.

(** ** C37 *)
Theorem C37_numbering_depends_on_cells_only :
  forall fdir a b lim,
    length a = length b ->
    (forall c, nth_error a c = Some 0%Z <-> nth_error b c = Some 0%Z) ->
    mf6_connectivity lim fdir a = mf6_connectivity lim fdir b.
Proof.
  intros fdir a b lim L H. apply mf6_same; auto. intros c.
  destruct (Nat.lt_ge_cases c (length a)).
  - specialize (H c). rewrite (nth_error_nth' a 0%Z), (nth_error_nth' b 0%Z) in H by lia.
    split; intros X; [assert (Some (nth c b 0%Z) = Some 0%Z) by (apply H; congruence)|assert (Some (nth c a 0%Z) = Some 0%Z) by (apply H; congruence)]; congruence.
  - rewrite !nth_overflow by lia. tauto.
Qed.

Theorem C37_renumbering_repeats :
  forall fdir strm lim s2 g,
    valid_fdir fdir -> length strm = length fdir ->
    mf6_connectivity lim fdir strm = Ok (s2, g) ->
    mf6_connectivity lim fdir s2 = Ok (s2, g).
Proof.
  intros fdir strm lim s2 g V L E. rewrite <- E. destruct (mf6_spec strm lim V L E) as [order R].
  apply mf6_same; [rewrite (r_len R); lia|]. intros c.
  destruct (Z.eq_dec (nth c s2 0%Z) 0) as [X|X].
  - split; auto. intros _. destruct (Z.eq_dec (nth c strm 0%Z) 0); auto. exfalso.
    assert (In c (nonzero strm)). { apply in_nonzero. split; auto. destruct (Nat.lt_ge_cases c (length strm)); auto. rewrite nth_overflow in n by auto. congruence. }
    now apply (s2_nonzero R) in H.
  - split; [contradiction|]. intros Y. exfalso. apply (s2_nonzero R), in_nonzero in X. tauto.
Qed.

(** ** C38.  [g] is any dictionary reach -> reach with positive, distinct keys whose values
    are 0 or keys; the graphs of get_stream_connectivity are of this kind (C34, C35). *)
Theorem C38_connectiondata :
  forall (g : list (Z * Z)),
    NoDup (map fst g) -> (forall r to, In (r, to) g -> (0 < r)%Z) -> network_closed g ->
    exists recs, connectiondata (some_graph g) = Ok recs /\
      (* one record per reach, in increasing order, zero-based *)
      StronglySorted Z.lt (map (hd (-1)%Z) recs) /\
      (forall r, In r (map fst g) <-> In (r - 1)%Z (map (hd (-1)%Z) recs)) /\
      forall rec, In rec recs -> exists r to ups,
        In (r, to) g /\
        rec = (r - 1)%Z :: map (fun u => (u - 1)%Z) ups ++ (if (to =? 0)%Z || (to =? r)%Z then [] else [- (to - 1)]%Z) /\
        NoDup ups /\ (forall u, In u ups <-> In (u, r) g /\ u <> r).
Proof.
  intros g ND pos clo.
  assert (clo' : forall r t, In (r, t) g -> t = 0%Z \/ In t (map fst g)).
  { intros r t H. destruct (clo r t H) as [->|[o Ho]]; auto. right. apply in_map_iff. exists (t, o). auto. }
  eexists. split; [apply conn_eq; auto|]. split; [|split].
  - rewrite map_map. unfold crecord. cbn [hd].
    assert (S : StronglySorted Z.lt (map fst (sorted_items g))) by (rewrite sorted_items_keys; now apply isort_zlt).
    induction (sorted_items g) as [|x l IH]; simpl in *; constructor; inversion S as [|? ? S1 F]; subst; auto.
    apply Forall_forall. intros y Hy. apply in_map_iff in Hy. destruct Hy as [z [<- Hz]].
    rewrite Forall_forall in F. specialize (F (fst z) (in_map fst _ _ Hz)). lia.
  - intros r. rewrite map_map. unfold crecord. cbn [hd]. rewrite !in_map_iff. split.
    + intros [[k t] [<- H]]. exists (k, t). split; auto. now apply sorted_items_in.
    + intros [[k t] [E H]]. cbn [fst] in E. exists (k, t). split; [simpl; lia|]. now apply (proj1 (sorted_items_in g _)) in H.
  - intros rec H. apply in_map_iff in H. destruct H as [[r to] [<- H]]. apply (proj1 (sorted_items_in g _)) in H. cbn [fst snd].
    exists r, to, (ups (sorted_items g) r). split; auto. split; [|split].
    + unfold crecord. do 3 f_equal. destruct ((to =? 0) || (to =? r))%Z; auto. f_equal. lia.
    + assert (S := ups_sorted g ND r). clear -S. induction S as [|x l S IH F]; constructor; auto.
      rewrite Forall_forall in F. intros Hx. specialize (F _ Hx). lia.
    + apply ups_in.
Qed.

(** ** C39 *)
Theorem C39_downstream_entries_negative :
  forall fdir strm lim s2 g recs,
    valid_fdir fdir -> acyclic fdir -> length strm = length fdir ->
    mf6_connectivity lim fdir strm = Ok (s2, g) -> connectiondata (some_graph g) = Ok recs ->
    forall rec, In rec recs -> exists r ups dn,
      rec = r :: ups ++ dn /\ Forall (fun u => (0 <= u)%Z) ups /\ length dn <= 1 /\
      Forall (fun d => (d < 0)%Z) dn /\
      (* the downstream entry is minus the number of the receiving reach *)
      forall to, In ((r + 1)%Z, to) g -> to <> 0%Z -> to <> (r + 1)%Z -> dn = [- (to - 1)]%Z.
Proof.
  intros fdir strm lim s2 g recs V A L E Ec rec Hrec. destruct (mf6_spec strm lim V L E) as [order R].
  rewrite (conn_eq g (g_nodup R) (g_pos R) (g_clo R)) in Ec. inversion Ec; subst recs. clear Ec.
  apply in_map_iff in Hrec. destruct Hrec as [[r to] [<- H]]. apply (proj1 (sorted_items_in g _)) in H. cbn [fst snd].
  exists (r - 1)%Z, (map (fun u => (u - 1)%Z) (ups (sorted_items g) r)), (if (to =? 0)%Z || (to =? r)%Z then [] else [1 - to]%Z).
  split; [reflexivity|]. split; [|split; [|split]].
  - apply Forall_forall. intros x Hx. apply in_map_iff in Hx. destruct Hx as [u [<- Hu]]. apply ups_in in Hu. destruct Hu as [Hu _].
    apply (g_pos R) in Hu. lia.
  - destruct ((to =? 0) || (to =? r))%Z; simpl; lia.
  - destruct ((to =? 0) || (to =? r))%Z eqn:Et; constructor; auto. apply orb_false_iff in Et. destruct Et as [E1 E2].
    apply Z.eqb_neq in E1, E2. destruct (C36_numbers_increase strm lim V A L E _ _ H) as [X|[X|X]]; try contradiction.
    apply (g_pos R) in H. lia.
  - intros to' H' N1 N2. replace (r - 1 + 1)%Z with r in * by lia.
    assert (to' = to).
    { apply (dget_in_nodup Z.eqb zeqb) in H; [|apply (g_nodup R)]. apply (dget_in_nodup Z.eqb zeqb) in H'; [|apply (g_nodup R)]. congruence. }
    subst to'. destruct (Z.eqb_spec to 0); [contradiction|]. destruct (Z.eqb_spec to r); [contradiction|]. cbn [orb]. f_equal. lia.
Qed.

(** on a cycle the sign is lost: reach 1 (zero-based 0) as receiving reach *)
Theorem C39_sign_lost_on_cycle :
  exists s2 g recs, mf6_connectivity 100 [1; 0]%Z [1; 1]%Z = Ok (s2, g) /\
    connectiondata (some_graph g) = Ok recs /\
    (* reach 2 flows to reach 1, and the entry is 0, the same as "reach 1 flows into me" *)
    In (2, 1)%Z g /\ nth_error recs 1 = Some [1; 0; 0]%Z.
Proof. eexists _, _, _. split; [vm_compute; reflexivity|]. split; [vm_compute; reflexivity|]. vm_compute. auto. Qed.

(** ** C40 *)
Theorem C40_packagedata :
  forall fdir strm lim s2 g,
    valid_fdir fdir -> length strm = length fdir ->
    mf6_connectivity lim fdir strm = Ok (s2, g) ->
    exists conn pk, connectiondata (some_graph g) = Ok conn /\ packagedata (some_graph g) s2 = Ok pk /\
      length pk = length g /\ length conn = length g /\
      forall i p, nth_error pk i = Some p ->
        let r := Z.of_nat (i + 1) in
        p_ifno p = (r - 1)%Z /\ nth_error s2 (p_node p) = Some r /\
        (* the reach length is measured to the cell below (its own cell at an outlet) *)
        (forall to, In (r, to) g -> (to = 0%Z -> p_node_dn p = p_node p) /\ (to <> 0%Z -> p_node_dn p = down fdir (p_node p))) /\
        exists rec, nth_error conn i = Some rec /\ hd (-1)%Z rec = (r - 1)%Z /\ p_ncon p = Z.of_nat (length (tl rec)).
Proof.
  intros fdir strm lim s2 g V L E. destruct (mf6_spec strm lim V L E) as [order R].
  assert (Hcell : forall r, In r (map fst g) -> first_where r s2 = Ok (cell6 order r)).
  { intros r Hr. apply in_map_iff in Hr. destruct Hr as [[r' t] [<- Hr]]. apply (g_in R) in Hr. destruct Hr as [c [Hc [-> _]]].
    cbn [fst]. rewrite (cell6_eq R) by auto. now apply (first_where6 R L). }
  eexists _, _. split; [apply (conn_eq g (g_nodup R) (g_pos R) (g_clo R))|].
  split; [apply (packagedata_eq g s2 (cell6 order) (g_nodup R) (g_pos R) (g_clo R) Hcell)|].
  rewrite (g_sorted R). split; [apply map_length|]. split; [apply map_length|].
  intros i p Hp r. rewrite nth_error_map in Hp. destruct (nth_error g i) as [[r0 to0]|] eqn:Eg; [|discriminate].
  cbn [option_map] in Hp. inversion Hp; subst p. clear Hp. unfold prec. cbn [p_ifno p_node p_node_dn p_ncon fst snd].
  assert (Er : r0 = r).
  { assert (K := g_keys R). apply (f_equal (fun l => nth_error l i)) in K. rewrite !nth_error_map, Eg in K.
    assert (i < length order). { assert (Lg : length g = length order) by (rewrite (r_graph R); apply map_length). rewrite <- Lg. apply nth_error_Some. congruence. }
    rewrite nth_error_seq in K by auto. simpl in K. inversion K. unfold r. lia. }
  rewrite Er in *. clear Er r0. assert (Hin := nth_error_In _ _ Eg).
  assert (Hin2 := Hin). apply (g_in R) in Hin2. destruct Hin2 as [c [Hc [Ec Et]]].
  rewrite Ec. rewrite (cell6_eq R) by auto. rewrite <- Ec.
  split; auto. split; [|split].
  - apply in_nonzero in Hc. rewrite (nth_error_nth' s2 0%Z) by (rewrite (r_len R); lia). congruence.
  - intros to Hto. assert (to = to0).
    { apply (dget_in_nodup Z.eqb zeqb) in Hin; [|apply (g_nodup R)]. apply (dget_in_nodup Z.eqb zeqb) in Hto; [|apply (g_nodup R)]. congruence. }
    subst to. destruct (Z.eqb_spec to0 0) as [E0|E0]; split; intros X; try congruence; try contradiction.
    rewrite Et. apply (cell6_eq R). apply (s2_nonzero R). congruence.
  - exists (crecord g r to0). split; [rewrite nth_error_map, Eg; reflexivity|]. split; [reflexivity|].
    unfold crecord. cbn [tl List.length]. lia.
Qed.

(** ** C41: packagedata(stream_array) never succeeds on a 0/1 array with several stream cells *)
Theorem C41_packagedata_given_fails_refuted :
  forall fdir strm lim recs,
    valid_fdir fdir -> length strm = length fdir ->
    Forall (fun z => z = 0%Z \/ z = 1%Z) strm ->
    (exists c c', c <> c' /\ nth_error strm c = Some 1%Z /\ nth_error strm c' = Some 1%Z) ->
    packagedata_given lim fdir strm <> Ok recs.
Proof.
  intros fdir strm lim recs V L B [c [c' [Nc [Hc Hc']]]] E. unfold packagedata_given in E.
  apply bind_ok in E. destruct E as [[s2 g] [E1 E]]. destruct (mf6_spec strm lim V L E1) as [order R].
  unfold packagedata in E. apply bind_ok in E. destruct E as [conn [_ E]]. apply bind_ok in E. destruct E as [[pk k] [E _]].
  assert (N2 : 2 <= length order).
  { assert (H1 : In c order). { apply (order_in R), in_nonzero. split; [apply nth_error_Some; congruence|]. rewrite (nth_error_nth _ _ _ Hc). lia. }
    assert (H2 : In c' order). { apply (order_in R), in_nonzero. split; [apply nth_error_Some; congruence|]. rewrite (nth_error_nth _ _ _ Hc'). lia. }
    destruct order as [|a [|b l]]; simpl in *; try tauto; try lia. all: intuition congruence. }
  assert (Hin : In 2%Z (map fst g)). { rewrite (g_keys R). apply in_map_iff. exists 2. split; auto. apply in_seq. lia. }
  apply in_map_iff in Hin. destruct Hin as [[r t] [Er Hin]]. simpl in Er. subst r.
  unfold some_graph in E. rewrite (sorted_items_map (@Some Z) g) in E. rewrite (g_sorted R) in E.
  assert (Hmem : In (2%Z, Some t) (map (fun kv => (fst kv, Some (snd kv))) g)) by (apply in_map_iff; exists (2%Z, t); auto).
  apply in_split in Hmem. destruct Hmem as [l1 [l2 El]]. rewrite El in E. rewrite foldM_app in E.
  apply bind_ok in E. destruct E as [[pk1 k1] [_ E]]. cbn [foldM] in E. apply bind_ok in E. destruct E as [st [E _]].
  apply bind_ok in E. destruct E as [node [E _]]. unfold first_where in E. apply get_ok in E. apply nth_error_In in E.
  apply in_where in E. destruct E as [x [Ex Ex2]]. apply Z.eqb_eq in Ex2. subst x.
  apply nth_error_In in Ex. rewrite Forall_forall in B. destruct (B _ Ex); discriminate.
Qed.

(** with a single stream cell it works *)
Theorem C41_packagedata_given_example_partial :
  exists recs, packagedata_given 100 [1; 1; 1]%Z [0; 1; 0]%Z = Ok recs.
Proof. eexists. vm_compute. reflexivity. Qed.

(** and the error is an IndexError *)
Theorem C41_index_error_refuted :
  packagedata_given 100 [1; 1; 1]%Z [1; 1; 0]%Z = Err IndexError /\
  exists recs, packagedata_stored 100 [1; 1; 1]%Z [1; 1; 0]%Z = Ok recs.
Proof. split; [|eexists]; vm_compute; reflexivity. Qed.

(** ** Worked cases *)
Module Ex.
  (* 0,1 -> 3 -> 4 -> 5 (outlet); 2 -> 4; stream cells 1,3,2,4,5 *)
  Definition fd : list Z := [3; 3; 4; 4; 5; 5]%Z.
  Definition st : list Z := [0; 1; 1; 1; 1; 1]%Z.
  Example fd_valid : valid_fdir fd.
  Proof. unfold valid_fdir, fd. simpl. repeat constructor; lia. Qed.
  Example fd_acyclic : acyclic fd.
  Proof.
    apply (@acyclic_rank fd (fun n => 10 - n)); [apply fd_valid|]. intros n Hn. simpl in Hn.
    do 6 (destruct n as [|n]; [vm_compute; lia|]). lia.
  Qed.
  Example run : mf6_connectivity 10 fd st = Ok ([0; 2; 1; 3; 4; 5]%Z, [(1, 4); (2, 3); (3, 4); (4, 5); (5, 5)]%Z).
  Proof. vm_compute. reflexivity. Qed.
  Example conn : connectiondata (some_graph [(1, 4); (2, 3); (3, 4); (4, 5); (5, 5)]%Z)
    = Ok [[0; -3]; [1; -2]; [2; 1; -3]; [3; 2; 0; -4]; [4; 3]]%Z.
  Proof. vm_compute. reflexivity. Qed.
  Example acc : flow_accumulation_cells Z.add 0%Z 10 fd [1; 1; 1; 1; 1; 1]%Z = Ok [1; 1; 1; 3; 5; 6]%Z.
  Proof. vm_compute. reflexivity. Qed.
  Example delin : delineate_streams Z.geb [1; 1; 1; 3; 5; 6]%Z (Scalar 3%Z) None = Ok [0; 0; 0; 1; 1; 1]%Z.
  Proof. vm_compute. reflexivity. Qed.
  Example delin2 : delineate_streams Z.geb [1; 1; 1; 3; 5; 6]%Z (PerCell [1; 2; 1; 3; 5; 7]%Z) (Some [1; 1; 0; 1; 1; 1]%Z)
    = Ok [1; 0; 0; 1; 1; 0]%Z.
  Proof. vm_compute. reflexivity. Qed.
  Example z_ordered : ordered_sum Z.add 0%Z Z.geb.
  Proof. unfold ordered_sum, exact_sum. repeat split; intros; rewrite ?Z.geb_leb, ?Z.leb_le in *; lia. Qed.
End Ex.
