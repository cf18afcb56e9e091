(** The priority flood does not depend on the order in which neighbours are listed. *)
From Coq Require Import String Permutation.
From Verif Require Import Py Spec MHeap LHeap MFill LFill LFill2 LFill3.
Set Implicit Arguments.
Unset Strict Implicit.
Local Open Scope nat_scope.
Local Open Scope list_scope.
Local Notation length := List.length.

Lemma upd_comm {A} (l : list A) i j x y : i <> j -> upd (upd l i x) j y = upd (upd l j y) i x.
Proof.
  revert i j; induction l as [|a l IH]; intros [|i] [|j] H; cbn; auto; try congruence.
  f_equal. apply IH. congruence.
Qed.

Lemma concat_perm2 {A B} (r1 r2 : A -> list B) p1 p2 :
  Permutation p1 p2 -> (forall c, In c p1 -> Permutation (r1 c) (r2 c)) ->
  Permutation (concat (map r1 p1)) (concat (map r2 p2)).
Proof.
  intros H; induction H as [|c p1 p2 H IH|c d p|p1 p2 p3 H1 I1 H2 I2]; intros R; cbn [map concat].
  - constructor.
  - apply Permutation_app; [apply R; now left|apply IH; intros; apply R; now right].
  - rewrite !app_assoc. apply Permutation_app.
    + rewrite (Permutation_app_comm (r1 d)). apply Permutation_app; apply R; cbn; auto.
    + assert (X : forall q, (forall c, In c q -> Permutation (r1 c) (r2 c)) ->
        Permutation (concat (map r1 q)) (concat (map r2 q))).
      { induction q as [|a q IH]; intros Rq; cbn; [constructor|].
        apply Permutation_app; [apply Rq; now left|apply IH; intros; apply Rq; now right]. }
      apply X. intros; apply R; cbn; auto.
  - rewrite (I1 R).
    assert (Rb : forall c, In c p2 -> Permutation (r1 c) (r2 c)).
    { intros c Hc. apply R. apply (Permutation_in _ (Permutation_sym H1) Hc). }
    rewrite <- (I2 Rb).
    assert (X : forall q, (forall c, In c q -> Permutation (r1 c) (r2 c)) ->
        Permutation (concat (map r2 q)) (concat (map r1 q))).
    { induction q as [|a q IH]; intros Rq; cbn; [constructor|].
      apply Permutation_app; [symmetry; apply Rq; now left|apply IH; intros; apply Rq; now right]. }
    apply X. exact Rb.
Qed.

Section Vis.
  Context {T : Type} (E : elev T) (ok : T -> Prop) (rk : T -> Z) (eps : T).
  Hypothesis LAWS : elev_laws E ok rk eps.
  Variable N : nat.
  Variable seed : list nat.
  Notation st := (pf (T := T)).
  Notation elt := (entry_lt E).
  Notation d0 := (e_zero E).
  Notation up x := (e_add E x eps).
  Let P (p : T * nat) := ok (fst p).

  (** visiting [n] from a cell at elevation [v] *)
  Definition vis (v : T) (s : st) (n : nat) : st :=
    if (n <? length (pf_dem s)) && negb (nth n (pf_closed s) false) then
      if e_le E (nth n (pf_dem s) d0) v
      then PF (upd (pf_dem s) n (up v)) (upd (pf_closed s) n true) (pf_open s) (pf_pit s ++ [n])
      else PF (pf_dem s) (upd (pf_closed s) n true)
              (heappush elt (pf_open s) (nth n (pf_dem s) d0, n)) (pf_pit s)
    else s.

  Record Inv (s : st) : Prop := {
    i_len : length (pf_dem s) = N;
    i_cl : length (pf_closed s) = N;
    i_ok : Forall ok (pf_dem s);
    i_heap : heap elt (pf_open s);
    i_pall : Pall P (pf_open s);
    i_nd : NoDup (map snd (pf_open s));
    i_open : forall e c, In (e, c) (pf_open s) -> cl s c;
    i_pit : forall c, In c (pf_pit s) -> cl s c /\ ~ In c seed;
    i_seed : forall c, In c seed -> cl s c
  }.

  Record sim (s t : st) : Prop := {
    s_dem : pf_dem s = pf_dem t;
    s_cl : pf_closed s = pf_closed t;
    s_open : Permutation (pf_open s) (pf_open t);
    s_pit : Permutation (pf_pit s) (pf_pit t)
  }.

  Lemma sim_refl s : sim s s. Proof. split; auto. Qed.
  Lemma sim_sym s t : sim s t -> sim t s. Proof. intros [? ? ? ?]; split; auto; now symmetry. Qed.
  Lemma sim_trans s t u : sim s t -> sim t u -> sim s u.
  Proof. intros [? ? ? ?] [? ? ? ?]; split; try congruence; etransitivity; eauto. Qed.

  Lemma cl_lt s c : Inv s -> cl s c -> c < N.
  Proof.
    intros I H. unfold cl in H. rewrite <- (i_cl I). destruct (Nat.lt_ge_cases c (length (pf_closed s))); auto.
    rewrite nth_overflow in H by lia. discriminate.
  Qed.

  Lemma nth_ok s n : Inv s -> n < N -> ok (nth n (pf_dem s) d0).
  Proof. intros I H. apply (proj1 (Forall_forall _ _) (i_ok I)). apply nth_In. now rewrite (i_len I). Qed.

  Lemma vis_cl v s n c : Inv s -> cl s c -> cl (vis v s n) c.
  Proof.
    intros I H. unfold vis. destruct (_ && _) eqn:B; auto.
    apply andb_true_iff in B. destruct B as [B _]. apply Nat.ltb_lt in B. rewrite (i_len I) in B.
    assert (X : nth c (upd (pf_closed s) n true) false = true).
    { rewrite nth_upd by (rewrite (i_cl I); exact B). destruct (Nat.eq_dec n c); auto. }
    destruct (e_le _ _ _); exact X.
  Qed.

  (** closed cells keep their elevation *)
  Lemma vis_keep v s n c : Inv s -> cl s c -> nth c (pf_dem (vis v s n)) d0 = nth c (pf_dem s) d0.
  Proof.
    intros I H. unfold vis. destruct (_ && _) eqn:B; auto.
    apply andb_true_iff in B. destruct B as [_ B]. apply negb_true_iff in B.
    destruct (e_le _ _ _); cbn; auto. apply nth_upd_neq. intros ->. unfold cl in H. congruence.
  Qed.

  Lemma Inv_vis v s n : ok v -> Inv s -> Inv (vis v s n).
  Proof.
    intros Ov I. assert (V := fun c => @vis_cl v s n c I). revert V. unfold vis.
    destruct (_ && _) eqn:B; auto.
    apply andb_true_iff in B. destruct B as [B C]. apply Nat.ltb_lt in B. rewrite (i_len I) in B.
    apply negb_true_iff in C.
    assert (NS : ~ In n seed) by (intros S; apply (i_seed I) in S; unfold cl in S; congruence).
    assert (CN : nth n (upd (pf_closed s) n true) false = true) by (apply nth_upd_eq; now rewrite (i_cl I)).
    destruct (e_le _ _ _); intros V.
    - constructor; cbn [pf_dem pf_closed pf_open pf_pit]; rewrite ?upd_length; try apply I; auto.
      + apply Forall_forall. intros x Hx. apply In_nth with (d := d0) in Hx. destruct Hx as [k [K <-]].
        rewrite upd_length, (i_len I) in K. rewrite nth_upd by (now rewrite (i_len I)).
        destruct (Nat.eq_dec n k); [now apply (l_ok LAWS)|]. now apply nth_ok.
      + intros e c H. apply V. eapply i_open; eauto.
      + intros c H. apply in_app_or in H. destruct H as [H|[<-|[]]].
        * destruct (i_pit I H) as [H1 H2]. split; auto.
        * split; auto.
      + intros c H. apply V. now apply (i_seed I).
    - assert (Pn : P (nth n (pf_dem s) d0, n)) by (apply nth_ok; auto).
      assert (Pp := push_perm elt (pf_open s) (nth n (pf_dem s) d0, n)).
      constructor; cbn [pf_dem pf_closed pf_open pf_pit]; rewrite ?upd_length; try apply I; auto.
      + apply push_heap with (P := P); auto; try apply I.
        * intros; apply (elt_lt_le LAWS [] [] (le_n 0)); assumption.
        * intros x y w; intros; apply (elt_le_trans LAWS [] [] (le_n 0)) with y; assumption.
      + unfold Pall. rewrite Pp. constructor; auto. apply I.
      + rewrite Pp. cbn. constructor; [|apply I]. intros H. apply in_map_iff in H.
        destruct H as [[e c] [H1 H2]]. cbn in H1. subst c. apply (i_open I) in H2. unfold cl in H2. congruence.
      + intros e c H. apply (Permutation_in _ Pp) in H. destruct H as [H|H].
        * injection H as H1 H2. subst c. exact CN.
        * apply V. eapply i_open; eauto.
      + intros c H. destruct (i_pit I H) as [H1 H2]. split; auto.
      + intros c H. apply V. now apply (i_seed I).
  Qed.

  Lemma vis_sim v s t n : sim s t -> sim (vis v s n) (vis v t n).
  Proof.
    intros [D C O Pt]. unfold vis. rewrite <- D, <- C. destruct (_ && _); [|split; auto].
    destruct (e_le _ _ _); split; cbn; auto.
    - now rewrite Pt. - rewrite !push_perm. now constructor.
  Qed.

  Lemma vis_comm v s a b : Inv s -> sim (vis v (vis v s a) b) (vis v (vis v s b) a).
  Proof.
    intros I. destruct (Nat.eq_dec a b) as [->|NE]; [apply sim_refl|].
    assert (K : forall n m, n <> m -> vis v (vis v s n) m =
      let en := nth n (pf_dem s) d0 in let em := nth m (pf_dem s) d0 in
      let bn := (n <? length (pf_dem s)) && negb (nth n (pf_closed s) false) in
      let bm := (m <? length (pf_dem s)) && negb (nth m (pf_closed s) false) in
      let s1 := if bn then if e_le E en v
                  then PF (upd (pf_dem s) n (up v)) (upd (pf_closed s) n true) (pf_open s) (pf_pit s ++ [n])
                  else PF (pf_dem s) (upd (pf_closed s) n true) (heappush elt (pf_open s) (en, n)) (pf_pit s)
                else s in
      if bm then if e_le E em v
                  then PF (upd (pf_dem s1) m (up v)) (upd (pf_closed s1) m true) (pf_open s1) (pf_pit s1 ++ [m])
                  else PF (pf_dem s1) (upd (pf_closed s1) m true) (heappush elt (pf_open s1) (em, m)) (pf_pit s1)
                else s1).
    { intros n m Hnm. cbn zeta. unfold vis.
      destruct ((n <? _) && _) eqn:Bn.
      - destruct (e_le E (nth n (pf_dem s) d0) v);
          cbn [pf_dem pf_closed pf_open pf_pit]; rewrite ?upd_length, ?nth_upd_neq by auto; reflexivity.
      - reflexivity. }
    rewrite (K a b), (K b a) by auto. cbn zeta. clear K.
    destruct ((a <? _) && _), ((b <? _) && _);
      [destruct (e_le E (nth a (pf_dem s) d0) v), (e_le E (nth b (pf_dem s) d0) v)
      |destruct (e_le E (nth a (pf_dem s) d0) v)|destruct (e_le E (nth b (pf_dem s) d0) v)|];
      split; cbn [pf_dem pf_closed pf_open pf_pit]; auto; try (apply upd_comm; now auto).
    - rewrite <- !app_assoc. apply Permutation_app_head. constructor.
    - rewrite !push_perm. constructor.
  Qed.

  Lemma Inv_vises v l : ok v -> forall s, Inv s -> Inv (fold_left (vis v) l s).
  Proof. intros O. induction l; cbn; auto. intros s I. apply IHl. now apply Inv_vis. Qed.
  Lemma vises_cl v l c : ok v -> forall s, Inv s -> cl s c -> cl (fold_left (vis v) l s) c.
  Proof. intros O. induction l; cbn; auto. intros s I H. apply IHl; [now apply Inv_vis|now apply vis_cl]. Qed.
  Lemma vises_keep v l c : ok v -> forall s, Inv s -> cl s c ->
    nth c (pf_dem (fold_left (vis v) l s)) d0 = nth c (pf_dem s) d0.
  Proof.
    intros O. induction l as [|n l IH]; cbn; auto. intros s I H.
    rewrite IH; [now apply vis_keep|now apply Inv_vis|now apply vis_cl].
  Qed.

  Lemma vises_sim v l1 l2 : ok v -> Permutation l1 l2 -> forall s t, Inv s -> Inv t -> sim s t ->
    sim (fold_left (vis v) l1 s) (fold_left (vis v) l2 t).
  Proof.
    intros O Pm. induction Pm as [|n l1 l2 Pm IH|a b l|l1 l2 l3 P1 I1 P2 I2]; intros s t Is It S; cbn [fold_left].
    - exact S.
    - apply IH; try now apply Inv_vis. now apply vis_sim.
    - assert (X : forall l u w, Inv u -> Inv w -> sim u w -> sim (fold_left (vis v) l u) (fold_left (vis v) l w)).
      { induction l0 as [|c l0 IH]; cbn; auto. intros u w Iu Iw Suw.
        apply IH; try now apply Inv_vis. now apply vis_sim. }
      apply X; try (apply Inv_vis; auto; now apply Inv_vis).
      apply sim_trans with (vis v (vis v s a) b); [now apply vis_comm|].
      now apply vis_sim, vis_sim.
    - apply sim_trans with (fold_left (vis v) l2 s).
      + apply I1; auto. apply sim_refl.
      + now apply I2.
  Qed.

  (** cells put in the pit by visits from elevation [v] lie at [v + eps] *)
  Definition level (w : T) (s : st) : Prop := forall c, In c (pf_pit s) -> nth c (pf_dem s) d0 = w.
  Lemma vis_level v s n : Inv s -> level (up v) s -> level (up v) (vis v s n).
  Proof.
    intros I H c Hc. destruct (in_dec Nat.eq_dec c (pf_pit s)) as [J|J].
    - rewrite vis_keep; auto. now apply (i_pit I).
    - revert Hc. unfold vis. destruct (_ && _) eqn:B; [|contradiction].
      apply andb_true_iff in B. destruct B as [B _]. apply Nat.ltb_lt in B.
      destruct (e_le _ _ _); cbn; [|contradiction]. intros Hc. apply in_app_or in Hc.
      destruct Hc as [Hc|[<-|[]]]; [contradiction|]. now apply nth_upd_eq.
  Qed.
  Lemma vises_level v l : ok v -> forall s, Inv s -> level (up v) s -> level (up v) (fold_left (vis v) l s).
  Proof. intros O. induction l; cbn; auto. intros s I H. apply IHl; [now apply Inv_vis|now apply vis_level]. Qed.

  (** ** from [pf_visit] to [vis] *)
  Lemma visit_vis strm c v s n : Inv s -> cl s c -> nth c (pf_dem s) d0 = v ->
    pf_visit E eps strm seed c s n = Ok (vis v s n).
  Proof.
    intros I C V. unfold pf_visit, vis. destruct (Nat.leb_spec (length (pf_dem s)) n) as [H|H].
    - replace (n <? length (pf_dem s)) with false by (symmetry; apply Nat.ltb_ge; lia). reflexivity.
    - replace (n <? length (pf_dem s)) with true by (symmetry; apply Nat.ltb_lt; lia). cbn [andb].
      assert (Hn := H). rewrite (i_len I) in Hn.
      rewrite (get_nth _ false) by (rewrite (i_cl I); lia). cbn [bind].
      destruct (nth n (pf_closed s) false) eqn:Cn; auto. cbn [negb].
      rewrite set_lt by (rewrite (i_cl I); lia). cbn [bind].
      rewrite (get_nth _ d0) by lia. cbn [bind].
      rewrite (get_nth _ d0) by (rewrite (i_len I); now apply (cl_lt I)). cbn [bind]. rewrite V.
      rewrite set_lt by lia. cbn [bind].
      assert (NS : memn n seed = false).
      { apply memn_false. intros S. apply (i_seed I) in S. unfold cl in S. congruence. }
      rewrite NS. cbn [negb]. rewrite andb_true_r.
      destruct (e_le E _ v); auto. destruct strm; auto. destruct (memn c seed); auto.
  Qed.

  Lemma visits_vis strm c v l : ok v -> forall s, Inv s -> cl s c -> nth c (pf_dem s) d0 = v ->
    foldM (pf_visit E eps strm seed c) l s = Ok (fold_left (vis v) l s).
  Proof.
    intros O. induction l as [|n l IH]; intros s I C V; cbn [foldM fold_left]; auto.
    rewrite (visit_vis strm n I C V). cbn [bind].
    apply IH; [now apply Inv_vis|now apply vis_cl|rewrite vis_keep; auto].
  Qed.

  (** a pit cell takes its turn *)
  Lemma step_pit nb strm c v s : Inv s -> cl s c -> ~ In c seed -> nth c (pf_dem s) d0 = v -> N <= length nb ->
    pf_step E nb eps strm seed c s = Ok (fold_left (vis v) (nth c nb []) s).
  Proof.
    intros I C NS V L. assert (Hc := cl_lt I C). unfold pf_step.
    rewrite (nth_error_nth' nb []) by lia. cbn [bind].
    assert (X : (if strm then pf_burn E eps seed c (nth c nb []) (pf_dem s) else Ok (pf_dem s)) = Ok (pf_dem s)).
    { destruct strm; auto. unfold pf_burn. apply memn_false in NS. now rewrite NS. }
    rewrite X. cbn [bind]. destruct s as [d cs o p]. cbn [pf_dem pf_closed pf_open pf_pit] in *.
    assert (Ov : ok v) by (subst v; apply (@nth_ok _ c I); auto).
    apply (@visits_vis strm c v (nth c nb []) Ov _ I C V).
  Qed.

  Lemma Inv_pit s p : Inv s -> (forall c, In c p -> cl s c /\ ~ In c seed) ->
    Inv (PF (pf_dem s) (pf_closed s) (pf_open s) p).
  Proof. intros I H. constructor; try apply I. exact H. Qed.

  (** a visit appends to the pit *)
  Lemma vis_split v d cs o p q n : exists d' cs' o' r,
    vis v (PF d cs o p) n = PF d' cs' o' (p ++ r) /\ vis v (PF d cs o q) n = PF d' cs' o' (q ++ r).
  Proof.
    unfold vis; cbn [pf_dem pf_closed pf_open pf_pit]. destruct (_ && _).
    - destruct (e_le _ _ _).
      + do 4 eexists. split; reflexivity.
      + exists d, (upd cs n true), (heappush elt o (nth n d d0, n)), []. now rewrite !app_nil_r.
    - exists d, cs, o, []. now rewrite !app_nil_r.
  Qed.
  Lemma vises_split v l : forall d cs o p q, exists d' cs' o' r,
    fold_left (vis v) l (PF d cs o p) = PF d' cs' o' (p ++ r) /\
    fold_left (vis v) l (PF d cs o q) = PF d' cs' o' (q ++ r).
  Proof.
    induction l as [|n l IH]; intros d cs o p q; cbn [fold_left].
    - exists d, cs, o, []. now rewrite !app_nil_r.
    - destruct (vis_split v d cs o p q n) as [d1 [c1 [o1 [r [-> ->]]]]].
      destruct (IH d1 c1 o1 (p ++ r) (q ++ r)) as [d2 [c2 [o2 [r2 [-> ->]]]]].
      exists d2, c2, o2, (r ++ r2). now rewrite !app_assoc.
  Qed.

  (** ** a whole level of the pit *)
  Lemma loop_level nb strm v (L : N <= length nb) (Ov : ok v) : forall p f d cs o q r,
    Inv (PF d cs o (p ++ q)) -> (forall c, In c p -> nth c d d0 = v) ->
    pf_loop E f nb eps strm seed (PF d cs o (p ++ q)) = Ok r ->
    exists f', f = length p + f' /\
      pf_loop E f' nb eps strm seed (fold_left (vis v) (concat (map (fun c => nth c nb []) p)) (PF d cs o q)) = Ok r.
  Proof.
    induction p as [|c p IH]; intros f d cs o q r I V R.
    - exists f. split; auto.
    - rewrite pf_loop_eq in R. cbn [app LFill.pop pf_pit pf_dem pf_closed pf_open] in R.
      destruct f as [|f]; [discriminate|].
      destruct (i_pit I (c := c)) as [C NS]. { now left. }
      assert (I1 : Inv (PF d cs o (p ++ q))).
      { apply (@Inv_pit _ (p ++ q) I). intros x Hx. apply (i_pit I). now right. }
      rewrite (@step_pit nb strm c v (PF d cs o (p ++ q)) I1 C NS (V c (or_introl eq_refl)) L) in R.
      cbn [bind] in R.
      assert (I2 := @Inv_vises v (nth c nb []) Ov _ I1).
      assert (KV : forall x, In x p -> nth x (pf_dem (fold_left (vis v) (nth c nb []) (PF d cs o (p ++ q)))) d0 = v).
      { intros x Hx. rewrite (vises_keep (nth c nb []) Ov I1); [cbn; apply V; now right|].
        apply (i_pit I1). cbn. apply in_or_app. now left. }
      destruct (@vises_split v (nth c nb []) d cs o (p ++ q) q) as [d' [cs' [o' [rr [E1 E2]]]]].
      rewrite E1 in R, I2, KV. rewrite <- app_assoc in R, I2.
      destruct (IH f d' cs' o' (q ++ rr) r I2 KV R) as [f' [-> R']].
      exists f'. split; auto. cbn [map concat]. rewrite fold_left_app, E2. exact R'.
  Qed.
End Vis.

(** ** amin does not depend on the order when equal elevations are identical *)
Section Amin.
  Context {T : Type} (E : elev T) (ok : T -> Prop) (rk : T -> Z) (eps : T).
  Hypothesis LAWS : elev_laws E ok rk eps.
  Lemma amin_in_ x l : In (amin E x l) (x :: l).
  Proof. apply amin_in. Qed.
  Lemma amin_le_ l : forall x y, (forall y, In y (x :: l) -> ok y) -> In y (x :: l) -> (rk (amin E x l) <= rk y)%Z.
  Proof.
    unfold amin. induction l as [|w l IH]; intros x y O H; cbn [fold_left].
    - destruct H as [->|[]]. lia.
    - assert (Ox : ok x) by (apply O; now left). assert (Ow : ok w) by (apply O; right; now left).
      rewrite !(l_eq LAWS) by auto. rewrite !Z.eqb_refl. cbn [negb orb].
      assert (Om : ok (if e_lt E w x then w else x)) by now destruct (e_lt E w x).
      assert (O' : forall v, In v ((if e_lt E w x then w else x) :: l) -> ok v).
      { intros v [<-|V]; auto. apply O. right; now right. }
      assert (M := IH _ _ O' (or_introl eq_refl)).
      assert (B : (rk (if e_lt E w x then w else x) <= rk x /\ rk (if e_lt E w x then w else x) <= rk w)%Z).
      { rewrite (l_lt LAWS) by auto. destruct (Z.ltb_spec (rk w) (rk x)); lia. }
      destruct H as [<-|[<-|H]]; [lia|lia|]. apply IH; auto. now right.
  Qed.
  Lemma amin_perm x l y m : (forall a b, ok a -> ok b -> rk a = rk b -> a = b) ->
    (forall a, In a (x :: l) -> ok a) -> Permutation (x :: l) (y :: m) -> amin E x l = amin E y m.
  Proof.
    intros J O Pm.
    assert (O2 : forall a, In a (y :: m) -> ok a).
    { intros a Ha. apply O. apply (Permutation_in _ (Permutation_sym Pm) Ha). }
    assert (A := amin_in_ x l). assert (B := amin_in_ y m). apply J; auto.
    assert (A1 := amin_le_ O (Permutation_in _ (Permutation_sym Pm) B)).
    assert (A2 := amin_le_ O2 (Permutation_in _ Pm A)). lia.
  Qed.
End Amin.

Section Top.
  Context {T : Type} (E : elev T) (ok : T -> Prop) (rk : T -> Z) (eps : T).
  Hypothesis LAWS : elev_laws E ok rk eps.
  Variables nb1 nb2 : list (list nat).
  Variable N : nat.
  Variable seed : list nat.
  Variable strm : bool.
  Hypothesis L1 : N <= length nb1.
  Hypothesis L2 : N <= length nb2.
  Hypothesis rows : forall c, c < N -> Permutation (nth c nb1 []) (nth c nb2 []).
  Hypothesis inj : strm = true -> forall a b, ok a -> ok b -> rk a = rk b -> a = b.
  Hypothesis seed_lt : forall c, In c seed -> c < N.
  Notation st := (pf (T := T)).
  Notation d0 := (e_zero E).
  Notation inv := (@Inv T E ok N seed).
  Notation vis := (vis E eps).

  Lemma burn_perm c ns1 ns2 dem dem' : Permutation ns1 ns2 -> length dem = N -> Forall ok dem -> strm = true ->
    pf_burn E eps seed c ns1 dem = Ok dem' -> pf_burn E eps seed c ns2 dem = Ok dem'.
  Proof.
    intros Pm L O St H. unfold pf_burn in *. destruct (memn c seed); auto.
    assert (Q : Permutation (filter (fun n => memn n seed) ns1) (filter (fun n => memn n seed) ns2)).
    { clear H. induction Pm; cbn; auto.
      - destruct (memn x seed); auto.
      - destruct (memn x seed), (memn y seed); auto; try constructor.
      - etransitivity; eauto. }
    assert (G : forall ns, mapM (get dem) (filter (fun n => memn n seed) ns) =
      Ok (map (fun n => nth n dem d0) (filter (fun n => memn n seed) ns))).
    { intros ns. apply mapM_ok. intros n Hn. apply filter_In in Hn. apply get_nth. rewrite L. apply seed_lt.
      now apply memn_spec. }
    rewrite G in *. cbn [bind] in *.
    assert (Q2 := Permutation_map (fun n => nth n dem d0) Q).
    assert (O2 : forall a, In a (map (fun n => nth n dem d0) (filter (fun n => memn n seed) ns1)) -> ok a).
    { intros a Ha. apply in_map_iff in Ha. destruct Ha as [n [<- Hn]]. apply filter_In in Hn.
      apply (proj1 (Forall_forall _ _) O). apply nth_In. rewrite L. apply seed_lt. now apply memn_spec. }
    revert H Q2 O2. generalize (map (fun n => nth n dem d0) (filter (fun n => memn n seed) ns1)).
    generalize (map (fun n => nth n dem d0) (filter (fun n => memn n seed) ns2)). clear G Q Pm.
    intros l2 l1 H Q O2. assert (Len := Permutation_length Q).
    destruct l1 as [|x [|y l1]], l2 as [|x' [|y' l2]]; cbn in Len; try lia; auto.
    rewrite (amin_perm LAWS (inj St) O2 Q) in H. exact H.
  Qed.

  Lemma burn_perm' c ns1 ns2 dem dem' : Permutation ns1 ns2 -> length dem = N -> Forall ok dem ->
    (if strm then pf_burn E eps seed c ns1 dem else Ok dem) = Ok dem' ->
    (if strm then pf_burn E eps seed c ns2 dem else Ok dem) = Ok dem'.
  Proof.
    intros Pm L O. assert (B := @burn_perm c ns1 ns2 dem dem' Pm L O). clear inj. destruct strm; auto.
  Qed.

  Lemma loop_sim : forall k f1 f2 s t r1 r2 v, f1 < k -> inv s -> inv t -> sim s t -> ok v -> level E v s ->
    pf_loop E f1 nb1 eps strm seed s = Ok r1 -> pf_loop E f2 nb2 eps strm seed t = Ok r2 -> pf_dem r1 = pf_dem r2.
  Proof.
    induction k as [|k IH]; intros f1 f2 s t r1 r2 v K Is It S Ov Lv R1 R2; [lia|].
    destruct (pf_pit s) as [|c p] eqn:Ep.
    - (* the next cell comes from the heap *)
      assert (Et : pf_pit t = []). { apply Permutation_nil. rewrite <- Ep. apply (s_pit S). }
      rewrite pf_loop_eq in R1, R2. unfold LFill.pop in R1, R2. rewrite Ep in R1. rewrite Et in R2.
      destruct (heappop (entry_lt E) (pf_open s)) as [[[e1 c1] o1]|] eqn:P1.
      2:{ apply pop_none in P1. assert (P2 : heappop (entry_lt E) (pf_open t) = None).
          { apply pop_none. apply Permutation_nil. rewrite <- P1. apply (s_open S). }
          rewrite P2 in R2. injection R1 as <-. injection R2 as <-. apply (s_dem S). }
      destruct (heappop (entry_lt E) (pf_open t)) as [[[e2 c2] o2]|] eqn:P2.
      2:{ apply pop_none in P2. assert (Q : pf_open s = []).
          { apply Permutation_nil. rewrite <- P2. symmetry. apply (s_open S). }
          rewrite Q in P1. discriminate. }
      assert (POP : forall u e c o, inv u -> heappop (entry_lt E) (pf_open u) = Some ((e, c), o) ->
        Permutation (pf_open u) ((e, c) :: o) /\ heap (entry_lt E) o /\
        Forall (fun y => entry_lt E y (e, c) = false) (pf_open u)).
      { intros u e c o Iu Pu.
        apply (@pop_spec _ (entry_lt E) (fun p => ok (fst p))) with (h := pf_open u); auto.
        - intros; apply (elt_lt_le LAWS [] [] (le_n 0)); assumption.
        - intros x y w; intros; apply (elt_le_trans LAWS [] [] (le_n 0)) with y; assumption.
        - intros; apply (elt_le_refl LAWS [] [] (le_n 0)); assumption.
        - apply Iu. - apply Iu. }
      destruct (POP _ _ _ _ Is P1) as [Q1 [H1 M1]]. destruct (POP _ _ _ _ It P2) as [Q2 [H2 M2]]. clear POP.
      assert (In1 : In (e1, c1) (pf_open s)) by (apply (Permutation_in _ (Permutation_sym Q1)); now left).
      assert (In2 : In (e2, c2) (pf_open t)) by (apply (Permutation_in _ (Permutation_sym Q2)); now left).
      assert (In2s : In (e2, c2) (pf_open s)) by (apply (Permutation_in _ (Permutation_sym (s_open S))); auto).
      assert (In1t : In (e1, c1) (pf_open t)) by (apply (Permutation_in _ (s_open S)); auto).
      assert (Oe1 : ok e1) by (apply (proj1 (Forall_forall _ _) (i_pall Is) _ In1)).
      assert (Oe2 : ok e2) by (apply (proj1 (Forall_forall _ _) (i_pall It) _ In2)).
      assert (Fa := proj1 (Forall_forall _ _) M1 _ In2s). assert (Fb := proj1 (Forall_forall _ _) M2 _ In1t).
      cbv beta in Fa, Fb.
      apply (elt_false LAWS [] [] (le_n 0)) in Fa; auto. apply (elt_false LAWS [] [] (le_n 0)) in Fb; auto. cbn [fst snd] in Fa, Fb.
      assert (Ec : c1 = c2) by lia. subst c2.
      assert (Ee : e1 = e2).
      { assert (ND := i_nd Is). clear - ND In1 In2s. revert ND In1 In2s. generalize (pf_open s).
        induction l as [|[e c] l IH]; cbn; [tauto|]. intros ND. inversion ND as [|? ? N1 N2]; subst.
        intros [A|A] [B|B]; try congruence; auto.
        - injection A as -> ->. exfalso. apply N1. apply in_map_iff. now exists (e2, c1).
        - injection B as -> ->. exfalso. apply N1. apply in_map_iff. now exists (e1, c1). }
      subst e2. clear Fa Fb.
      assert (Qo : Permutation o1 o2).
      { apply Permutation_cons_inv with (e1, c1). rewrite <- Q1, <- Q2. apply (s_open S). }
      assert (Cc : cl s c1) by exact (i_open Is In1).
      assert (Hc : c1 < N) by exact (cl_lt Is Cc).
      destruct f1 as [|f1]; [discriminate|]. destruct f2 as [|f2]; [discriminate|].
      unfold pf_step in R1, R2. rewrite (nth_error_nth' nb1 []) in R1 by lia. rewrite (nth_error_nth' nb2 []) in R2 by lia.
      cbn [bind pf_dem pf_closed pf_open pf_pit] in R1, R2.
      destruct (if strm then _ else _) as [dem1|] eqn:B1 in R1; [|discriminate].
      assert (B2 : (if strm then pf_burn E eps seed c1 (nth c1 nb2 []) (pf_dem t) else Ok (pf_dem t)) = Ok dem1).
      { rewrite <- (s_dem S). apply burn_perm' with (nth c1 nb1 []); auto; apply Is. }
      rewrite B2 in R2. cbn [bind] in R1, R2.
      assert (BD : length dem1 = N /\ Forall ok dem1).
      { clear inj IH. destruct strm; [|injection B1 as <-; split; apply Is].
        unfold pf_burn in B1. destruct (memn c1 seed); [|injection B1 as <-; split; apply Is].
        destruct (mapM _ _) as [es|] eqn:Em in B1; [|discriminate]. cbn [bind] in B1.
        destruct es as [|x [|y l]]; try (injection B1 as <-; split; apply Is).
        rewrite (get_nth _ d0) in B1 by (rewrite (i_len Is); lia). cbn [bind] in B1.
        destruct (e_lt E _ _); [|injection B1 as <-; split; apply Is].
        apply set_ok in B1. destruct B1 as [_ ->]. rewrite upd_length. split; [apply Is|].
        assert (Om : ok (amin E x (y :: l))).
        { assert (A := amin_in E x (y :: l)).
          assert (X : forall (ns : list nat) es, mapM (get (pf_dem s)) ns = Ok es -> forall a, In a es -> In a (pf_dem s)).
          { induction ns as [|n ns IHn]; intros es Hes a Ha; cbn in Hes.
            - injection Hes as <-. destruct Ha.
            - destruct (get (pf_dem s) n) as [w|] eqn:G; [|discriminate]. cbn in Hes.
              destruct (mapM _ ns) as [ws|] eqn:Hws; [|discriminate]. cbn in Hes. injection Hes as <-.
              destruct Ha as [<-|Ha]; [|eapply IHn; eauto]. apply get_ok in G. now apply nth_error_In in G. }
          apply (X _ _ Em) in A. apply (proj1 (Forall_forall _ _) (i_ok Is) _ A). }
        apply Forall_forall. intros a Ha. apply In_nth with (d := d0) in Ha. destruct Ha as [j [J <-]].
        rewrite upd_length in J. rewrite nth_upd by (rewrite (i_len Is); lia).
        destruct (Nat.eq_dec c1 j); [now apply (l_ok LAWS)|].
        apply (proj1 (Forall_forall _ _) (i_ok Is)). now apply nth_In. }
      destruct BD as [Ld Od].
      assert (I1 : inv (PF dem1 (pf_closed s) o1 [])).
      { constructor; cbn [pf_dem pf_closed pf_open pf_pit]; auto; try apply Is.
        - assert (A := i_pall Is). unfold Pall in *. rewrite Q1 in A. now inversion A.
        - assert (A := i_nd Is). rewrite (Permutation_map snd Q1) in A. now inversion A.
        - intros e c H. apply (i_open Is (e := e)). apply (Permutation_in _ (Permutation_sym Q1)). now right.
        - intros c []. }
      assert (I2 : inv (PF dem1 (pf_closed t) o2 [])).
      { rewrite <- (s_cl S). constructor; cbn [pf_dem pf_closed pf_open pf_pit]; auto; try apply Is.
        - assert (A := i_pall It). unfold Pall in *. rewrite Q2 in A. now inversion A.
        - assert (A := i_nd It). rewrite (Permutation_map snd Q2) in A. now inversion A.
        - intros e c H. apply (i_open Is (e := e)). apply (Permutation_in _ (Permutation_sym (s_open S))).
          apply (Permutation_in _ (Permutation_sym Q2)). now right.
        - intros c []. }
      set (w := nth c1 dem1 d0) in *.
      assert (Ow : ok w). { apply (proj1 (Forall_forall _ _) Od). apply nth_In. lia. }
      rewrite (@visits_vis _ _ _ _ _ LAWS _ _ strm c1 w (nth c1 nb1 []) Ow _ I1 Cc eq_refl) in R1.
      assert (Cc2 : cl t c1) by (unfold cl; rewrite <- (s_cl S); exact Cc).
      rewrite (@visits_vis _ _ _ _ _ LAWS _ _ strm c1 w (nth c1 nb2 []) Ow _ I2 Cc2 eq_refl) in R2.
      cbn [bind] in R1, R2.
      refine (IH f1 f2 _ _ r1 r2 (e_add E w eps) _ _ _ _ _ _ R1 R2); [lia| | | | |].
      + now apply (@Inv_vises _ _ _ _ _ LAWS N seed). + now apply (@Inv_vises _ _ _ _ _ LAWS N seed).
      + apply (@vises_sim _ _ _ _ _ LAWS N seed); auto. split; cbn; auto. apply (s_cl S).
      + now apply (l_ok LAWS).
      + apply (@vises_level _ _ _ _ _ LAWS N seed); auto. intros c [].
    - (* a whole level of the pit *)
      destruct s as [d cs o p1], t as [d' cs' o' p2]. assert (S' := S). destruct S as [Sd Sc So Sp].
      cbn [pf_dem pf_closed pf_open pf_pit] in *. subst p1 d' cs'.
      assert (Lv2 : forall x, In x p2 -> nth x d d0 = v).
      { intros x Hx. apply Lv. cbn. apply (Permutation_in _ (Permutation_sym Sp) Hx). }
      rewrite <- (app_nil_r (c :: p)) in R1, Is. rewrite <- (app_nil_r p2) in R2, It.
      destruct (loop_level LAWS L1 Ov Is Lv R1) as [g1 [G1 R1']].
      destruct (loop_level LAWS L2 Ov It Lv2 R2) as [g2 [G2 R2']].
      assert (Im : forall o p, inv (PF d cs o p) -> inv (PF d cs o [])).
      { intros oo pp Ipp. apply (@Inv_pit _ _ _ _ _ (PF d cs oo pp) [] Ipp). intros x []. }
      refine (IH g1 g2 _ _ r1 r2 (e_add E v eps) _ _ _ _ _ _ R1' R2').
      + cbn in G1. lia.
      + apply (@Inv_vises _ _ _ _ _ LAWS N seed); auto. eapply Im; eauto.
      + apply (@Inv_vises _ _ _ _ _ LAWS N seed); auto. eapply Im; eauto.
      + apply (@vises_sim _ _ _ _ _ LAWS N seed); auto; try (eapply Im; eauto; fail).
        * apply concat_perm2; auto. intros x Hx. apply rows.
          apply (@cl_lt _ _ _ _ _ _ _ Is). apply (i_pit Is). cbn. rewrite app_nil_r. exact Hx.
        * split; cbn; auto.
      + now apply (l_ok LAWS).
      + apply (@vises_level _ _ _ _ _ LAWS N seed); auto; [eapply Im; eauto|]. intros x [].
  Qed.
End Top.
