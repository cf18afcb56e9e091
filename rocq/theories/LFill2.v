(** Consequences of the flood invariants in the vocabulary of [Spec]. *)
From Coq Require Import String.
From Verif Require Import Py Spec MHeap LHeap MFill LFill LDrain LEdge.
Set Implicit Arguments.
Local Open Scope nat_scope.
Local Open Scope list_scope.
Notation length := List.length.

Lemma link_lt nb size c n : link nb size c n -> n < size.
Proof. now intros [_ H]. Qed.

Lemma reachable_iff E P Q n : (forall s, P s <-> Q s) -> reachable E P n <-> reachable E Q n.
Proof. intros H. split; intros [s [l [H1 H2]]]; exists s, l; split; auto; now apply H. Qed.

Lemma drains_iff {T} (R : T -> T -> bool) E (P Q : nat -> Prop) z n :
  (forall s, P s -> Q s) -> drains R E P z n -> drains R E Q z n.
Proof. intros H. induction 1; [apply dr_seed; auto|eapply dr_down; eauto]. Qed.

Lemma is_spill_iff {T} (le : T -> T -> bool) E (P Q : nat -> Prop) d n v :
  (forall s, P s <-> Q s) -> is_spill le E P d n v -> is_spill le E Q d n v.
Proof. intros H [[s [l [H1 H2]]] H3]. split.
  - exists s, l. split; auto. now apply H.
  - intros s' l' H4. apply H3. now apply H. Qed.

Section Top.
  Context {T : Type} (E : elev T) (ok : T -> Prop) (rk : T -> Z) (eps : T).
  Hypothesis LAWS : elev_laws E ok rk eps.
  Variable nb : list (list nat).
  Variable dem0 : list T.
  Variable seed : list nat.
  Notation N := (length dem0).
  Notation d0 := (e_zero E).
  Notation z0 n := (nth n dem0 (e_zero E)).
  Hypothesis okdem : Forall ok dem0.
  Hypothesis nb_len : N <= length nb.
  Hypothesis seed_nodup : NoDup seed.
  Hypothesis seed_lt : forall s, In s seed -> s < N.
  Notation LK := (link nb N).
  Notation SD := (fun s => In s seed).

  Lemma pf_run strm fuel : N <= fuel -> exists s,
    priority_flood E fuel nb dem0 eps seed strm = Ok (pf_dem s) /\
    InvA E ok rk eps nb dem0 seed [] (D s) s /\ waiting s = [] /\
    (strm = false -> JB E ok rk eps nb dem0 seed s) /\
    (strm = false -> forall n, In n seed -> z E s n = z0 n).
  Proof.
    intros Hf. destruct (initA LAWS nb okdem nb_len seed_nodup seed_lt) as [si [Ei [Ii [Hmu [Hd [_ [Hcl _]]]]]]].
    destruct (@loopA T E ok rk eps LAWS nb dem0 seed nb_len seed_lt strm
      (fun s => (strm = false -> JB E ok rk eps nb dem0 seed s) /\
                (strm = false -> forall n, In n seed -> z E s n = z0 n))) with (fuel := fuel) (s := si)
      as [s [E1 [I [[J1 J2] W]]]].
    - intros s c s1 s' I [J1 J2] Hp I1 Hst I'. split; intros ->.
      + exact (stepB LAWS okdem nb_len seed_lt I (J1 eq_refl) Hp I1 Hst I').
      + intros n Hn. destruct (stepA LAWS nb_len seed_lt false I1) as [s2 [E2 [_ [_ [_ Hz]]]]].
        assert (s2 = s') by congruence. subst s2.
        destruct (popA LAWS nb_len I Hp) as [_ [_ [Ed [Ec _]]]].
        rewrite Hz; auto.
        * unfold z. rewrite Ed. apply J2; auto.
        * unfold cl. rewrite Ec. apply (a_seed I). auto.
    - auto.
    - split; intros _.
      + exact (initB LAWS nb okdem nb_len seed_nodup seed_lt Ei).
      + intros n Hn. unfold z. now rewrite Hd.
    - lia.
    - exists s. unfold priority_flood. rewrite Ei. cbn [bind]. rewrite E1. cbn [bind]. auto.
  Qed.

  Lemma pf_run_drained fuel : N <= fuel ->
    (forall n, n < N -> reachable LK SD n -> drains (e_lt E) LK SD dem0 n) ->
    priority_flood E fuel nb dem0 eps seed false = Ok dem0.
  Proof.
    intros Hf Hdr. destruct (initA LAWS nb okdem nb_len seed_nodup seed_lt) as [si [Ei [Ii [Hmu [Hd [Hp _]]]]]].
    destruct (@loopA T E ok rk eps LAWS nb dem0 seed nb_len seed_lt false
      (JU dem0)) with (fuel := fuel) (s := si) as [s [E1 [I [[J1 J2] W]]]].
    - intros s c s1 s' I J Hpo I1 Hst I'. exact (stepU LAWS okdem nb_len seed_lt Hdr I J Hpo I1 Hst I').
    - auto.
    - split; auto.
    - lia.
    - unfold priority_flood. rewrite Ei. cbn [bind]. rewrite E1. cbn [bind]. now rewrite J2.
  Qed.

  (** reading the final state *)
  Section Final.
    Variable s : pf (T := T).
    Hypothesis I : InvA E ok rk eps nb dem0 seed [] (D s) s.
    Hypothesis W : waiting s = [].

    Lemma fin_len : length (pf_dem s) = N.
    Proof. apply (a_len I). Qed.

    Lemma fin_ok : Forall ok (pf_dem s).
    Proof. apply Forall_forall. intros x Hx. apply In_nth with (d := d0) in Hx.
      destruct Hx as [n [Hn <-]]. apply (a_ok I). rewrite <- (a_len I). exact Hn. Qed.

    Lemma fin_nth n y : nth_error (pf_dem s) n = Some y -> y = z E s n /\ n < N.
    Proof. intros H. split; [symmetry; now apply nth_error_nth|]. rewrite <- (a_len I).
      apply nth_error_Some. congruence. Qed.

    Lemma fin_get n : n < N -> nth_error (pf_dem s) n = Some (z E s n).
    Proof. intros H. apply nth_error_nth'. now rewrite (a_len I). Qed.

    Lemma dem_nth n x : nth_error dem0 n = Some x -> x = z0 n /\ n < N.
    Proof. intros H. split; [symmetry; now apply nth_error_nth|]. apply nth_error_Some. congruence. Qed.

    Lemma fin_ge : Forall2 (fun x y => e_le E x y = true) dem0 (pf_dem s).
    Proof. apply Forall2_nth; [symmetry; apply fin_len|]. intros n x y Hx Hy.
      apply dem_nth in Hx. apply fin_nth in Hy. destruct Hx as [-> Hn], Hy as [-> _].
      rewrite (l_le LAWS).
      - apply Z.leb_le. apply (a_ge I). auto.
      - now apply (ok_z0 E okdem).
      - now apply (a_ok I). Qed.

    Lemma fin_unreach n : n < N -> ~ reachable LK SD n -> nth_error (pf_dem s) n = nth_error dem0 n.
    Proof. intros Hn Hr. rewrite fin_get by auto.
      rewrite <- (closed_reachable LAWS nb_len seed_lt I W Hn) in Hr.
      rewrite (a_unclosed I Hn Hr). symmetry. now apply nth_error_nth'. Qed.

    Lemma fin_drains (R : T -> T -> bool) :
      (forall x y, In x (pf_dem s) -> In y (pf_dem s) -> (y = e_add E x eps \/ e_lt E x y = true) -> R x y = true) ->
      forall n, n < N -> reachable LK SD n -> drains R LK SD (pf_dem s) n.
    Proof.
      intros HR n Hn Hr. rewrite <- (closed_reachable LAWS nb_len seed_lt I W Hn) in Hr.
      assert (HT := a_tree I Hn Hr). clear Hr.
      assert (HN : forall m, tr E rk eps nb dem0 seed (z E s) (D s) (cl s) m -> m < N).
      { intros m Hm. destruct Hm; auto; eapply link_lt; eauto. }
      assert (Hin : forall m, m < N -> In (z E s m) (pf_dem s)).
      { intros m Hm. apply nth_In. now rewrite (a_len I). }
      clear Hn. induction HT as [s0 Hs|c n H IH Hd Hl Hc Hr He|c n H IH Hd Hl Hc Hr He].
      - now apply dr_seed.
      - apply dr_down with c (z E s c) (z E s n); auto.
        + apply fin_get; auto. + apply fin_get. eapply link_lt; eauto.
        + apply HR; auto. apply Hin. eapply link_lt; eauto.
      - assert (c < N) by auto. assert (n < N) by (eapply link_lt; eauto).
        apply dr_down with c (z E s c) (z E s n); auto using fin_get.
        apply HR; auto. right. rewrite (l_lt LAWS) by (apply (a_ok I); auto). now apply Z.ltb_lt.
    Qed.

    (** a path below the result *)
    Lemma fin_path n : n < N -> reachable LK SD n -> exists s0 l, In s0 seed /\ gpath LK s0 n l /\
      forall m, In m l -> m < N /\ (rk (z0 m) <= rk (z E s n))%Z.
    Proof. intros Hn Hr. rewrite <- (closed_reachable LAWS nb_len seed_lt I W Hn) in Hr.
      apply (tr_path LAWS nb_len seed_lt (a_ok I) (a_ge I) (a_tree I Hn Hr)). Qed.

    Lemma fin_spill_le n v : n < N -> reachable LK SD n -> ok v ->
      is_spill (e_le E) LK SD dem0 n v -> (rk v <= rk (z E s n))%Z.
    Proof.
      intros Hn Hr Hv [_ H2]. destruct (fin_path Hn Hr) as [s0 [l [Hs [Hp Hm]]]].
      destruct (H2 s0 l Hs Hp) as [m [x [Hi [Hx Hle]]]]. apply dem_nth in Hx. destruct Hx as [-> Hmn].
      rewrite (l_le LAWS) in Hle; auto; [|now apply (ok_z0 E okdem)].
      apply Z.leb_le in Hle. destruct (Hm m Hi). lia.
    Qed.

    Hypothesis J : JB E ok rk eps nb dem0 seed s.

    Lemma at_mono k x y : ok x -> ok y -> (rk x <= rk y)%Z ->
      (rk (add_times E eps k x) <= rk (add_times E eps k y))%Z.
    Proof. intros Hx Hy H. induction k; simpl; auto. apply (l_mono LAWS); auto; eapply ok_at; eauto. Qed.

    Lemma at_le k k' x : ok x -> k <= k' -> (rk (add_times E eps k x) <= rk (add_times E eps k' x))%Z.
    Proof. intros Hx. induction 1; simpl; [lia|].
      assert (X := l_up LAWS _ (ok_at LAWS m _ Hx)). lia. Qed.

    Lemma fin_spill_ge n v : n < N -> reachable LK SD n -> ok v ->
      is_spill (e_le E) LK SD dem0 n v -> (rk (z E s n) <= rk (add_times E eps N v))%Z.
    Proof.
      intros Hn Hr Hv [[s0 [l [Hs [Hp Hall]]]] _].
      rewrite <- (closed_reachable LAWS nb_len seed_lt I W Hn) in Hr.
      destruct (j_bnd J Hn Hr) as [x [Hx [k [Hk [H1 [H2 H3]]]]]].
      destruct (H3 s0 l Hs Hp) as [m [Hm [HmN Hxm]]].
      assert (Hle := Hall m (z0 m) Hm (nth_error_nth' _ _ HmN)).
      rewrite (l_le LAWS) in Hle; auto; [|now apply (ok_z0 E okdem)]. apply Z.leb_le in Hle.
      assert (HkN : k <= N).
      { unfold ncl in Hk. assert (X := count_true_le nb dem0 nb_len (pf_closed s)). rewrite (a_clen I) in X. lia. }
      assert (A := at_mono k Hx Hv ltac:(lia)). assert (B := at_le Hv HkN). lia.
    Qed.

    Lemma fin_spill_exact n : eps_null E ok eps -> n < N -> reachable LK SD n ->
      is_spill (e_le E) LK SD dem0 n (z E s n).
    Proof.
      intros Hnull Hn Hr.
      assert (Hat : forall k x, ok x -> rk (add_times E eps k x) = rk x).
      { induction k; intros x Hx; simpl; auto. rewrite <- (IHk x Hx).
        assert (X := Hnull (add_times E eps k x) (ok_at LAWS k _ Hx)).
        rewrite (l_eq LAWS) in X; [now apply Z.eqb_eq in X| |]; [apply (l_ok LAWS)|]; eapply ok_at; eauto. }
      split.
      - destruct (fin_path Hn Hr) as [s0 [l [Hs [Hp Hm]]]]. exists s0, l. split; auto. split; auto.
        intros m x Hi Hx. apply dem_nth in Hx. destruct Hx as [-> Hmn].
        rewrite (l_le LAWS); [|now apply (ok_z0 E okdem)|now apply (a_ok I)].
        apply Z.leb_le. now apply Hm.
      - intros s0 l Hs Hp.
        rewrite <- (closed_reachable LAWS nb_len seed_lt I W Hn) in Hr.
        destruct (j_bnd J Hn Hr) as [x [Hx [k [Hk [H1 [H2 H3]]]]]].
        destruct (H3 s0 l Hs Hp) as [m [Hm [HmN Hxm]]]. exists m, (z0 m). split; auto.
        split; [now apply nth_error_nth'|].
        rewrite (l_le LAWS); [|now apply (a_ok I)|now apply (ok_z0 E okdem)].
        apply Z.leb_le. rewrite Hat in H1 by auto. lia.
    Qed.
  End Final.
End Top.

Lemma spill_unique {T} (E : elev T) ok rk eps (LAWS : elev_laws E ok rk eps) LK SD dem n v w :
  Forall ok dem -> ok v -> ok w -> is_spill (e_le E) LK SD dem n v -> is_spill (e_le E) LK SD dem n w ->
  e_eq E v w = true.
Proof.
  intros Hd.
  assert (G : forall v w, ok v -> ok w -> is_spill (e_le E) LK SD dem n v ->
     is_spill (e_le E) LK SD dem n w -> (rk v <= rk w)%Z).
  { clear v w. intros v w Hv Hw [_ V2] [[s [l [Hs [Hp Hall]]]] _].
    destruct (V2 s l Hs Hp) as [m [x [Hm [Hx Hle]]]]. assert (Hle2 := Hall m x Hm Hx).
    assert (ok x) by (rewrite Forall_forall in Hd; apply Hd; eapply nth_error_In; eauto).
    rewrite (l_le LAWS) in Hle, Hle2 by auto. apply Z.leb_le in Hle, Hle2. lia. }
  intros Hv Hw A B. rewrite (l_eq LAWS) by auto. apply Z.eqb_eq.
  assert (X := G v w Hv Hw A B). assert (Y := G w v Hw Hv B A). lia.
Qed.
