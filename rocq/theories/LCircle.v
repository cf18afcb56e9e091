(** Lemmas for C135 and C136: along every cascade between two cells a height decreases. *)
From Coq Require Import QArith.
From Verif Require Import Py Spec MDir MStream LGraph LStream LRun LCasc LAcc2 PropsCasc PropsCascF PropsWorld3.
Set Implicit Arguments.
Unset Strict Implicit.
Local Open Scope nat_scope.
Local Open Scope list_scope.
Local Notation length := List.length.

(** ** Steps to the terminal cell *)
Section Steps.
  Variable fdir : list Z.
  Notation N := (length fdir).
  Hypothesis V : valid_fdir fdir.
  Hypothesis A : acyclic fdir.

  Definition rest (c : nat) : nat :=
    length (filter (fun k => negb (Nat.eqb (down fdir (downs fdir k c)) (downs fdir k c))) (seq 0 N)).

  Lemma rest_le c : rest c <= N.
  Proof using. unfold rest. etransitivity; [apply PropsCasc2.filter_len|]. now rewrite seq_length. Qed.

  Lemma filter_seq_shift (p : nat -> bool) n : forall a, filter p (seq (S a) n) = map S (filter (fun k => p (S k)) (seq a n)).
  Proof using. induction n as [|n IH]; intros a; cbn [seq filter map]; auto. destruct (p (S a)); cbn [map]; now rewrite IH. Qed.

  Lemma end_terminal c : c < N -> down fdir (downs fdir N c) = downs fdir N c.
  Proof using V A.
    intros Hc. assert (L := downs_lt V N Hc).
    destruct (proj1 (cyc_iff fdir _) (pigeon V Hc)) as [H|H]; auto. destruct (A L H).
  Qed.

  Lemma rest_down c : c < N -> down fdir c <> c -> rest (down fdir c) < rest c.
  Proof using V A.
    intros Hc D. unfold rest. set (p := fun k => negb (Nat.eqb (down fdir (downs fdir k c)) (downs fdir k c))).
    change (filter _ (seq 0 N)) with (filter (fun k => p (S k)) (seq 0 N)) at 1.
    assert (E : length (filter p (seq 0 (S N))) = S (length (filter (fun k => p (S k)) (seq 0 N)))).
    { cbn [seq filter]. assert (P0 : p 0 = true) by (unfold p; cbn [downs]; apply negb_true_iff, Nat.eqb_neq; exact D).
      rewrite P0. cbn [length]. now rewrite filter_seq_shift, map_length. }
    rewrite seq_S, filter_app, app_length in E. cbn [filter plus] in E.
    assert (PN : p N = false) by (unfold p; apply negb_false_iff, Nat.eqb_eq; now apply end_terminal).
    rewrite PN in E. cbn [length] in E. lia.
  Qed.
End Steps.

(** ** The records of a landscape cell, in any arithmetic *)
Section Records.
  Context {F : Type} (fone : F) (fabs : F -> F) (fsum : list F -> F)
          (fdiv : F -> F -> option F) (fle0 fkeep : F -> bool).
  Variables (fdir strm : list Z) (basin : option (list Z)) (slopes : list (list (option F))) (fnb : list (list Z)).
  Notation flandscape := (landscape fabs fsum fdiv fle0 fkeep).
  Notation fmany := (cascades_many fone fabs fsum fdiv fle0 fkeep).
  Notation fblock := (@PropsCascF.fblock F fone fabs fsum fdiv fle0 fkeep strm slopes fnb).

  Lemma landscape_in m row nbs l : flandscape m row nbs = Ok l ->
    forall c f, In (c, f) l -> exists k x t q, nth_error row k = Some (Some x) /\ fle0 x = true /\
      nth_error nbs k = Some c /\ fdiv (fabs x) t = Some q /\ fkeep q = true.
  Proof using.
    unfold landscape. set (ft := where_ _ row). intros H c f I.
    apply bind_ok in H. destruct H as [conns [EC H]]. apply bind_ok in H. destruct H as [kept [EK H]]. cbn zeta in H.
    injection H as <-. apply in_combine_l in I. apply in_map_iff in I. destruct I as [[c' x] [Ec I]]. cbn [fst] in Ec. subst c'.
    apply in_map_iff in I. destruct I as [[y o] [Ey I]]. cbn [fst] in Ey. subst y. apply filter_In in I. destruct I as [I K]. cbn [snd] in K.
    destruct o as [q|]; [|discriminate].
    assert (X := in_combine_l _ _ _ _ I).
    assert (SH : exists t, fdiv (fabs x) t = Some q).
    { revert I. generalize (fold_right (fun p l => match snd p with Some x => (fst p, x) :: l | None => l end) [] kept).
      intros sl I. unfold fractions in I. revert I. generalize (fsum (map fabs (map snd sl))). intros t I. exists t.
      clear - I. induction sl as [|z sl IH]; cbn [map combine] in I; [destruct I|]. destruct I as [I|I]; auto.
      inversion I. reflexivity. }
    destruct SH as [t Et].
    assert (KP : In (c, Some x) kept).
    { clear - X. induction kept as [|[a [b|]] kept IH]; simpl in *; auto. destruct X as [X|X]; auto. left. now inversion X. }
    assert (CN : In (c, Some x) conns).
    { assert (G : forall cs k0 k, foldM (fun l p => d <- npget m (fst p) ;; Ok (if (d =? 0)%Z then l else l ++ [p])) cs k0 = Ok k ->
        forall p : Z * option F, In p k -> In p k0 \/ In p cs).
      { induction cs as [|z cs IH]; intros k0 k E p Hp; cbn [foldM] in E; [inversion E; subst; auto|].
        apply bind_ok in E. destruct E as [k1 [E1 E]]. apply bind_ok in E1. destruct E1 as [d [_ E1]]. injection E1 as <-.
        destruct (IH _ _ E p Hp) as [Y|Y]; [|right; now right].
        destruct (d =? 0)%Z; [auto|]. apply in_app_iff in Y. destruct Y as [Y|[<-|[]]]; auto. right; now left. }
      destruct (G _ _ _ EK _ KP) as [[]|]; auto. }
    destruct (@mapM_in _ _ _ _ _ _ EC CN) as [k [Hk Ek]].
    apply bind_ok in Ek. destruct Ek as [c' [G1 Ek]]. apply bind_ok in Ek. destruct Ek as [s [G2 Ek]]. inversion Ek; subst c' s.
    apply get_ok in G1, G2. exists k, x, t, q. repeat split; auto.
    unfold ft in Hk. apply in_where in Hk. destruct Hk as [v [V1 V2]]. rewrite G2 in V1. injection V1 as <-. exact V2.
  Qed.

  (** every record: of a stream cell (a river cell in the array), or of a landscape cell *)
  Lemma record_cases out : valid_fdir fdir -> basin_fits basin (length fdir) -> fmany fdir strm basin slopes fnb = Ok out ->
    forall u d f s, In (u, d, f, s) out -> exists n c, u = (Z.of_nat n + 1)%Z /\ d = (c + 1)%Z /\ n < length fdir /\ inside basin n /\
      ((exists z, nth_error strm n = Some z /\ (0 < z)%Z) /\ f = Some fone /\
         ((inside basin (down fdir n) /\ c = Z.of_nat (down fdir n)) \/ (~ inside basin (down fdir n) /\ c = Z.of_nat n)) \/
       (~ (exists z, nth_error strm n = Some z /\ (0 < z)%Z)) /\
         exists row nbs k x t q, nth_error slopes n = Some row /\ nth_error fnb n = Some nbs /\ nth_error row k = Some (Some x) /\
           fle0 x = true /\ nth_error nbs k = Some c /\ fdiv (fabs x) t = Some q /\ fkeep q = true).
  Proof using.
    intros V B H u d f s I. unfold cascades_many in H. apply bind_ok in H. destruct H as [c [E H]].
    destruct (mask_fdir_spec basin V B) as [m [Em [L [FA [I1 I2]]]]].
    assert (IN : exists a b, In (a, b, f) c /\ u = (a + 1)%Z /\ d = (b + 1)%Z).
    { clear - H I. revert out H I. unfold finish_cascades. induction c as [|[[a b] g] c IH]; intros out H I; simpl in H; [inversion H; subst; easy|].
      apply bind_ok in H. destruct H as [y [E H]]. apply bind_ok in H. destruct H as [ys [E2 H]]. inversion H; subst.
      apply bind_ok in E. destruct E as [t [_ E]]. inversion E; subst. destruct I as [I|I].
      - inversion I; subst. exists a, b. split; [now left|auto].
      - destruct (IH _ E2 I) as (a' & b' & X & Y). exists a', b'. split; [now right|auto]. }
    destruct IN as (a & b & X & -> & ->). clear H I.
    apply fblocks in E. destruct E as [m' [bs [Em' [E ->]]]]. rewrite Em in Em'. injection Em' as <-.
    apply in_concat in X. destruct X as (bl & Hbl & X). destruct (@mapM_in _ _ _ _ _ _ E Hbl) as ([n h] & Hp & Eb).
    assert (Hn := in_combine_l _ _ _ _ Hp). apply in_seq in Hn.
    assert (Hh : h = nth n m 0%Z).
    { apply (In_nth _ _ (0, 0%Z)) in Hp. destruct Hp as (i & Hi & Ei). rewrite combine_length, seq_length, Nat.min_id in Hi.
      rewrite combine_nth in Ei by now rewrite seq_length. rewrite seq_nth in Ei by auto. inversion Ei; subst. reflexivity. }
    unfold PropsCascF.fblock in Eb. destruct (Z.eqb_spec h (-9)) as [|N9]; [inversion Eb; subst; easy|].
    assert (Hin : inside basin n).
    { destruct (PropsCasc2.inside_dec basin n) as [|O]; auto. exfalso. apply N9. rewrite Hh. apply I2; auto. lia. }
    assert (Eh : h = Z.of_nat (down fdir n)) by (rewrite Hh; apply I1; auto; lia).
    assert (HD : down fdir n < length fdir) by (apply down_lt; auto; lia).
    assert (SM : memn n (where_ (fun z => (0 <? z)%Z) strm) = true <-> exists z, nth_error strm n = Some z /\ (0 < z)%Z).
    { unfold memn. rewrite existsb_exists. split.
      - intros [y [Hy Ey]]. apply Nat.eqb_eq in Ey. subst y. apply in_where in Hy. destruct Hy as [z [H1 H2]]. exists z. split; auto. now apply Z.ltb_lt.
      - intros [z [H1 H2]]. exists n. split; [|apply Nat.eqb_refl]. apply in_where. exists z. split; auto. now apply Z.ltb_lt. }
    destruct (memn n _) eqn:Es.
    - apply bind_ok in Eb. destruct Eb as [dd [Ed Eb]]. inversion Eb; subst bl. destruct X as [X|[]]. inversion X; subst a b f.
      rewrite Eh, (npget_pos m 0%Z) in Ed by lia. rewrite Nat2Z.id in Ed. inversion Ed; subst dd.
      exists n. eexists. repeat split; [lia|auto|]. left. split; [now apply SM|]. split; [reflexivity|].
      destruct (Z.eqb_spec (nth (down fdir n) m 0%Z) (-9)) as [E9|N].
      + right. split; auto. intros Y. apply I1 in Y; auto. lia.
      + left. split; auto. destruct (PropsCasc2.inside_dec basin (down fdir n)) as [|O]; auto. exfalso. apply N. now apply I2.
    - apply bind_ok in Eb. destruct Eb as [row [Er Eb]]. apply bind_ok in Eb. destruct Eb as [nbs [En Eb]].
      apply bind_ok in Eb. destruct Eb as [l [El Eb]]. inversion Eb; subst bl. apply in_map_iff in X. destruct X as [[c g] [X Y]].
      cbn [fst snd] in X. inversion X; subst. exists n, b. repeat split; [lia|auto|]. right. split; [rewrite <- SM; discriminate|].
      destruct (landscape_in El Y) as (k & x & t & q & K1 & K2 & K3 & K4 & K5). apply get_ok in Er, En.
      exists row, nbs, k, x, t, q. repeat split; auto.
  Qed.
End Records.
