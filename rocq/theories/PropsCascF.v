(** C54 for IEEE 754 binary64, the arithmetic NumPy uses: the fractions of every cell that has
    cascades are at least 0.01 and add up to one, up to a few roundings. *)
From Coq Require Import ZArith Reals Lra Lia SpecFloat.
From Flocq Require Import Core.Core Relative IEEE754.BinarySingleNaN.
From Verif Require Import Py Spec MStream LGraph LStream LCasc PropsCasc PropsCasc2 PropsAcc2 LFloat PropsAccF PropsWorldF LSum LSumF.
Set Implicit Arguments.
Unset Strict Implicit.
Local Open Scope nat_scope.
Local Open Scope list_scope.
Local Notation length := List.length.

(** ** The records that leave one cell, for any arithmetic: what holds of no record, of a single
    record with fraction one, and of the records of a landscape cell, holds of every cell *)
Section Leaving.
  Context {F : Type} (fone : F) (fabs : F -> F) (fsum : list F -> F)
          (fdiv : F -> F -> option F) (fle0 fkeep : F -> bool).
  Variables (fdir strm : list Z) (basin : option (list Z)) (slopes : list (list (option F))) (fnb : list (list Z)).
  Variable good : list (option F) -> Prop.
  Hypothesis good_nil : good [].
  Hypothesis good_one : good [Some fone].
  Hypothesis good_landscape : forall m row nbs l, In row slopes ->
    landscape fabs fsum fdiv fle0 fkeep m row nbs = Ok l -> good (map snd l).

  Definition fblock (m : list Z) (p : nat * Z) : res (list (Z * Z * option F)) :=
    let '(node, hru_down) := p in
    if (hru_down =? -9)%Z then Ok []
    else if memn node (where_ (fun z => (0 <? z)%Z) strm) then
      d <- npget m hru_down ;;
      Ok [(Z.of_nat node, if (d =? -9)%Z then Z.of_nat node else hru_down, Some fone)]
    else row <- get slopes node ;; nbs <- get fnb node ;; l <- landscape fabs fsum fdiv fle0 fkeep m row nbs ;;
         Ok (map (fun c => (Z.of_nat node, fst c, snd c)) l).

  Lemma fblocks c : many_to_many fone fabs fsum fdiv fle0 fkeep fdir strm basin slopes fnb = Ok c ->
    exists m bs, mask_fdir fdir basin = Ok m /\ mapM (fblock m) (combine (seq 0 (length m)) m) = Ok bs /\ c = concat bs.
  Proof.
    unfold many_to_many. intros H. apply bind_ok in H. destruct H as [m [E H]]. exists m.
    rewrite (foldM_ext _ (fun o x => b <- fblock m x ;; Ok (o ++ b))) in H.
    - apply foldM_blocks in H. destruct H as [bs [H1 ->]]. exists bs. auto.
    - intros s [node h]. unfold fblock. destruct (h =? -9)%Z; [simpl; now rewrite app_nil_r|].
      destruct (memn node _).
      + destruct (npget m h); reflexivity.
      + destruct (get slopes node); [|reflexivity]. simpl. destruct (get fnb node); [|reflexivity]. simpl.
        destruct (landscape _ _ _ _ _ m a a0); reflexivity.
  Qed.

  Lemma fblock_shape m node h b : fblock m (node, h) = Ok b ->
    (forall u d f, In (u, d, f) b -> u = Z.of_nat node) /\ good (map snd b).
  Proof.
    unfold fblock. destruct (h =? -9)%Z.
    { intros H; inversion H; subst. split; [easy|auto]. }
    destruct (memn node _).
    - intros H. apply bind_ok in H. destruct H as [d [_ H]]. inversion H; subst. split; auto.
      intros u d' f [X|[]]. now inversion X.
    - intros H. apply bind_ok in H. destruct H as [row [Er H]]. apply bind_ok in H. destruct H as [nbs [_ H]].
      apply bind_ok in H. destruct H as [l [E H]]. inversion H; subst. split.
      + intros u d f X. apply in_map_iff in X. destruct X as [y [X _]]. now inversion X.
      + rewrite map_map. simpl. eapply good_landscape; eauto. apply get_ok in Er. eapply nth_error_In; eauto.
  Qed.

  Theorem leaving_good out : cascades_many fone fabs fsum fdiv fle0 fkeep fdir strm basin slopes fnb = Ok out ->
    forall u, good (leaving u out).
  Proof.
    unfold cascades_many. intros H u. apply bind_ok in H. destruct H as [c [E H]].
    apply fblocks in E. destruct E as [m [bs [_ [E ->]]]].
    assert (FIN : forall c out, finish_cascades strm c = Ok out ->
       leaving u out = map snd (filter (fun e : Z * Z * option F => (fst (fst e) + 1 =? u)%Z) c)).
    { clear. unfold finish_cascades. induction c as [|[[a d] f] c IH]; intros out H; simpl in H.
      - inversion H; reflexivity.
      - apply bind_ok in H. destruct H as [y [E H]]. apply bind_ok in H. destruct H as [ys [E2 H]].
        inversion H; subst. apply bind_ok in E. destruct E as [s [_ E]]. inversion E; subst. clear E H.
        unfold leaving. cbn [filter fst snd]. specialize (IH _ E2). unfold leaving in IH.
        destruct (a + 1 =? u)%Z; cbn [map snd]; now rewrite IH. }
    rewrite (FIN _ _ H). clear FIN H.
    assert (G : forall ps bs, NoDup (map fst ps) -> mapM (fblock m) ps = Ok bs ->
      (forall u d f, In (u, d, f) (concat bs) -> exists n, In n (map fst ps) /\ u = Z.of_nat n) /\
      good (map snd (filter (fun e : Z * Z * option F => (fst (fst e) + 1 =? u)%Z) (concat bs)))).
    { induction ps as [|[node h] ps IH]; intros bs' ND H; simpl in H.
      - inversion H. split; [easy|auto].
      - apply bind_ok in H. destruct H as [b [Eb H]]. apply bind_ok in H. destruct H as [bs2 [E2 H]].
        inversion H; subst bs'. clear H. inversion ND; subst. destruct (IH _ ltac:(auto) E2) as [K1 K2].
        destruct (fblock_shape Eb) as [S1 S2]. cbn [concat]. split.
        + intros a d f X. apply in_app_iff in X. destruct X as [X|X].
          * exists node. split; [now left|]. eapply S1; eauto.
          * destruct (K1 _ _ _ X) as [n [X1 X2]]. exists n. split; [now right|auto].
        + rewrite filter_app, map_app.
          destruct (Z.eqb_spec (Z.of_nat node + 1) u) as [Hu|Hu].
          * replace (filter _ (concat bs2)) with (@nil (Z * Z * option F)).
            2:{ symmetry. match goal with |- ?x = [] => destruct x as [|e es] eqn:EE; auto end. exfalso.
                assert (X : In e (e :: es)) by now left. rewrite <- EE in X. apply filter_In in X. destruct X as [X Y].
                destruct e as [[a d] f]. destruct (K1 _ _ _ X) as [n [X1 X2]]. apply Z.eqb_eq in Y. simpl in Y.
                assert (n = node) by lia. subst n. contradiction. }
            simpl. rewrite app_nil_r. replace (filter _ b) with b; [exact S2|].
            clear - S1 Hu. induction b as [|[[a d] f] b IH]; simpl; auto.
            rewrite (S1 a d f) by now left. destruct (Z.eqb_spec (Z.of_nat node + 1) u); [|contradiction].
            f_equal. apply IH. intros; eapply S1; right; eauto.
          * replace (filter _ b) with (@nil (Z * Z * option F)); [simpl; exact K2|].
            clear - S1 Hu. induction b as [|[[a d] f] b IH]; simpl; auto.
            rewrite (S1 a d f) by now left. destruct (Z.eqb_spec (Z.of_nat node + 1) u); [contradiction|].
            apply IH. intros; eapply S1; right; eauto. }
    apply G in E; [destruct E as [_ E]; exact E|].
    rewrite map_fst_combine by now rewrite seq_length. apply seq_NoDup.
  Qed.
End Leaving.

(** ** No exception, in any arithmetic *)
Section Succeed.
  Context {F : Type} (fone : F) (fabs : F -> F) (fsum : list F -> F)
          (fdiv : F -> F -> option F) (fle0 fkeep : F -> bool).
  Variables (fdir strm : list Z) (basin : option (list Z)) (slopes : list (list (option F))) (fnb : list (list Z)).
  Notation flandscape := (landscape fabs fsum fdiv fle0 fkeep).
  Notation fmany := (cascades_many fone fabs fsum fdiv fle0 fkeep).
  Notation fblock := (@fblock F fone fabs fsum fdiv fle0 fkeep strm slopes fnb).
  Hypothesis V : valid_fdir fdir.
  Hypothesis HL : length strm = length fdir.
  Hypothesis HB : basin_fits basin (length fdir).

  (** the slope table: rows for all cells, and a neighbour wherever the slope leads down or is
      level (the padding has slope 1e+10 or, beside a NaN cell, NaN) *)
  Definition slopes_reach : Prop :=
    length slopes = length fdir /\ length fnb = length fdir /\
    forall n row nbs k x, nth_error slopes n = Some row -> nth_error fnb n = Some nbs ->
      nth_error row k = Some (Some x) -> fle0 x = true ->
      exists c, nth_error nbs k = Some c /\ (0 <= c < Z.of_nat (length fdir))%Z.

  (** the candidate links of a landscape cell *)
  Lemma landscape_ok m n row nbs : length m = length fdir -> slopes_reach ->
    nth_error slopes n = Some row -> nth_error fnb n = Some nbs ->
    exists l, flandscape m row nbs = Ok l /\
      forall c f, In (c, f) l -> exists k x, nth_error row k = Some (Some x) /\ fle0 x = true /\
         nth_error nbs k = Some c /\ (0 <= c < Z.of_nat (length fdir))%Z /\ nth (Z.to_nat c) m 0%Z <> 0%Z.
  Proof.
    intros Lm [_ [_ HT]] Hr Hn. unfold landscape.
    set (ft := where_ _ row).
    assert (FT : forall k, In k ft -> exists x, nth_error row k = Some (Some x) /\ fle0 x = true).
    { intros k Hk. unfold ft in Hk. apply in_where in Hk. destruct Hk as [[x|] [H1 H2]]; [|discriminate].
      exists x. auto. }
    assert (CO : exists conns, mapM (fun k => c <- get nbs k ;; s <- get row k ;; Ok (c, s)) ft = Ok conns /\
       forall c s, In (c, s) conns -> exists k x, s = Some x /\ nth_error row k = Some (Some x) /\ fle0 x = true /\
          nth_error nbs k = Some c /\ (0 <= c < Z.of_nat (length fdir))%Z).
    { destruct (@mapM_exists _ _ (fun k => c <- get nbs k ;; s <- get row k ;; Ok (c, s)) ft) as [conns E].
      - intros k Hk. destruct (FT k Hk) as [x [H1 H2]]. destruct (HT n row nbs k x Hr Hn H1 H2) as [c [H3 H4]].
        apply get_ok in H3. rewrite H3. cbn [bind]. apply get_ok in H1. rewrite H1. simpl. eauto.
      - exists conns. split; auto. intros c s Hi. destruct (@mapM_in _ _ _ _ _ _ E Hi) as [k [Hk Ek]].
        destruct (FT k Hk) as [x [H1 H2]]. destruct (HT n row nbs k x Hr Hn H1 H2) as [c' [H3 H4]].
        assert (G3 := proj2 (get_ok nbs k c') H3). assert (G1 := proj2 (get_ok row k (Some x)) H1).
        rewrite G3, G1 in Ek. cbn [bind] in Ek. inversion Ek; subst. exists k, x. auto. }
    destruct CO as [conns [EC HC]]. rewrite EC. cbn [bind].
    set (step := fun (l : list (Z * option F)) (p : Z * option F) => d <- npget m (fst p) ;; Ok (if (d =? 0)%Z then l else l ++ [p])).
    assert (KE : forall cs acc, (forall c s, In (c, s) cs -> In (c, s) conns) -> exists kept, foldM step cs acc = Ok kept /\
       forall c s, In (c, s) kept -> In (c, s) acc \/ (In (c, s) conns /\ nth (Z.to_nat c) m 0%Z <> 0%Z)).
    { induction cs as [|[c s] cs IH]; intros acc HI; simpl.
      - exists acc. auto.
      - destruct (HC c s (HI c s (or_introl eq_refl))) as [k [x [_ [_ [_ [_ Hc]]]]]].
        unfold step at 1. cbn [fst]. rewrite (npget_pos m 0%Z) by (rewrite Lm; auto). cbn [bind].
        destruct (IH (if (nth (Z.to_nat c) m 0 =? 0)%Z then acc else acc ++ [(c, s)])) as [kept [E G]]; [intros; apply HI; now right|].
        exists kept. split; auto. intros c' s' Hi. destruct (G c' s' Hi) as [X|X]; auto.
        destruct (Z.eqb_spec (nth (Z.to_nat c) m 0%Z) 0); auto. apply in_app_iff in X. destruct X as [X|[X|[]]]; auto.
        inversion X; subst. right. split; auto. apply HI. now left. }
    destruct (KE conns [] ltac:(auto)) as [kept [EK HK]]. rewrite EK. cbn [bind]. cbn zeta.
    eexists. split; [reflexivity|]. intros c f Hi. apply in_combine_l in Hi.
    apply in_map_iff in Hi. destruct Hi as [[c' x'] [Hc Hi]]. simpl in Hc. subst c'.
    apply in_map_iff in Hi. destruct Hi as [[y o] [Hy Hi]]. simpl in Hy. subst y. apply filter_In in Hi.
    destruct Hi as [Hi _]. apply in_combine_l in Hi.
    assert (FR : In (c, Some x') kept).
    { clear - Hi. induction kept as [|[a [b|]] kept IH]; simpl in *; auto. destruct Hi as [Hi|Hi]; auto. left. now inversion Hi. }
    destruct (HK _ _ FR) as [[]|[X1 X2]]. destruct (HC _ _ X1) as [k [x [_ [Y1 [Y2 [Y3 Y4]]]]]].
    exists k, x. auto.
  Qed.

  (** the computation raises no exception *)
  Theorem C54_any_arithmetic_succeeds : slopes_reach -> exists out, fmany fdir strm basin slopes fnb = Ok out.
  Proof.
    intros ST. destruct (mask_fdir_spec basin V HB) as [m [E [L [FA [I1 I2]]]]].
    assert (LS := proj1 ST). assert (LF := proj1 (proj2 ST)).
    assert (BK : forall p, In p (combine (seq 0 (length m)) m) -> exists b, fblock m p = Ok b /\
        forall u d f, In (u, d, f) b -> (0 <= d < Z.of_nat (length strm))%Z).
    { intros [node h] Hp. assert (Hn := in_combine_l _ _ _ _ Hp). apply in_seq in Hn.
      assert (Hh := in_combine_r _ _ _ _ Hp). rewrite Forall_forall in FA. assert (Fh := FA h Hh).
      unfold fblock. destruct (Z.eqb_spec h (-9)) as [|H9]; [exists []; split; [auto|easy]|].
      destruct Fh as [?|Fh]; [contradiction|].
      destruct (memn node _).
      - rewrite (npget_pos m 0%Z Fh). cbn [bind]. eexists. split; [reflexivity|]. intros u d f [X|[]]. inversion X; subst.
        destruct (_ =? -9)%Z; lia.
      - destruct (nth_error slopes node) as [row|] eqn:Er; [|apply nth_error_None in Er; lia].
        destruct (nth_error fnb node) as [nbs|] eqn:En; [|apply nth_error_None in En; lia].
        rewrite (proj2 (get_ok _ _ _) Er), (proj2 (get_ok _ _ _) En). cbn [bind].
        destruct (@landscape_ok m node row nbs L ST Er En) as [l [El Gl]]. rewrite El. cbn [bind].
        eexists. split; [reflexivity|]. intros u d f X. apply in_map_iff in X. destruct X as [[c g] [X Y]].
        cbn [fst snd] in X. inversion X; subst. destruct (Gl _ _ Y) as [k [x [_ [_ [_ [Z1 _]]]]]]. lia. }
    assert (MM : exists c, many_to_many fone fabs fsum fdiv fle0 fkeep fdir strm basin slopes fnb = Ok c /\
        forall u d f, In (u, d, f) c -> (0 <= d < Z.of_nat (length strm))%Z).
    { unfold many_to_many. rewrite E. cbn [bind].
      rewrite (foldM_ext _ (fun o x => b <- fblock m x ;; Ok (o ++ b))).
      2:{ intros s [node h]. unfold fblock. destruct (h =? -9)%Z; [simpl; now rewrite app_nil_r|].
          destruct (memn node _).
          - destruct (npget m h); reflexivity.
          - destruct (get slopes node); [|reflexivity]. simpl. destruct (get fnb node); [|reflexivity]. simpl.
            destruct (flandscape m a a0); reflexivity. }
      assert (G : forall ps acc, (forall p, In p ps -> In p (combine (seq 0 (length m)) m)) ->
        (forall u d f, In (u, d, f) acc -> (0 <= d < Z.of_nat (length strm))%Z) ->
        exists c, foldM (fun o x => b <- fblock m x ;; Ok (o ++ b)) ps acc = Ok c /\
          forall u d f, In (u, d, f) c -> (0 <= d < Z.of_nat (length strm))%Z).
      { induction ps as [|p ps IH]; intros acc HI HA; [exists acc; auto|]. cbn [foldM].
        destruct (BK p (HI p (or_introl eq_refl))) as [b [Eb Gb]]. rewrite Eb. cbn [bind]. apply IH.
        - intros q Hq. apply HI. now right.
        - intros u d f X. apply in_app_iff in X. destruct X; eauto. }
      apply G; [auto|easy]. }
    destruct MM as [c [EM GM]]. unfold cascades_many. rewrite EM. cbn [bind]. rewrite (finish_ok _ _ GM). eauto.
  Qed.
End Succeed.

(** ** C55: what does hold of the boundary, in any arithmetic: every record starts inside, and those
    of stream cells end inside *)
Section Boundary.
  Context {F : Type} (fone : F) (fabs : F -> F) (fsum : list F -> F)
          (fdiv : F -> F -> option F) (fle0 fkeep : F -> bool).
  Variables (fdir strm : list Z) (basin : option (list Z)) (slopes : list (list (option F))) (fnb : list (list Z)).

  Theorem C55_starts_inside out : valid_fdir fdir -> basin_fits basin (length fdir) ->
    cascades_many fone fabs fsum fdiv fle0 fkeep fdir strm basin slopes fnb = Ok out ->
    forall u d f s, In (u, d, f, s) out -> exists n, u = (Z.of_nat n + 1)%Z /\ n < length fdir /\ inside basin n /\
      forall z, nth_error strm n = Some z -> (0 < z)%Z ->
        exists c, d = (Z.of_nat c + 1)%Z /\ inside basin c /\ (c = down fdir n \/ c = n).
  Proof.
    intros V B H u d f s I. unfold cascades_many in H. apply bind_ok in H. destruct H as [c [E H]].
    destruct (mask_fdir_spec basin V B) as [m [Em [L [FA [I1 I2]]]]].
    assert (IN : exists a b, In (a, b, f) c /\ u = (a + 1)%Z /\ d = (b + 1)%Z).
    { clear - H I. revert out H I. unfold finish_cascades. induction c as [|[[a b] g] c IH]; intros out H I; simpl in H; [inversion H; subst; easy|].
      apply bind_ok in H. destruct H as [y [E H]]. apply bind_ok in H. destruct H as [ys [E2 H]]. inversion H; subst.
      apply bind_ok in E. destruct E as [t [_ E]]. inversion E; subst. destruct I as [I|I].
      - inversion I; subst. exists a, b. split; [now left|auto].
      - destruct (IH _ E2 I) as (a' & b' & X & Y). exists a', b'. split; [now right|auto]. }
    destruct IN as (a & b & X & -> & ->). clear H I.
    apply fblocks in E. destruct E as [m' [bs [Em' [E ->]]]]. rewrite Em in Em'. injection Em' as <-.
    apply in_concat in X. destruct X as (bl & Hbl & X). destruct (@mapM_in _ _ _ _ _ _ E Hbl) as ([n h] & Hp & Eb).
    assert (Hn := in_combine_l _ _ _ _ Hp). apply in_seq in Hn.
    assert (Hh : h = nth n m 0%Z).
    { apply (In_nth _ _ (0, 0%Z)) in Hp. destruct Hp as (i & Hi & Ei). rewrite combine_length, seq_length, Nat.min_id in Hi.
      rewrite combine_nth in Ei by now rewrite seq_length. rewrite seq_nth in Ei by auto. inversion Ei; subst. reflexivity. }
    unfold fblock in Eb. destruct (Z.eqb_spec h (-9)) as [|N9]; [inversion Eb; subst; easy|].
    assert (Hin : inside basin n).
    { destruct (inside_dec basin n) as [|O]; auto. exfalso. apply N9. rewrite Hh. apply I2; auto. lia. }
    assert (Eh : h = Z.of_nat (down fdir n)) by (rewrite Hh; apply I1; auto; lia).
    destruct (memn n _) eqn:Es.
    - apply bind_ok in Eb. destruct Eb as [dd [Ed Eb]]. inversion Eb; subst bl. destruct X as [X|[]]. inversion X; subst.
      exists n. repeat split; auto; [lia|]. intros z _ _.
      assert (HD : down fdir n < length fdir) by (apply down_lt; auto; lia). rewrite Eh, (npget_pos m 0%Z) in Ed by lia. rewrite Nat2Z.id in Ed. inversion Ed; subst.
      destruct (Z.eqb_spec (nth (down fdir n) m 0%Z) (-9)) as [|N].
      + exists n. auto.
      + exists (down fdir n). rewrite Eh. repeat split; auto. destruct (inside_dec basin (down fdir n)) as [|O]; auto. exfalso. apply N. now apply I2.
    - apply bind_ok in Eb. destruct Eb as [row [_ Eb]]. apply bind_ok in Eb. destruct Eb as [nbs [_ Eb]].
      apply bind_ok in Eb. destruct Eb as [l [_ Eb]]. inversion Eb; subst bl. apply in_map_iff in X. destruct X as [y [X _]]. inversion X; subst.
      exists n. repeat split; auto; [lia|]. intros z Hz Pz. exfalso.
      assert (Y : memn n (where_ (fun z => (0 <? z)%Z) strm) = true).
      { apply existsb_exists. exists n. split; [|apply Nat.eqb_refl]. apply in_where. exists z. split; auto. now apply Z.ltb_lt. }
      congruence.
  Qed.
End Boundary.

(** ** Doubles *)
Definition f_one : b64 := @B754_finite 53 1024 false 4503599627370496 (-52) eq_refl.

Lemma val_one : val f_one = 1%R.
Proof. unfold f_one, B2R, F2R. simpl. lra. Qed.
Lemma val_percent : (0.00999 < val f_percent <= 0.0101)%R.
Proof. unfold f_percent, B2R, F2R. simpl. lra. Qed.

Lemma abs_nonneg x : not_nan x -> nonneg (f_abs x).
Proof. intros N. apply area_nonneg. destruct x; try discriminate; split; reflexivity. Qed.

(** adding the same number keeps the order *)
Lemma add_mono w w' a : nonneg w -> nonneg w' -> nonneg a -> finite w -> (val w <= val w')%R -> finite (f_add w' a) ->
  finite (f_add w a) /\ (val (f_add w a) <= val (f_add w' a))%R.
Proof.
  intros Nw Nw' Na Fw L F'. 
  assert (NA : nonneg (f_add w' a)) by (apply (g_ok b64_growing); auto).
  assert (Fw' : finite w') by (eapply below_finite; [exact Nw'|exact NA|exact F'|now apply (g_left b64_growing)]).
  assert (Fa : finite a) by (eapply below_finite; [exact Na|exact NA|exact F'|now apply (g_right b64_growing)]).
  assert (Va := nonneg_val Na Fa).
  assert (X : (rnd (val w + val a) <= rnd (val w' + val a))%R) by (apply rnd_le; lra).
  destruct (add_cases Fw' Fa Va) as [[_ [V' B']]|[E' _]]; [|rewrite E' in F'; discriminate].
  destruct (add_cases Fw Fa Va) as [[F [V B]]|[_ B]]; [|lra]. split; auto. rewrite V, V'. exact X.
Qed.

(** a sum over part of the terms is no larger *)
Lemma part_sum {A} (g : A -> b64) (keep : A -> bool) l : (forall x, In x l -> nonneg (g x)) -> forall w w',
  nonneg w -> nonneg w' -> finite w -> (val w <= val w')%R -> finite (fold_left f_add (map g l) w') ->
  finite (fold_left f_add (map g (filter keep l)) w) /\
  (val (fold_left f_add (map g (filter keep l)) w) <= val (fold_left f_add (map g l) w'))%R.
Proof.
  induction l as [|x l IH]; intros HL w w' Nw Nw' Fw L F; cbn [map fold_left filter] in *; auto.
  assert (Nx : nonneg (g x)) by (apply HL; now left).
  assert (NA : nonneg (f_add w' (g x))) by (apply (g_ok b64_growing); auto).
  assert (HL' : forall y, In y l -> nonneg (g y)) by (intros; apply HL; now right).
  assert (HLm : forall y, In y (map g l) -> nonneg y) by (intros y Hy; apply in_map_iff in Hy; destruct Hy as (q & <- & Hq); auto).
  assert (FA : finite (f_add w' (g x))).
  { eapply below_finite; [exact NA| |exact F|]; [apply (fold_ok b64_growing)|apply (fold_start b64_growing)]; auto. }
  destruct (keep x).
  - cbn [map fold_left]. destruct (add_mono Nw Nw' Nx Fw L FA) as [F1 L1]. apply IH; auto. apply (g_ok b64_growing); auto.
  - apply IH; auto. destruct (add_mono Nw Nw' Nx Fw L FA) as [F1 L1].
    assert (Fx : finite (g x)) by (eapply below_finite; [exact Nx|exact NA|exact FA|now apply (g_right b64_growing)]).
    assert (Vx := nonneg_val Nx Fx).
    destruct (add_cases Fw Fx Vx) as [[_ [V _]]|[E _]]; [|rewrite E in F1; discriminate].
    assert (X : (rnd (val w) <= rnd (val w + val (g x)))%R) by (apply rnd_le; lra). rewrite rnd_val in X. lra.
Qed.

(** the quotient of a term by a sum that is at least as large *)
Lemma quot_spec a t : nonneg a -> nonneg t -> finite t -> (0 < val t)%R -> (f_ge t a = true) ->
  exists q, f_quot a t = Some q /\ finite q /\ val q = rnd (val a / val t) /\ (0 <= val a / val t <= 1)%R.
Proof.
  intros Na Nt Ft Pt G. assert (Fa : finite a) by (eapply below_finite; eauto).
  assert (Va := nonneg_val Na Fa).
  assert (L : (val a <= val t)%R).
  { destruct (Rle_or_lt (val a) (val t)) as [|X]; auto. apply (val_rank_lt Ft Fa) in X. unfold f_ge in G.
    destruct Na as [Na _], Nt as [Nt _]. rewrite le_rank in G by auto. apply Z.leb_le in G. lia. }
  assert (I := Rinv_0_lt_compat _ Pt).
  assert (Q : (0 <= val a / val t <= 1)%R).
  { split; [apply Rmult_le_pos; lra|]. apply (Rmult_le_reg_r (val t)); auto. unfold Rdiv. rewrite Rmult_assoc, Rinv_l by lra. lra. }
  assert (R01 : (0 <= rnd (val a / val t) <= 1)%R).
  { assert (Z0 := rnd_le (proj1 Q)). assert (Z1 := rnd_le (proj2 Q)). rewrite rnd_zero in Z0.
    assert (R1 := rnd_val f_one). rewrite val_one in R1. lra. }
  assert (C := Bdiv_correct _ _ _ _ mode_NE a t ltac:(lra)). fold (f_div a t) in C.
  assert (NN := div_ok (fin_ok Fa) Ft Pt).
  rewrite Rlt_bool_true in C.
  - destruct C as [C1 [C2 _]]. exists (f_div a t). unfold f_quot. unfold not_nan in NN. rewrite NN. repeat split; try tauto.
    unfold finite in *. now rewrite C2.
  - rewrite Rabs_pos_eq by lra. apply Rle_lt_trans with 1%R; [lra|]. change 1%R with (bpow radix2 0). apply bpow_lt. lia.
Qed.

(** a quotient that passes the 0.01 test: the total is finite and positive *)
Lemma kept_total a t q : nonneg a -> nonneg t -> f_ge t a = true -> f_quot a t = Some q -> f_keep q = true ->
  finite t /\ (0 < val t)%R /\ (val f_percent < val a / val t)%R.
Proof.
  intros Na Nt G E K.
  destruct (nonneg_cases Nt) as [Ft| ->].
  2:{ exfalso. unfold f_quot in E. destruct (nonneg_cases Na) as [Fa| ->].
      - destruct a as [s|s| |s m e B]; try discriminate.
        + destruct s; cbn in E; injection E as <-; discriminate K.
        + destruct s; cbn in E; injection E as <-; discriminate K.
      - cbn in E. discriminate. }
  assert (Vt := nonneg_val Nt Ft).
  destruct (Rle_lt_or_eq_dec _ _ Vt) as [P|Z].
  - split; [auto|]. split; [auto|]. destruct (quot_spec Na Nt Ft P G) as (q' & E' & Fq & Vq & _). rewrite E in E'. injection E' as <-.
    unfold f_keep in K. apply lt_val in K; auto; [|reflexivity]. rewrite Vq in K.
    destruct (Rle_or_lt (val a / val t) (val f_percent)) as [X|]; auto. apply rnd_le in X. rewrite rnd_val in X. lra.
  - exfalso. assert (Fa : finite a) by (eapply below_finite; eauto). assert (Va := nonneg_val Na Fa).
    assert (L : (val a <= val t)%R).
    { destruct (Rle_or_lt (val a) (val t)) as [|X]; auto. apply (val_rank_lt Ft Fa) in X. unfold f_ge in G.
      destruct Na as [Na _], Nt as [Nt _]. rewrite le_rank in G by auto. apply Z.leb_le in G. lia. }
    assert (Ea : val a = 0%R) by lra.
    assert (Zero : forall x : b64, finite x -> val x = 0%R -> exists s, x = B754_zero s).
    { intros x Fx Ex. destruct x as [s|s| |s m e B]; try discriminate; [eauto|]. exfalso. cbn [B2R] in Ex.
      apply eq_0_F2R in Ex. destruct s; discriminate. }
    destruct (Zero a Fa Ea) as [s ->]. destruct (Zero t Ft (eq_sym Z)) as [s' ->]. destruct s, s'; discriminate E.
Qed.

(** each term that is at least 0.0099 of the whole counts *)
Lemma few_terms {A} (g : A -> b64) (M : R) l : (0 < M)%R -> (forall x, In x l -> nonneg (g x) /\ (0.0099 * M <= val (g x))%R) -> forall w,
  nonneg w -> finite w -> finite (fold_left f_add (map g l) w) -> (val (fold_left f_add (map g l) w) <= M)%R ->
  (val w + INR (length l) * (0.0098 * M) <= val (fold_left f_add (map g l) w))%R.
Proof.
  intros PM. induction l as [|x l IH]; intros HL w Nw Fw FF LM.
  { cbn [map fold_left length INR]. lra. }
  change (length (x :: l)) with (S (length l)). cbn [map fold_left] in *.
  destruct (HL x (or_introl eq_refl)) as [Nx Lx].
  assert (NA : nonneg (f_add w (g x))) by (apply (g_ok b64_growing); auto).
  assert (HLm : forall y, In y (map g l) -> nonneg y).
  { intros y Hy. apply in_map_iff in Hy. destruct Hy as (q & <- & Hq). apply HL. now right. }
  assert (NF : nonneg (fold_left f_add (map g l) (f_add w (g x)))) by (apply (fold_ok b64_growing); auto).
  assert (FA : finite (f_add w (g x))).
  { eapply below_finite; [exact NA|exact NF|exact FF|apply (fold_start b64_growing); auto]. }
  assert (Fx : finite (g x)) by (eapply below_finite; [exact Nx|exact NA|exact FA|now apply (g_right b64_growing)]).
  assert (Y := IH (fun y H => HL y (or_intror H)) _ NA FA FF LM).
  assert (Vw := nonneg_val Nw Fw). assert (Vx := nonneg_val Nx Fx).
  destruct (add_cases Fw Fx Vx) as [[_ [V _]]|[E _]]; [|rewrite E in FA; discriminate].
  destruct (rnd_plus w (g x)) as [e [He Ee]]. rewrite Ee in V. apply Rabs_le_inv in He.
  assert (U : (u <= 0.00001)%R).
  { unfold u. apply Rle_trans with (bpow radix2 (-17)); [apply bpow_le; lia|]. simpl. lra. }
  assert (P := u_pos). rewrite S_INR.
  assert (LE : (0 <= INR (length l))%R) by apply pos_INR.
  assert (A1 : (val (f_add w (g x)) <= M)%R).
  { assert (0 <= INR (length l) * (0.0098 * M))%R by (apply Rmult_le_pos; lra). lra. }
  rewrite V in Y, A1.
  assert (A2 : (val w + val (g x) <= 2 * M)%R) by nra.
  assert (A3 : ((val w + val (g x)) * - e <= 2 * M * 0.00001)%R) by nra.
  nra.
Qed.

(** the rounded quotient, relative to the exact one *)
Lemma quot_rel (x : R) : (0.0099 <= x)%R -> exists e, (Rabs e <= u)%R /\ rnd x = (x * (1 + e))%R.
Proof.
  intros L. destruct (@relative_error_N_FLT_ex radix2 (3 - 1024 - 53) 53 ltac:(reflexivity) (fun x => negb (Z.even x)) x) as [e [B E]].
  - rewrite Rabs_pos_eq by lra. apply Rle_trans with (bpow radix2 (-7)); [apply bpow_le; lia|]. simpl. lra.
  - exists e. split; [|exact E]. eapply Rle_trans; [exact B|]. right. unfold u. change (/ 2)%R with (bpow radix2 (-1)).
    rewrite <- bpow_plus. reflexivity.
Qed.

Lemma fold_exact {A} (g : A -> b64) l : forall w s j,
  nonneg w -> finite w -> (0 <= s)%R -> within j s (val w) ->
  (forall x, In x l -> nonneg (g x)) -> finite (fold_left f_add (map g l) w) ->
  within (j + length l) (s + rsum (map (fun x => val (g x)) l)) (val (fold_left f_add (map g l) w)).
Proof.
  induction l as [|x l IH]; intros w s j Nw Fw Hs W HL FF; cbn [map fold_left length rsum fold_right] in *.
  - rewrite Nat.add_0_r, Rplus_0_r. exact W.
  - assert (Nx : nonneg (g x)) by (apply HL; now left).
    assert (NA : nonneg (f_add w (g x))) by (apply (g_ok b64_growing); auto).
    assert (HLm : forall y, In y (map g l) -> nonneg y).
    { intros y Hy. apply in_map_iff in Hy. destruct Hy as (q & <- & Hq). apply HL. now right. }
    assert (FA : finite (f_add w (g x))).
    { eapply below_finite; [exact NA| |exact FF|]; [apply (fold_ok b64_growing)|apply (fold_start b64_growing)]; auto. }
    assert (Fx : finite (g x)) by (eapply below_finite; [exact Nx|exact NA|exact FA|now apply (g_right b64_growing)]).
    assert (Vx := nonneg_val Nx Fx).
    destruct (add_cases Fw Fx Vx) as [[_ [V _]]|[E _]]; [|rewrite E in FA; discriminate].
    destruct (rnd_plus w (g x)) as [e [He Ee]].
    assert (X : within (S (j + 0)) (s + val (g x)) (val (f_add w (g x)))).
    { rewrite V, Ee. apply within_plus; auto. unfold within. simpl. lra. }
    assert (Y := IH _ (s + val (g x))%R (S (j + 0)) NA FA ltac:(lra) X (fun y H => HL y (or_intror H)) FF).
    replace (S (j + 0) + length l) with (j + S (length l)) in Y by lia.
    replace (s + (val (g x) + fold_right Rplus 0 (map (fun x => val (g x)) l)))%R with (s + val (g x) + rsum (map (fun x => val (g x)) l))%R by (unfold rsum; ring).
    exact Y.
Qed.

Lemma rsum_between {A} (f h : A -> R) (lo hi : R) l : (forall x, In x l -> lo * h x <= f x <= hi * h x)%R ->
  (lo * rsum (map h l) <= rsum (map f l) <= hi * rsum (map h l))%R.
Proof.
  induction l as [|x l IH]; intros H; cbn [map rsum fold_right] in *; [lra|].
  assert (X := H x (or_introl eq_refl)). assert (Y := IH (fun y Hy => H y (or_intror Hy))). unfold rsum in Y. lra.
Qed.

(** ** The specification: no fraction at all, or fractions between [lo] and 1 that add up to one
    within 1e-13 *)
Definition shares_out (lo : R) (l : list (option b64)) : Prop :=
  l = [] \/ exists qs, l = map Some qs /\
    (forall q, In q qs -> finite q /\ (lo <= val q <= 1)%R) /\
    (Rabs (rsum (map val qs) - 1) <= / 10 ^ 13)%R.

(** the double 0.01, and 0.01 less some roundings *)
Notation percent := (val f_percent).
Definition almost_percent : R := ((1 - / 10 ^ 12) * percent)%R.

Lemma some_map {A B} (f : A -> option B) l : (forall x, In x l -> exists y, f x = Some y) ->
  exists ys, map f l = map Some ys /\ length ys = length l /\ forall y, In y ys -> exists x, In x l /\ f x = Some y.
Proof.
  induction l as [|x l IH]; intros H; [exists []; repeat split; easy|].
  destruct (H x (or_introl eq_refl)) as [y Ey]. destruct (IH (fun z Hz => H z (or_intror Hz))) as (ys & E & L & I).
  exists (y :: ys). cbn [map length]. rewrite Ey, E, L. repeat split; auto.
  intros z [<-|Hz]; [exists x; split; [now left|auto]|]. destruct (I z Hz) as (x' & ? & ?). exists x'. split; [now right|auto].
Qed.

(** the rounded quotients of the terms by a total that is close to their sum *)
Lemma quotients_sum {A} (g : A -> b64) ks T2 lo k : ks <> [] ->
  (forall x, In x ks -> nonneg (g x)) -> nonneg T2 -> finite T2 -> (0 < val T2)%R ->
  (forall x, In x ks -> f_ge T2 (g x) = true) ->
  within k (rsum (map (fun x => val (g x)) ks)) (val T2) -> (INR k <= 110)%R ->
  (forall x, In x ks -> (0.0099 <= val (g x) / val T2)%R /\ (lo <= rnd (val (g x) / val T2))%R) ->
  shares_out lo (map (fun x => f_quot (g x) T2) ks).
Proof.
  intros NE NK NT2 FT2 PT2 TG FE K2 LO. right.
  assert (QS : forall x, In x ks -> exists q, f_quot (g x) T2 = Some q /\ finite q /\ val q = rnd (val (g x) / val T2) /\
     (0.0099 <= val (g x) / val T2 <= 1)%R).
  { intros x Hx. destruct (@quot_spec (g x) T2 (NK x Hx) NT2 FT2 PT2 (TG x Hx)) as (q & Eq & Fq & Vq & B).
    exists q. repeat split; auto; [|lra]. now apply LO. }
  set (S_ := rsum (map (fun x => val (g x)) ks)) in *.
  assert (SN : (0 <= S_)%R).
  { apply rsum_nonneg. intros v Hv. apply in_map_iff in Hv. destruct Hv as (x & <- & Hx). apply nonneg_val; auto.
    eapply below_finite; [apply NK, Hx|exact NT2|exact FT2|now apply TG]. }
  destruct (@some_map A b64 (fun x => f_quot (g x) T2) ks) as (qs & E & Lq & Iq).
  { intros x Hx. destruct (QS x Hx) as (q & Eq & _). eauto. }
  exists qs. split; [exact E|]. split.
  { intros q Hq. destruct (Iq q Hq) as (x & Hx & Ex). destruct (QS x Hx) as (q' & Eq & Fq & Vq & B1 & B2).
    rewrite Ex in Eq. injection Eq as <-. split; auto. rewrite Vq. split; [now apply LO|].
    apply rnd_le in B2. assert (R1 := rnd_val f_one). rewrite val_one in R1. lra. }
  assert (VQ : map val qs = map (fun x => rnd (val (g x) / val T2)) ks).
  { clear - E QS. revert qs E. induction ks as [|x ks IH]; intros [|q qs] E; try discriminate; auto. cbn [map] in *.
    injection E as Ex E. destruct (QS x (or_introl eq_refl)) as (q' & Eq & _ & Vq & _). rewrite Ex in Eq. injection Eq as <-.
    rewrite Vq. f_equal. apply IH; auto. intros y Hy. apply QS. now right. }
  rewrite VQ.
  assert (P := u_pos).
  destruct (@rsum_between A (fun x => rnd (val (g x) / val T2)) (fun x => val (g x)) ((1 - u) / val T2) ((1 + u) / val T2) ks) as [B1 B2].
  { intros x Hx. destruct (QS x Hx) as (_ & _ & _ & _ & C1 & C2).
    destruct (@quot_rel (val (g x) / val T2)) as (e & He & Ee); [lra|]. rewrite Ee. apply Rabs_le_inv in He.
    unfold Rdiv in *. split; nra. }
  fold S_ in B1, B2.
  set (X := rsum (map (fun x => rnd (val (g x) / val T2)) ks)) in *.
  assert (U : (u * 9000000000000000 <= 1)%R).
  { unfold u. simpl. lra. }
  set (K := INR k) in *. assert (K0 : (0 <= K)%R) by apply pos_INR.
  destruct (@within_linear k S_ (val T2) SN ltac:(fold K; nra) FE) as [R1 R2]. fold K in R1, R2.
  assert (S1 : (X * val T2 <= (1 + u) * S_)%R).
  { apply Rmult_le_compat_r with (r := val T2) in B2; [|lra]. unfold Rdiv in B2.
    replace ((1 + u) * / val T2 * S_ * val T2)%R with ((1 + u) * S_ * (/ val T2 * val T2))%R in B2 by ring.
    rewrite Rinv_l in B2 by lra. lra. }
  assert (S2 : ((1 - u) * S_ <= X * val T2)%R).
  { apply Rmult_le_compat_r with (r := val T2) in B1; [|lra]. unfold Rdiv in B1.
    replace ((1 - u) * / val T2 * S_ * val T2)%R with ((1 - u) * S_ * (/ val T2 * val T2))%R in B1 by ring.
    rewrite Rinv_l in B1 by lra. lra. }
  set (d := (K * u)%R) in *.
  assert (D : (0 <= d <= 0.0000000000000125)%R) by (unfold d; split; nra).
  assert (T1 : (X * (1 - d) <= 1 + u)%R).
  { apply Rmult_le_reg_r with (val T2); auto. nra. }
  assert (T3 : ((1 - u) * (1 - d) <= X)%R).
  { apply Rmult_le_reg_r with (val T2); auto. nra. }
  apply Rabs_le. split; nra.
Qed.

Lemma sum_shares {A} (g : A -> b64) (keep : A -> bool) l :
  (forall x, In x l -> nonneg (g x)) ->
  let T := fold_left f_add (map g l) f_zero in
  (forall x, In x l -> keep x = true -> exists q, f_quot (g x) T = Some q /\ f_keep q = true) ->
  let ks := filter keep l in
  let T2 := fold_left f_add (map g ks) f_zero in
  shares_out percent (map (fun x => f_quot (g x) T2) ks).
Proof.
  intros HN T HK ks T2.
  assert (EK : ks = [] \/ exists x0 ks0, ks = x0 :: ks0) by (destruct ks; eauto).
  destruct EK as [EK|(x0 & ks0 & EK)]; [left; now rewrite EK|].
  assert (Z0 : nonneg f_zero) by (split; [reflexivity|cbn; lia]).
  assert (NM : forall l', (forall x, In x l' -> nonneg (g x)) -> forall y, In y (map g l') -> nonneg y).
  { intros l' H y Hy. apply in_map_iff in Hy. destruct Hy as (q & <- & Hq). auto. }
  assert (IK : forall x, In x ks -> In x l /\ keep x = true) by (intros x Hx; now apply filter_In in Hx).
  assert (NK : forall x, In x ks -> nonneg (g x)) by (intros x Hx; apply HN, IK, Hx).
  assert (NT : nonneg T) by (apply (fold_ok b64_growing); [exact Z0|now apply NM]).
  assert (NT2 : nonneg T2) by (apply (fold_ok b64_growing); [exact Z0|now apply NM]).
  assert (TG : forall l' x w, nonneg w -> (forall x, In x l' -> nonneg (g x)) -> In x l' -> f_ge (fold_left f_add (map g l') w) (g x) = true).
  { intros l' x w Nw H Hx. apply (fold_part b64_growing); [exact Nw|now apply NM|now apply in_map]. }
  assert (KT : forall x, In x ks -> finite T /\ (0 < val T)%R /\ (val f_percent < val (g x) / val T)%R).
  { intros x Hx. destruct (IK x Hx) as [Hl Hk]. destruct (HK x Hl Hk) as (q & Eq & Kq).
    eapply kept_total; [apply HN, Hl|exact NT|apply TG; auto|exact Eq|exact Kq]. }
  destruct (KT x0) as (FT & PT & _); [rewrite EK; now left|].
  destruct (@part_sum A g keep l HN f_zero f_zero Z0 Z0 eq_refl (Rle_refl _) FT) as [FT2 LT2]. fold ks T2 in FT2, LT2. fold T in LT2.
  assert (VP := val_percent).
  assert (BIG : forall x, In x ks -> (val f_percent * val T < val (g x))%R).
  { intros x Hx. destruct (KT x Hx) as (_ & _ & L). apply (Rmult_lt_compat_r (val T)) in L; auto.
    unfold Rdiv in L. rewrite Rmult_assoc, Rinv_l, Rmult_1_r in L by lra. exact L. }
  assert (CNT : (INR (length ks) * (0.0098 * val T) <= val T2)%R).
  { assert (BIG' : forall x, In x ks -> nonneg (g x) /\ (0.0099 * val T <= val (g x))%R).
    { intros x Hx. split; [auto|]. assert (Y := BIG x Hx).
      assert (0.0099 * val T <= val f_percent * val T)%R by (apply Rmult_le_compat_r; lra). lra. }
    assert (X := @few_terms A g (val T) ks PT BIG' f_zero Z0 eq_refl FT2 LT2).
    change (val f_zero) with 0%R in X. rewrite Rplus_0_l in X. exact X. }
  assert (K1 : (1 <= INR (length ks))%R).
  { rewrite EK. change (length (x0 :: ks0)) with (S (length ks0)). rewrite S_INR. assert (Y := pos_INR (length ks0)). lra. }
  assert (K2 : (INR (length ks) <= 103)%R) by nra.
  assert (PT2 : (0 < val T2)%R) by nra.
  assert (QS : forall x, In x ks -> exists q, f_quot (g x) T2 = Some q /\ finite q /\ val q = rnd (val (g x) / val T2) /\
     (val f_percent < val (g x) / val T2 <= 1)%R).
  { intros x Hx. destruct (@quot_spec (g x) T2 (NK x Hx) NT2 FT2 PT2) as (q & Eq & Fq & Vq & B); [apply TG; auto|].
    exists q. repeat split; auto; [|lra]. apply Rmult_lt_reg_r with (val T2); auto. unfold Rdiv. rewrite Rmult_assoc, Rinv_l by lra.
    assert (Y := BIG x Hx). nra. }
  assert (FE := @fold_exact A g ks f_zero 0%R 0 Z0 eq_refl (Rle_refl _)). specialize (FE ltac:(unfold within; simpl; lra) NK FT2).
  fold T2 in FE. rewrite Rplus_0_l, Nat.add_0_l in FE.
  apply quotients_sum with (k := length ks); auto; [rewrite EK; discriminate|intros x Hx; apply TG; auto|lra|].
  intros x Hx. destruct (QS x Hx) as (q & _ & _ & _ & B1 & _). split; [lra|].
  rewrite <- (rnd_val f_percent). apply rnd_le. lra.
Qed.

(** the same for NumPy's order of additions, up to 1000 terms of moderate size: the second total may
    be an ulp larger than the first, and a fraction an ulp smaller than 0.01 *)
Lemma tree_shares {A} (g : A -> b64) (keep : A -> bool) l :
  (forall x, In x l -> nonneg (g x) /\ finite (g x) /\ (val (g x) <= bpow radix2 1000)%R) -> length l <= 1000 ->
  let T := f_total (map g l) in
  (forall x, In x l -> keep x = true -> exists q, f_quot (g x) T = Some q /\ f_keep q = true) ->
  let ks := filter keep l in
  let T2 := f_total (map g ks) in
  shares_out almost_percent (map (fun x => f_quot (g x) T2) ks).
Proof.
  intros HN HL T HK ks T2.
  assert (EK : ks = [] \/ exists x0 ks0, ks = x0 :: ks0) by (destruct ks; eauto).
  destruct EK as [EK|(x0 & ks0 & EK)]; [left; now rewrite EK|].
  assert (IK : forall x, In x ks -> In x l /\ keep x = true) by (intros x Hx; now apply filter_In in Hx).
  assert (NM : forall l', (forall x, In x l' -> In x l) -> forall y, In y (map g l') -> nonneg y /\ finite y).
  { intros l' H y Hy. apply in_map_iff in Hy. destruct Hy as (q & <- & Hq). destruct (HN q (H q Hq)) as (? & ? & _). auto. }
  assert (SUM : sum64 (S (length (map g l))) (map g l) T) by apply total_summed.
  assert (SUM2 : sum64 (S (length (map g ks))) (map g ks) T2) by apply total_summed. rewrite map_length in SUM, SUM2.
  assert (LK : length ks <= length l).
  { unfold ks. clear. induction l as [|a l IH]; cbn [filter length]; [lia|]. destruct (keep a); cbn [length]; lia. }
  assert (N1 : forall y, In y (map g l) -> nonneg y /\ finite y) by (apply NM; auto).
  assert (N2 : forall y, In y (map g ks) -> nonneg y /\ finite y) by (apply NM; apply IK).
  set (S1 := rsum (map (fun x => val (g x)) l)). set (S2 := rsum (map (fun x => val (g x)) ks)).
  assert (E1 : rsum (map val (map g l)) = S1) by now rewrite map_map.
  assert (E2 : rsum (map val (map g ks)) = S2) by now rewrite map_map.
  assert (V0 : forall x, In x l -> (0 <= val (g x))%R).
  { intros x Hx. destruct (HN x Hx) as (A1 & A2 & _). now apply nonneg_val. }
  assert (S21 : (S2 <= S1)%R) by (apply rsum_filter; exact V0).
  assert (B1 : (S1 <= bpow radix2 1020)%R).
  { apply Rle_trans with (INR (length (map (fun x => val (g x)) l)) * bpow radix2 1000)%R.
    - apply rsum_le. intros v Hv. apply in_map_iff in Hv. destruct Hv as (x & <- & Hx). now apply HN.
    - rewrite map_length. replace 1020%Z with (20 + 1000)%Z by lia. rewrite bpow_plus. apply Rmult_le_compat_r; [apply bpow_ge_0|].
      apply Rle_trans with (INR 1000); [now apply le_INR|]. rewrite INR_IZR_INZ. simpl. lra. }
  assert (S20 : (0 <= S2)%R).
  { apply rsum_nonneg. intros v Hv. apply in_map_iff in Hv. destruct Hv as (x & <- & Hx). now apply V0, IK. }
  destruct (@sum_close _ _ _ SUM N1 ltac:(lia) ltac:(lra)) as [FT W1].
  destruct (@sum_close _ _ _ SUM2 N2 ltac:(lia) ltac:(lra)) as [FT2 W2]. rewrite E1 in W1. rewrite E2 in W2.
  assert (NT : nonneg T) by (eapply sum_nonneg; [exact SUM|intros; now apply N1]).
  assert (NT2 : nonneg T2) by (eapply sum_nonneg; [exact SUM2|intros; now apply N2]).
  assert (TG : forall x, In x l -> f_ge T (g x) = true).
  { intros x Hx. eapply sum_part; [exact SUM|intros; now apply N1|now apply in_map]. }
  assert (TG2 : forall x, In x ks -> f_ge T2 (g x) = true).
  { intros x Hx. eapply sum_part; [exact SUM2|intros; now apply N2|now apply in_map]. }
  assert (KT : forall x, In x ks -> (0 < val T)%R /\ (val f_percent < val (g x) / val T)%R).
  { intros x Hx. destruct (IK x Hx) as [Hl Hk]. destruct (HK x Hl Hk) as (q & Eq & Kq).
    destruct (@kept_total (g x) T q) as (_ & X & Y); auto. now apply HN. }
  destruct (KT x0) as (PT & _); [rewrite EK; now left|].
  assert (VP := val_percent).
  assert (BIG : forall x, In x ks -> (val f_percent * val T < val (g x))%R).
  { intros x Hx. destruct (KT x Hx) as (_ & L). apply (Rmult_lt_compat_r (val T)) in L; auto.
    unfold Rdiv in L. rewrite Rmult_assoc, Rinv_l, Rmult_1_r in L by lra. exact L. }
  assert (U := u_pos). assert (US : (u * 9000000000000000 <= 1)%R) by (unfold u; simpl; lra).
  assert (HI : (0 <= INR (S (length l)) <= 1001)%R).
  { split; [apply pos_INR|]. replace 1001%R with (INR 1001) by (rewrite INR_IZR_INZ; reflexivity). apply le_INR. lia. }
  assert (HI2 : (0 <= INR (S (length ks)) <= 1001)%R).
  { split; [apply pos_INR|]. replace 1001%R with (INR 1001) by (rewrite INR_IZR_INZ; reflexivity). apply le_INR. lia. }
  assert (D1 : (0 <= INR (S (length l)) * u <= 0.0000000000002)%R) by (split; nra).
  assert (D2 : (0 <= INR (S (length ks)) * u <= 0.0000000000002)%R) by (split; nra).
  destruct (@within_linear (S (length l)) S1 (val T) ltac:(lra) ltac:(lra) W1) as [L1 L2].
  destruct (@within_linear (S (length ks)) S2 (val T2) ltac:(lra) ltac:(lra) W2) as [L3 L4].
  set (d1 := (INR (S (length l)) * u)%R) in *. set (d2 := (INR (S (length ks)) * u)%R) in *.
  assert (CNT : (INR (length ks) * (0.0099 * val T) <= S2)%R).
  { assert (X := @rsum_ge (map (fun x => val (g x)) ks) (0.0099 * val T)). rewrite map_length in X. apply X.
    intros v Hv. apply in_map_iff in Hv. destruct Hv as (x & <- & Hx). assert (Y := BIG x Hx). nra. }
  assert (S1T : (S1 <= 1.001 * val T)%R) by nra.
  assert (K2 : (INR (length ks) <= 103)%R) by nra.
  assert (PS2 : (0 < S2)%R).
  { assert (Y := BIG x0). assert (I0 : In x0 ks) by (rewrite EK; now left). specialize (Y I0).
    assert (M := @rsum_member (map (fun x => val (g x)) ks) (val (g x0))).
    assert (val (g x0) <= S2)%R.
    { apply M; [|apply in_map_iff; eauto]. intros v Hv. apply in_map_iff in Hv. destruct Hv as (x & <- & Hx). now apply V0, IK. }
    nra. }
  assert (PT2 : (0 < val T2)%R) by nra.
  apply quotients_sum with (k := S (length ks)); auto; [rewrite EK; discriminate|intros x Hx; now apply HN, IK|rewrite S_INR; lra|].
  intros x Hx. assert (Y := BIG x Hx).
  assert (Q : ((1 - 0.0000000000005) * val f_percent <= val (g x) / val T2)%R).
  { apply Rmult_le_reg_r with (val T2); auto. unfold Rdiv. rewrite (Rmult_assoc (val (g x))), Rinv_l, Rmult_1_r by lra.
    apply Rle_trans with (val f_percent * val T)%R; [|lra].
    replace ((1 - 0.0000000000005) * val f_percent * val T2)%R with (val f_percent * ((1 - 0.0000000000005) * val T2))%R by ring.
    apply Rmult_le_compat_l; [lra|].
    assert (Y1 : ((1 - d1) * ((1 - d2) * val T2) <= (1 - d1) * S2)%R) by (apply Rmult_le_compat_l; lra).
    assert (Y2 : ((1 - d1) * S2 <= (1 - d1) * S1)%R) by (apply Rmult_le_compat_l; lra).
    assert (Y3 : (1 - 0.0000000000005 <= (1 - d1) * (1 - d2))%R) by nra.
    assert (Y4 : ((1 - 0.0000000000005) * val T2 <= (1 - d1) * (1 - d2) * val T2)%R) by (apply Rmult_le_compat_r; lra).
    lra. }
  split; [nra|]. unfold almost_percent.
  destruct (@quot_rel (val (g x) / val T2)) as (e & He & Ee); [lra|]. rewrite Ee. apply Rabs_le_inv in He.
  apply Rle_trans with ((1 - 0.0000000000005) * val f_percent * (1 - u))%R; [|nra].
  assert (/ 10 ^ 12 = 0.000000000001)%R by lra. nra.
Qed.

Lemma combine_map_r {A B} (f : A -> B) l : combine l (map f l) = map (fun x => (x, f x)) l.
Proof. induction l as [|x l IH]; simpl; congruence. Qed.

Lemma fst_filter_map {A B} (f : A -> B) (keep : A * B -> bool) l :
  map fst (filter keep (map (fun x => (x, f x)) l)) = filter (fun x => keep (x, f x)) l.
Proof. induction l as [|x l IH]; simpl; auto. destruct (keep (x, f x)); simpl; congruence. Qed.

(** the fractions of a landscape cell, from the slopes [sl] to its candidates *)
Lemma landscape_terms m row nbs l :
  landscape f_abs f_total f_quot f_le0 f_keep m row nbs = Ok l ->
  exists sl : list (Z * b64), length sl <= length row /\
    (forall p, In p sl -> In (Some (snd p)) row /\ f_le0 (snd p) = true) /\
    let g := fun p : Z * b64 => f_abs (snd p) in
    let T := f_total (map g sl) in
    let ks := filter (fun p => match f_quot (g p) T with Some f => f_keep f | None => false end) sl in
    map snd l = map (fun p => f_quot (g p) (f_total (map g ks))) ks.
Proof.
  unfold landscape. intros H. apply bind_ok in H. destruct H as [conns [EC H]]. apply bind_ok in H. destruct H as [kept [EK H]].
  set (sl := fold_right _ [] kept) in H.
  set (ft := where_ _ row) in EC.
  assert (SUB : length kept <= length conns /\ forall p, In p kept -> In p conns).
  { assert (G : forall cs k0 k, foldM (fun l p => d <- npget m (fst p) ;; Ok (if (d =? 0)%Z then l else l ++ [p])) cs k0 = Ok k ->
      length k <= length k0 + length cs /\ forall p : Z * option b64, In p k -> In p k0 \/ In p cs).
    { induction cs as [|c cs IH]; intros k0 k E; cbn [foldM] in E; [inversion E; subst; cbn [length]; split; [lia|auto]|].
      apply bind_ok in E. destruct E as [k1 [E1 E]]. apply bind_ok in E1. destruct E1 as [d [_ E1]]. injection E1 as <-.
      destruct (IH _ _ E) as [LN IN]. split; [destruct (d =? 0)%Z; cbn [length] in *; [|rewrite app_length in LN; cbn [length] in LN]; lia|].
      intros p Hp. destruct (IN p Hp) as [X|X]; [|right; now right].
      destruct (d =? 0)%Z; [auto|]. apply in_app_iff in X. destruct X as [X|[<-|[]]]; auto. right; now left. }
    destruct (G _ _ _ EK) as [L1 L2]. split; [exact L1|]. intros p Hp. destruct (L2 p Hp) as [[]|]; auto. }
  destruct SUB as [LSUB SUB].
  assert (LC : length conns = length ft) by (eapply mapM_length; eauto).
  assert (LFT : length ft <= length row) by (unfold ft; apply where_length).
  exists sl. split; [|split].
  { assert (LSL : length sl <= length kept).
    { unfold sl. clear. induction kept as [|[b [z|]] kept IH]; cbn [fold_right snd fst length]; lia. }
    lia. }
  { intros [c x] Hp. cbn [snd].
    assert (X : In (c, Some x) kept).
    { clear - Hp. unfold sl in Hp. induction kept as [|[c' [y|]] kept IH]; cbn [fold_right snd fst] in Hp; [easy| |].
      - destruct Hp as [X|Hp]; [inversion X; now left|right; auto].
      - right; auto. }
    apply SUB in X. destruct (@mapM_in _ _ _ _ _ _ EC X) as [k' [Hk E]]. unfold ft in Hk. apply in_where in Hk.
    destruct Hk as [[y|] [Y1 Y2]]; [|discriminate].
    apply bind_ok in E. destruct E as [c2 [_ E]]. apply bind_ok in E. destruct E as [s2 [E2 E]]. injection E as _ ->.
    apply get_ok in E2. rewrite Y1 in E2. injection E2 as ->. split; [eapply nth_error_In; eauto|auto]. }
  clearbody sl. clear EC EK SUB LSUB LC LFT conns kept ft.
  assert (MM : forall l' : list (Z * b64), map (fun x => f_quot (f_abs x) (f_total (map f_abs (map snd l')))) (map snd l') =
     map (fun p => f_quot (f_abs (snd p)) (f_total (map (fun p => f_abs (snd p)) l'))) l').
  { intros l'. now rewrite !map_map. }
  injection H as <-. unfold fractions. rewrite !MM, combine_map_r, fst_filter_map. cbn [snd]. cbv zeta.
  rewrite map_snd_combine by now rewrite !map_length. reflexivity.
Qed.

Lemma landscape_shares_few m row nbs l : (forall x, In (Some x) row -> not_nan x) -> length row <= 7 ->
  landscape f_abs f_total f_quot f_le0 f_keep m row nbs = Ok l -> shares_out percent (map snd l).
Proof.
  intros HR H7 H. destruct (landscape_terms H) as (sl & LS & HS & ->). set (g := fun p : Z * b64 => f_abs (snd p)).
  assert (SG : forall l' y, In y (map g l') -> Bsign y = false).
  { intros l' y Hy. apply in_map_iff in Hy. destruct Hy as (p & <- & _). unfold g. destruct (snd p); reflexivity. }
  set (T := f_total (map g sl)). set (keep := fun p => match f_quot (g p) T with Some f => f_keep f | None => false end).
  assert (LK : length (filter keep sl) <= length sl).
  { generalize keep. clear. intros f. induction sl as [|a l IH]; cbn [filter length]; [lia|]. destruct (f a); cbn [length]; lia. }
  change (shares_out percent (map (fun p => f_quot (g p) (f_total (map g (filter keep sl)))) (filter keep sl))).
  rewrite (@total_few (map g (filter keep sl))) by (solve [rewrite map_length; lia | apply SG]).
  apply sum_shares; [intros p Hp; apply abs_nonneg, HR; now apply HS|].
  intros p Hp K. unfold keep in K. rewrite <- total_few by (solve [rewrite map_length; lia | apply SG]). fold T.
  destruct (f_quot (g p) T) as [q|]; [eauto|discriminate].
Qed.

Lemma landscape_shares m row nbs l :
  (forall x, In (Some x) row -> f_le0 x = true -> finite x /\ (Rabs (val x) <= bpow radix2 1000)%R) -> length row <= 1000 ->
  landscape f_abs f_total f_quot f_le0 f_keep m row nbs = Ok l -> shares_out almost_percent (map snd l).
Proof.
  intros HR H7 H. destruct (landscape_terms H) as (sl & LS & HS & ->). set (g := fun p : Z * b64 => f_abs (snd p)).
  set (T := f_total (map g sl)). set (keep := fun p => match f_quot (g p) T with Some f => f_keep f | None => false end).
  change (shares_out almost_percent (map (fun p => f_quot (g p) (f_total (map g (filter keep sl)))) (filter keep sl))).
  apply tree_shares; [|lia|].
  - intros p Hp. destruct (HS p Hp) as [H1 H2]. destruct (HR _ H1 H2) as [F B]. unfold g. split; [apply abs_nonneg; now apply fin_ok|].
    split; [unfold finite, f_abs; now rewrite is_finite_Babs|]. unfold f_abs. now rewrite B2R_Babs.
  - intros p Hp K. unfold keep in K. fold T. destruct (f_quot (g p) T) as [q|]; [eauto|discriminate].
Qed.

Lemma one_shares lo : (lo <= 1)%R -> shares_out lo [Some f_one].
Proof.
  intros L. right. exists [f_one]. split; [reflexivity|]. assert (V := val_one). split.
  - intros q [<-|[]]. split; [reflexivity|lra].
  - unfold rsum. cbn [map fold_right]. rewrite V. replace (1 + 0 - 1)%R with 0%R by ring. rewrite Rabs_R0.
    apply Rlt_le, Rinv_0_lt_compat, pow_lt. lra.
Qed.

(** C54 for doubles, added up in NumPy's order: if the slopes that lead down (or level) are finite and
    at most 2^1000, and no cell has more than 1000 neighbours, the fractions leaving each cell add
    up to one within 1e-13, and lie between 0.01, up to 1e-12 of it, and 1 *)
Theorem C54_binary64 :
  forall fdir strm basin (slopes : list (list (option b64))) fnb out,
    (forall row x, In row slopes -> In (Some x) row -> f_le0 x = true -> finite x /\ (Rabs (val x) <= bpow radix2 1000)%R) ->
    (forall row, In row slopes -> length row <= 1000) ->
    cascades_many f_one f_abs f_total f_quot f_le0 f_keep fdir strm basin slopes fnb = Ok out ->
    forall u, shares_out almost_percent (leaving u out).
Proof.
  intros fdir strm basin slopes fnb out HS HL H u.
  refine (@leaving_good b64 f_one f_abs f_total f_quot f_le0 f_keep fdir strm basin slopes fnb (shares_out almost_percent) _ _ _ out H u).
  - now left.
  - apply one_shares. assert (V := val_percent). unfold almost_percent. assert (/ 10 ^ 12 = 0.000000000001)%R by lra. nra.
  - intros m row nbs l Hr E. eapply landscape_shares; [| |exact E]; [|now apply HL]. intros x Hx. eapply HS; eauto.
Qed.

(** With at most seven neighbours (added from left to right), whatever the slopes (huge, tiny,
    infinite), as long as none is an explicit NaN (the model writes NaN slopes as None): no
    fraction is below 0.01 *)
Theorem C54_binary64_few :
  forall fdir strm basin (slopes : list (list (option b64))) fnb out,
    (forall row x, In row slopes -> In (Some x) row -> not_nan x) ->
    (forall row, In row slopes -> length row <= 7) ->
    cascades_many f_one f_abs f_total f_quot f_le0 f_keep fdir strm basin slopes fnb = Ok out ->
    forall u, shares_out percent (leaving u out).
Proof.
  intros fdir strm basin slopes fnb out HS HL H u.
  refine (@leaving_good b64 f_one f_abs f_total f_quot f_le0 f_keep fdir strm basin slopes fnb (shares_out percent) _ _ _ out H u).
  - now left.
  - apply one_shares. assert (V := val_percent). lra.
  - intros m row nbs l Hr E. eapply landscape_shares_few; [| |exact E]; [|now apply HL]. intros x Hx. eapply HS; eauto.
Qed.

(** Cell 4 lies above cells 2 and 3 with slopes -1 and -2 (and, through
    another vertex, above cell 3 with slope -2^-8, whose share is below 0.01): the doubles nearest to 1/3 and 2/3, whose exact sum is not one *)
Module ExF.
  Definition up : b64 := @B754_finite 53 1024 false 4503599627370496 (-52) eq_refl.
  Definition m1 : b64 := @B754_finite 53 1024 true 4503599627370496 (-52) eq_refl.
  Definition m2 : b64 := @B754_finite 53 1024 true 4503599627370496 (-51) eq_refl.
  Definition m8 : b64 := @B754_finite 53 1024 true 4503599627370496 (-60) eq_refl.
  Definition two : b64 := @B754_finite 53 1024 false 4503599627370496 (-51) eq_refl.
  Definition three : b64 := @B754_finite 53 1024 false 6755399441055744 (-51) eq_refl.
  Definition third : b64 := f_div up three.
  Definition thirds : b64 := f_div two three.
  Example third_val : val third = F2R (Float radix2 6004799503160661%Z (-54)%Z).
  Proof.
    assert (H : B2SF third = SpecFloat.S754_finite false 6004799503160661%positive (-54)%Z) by (vm_compute; reflexivity).
    rewrite <- SF2R_B2SF, H. reflexivity.
  Qed.
  Example thirds_val : val thirds = F2R (Float radix2 6004799503160661%Z (-53)%Z).
  Proof.
    assert (H : B2SF thirds = SpecFloat.S754_finite false 6004799503160661%positive (-53)%Z) by (vm_compute; reflexivity).
    rewrite <- SF2R_B2SF, H. reflexivity.
  Qed.
  Definition fdir := [0; 0; 1; 1; 2]%Z.
  Definition strm := [1; 0; 0; 0; 0]%Z.
  Definition slopes := [[None; None; None]; [None; None; None]; [None; None; Some up]; [None; None; Some up]; [Some m1; Some m2; Some m8]].
  Definition fnb : list (list Z) := [[5; 5; 5]; [5; 5; 5]; [5; 5; 4]; [5; 5; 4]; [2; 3; 3]]%Z.
  Definition show (r : res (list (Z * Z * option b64 * Z))) :=
    match r with Ok o => Some (map (fun '(u, d, f, s) => (u, d, option_map B2SF f, s)) o) | _ => None end.
  Example runs : show (cascades_many f_one f_abs f_total f_quot f_le0 f_keep fdir strm None slopes fnb) =
    Some [(1, 1, Some (B2SF f_one), 1); (5, 3, Some (B2SF third), 0); (5, 4, Some (B2SF thirds), 0)]%Z.
  Proof. vm_compute. reflexivity. Qed.
  Example slopes_ok : forall row x, In row slopes -> In (Some x) row -> not_nan x.
  Proof.
    intros row x Hr Hx. unfold slopes in Hr. cbn in Hr.
    repeat (destruct Hr as [<-|Hr]; [cbn in Hx; repeat (destruct Hx as [Hx|Hx]; [inversion Hx; reflexivity|]); easy|]). easy.
  Qed.
  Example not_exactly_one : (rsum (map val [third; thirds]) <> 1)%R.
  Proof. cbn [rsum map fold_right]. rewrite third_val, thirds_val. unfold F2R. simpl. lra. Qed.
End ExF.
