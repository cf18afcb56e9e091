(** C98: the many-to-many cascades of a PrmsStreams object read the FlowDirections object when
    they are called; they do not depend on its burn threshold. *)
From Verif Require Import Py MFlow MDir MObj MStream MSobj MWorld LWorld LWorld2 LWorld3 LWorld4 LWorld5 PropsWorld PropsWorld2 LTie LDir4.
Set Implicit Arguments.
Unset Strict Implicit.
Local Open Scope nat_scope.
Local Open Scope list_scope.
Local Arguments mbind : simpl never.

Lemma foldM_ext {S A} (f g : S -> A -> res S) l : (forall x s, In x l -> f s x = g s x) ->
  forall s, foldM f l s = foldM g l s.
Proof.
  induction l as [|x l IH]; intros H s; auto. simpl. rewrite (H x s (or_introl eq_refl)). destruct (g s x); auto.
  apply IH. intros; apply H. now right.
Qed.

Section Slopes.
  Context {T : Type}.
  Variables (tsub tdiv : T -> T -> T) (tlt : T -> T -> bool) (tzero tbig : T).
  Variables (fone : T) (fabs : T -> T) (fsum : list T -> T) (fdiv : T -> T -> option T)
            (fle0 fkeep : T -> bool).
  Variables (dist : nat -> nat -> T) (nb0 : list (list nat)).

  (** does a candidate of slope [y] keep its link, if the absolute slopes add up to [t]? *)
  Definition kept (y t : T) : bool := match fdiv (fabs y) t with Some f => fkeep f | None => false end.

  (** [drops xs ys]: [ys] is [xs] without some terms that are zero *)
  Inductive drops : list T -> list T -> Prop :=
  | drops_nil : drops [] []
  | drops_keep x xs ys : drops xs ys -> drops (x :: xs) (x :: ys)
  | drops_zero xs ys : drops xs ys -> drops (tzero :: xs) ys.

  (** what the theorem needs of the arithmetic: zero terms do not change which of the candidate
      slopes [ys] pass the 0.01 test ([ok] says for which [ys] this is required); zero divided by a
      sum gives NaN or a share that is not above 0.01; 1e10 is positive; between neighbours, zero
      divided by the distance is zero and a positive difference divided by the distance is
      positive, or zero (underflow) *)
  Record laws (ok : list T -> Prop) : Prop := Laws {
    l_abs : fabs tzero = tzero;
    l_kept : forall xs ys, ok ys -> drops xs ys -> length xs <= widest nb0 ->
      forall y, In y ys -> kept y (fsum (map fabs xs)) = kept y (fsum (map fabs ys));
    l_share : forall t, match fdiv tzero t with Some f => fkeep f = false | None => True end;
    l_big : fle0 tbig = false;
    l_flat : forall c n, In n (nth c nb0 []) -> tdiv tzero (dist c n) = tzero;
    l_up : forall c n x, In n (nth c nb0 []) -> tlt tzero x = true -> fle0 (tdiv x (dist c n)) = false \/ tdiv x (dist c n) = tzero }.

  (** [some_of l l']: [l'] is [l] without some of its elements *)
  Inductive some_of {A} : list A -> list A -> Prop :=
  | some_nil : some_of [] []
  | some_keep x l l' : some_of l l' -> some_of (x :: l) (x :: l')
  | some_drop x l l' : some_of l l' -> some_of (x :: l) l'.

  (** the slope from cell [c] to cell [n], no burning *)
  Definition plain_slope (dem : list (option T)) (c n : nat) : option T :=
    match nth n dem None, nth c dem None with
    | Some zn, Some zc => Some (tdiv (tsub zn zc) (dist c n))
    | _, _ => None
    end.

  (** [ok] holds of the slopes from any cell to any of its neighbours that are not above it *)
  Definition settled (ok : list T -> Prop) (dem : list (option T)) : Prop :=
    forall c ns ys, some_of (nth c nb0 []) ns ->
      Forall2 (fun n y => plain_slope dem c n = Some y /\ fle0 y = true) ns ys -> ok ys.

  Lemma some_of_left {A} (a b ns : list A) : some_of (a ++ b) ns -> (forall x, In x ns -> ~ In x b) -> some_of a ns.
  Proof.
    revert ns. induction a as [|x a IH]; intros ns Hs Hn; simpl in Hs.
    - destruct ns as [|y ns]; [constructor|]. exfalso. apply (Hn y); [now left|].
      clear - Hs. assert (G : forall (l l' : list A), some_of l l' -> forall z, In z l' -> In z l).
      { induction 1; intros z Hz; auto; [destruct Hz as [->|Hz]; [now left|right; auto]|right; auto]. }
      apply (G _ _ Hs). now left.
    - inversion Hs; subst; [|constructor; auto]. constructor. apply IH; auto. intros z Hz. apply Hn. now right.
  Qed.

  (** the links of one cell, from the list of its candidates (receiving cell, slope) *)
  Definition links (cand : list (Z * T)) : list (Z * option T) :=
    let pcts := fractions fabs fsum fdiv (map snd cand) in
    let strong := filter (fun p => match snd p with Some f => fkeep f | None => false end) (combine cand pcts) in
    let slopes2 := map fst strong in
    combine (map fst slopes2) (fractions fabs fsum fdiv (map snd slopes2)).

  Definition candidate (m : list Z) (sl : nat -> option T) (n : nat) : option (Z * T) :=
    match sl n with
    | Some x => if fle0 x && negb (nth n m 0 =? 0)%Z then Some (Z.of_nat n, x) else None
    | None => None
    end.
  Definition candidates (m : list Z) (sl : nat -> option T) (fn : list nat) : list (Z * T) :=
    fold_right (fun n l => match candidate m sl n with Some p => p :: l | None => l end) [] fn.

  Definition below (s : option T) : bool := match s with Some x => fle0 x | None => false end.

  Lemma landscape_closed m sl fn : (forall n, In n fn -> below (sl n) = true -> n < length m) ->
    landscape fabs fsum fdiv fle0 fkeep m (map sl fn) (map Z.of_nat fn) = Ok (links (candidates m sl fn)).
  Proof.
    intros Hv. unfold landscape. change (fun s => match s with Some x => fle0 x | None => false end) with below.
    set (pick := fun n => (Z.of_nat n, sl n)).
    assert (E1 : mapM (fun k => c <- get (map Z.of_nat fn) k ;; s <- get (map sl fn) k ;; Ok (c, s)) (where_ below (map sl fn))
                 = Ok (map pick (filter (fun n => below (sl n)) fn))).
    { rewrite <- (where_filter below sl 0 fn), map_map. apply mapM_ok. intros k Hk. apply in_where in Hk.
      destruct Hk as [x [Hk _]]. assert (L : k < length fn).
      { rewrite <- (map_length sl). apply nth_error_Some. congruence. }
      rewrite (@get_nth _ (map Z.of_nat fn) k (Z.of_nat 0)) by now rewrite map_length. cbn [bind].
      rewrite (@get_nth _ (map sl fn) k (sl 0)) by now rewrite map_length. cbn [bind]. now rewrite !map_nth. }
    rewrite E1. cbn [bind].
    assert (E2 : forall l acc, (forall n, In n l -> n < length m) ->
      foldM (fun l p => d <- npget m (fst p) ;; Ok (if (d =? 0)%Z then l else l ++ [p])) (map pick l) acc
      = Ok (acc ++ map pick (filter (fun n => negb (nth n m 0 =? 0)%Z) l))).
    { induction l as [|n l IH]; intros acc Hl; simpl; [now rewrite app_nil_r|].
      rewrite (@npget_nat _ m n 0%Z) by (apply Hl; now left). cbn [bind]. destruct (nth n m 0 =? 0)%Z; simpl.
      - apply IH. intros; apply Hl. now right.
      - rewrite IH by (intros; apply Hl; now right). now rewrite <- app_assoc. }
    rewrite E2 by (intros n I; apply filter_In in I; destruct I; auto). cbn [bind app].
    set (kept := map pick _).
    assert (E3 : fold_right (fun p l => match snd p with Some x => (fst p, x) :: l | None => l end) [] kept = candidates m sl fn).
    { subst kept. clear. unfold candidates, candidate. induction fn as [|n fn IH]; auto. simpl.
      destruct (sl n) as [x|] eqn:Es; simpl; auto. destruct (fle0 x); simpl; auto.
      destruct (nth n m 0 =? 0)%Z; simpl; auto. rewrite Es. simpl. now rewrite IH. }
    rewrite E3. reflexivity.
  Qed.

  (** [thin l l']: [l'] is [l] without some candidates of slope zero *)
  Inductive thin : list (Z * T) -> list (Z * T) -> Prop :=
  | thin_nil : thin [] []
  | thin_keep p l l' : thin l l' -> thin (p :: l) (p :: l')
  | thin_drop c l l' : thin l l' -> thin ((c, tzero) :: l) l'.

  Lemma thin_drops l l' : thin l l' -> drops (map snd l) (map snd l').
  Proof. induction 1; simpl; now constructor. Qed.

  Section With.
    Variable ok : list T -> Prop.
    Hypothesis H : laws ok.

    Lemma combine_map_self {A B} (f : A -> B) l : combine l (map f l) = map (fun x => (x, f x)) l.
    Proof. induction l; simpl; congruence. Qed.

    Lemma thin_links l l' : ok (map snd l') -> length l <= widest nb0 -> thin l l' -> links l = links l'.
    Proof.
      intros HO HL Ht. unfold links.
      assert (E : map fst (filter (fun p => match snd p with Some f => fkeep f | None => false end)
                                  (combine l (fractions fabs fsum fdiv (map snd l)))) =
                  map fst (filter (fun p => match snd p with Some f => fkeep f | None => false end)
                                  (combine l' (fractions fabs fsum fdiv (map snd l'))))).
      { assert (K := @l_kept ok H _ _ HO (thin_drops Ht)). rewrite map_length in K. specialize (K HL). unfold fractions.
        set (t := fsum (map fabs (map snd l))) in *. set (t' := fsum (map fabs (map snd l'))) in *.
        rewrite !map_map, !combine_map_self. clearbody t t'. clear HO HL. induction Ht as [|p l l' Hl IH|c l l' Hl IH]; simpl; auto.
        - assert (Kp := K (snd p) (or_introl eq_refl)). unfold kept in Kp. rewrite Kp.
          assert (IH' := IH (fun y Hy => K y (or_intror Hy))).
          destruct (match fdiv (fabs (snd p)) t' with Some f => fkeep f | None => false end); simpl; congruence.
        - rewrite (l_abs H). pose proof (l_share H t) as S. destruct (fdiv tzero t); [rewrite S|]; auto. }
      rewrite E. reflexivity.
    Qed.

    Section Table.
      Variables (dem : list (option T)) (m : list Z).
      Notation N := (length dem).
      Notation fnb := (pad_neighbors N nb0).
      Hypothesis Lm : length m = N.

      (** the slope without the burn threshold; padding has slope 1e10 *)
      Definition raw (c n : nat) : option T := if Nat.eqb n N then Some tbig else plain_slope dem c n.

      Lemma raw_slope thr c n : In n (nth c nb0 []) \/ n = N ->
        slope tsub tdiv tlt tzero tbig N thr dist dem c n = raw c n \/
        slope tsub tdiv tlt tzero tbig N thr dist dem c n = Some tzero /\ below (raw c n) = false.
      Proof.
        intros Hn. unfold slope, raw, plain_slope. destruct (Nat.eqb_spec n N) as [E|E]; auto.
        destruct Hn as [Hn|Hn]; [|congruence].
        destruct (nth n dem None) as [zn|]; auto. destruct (nth c dem None) as [zc|]; auto.
        destruct (tlt (tsub zn zc) thr && tlt tzero (tsub zn zc)) eqn:Et; auto.
        apply andb_true_iff in Et. destruct Et as [_ Et]. rewrite (l_flat H Hn).
        destruct (l_up H Hn Et) as [Hu|Hu]; [right|left]; [split; auto|]. now rewrite Hu.
      Qed.

      Lemma thin_candidates thr c fn : (forall n, In n fn -> In n (nth c nb0 []) \/ n = N) ->
        thin (candidates m (slope tsub tdiv tlt tzero tbig N thr dist dem c) fn) (candidates m (raw c) fn).
      Proof.
        induction fn as [|n fn IH]; intros Hn; simpl; [constructor|].
        assert (IH' := IH (fun x Hx => Hn x (or_intror Hx))). clear IH.
        unfold candidate. destruct (raw_slope thr (Hn n (or_introl eq_refl))) as [-> | [-> Hb]].
        - destruct (raw c n) as [x|]; auto. destruct (_ && _); auto. now constructor.
        - replace (match raw c n with Some x => if fle0 x && _ then _ else None | None => None end) with (@None (Z * T)).
          + destruct (_ && _); auto. now constructor.
          + destruct (raw c n) as [x|]; auto. simpl in Hb. now rewrite Hb.
      Qed.

      Lemma candidates_length sl fn : length (candidates m sl fn) <= length fn.
      Proof. unfold candidates. induction fn as [|n fn IH]; simpl; auto. destruct (candidate m sl n); simpl; lia. Qed.

      Lemma pad_row c fn : nth_error fnb c = Some fn -> forall n, In n fn -> In n (nth c nb0 []) \/ n = N.
      Proof.
        unfold pad_neighbors. rewrite nth_error_map. destruct (nth_error nb0 c) as [row|] eqn:E; [|discriminate].
        simpl. intros X n I. inversion X; subst. rewrite (nth_error_nth _ _ [] E). apply in_app_iff in I.
        destruct I as [I|I]; auto. apply repeat_spec in I. auto.
      Qed.

      Lemma row_width c fn : nth_error fnb c = Some fn -> length fn <= widest nb0.
      Proof.
        clear. unfold pad_neighbors. rewrite nth_error_map. destruct (nth_error nb0 c) as [row|] eqn:E; [|discriminate].
        simpl. intros X. inversion X; subst. apply nth_error_In, widest_ge in E. rewrite app_length, repeat_length. lia.
      Qed.

      (** the candidates are neighbours of the cell that are not above it *)
      Lemma candidates_raw c fn :
        exists ns, some_of fn ns /\ Forall (fun n => n < N) ns /\
          Forall2 (fun n y => plain_slope dem c n = Some y /\ fle0 y = true) ns (map snd (candidates m (raw c) fn)).
      Proof.
        induction fn as [|n fn IH]; simpl.
        - exists []. repeat split; constructor.
        - destruct IH as (ns & H1 & HN & H2). unfold candidate.
          destruct (raw c n) as [y|] eqn:E; [|exists ns; split; [now constructor|auto]].
          destruct (fle0 y) eqn:L; cbn [andb]; [|exists ns; split; [now constructor|auto]].
          destruct (negb _) eqn:D; [|exists ns; split; [now constructor|auto]].
          unfold raw in E. destruct (Nat.eqb_spec n N) as [->|NE].
          { injection E as <-. rewrite (l_big H) in L. discriminate. }
          exists (n :: ns). split; [now constructor|]. split; constructor; auto.
          destruct (Nat.lt_ge_cases n N) as [|G]; auto. unfold plain_slope in E. rewrite (nth_overflow dem) in E by auto. discriminate.
      Qed.

      Lemma candidates_ok c fn : settled ok dem -> nth_error fnb c = Some fn -> ok (map snd (candidates m (raw c) fn)).
      Proof.
        intros HS E. destruct (candidates_raw c fn) as (ns & H1 & HN & H2). apply (HS c ns); [|exact H2].
        unfold pad_neighbors in E. rewrite nth_error_map in E. destruct (nth_error nb0 c) as [row|] eqn:Er; [|discriminate].
        simpl in E. inversion E; subst. rewrite (nth_error_nth _ _ [] Er). eapply some_of_left; [exact H1|].
        intros x Hx Hr. apply repeat_spec in Hr. subst x. rewrite Forall_forall in HN. apply HN in Hx. lia.
      Qed.

      Lemma landscape_thr thr c fn : settled ok dem -> nth_error fnb c = Some fn ->
        landscape fabs fsum fdiv fle0 fkeep m (map (slope tsub tdiv tlt tzero tbig N thr dist dem c) fn) (map Z.of_nat fn)
        = Ok (links (candidates m (raw c) fn)).
      Proof.
        intros HS E. rewrite landscape_closed.
        - f_equal. apply thin_links; [now apply candidates_ok| |apply thin_candidates; now apply pad_row].
          eapply Nat.le_trans; [apply candidates_length|]. eapply row_width; eauto.
        - intros n I Hb. unfold slope in Hb. destruct (Nat.eqb_spec n N); [simpl in Hb; rewrite (l_big H) in Hb; discriminate|].
          rewrite Lm. destruct (nth n dem None) as [z|] eqn:Ez; [|discriminate].
          destruct (Nat.lt_ge_cases n N) as [L|L]; auto. rewrite nth_overflow in Ez by auto. discriminate.
      Qed.
    End Table.

    (** the slope table under the burn threshold [thr] *)
    Definition table (dem : list (option T)) (thr : T) : list (list (option T)) :=
      calculate_slopes tsub tdiv tlt tzero tbig (length dem) thr dist dem (pad_neighbors (length dem) nb0).
    Definition table_nb (dem : list (option T)) : list (list Z) := map (map Z.of_nat) (pad_neighbors (length dem) nb0).

    Lemma table_row dem thr c :
      get (table dem thr) c =
        (fn <- get (pad_neighbors (length dem) nb0) c ;; Ok (map (slope tsub tdiv tlt tzero tbig (length dem) thr dist dem c) fn)).
    Proof.
      unfold table, calculate_slopes. set (fnb := pad_neighbors (length dem) nb0).
      destruct (Nat.lt_ge_cases c (length fnb)) as [L|L].
      - rewrite (@get_nth _ fnb c []) by auto. cbn [bind]. apply get_ok. rewrite nth_error_map.
        rewrite (@nth_error_nth' _ _ c (0, [])) by (rewrite combine_length, seq_length; lia).
        rewrite combine_nth by now rewrite seq_length. simpl. rewrite seq_nth by auto. reflexivity.
      - assert (E : forall A (l : list A), length l = length fnb -> get l c = Err IndexError).
        { intros A l El. unfold get. now rewrite (proj2 (nth_error_None l c)) by lia. }
        rewrite (E _ fnb eq_refl), E; auto. rewrite map_length, combine_length, seq_length. lia.
    Qed.

    (** the many-to-many cascades do not depend on the burn threshold *)
    Theorem cascades_without_threshold d strm basin dem thr thr' : settled ok dem -> length d = length dem ->
      cascades_many fone fabs fsum fdiv fle0 fkeep d strm basin (table dem thr) (table_nb dem) =
      cascades_many fone fabs fsum fdiv fle0 fkeep d strm basin (table dem thr') (table_nb dem).
    Proof.
      intros HS L. unfold cascades_many. f_equal. unfold many_to_many. destruct (mask_fdir d basin) as [m|e] eqn:Em; auto. cbn [bind].
      assert (Lm : length m = length dem).
      { rewrite <- L. unfold mask_fdir in Em. destruct basin as [b|]; [|now inversion Em].
        destruct (Nat.eqb_spec (length b) (length d)) as [E|]; simpl in Em; [|discriminate]. inversion Em.
        rewrite map_length, combine_length. lia. }
      apply foldM_ext. intros [c hd] out _. destruct (hd =? -9)%Z; auto.
      destruct (memn c _); auto. rewrite !table_row. unfold table_nb.
      destruct (get (pad_neighbors (length dem) nb0) c) as [fn|] eqn:E; auto. cbn [bind].
      assert (E2 : get (map (map Z.of_nat) (pad_neighbors (length dem) nb0)) c = Ok (map Z.of_nat fn)).
      { apply get_ok. rewrite nth_error_map. apply get_ok in E. now rewrite E. }
      rewrite E2. cbn [bind]. apply get_ok in E. rewrite !(landscape_thr (dem := dem) Lm _ HS E). reflexivity.
    Qed.
  End With.
End Slopes.

Section World.
  Context {T W : Type}.
  Variables (tsub tdiv : T -> T -> T) (tlt teq : T -> T -> bool) (tzero tbig : T).
  Variables (wadd : W -> W -> W) (wzero : W).
  Variables (fone : T) (fabs : T -> T) (fsum : list T -> T) (fdiv : T -> T -> option T)
            (fle0 fkeep : T -> bool).
  Variable vge : Z + W -> Z + W -> bool.
  Variables (fuel lim : nat) (ncol : Z).
  Variables (dist : nat -> nat -> T) (areas : list W) (nb0 : list (list nat)) (thr0 : T).
  Notation world := (@world T W).
  Notation cmd := (@cmd T W).
  Notation heap := (@heap T W).
  Notation cell := (@cell T W).
  Notation step := (step tsub tdiv tlt teq tzero tbig wadd wzero fone fabs fsum fdiv fle0 fkeep vge fuel lim ncol
                         dist areas nb0 thr0).
  Notation run := (run tsub tdiv tlt teq tzero tbig wadd wzero fone fabs fsum fdiv fle0 fkeep vge fuel lim ncol
                         dist areas nb0 thr0).
  Notation reply := (reply tsub tdiv tlt teq tzero tbig wadd wzero fone fabs fsum fdiv fle0 fkeep vge fuel lim ncol
                         dist areas nb0 thr0).
  Notation reachable := (reachable tsub tdiv tlt teq tzero tbig wadd wzero fone fabs fsum fdiv fle0 fkeep vge fuel lim ncol
                         dist areas nb0 thr0).
  Notation fcall_in := (w_fcall tsub tdiv tlt teq tzero tbig wadd wzero fuel lim dist).
  Notation scall_in := (w_scall tsub tdiv tlt tzero tbig fone fabs fsum fdiv fle0 fkeep vge fuel lim ncol dist).
  Notation stream_history := (stream_history tsub tdiv tlt teq tzero tbig wadd wzero fone fabs fsum fdiv fle0 fkeep vge fuel lim ncol
                         dist areas nb0 thr0).
  Notation answer_of fdir fa sl fnb :=
    (sreply vge fone fabs fsum fdiv fle0 fkeep lim fuel ncol fdir (fvals fa) sl fnb).

  Lemma widest_pad N nb : widest (pad_neighbors N nb) = widest nb.
  Proof.
    apply Nat.le_antisymm.
    - apply widest_le. intros l I. unfold pad_neighbors in I. apply in_map_iff in I. destruct I as [a [<- I]].
      apply widest_ge in I. rewrite app_length, repeat_length. lia.
    - destruct nb as [|a nb]; [apply Nat.le_0_l|].
      assert (I : In (a ++ repeat N (widest (a :: nb) - length a)) (pad_neighbors N (a :: nb))) by now left.
      apply widest_ge in I. rewrite app_length, repeat_length in I. lia.
  Qed.
  Lemma pad_pad N nb : pad_neighbors N (pad_neighbors N nb) = pad_neighbors N nb.
  Proof.
    unfold pad_neighbors at 1. rewrite widest_pad. etransitivity; [|apply (map_id (pad_neighbors N nb))]. apply map_ext_in.
    intros n I. unfold pad_neighbors in I. apply in_map_iff in I. destruct I as [a [<- I]].
    apply widest_ge in I. rewrite app_length, repeat_length. replace (widest nb - (length a + (widest nb - length a))) with 0 by lia. now rewrite app_nil_r.
  Qed.

  (** every FlowDirections object works with the neighbours of the modelgrid *)
  Definition padded (w : world) : Prop := forall i f, nth_error (w_flows w) i = Some f ->
    exists dem, shows w (f_dem f) (CElevs dem) /\ pad_neighbors (length dem) (f_nb f) = pad_neighbors (length dem) nb0.

  Lemma npset_len {A} (l l' : list A) i v : npset l i v = Ok l' -> length l' = length l.
  Proof.
    unfold npset. destruct (npidx (length l) i) as [k|]; simpl; [|discriminate]. intros E. inversion E. now rewrite upd_length.
  Qed.
  Lemma dem_length w c r dem : shows w r (CElevs dem) ->
    exists dem', shows (fst (step w c)) r (CElevs dem') /\ length dem' = length dem.
  Proof.
    intros S. destruct (edit_or_not c) as [[r' [e ->]]|D].
    2:{ exists dem. split; auto. now apply C94_calls_leave_arrays_alone. }
    destruct w as [h tp fs ss]. unfold shows in *. simpl in *. destruct (get h r') as [a|] eqn:Eg; simpl; eauto.
    destruct (apply_edit a e) as [b|] eqn:Ee; simpl; eauto. destruct (Nat.eq_dec r' r) as [->|N].
    - apply get_ok in S. rewrite Eg in S. inversion S; subst. destruct e; simpl in Ee; try discriminate.
      destruct (npset dem i v) as [l|] eqn:El; simpl in Ee; [|discriminate]. inversion Ee; subst. exists l. split; [|eauto using npset_len].
      apply nth_error_upd_eq. eapply get_lt; eauto.
    - exists dem. split; auto. rewrite nth_error_upd_neq; auto.
  Qed.

  (** flow directions: the neighbour lists become the padded ones *)
  Lemma flow_directions_nb (h : heap) f thr ts h' f' x dem : get h (f_dem f) = Ok (CElevs dem) ->
    w_flow_directions tsub tdiv tlt teq tzero tbig fuel dist thr ts h f = (h', f', x) ->
    f_dem f' = f_dem f /\ (f_nb f' = f_nb f \/ f_nb f' = pad_neighbors (length dem) (f_nb f)).
  Proof.
    intros Ed E. unfold w_flow_directions in E. rewrite do_this, (do_elevs _ _ Ed), do_store, do_alloc in E.
    destruct (flow_directions_from _ _ _ _ _ _ _ _ _ _ _ _ _) as [[fd nb]|e] eqn:Ef.
    - rewrite do_ok, do_write, do_store in E. inversion E; subst. simpl. split; auto. right.
      unfold flow_directions_from in Ef. apply bind_ok in Ef. destruct Ef as [a [_ Ef]]. apply bind_ok in Ef.
      destruct Ef as [b [_ Ef]]. apply bind_ok in Ef. destruct Ef as [c [_ Ef]]. now inversion Ef.
    - rewrite do_err in E. inversion E; subst. simpl. auto.
  Qed.

  Lemma step_padded w c : padded w -> padded (fst (step w c)).
  Proof.
    intros H i f E.
    assert (Old : nth_error (w_flows w) i = Some f -> exists dem, shows (fst (step w c)) (f_dem f) (CElevs dem) /\
              pad_neighbors (length dem) (f_nb f) = pad_neighbors (length dem) nb0).
    { intros E'. destruct (H i f E') as (dem & S & P). destruct (dem_length c S) as (dem' & S' & L). exists dem'. rewrite L. auto. }
    assert (FC : (exists i' c', c = FlowCall i' c') \/ (forall i' c', c <> FlowCall i' c')).
    { destruct c; try (right; intros; discriminate). left; eauto. }
    destruct FC as [(i' & c' & ->)|NF].
    - destruct (Nat.eq_dec i i') as [->|Ni].
      2:{ apply Old. destruct w as [h tp fs ss]. simpl in *. destruct (nth_error fs i') as [g|]; auto.
          destruct (fcall_in c' h g) as [[? ?] ?]. simpl in E. rewrite nth_error_upd_neq in E; auto. }
      destruct w as [h tp fs ss]. destruct (nth_error fs i') as [g|] eqn:Eg.
      2:{ simpl in E. rewrite Eg in E. simpl in E. congruence. }
      destruct (H i' g Eg) as (dem & S & P). unfold shows in S. simpl in S.
      destruct (@dem_length (World h tp fs ss) (FlowCall i' c') (f_dem g) dem S) as (dem' & S' & L).
      simpl in E, S' |- *. rewrite Eg in *. destruct (fcall_in c' h g) as [[h1 g1] y] eqn:Em. simpl in *.
      rewrite nth_error_upd_eq in E by (apply nth_error_Some; congruence). inversion E; subst. unfold shows in *. simpl in *.
      assert (Hc : f_dem f = f_dem g /\ (f_nb f = f_nb g \/ f_nb f = pad_neighbors (length dem) (f_nb g))).
      { assert (FD : (exists t ts, c' = WFlowDirections t ts) \/ (forall t ts, c' <> WFlowDirections t ts)).
        { destruct c'; try (right; intros; discriminate). left; eauto. }
        destruct FD as [(t & ts & ->)|ND].
        - apply get_ok in S. eapply flow_directions_nb; eauto.
        - assert (SS : slopes_same g g) by (repeat split).
          destruct (kp_slopes ND (le_n (length h)) SS Em) as (_ & (A & B & _) & _). auto. }
      destruct Hc as [Hd Hn]. exists dem'. rewrite Hd, L. split; auto. destruct Hn as [-> | ->]; auto. now rewrite pad_pad.
    - destruct c; try (apply Old; destruct w as [h tp fs ss]; simpl in *; auto; fail).
      + apply Old. destruct w as [h tp fs ss]. simpl in *. destruct (get h r) as [a|]; simpl in E; auto. destruct (apply_edit a e); auto.
      + apply Old. destruct w as [h tp fs ss]. simpl in *. destruct (w_fill g dem h tt) as [[? ?] ?]. auto.
      + destruct w as [h tp fs ss]. simpl in *.
        destruct (w_new_flow tlt teq tbig areas nb0 thr0 dem check h tt) as [[h1 s1] [g|e]] eqn:Em; simpl in *; [|now apply Old].
        apply nth_snoc in E. destruct E as [E|[_ ->]]; [now apply Old|].
        pose proof (new_flow_spec Em) as Sp. simpl in Sp. destruct Sp as (d & mins & E1 & E2 & _ & -> & ->).
        exists d. split; auto. unfold shows. simpl. apply get_ok, get_app_new.
      + exfalso. eapply NF; reflexivity.
      + apply Old. destruct w as [h tp fs ss]. simpl in *. destruct (nth_error fs i0) as [g|]; auto. destruct (get h (f_dem g)); auto.
        destruct (f_fdir g); [destruct (f_acc g)|]; simpl in E; auto.
      + apply Old. destruct w as [h tp fs ss]. simpl in *. destruct (nth_error ss j) as [s|]; auto. destruct (args_ok h c); auto.
        destruct (scall_in (s_kind s) tp (nth_error fs (s_fa s)) c h s) as [[? ?] ?]; auto.
      + apply Old. destruct w as [h tp fs ss]. simpl in *. destruct tp as [t|]; auto. destruct (get h t); auto.
  Qed.
  Lemma run_padded cs : forall w, padded w -> padded (run w cs).
  Proof. induction cs as [|c cs IH]; intros w H; auto. apply IH. now apply step_padded. Qed.
  Lemma reachable_padded w : reachable w -> padded w.
  Proof. intros [cs ->]. apply run_padded. intros i f E. destruct i; discriminate. Qed.

  (** the elevation array of a FlowDirections object is always the same array *)
  Lemma step_dem w c i f : nth_error (w_flows w) i = Some f -> wf w ->
    exists f', nth_error (w_flows (fst (step w c))) i = Some f' /\ f_dem f' = f_dem f.
  Proof.
    intros E Hw. assert (FC : (exists c', c = FlowCall i c') \/ (forall c', c <> FlowCall i c')).
    { destruct c; try (right; intros; discriminate). destruct (Nat.eq_dec i0 i) as [->|N]; [left; eauto|right; intros c' X; inversion X; auto]. }
    destruct FC as [(c' & ->)|N]; [|exists f; split; auto; now apply flow_same].
    destruct w as [h tp fs ss]. simpl in *. rewrite E. destruct (fcall_in c' h f) as [[h1 f1] y] eqn:Em. simpl.
    exists f1. split; [apply nth_error_upd_eq; apply nth_error_Some; congruence|].
    destruct Hw as [Hf _ _ _ _ _]. destruct (fcall_wf (Hf _ _ E) Em) as (_ & (P & _) & _). auto.
  Qed.
  Lemma run_dem cs : forall w i f, nth_error (w_flows w) i = Some f -> wf w ->
    exists f', nth_error (w_flows (run w cs)) i = Some f' /\ f_dem f' = f_dem f.
  Proof.
    induction cs as [|c cs IH]; intros w i f E Hw; [exists f; auto|].
    destruct (step_dem c E Hw) as (f1 & E1 & D1). destruct (IH _ _ _ E1 (step_wf _ _ _ _ _ _ _ _ _ _ _ _ _ _ _ _ _ _ _ _ _ _ c Hw)) as (f2 & E2 & D2).
    exists f2. split; auto. congruence.
  Qed.

  Lemma answer_without_threshold ok d a dem thr thr' k ps p : laws tdiv tlt tzero tbig fabs fsum fdiv fle0 fkeep dist nb0 ok ->
    settled tsub tdiv fle0 dist nb0 ok dem ->
    length d = length dem ->
    answer_of d a (table tsub tdiv tlt tzero tbig dist nb0 dem thr) (table_nb nb0 dem) k ps p =
    answer_of d a (table tsub tdiv tlt tzero tbig dist nb0 dem thr') (table_nb nb0 dem) k ps p.
  Proof.
    intros HL HS L.
    assert (Dec : many_cascades p \/ ~ many_cascades p).
    { unfold many_cascades. destruct p; auto. destruct many2many; auto. }
    destruct Dec as [Hm|Hm]; [|now apply answer_without_slopes].
    unfold sreply.
    erewrite (@history_without_slopes _ _ _ _ _ _ _ _ _ _ _ _ _ _ (table tsub tdiv tlt tzero tbig dist nb0 dem thr)) with
      (sl' := table tsub tdiv tlt tzero tbig dist nb0 dem thr') (fnb' := table_nb nb0 dem).
    destruct p; try destruct Hm. destruct many2many; [|destruct Hm]. destruct k; auto. cbn [scall_step].
    unfold do_cascades. destruct (pick _ a0); auto. unfold lift, andthen.
    pose proof (fun st => @cascades_without_threshold T tsub tdiv tlt tzero tbig fone fabs fsum fdiv fle0 fkeep dist nb0 ok HL d st basin dem thr thr' HS L) as X.
    destruct (so_graph _); [now rewrite X|]. destruct (prms_connect _ _ _ _ _ _) as [[o' g]|]; auto.
    destruct (pick o' None); auto. now rewrite X.
  Qed.

  (** A stream object built from FlowDirections object [i]: whatever happens to the burn threshold
      (flow_directions run again on [i] with another one), each answer, the many-to-many cascades
      included, is that of a lone object on the same directions, accumulation and elevations, under
      any threshold; provided nobody writes into the elevations *)
  Theorem C98_cascades_ignore_the_threshold ok w k i w1 x rd d ra a rz dem cs ps c p thr :
    laws tdiv tlt tzero tbig fabs fsum fdiv fle0 fkeep dist nb0 ok -> settled tsub tdiv fle0 dist nb0 ok dem ->
    reachable w -> step w (NewStreams k i) = (w1, Ok x) ->
    reply w (FlowCall i WFlowDirectionArray) = Ok (ARef rd) -> shows w rd (CInts d) ->
    reply w (FlowCall i WFlowAccumulationArray) = Ok (ARef ra) -> shows w ra (CAcc a) ->
    reply w (FlowCall i WDem) = Ok (ARef rz) -> shows w rz (CElevs dem) ->
    length d = length dem ->
    let j := length (w_streams w) in
    stream_history j w1 cs ps -> (forall e, ~ In (Edit rz e) cs) ->
    let w2 := run w1 cs in
    resolves (w_heap w2) c p ->
    sagrees (w_heap (fst (step w2 (StreamCall j c)))) (reply w2 (StreamCall j c))
        (answer_of d a (table tsub tdiv tlt tzero tbig dist nb0 dem thr) (table_nb nb0 dem) k ps p).
  Proof.
    intros HL HS Hr Hn Hd Sd Ha Sa Hz Sz L j Hh NE w2 Hp.
    destruct (C95_streams_answer_as_if_alone Hr Hn Hd Sd Ha Sa Hh Hp) as (fa & dem2 & Efa & Sdem & Ag).
    assert (Hr1 : reachable w1) by (replace w1 with (fst (step w (NewStreams k i))) by (now rewrite Hn); now apply reachable_step).
    assert (Hr2 : reachable w2) by now apply reachable_run.
    destruct (new_streams_spec Hn) as (f & _ & _ & Ef & _ & _ & _ & Efs & c0 & Eh & _ & _).
    assert (Ez : f_dem f = rz).
    { destruct w as [h tp fs ss]. unfold MWorld.reply in Hz. simpl in *. rewrite Ef in Hz. simpl in Hz. now inversion Hz. }
    assert (Ef1 : nth_error (w_flows w1) i = Some f) by now rewrite Efs.
    destruct (@run_dem cs w1 i f Ef1 (reachable_wf Hr1)) as (f2 & E2 & D2). fold w2 in E2, Efa. rewrite E2 in Efa. inversion Efa; subst f2.
    assert (Sz1 : shows w1 rz (CElevs dem)).
    { unfold shows in *. rewrite Eh, nth_error_app1; auto. apply nth_error_Some. congruence. }
    assert (Sz2 : shows w2 rz (CElevs dem)) by (apply C94_only_own_edits_change_an_array; auto).
    fold w2 in Sdem. rewrite D2, Ez in Sdem. unfold shows in Sdem, Sz2. rewrite Sz2 in Sdem. inversion Sdem; subst dem2.
    destruct (reachable_padded Hr2 E2) as (dem3 & S3 & P3). rewrite D2, Ez in S3. unfold shows in S3. rewrite Sz2 in S3. inversion S3; subst dem3.
    unfold w_slopes, w_fnb in Ag. rewrite P3 in Ag.
    rewrite (@answer_without_threshold ok d a dem thr (f_thr fa) k ps p HL HS L). exact Ag.
  Qed.
End World.
