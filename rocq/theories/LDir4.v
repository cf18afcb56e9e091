(** Proofs about MDir: slopes, minima, the starting array. *)
From Verif Require Import Py Spec MFlow MDir LDir LDir2 LDir3.
Set Implicit Arguments.
Unset Strict Implicit.
Local Open Scope nat_scope.
Local Open Scope list_scope.

Arguments ol_asym {T O ok} _ {x y} _ _ _.
Arguments ol_neg {T O ok} _ {x y z} _ _ _ _.
Arguments ol_eq {T O ok} _ {x y} _ _.
Arguments tr_rows {T O ok thr dist dem nb terminals} _.
Arguments tr_nb {T O ok thr dist dem nb terminals} _ {c n} _ _.
Arguments tr_some {T O ok thr dist dem nb terminals} _.
Arguments tr_elev {T O ok thr dist dem nb terminals} _ {c z} _.
Arguments tr_slopes {T O ok thr dist dem nb terminals} _ {c n s} _ _.
Arguments tr_big {T O ok thr dist dem nb terminals} _.
Arguments tr_low {T O ok thr dist dem nb terminals} _.
Arguments tr_exit {T O ok thr dist dem nb terminals} _ {c} _.
Arguments tr_term {T O ok thr dist dem nb terminals} _ {t} _.
Arguments tr_size {T O ok thr dist dem nb terminals} _.

Section Min.
  Context {T : Type} (O : slope_ops T) (ok : T -> Prop).
  Hypothesis OL : order_laws O ok.
  Notation lt := (o_lt O).

  Lemma lt_irr x : ok x -> lt x x = false.
  Proof. intros H. destruct (lt x x) eqn:E; auto. now rewrite (ol_asym OL H H E) in E. Qed.
  Lemma lt_trans x y z : ok x -> ok y -> ok z -> lt x y = true -> lt y z = true -> lt x z = true.
  Proof. intros A B C H1 H2. destruct (ol_neg OL A B C H1) as [H|H]; auto. rewrite (ol_asym OL B C H2) in H. discriminate. Qed.
  Lemma ge_trans x y z : ok x -> ok y -> ok z -> lt x y = false -> lt y z = false -> lt x z = false.
  Proof. intros A B C H1 H2. destruct (lt x z) eqn:E; auto. destruct (ol_neg OL A C B E); congruence. Qed.

  (** np.nanmin *)
  Lemma nanmin_fold row : (forall x, In (Some x) row -> ok x) -> forall m0, (forall x, m0 = Some x -> ok x) ->
    let m := fold_left (fmin2 lt) row m0 in
    (forall x, m = Some x -> (m0 = Some x \/ In (Some x) row) /\
       forall y, (m0 = Some y \/ In (Some y) row) -> lt y x = false) /\
    (m = None -> m0 = None /\ forall y, ~ In (Some y) row).
  Proof.
    induction row as [|e row IH]; intros OK m0 OK0; cbn [fold_left].
    - split; [|intros ->; split; auto]. intros x ->. split; auto. intros y [E|[]]. inversion E; subst. apply lt_irr; auto.
    - assert (OK1 : forall x, fmin2 lt m0 e = Some x -> ok x).
      { intros x E. destruct m0 as [a|], e as [b|]; cbn in E; inversion E; subst; auto.
        - destruct (lt b a); auto. apply OK. now left.
        - apply OK. now left. }
      destruct (IH (fun x H => OK x (or_intror H)) _ OK1) as [A B]. split.
      + intros x E. destruct (A x E) as [A1 A2].
        assert (OKx : ok x) by (destruct A1; [auto|apply OK; now right]).
        destruct m0 as [a|], e as [b|]; cbn [fmin2] in *.
        * assert (OKa : ok a) by auto. assert (OKb : ok b) by (apply OK; now left).
          destruct (lt b a) eqn:EL.
          -- split; [destruct A1 as [A1|A1]; [right; left; auto|right; now right]|].
             intros y [Ey|[Ey|Hy]]; [|apply A2; auto|apply A2; auto].
             inversion Ey; subst y. assert (X : lt b x = false) by (apply A2; auto).
             apply (@ge_trans a b x); auto. now apply (ol_asym OL).
          -- split; [destruct A1 as [A1|A1]; auto; right; now right|].
             intros y [Ey|[Ey|Hy]]; [apply A2; auto| |apply A2; auto].
             inversion Ey; subst y. apply (@ge_trans b a x); auto.
        * split; [destruct A1 as [A1|A1]; auto; right; now right|]. intros y [Ey|[Ey|Hy]]; [auto|discriminate|auto].
        * split; [destruct A1 as [A1|A1]; [right; left; auto|right; now right]|].
          intros y [Ey|[Ey|Hy]]; [discriminate|auto|auto].
        * split; [destruct A1 as [A1|A1]; [discriminate|right; now right]|].
          intros y [Ey|[Ey|Hy]]; [discriminate|discriminate|auto].
      + intros E. destruct (B E) as [B1 B2]. destruct m0 as [a|], e as [b|]; cbn in B1; try discriminate.
        split; auto. intros y [Ey|Hy]; [discriminate|now apply (B2 y)].
  Qed.

  Definition least (row : list (option T)) (m : T) : Prop :=
    In (Some m) row /\ forall y, In (Some y) row -> lt y m = false.

  Lemma nanmin_spec row : row <> [] -> (forall x, In (Some x) row -> ok x) ->
    exists m, nanmin lt row = Ok m /\
      (forall x, m = Some x -> least row x) /\ (m = None -> forall y, ~ In (Some y) row).
  Proof.
    intros NE OK. destruct row as [|e row]; [congruence|]. cbn [nanmin]. eexists. split; [reflexivity|].
    destruct (@nanmin_fold (e :: row) OK None ltac:(discriminate)) as [A B]. split.
    - intros x E. destruct (A x E) as [[?|A1] A2]; [discriminate|]. split; auto.
    - intros E. now apply B in E.
  Qed.

  Lemma eq_to_spec m x : ok m -> (forall y, x = Some y -> ok y) ->
    eq_to (o_eq O) (Some m) x = true <-> exists y, x = Some y /\ lt y m = false /\ lt m y = false.
  Proof.
    intros Hm Hx. destruct x as [y|]; cbn.
    - rewrite (ol_eq OL) by auto. rewrite andb_true_iff, !negb_true_iff. split.
      + intros [A B]. exists y. auto.
      + intros [y' [E [A B]]]. inversion E; subst; auto.
    - split; [discriminate|]. intros [y [E _]]. discriminate.
  Qed.
End Min.

Lemma widest_fold nb : forall w, w <= fold_left (fun w n => if w <? @length nat n then length n else w) nb w /\
  forall l, In l nb -> length l <= fold_left (fun w n => if w <? length n then length n else w) nb w.
Proof.
  induction nb as [|a nb IH]; intros w; cbn [fold_left]; [split; [lia|intros ? []]|].
  destruct (Nat.ltb_spec w (length a)) as [H|H].
  - destruct (IH (length a)) as [A B]. split; [lia|]. intros l [<-|Hl]; auto.
  - destruct (IH w) as [A B]. split; [lia|]. intros l [<-|Hl]; auto. lia.
Qed.
Lemma widest_ge nb l : In l nb -> length l <= widest nb.
Proof. apply (proj2 (widest_fold nb 0)). Qed.
Lemma widest_le nb w : (forall l, In l nb -> length l <= w) -> widest nb <= w.
Proof.
  unfold widest. intros H. assert (X : forall k, k <= w -> fold_left (fun w n => if w <? @length nat n then length n else w) nb k <= w).
  { induction nb as [|a nb IH]; intros k Hk; cbn [fold_left]; auto. apply IH; [intros l Hl; apply H; now right|].
    destruct (k <? length a); auto. apply H. now left. }
  apply X. lia.
Qed.

Lemma nth_pad N nb c : c < length nb ->
  nth c (pad_neighbors N nb) [] = nth c nb [] ++ repeat N (widest nb - length (nth c nb [])).
Proof.
  intros H. unfold pad_neighbors. set (F := fun n => n ++ repeat N (widest nb - length n)).
  rewrite (nth_indep _ [] (F [])) by now rewrite map_length. now rewrite (map_nth F).
Qed.
Lemma pad_width N nb c : c < length nb -> length (nth c (pad_neighbors N nb) []) = widest nb.
Proof. intros H. rewrite nth_pad by auto. rewrite app_length, repeat_length. assert (X := widest_ge (nth_In nb [] H)). lia. Qed.

Lemma adj_nth nb c n : adjacent nb c n <-> In n (nth c nb []).
Proof. unfold adjacent. split.
  - intros [l [E H]]. now rewrite (nth_error_nth _ _ [] E).
  - intros H. assert (L : c < length nb). { destruct (Nat.lt_ge_cases c (length nb)); auto. rewrite nth_overflow in H by auto. destruct H. }
    exists (nth c nb []). split; auto. now apply nth_error_nth'. Qed.

(** ** The lowest cells *)
Section Lowest.
  Context {T : Type} (O : slope_ops T) (ok : T -> Prop).
  Hypothesis OL : order_laws O ok.
  Variable dem : list (option T).
  Notation lt := (o_lt O).
  Notation N := (length dem).
  Hypothesis ELEV : forall c z, nth_error dem c = Some (Some z) -> ok z.
  Hypothesis BIG : ok (o_big O).
  Hypothesis LOW : exists c z, nth_error dem c = Some (Some z) /\ o_lt O z (o_big O) = true.
  Lemma nth_opt c z : nth c dem None = Some z <-> nth_error dem c = Some (Some z).
  Proof. split.
    - intros H. destruct (nth_error dem c) as [v|] eqn:E.
      + rewrite (nth_error_nth _ _ None E) in H. congruence.
      + apply nth_error_None in E. rewrite nth_overflow in H by auto. discriminate.
    - intros H. now apply (nth_error_nth _ _ None) in H. Qed.
  Definition emin : option T := match nanmin lt (dem ++ [Some (o_big O)]) with Ok m => m | Err _ => None end.
  Definition mins : list nat := where_ (eq_to (o_eq O) emin) (dem ++ [Some (o_big O)]).
  Lemma mins_general : min_cells lt (o_eq O) (o_big O) dem = Ok mins /\ (forall c, In c mins <-> lowest O dem c) /\ NoDup mins.
  Proof.
    set (row := dem ++ [Some (o_big O)]).
    assert (OKr : forall x, In (Some x) row -> ok x).
    { intros x H. unfold row in H. apply in_app_iff in H. destruct H as [H|[H|[]]]; [|inversion H; apply (BIG)].
      apply In_nth_error in H. destruct H as [c H]. now apply (ELEV H). }
    destruct (@nanmin_spec T O ok OL row) as [m [E [A B]]]; [unfold row; destruct dem; discriminate|auto|].
    assert (EM : emin = m) by (unfold emin; fold row; now rewrite E).
    split; [|split; [|apply where_nodup]].
    { unfold min_cells, mins. fold row. rewrite E. cbn [bind]. now rewrite EM. }
    destruct m as [m|].
    2:{ exfalso. apply (B eq_refl (o_big O)). unfold row. apply in_app_iff. right. now left. }
    destruct (A m eq_refl) as [A1 A2]. assert (OKm := OKr m A1).
    destruct (LOW) as [c0 [z0 [L1 L2]]].
    assert (Z0 : lt z0 m = false) by (apply A2; unfold row; apply in_app_iff; left; eapply nth_error_In; eauto).
    assert (MB : lt m (o_big O) = true).
    { destruct (ol_neg OL (ELEV L1) (BIG) OKm L2); [congruence|auto]. }
    assert (Am : exists cm, nth_error dem cm = Some (Some m)).
    { unfold row in A1. apply in_app_iff in A1. destruct A1 as [A1|[A1|[]]]; [now apply In_nth_error|].
      inversion A1. subst m. rewrite (lt_irr OL (BIG)) in MB. discriminate. }
    destruct Am as [cm Am].
    intros c. unfold mins. fold row. rewrite EM, (in_where_nth _ _ _ None).
    assert (LR : length row = S N) by (unfold row; rewrite app_length; cbn; lia). rewrite LR.
    split.
    - intros [Hc H]. apply (eq_to_spec OL OKm) in H.
      + destruct H as [y [Ey [H1 H2]]].
        destruct (Nat.eq_dec c N) as [->|Hne].
        * unfold row in Ey. rewrite nth_middle in Ey. inversion Ey; subst y. congruence.
        * unfold row in Ey. rewrite app_nth1 in Ey by lia. apply nth_opt in Ey. exists y. split; auto.
          intros c' z' Hz. apply (ge_trans OL (y:=m)); auto; try (now apply (ELEV Hz)); [now apply (ELEV Ey)|].
          apply A2. unfold row. apply in_app_iff. left. eapply nth_error_In; eauto.
      + intros y Ey. apply OKr. rewrite <- Ey. apply nth_In. lia.
    - intros [z [Ez Hz]]. assert (Hc : c < N) by (apply nth_error_Some; congruence). split; [lia|].
      unfold row. rewrite app_nth1 by auto. apply nth_opt in Ez. rewrite Ez.
      apply (eq_to_spec OL OKm); [intros y Ey; inversion Ey; subst; apply nth_opt in Ez; now apply (ELEV Ez)|].
      exists z. split; auto. split; [|now apply (Hz cm)]. apply A2. unfold row. apply in_app_iff. left. apply nth_opt in Ez.
      eapply nth_error_In; eauto.
  Qed.
End Lowest.

Section Terrain.
  Context {T : Type} (O : slope_ops T) (ok : T -> Prop).
  Hypothesis OL : order_laws O ok.
  Variables (thr : T) (dist : nat -> nat -> T) (dem : list (option T)) (nb : list (list nat)) (terminals : list Z).
  Hypothesis TR : terrain_ok O ok thr dist dem nb terminals.
  Notation lt := (o_lt O).
  Notation N := (length dem).
  Notation fnb := (pad_neighbors N nb).
  Notation slopeO := (slope (o_sub O) (o_div O) lt (o_zero O) (o_big O) N thr dist dem).
  Notation rows := (calculate_slopes (o_sub O) (o_div O) lt (o_zero O) (o_big O) N thr dist dem fnb).
  Definition nanb (c : nat) : bool := match nth c dem None with None => true | _ => false end.

  Lemma fnb_len : length fnb = N.
  Proof. unfold pad_neighbors. rewrite map_length. apply (tr_rows TR). Qed.

  Lemma nb_lt c n : In n (nth c nb []) -> n < N.
  Proof. intros H. apply (tr_nb TR (c:=c)); [|now apply adj_nth].
    destruct (Nat.lt_ge_cases c N) as [L|L]; auto. rewrite nth_overflow in H by (rewrite (tr_rows TR); auto). destruct H. Qed.

  Lemma fnb_in c n : c < N -> In n (nth c fnb []) -> In n (nth c nb []) \/ (n = N /\ length (nth c nb []) < widest nb).
  Proof. intros Hc H. rewrite nth_pad in H by (rewrite (tr_rows TR); auto). apply in_app_iff in H.
    destruct H as [H|H]; auto. right. assert (X := repeat_spec _ _ _ H). split; auto.
    destruct (widest nb - length (nth c nb [])) eqn:E; [destruct H|lia]. Qed.
  Lemma fnb_nb c n : c < N -> In n (nth c nb []) -> In n (nth c fnb []).
  Proof. intros Hc H. rewrite nth_pad by (rewrite (tr_rows TR); auto). apply in_app_iff. now left. Qed.


  Lemma slope_spec c n s : n < N -> slopeO c n = Some s <-> slope_to O thr dist dem c n s.
  Proof.
    intros Hn. unfold slope. destruct (Nat.eqb_spec n N); [lia|]. split.
    - destruct (nth n dem None) as [zn|] eqn:En; [|discriminate]. destruct (nth c dem None) as [zc|] eqn:Ec; [|discriminate].
      intros E. inversion E. exists zc, zn. split; [now apply nth_opt|]. split; [now apply nth_opt|]. reflexivity.
    - intros [zc [zn [Ec [En E]]]]. apply nth_opt in Ec, En. rewrite En, Ec. cbn in E. now rewrite E.
  Qed.
  Lemma slope_fill c : slopeO c N = Some (o_big O).
  Proof. unfold slope. now rewrite Nat.eqb_refl. Qed.

  Lemma rows_len : length rows = N.
  Proof. unfold calculate_slopes. now rewrite map_length, combine_length, seq_length, fnb_len, Nat.min_id. Qed.
  Lemma rows_nth c : c < N -> nth c rows [] = map (slopeO c) (nth c fnb []).
  Proof.
    intros Hc. unfold calculate_slopes.
    set (F := fun p : nat * list nat => map (slopeO (fst p)) (snd p)).
    rewrite (nth_indep _ [] (F (0, []))) by (rewrite map_length, combine_length, seq_length, fnb_len; lia).
    rewrite (map_nth F). rewrite combine_nth by now rewrite seq_length.
    rewrite seq_nth by (rewrite fnb_len; auto). unfold F. now cbn.
  Qed.

  (** a value in the row of [c] *)
  Lemma row_val c s : c < N -> In (Some s) (nth c rows []) <->
    (exists n, adjacent nb c n /\ slope_to O thr dist dem c n s) \/ (s = o_big O /\ length (nth c nb []) < widest nb).
  Proof.
    intros Hc. rewrite rows_nth by auto. rewrite in_map_iff. split.
    - intros [n [E Hn]]. destruct (fnb_in Hc Hn) as [H|[-> H]].
      + left. exists n. split; [now apply adj_nth|]. apply slope_spec; auto. now apply (nb_lt H).
      + right. rewrite slope_fill in E. inversion E. auto.
    - intros [[n [A S]]|[-> H]].
      + apply adj_nth in A. exists n. split; [apply slope_spec; auto; now apply (nb_lt A)|now apply fnb_nb].
      + exists N. split; [apply slope_fill|]. rewrite nth_pad by (rewrite (tr_rows TR); auto). apply in_app_iff. right.
        destruct (widest nb - length (nth c nb [])) eqn:E; [lia|now left].
  Qed.
  Lemma row_ok c s : c < N -> In (Some s) (nth c rows []) -> ok s.
  Proof. intros Hc H. apply (row_val _ Hc) in H. destruct H as [[n [A S]]|[-> _]]; [now apply (tr_slopes TR A)|apply (tr_big TR)]. Qed.

  Lemma wide : 0 < widest nb.
  Proof. destruct (tr_some TR) as [c [n [l [E H]]]]. apply nth_error_In in E. apply widest_ge in E. destruct l; [destruct H|cbn in E; lia]. Qed.

  Definition minv (c : nat) : option T := match nanmin lt (nth c rows []) with Ok m => m | Err _ => None end.
  Definition F0 : list (list nat) := map (fun row => match nanmin lt row with Ok m => where_ (eq_to (o_eq O) m) row | Err _ => [] end) rows.

  Lemma row_min c : c < N -> nanmin lt (nth c rows []) = Ok (minv c) /\
      (forall x, minv c = Some x -> least O (nth c rows []) x) /\ (minv c = None -> forall y, ~ In (Some y) (nth c rows [])).
  Proof.
    intros Hc. destruct (@nanmin_spec T O ok OL (nth c rows [])) as [m [E [A B]]].
    - intros Z. assert (X := pad_width N (c:=c) (nb:=nb)). rewrite (tr_rows TR) in X. specialize (X Hc).
      rewrite rows_nth in Z by auto. apply (f_equal (@length _)) in Z. rewrite map_length in Z. cbn in Z. assert (W := wide). lia.
    - intros x. now apply row_ok.
    - unfold minv. rewrite E. auto.
  Qed.

  Lemma F0_ok : fcells_of lt (o_eq O) rows = Ok F0.
  Proof.
    unfold fcells_of, F0. apply mapM_ok. intros row Hr. apply In_nth with (d:=[]) in Hr. destruct Hr as [c [Hc <-]].
    rewrite rows_len in Hc. destruct (row_min Hc) as [E _]. now rewrite E.
  Qed.
  Lemma F0_len : length F0 = N. Proof. unfold F0. now rewrite map_length, rows_len. Qed.
  Lemma F0_nth c : c < N -> nth c F0 [] = where_ (eq_to (o_eq O) (minv c)) (nth c rows []).
  Proof.
    intros Hc. unfold F0.
    set (G := fun row => match nanmin lt row with Ok m => where_ (eq_to (o_eq O) m) row | Err _ => [] end).
    rewrite (nth_indep _ [] (G [])) by (rewrite map_length, rows_len; auto). rewrite (map_nth G). unfold G.
    destruct (row_min Hc) as [E _]. now rewrite E.
  Qed.

  (** position [k] is kept for [c] iff the slope there is minimal *)
  Lemma F0_in c k : c < N -> In k (nth c F0 []) <->
    k < widest nb /\ exists s m, slopeO c (nbr fnb c k) = Some s /\ minv c = Some m /\ lt s m = false /\ lt m s = false.
  Proof.
    intros Hc. rewrite F0_nth by auto. rewrite (in_where_nth _ _ _ None).
    assert (W : length (nth c rows []) = widest nb).
    { rewrite rows_nth by auto. rewrite map_length. apply pad_width. rewrite (tr_rows TR); auto. }
    rewrite W. assert (NK : k < widest nb -> nth k (nth c rows []) None = slopeO c (nbr fnb c k)).
    { intros Hk. rewrite rows_nth by auto. unfold nbr.
      rewrite (nth_indep _ None (slopeO c 0)) by (rewrite map_length, pad_width; auto; rewrite (tr_rows TR); auto). now rewrite map_nth. }
    destruct (minv c) as [m|] eqn:Em.
    - destruct (row_min Hc) as [_ [A _]]. destruct (A m Em) as [A1 A2].
      assert (OKm := row_ok Hc A1). split.
      + intros [Hk H]. split; auto. rewrite NK in H by auto. apply (eq_to_spec OL OKm) in H.
        * destruct H as [y [E [H1 H2]]]. exists y, m. auto.
        * intros y Ey. apply (row_ok Hc). rewrite <- Ey, <- NK by auto. apply nth_In. now rewrite W.
      + intros [Hk [s [m' [E [Em' [H1 H2]]]]]]. inversion Em'; subst m'. split; auto. rewrite NK, E by auto.
        apply (eq_to_spec OL OKm); [|exists s; auto].
        intros y Ey. inversion Ey; subst. apply (row_ok Hc). rewrite <- E, <- NK by auto. apply nth_In. now rewrite W.
    - split.
      + intros [_ H]. cbn in H. discriminate.
      + intros [_ [s [m [_ [E _]]]]]. discriminate.
  Qed.

  Lemma valid_nan c : c < N -> nanb c = false <-> is_valid dem c.
  Proof.
    intros Hc. unfold nanb, is_valid. destruct (nth c dem None) as [z|] eqn:E.
    - split; auto. intros _. exists z. now apply nth_opt.
    - split; [discriminate|]. intros [z H]. apply nth_opt in H. congruence.
  Qed.
  Lemma nan_is c : c < N -> nanb c = true <-> is_nan dem c.
  Proof.
    intros Hc. unfold nanb, is_nan. destruct (nth_error dem c) as [[z|]|] eqn:E.
    - rewrite (nth_error_nth _ _ None E). split; [discriminate|congruence].
    - rewrite (nth_error_nth _ _ None E). tauto.
    - apply nth_error_None in E. lia.
  Qed.
  Lemma slope_valid c n s : slope_to O thr dist dem c n s -> c < N /\ n < N /\ nanb c = false /\ nanb n = false.
  Proof. intros [zc [zn [Ec [En _]]]]. assert (c < N) by (apply nth_error_Some; congruence). assert (n < N) by (apply nth_error_Some; congruence).
    split; auto. split; auto. split; apply valid_nan; auto; [now exists zc|now exists zn]. Qed.

  (** the minimum of a valid cell's row is the slope of a neighbour *)
  Lemma min_real c m : is_valid dem c -> minv c = Some m ->
    (forall n s, adjacent nb c n -> slope_to O thr dist dem c n s -> lt s m = false) /\
    (exists n, adjacent nb c n /\ slope_to O thr dist dem c n m) /\
    (length (nth c nb []) < widest nb -> lt m (o_big O) = true).
  Proof.
    intros V E. assert (Hc : c < N) by (destruct V as [z V]; apply nth_error_Some; congruence).
    destruct (row_min Hc) as [_ [A _]]. destruct (A m E) as [A1 A2].
    assert (M1 : forall n s, adjacent nb c n -> slope_to O thr dist dem c n s -> lt s m = false).
    { intros n s H1 H2. apply A2. apply row_val; auto. left. now exists n. }
    assert (OKm := row_ok Hc A1). split; auto.
    assert (M2 : length (nth c nb []) < widest nb -> lt m (o_big O) = true).
    { intros HL. destruct (tr_exit TR V) as [[n [s [H1 [H2 H3]]]]|H].
      - assert (X := M1 n s H1 H2). destruct (ol_neg OL (tr_slopes TR H1 H2) (tr_big TR) OKm H3) as [Y|Y]; congruence.
      - exfalso. assert (widest nb <= length (nth c nb [])); [|lia].
        apply widest_le. intros l Hl. apply In_nth_error in Hl. destruct Hl as [c' Hc'].
        apply (H c' (nth c nb []) l); auto. apply nth_error_nth'. rewrite (tr_rows TR); auto. }
    split; auto. apply (row_val _ Hc) in A1. destruct A1 as [[n [H1 H2]]|[-> H]]; [now exists n|].
    exfalso. assert (X := M2 H). rewrite (lt_irr OL (tr_big TR)) in X. discriminate.
  Qed.

  Lemma F0_regular : regular N fnb nanb F0.
  Proof.
    split; [apply F0_len|]. intros c Hc Hn k Hk. apply (F0_in _ Hc) in Hk. destruct Hk as [Hk [s [m [E [Em [H1 H2]]]]]].
    rewrite pad_width by (rewrite (tr_rows TR); auto). split; auto.
    assert (V : is_valid dem c) by now apply valid_nan.
    destruct (min_real V Em) as [M1 [M2 M3]].
    assert (Hin : In (nbr fnb c k) (nth c fnb [])).
    { unfold nbr. apply nth_In. rewrite pad_width; auto. rewrite (tr_rows TR); auto. }
    destruct (fnb_in Hc Hin) as [H|[H HL]].
    - assert (L := nb_lt H). split; auto. apply slope_spec in E; auto. now apply slope_valid in E.
    - rewrite H, slope_fill in E. inversion E; subst s. rewrite (M3 HL) in H2. discriminate.
  Qed.

  Lemma tg_steep c t : is_valid dem c -> In t (tg fnb F0 c) <-> steepest O thr dist dem nb c t.
  Proof.
    intros V. assert (Hc : c < N) by (destruct V as [z V]; apply nth_error_Some; congruence).
    assert (Hn : nanb c = false) by now apply valid_nan.
    split.
    - intros H. unfold tg in H. apply in_map_iff in H. destruct H as [k [<- Hk]].
      assert (RG := proj2 F0_regular c Hc Hn k Hk). destruct RG as [Hkl [HL _]].
      apply (F0_in _ Hc) in Hk. destruct Hk as [Hk [s [m [E [Em [H1 H2]]]]]].
      destruct (min_real V Em) as [M1 [M2 M3]].
      assert (Hin : In (nbr fnb c k) (nth c fnb [])) by (unfold nbr; now apply nth_In).
      destruct (fnb_in Hc Hin) as [H|[H _]]; [|lia].
      apply slope_spec in E; auto. split; [now apply adj_nth|]. exists s. split; auto.
      intros n' s' A S. assert (OKm : ok m) by (destruct M2 as [n [Y Z]]; now apply (tr_slopes TR Y)).
      apply (ge_trans OL (y:=m)); auto; [now apply (tr_slopes TR A)|apply (tr_slopes TR (c:=c) (n:=nbr fnb c k)); auto; now apply adj_nth|now apply (M1 n')].
    - intros [A [s [S M]]]. assert (A' := A). apply adj_nth in A'.
      assert (Hf := fnb_nb Hc A'). apply In_nth with (d:=0) in Hf. destruct Hf as [k [Hk Ek]].
      rewrite pad_width in Hk by (rewrite (tr_rows TR); auto).
      unfold tg. rewrite <- Ek. apply in_map_iff. exists k. split; auto. apply F0_in; auto. split; auto.
      destruct (minv c) as [m|] eqn:Em.
      + exists s, m. unfold nbr. rewrite Ek. split; [apply slope_spec; auto; now apply (nb_lt A')|]. split; auto.
        destruct (min_real V Em) as [M1 [[n [M2 M2']] M3]]. split; [now apply (M1 t)|now apply (M n)].
      + exfalso. destruct (row_min Hc) as [_ [_ B]]. apply (B Em s). apply row_val; auto. left. now exists t.
  Qed.

  (** *** the lowest cells *)
  Lemma mins_spec : min_cells lt (o_eq O) (o_big O) dem = Ok (mins O dem) /\
    (forall c, In c (mins O dem) <-> lowest O dem c) /\ NoDup (mins O dem).
  Proof. exact (@mins_general T O ok OL dem (fun c z H => tr_elev TR H) (tr_big TR) (tr_low TR)). Qed.

  (** *** the starting array *)
  Lemma term_fold : forall ts a, (forall t, In t ts -> (0 <= t < Z.of_nat (length a))%Z) ->
    exists a', foldM (fun a tc => npset a tc tc) ts a = Ok a' /\ length a' = length a /\
      forall c, c < length a -> nth c a' 0%Z = if memz (Z.of_nat c) ts then Z.of_nat c else nth c a 0%Z.
  Proof.
    induction ts as [|t ts IH]; intros a B; cbn [foldM].
    - exists a. auto.
    - assert (Ht := B t (or_introl eq_refl)). rewrite npset_pos by auto. cbn [bind].
      destruct (IH (upd a (Z.to_nat t) t)) as [a' [E [L P]]].
      { intros u Hu. rewrite upd_length. apply B. now right. }
      rewrite upd_length in *. exists a'. split; auto. split; auto. intros c Hc. rewrite P by auto.
      cbn [memz existsb]. unfold memz in *. cbn [existsb].
      destruct (existsb (Z.eqb (Z.of_nat c)) ts) eqn:EX; [now rewrite orb_true_r|]. rewrite orb_false_r.
      destruct (Z.eqb_spec (Z.of_nat c) t) as [<-|Hne].
      + rewrite Nat2Z.id. now apply nth_upd_eq.
      + apply nth_upd_neq. intros Z. apply Hne. lia.
  Qed.

  Lemma start_spec : exists s0, start_fdir N (mins O dem) terminals = Ok s0 /\ length s0 = N /\
    forall c, c < N -> (nth c s0 0%Z = Z.of_nat c /\ (lowest O dem c \/ In (Z.of_nat c) terminals)) \/
                       (nth c s0 0%Z = (-1)%Z /\ ~ lowest O dem c /\ ~ In (Z.of_nat c) terminals).
  Proof.
    unfold start_fdir. destruct mins_spec as [_ [M1 M2]].
    destruct (@set_all nat Z (fun c => c) Z.of_nat (mins O dem) 0%Z (repeat (-1)%Z N)) as [a [E [L [P Q]]]].
    { now rewrite map_id. }
    { intros c Hc. rewrite repeat_length. apply M1 in Hc. destruct Hc as [z [Hz _]]. apply nth_error_Some. congruence. }
    rewrite E. cbn [bind]. rewrite repeat_length in L. rewrite map_id in Q.
    destruct (@term_fold terminals a) as [s0 [E2 [L2 P2]]].
    { rewrite L. intros t Ht. now apply (tr_term TR). }
    exists s0. split; auto. split; [lia|]. intros c Hc. rewrite P2 by lia.
    destruct (memz (Z.of_nat c) terminals) eqn:EM.
    - apply memz_spec in EM. left. auto.
    - apply memz_false in EM. destruct (in_dec Nat.eq_dec c (mins O dem)) as [H|H].
      + left. split; [now apply P|]. left. now apply M1.
      + right. split; [|split; [intros X; apply H; now apply M1|exact EM]]. rewrite Q by auto.
        rewrite (nth_indep _ 0%Z (-1)%Z) by (now rewrite repeat_length). apply nth_repeat.
  Qed.

  Lemma F0_width c : length (nth c F0 []) <= widest nb.
  Proof.
    destruct (Nat.lt_ge_cases c N) as [Hc|Hc].
    - rewrite F0_nth by auto. assert (X := where_length (eq_to (o_eq O) (minv c)) (nth c rows [])).
      rewrite rows_nth in X at 2 by auto. rewrite map_length, pad_width in X; auto. rewrite (tr_rows TR); auto.
    - rewrite nth_overflow by (rewrite F0_len; auto). cbn. lia.
  Qed.

  Variable fuel : nat.
  Hypothesis FU : enough_steps nb fuel.
  Lemma fuel_ok : fueled N (widest nb) fuel.
  Proof.
    destruct FU as [w [H1 H2]]. rewrite (tr_rows TR) in H2. assert (X := widest_le H1).
    assert (N * widest nb <= N * w) by now apply Nat.mul_le_mono_l.
    replace ((N + 1) * (w + 2)) with (N * w + 2 * N + w + 2) in H2 by ring. split; lia.
  Qed.

  (** everything about one call *)
  Lemma call_spec : exists fdir s0 fcells,
    flow_directions (o_sub O) (o_div O) lt (o_eq O) (o_zero O) (o_big O) fuel dist dem nb thr terminals = Ok (fdir, fnb) /\
    length s0 = N /\
    (forall c, c < N -> (nth c s0 0%Z = Z.of_nat c /\ (lowest O dem c \/ In (Z.of_nat c) terminals)) \/
                       (nth c s0 0%Z = (-1)%Z /\ ~ lowest O dem c /\ ~ In (Z.of_nat c) terminals)) /\
    linv N fnb nanb F0 (widest nb) s0 (seq 0 N) (fdir, fcells).
  Proof.
    destruct start_spec as [s0 [E0 [L0 P0]]]. destruct mins_spec as [EM _].
    destruct (@calc_spec N fnb nanb fnb_len F0 F0_regular (widest nb) fuel (fun c _ => F0_width c) fuel_ok (tr_size TR) s0 L0) as [fdir [fcells [E I]]].
    { intros c Hc. destruct (P0 c Hc) as [[? _]|[? _]]; auto. }
    exists fdir, s0, fcells. split; auto. unfold flow_directions. rewrite EM. cbn [bind]. rewrite E0. cbn [bind].
    rewrite F0_ok. cbn [bind]. change (fun c => match nth c dem None with Some _ => false | None => true end) with nanb.
    rewrite E. now cbn [bind].
  Qed.
End Terrain.
