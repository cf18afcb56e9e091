(** C132-C134: fill_sinks on DEMs that contain NaN cells (dem_conditioning.py 5-226).
    [ok x] says that the elevation x is a number; a NaN is an x with [~ ok x]: every comparison
    with it is false and a sum with it is NaN again. *)
From Coq Require Import String.
From Verif Require Import Py Spec MHeap MFill LFill3 LDrain LFill2.
From Verif Require LAny.
Set Implicit Arguments.
Unset Strict Implicit.
Local Open Scope nat_scope.
Local Open Scope list_scope.
Local Notation length := List.length.

(** how NaN behaves in IEEE 754 comparisons and additions *)
Record nan_laws {T} (E : elev T) (ok : T -> Prop) (eps : T) : Prop := {
  nl_dec : forall x, ok x \/ ~ ok x;
  nl_le : forall x y, e_le E x y = true -> ok x /\ ok y;
  nl_lt : forall x y, e_lt E x y = true -> ok x /\ ok y;
  nl_add : forall x, ~ ok x -> ~ ok (e_add E x eps)
}.

(** [n] lies next to a NaN cell of [z] *)
Definition beside_nan {T} (ok : T -> Prop) (nb : list (list nat)) (z : list T) (n : nat) : Prop :=
  exists c x, link nb (length z) c n /\ nth_error z c = Some x /\ ~ ok x.

Section Flood.
  Context {T : Type} (E : elev T) (ok : T -> Prop) (rk : T -> Z).
  Variables (iverts nb : list (list nat)) (dem : list T) (eps : T).
  Notation N := (length dem).

  Lemma lifted_nan e x y : elev_laws E ok rk e -> nan_laws E ok e -> LAny.lifted E e x y ->
    (ok x -> ok y /\ (rk x <= rk y)%Z) /\ (~ ok x -> y = x).
  Proof.
    intros L NL. induction 1 as [x|x y m H [I1 I2] Hl].
    - split; auto. intros; split; auto. lia.
    - destruct (nl_lt NL Hl) as [Oy Om]. assert (U := l_up L m Om). rewrite (l_lt L) in Hl by auto.
      apply Z.ltb_lt in Hl. split.
      + intros Ox. split; [now apply (l_ok L)|]. destruct (I1 Ox). lia.
      + intros Nx. exfalso. rewrite (I2 Nx) in Oy. contradiction.
  Qed.

  (** C132: the priority flood accepts NaN cells.  It returns; NaN cells stay NaN and numbers
      stay numbers that are not lowered; the rim and unreachable cells are kept; every number
      reached by the flood drains to a source or to a cell next to a NaN cell. *)
  Theorem C132_flood_with_nan mask method fuel :
    elev_laws E ok rk (step_eps E method eps) -> nan_laws E ok (step_eps E method eps) ->
    grid_of iverts nb N -> mask_fits mask N -> flood_method method mask -> N <= fuel ->
    exists out, fill_sinks E fuel iverts nb dem eps mask method = Ok out /\ length out = N /\
      Forall2 (fun x y => ok x /\ ok y /\ e_le E x y = true \/ ~ ok x /\ y = x) dem out /\
      (mask = None -> forall n, boundary_cell iverts n -> nth_error out n = nth_error dem n) /\
      (forall n, n < N -> ~ reachable (link nb N) (source iverts mask) n -> nth_error out n = nth_error dem n) /\
      (forall n y, reachable (link nb N) (source iverts mask) n -> nth_error out n = Some y -> ok y ->
         drains (e_le E) (link nb N) (fun s => source iverts mask s \/ beside_nan ok nb out s) out n) /\
      ((forall x, In x out -> ok x -> e_lt E x (e_add E x (step_eps E method eps)) = true) ->
       forall n y, reachable (link nb N) (source iverts mask) n -> nth_error out n = Some y -> ok y ->
         drains (e_lt E) (link nb N) (fun s => source iverts mask s \/ beside_nan ok nb out s) out n).
  Proof.
    intros L NL G M F U.
    destruct (flood_dispatch E dem eps G M F) as [seed [strm [Er [Hnd [Hlt [Hsrc Hst]]]]]].
    destruct G as [G1 [G2 G3]]. set (e := step_eps E method eps) in *.
    destruct (@LAny.flood_any T E e nb dem seed G3 Hnd Hlt strm fuel U) as [out [R [Lo [LF [SD [UR TR]]]]]].
    exists out. rewrite Er. split; [exact R|]. split; [exact Lo|]. set (d0 := e_zero E) in *.
    assert (HR : forall n, reachable (link nb N) (source iverts mask) n <-> reachable (link nb N) (fun s => In s seed) n).
    { intros n. apply reachable_iff. intros; symmetry; apply Hsrc. }
    assert (OV : forall n, n < N -> nth_error out n = Some (nth n out d0)).
    { intros n Hn. apply nth_error_nth'. lia. }
    assert (DV : forall n, n < N -> nth_error dem n = Some (nth n dem d0)).
    { intros n Hn. apply nth_error_nth'. lia. }
    assert (TL : forall n, LAny.tr E e nb dem seed (fun m => nth m out d0) (fun _ => True) (fun _ => True) n -> n < N).
    { intros n []; auto; match goal with H : link _ _ _ _ |- _ => apply H end. }
    assert (VAL : forall n, n < N ->
      (ok (nth n dem d0) -> ok (nth n out d0) /\ (rk (nth n dem d0) <= rk (nth n out d0))%Z) /\
      (~ ok (nth n dem d0) -> nth n out d0 = nth n dem d0)).
    { intros n Hn. destruct (in_dec Nat.eq_dec n seed) as [Hs|Hs].
      { exact (lifted_nan L NL (LF n Hs)). }
      (* reached or not: decided by the tree, which exists for reached cells *)
      assert (C : nth n out d0 = nth n dem d0 \/ exists c, c < N /\ e_le E (nth n dem d0) (nth c out d0) = true /\
                   nth n out d0 = e_add E (nth c out d0) e).
      { destruct (@LAny.flood_cases T E e nb dem seed G3 Hnd Hlt strm fuel out n U R Hn) as [Q|Q]; [left; exact Q|].
        destruct Q as [Q|c n' H _ Hl _ Hs' Hr He|c n' H _ Hl _ Hs' Hr He]; [contradiction| |left; exact He].
        right. exists c. split; [now apply TL|]. split; assumption. }
      destruct C as [->|[c [Hc [Hle ->]]]]; [split; [intros; split; auto; lia|auto]|].
      destruct (nl_le NL Hle) as [O1 O2]. rewrite (l_le L) in Hle by auto. apply Z.leb_le in Hle.
      assert (X := l_up L _ O2). split; [|contradiction]. intros _. split; [now apply (l_ok L)|lia]. }
    split.
    { apply Forall2_nth; [symmetry; exact Lo|]. intros n x y Hx Hy.
      assert (Hn : n < N) by (apply nth_error_Some; congruence).
      rewrite DV in Hx by auto. rewrite OV in Hy by auto. injection Hx as <-. injection Hy as <-.
      destruct (VAL n Hn) as [V1 V2]. destruct (nl_dec NL (nth n dem d0)) as [O|O]; [left|right; auto].
      destruct (V1 O) as [O' Le]. split; auto. split; auto. rewrite (l_le L) by auto. now apply Z.leb_le. }
    split.
    { intros -> n Hb. apply Hsrc in Hb. assert (Hn := Hlt _ Hb). rewrite OV, DV by auto. f_equal. now apply SD. }
    split.
    { intros n Hn Hr. rewrite HR in Hr. rewrite OV, DV by auto. f_equal. now apply UR. }
    assert (DR : forall Rl : T -> T -> bool, (forall x, In x out -> ok x -> Rl x (e_add E x e) = true) ->
      (forall x y, ok x -> ok y -> (rk x < rk y)%Z -> Rl x y = true) ->
      forall n y, reachable (link nb N) (source iverts mask) n -> nth_error out n = Some y -> ok y ->
        drains Rl (link nb N) (fun s => source iverts mask s \/ beside_nan ok nb out s) out n).
    { intros Rl H1 H2 n y Hr Hy Oy. apply HR in Hr.
      assert (Hn : n < N) by (rewrite <- Lo; apply nth_error_Some; congruence).
      specialize (TR n Hn Hr). rewrite OV in Hy by auto. injection Hy as <-.
      assert (Q : forall m, LAny.tr E e nb dem seed (fun m => nth m out d0) (fun _ => True) (fun _ => True) m ->
        ok (nth m out d0) -> drains Rl (link nb N) (fun s => source iverts mask s \/ beside_nan ok nb out s) out m);
        [|now apply Q].
      clear n Hr Hn TR Oy. induction 1 as [s Hs|c n H IH _ Hl _ Hs Hle He|c n H IH _ Hl _ Hs Hle He]; intros On.
      - apply dr_seed. left. now apply Hsrc.
      - destruct (nl_le NL Hle) as [_ Oc]. assert (Hc := TL _ H). assert (Hn : n < N) by apply Hl.
        apply dr_down with (c := c) (x := nth c out d0) (y := nth n out d0); auto.
        rewrite He. apply H1; auto. apply nth_In. lia.
      - assert (Hc := TL _ H). assert (Hn : n < N) by apply Hl.
        destruct (nl_dec NL (nth c out d0)) as [Oc|Oc].
        + apply dr_down with (c := c) (x := nth c out d0) (y := nth n out d0); auto. apply H2; auto.
          rewrite He in On |- *. unfold d0 in *. rewrite (l_le L) in Hle by auto. apply Z.leb_gt in Hle. exact Hle.
        + apply dr_seed. right. exists c, (nth c out d0). rewrite Lo. auto. }
    split.
    - apply DR.
      + intros x _ Ox. rewrite (l_le L); auto; [|now apply (l_ok L)]. apply Z.leb_le. now apply (l_up L).
      + intros x y Ox Oy H. rewrite (l_le L) by auto. apply Z.leb_le. lia.
    - intros Heff. apply DR; auto. intros x y Ox Oy H. rewrite (l_lt L) by auto. now apply Z.ltb_lt.
  Qed.
End Flood.

(** the DEM with 1e+10 in the place of every NaN *)
Definition nan_to_big {T} (E : elev T) (ok : T -> Prop) (dem dem' : list T) : Prop :=
  Forall2 (fun x y => ok x /\ y = x \/ ~ ok x /\ y = e_big E) dem dem'.

Section Drain.
  Context {T : Type} (E : elev T) (ok : T -> Prop) (rk : T -> Z) (eps : T).
  Hypothesis LAWS : elev_laws E ok rk eps.
  Hypothesis NANS : nan_laws E ok eps.
  Variables (nb : list (list nat)) (dem dem' : list T) (seed : list nat).
  Hypothesis DD : nan_to_big E ok dem dem'.
  Notation N := (length dem).
  Notation d0 := (e_zero E).
  Notation big := (e_big E).
  Notation v wf n := (nth n wf d0).
  Hypothesis nb_len : N <= length nb.
  Hypothesis nb_in : forall c l n, c < N -> nth_error nb c = Some l -> In n l -> n < N.
  Hypothesis seed_lt : forall s, In s seed -> s < N.

  Lemma dd_len : length dem' = N.
  Proof using DD. clear -DD. induction DD; cbn; auto. Qed.
  Lemma dd_at n : n < N -> ok (v dem n) /\ v dem' n = v dem n \/ ~ ok (v dem n) /\ v dem' n = big.
  Proof using DD.
    clear -DD. revert n. induction DD as [|x y l l' H F IH]; intros n Hn; [cbn in Hn; lia|].
    destruct n; cbn; auto. apply IH; auto. cbn in Hn. lia.
  Qed.
  Lemma dd_ok : Forall ok dem'.
  Proof using DD LAWS.
    clear -DD LAWS. induction DD as [|x y l l' H F IH]; constructor; auto.
    destruct H as [[? ->]|[_ ->]]; auto. apply (l_big LAWS).
  Qed.

  Notation W' := (LDrain.W E ok rk eps nb dem' seed).
  Record Sim (wf wf' : list T) : Prop := {
    s_len : length wf = N;
    s_w : W' wf';
    s_seed : forall n, In n seed -> v wf n = v dem n;
    s_eq : forall n, n < N -> ~ In n seed -> v wf n = v wf' n;
    s_big : forall n, n < N -> ~ In n seed -> ~ ok (v dem n) -> v wf n = big
  }.

  Lemma nb_in' c l n : c < length dem' -> nth_error nb c = Some l -> In n l -> n < length dem'.
  Proof using DD nb_in. rewrite dd_len. apply nb_in. Qed.
  Lemma nb_len' : length dem' <= length nb.
  Proof using DD nb_len. now rewrite dd_len. Qed.

  Lemma cell_sim m wf wf' c : c < N -> Sim wf wf' ->
    exists m2 wf2 wf2', drain_cell E nb dem eps (m, wf) c = Ok (m2, wf2) /\
      drain_cell E nb dem' eps (m, wf') c = Ok (m2, wf2') /\ Sim wf2 wf2'.
  Proof using All.
    intros Hc S. assert (HW := s_w S). assert (Ld := dd_len).
    assert (SL' : forall s, In s seed -> s < length dem') by (intros s Hs; rewrite Ld; auto).
    destruct (@drain_cell_spec T E ok rk eps LAWS nb dem' seed dd_ok nb_len' nb_in' SL' m wf' c HW ltac:(lia))
      as [m3 [wf3 [E3 [W3 _]]]].
    assert (Lw' : length wf' = N) by (rewrite <- Ld; apply HW).
    assert (Lw := s_len S).
    assert (Oc' : ok (v wf' c)) by (apply (w_ok HW); lia).
    unfold drain_cell in *.
    destruct (nth_error nb c) as [nc|] eqn:En; [|apply nth_error_None in En; lia].
    cbv beta iota delta [bind] in *.
    rewrite (get_nth wf' d0) in * by lia. rewrite (get_nth dem' d0) in * by lia.
    rewrite (get_nth wf d0) by lia. rewrite (get_nth dem d0) by lia.
    assert (SKIP : e_lt E (v dem c) (v wf c) = false -> e_lt E (v dem' c) (v wf' c) = false ->
      exists m2 wf2 wf2', (if e_lt E (v dem c) (v wf c) then
         match mapM (get wf) nc with
         | Ok wn => if existsb (fun w => e_le E (e_add E w eps) (v dem c)) wn
             then match set wf c (v dem c) with Ok a => Ok (true, a) | Err e => Err e end
             else match filter (fun w => e_lt E (e_add E w eps) (v wf c)) wn with
                  | [] => Ok (m, wf)
                  | w :: l => match set wf c (e_add E (amax E w l) eps) with Ok a => Ok (true, a) | Err e => Err e end end
         | Err e => Err e end else Ok (m, wf)) = Ok (m2, wf2) /\
       (if e_lt E (v dem' c) (v wf' c) then
         match mapM (get wf') nc with
         | Ok wn => if existsb (fun w => e_le E (e_add E w eps) (v dem' c)) wn
             then match set wf' c (v dem' c) with Ok a => Ok (true, a) | Err e => Err e end
             else match filter (fun w => e_lt E (e_add E w eps) (v wf' c)) wn with
                  | [] => Ok (m, wf')
                  | w :: l => match set wf' c (e_add E (amax E w l) eps) with Ok a => Ok (true, a) | Err e => Err e end end
         | Err e => Err e end else Ok (m, wf')) = Ok (m2, wf2') /\ Sim wf2 wf2').
    { intros -> ->. exists m, wf, wf'. auto. }
    destruct (in_dec Nat.eq_dec c seed) as [Hs|Hs].
    { apply SKIP.
      - rewrite (s_seed S Hs). destruct (e_lt E (v dem c) (v dem c)) eqn:X; auto.
        destruct (nl_lt NANS X) as [O _]. rewrite (l_lt LAWS) in X by auto. apply Z.ltb_lt in X. lia.
      - assert (Q := w_seed HW c Hs). cbv beta in Q. rewrite Q in Oc' |- *. rewrite (l_lt LAWS) by auto. apply Z.ltb_irrefl. }
    assert (Ec := s_eq S Hc Hs). assert (Bc := w_big HW (n := c) ltac:(lia) Hs). cbv beta in Bc.
    destruct (dd_at Hc) as [[Od Ed]|[Nd Ed]].
    2:{ apply SKIP.
        - destruct (e_lt E (v dem c) (v wf c)) eqn:X; auto. destruct (nl_lt NANS X). contradiction.
        - rewrite Ed. rewrite (l_lt LAWS); auto; [|apply (l_big LAWS)]. apply Z.ltb_ge. exact Bc. }
    rewrite Ed in *. rewrite Ec. rewrite (l_lt LAWS) in * by auto.
    destruct (Z.ltb_spec (rk (v dem c)) (rk (v wf' c))) as [Hlt|Hge].
    2:{ exists m, wf, wf'. auto. }
    clear SKIP.
    assert (Hnc : forall n, In n nc -> n < N) by (intros n; exact (@nb_in c nc n Hc En)).
    rewrite (@mapM_ok _ _ _ (fun n => v wf n)) by (intros n Hn; apply get_nth; rewrite Lw; auto).
    rewrite (@mapM_ok _ _ _ (fun n => v wf' n)) in * by (intros n Hn; apply get_nth; rewrite Lw'; auto).
    (* a neighbour is seen alike, or as NaN on one side and as a level >= 1e10 on the other *)
    assert (ALIKE : forall n, In n nc -> v wf n = v wf' n \/ ~ ok (v wf n) /\ v wf' n = big).
    { intros n Hn. destruct (in_dec Nat.eq_dec n seed) as [Hi|Hi]; [|left; now apply (s_eq S); auto].
      rewrite (s_seed S Hi). assert (Q := w_seed HW n Hi). cbv beta in Q. rewrite Q.
      destruct (dd_at (Hnc n Hn)) as [[O ->]|[O ->]]; auto. }
    assert (BIG1 : e_le E (e_add E big eps) (v dem c) = false).
    { assert (X := l_up LAWS _ (l_big LAWS)). rewrite (l_le LAWS); auto; [|apply (l_ok LAWS), (l_big LAWS)].
      apply Z.leb_gt. lia. }
    assert (BIG2 : e_lt E (e_add E big eps) (v wf' c) = false).
    { assert (X := l_up LAWS _ (l_big LAWS)). rewrite (l_lt LAWS); auto; [|apply (l_ok LAWS), (l_big LAWS)].
      apply Z.ltb_ge. lia. }
    assert (EX : existsb (fun w => e_le E (e_add E w eps) (v dem c)) (map (fun n => v wf n) nc) =
                 existsb (fun w => e_le E (e_add E w eps) (v dem c)) (map (fun n => v wf' n) nc)).
    { clear -ALIKE BIG1 NANS. induction nc as [|n nc IH]; cbn; auto.
      rewrite IH by (intros; apply ALIKE; now right). f_equal.
      destruct (ALIKE n (or_introl eq_refl)) as [->|[H ->]]; auto. rewrite BIG1.
      destruct (e_le E (e_add E (v wf n) eps) (v dem c)) eqn:X; auto. destruct (nl_le NANS X) as [O _].
      now apply (nl_add NANS H) in O. }
    assert (FI : filter (fun w => e_lt E (e_add E w eps) (v wf' c)) (map (fun n => v wf n) nc) =
                 filter (fun w => e_lt E (e_add E w eps) (v wf' c)) (map (fun n => v wf' n) nc)).
    { clear -ALIKE BIG2 NANS. induction nc as [|n nc IH]; cbn; auto.
      rewrite IH by (intros; apply ALIKE; now right).
      destruct (ALIKE n (or_introl eq_refl)) as [->|[H ->]]; auto. rewrite BIG2.
      destruct (e_lt E (e_add E (v wf n) eps) (v wf' c)) eqn:X; auto. destruct (nl_lt NANS X) as [O _].
      now apply (nl_add NANS H) in O. }
    rewrite EX, FI.
    assert (UPD : forall y, W' (upd wf' c y) -> Sim (upd wf c y) (upd wf' c y)).
    { intros y HY. constructor.
      - now rewrite upd_length.
      - exact HY.
      - intros n Hn. rewrite nth_upd_neq by (intros ->; contradiction). now apply (s_seed S).
      - intros n Hn Hi. destruct (Nat.eq_dec c n) as [<-|Hne].
        + rewrite !nth_upd_eq by lia. reflexivity.
        + rewrite !nth_upd_neq by auto. now apply (s_eq S).
      - intros n Hn Hi Ho. rewrite nth_upd_neq by (intros ->; contradiction). now apply (s_big S). }
    destruct (existsb _ (map (fun n => v wf' n) nc)).
    - rewrite (@set_lt _ wf) by lia. rewrite set_lt in * by lia. injection E3 as <- <-.
      eexists true, _, _. split; [reflexivity|]. split; [reflexivity|]. now apply UPD.
    - destruct (filter _ (map (fun n => v wf' n) nc)) as [|w l].
      + exists m, wf, wf'. auto.
      + rewrite (@set_lt _ wf) by lia. rewrite set_lt in * by lia. injection E3 as <- <-.
        eexists true, _, _. split; [reflexivity|]. split; [reflexivity|]. now apply UPD.
  Qed.

  Lemma pass_sim l : forall m wf wf', (forall c, In c l -> c < N) -> Sim wf wf' ->
    exists m2 wf2 wf2', foldM (drain_cell E nb dem eps) l (m, wf) = Ok (m2, wf2) /\
      foldM (drain_cell E nb dem' eps) l (m, wf') = Ok (m2, wf2') /\ Sim wf2 wf2'.
  Proof using All.
    induction l as [|c l IH]; intros m wf wf' Hl S; cbn [foldM].
    - exists m, wf, wf'. auto.
    - destruct (@cell_sim m wf wf' c (Hl c (or_introl eq_refl)) S) as [m2 [w2 [w2' [-> [-> S2]]]]]. cbn [bind].
      apply IH; auto. intros; apply Hl. now right.
  Qed.

  Lemma loop_sim fuel : forall wf wf', Sim wf wf' ->
    match drain_loop E fuel nb dem eps wf, drain_loop E fuel nb dem' eps wf' with
    | Ok o, Ok o' => Sim o o'
    | Err e, Err e' => e = e'
    | _, _ => False
    end.
  Proof using All.
    induction fuel as [|f IH]; intros wf wf' S; cbn [drain_loop]; auto.
    unfold drain_pass. rewrite dd_len.
    assert (Hl : forall c, In c (seq 0 N) -> c < N) by (intros c Hc; apply in_seq in Hc; lia).
    destruct (@pass_sim (seq 0 N) false wf wf' Hl S) as [m [w [w' [-> [-> S2]]]]].
    cbn [bind fst snd]. destruct m; [now apply IH|exact S2].
  Qed.

  Lemma init_sim : exists wf wf', drain_init E dem seed = Ok wf /\ drain_init E dem' seed = Ok wf' /\ Sim wf wf'.
  Proof using All.
    assert (Ld := dd_len).
    assert (SL' : forall s, In s seed -> s < length dem') by (intros s Hs; rewrite Ld; auto).
    destruct (@init_wf T E ok rk eps LAWS nb dem' seed dd_ok nb_len' SL') as [wf' [E' W1]].
    (* the cells of the initial surface: the DEM on the rim, 1e10 elsewhere *)
    assert (Q : forall D l, (forall s, In s l -> s < length D) -> forall w, length w = length D ->
      exists w2, foldM (fun wf n => e <- get D n ;; set wf n e) l w = Ok w2 /\ length w2 = length D /\
        forall n, n < length D -> (In n l -> v w2 n = v D n) /\ (~ In n l -> v w2 n = v w n)).
    { clear. intros D. induction l as [|s l IH]; intros Hl w Lw; cbn [foldM].
      - exists w. split; auto. split; auto. intros n Hn. split; [intros []|auto].
      - rewrite (get_nth D d0) by (apply Hl; now left). cbn [bind]. rewrite set_lt by (rewrite Lw; apply Hl; now left). cbn [bind].
        destruct (IH (fun s H => Hl s (or_intror H)) (upd w s (v D s))) as [w2 [E2 [L2 V2]]]; [now rewrite upd_length|].
        exists w2. split; auto. split; auto. intros n Hn. destruct (V2 n Hn) as [A B].
        destruct (in_dec Nat.eq_dec n l) as [Hi|Hi].
        + split; auto. intros X. exfalso. apply X. now right.
        + specialize (B Hi). split.
          * intros [<-|?]; [|contradiction]. rewrite B. apply nth_upd_eq. lia.
          * intros X. rewrite B. apply nth_upd_neq. intros ->. apply X. now left. }
    unfold drain_init in *.
    destruct (Q dem seed seed_lt (repeat big N) (repeat_length _ _)) as [wf [E1 [L1 V1]]].
    destruct (Q dem' seed) with (w := repeat big (length dem')) as [wf2 [E2 [L2 V2]]].
    { intros s Hs. rewrite Ld. auto. } { apply repeat_length. }
    rewrite E' in E2. injection E2 as <-.
    assert (RB : forall k n, n < k -> v (repeat big k) n = big).
    { intros k n Hn. rewrite nth_indep with (d' := big) by (now rewrite repeat_length). apply nth_repeat. }
    exists wf, wf'. split; auto. split; auto. constructor; auto.
    - intros n Hn. now apply V1; auto.
    - intros n Hn Hi. rewrite (proj2 (V1 n Hn) Hi). rewrite (proj2 (V2 n ltac:(lia)) Hi).
      rewrite !RB; auto. lia.
    - intros n Hn Hi _. rewrite (proj2 (V1 n Hn) Hi). auto.
  Qed.

  Lemma drain_sim fuel :
    match flood_and_drain E fuel nb dem eps seed, flood_and_drain E fuel nb dem' eps seed with
    | Ok o, Ok o' => Sim o o'
    | Err e, Err e' => e = e'
    | _, _ => False
    end.
  Proof using All.
    unfold flood_and_drain. destruct init_sim as [wf [wf' [-> [-> S]]]]. cbn [bind]. now apply loop_sim.
  Qed.
End Drain.

Section DrainTop.
  Context {T : Type} (E : elev T) (ok : T -> Prop) (rk : T -> Z).
  Variables (iverts nb : list (list nat)) (dem dem' : list T) (eps : T) (method : string).
  Notation N := (length dem).

  (** C134: method 'drain' treats NaN cells as cells at 1e+10: it returns exactly as it does
      for the DEM with 1e+10 in their place, with the same elevations inside the rim *)
  Theorem C134_drain_reads_nan_as_1e10 fuel :
    elev_laws E ok rk eps -> nan_laws E ok eps -> grid_of iverts nb N -> neighbours_in nb N ->
    ~ flood_method method None -> nan_to_big E ok dem dem' ->
    match fill_sinks E fuel iverts nb dem eps None method, fill_sinks E fuel iverts nb dem' eps None method with
    | Ok out, Ok out' => length out = N /\ length out' = N /\
        (forall n, boundary_cell iverts n -> nth_error out n = nth_error dem n) /\
        (forall n, ~ boundary_cell iverts n -> nth_error out n = nth_error out' n)
    | Err e, Err e' => e = e'
    | _, _ => False
    end.
  Proof.
    intros L NL [G1 [G2 G3]] NI F DD. assert (Ld := dd_len DD).
    destruct (LEdge.identify_edge_nodes_spec G2) as [rim [Ei [Hs Hb]]].
    assert (ES : forall D, fill_sinks E fuel iverts nb D eps None method = flood_and_drain E fuel nb D eps rim).
    { intros D. unfold fill_sinks. rewrite Ei. cbn [bind].
      destruct (String.eqb_spec (lower method) "priority") as [E1|E1]; cbn [orb].
      { exfalso. apply F. now left. }
      destruct (String.eqb_spec (lower method) "complete") as [E2|E2]; [|reflexivity].
      exfalso. apply F. right. now left. }
    rewrite !ES.
    assert (Hin : forall c l n, c < N -> nth_error nb c = Some l -> In n l -> n < N).
    { intros c l n Hc El Hn. apply (NI c n Hc). exists l. auto. }
    assert (Hlt : forall s, In s rim -> s < N).
    { intros s H. apply Hb in H. apply LEdge.boundary_lt in H. congruence. }
    assert (Q := @drain_sim T E ok rk eps L NL nb dem dem' rim DD G3 Hin Hlt fuel).
    destruct (flood_and_drain E fuel nb dem eps rim) as [o|], (flood_and_drain E fuel nb dem' eps rim) as [o'|]; auto.
    assert (Lo := s_len Q). assert (Lo' := w_len (s_w Q)). rewrite Ld in Lo'.
    split; [exact Lo|]. split; [exact Lo'|]. split.
    - intros n Hn. apply Hb in Hn. assert (X := Hlt _ Hn). rewrite !(nth_error_nth' _ (e_zero E)) by lia.
      f_equal. exact (s_seed Q Hn).
    - intros n Hn. destruct (Nat.lt_ge_cases n N) as [X|X].
      + rewrite !(nth_error_nth' _ (e_zero E)) by lia. f_equal. apply (s_eq Q); auto. now rewrite Hb.
      + rewrite !(proj2 (nth_error_None _ _)) by lia. reflexivity.
  Qed.

  (** C134: so a NaN cell inside the rim comes back as 1e+10 *)
  Theorem C134_nan_inside_becomes_1e10 fuel out n x :
    elev_laws E ok rk eps -> nan_laws E ok eps -> grid_of iverts nb N -> neighbours_in nb N ->
    ~ flood_method method None -> ~ boundary_cell iverts n -> nth_error dem n = Some x -> ~ ok x ->
    fill_sinks E fuel iverts nb dem eps None method = Ok out -> nth_error out n = Some (e_big E).
  Proof.
    intros L NL [G1 [G2 G3]] NI F Hn Hx Ox.
    destruct (LEdge.identify_edge_nodes_spec G2) as [rim [Ei [Hs Hb]]].
    assert (ES : fill_sinks E fuel iverts nb dem eps None method = flood_and_drain E fuel nb dem eps rim).
    { unfold fill_sinks. rewrite Ei. cbn [bind].
      destruct (String.eqb_spec (lower method) "priority") as [E1|E1]; cbn [orb].
      { exfalso. apply F. now left. }
      destruct (String.eqb_spec (lower method) "complete") as [E2|E2]; [|reflexivity].
      exfalso. apply F. right. now left. }
    rewrite ES. clear ES.
    assert (Hin : forall c l n, c < N -> nth_error nb c = Some l -> In n l -> n < N).
    { intros c l m Hc El Hm. apply (NI c m Hc). exists l. auto. }
    assert (Hlt : forall s, In s rim -> s < N).
    { intros s H. apply Hb in H. apply LEdge.boundary_lt in H. congruence. }
    assert (EX : exists D, nan_to_big E ok dem D).
    { clear -NL. induction dem as [|a l [D IH]]; [exists []; constructor|].
      destruct (nl_dec NL a); [exists (a :: D)|exists (e_big E :: D)]; constructor; auto. }
    destruct EX as [D DD].
    assert (Q := @drain_sim T E ok rk eps L NL nb dem D rim DD G3 Hin Hlt fuel).
    intros R. rewrite R in Q. destruct (flood_and_drain E fuel nb D eps rim) as [o'|]; [|destruct Q].
    assert (X : n < N) by (apply nth_error_Some; congruence).
    rewrite (nth_error_nth' _ (e_zero E)) by (rewrite (s_len Q); auto). f_equal.
    apply (s_big Q); auto; [now rewrite Hb|]. now rewrite (nth_error_nth _ _ (e_zero E) Hx).
  Qed.

  (** C134: and the call returns *)
  Theorem C134_drain_with_nan_returns :
    elev_laws E ok rk eps -> nan_laws E ok eps -> grid_of iverts nb N -> neighbours_in nb N ->
    ~ flood_method method None ->
    exists f0 out, (forall fuel, f0 <= fuel -> fill_sinks E fuel iverts nb dem eps None method = Ok out) /\
      length out = N /\ (forall n, boundary_cell iverts n -> nth_error out n = nth_error dem n) /\
      (forall n x y, nth_error dem n = Some x -> nth_error out n = Some y -> ok x ->
         e_le E x (e_big E) = true -> ok y /\ e_le E x y = true).
  Proof.
    intros L NL G NI F.
    assert (EX : exists D, nan_to_big E ok dem D).
    { clear -NL. induction dem as [|a l [D IH]]; [exists []; constructor|].
      destruct (nl_dec NL a); [exists (a :: D)|exists (e_big E :: D)]; constructor; auto. }
    destruct EX as [D DD]. assert (Ld := dd_len DD).
    destruct G as [G1 [G2 G3]].
    destruct (LEdge.identify_edge_nodes_spec G2) as [rim [Ei [Hs Hb]]].
    assert (ES : forall fuel, fill_sinks E fuel iverts nb dem eps None method = flood_and_drain E fuel nb dem eps rim).
    { intros fuel. unfold fill_sinks. rewrite Ei. cbn [bind].
      destruct (String.eqb_spec (lower method) "priority") as [E1|E1]; cbn [orb].
      { exfalso. apply F. now left. }
      destruct (String.eqb_spec (lower method) "complete") as [E2|E2]; [|reflexivity].
      exfalso. apply F. right. now left. }
    assert (Hin : forall c l n, c < N -> nth_error nb c = Some l -> In n l -> n < N).
    { intros c l m Hc El Hm. apply (NI c m Hc). exists l. auto. }
    assert (Hlt : forall s, In s rim -> s < N).
    { intros s H. apply Hb in H. apply LEdge.boundary_lt in H. congruence. }
    destruct (@drain_spec T E ok rk eps L nb D rim (dd_ok L DD)) as [f0 [out' [HW [_ Hrun]]]].
    { now rewrite Ld. } { rewrite Ld. exact Hin. } { rewrite Ld. exact Hlt. }
    assert (SIM : forall fuel, f0 <= fuel -> exists o, flood_and_drain E fuel nb dem eps rim = Ok o /\
       Sim E ok rk eps nb dem D rim o out').
    { intros fuel Hf. assert (Q := @drain_sim T E ok rk eps L NL nb dem D rim DD G3 Hin Hlt fuel).
      rewrite (Hrun fuel Hf) in Q. destruct (flood_and_drain E fuel nb dem eps rim) as [o|]; [|destruct Q].
      exists o. auto. }
    destruct (SIM f0 (le_n _)) as [out [R0 S0]]. exists f0, out.
    assert (SAME : forall o, Sim E ok rk eps nb dem D rim o out' -> o = out).
    { intros o S1. apply nth_ext with (d := e_zero E) (d' := e_zero E).
      { now rewrite (s_len S1), (s_len S0). }
      intros n Hn. rewrite (s_len S1) in Hn. destruct (in_dec Nat.eq_dec n rim) as [Hi|Hi].
      - now rewrite (s_seed S1 Hi), (s_seed S0 Hi).
      - now rewrite (s_eq S1 Hn Hi), (s_eq S0 Hn Hi). }
    split.
    { intros fuel Hf. rewrite ES. destruct (SIM fuel Hf) as [o [Ro So]]. rewrite Ro. f_equal. now apply SAME. }
    split; [apply (s_len S0)|]. split.
    { intros n Hn. apply Hb in Hn. assert (X := Hlt _ Hn).
      rewrite !(nth_error_nth' _ (e_zero E)) by (rewrite ?(s_len S0); lia). f_equal. exact (s_seed S0 Hn). }
    intros n x y Hx Hy Ox Hbig. assert (Hn : n < N) by (apply nth_error_Some; congruence).
    apply (nth_error_nth _ _ (e_zero E)) in Hx, Hy. rewrite (l_le L) in Hbig by (auto; apply (l_big L)).
    apply Z.leb_le in Hbig.
    destruct (in_dec Nat.eq_dec n rim) as [Hi|Hi].
    - rewrite (s_seed S0 Hi), Hx in Hy. subst y. split; auto. rewrite (l_le L) by auto. apply Z.leb_le. lia.
    - rewrite (s_eq S0 Hn Hi) in Hy.
      assert (EqD : nth n D (e_zero E) = x).
      { destruct (dd_at DD Hn) as [[_ ->]|[O _]]; auto. rewrite Hx in O. contradiction. }
      assert (O' : ok y) by (rewrite <- Hy; apply (w_ok HW); now rewrite Ld).
      split; auto. rewrite (l_le L) by auto. apply Z.leb_le.
      assert (Y := w_ge HW (n := n) ltac:(now rewrite Ld)). cbv beta in Y. rewrite EqD in Y.
      rewrite <- Hy. apply Y. exact Hbig.
  Qed.
End DrainTop.
