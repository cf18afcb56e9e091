(** The objects of a session (MWorld.v) behave as the single objects of MObj.v and MSobj.v. *)
From Verif Require Import Py MFlow MDir MObj MStream MSobj MWorld LWorld.
Set Implicit Arguments.
Unset Strict Implicit.
Local Open Scope nat_scope.
Local Open Scope list_scope.

Section Sim.
  Context {T W : Type}.
  Notation heap := (@heap T W).
  Notation cell := (@cell T W).
  Notation flow := (@flow T).

  (** the contents of [h] are unchanged in [h'] *)
  Definition ext (h h' : heap) : Prop := forall r c, get h r = Ok c -> get h' r = Ok c.
  Lemma ext_refl h : ext h h. Proof. now intros r c. Qed.
  Lemma ext_trans h1 h2 h3 : ext h1 h2 -> ext h2 h3 -> ext h1 h3.
  Proof. intros A B r c H. auto. Qed.
  Lemma ext_app h c : ext h (h ++ [c]).
  Proof. intros r d H. now apply get_app_old. Qed.

  Section Steps.
    Context {S : Type}.
    Implicit Types (h : heap) (s : S).
    Lemma mbind_ok {A B} (m : M S A) (f : A -> M S B) h s h1 s1 a :
      m h s = (h1, s1, Ok a) -> mbind m f h s = f a h1 s1.
    Proof. intros E. unfold mbind. now rewrite E. Qed.
    Lemma mbind_err {A B} (m : M S A) (f : A -> M S B) h s h1 s1 e :
      m h s = (h1, s1, Err e) -> mbind m f h s = (h1, s1, Err e).
    Proof. intros E. unfold mbind. now rewrite E. Qed.
    Lemma do_this {B} (f : S -> M S B) h s : mbind this f h s = f s h s. Proof. reflexivity. Qed.
    Lemma do_store {B} s0 (f : unit -> M S B) h s : mbind (store s0) f h s = f tt h s0. Proof. reflexivity. Qed.
    Lemma do_ret {A B} (x : A) (f : A -> M S B) h s : mbind (ret x) f h s = f x h s. Proof. reflexivity. Qed.
    Lemma do_ok {A B} (x : A) (f : A -> M S B) h s : mbind (liftr (Ok x)) f h s = f x h s. Proof. reflexivity. Qed.
    Lemma do_err {A B} e (f : A -> M S B) h s : mbind (liftr (Err e)) f h s = (h, s, Err e). Proof. reflexivity. Qed.
    Lemma do_fail {A B} e (f : A -> M S B) h s : mbind (fail e) f h s = (h, s, Err e). Proof. reflexivity. Qed.
    Lemma do_alloc {B} c (f : ref -> M S B) h s : mbind (alloc c) f h s = f (length h) (h ++ [c]) s.
    Proof. reflexivity. Qed.
    Lemma do_write {B} r c (f : unit -> M S B) h s : mbind (write r c) f h s = f tt (upd h r c) s.
    Proof. reflexivity. Qed.
    Lemma do_read {B} r (c : cell) (f : cell -> M S B) h s : get h r = Ok c -> mbind (read r) f h s = f c h s.
    Proof. intros E. unfold mbind, read. now rewrite E. Qed.
    Lemma do_copy {B} r (c : cell) (f : ref -> M S B) h s : get h r = Ok c ->
      mbind (copy r) f h s = f (length h) (h ++ [c]) s.
    Proof. intros E. unfold mbind, copy, mbind, read. now rewrite E. Qed.
    Lemma do_ints {B} r l (f : list Z -> M S B) h s : get h r = Ok (CInts l) -> mbind (ints r) f h s = f l h s.
    Proof. intros E. unfold ints, mbind, read. now rewrite E. Qed.
    Lemma do_elevs {B} r l (f : list (option T) -> M S B) h s : get h r = Ok (CElevs l) -> mbind (elevs r) f h s = f l h s.
    Proof. intros E. unfold elevs, mbind, read. now rewrite E. Qed.
    Lemma do_accs {B} r l (f : facc -> M S B) h s : get h r = Ok (CAcc l) -> mbind (accs r) f h s = f l h s.
    Proof. intros E. unfold accs, mbind, read. now rewrite E. Qed.
    Lemma do_areas {B} r l (f : list W -> M S B) h s : get h r = Ok (CAcc (Areas l)) -> mbind (area_vals r) f h s = f l h s.
    Proof. intros E. unfold area_vals, mbind, read. now rewrite E. Qed.
    Lemma do_dict {B} r l (f : topology -> M S B) h s : get h r = Ok (CDict l) -> mbind (dict r) f h s = f l h s.
    Proof. intros E. unfold dict, mbind, read. now rewrite E. Qed.
    Lemma do_assoc {A B C} (m : M S A) (f : A -> M S B) (g : B -> M S C) h s :
      mbind (mbind m f) g h s = mbind m (fun a => mbind (f a) g) h s.
    Proof. unfold mbind. destruct (m h s) as [[h1 s1] [a|e]]; auto. Qed.
  End Steps.

  (** ** FlowDirections *)
  Definition rep_ints (h : heap) (r : option ref) (l : option (list Z)) : Prop :=
    match r, l with Some r, Some l => get h r = Ok (CInts l) | None, None => True | _, _ => False end.
  Definition rep_acc (h : heap) (r : option ref) (l : option (@facc W)) : Prop :=
    match r, l with Some r, Some l => get h r = Ok (CAcc l) | None, None => True | _, _ => False end.

  (** in [h], the object [f] holds the elevations [dem], the areas [area] and the attributes [o] *)
  Definition frep (h : heap) (f : flow) (dem : list (option T)) (area : list W) (o : fobj) : Prop :=
    get h (f_dem f) = Ok (CElevs dem) /\ get h (f_area f) = Ok (CAcc (Areas area)) /\
    f_nb f = fo_nb o /\ f_rev f = fo_rev o /\
    rep_ints h (f_fdir f) (fo_fdir o) /\ rep_acc h (f_acc f) (fo_acc o).

  Lemma rep_ints_ext h h' r l : ext h h' -> rep_ints h r l -> rep_ints h' r l.
  Proof. intros E. unfold rep_ints. destruct r, l; auto. Qed.
  Lemma rep_acc_ext h h' r l : ext h h' -> rep_acc h r l -> rep_acc h' r l.
  Proof. intros E. unfold rep_acc. destruct r, l; auto. Qed.
  Lemma frep_ext h h' f d a o : ext h h' -> frep h f d a o -> frep h' f d a o.
  Proof.
    intros E (A & B & C & D & F & G). repeat split; eauto using rep_ints_ext, rep_acc_ext.
  Qed.

  Definition fshow (h : heap) (r : ref) : option (@fanswer W) :=
    match get h r with
    | Ok (CInts l) => Some (Ints l)
    | Ok (CAcc f) => Some (facc_answer f)
    | _ => None
    end.
  Definition fagrees (h : heap) (x : res ref) (y : res fanswer) : Prop :=
    match x, y with Ok r, Ok a => fshow h r = Some a | Err e, Err e' => e = e' | _, _ => False end.

  Variables (tsub tdiv : T -> T -> T) (tlt teq : T -> T -> bool) (tzero tbig : T).
  Variables (wadd : W -> W -> W) (wzero : W).
  Variables (fuel lim : nat) (dist : nat -> nat -> T).
  Notation fcall_in := (w_fcall tsub tdiv tlt teq tzero tbig wadd wzero fuel lim dist).
  Notation fcall_of dem area := (call tsub tdiv tlt teq tzero tbig wadd wzero fuel lim dist dem area).

  Definition pure (c : @fcommand T) : option (@fcall T) :=
    match c with
    | WFlowDirections thr ts => Some (FlowDirections thr ts)
    | WFlowDirectionArray => Some (FlowDirectionArray)
    | WFlowAccumulationArray => Some (FlowAccumulationArray)
    | WDem | WArea => None
    | WNidp => Some (GetNidp)
    | WAccumulation b => Some (FlowAccumulation b)
    | WWatershed c => Some (Watershed c)
    | WSubbasins cs => Some (Subbasins cs)
    end.

  (** what the object holds in any case: arrays of the right kind *)
  Definition same_parts (f f' : flow) : Prop := f_dem f' = f_dem f /\ f_area f' = f_area f /\ f_mins f' = f_mins f.

  Lemma sim_fdir h f d a o : frep h f d a o ->
    match fdir_of o with
    | Ok l => exists r, f_fdir f = Some r /\ get h r = Ok (CInts l) /\ w_fdir h f = (h, f, Ok r)
    | Err e => w_fdir h f = (h, f, Err e) /\ e = AttributeError /\ f_fdir f = None
    end.
  Proof.
    intros (A & B & C & D & F & G). unfold fdir_of, w_fdir. unfold rep_ints in F. rewrite do_this.
    destruct (f_fdir f) as [r|], (fo_fdir o) as [l|]; try tauto; eauto.
  Qed.

  Lemma sim_reverse h f d a o : frep h f d a o -> exists f' x,
    w_reverse h f = (h, f', x) /\ x = snd (do_reverse o) /\ frep h f' d a (fst (do_reverse o)) /\
    same_parts f f' /\ f_fdir f' = f_fdir f /\ f_thr f' = f_thr f.
  Proof.
    intros R. pose proof R as (A & B & C & D & F & G). unfold w_reverse, do_reverse. rewrite do_this.
    destruct (f_rev f) as [v|] eqn:Ev, (fo_rev o) as [v'|] eqn:Ev'; try congruence.
    - exists f, (Ok v). inversion D; subst. simpl. repeat split; auto; congruence.
    - pose proof (sim_fdir R) as HF. destruct (fdir_of o) as [l|e].
      + destruct HF as [r [E1 [E2 E3]]]. rewrite (mbind_ok _ E3). rewrite (do_ints _ _ E2).
        simpl. destruct (reverse_flow_directions l) as [v|e].
        * rewrite do_ok, do_store. eexists _, _. split; [reflexivity|]. repeat split; simpl; auto.
        * rewrite do_err. eexists _, _. split; [reflexivity|]. repeat split; simpl; auto; congruence.
      + destruct HF as [E1 [E2 E3]]. rewrite (mbind_err _ E1). eexists _, _. split; [reflexivity|].
        repeat split; simpl; auto; congruence.
  Qed.

  Lemma sim_watershed_into h f d a o z sub c : frep h f d a o -> get h z = Ok (CInts sub) ->
    f_fdir f <> Some z -> f_acc f <> Some z -> f_dem f <> z -> f_area f <> z ->
    exists h' f' x, w_watershed_into fuel z c h f = (h', f', x) /\
      frep h' f' d a (fst (do_watershed fuel o c (Some sub))) /\ same_parts f f' /\ f_thr f' = f_thr f /\
      f_fdir f' = f_fdir f /\ f_acc f' = f_acc f /\
      match snd (do_watershed fuel o c (Some sub)) with
      | Ok out => x = Ok tt /\ get h' z = Ok (CInts out)
      | Err e => x = Err e
      end.
  Proof.
    intros R Hz N1 N2 N3 N4. unfold w_watershed_into, do_watershed.
    destruct (sim_reverse R) as (f1 & x1 & E1 & Ex & R1 & P1 & Q1 & Q1').
    assert (AC : f_acc f1 = f_acc f).
    { clear - E1. unfold w_reverse in E1. rewrite do_this in E1. destruct (f_rev f); [inversion E1; now subst|].
      destruct (w_fdir h f) as [[h2 f2] [r|e]] eqn:E2.
      - rewrite (mbind_ok _ E2) in E1.
        assert (f2 = f /\ h2 = h) as [-> ->]
          by (unfold w_fdir, mbind, this in E2; destruct (f_fdir f); inversion E2; auto).
        destruct (ints r h f) as [[h3 f3] [l|e]] eqn:E3.
        + assert (f3 = f /\ h3 = h) as [-> ->]
            by (unfold ints, mbind, read in E3; destruct (get h r); inversion E3; auto).
          rewrite (mbind_ok _ E3) in E1. destruct (reverse_flow_directions l).
          * rewrite do_ok, do_store in E1. inversion E1; subst. reflexivity.
          * rewrite do_err in E1. inversion E1; now subst.
        + rewrite (mbind_err _ E3) in E1. inversion E1; subst.
          unfold ints, mbind, read in E3; destruct (get h r); inversion E3; auto.
      - rewrite (mbind_err _ E2) in E1. inversion E1; subst.
        unfold w_fdir, mbind, this in E2; destruct (f_fdir f); inversion E2; auto. }
    destruct (do_reverse o) as [o1 rv]. simpl in *. subst x1. destruct rv as [v|e].
    - rewrite (mbind_ok _ E1). simpl. pose proof (sim_fdir R1) as HF. destruct (fdir_of o1) as [l|e].
      + destruct HF as [r [F1 [F2 F3]]]. rewrite (mbind_ok _ F3), (do_ints _ _ F2), (do_ints _ _ Hz). simpl.
        destruct (watershed_with fuel l v c (Some sub)) as [out|e].
        * rewrite do_ok. eexists _, _, _. split; [reflexivity|].
          destruct P1 as (P1 & P2 & P3). destruct R1 as (A & B & C & D & F & G).
          assert (K : forall r' c', get h r' = Ok c' -> r' <> z -> get (upd h z (CInts out)) r' = Ok c').
          { intros r' c' H1 H2. apply get_ok. rewrite nth_error_upd_neq by auto. now apply get_ok. }
          repeat split; simpl; auto.
          -- apply K; auto; congruence.
          -- apply K; auto; congruence.
          -- unfold rep_ints in *. rewrite Q1 in *. rewrite F1 in *. destruct (fo_fdir o1); auto; try (apply K; auto; congruence).
          -- unfold rep_acc in *. rewrite AC in *. destruct (f_acc f); destruct (fo_acc o1); auto; try (apply K; auto; congruence).
          -- apply get_ok. apply nth_error_upd_eq. apply get_ok in Hz. apply nth_error_Some. congruence.
        * rewrite do_err. eexists _, _, _. split; [reflexivity|]. repeat split; simpl; try apply R1; try apply P1; auto.
      + destruct HF as [F1 [F2 F3]]. rewrite (mbind_err _ F1). eexists _, _, _. split; [reflexivity|].
        repeat split; simpl; try apply R1; try apply P1; auto.
    - rewrite (mbind_err _ E1). eexists _, _, _. split; [reflexivity|].
      repeat split; simpl; try apply R1; try apply P1; auto.
  Qed.

  (** a reference that holds something is old *)
  Lemma old_ref (h : heap) r c : get h r = Ok c -> r <> length h.
  Proof. intros H E. subst. apply get_lt in H. lia. Qed.

  Lemma sim_sub_loop d a z cs idxs : forall h f o sub, frep h f d a o -> get h z = Ok (CInts sub) ->
    f_fdir f <> Some z -> f_acc f <> Some z -> f_dem f <> z -> f_area f <> z ->
    exists h' f' x, w_sub_loop fuel z cs idxs h f = (h', f', x) /\
      frep h' f' d a (fst (sub_loop fuel o cs idxs sub)) /\ same_parts f f' /\ f_thr f' = f_thr f /\
      match snd (sub_loop fuel o cs idxs sub) with
      | Ok out => x = Ok tt /\ get h' z = Ok (CInts out)
      | Err e => x = Err e
      end.
  Proof.
    induction idxs as [|i idxs IH]; intros h f o sub R Hz N1 N2 N3 N4; simpl.
    - eexists _, _, _. split; [reflexivity|]. repeat split; try apply R; auto.
    - destruct (get cs i) as [c|e]; simpl.
      2:{ rewrite do_err. eexists _, _, _. split; [reflexivity|]. repeat split; try apply R; auto. }
      rewrite do_ok. destruct (sim_watershed_into c R Hz N1 N2 N3 N4) as (h1 & f1 & x & E & R1 & P & Q1 & Q2 & Q3 & X).
      destruct (do_watershed fuel o c (Some sub)) as [o1 [out|e]]; simpl in *.
      + destruct X as [-> Hz']. rewrite (mbind_ok _ E).
        destruct P as (P1 & P2 & P3).
        destruct (IH h1 f1 o1 out R1 Hz') as (h2 & f2 & y & E2 & R2 & (S1 & S2 & S3) & Q4 & X2); try congruence.
        rewrite E2. eexists _, _, _. split; [reflexivity|]. repeat split; try apply R2; auto; congruence.
      + subst x. rewrite (mbind_err _ E). eexists _, _, _. split; [reflexivity|].
        destruct P as (P1 & P2 & P3). repeat split; try apply R1; auto.
  Qed.

  Lemma frep_new h f d a o : frep h f d a o ->
    f_fdir f <> Some (length h) /\ f_acc f <> Some (length h) /\ f_dem f <> length h /\ f_area f <> length h.
  Proof.
    intros (A & B & C & D & F & G). unfold rep_ints in F. unfold rep_acc in G.
    repeat split; eauto using old_ref.
    - intros E. rewrite E in F. destruct (fo_fdir o); [|tauto]. now apply old_ref in F.
    - intros E. rewrite E in G. destruct (fo_acc o); [|tauto]. now apply old_ref in G.
  Qed.

  Theorem sim_fcall h f d a o c pc : frep h f d a o -> pure c = Some pc ->
    (forall thr ts, c = WFlowDirections thr ts -> min_cells tlt teq tbig d = Ok (f_mins f)) ->
    exists h' f' x, fcall_in c h f = (h', f', x) /\ frep h' f' d a (fst (fcall_of d a o pc)) /\ same_parts f f' /\
      fagrees h' x (snd (fcall_of d a o pc)).
  Proof.
    intros R Ep Hmin. pose proof R as (A & B & C & D & F & G). pose proof (frep_new R) as (N1 & N2 & N3 & N4).
    destruct c; inversion Ep; subst pc; clear Ep; cbn [w_fcall call].
    - specialize (Hmin _ _ eq_refl). unfold w_flow_directions, do_flow_directions, flow_directions.
      rewrite do_this, (do_elevs _ _ A), do_store, do_alloc, Hmin, <- C. simpl.
      fold (flow_directions_from tsub tdiv tlt teq tzero tbig fuel dist (f_mins f) d (f_nb f) thr terminals).
      destruct (flow_directions_from tsub tdiv tlt teq tzero tbig fuel dist (f_mins f) d (f_nb f) thr terminals)
        as [[fdir nb]|e].
      + rewrite do_ok, do_write, do_store, upd_app_new. simpl. eexists _, _, _. split; [reflexivity|].
        repeat split; simpl; auto using get_app_old, get_app_new.
        * unfold rep_acc in *. destruct (f_acc f), (fo_acc o); auto. now apply get_app_old.
        * unfold fshow. now rewrite get_app_new.
      + rewrite do_err. eexists _, _, _. split; [reflexivity|].
        repeat split; simpl; auto using get_app_old.
        unfold rep_acc in *. destruct (f_acc f), (fo_acc o); auto. now apply get_app_old.
    - pose proof (sim_fdir R) as HF. unfold MObj.ints. simpl. destruct (fdir_of o) as [l|e]; simpl.
      + destruct HF as [r [F1 [F2 F3]]]. eexists _, _, _. split; [exact F3|].
        repeat split; auto. simpl. unfold fshow. now rewrite F2.
      + destruct HF as [F1 [F2 F3]]. eexists _, _, _. split; [exact F1|]. repeat split; auto.
    - rewrite do_this. unfold rep_acc in G. destruct (f_acc f) as [r|] eqn:Ea, (fo_acc o) as [l|] eqn:El; try tauto.
      + eexists _, _, _. split; [reflexivity|]. split; [exact R|]. repeat split. simpl. unfold fshow. now rewrite G.
      + eexists _, _, _. split; [reflexivity|]. split; [exact R|]. repeat split.
    - unfold w_nidp. pose proof (sim_fdir R) as HF. unfold MObj.ints. simpl. destruct (fdir_of o) as [l|e]; simpl.
      + destruct HF as [r [F1 [F2 F3]]]. rewrite (mbind_ok _ F3), (do_ints _ _ F2).
        destruct (get_nidp l) as [n|e]; simpl.
        * rewrite do_ok. eexists _, _, _. split; [reflexivity|].
          split; [eapply frep_ext; eauto using ext_app|]. repeat split; auto. simpl. unfold fshow. now rewrite get_app_new.
        * rewrite do_err. eexists _, _, _. split; [reflexivity|]. repeat split; auto.
      + destruct HF as [F1 [F2 F3]]. rewrite (mbind_err _ F1). eexists _, _, _. split; [reflexivity|]. repeat split; auto.
    - unfold w_accumulation, do_accumulation. pose proof (sim_fdir R) as HF. destruct (fdir_of o) as [l|e]; simpl.
      + destruct HF as [r [F1 [F2 F3]]]. rewrite (mbind_ok _ F3), (do_ints _ _ F2), do_this, do_alloc.
        erewrite do_copy by (apply get_app_old; exact B).
        erewrite do_areas by (apply get_app_new).
        destruct (acc_run wadd wzero fuel l a) as [s|e]; simpl.
        * rewrite do_ok, do_write.
          rewrite (upd_app_old [_] _ (r := length h)) by (rewrite app_length; simpl; lia).
          rewrite upd_app_new, do_write.
          replace (length (h ++ [CAcc (Cells (repeat 1%Z (length l)))]))
            with (length (h ++ [CAcc (Cells (a_cnt s))])) by (rewrite !app_length; reflexivity).
          rewrite upd_app_new, do_store.
          assert (X1 : ext h ((h ++ [CAcc (Cells (a_cnt s))]) ++ [CAcc (Areas (a_area s))]))
            by (eapply ext_trans; eapply ext_app).
          eexists _, _, _. split; [reflexivity|].
          destruct as_cells; repeat split; simpl; auto.
          -- unfold rep_ints in *. destruct (f_fdir f), (fo_fdir o); auto.
          -- apply get_app_old, get_app_new.
          -- unfold fshow. erewrite get_app_old by apply get_app_new. reflexivity.
          -- unfold rep_ints in *. destruct (f_fdir f), (fo_fdir o); auto.
          -- apply get_app_new.
          -- unfold fshow. rewrite get_app_new. reflexivity.
        * rewrite do_err. eexists _, _, _. split; [reflexivity|].
          split; [eapply frep_ext; [|exact R]; eapply ext_trans; eapply ext_app|]. repeat split; auto.
      + destruct HF as [F1 [F2 F3]]. rewrite (mbind_err _ F1). eexists _, _, _. split; [reflexivity|]. repeat split; auto.
    - unfold w_watershed, do_watershed. destruct (sim_reverse R) as (f1 & x1 & E1 & Ex & R1 & P1 & Q1 & Q1').
      destruct (do_reverse o) as [o1 rv] eqn:Eo. simpl in Ex, R1. subst x1. destruct rv as [v|e].
      2:{ rewrite (mbind_err _ E1). eexists _, _, _. split; [reflexivity|]. split; [exact R1|]. split; [exact P1|]. simpl. auto. }
      rewrite (mbind_ok _ E1). simpl. pose proof (sim_fdir R1) as HF. destruct (fdir_of o1) as [l|e] eqn:El.
      2:{ destruct HF as [F1 _]. rewrite (mbind_err _ F1). eexists _, _, _. split; [reflexivity|].
          split; [exact R1|]. split; [exact P1|]. simpl. auto. }
      destruct HF as [r [F1 [F2 F3]]]. rewrite (mbind_ok _ F3), (do_ints _ _ F2), do_alloc.
      assert (Rx : frep (h ++ [CInts (repeat 0%Z (length l))]) f1 d a o1) by (eapply frep_ext; eauto using ext_app).
      pose proof (frep_new R1) as (M1 & M2 & M3 & M4).
      destruct (sim_watershed_into c Rx (get_app_new _ _) M1 M2 M3 M4) as (h2 & f2 & y & E2 & R2 & (S1 & S2 & S3) & _ & _ & _ & X).
      unfold do_watershed in R2, X.
      assert (Er : do_reverse o1 = (o1, Ok v)).
      { unfold do_reverse in Eo |- *. destruct (fo_rev o) eqn:Erev.
        - inversion Eo; subst. now rewrite Erev.
        - destruct (fdir <- fdir_of o;; reverse_flow_directions fdir); inversion Eo; subst. reflexivity. }
      rewrite Er, El in R2, X. simpl in R2, X.
      assert (Ez : watershed_with fuel l v c (Some (repeat 0%Z (length l))) = watershed_with fuel l v c None) by reflexivity.
      destruct P1 as (P1 & P2 & P3).
      rewrite Ez in X. unfold MObj.ints. simpl. rewrite ?El. simpl. destruct (watershed_with fuel l v c None) as [out|e]; simpl in *.
      + destruct X as [-> Hz]. rewrite (mbind_ok _ E2). eexists _, _, _. split; [reflexivity|]. split; [exact R2|].
        repeat split; try congruence. simpl. unfold fshow. now rewrite Hz.
      + subst y. rewrite (mbind_err _ E2). eexists _, _, _. split; [reflexivity|]. split; [exact R2|].
        repeat split; try congruence; simpl; auto.
    - unfold w_subbasins, do_subbasins. rewrite do_this. unfold rep_ints in F.
      destruct (f_fdir f) as [r|] eqn:Ef, (fo_fdir o) as [l|] eqn:El; try tauto.
      2:{ eexists _, _, _. split; [reflexivity|]. split; [exact R|]. repeat split; simpl; auto. }
      rewrite (do_ints _ _ F). destruct (sub_order fuel lim l cs) as [idxs|e]; simpl.
      2:{ rewrite do_err. eexists _, _, _. split; [reflexivity|]. split; [exact R|]. repeat split; simpl; auto. }
      rewrite do_ok, do_alloc.
      assert (Rx : frep (h ++ [CInts (repeat 0%Z (length l))]) f d a o) by (eapply frep_ext; eauto using ext_app).
      assert (N1' : f_fdir f <> Some (length h)) by congruence.
      destruct (@sim_sub_loop d a _ cs idxs _ _ _ _ Rx (get_app_new _ _) N1' N2 N3 N4) as (h2 & f2 & y & E2 & R2 & P & _ & X).
      destruct (sub_loop fuel o cs idxs (repeat 0%Z (length l))) as [o2 [out|e]]; simpl in *.
      + destruct X as [-> Hz]. rewrite (mbind_ok _ E2). eexists _, _, _. split; [reflexivity|]. split; [exact R2|].
        split; [exact P|]. simpl. unfold fshow. now rewrite Hz.
      + subst y. rewrite (mbind_err _ E2). eexists _, _, _. split; [reflexivity|]. split; [exact R2|].
        split; [exact P|]. simpl. auto.
  Qed.
End Sim.
