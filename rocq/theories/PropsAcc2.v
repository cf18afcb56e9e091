(** C20, C30 with an arbitrary addition (floating point included): the accumulated area of a
    cell is its own area plus the accumulated areas of its inflows, and it grows downstream. *)
From Verif Require Import Py Spec MFlow LGraph LAcc LAcc2 LAcc3 MStream PropsAcc PropsStream.
Set Implicit Arguments.
Unset Strict Implicit.
Local Open Scope nat_scope.
Local Open Scope list_scope.

(** [l] lists the other cells that flow directly into [n], each once *)
Definition inflows_of (fdir : list Z) (n : nat) (l : list nat) : Prop :=
  NoDup l /\ forall m, In m l <-> m < length fdir /\ m <> n /\ down fdir m = n.

(** no law of addition is needed but that adding zero to a cell's own area changes nothing *)
Theorem C20_any_addition :
  forall (W : Type) (wadd : W -> W -> W) (wzero : W) (fdir : list Z) (area : list W) fuel areas,
    (forall a, In a area -> wadd a wzero = a) ->
    valid_fdir fdir -> length area = length fdir -> S (length fdir) <= fuel ->
    flow_accumulation_area wadd wzero fuel fdir area = Ok areas ->
    length areas = length fdir /\
    forall n, n < length fdir -> ~ on_cycle fdir n ->
      exists l, inflows_of fdir n l /\
        nth_error areas n = Some (fold_left wadd (map (fun m => nth m areas wzero) l) (nth n area wzero)).
Proof.
  intros W wadd wzero fdir area fuel areas HZ V La Hf E.
  destruct (@run_vals fdir V W wadd wzero area La) with (fuel := fuel) as [s [F [up [ins [Es [I [VL Hh]]]]]]]; auto.
  { intros c Hc. apply HZ, nth_In. lia. }
  unfold flow_accumulation_area in E. rewrite Es in E. cbn [bind] in E. inversion E; subst areas. clear E.
  assert (LA := len_area I). split; auto. intros n Hn Hc. destruct (VL n Hn) as [ND [HI HV]].
  exists (ins n). split; [split; auto|].
  - intros m. rewrite HI. split.
    + intros [HF HD]. split; [apply (v_lt I _ HF)|]. split; auto. intros ->. apply (v_nocyc I HF). exists 1. auto.
    + intros [Hm [Hmn HD]]. split; auto. destruct (in_dec Nat.eq_dec m F) as [|HF]; auto. exfalso.
      assert (X := unpassed_cyc V (repeat_length tt (length fdir)) I Hh Hm HF). assert (Y := cyc_down X). rewrite HD in Y.
      apply cyc_iff in Y. destruct Y as [Y|Y]; [|contradiction]. unfold terminal in Y.
      destruct X as [q [Hq Hqm]]. apply Hmn.
      assert (Z : forall j, downs fdir j n = n) by (induction j; auto; rewrite downs_S; congruence).
      destruct q as [|q]; [lia|]. simpl in Hqm. rewrite HD, Z in Hqm. auto.
  - rewrite (nth_error_nth' _ wzero) by (rewrite LA; auto). f_equal. rewrite HV.
    generalize (nth n area wzero). generalize (ins n). clear.
    induction l as [|m l IH]; intros w; simpl; auto.
Qed.

Section Net.
  Variable fdir : list Z.

  Lemma off_cycle n m : down fdir m = n -> m <> n -> ~ on_cycle fdir n -> ~ on_cycle fdir m.
  Proof.
    intros Hd Hmn Hn [D [k [Hk Hm]]]. apply Hn. assert (C : downs fdir k n = n).
    { rewrite <- Hd. change (downs fdir (S k) m = down fdir m). rewrite downs_S. now rewrite Hm. }
    split; [|exists k; auto]. intros T. destruct k as [|k]; [lia|]. simpl in Hm. rewrite Hd in Hm.
    assert (Z : forall j, downs fdir j n = n) by (induction j; auto; rewrite downs_S; congruence).
    rewrite Z in Hm. congruence.
  Qed.

  (** induction over the network: from the inflows of a cell to the cell *)
  Lemma network_ind (P : nat -> Prop) :
    (forall n, n < length fdir -> ~ on_cycle fdir n ->
       (forall m, m < length fdir -> m <> n -> down fdir m = n -> ~ on_cycle fdir m -> P m) -> P n) ->
    forall n, n < length fdir -> ~ on_cycle fdir n -> P n.
  Proof.
    intros H n Hn Cn.
    assert (GG : forall k n (below : list nat), n < length fdir -> ~ on_cycle fdir n -> NoDup (n :: below) -> (forall x, In x below -> x < length fdir) ->
      (forall x, In x below -> exists j, downs fdir (S j) n = x) -> length fdir - length below <= k -> P n).
    { induction k as [|k IH]; intros c below Hc Cc ND HB HD HK.
      - exfalso. assert (X : length (c :: below) <= length (seq 0 (length fdir))).
        { apply NoDup_incl_length; auto. intros x [<-|Hx]; apply in_seq; [lia|]. specialize (HB x Hx). lia. }
        rewrite seq_length in X. simpl in X. lia.
      - apply H; auto. intros m Hm Hmc Hd Cm. apply (IH m (c :: below)); auto.
        + constructor; auto. intros [X|Hi]; [congruence|]. destruct (HD m Hi) as [j Hj]. apply Cm. split; [congruence|].
          exists (S (S j)). split; [lia|]. simpl. rewrite Hd. exact Hj.
        + intros x [<-|Hx]; auto.
        + intros x [<-|Hx]; [exists 0; exact Hd|]. destruct (HD x Hx) as [j Hj]. exists (S j).
          change (downs fdir (S j) (down fdir m) = x). rewrite Hd. exact Hj.
        + simpl. lia. }
    apply (GG (length fdir) n []); auto; try easy; [constructor; [easy|constructor]|lia].
  Qed.

End Net.

(** addition never makes a sum of areas smaller than a part of it.  [ok] are the possible
    areas: not NaN and not negative. *)
Record growing {W} (wadd : W -> W -> W) (ge : W -> W -> bool) (ok : W -> Prop) : Prop := {
  g_ok : forall a b, ok a -> ok b -> ok (wadd a b);
  g_refl : forall a, ok a -> ge a a = true;
  g_trans : forall a b c, ok a -> ok b -> ok c -> ge a b = true -> ge b c = true -> ge a c = true;
  g_left : forall a b, ok a -> ok b -> ge (wadd a b) a = true;
  g_right : forall a b, ok a -> ok b -> ge (wadd a b) b = true
}.

Section Grow.
  Context {W : Type} (wadd : W -> W -> W) (wzero : W) (ge : W -> W -> bool) (ok : W -> Prop).
  Hypothesis G : growing wadd ge ok.

  Lemma fold_ok l : forall w, ok w -> (forall x, In x l -> ok x) -> ok (fold_left wadd l w).
  Proof. induction l as [|x l IH]; intros w Hw Hl; simpl; auto. apply IH; [apply (g_ok G); auto|]; intros; apply Hl; simpl; auto. Qed.

  Lemma fold_start l : forall w, ok w -> (forall x, In x l -> ok x) -> ge (fold_left wadd l w) w = true.
  Proof.
    induction l as [|x l IH]; intros w Hw Hl; simpl; [now apply (g_refl G)|].
    assert (Hx : ok x) by (apply Hl; simpl; auto). assert (Hl' : forall y, In y l -> ok y) by (intros; apply Hl; simpl; auto).
    assert (Hwx := g_ok G Hw Hx).
    apply (g_trans G (b := wadd w x)); auto; [now apply fold_ok|now apply (g_left G)].
  Qed.

  Lemma fold_part l : forall w x, ok w -> (forall x, In x l -> ok x) -> In x l -> ge (fold_left wadd l w) x = true.
  Proof.
    induction l as [|y l IH]; intros w x Hw Hl Hx; simpl; [destruct Hx|].
    assert (Hy : ok y) by (apply Hl; simpl; auto). assert (Hl' : forall z, In z l -> ok z) by (intros; apply Hl; simpl; auto).
    assert (Hwy := g_ok G Hw Hy).
    destruct Hx as [<-|Hx]; [|now apply IH].
    apply (g_trans G (b := wadd w y)); auto; [now apply fold_ok|now apply fold_start|now apply (g_right G)].
  Qed.

  Variables (fdir : list Z) (area areas : list W) (fuel : nat).
  Hypothesis HZ : forall a, In a area -> wadd a wzero = a.
  Hypothesis V : valid_fdir fdir.
  Hypothesis La : length area = length fdir.
  Hypothesis Hf : S (length fdir) <= fuel.
  Hypothesis Hok : forall a, In a area -> ok a.
  Hypothesis E : flow_accumulation_area wadd wzero fuel fdir area = Ok areas.

  Lemma acc_ok n : n < length fdir -> ~ on_cycle fdir n -> ok (nth n areas wzero).
  Proof.
    destruct (@C20_any_addition W wadd wzero fdir area fuel areas HZ V La Hf E) as [LA R].
    revert n. apply network_ind. intros n Hn Cn IH. destruct (R n Hn Cn) as [l [[_ HI] HV]].
    apply (nth_error_nth _ _ wzero) in HV. rewrite HV. apply fold_ok.
    - apply Hok, nth_In. lia.
    - intros x Hx. apply in_map_iff in Hx. destruct Hx as [m [<- Hm]]. apply HI in Hm. apply IH; try tauto.
      apply (@off_cycle fdir n); tauto.
  Qed.

  (** accumulated area never shrinks downstream *)
  Theorem C30_grows_downstream n : n < length fdir -> ~ on_cycle fdir (down fdir n) -> ge (nth (down fdir n) areas wzero) (nth n areas wzero) = true.
  Proof.
    intros Hn Cd. destruct (@C20_any_addition W wadd wzero fdir area fuel areas HZ V La Hf E) as [LA R].
    destruct (Nat.eq_dec (down fdir n) n) as [D|D]; [rewrite D in *; apply (g_refl G); now apply acc_ok|].
    assert (Hd : down fdir n < length fdir) by now apply down_lt.
    destruct (R _ Hd Cd) as [l [[_ HI] HV]]. apply (nth_error_nth _ _ wzero) in HV. rewrite HV.
    apply fold_part.
    - apply Hok, nth_In. lia.
    - intros x Hx. apply in_map_iff in Hx. destruct Hx as [m [<- Hm]]. apply HI in Hm. apply acc_ok; try tauto.
      apply (@off_cycle fdir (down fdir n)); tauto.
    - apply (in_map (fun m => nth m areas wzero)). apply HI. auto.
  Qed.

  (** C30 for any such addition *)
  Theorem C30_streams_run_on_any_addition t out :
    acyclic fdir ->
    (forall a b, ok a -> ok b -> ge b a = true -> ge a t = true -> ge b t = true) ->
    delineate_streams ge areas (Scalar t) None = Ok out ->
    forall c, c < length fdir -> nth_error out c = Some 1%Z -> nth_error out (down fdir c) = Some 1%Z.
  Proof.
    intros A Tr Ed c Hc Ho. destruct (C29_cells _ _ _ _ Ed) as [Lo H].
    destruct (@C20_any_addition W wadd wzero fdir area fuel areas HZ V La Hf E) as [LA _].
    assert (Hd : down fdir c < length fdir) by now apply down_lt.
    destruct (H c (nth c areas wzero)) as [x [Hx [Hi _]]]; [apply nth_error_nth'; lia|].
    destruct (H (down fdir c) (nth (down fdir c) areas wzero)) as [x' [Hx' [Hi' _]]]; [apply nth_error_nth'; lia|].
    simpl in Hx, Hx'. subst. apply Hi'. apply Hi in Ho. destruct Ho as [Ho _]. split; [|intros; discriminate].
    apply (Tr (nth c areas wzero)); auto; [apply acc_ok; auto|apply acc_ok; auto|apply C30_grows_downstream; auto].
  Qed.
End Grow.
