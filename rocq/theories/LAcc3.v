(** flow_accumulation with an arbitrary addition (floating point included): every value is the
    cell's own area plus the values of its inflows, added in some order. *)
From Verif Require Import Py Spec MFlow LGraph LAcc LAcc2 PropsAcc.
Set Implicit Arguments.
Unset Strict Implicit.
Local Open Scope nat_scope.
Local Open Scope list_scope.

Section Rec.
  Variable fdir : list Z.
  Notation N := (length fdir).
  Hypothesis V : valid_fdir fdir.
  Notation d := (down fdir).
  Context {W : Type} (wadd : W -> W -> W) (wzero : W).
  Variable area : list W.
  Hypothesis Larea : length area = N.
  Hypothesis Z0 : forall c, c < N -> wadd (nth c area wzero) wzero = nth c area wzero.

  Notation units := (repeat tt N).
  Definition uinv F up exc (s : acc (W := W)) := inv fdir uadd tt units F up exc (er s).
  Notation csum := (wsum Z.add 0%Z (fun _ => 1%Z)).
  Notation at_ s n := (nth n (a_area s) wzero).

  (** the values so far: [ins n] lists the inflows already added to [n] *)
  Definition vals (F : list nat) (ins : nat -> list nat) (s : acc (W := W)) : Prop :=
    forall n, n < N -> NoDup (ins n) /\ (forall m, In m (ins n) <-> In m F /\ d m = n) /\
      at_ s n = fold_left (fun w m => wadd w (at_ s m)) (ins n) (nth n area wzero).

  Lemma uadd_comm (a b : unit) : uadd a b = uadd b a. Proof. reflexivity. Qed.
  Lemma uadd_assoc (a b c : unit) : uadd a (uadd b c) = uadd (uadd a b) c. Proof. reflexivity. Qed.
  Lemma uadd_0 (a : unit) : uadd a tt = a. Proof. destruct a; reflexivity. Qed.

  Lemma len_area F up exc s : uinv F up exc s -> length (a_area s) = N.
  Proof. intros I. assert (X := v_l2 I). cbn in X. rewrite map_length in X. exact X. Qed.

  Lemma fold_ext (f g : W -> nat -> W) l : (forall w m, In m l -> f w m = g w m) ->
    forall w, fold_left f l w = fold_left g l w.
  Proof. induction l as [|m l IH]; intros H w; simpl; auto. rewrite H by now left. apply IH. intros; apply H; now right. Qed.

  Lemma vals_visit F up ins s m areas nd cs : uinv F up (same m) s -> ready fdir F m -> vals F ins s ->
    d m < N -> d m <> m -> ~ In (d m) F ->
    areas = upd (a_area s) (d m) (wadd (at_ s (d m)) (at_ s m)) ->
    vals (m :: F) (upd_up ins (d m) (ins (d m) ++ [m])) (Acc cs areas nd).
  Proof.
    intros I R VL Hn Hnm HnF EA k Hk. destruct R as [Hm [HmF _]]. assert (LA := len_area I).
    assert (KEEP : forall q, q <> d m -> nth q areas wzero = at_ s q).
    { intros q Hq. rewrite EA. rewrite nth_upd by lia. destruct (Nat.eq_dec (d m) q); congruence. }
    destruct (VL k Hk) as [ND [HI HV]]. cbn [a_area]. destruct (Nat.eq_dec k (d m)) as [->|E].
    - rewrite upd_up_eq. assert (NI : ~ In m (ins (d m))) by (intros X; apply HI in X; tauto).
      split; [|split].
      + apply NoDup_rev in ND. rewrite <- (rev_involutive (ins (d m) ++ [m])). apply NoDup_rev. rewrite rev_app_distr. simpl.
        constructor; auto. rewrite <- in_rev. exact NI.
      + intros q. rewrite in_app_iff, HI. simpl. split.
        * intros [[A B]|[<-|[]]]; auto.
        * intros [[<-|A] B]; auto.
      + rewrite fold_left_app. cbn [fold_left]. rewrite (@fold_ext (fun w q => wadd w (nth q areas wzero)) (fun w q => wadd w (at_ s q))).
        * rewrite <- HV, (KEEP m) by auto. rewrite EA. rewrite nth_upd_eq by lia. reflexivity.
        * intros w q Hq. rewrite KEEP; auto. intros ->. apply HI in Hq. tauto.
    - rewrite upd_up_neq by auto. split; auto. split.
      + intros q. rewrite HI. simpl. split; [tauto|]. intros [[<-|H] H2]; [congruence|auto].
      + rewrite KEEP by auto. rewrite (@fold_ext (fun w q => wadd w (nth q areas wzero)) (fun w q => wadd w (at_ s q))); auto.
        intros w q Hq. rewrite KEEP; auto. intros ->. apply HI in Hq. tauto.
  Qed.

  Lemma walk_vals f : forall F up ins s m, uinv F up (same m) s -> ready fdir F m -> vals F ins s -> N <= f + length F ->
    exists F' up' ins' s', acc_walk wadd f fdir s (Z.of_nat (d m)) (csum (up m)) (at_ s m) = Ok s' /\
      uinv F' up' none s' /\ vals F' ins' s' /\ In m F' /\ (forall k, In k F -> In k F') /\
      (forall k, In k F' -> In k F \/ k = m \/ 0 < indeg fdir k).
  Proof.
    induction f as [|f IH]; intros F up ins s m I R VL Hf.
    - exfalso. destruct R as [Hm [HmF _]].
      assert (X : NoDup (m :: F)) by (constructor; auto; apply (v_nd I)).
      apply (NoDup_incl_length (l' := seq 0 N)) in X.
      + rewrite seq_length in X. simpl in X. simpl in Hf. lia.
      + intros k [<-|Hk]; apply in_seq; simpl; [lia|]. split; [lia|]. now apply (v_lt I).
    - destruct (@visit fdir V unit uadd tt uadd_comm uadd_assoc uadd_0 units (repeat_length tt N) F up (er s) m I R) as [Hn [Hnm [HnF [H1 [Hbr [Hgo [Hs1 _]]]]]]].
      set (n := d m) in *. assert (LA := len_area I). assert (L1 := v_l1 I). assert (L3 := v_l3 I). cbn [er a_cnt a_nidp] in *.
      assert (UP : forall x, upd (a_area (er s)) n tt = map (fun _ => tt) (upd (a_area s) n x)).
      { intros x. cbn [er a_area]. rewrite <- upd_map. reflexivity. }
      cbn [acc_walk].
      rewrite (npget_nat (a_cnt s) 0%Z) by lia. cbn [bind].
      rewrite npset_nat by lia. cbn [bind].
      rewrite (npget_nat (a_area s) wzero) by lia. cbn [bind].
      rewrite npset_nat by lia. cbn [bind].
      rewrite (npget_nat _ 0%Z) by (rewrite upd_length; lia). cbn [bind].
      rewrite (npget_nat _ wzero) by (rewrite upd_length; lia). cbn [bind].
      rewrite (npget_nat (a_nidp s) 0%Z) by lia. cbn [bind].
      rewrite nth_upd_eq by lia. rewrite nth_upd_eq by lia.
      destruct (Z.leb_spec 2 (nth n (a_nidp s) 0%Z)) as [H2|H2].
      + rewrite npset_nat by lia. cbn [bind].
        exists (m :: F), (upd_up up n (up n ++ up m)), (upd_up ins n (ins n ++ [m])). eexists. split; [reflexivity|].
        split; [|split; [|split; [now left|split; [intros; now right|]]]].
        * specialize (Hbr H2). change (uadd (nth n (map (fun _ => tt) (a_area s)) tt) (wsum uadd tt (fun c => nth c units tt) (up m))) with tt in Hbr.
          unfold uinv, er at 1. cbn [a_cnt a_area a_nidp]. rewrite <- UP. exact Hbr.
        * eapply vals_visit; eauto.
        * intros k [<-|Hk]; auto.
      + rewrite (npget_nat fdir 0%Z) by auto. cbn [bind].
        rewrite (fdir_down V Hn). destruct (Hgo H2) as [I' R'].
        set (s1 := Acc (upd (a_cnt s) n (nth n (a_cnt s) 0 + csum (up m))%Z) (upd (a_area s) n (wadd (at_ s n) (at_ s m))) (a_nidp s)).
        assert (I1 : uinv (m :: F) (upd_up up n (up n ++ up m)) (same n) s1).
        { unfold uinv, er, s1. cbn [a_cnt a_area a_nidp]. rewrite <- UP.
          change (uadd (nth n (map (fun _ => tt) (a_area s)) tt) (wsum uadd tt (fun c => nth c units tt) (up m))) with tt in I'. exact I'. }
        assert (V1 : vals (m :: F) (upd_up ins n (ins n ++ [m])) s1) by (eapply vals_visit; eauto).
        destruct (IH _ _ _ s1 n I1 R' V1) as [F' [up' [ins' [s' [E [I'' [V'' [Hin [Hsub Hnew]]]]]]]]].
        { simpl. lia. }
        exists F', up', ins', s'. split.
        { rewrite Hs1 in E. cbn [s1 a_area] in E. rewrite nth_upd_eq in E by lia. exact E. }
        split; auto. split; auto. split; [apply Hsub; now left|].
        split; [intros k Hk; apply Hsub; now right|].
        intros k Hk. destruct (Hnew k Hk) as [[->|H]|[->|H]]; auto.
        right. right. apply (indeg_pos fdir). exists m. split; auto. apply R.
  Qed.

  Definition vouter (ix : nat) (s : acc (W := W)) : Prop := exists F up ins, uinv F up none s /\ vals F ins s /\
    (forall h, h < ix -> indeg fdir h = 0 -> In h F) /\ (forall h, ix <= h -> indeg fdir h = 0 -> ~ In h F).

  Lemma vouter_step fuel ix s : S N <= fuel -> ix < N -> vouter ix s ->
    exists s', (nidp_val <- get (a_nidp s) ix ;;
             if negb (nidp_val =? 0)%Z then Ok s
             else acc_walk wadd fuel fdir s (Z.of_nat ix) 0%Z wzero) = Ok s' /\ vouter (S ix) s'.
  Proof.
    intros Hfu Hix [F [up [ins [I [VL [Hlo Hhi]]]]]]. assert (LA := len_area I). assert (L1 := v_l1 I). assert (L3 := v_l3 I).
    cbn [er a_cnt a_nidp] in L1, L3.
    rewrite (get_nth (a_nidp s) 0%Z) by lia. cbn [bind].
    destruct (Z.eqb_spec (nth ix (a_nidp s) 0%Z) 0%Z) as [E|E]; cbn [negb].
    - assert (E0 := E). apply (v_zero I Hix) in E.
      destruct fuel as [|f]; [lia|]. cbn [acc_walk].
      assert (Hno : forall c, c < N -> d c = ix -> False).
      { intros c Hc Hd. assert (X : 0 < indeg fdir ix) by (apply (indeg_pos fdir); exists c; auto). lia. }
      assert (EV : at_ s ix = nth ix area wzero).
      { destruct (VL ix Hix) as [_ [HI HV]]. destruct (ins ix) as [|m l]; [exact HV|]. exfalso.
        destruct (proj1 (HI m) (or_introl eq_refl)) as [X Y]. apply (Hno m); auto. apply (v_lt I _ X). }
      rewrite (npget_nat (a_cnt s) 0%Z) by lia. cbn [bind].
      rewrite npset_nat by lia. cbn [bind].
      rewrite (npget_nat (a_area s) wzero) by lia. cbn [bind].
      rewrite npset_nat by lia. cbn [bind].
      rewrite (npget_nat _ 0%Z) by (rewrite upd_length; lia). cbn [bind].
      rewrite (npget_nat _ wzero) by (rewrite upd_length; lia). cbn [bind].
      rewrite (npget_nat (a_nidp s) 0%Z) by lia. cbn [bind].
      rewrite nth_upd_eq by lia. rewrite nth_upd_eq by lia.
      rewrite E0. cbn [Z.leb Z.compare].
      rewrite (npget_nat fdir 0%Z) by auto. cbn [bind]. rewrite (fdir_down V Hix).
      rewrite Z.add_0_r.
      assert (EW : wadd (at_ s ix) wzero = at_ s ix) by (rewrite EV; now apply Z0). rewrite EW.
      rewrite (upd_same (a_cnt s)) by (apply nth_error_nth'; lia).
      rewrite (upd_same (a_area s)) by (apply nth_error_nth'; lia).
      assert (EC : nth ix (a_cnt s) 0%Z = csum (up ix)) by exact (v_c I Hix). rewrite EC.
      destruct s as [sc sa sn]. cbn [a_cnt a_area a_nidp] in *.
      destruct (@walk_vals f F up ins (Acc sc sa sn) ix) as [F' [up' [ins' [s' [Ew [I' [V' [Hin [Hsub Hnew]]]]]]]]]; auto.
      + destruct I. constructor; auto.
      + split; auto. split; [apply Hhi; auto|]. split; [intros c Hc Hd; destruct (Hno c Hc Hd)|].
        intros Hcy. destruct (cyc_pred V Hix Hcy) as [p [Hp [Hd _]]]. eauto.
      + lia.
      + exists s'. split; auto. exists F', up', ins'. split; auto. split; auto. split.
        * intros h Hh Hz. destruct (Nat.eq_dec h ix) as [->|]; auto. apply Hsub, Hlo; auto. lia.
        * intros h Hh Hz HF. destruct (Hnew h HF) as [H|[H|H]]; [|lia|lia].
          revert H. apply Hhi; auto. lia.
    - exists s. split; auto. exists F, up, ins. split; auto. split; auto. split.
      + intros h Hh Hz. destruct (Nat.eq_dec h ix) as [->|]; [|apply Hlo; auto; lia].
        exfalso. apply E. now apply (v_zero I).
      + intros h Hh. apply Hhi. lia.
  Qed.

  Lemma run_vals fuel : S N <= fuel -> exists s F up ins, acc_run wadd wzero fuel fdir area = Ok s /\
    uinv F up none s /\ vals F ins s /\ (forall h, h < N -> indeg fdir h = 0 -> In h F).
  Proof.
    intros Hfu. unfold acc_run. destruct (get_nidp_spec V) as [a [E [L H]]]. rewrite E. cbn [bind].
    assert (G : forall k s ix, vouter ix s -> ix + k = N ->
      exists s', foldM (fun s ix => nidp_val <- get (a_nidp s) ix ;;
             if negb (nidp_val =? 0)%Z then Ok s
             else acc_walk wadd fuel fdir s (Z.of_nat ix) 0%Z wzero) (seq ix k) s = Ok s' /\ vouter N s').
    { induction k as [|k IH]; intros s ix HO Hk; simpl.
      - exists s. split; auto. replace N with ix by lia. auto.
      - destruct (@vouter_step fuel ix s Hfu ltac:(lia) HO) as [s1 [E1 O1]]. rewrite E1. cbn [bind].
        apply IH; auto. lia. }
    assert (S0 : vouter 0 (Acc (repeat 1%Z N) area a)).
    { exists [], (fun n => [n]), (fun _ => []). split; [|split; [|split; [intros; lia|intros ? ? ? []]]].
      - constructor; cbn [er a_cnt a_area a_nidp]; auto; try easy; try tauto.
        + constructor.
        + intros n Hn _ _. rewrite H by auto. unfold into, cnt. simpl. lia.
        + intros n Hn. rewrite H by auto. lia.
        + intros n c Hn. split; [intros [->|[]]; auto|intros [->|[m [[] _]]]; now left].
        + intros. repeat constructor. auto.
        + intros n c Hn [<-|[]]. split; auto. exists 0. auto.
        + apply repeat_length.
        + rewrite map_length. exact Larea.
        + intros n Hn. rewrite (nth_indep _ 0%Z 1%Z) by (rewrite repeat_length; auto). now rewrite nth_repeat.
        + intros n Hn. destruct (nth n _ tt). now destruct (wsum _ _ _ _).
      - intros n Hn. split; [constructor|]. split; [|reflexivity]. intros m. split; [intros []|]. intros [[] _]. }
    destruct (G N _ 0 S0 eq_refl) as [s [Es [F [up [ins [I [VL [Hh _]]]]]]]].
    exists s, F, up, ins. auto.
  Qed.
End Rec.
