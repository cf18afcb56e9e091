(** C89: the element type of the DEM.  fill_sinks(method="priority") works in a copy of the
    caller's array (dem_conditioning.py 42, 173), so [newdem[c] + eps] is converted back to
    the array's type when it is stored (lines 212, 215, 220): truncated toward zero for
    integer DEMs, rounded to 24 bits for float32 DEMs. *)
From Coq Require Import ZArith QArith Qround Reals Lra Lia String.
From Flocq Require Import Core.Core IEEE754.BinarySingleNaN.
From Verif Require Import Py Spec MFill Grids LFill LFill2 LFill3 PropsFill LFloat32.
Set Implicit Arguments.
Unset Strict Implicit.
Local Open Scope nat_scope.
Local Open Scope list_scope.
Local Notation length := List.length.

(** ** A lost eps: any arithmetic in which adding eps does not change an elevation *)
Section Absorbed.
  Context {T : Type} (E : elev T) (ok : T -> Prop) (rk : T -> Z).
  Variables (iverts nb : list (list nat)) (dem : list T) (eps : T).
  Notation N := (length dem).
  Notation LK := (link nb N).
  Notation RIM := (boundary_cell iverts).

  (** the spill elevation of a cell is at most the larger of its own elevation and the spill
      elevation of any neighbour *)
  Lemma spill_step (L : elev_laws E ok rk eps) m n v w x : Forall ok dem -> ok v -> ok w ->
    is_spill (e_le E) LK RIM dem m v -> is_spill (e_le E) LK RIM dem n w -> LK m n ->
    nth_error dem n = Some x -> (rk w <= Z.max (rk x) (rk v))%Z.
  Proof.
    intros O Ov Ow [[s [l [Hs [Hp Hall]]]] _] [_ W2] K Hx. rewrite Forall_forall in O.
    destruct (W2 s (n :: l) Hs ltac:(econstructor; eauto)) as [k [z [Hk [Hz Hle]]]].
    assert (Oz : ok z) by (apply O; eapply nth_error_In; eauto).
    rewrite (l_le L) in Hle by auto. apply Z.leb_le in Hle. destruct Hk as [<-|Hk].
    - assert (z = x) by congruence. subst. lia.
    - assert (H := Hall k z Hk Hz). rewrite (l_le L) in H by auto. apply Z.leb_le in H. lia.
  Qed.

  (** priority filling is then complete filling, and no raised cell has a lower neighbour:
      none of them drains *)
  Theorem C89_absorbed_eps method fuel :
    flood_method method None -> lower method <> "complete"%string ->
    elev_laws E ok rk eps -> eps_null E ok eps ->
    elev_laws E ok rk (e_zero E) -> eps_null E ok (e_zero E) ->
    Forall ok dem -> grid_of iverts nb N -> N <= fuel ->
    exists out full,
      fill_sinks E fuel iverts nb dem eps None method = Ok out /\
      fill_sinks E fuel iverts nb dem eps None "complete" = Ok full /\
      Forall2 (fun x y => e_eq E x y = true) out full /\
      (forall n x y, reachable LK RIM n -> nth_error dem n = Some x -> nth_error out n = Some y ->
         e_lt E x y = true ->
         (forall m z, LK m n -> reachable LK RIM m -> nth_error out m = Some z -> e_lt E z y = false) /\
         ~ drains (e_lt E) LK RIM out n).
  Proof.
    intros F NC L NU L0 NU0 O G U.
    assert (SE : step_eps E method eps = eps).
    { unfold step_eps. destruct (String.eqb_spec (lower method) "complete"); congruence. }
    assert (L' := L). assert (NU' := NU). rewrite <- SE in L', NU'.
    destruct (flood_facts eps L' O G (mask := None) Logic.I F U) as [out [H1 [H2 [H3 [_ [H4 [_ [H5 [_ [_ H6]]]]]]]]]].
    assert (L0' : elev_laws E ok rk (step_eps E "complete" eps)) by exact L0.
    assert (FC : flood_method "complete" None) by (right; now left).
    destruct (flood_facts eps L0' O G (mask := None) Logic.I FC U) as [full [K1 [K2 [K3 [_ [K4 [_ [_ [_ [_ K6]]]]]]]]]].
    specialize (H5 eq_refl). specialize (H6 eq_refl NU'). specialize (K6 eq_refl NU0).
    assert (SP : forall n y, reachable LK RIM n -> nth_error out n = Some y -> is_spill (e_le E) LK RIM dem n y).
    { intros n y Hr Hy. apply H6; auto. rewrite <- H2. apply nth_error_Some. congruence. }
    assert (OKO : forall n y, nth_error out n = Some y -> ok y).
    { intros n y Hy. rewrite Forall_forall in H3. apply H3. eapply nth_error_In; eauto. }
    exists out, full. split; [exact H1|]. split; [exact K1|]. split.
    - apply Forall2_nth; [congruence|]. intros n x y Hx Hy.
      assert (Hn : n < N) by (rewrite <- H2; apply nth_error_Some; congruence).
      assert (Oy : ok y) by (rewrite Forall_forall in K3; apply K3; eapply nth_error_In; eauto).
      destruct (e_eq E x y) eqn:EQ; auto. exfalso.
      assert (Hr : ~ reachable LK RIM n).
      { intros Hr. assert (X : e_eq E x y = true); [|congruence].
        apply (spill_unique (LK := LK) (SD := RIM) (dem := dem) (n := n) L); eauto. }
      rewrite (H4 n Hn Hr) in Hx. rewrite (K4 n Hn Hr) in Hy. assert (x = y) by congruence. subst y.
      rewrite (l_eq L) in EQ by auto. rewrite Z.eqb_refl in EQ. discriminate.
    - intros n x y Hr Hx Hy Lt.
      assert (Ox : ok x) by (rewrite Forall_forall in O; apply O; eapply nth_error_In; eauto).
      assert (LOW : forall m z, LK m n -> reachable LK RIM m -> nth_error out m = Some z -> e_lt E z y = false).
      { intros m z K Hm Hz. destruct (e_lt E z y) eqn:D; auto. exfalso.
        rewrite (l_lt L) in Lt, D by eauto. apply Z.ltb_lt in Lt, D.
        assert (X := @spill_step L m n z y x O ltac:(eauto) ltac:(eauto) (SP m z Hm Hz) (SP n y Hr Hy) K Hx). lia. }
      split; auto. intros D. inversion D as [s Hs|c k a b Dc K Ha Hb Hab]; subst.
      + assert (X := H5 _ Hs). rewrite Hx, Hy in X. inversion X; subst. rewrite (l_lt L) in Lt by auto.
        apply Z.ltb_lt in Lt. lia.
      + assert (b = y) by congruence. subst b.
        assert (RC : reachable LK RIM c).
        { clear -Dc. induction Dc as [s Hs|c n x y _ IH K _ _ _].
          - exists s, [s]. split; auto. constructor.
          - destruct IH as [s [l [Hs Hp]]]. exists s, (n :: l). split; auto. econstructor; eauto. }
        rewrite (LOW c a K RC Ha) in Hab. discriminate.
  Qed.
End Absorbed.

(** ** Integer DEMs.  Elevations are the integers among the rationals; storing a rational
    in an integer array truncates it toward zero. *)
Definition trunc (x : Q) : Z := if Qle_bool 0 x then Qfloor x else Qceiling x.
Definition int_elev : elev Q :=
  Elev Qle_bool (fun x y => negb (Qle_bool y x)) Qeq_bool
       (fun x e => inject_Z (trunc (x + e))) 0%Q (inject_Z 10000000000).
Definition whole (x : Q) : Prop := (x == inject_Z (trunc x))%Q.

Lemma trunc_Z k : trunc (inject_Z k) = k.
Proof. unfold trunc. destruct (Qle_bool _ _); [apply Qfloor_Z|apply Qceiling_Z]. Qed.
Lemma trunc_le x y : (x <= y)%Q -> (trunc x <= trunc y)%Z.
Proof.
  intros H. unfold trunc. destruct (Qle_bool 0 x) eqn:A, (Qle_bool 0 y) eqn:B.
  - now apply Qfloor_resp_le.
  - apply Qle_bool_iff in A. assert (X : Qle_bool 0 y = true) by (apply Qle_bool_iff; eapply Qle_trans; eauto). congruence.
  - assert (X : (Qceiling x <= 0)%Z).
    { rewrite <- (Qceiling_Z 0). apply Qceiling_resp_le. apply Qlt_le_weak. apply Qnot_le_lt. intros Y.
      apply Qle_bool_iff in Y. change (inject_Z 0) with 0%Q in Y. congruence. }
    assert (Y : (0 <= Qfloor y)%Z).
    { rewrite <- (Qfloor_Z 0). apply Qfloor_resp_le. apply Qle_bool_iff. exact B. }
    lia.
  - now apply Qceiling_resp_le.
Qed.
Lemma whole_Z k : whole (inject_Z k).
Proof. unfold whole. rewrite trunc_Z. reflexivity. Qed.

(** filling an integer DEM obeys the laws (so C01, C02, C05, C07 and the non-strict part of
    C03 hold) for every eps >= 0 *)
Theorem int_laws : forall eps, (0 <= eps)%Q -> elev_laws int_elev whole trunc eps.
Proof.
  intros eps He.
  assert (LE : forall x y, whole x -> whole y -> Qle_bool x y = (trunc x <=? trunc y)%Z).
  { intros x y Hx Hy. unfold whole in *. destruct (Z.leb_spec (trunc x) (trunc y)) as [L|L].
    - apply Qle_bool_iff. rewrite Hx, Hy. rewrite <- Zle_Qle. exact L.
    - destruct (Qle_bool x y) eqn:D; auto. exfalso. apply Qle_bool_iff in D. rewrite Hx, Hy in D. rewrite <- Zle_Qle in D. lia. }
  constructor; cbn [int_elev e_le e_lt e_eq e_add e_big].
  - exact LE.
  - intros x y Hx Hy. rewrite LE by auto. rewrite Z.ltb_antisym. reflexivity.
  - intros x y Hx Hy. unfold whole in *. destruct (Z.eqb_spec (trunc x) (trunc y)) as [L|L].
    + apply Qeq_bool_iff. rewrite Hx, Hy, L. reflexivity.
    + destruct (Qeq_bool x y) eqn:D; auto. exfalso. apply Qeq_bool_iff in D. apply L. apply Z.le_antisymm; apply trunc_le; rewrite D; apply Qle_refl.
  - intros. apply whole_Z.
  - intros x Hx. rewrite trunc_Z. apply trunc_le. rewrite <- (Qplus_0_r x) at 1. apply Qplus_le_r. exact He.
  - intros x y Hx Hy L. rewrite !trunc_Z. apply trunc_le. apply Qplus_le_l. unfold whole in *. rewrite Hx, Hy. now rewrite <- Zle_Qle.
  - apply whole_Z.
Qed.

(** what one step of the fill does to an integer elevation, for 0 < eps < 1 *)
Theorem C89_integer_step : forall eps k, (0 < eps)%Q -> (eps < 1)%Q ->
  ((0 <= k)%Z -> e_add int_elev (inject_Z k) eps = inject_Z k) /\
  ((k < 0)%Z -> e_add int_elev (inject_Z k) eps = inject_Z (k + 1)).
Proof.
  intros eps k H0 H1. cbn [int_elev e_add]. split; intros Hk; f_equal; unfold trunc.
  - replace (Qle_bool 0 (inject_Z k + eps)) with true.
    + apply Z.le_antisymm.
      * assert (X : (Qfloor (inject_Z k + eps) < k + 1)%Z); [|lia].
        rewrite Zlt_Qlt. eapply Qle_lt_trans; [apply Qfloor_le|]. rewrite inject_Z_plus. apply Qplus_lt_r. exact H1.
      * rewrite <- (Qfloor_Z k) at 1. apply Qfloor_resp_le. rewrite <- (Qplus_0_r (inject_Z k)) at 1.
        apply Qplus_le_r. now apply Qlt_le_weak.
    + symmetry. apply Qle_bool_iff. apply (Qplus_le_compat 0 (inject_Z k) 0 eps); [|now apply Qlt_le_weak].
      change 0%Q with (inject_Z 0). now rewrite <- Zle_Qle.
  - destruct (Qle_bool 0 (inject_Z k + eps)) eqn:D.
    + exfalso. apply Qle_bool_iff in D. apply (Qle_not_lt _ _ D).
      apply Qlt_le_trans with (inject_Z k + 1)%Q; [apply Qplus_lt_r; exact H1|].
      change 1%Q with (inject_Z 1). rewrite <- inject_Z_plus. change 0%Q with (inject_Z 0). rewrite <- Zle_Qle. lia.
    + apply Z.le_antisymm.
      * rewrite <- (Qceiling_Z (k + 1)). apply Qceiling_resp_le. rewrite inject_Z_plus. apply Qplus_le_r. now apply Qlt_le_weak.
      * assert (X : (k < Qceiling (inject_Z k + eps))%Z); [|lia].
        rewrite Zlt_Qlt. eapply Qlt_le_trans; [|apply Qle_ceiling]. rewrite <- (Qplus_0_r (inject_Z k)) at 1.
        apply Qplus_lt_r. exact H0.
Qed.

Definition nonneg (x : Q) : Prop := whole x /\ (0 <= x)%Q.
Lemma add_nonneg eps x : (0 <= eps)%Q -> (eps < 1)%Q -> nonneg x -> trunc (x + eps) = trunc x.
Proof.
  intros H0 H1 [Hx P]. unfold whole in Hx.
  assert (K : (0 <= trunc x)%Z) by (rewrite Zle_Qle, <- Hx; exact P).
  assert (E : trunc (x + eps) = trunc (inject_Z (trunc x) + eps)).
  { apply Z.le_antisymm; apply trunc_le; rewrite <- Hx; apply Qle_refl. }
  rewrite E. destruct (Qlt_le_dec 0 eps) as [G|G].
  - destruct (@C89_integer_step eps (trunc x) G H1) as [S _]. specialize (S K). cbn [int_elev e_add] in S.
    apply (f_equal trunc) in S. now rewrite !trunc_Z in S.
  - assert (Z0 : (eps == 0)%Q) by (apply Qle_antisym; auto).
    rewrite <- (trunc_Z (trunc x)) at 2. apply Z.le_antisymm; apply trunc_le; rewrite Z0, Qplus_0_r; apply Qle_refl.
Qed.
Theorem int_nonneg_laws : forall eps, (0 <= eps)%Q -> (eps < 1)%Q ->
  elev_laws int_elev nonneg trunc eps /\ eps_null int_elev nonneg eps.
Proof.
  intros eps H0 H1. assert (L := int_laws H0).
  assert (A : forall x, nonneg x -> nonneg (e_add int_elev x eps)).
  { intros x Hx. cbn [int_elev e_add]. rewrite (add_nonneg H0 H1 Hx). destruct Hx as [Hx P]. split; [apply whole_Z|].
    unfold whole in Hx. rewrite <- Hx. exact P. }
  split; [constructor|].
  - intros x y [Hx _] [Hy _]. now apply (l_le L).
  - intros x y [Hx _] [Hy _]. now apply (l_lt L).
  - intros x y [Hx _] [Hy _]. now apply (l_eq L).
  - exact A.
  - intros x [Hx _]. now apply (l_up L).
  - intros x y [Hx _] [Hy _]. now apply (l_mono L).
  - split; [apply whole_Z|]. now vm_compute.
  - intros x Hx. cbn [int_elev e_add e_eq]. apply Qeq_bool_iff. rewrite (add_nonneg H0 H1 Hx). destruct Hx as [Hx _]. symmetry. exact Hx.
Qed.

(** an integer DEM without negative elevations, any grid and any 0 <= eps < 1: the cells that
    priority filling raises have no lower neighbour, so none of them drains to the rim *)
Theorem C89_integer_refuted : forall iverts nb (dem : list Z) eps fuel n x y,
  let N := length dem in let idem := map inject_Z dem in
  (0 <= eps)%Q -> (eps < 1)%Q -> Forall (fun z => 0 <= z)%Z dem -> grid_of iverts nb N -> N <= fuel ->
  exists out full,
    fill_sinks int_elev fuel iverts nb idem eps None "priority" = Ok out /\
    fill_sinks int_elev fuel iverts nb idem eps None "complete" = Ok full /\
    Forall2 Qeq out full /\
    (reachable (link nb N) (boundary_cell iverts) n -> nth_error dem n = Some x -> nth_error out n = Some y ->
     (inject_Z x < y)%Q ->
     (forall m z, link nb N m n -> reachable (link nb N) (boundary_cell iverts) m -> nth_error out m = Some z -> (y <= z)%Q) /\
     ~ drains (fun a b => negb (Qle_bool b a)) (link nb N) (boundary_cell iverts) out n).
Proof.
  intros iverts nb dem eps fuel n x y N idem H0 H1 P G U.
  destruct (int_nonneg_laws H0 H1) as [L NU].
  destruct (@int_nonneg_laws 0%Q (Qle_refl _) eq_refl) as [L0 NU0].
  assert (LN : length idem = N) by apply map_length.
  assert (O : Forall nonneg idem).
  { apply Forall_map. eapply Forall_impl; [|exact P]. intros z Hz. split; [apply whole_Z|].
    change 0%Q with (inject_Z 0). now rewrite <- Zle_Qle. }
  assert (F : flood_method "priority" None) by now left.
  rewrite <- LN in G, U.
  destruct (C89_absorbed_eps F ltac:(discriminate) L NU L0 NU0 O G U) as [out [full [A [B [C D]]]]].
  exists out, full. split; [exact A|]. split; [exact B|]. split.
  - clear -C. induction C as [|a b l l' H _ IH]; constructor; auto. now apply Qeq_bool_iff.
  - intros Hr Hx Hy Lt. rewrite LN in D. destruct (D n (inject_Z x) y Hr) as [D1 D2]; auto.
    + unfold idem. erewrite map_nth_error; eauto.
    + cbn [int_elev e_lt]. apply negb_true_iff. destruct (Qle_bool y (inject_Z x)) eqn:E; auto. apply Qle_bool_iff in E.
      exfalso. now apply (Qlt_not_le _ _ Lt).
    + split; [|exact D2]. intros m z K Hm Hz. specialize (D1 m z K Hm Hz). cbn [int_elev e_lt] in D1.
      apply negb_false_iff in D1. now apply Qle_bool_iff.
Qed.

(** a whole-number eps (>= 1) works on integers of either sign *)
Theorem C89_whole_eps : forall iverts nb (dem : list Z) eps fuel,
  let N := length dem in
  (1 <= eps)%Q -> grid_of iverts nb N -> N <= fuel ->
  exists out, fill_sinks int_elev fuel iverts nb (map inject_Z dem) eps None "priority" = Ok out /\
    forall n, n < N -> reachable (link nb N) (boundary_cell iverts) n ->
      drains (fun a b => negb (Qle_bool b a)) (link nb N) (boundary_cell iverts) out n.
Proof.
  intros iverts nb dem eps fuel N H1 G U.
  assert (H0 : (0 <= eps)%Q) by (eapply Qle_trans; [|exact H1]; now vm_compute).
  assert (LN : length (map inject_Z dem) = N) by apply map_length.
  assert (O : Forall whole (map inject_Z dem)) by (apply Forall_map, Forall_forall; intros; apply whole_Z).
  assert (F : flood_method "priority" None) by now left.
  rewrite <- LN in G, U.
  assert (L : elev_laws int_elev whole trunc (step_eps int_elev "priority" eps)) by exact (int_laws H0).
  destruct (flood_facts eps L O G (mask := None) Logic.I F U) as [o [E [_ [OK _]]]].
  destruct (C03_priority_removes_sinks eps L O G F U) as [out [A [_ B]]].
  assert (o = out) by congruence. subst o. exists out. split; [exact A|]. rewrite LN in B. apply B.
  intros x Hx. rewrite Forall_forall in OK. specialize (OK x Hx). rewrite (l_lt L); [|exact OK|apply (l_ok L), OK].
  apply Z.ltb_lt. change (step_eps int_elev "priority" eps) with eps. cbn [int_elev e_add]. rewrite trunc_Z. unfold whole in OK.
  assert (X : (trunc (inject_Z (trunc x) + 1) <= trunc (x + eps))%Z).
  { apply trunc_le. rewrite <- OK. apply Qplus_le_r. exact H1. }
  change 1%Q with (inject_Z 1) in X. rewrite <- inject_Z_plus, trunc_Z in X. lia.
Qed.

(** ** float32 DEMs: elevations of 64 and more, the default eps 2e-06 (and any below 2^-18) *)
Theorem C89_float32_refuted : forall iverts nb (dem : list b32) eps fuel,
  let N := length dem in
  finite eps -> (0 <= val eps < bpow radix2 (-18))%R -> Forall high dem -> grid_of iverts nb N -> N <= fuel ->
  exists out full,
    fill_sinks F32elev fuel iverts nb dem eps None "priority" = Ok out /\
    fill_sinks F32elev fuel iverts nb dem eps None "complete" = Ok full /\
    Forall2 (fun x y => f_eq x y = true) out full /\
    (forall n x y, reachable (link nb N) (boundary_cell iverts) n -> nth_error dem n = Some x -> nth_error out n = Some y ->
     f_lt x y = true ->
     (forall m z, link nb N m n -> reachable (link nb N) (boundary_cell iverts) m -> nth_error out m = Some z -> f_lt z y = false) /\
     ~ drains f_lt (link nb N) (boundary_cell iverts) out n).
Proof.
  intros iverts nb dem eps fuel N Fe He O G U.
  destruct (b32_high_laws Fe He) as [L NU].
  assert (Z0 : finite (e_zero F32elev) /\ (0 <= val (e_zero F32elev) < bpow radix2 (-18))%R).
  { split; [reflexivity|]. cbn [F32elev e_zero f_zero B2R]. split; [lra|apply bpow_gt_0]. }
  destruct (b32_high_laws (proj1 Z0) (proj2 Z0)) as [L0 NU0].
  assert (F : flood_method "priority" None) by now left.
  exact (C89_absorbed_eps F ltac:(discriminate) L NU L0 NU0 O G U).
Qed.

Module Ex.
  Local Open Scope Z_scope.
  Definition iv := quad_iverts 3 3.
  Definition nb := queen 3 3.
  Lemma grid_ok : grid_of iv nb 9.
  Proof. split; [reflexivity|]. split; [|vm_compute; lia].
    apply Forall_forall. intros p Hp. vm_compute in Hp. repeat destruct Hp as [<-|Hp]; try discriminate. destruct Hp. Qed.
  (* a one-cell pit (2) in a 3x3 grid of 5s with one 4 in the rim; eps = 2e-06 *)
  Definition dem : list Z := [5;5;5; 5;2;5; 5;4;5].
  Definition eps : Q := 2 # 1000000.
  Example run : fill_sinks int_elev 9 iv nb (map inject_Z dem) eps None "priority" =
    Ok (map inject_Z [5;5;5; 5;4;5; 5;4;5]).
  Proof. vm_compute. reflexivity. Qed.
  (* the same pit 10 lower: eps = 2e-06 raises the cell by a whole unit above the outlet *)
  Example run_negative : fill_sinks int_elev 9 iv nb (map inject_Z (map (fun z => z - 10) dem)) eps None "priority" =
    Ok (map inject_Z (map (fun z => z - 10) [5;5;5; 5;5;5; 5;4;5])).
  Proof. vm_compute. reflexivity. Qed.
  Example refuted_case := @C89_integer_refuted iv nb dem eps 9 4%nat 2 4 ltac:(now vm_compute) ltac:(now vm_compute)
    ltac:(repeat constructor; lia) grid_ok (le_n 9).
  Lemma centre_reachable : reachable (link nb 9) (boundary_cell iv) 4.
  Proof.
    exists 7%nat, [4;7]%nat. split.
    - destruct (C13_edge_cells (iverts := iv)) as [l [E [_ H]]]; [apply grid_ok|]. vm_compute in E. inversion E; subst l. apply H. simpl. tauto.
    - eapply gp_step; [apply gp_start|]. split; [|lia]. eexists. split; [vm_compute; reflexivity|]. simpl. tauto.
  Qed.
  (** the outcome on this grid: cell 4 ends level with the outlet and does not drain *)
  Theorem C89_pit_left : ~ drains (fun a b => negb (Qle_bool b a)) (link nb 9) (boundary_cell iv)
      (map inject_Z [5;5;5; 5;4;5; 5;4;5]) 4.
  Proof.
    destruct refuted_case as [out [full [A [_ [_ D]]]]]. cbv zeta in *. rewrite run in A. inversion A; subst out.
    apply D; [exact centre_reachable|reflexivity|reflexivity|now vm_compute].
  Qed.
  (* whole eps: fine *)
  Example run_whole : fill_sinks int_elev 9 iv nb (map inject_Z dem) 1%Q None "priority" =
    Ok (map inject_Z [5;5;5; 5;5;5; 5;4;5]).
  Proof. vm_compute. reflexivity. Qed.

  (* float32: 100, 100, ... with a pit at 90 *)
  Definition f (m : positive) : SpecFloat.bounded 24 128 m (-17) = true -> b32 := fun B => @B754_finite 24 128 false m (-17) B.
  Definition f100 : b32 := f (m := 13107200) eq_refl.
  Definition f90 : b32 := f (m := 11796480) eq_refl.
  Definition fdem : list b32 := [f100;f100;f100; f100;f90;f100; f100;f100;f100].
  Lemma fdem_high : Forall high fdem.
  Proof.
    assert (H1 : high f100) by (split; [reflexivity|]; unfold f100, f, B2R, F2R; cbn [Fnum Fexp cond_Zopp]; cbn [bpow Z.pow_pos Pos.iter radix2 radix_val Z.mul Pos.mul]; lra).
    assert (H2 : high f90) by (split; [reflexivity|]; unfold f90, f, B2R, F2R; cbn [Fnum Fexp cond_Zopp]; cbn [bpow Z.pow_pos Pos.iter radix2 radix_val Z.mul Pos.mul]; lra).
    unfold fdem. repeat (apply Forall_cons; [first [exact H1|exact H2]|]). apply Forall_nil.
  Qed.
  Example float32_run : match fill_sinks F32elev 9 iv nb fdem f_eps None "priority" with
    | Ok l => map (@B2SF 24 128) l | Err _ => [] end = map (@B2SF 24 128) (repeat f100 9).
  Proof. vm_compute. reflexivity. Qed.
  Example float32_case := C89_float32_refuted (proj1 f_eps_small) (proj2 f_eps_small) fdem_high grid_ok (le_n 9).
End Ex.
