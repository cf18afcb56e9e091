(** Lemmas for C67 and C68. *)
From Coq Require Import Reals Lra Lia List.
From Verif Require Import Py SpecGeo MGeo.
Set Implicit Arguments.
Unset Strict Implicit.
Local Open Scope R_scope.
Local Open Scope list_scope.

Definition cr (a b : plane) : R := fst a * snd b - snd a * fst b.
Fixpoint chain (a : plane) (l : list plane) : R :=
  match l with [] => 0 | b :: l' => cr a b + chain b l' end.
Definition o0 : plane := (0, 0).
Definition signed2 (p : list plane) : R := chain (last p o0) p.

Lemma fold_sum (f : nat -> R) l a : fold_left (fun a i => a + f i) l a = a + sum (map f l).
Proof.
  revert a. induction l as [|x l IH]; intro a; cbn; [lra|].
  rewrite IH. unfold sum; cbn. lra.
Qed.

Lemma chain_nth l a : sum (map (fun i => cr (nth i (a :: l) o0) (nth i l o0)) (seq 0 (length l))) = chain a l.
Proof.
  revert a. induction l as [|b l IH]; intro a; cbn [length seq map sum fold_right chain]; [reflexivity|].
  rewrite <- (IH b), <- seq_shift, map_map. unfold sum; cbn [fold_right]. reflexivity.
Qed.

Lemma last_nth_ {A} (p : list A) d : nth (length p - 1) p d = last p d.
Proof.
  induction p as [|a p IH]; [reflexivity|].
  destruct p as [|b p]; [reflexivity|].
  change (last (a :: b :: p) d) with (last (b :: p) d). rewrite <- IH.
  cbn. rewrite Nat.sub_0_r. reflexivity.
Qed.

Lemma area_x2_signed p : area_x2 (map fst p) (map snd p) = signed2 p.
Proof.
  unfold area_x2. rewrite map_length, fold_sum, Rplus_0_l.
  unfold signed2. rewrite <- chain_nth. f_equal. apply map_ext_in. intros i Hi. apply in_seq in Hi.
  unfold cr.
  assert (Hf: forall j, nth j (map fst p) 0 = fst (nth j p o0)) by (intro j; exact (map_nth fst p o0 j)).
  assert (Hs: forall j, nth j (map snd p) 0 = snd (nth j p o0)) by (intro j; exact (map_nth snd p o0 j)).
  rewrite !Hf, !Hs.
  assert (Hb: nth (before (length p) i) p o0 = nth i (last p o0 :: p) o0).
  { destruct i as [|i]; cbn; [apply last_nth_|reflexivity]. }
  rewrite Hb. reflexivity.
Qed.

Lemma shoelace_signed p : shoelace p = Rabs (signed2 p / 2).
Proof. unfold shoelace. now rewrite area_x2_signed. Qed.

Lemma shoelace_eq p q : signed2 p = signed2 q -> shoelace p = shoelace q.
Proof. intro H. now rewrite !shoelace_signed, H. Qed.

Lemma shoelace_opp p q : signed2 p = - signed2 q -> shoelace p = shoelace q.
Proof.
  intro H. rewrite !shoelace_signed, H.
  replace (- signed2 q / 2) with (- (signed2 q / 2)) by lra. apply Rabs_Ropp.
Qed.

Lemma last_cons_ {A} (a : A) l d : last (a :: l) d = last l a.
Proof. revert a d. induction l as [|b l IH]; intros; [reflexivity|].
  change (last (a :: b :: l) d) with (last (b :: l) d). rewrite (IH b d), (IH b a). reflexivity. Qed.

Lemma last_app_ {A} (l1 l2 : list A) d : last (l1 ++ l2) d = last l2 (last l1 d).
Proof.
  revert d. induction l1 as [|a l1 IH]; intro d; [reflexivity|].
  cbn [app]. rewrite !last_cons_. apply IH.
Qed.

Lemma last_indep {A} (l : list A) d d' : l <> [] -> last l d = last l d'.
Proof. destruct l as [|a l]; [congruence|]. intros _. now rewrite !last_cons_. Qed.

Lemma chain_app a l1 l2 : chain a (l1 ++ l2) = chain a l1 + chain (last l1 a) l2.
Proof.
  revert a. induction l1 as [|b l1 IH]; intro a; cbn [app chain]; [cbn; lra|].
  rewrite IH, last_cons_. lra.
Qed.

Lemma signed2_rotate l1 l2 : signed2 (l1 ++ l2) = signed2 (l2 ++ l1).
Proof.
  unfold signed2. rewrite !chain_app, !last_app_.
  destruct l1 as [|a l1]; [cbn [last chain]; destruct l2; cbn [chain]; rewrite ?last_cons_; lra|].
  destruct l2 as [|b l2]; [cbn [last chain]; rewrite ?last_cons_; lra|].
  rewrite !last_cons_. lra.
Qed.

Lemma cr_opp a b : cr a b = - cr b a.
Proof. unfold cr. lra. Qed.
Lemma cr_self a : cr a a = 0.
Proof. unfold cr. lra. Qed.

(** reversal *)
Lemma chain_rev a l b : chain a (l ++ [b]) = - chain b (rev l ++ [a]).
Proof.
  revert a b. induction l as [|c l IH]; intros a b.
  - cbn. rewrite (cr_opp a b). lra.
  - cbn [app chain rev]. rewrite (IH c b), <- app_assoc. cbn [app].
    assert (E: chain b (rev l ++ [c; a]) = chain b (rev l ++ [c]) + cr c a).
    { change [c; a] with ([c] ++ [a]). rewrite app_assoc, chain_app, last_app_. cbn. lra. }
    rewrite E, (cr_opp c a). lra.
Qed.

Lemma signed2_cons a l : signed2 (a :: l) = chain a (l ++ [a]).
Proof. unfold signed2. rewrite last_cons_, chain_app. cbn. lra. Qed.

Lemma signed2_rev p : signed2 (rev p) = - signed2 p.
Proof.
  destruct p as [|a l]; [cbn; lra|].
  cbn [rev]. rewrite signed2_rotate. cbn [app]. rewrite !signed2_cons.
  rewrite chain_rev, rev_involutive. lra.
Qed.

(** affine maps *)
Lemma chain_affine a b c d t x l :
  chain (affine a b c d t x) (map (affine a b c d t) l)
  = (a * d - b * c) * chain x l
    + (cr t (affine a b c d t (last l x)) - cr t (affine a b c d t x)).
Proof.
  revert x. induction l as [|y l IH]; intro x; [cbn [map chain last]; lra|].
  rewrite last_cons_. cbn [map chain]. rewrite IH. unfold cr, affine; cbn [fst snd]. ring.
Qed.

Lemma signed2_affine a b c d t p :
  signed2 (map (affine a b c d t) p) = (a * d - b * c) * signed2 p.
Proof.
  destruct p as [|x l]; [cbn; lra|].
  cbn [map]. rewrite !signed2_cons.
  replace (map (affine a b c d t) l ++ [affine a b c d t x]) with (map (affine a b c d t) (l ++ [x]))
    by now rewrite map_app.
  rewrite chain_affine, last_app_. cbn [last]. lra.
Qed.

(** repeated vertices *)
Lemma chain_repeat x k : chain x (repeat x k) = 0.
Proof. induction k as [|k IH]; [reflexivity|]. cbn. rewrite cr_self, IH. lra. Qed.

Lemma last_repeat {A} (x : A) k : last (repeat x k) x = x.
Proof. induction k as [|k IH]; [reflexivity|]. cbn [repeat]. rewrite last_cons_. apply IH. Qed.

Lemma signed2_patch w p : signed2 (patch w p) = signed2 p.
Proof.
  unfold patch, signed2. change (0, 0) with o0. rewrite last_app_, last_repeat, chain_app.
  destruct p as [|a l].
  - cbn [last chain app]. unfold o0. rewrite chain_repeat. lra.
  - rewrite !last_cons_. rewrite chain_repeat. lra.
Qed.

Lemma signed2_repeat l1 x k l2 : signed2 (l1 ++ x :: repeat x k ++ l2) = signed2 (l1 ++ x :: l2).
Proof.
  rewrite signed2_rotate, (signed2_rotate l1). cbn [app]. rewrite !signed2_cons.
  rewrite <- !app_assoc, chain_app, last_repeat, chain_repeat. lra.
Qed.

Lemma signed2_closed a l : signed2 (a :: l ++ [a]) = signed2 (a :: l).
Proof.
  rewrite !signed2_cons, !chain_app, !last_app_. cbn. rewrite cr_self. lra.
Qed.

(** cutting along a diagonal *)
Lemma signed2_cut a l1 b l2 :
  signed2 (a :: l1 ++ b :: l2) = signed2 (a :: l1 ++ [b]) + signed2 (b :: l2 ++ [a]).
Proof.
  rewrite !signed2_cons.
  replace ((l1 ++ b :: l2) ++ [a]) with ((l1 ++ [b]) ++ (l2 ++ [a])) by now rewrite <- !app_assoc.
  replace ((l2 ++ [a]) ++ [b]) with (l2 ++ [a] ++ [b]) by now rewrite app_assoc.
  rewrite (chain_app a (l1 ++ [b]) (l2 ++ [a])), (chain_app a (l1 ++ [b]) [a]), (app_assoc l2),
          (chain_app b (l2 ++ [a]) [b]), !last_app_. cbn [last chain]. rewrite (cr_opp b a). lra.
Qed.

Lemma signed2_triangle a b c : signed2 [a; b; c] = turn a b c.
Proof. unfold signed2, turn; cbn [last chain]; unfold cr. ring. Qed.

Lemma Rabs_add_same x y : 0 <= x * y -> Rabs (x + y) = Rabs x + Rabs y.
Proof.
  intro H. destruct (Rle_dec 0 x) as [Hx|Hx], (Rle_dec 0 y) as [Hy|Hy].
  - rewrite !Rabs_pos_eq by lra. lra.
  - assert (x = 0) by nra. subst. rewrite Rabs_R0, !Rplus_0_l. reflexivity.
  - assert (y = 0) by nra. subst. rewrite Rabs_R0, !Rplus_0_r. reflexivity.
  - rewrite !Rabs_left1 by lra. lra.
Qed.

Lemma dot_pos u : 0 <= dot u u.
Proof. unfold dot. nra. Qed.
Lemma norm_sq u : norm u * norm u = dot u u.
Proof. unfold norm. apply sqrt_sqrt, dot_pos. Qed.
Lemma norm_pos u : 0 <= norm u.
Proof. apply sqrt_pos. Qed.

Lemma triangle_turn a b c : triangle a b c = Rabs (turn a b c) / 2.
Proof.
  unfold triangle, heron.
  set (x := dist a b). set (y := dist b c). set (z := dist c a).
  assert (Hx: x * x = dot (sub b a) (sub b a)) by apply norm_sq.
  assert (Hy: y * y = dot (sub c b) (sub c b)) by apply norm_sq.
  assert (Hz: z * z = dot (sub a c) (sub a c)) by apply norm_sq.
  assert (E: (x + y + z) * (- x + y + z) * (x - y + z) * (x + y - z) = (2 * turn a b c) ^ 2).
  { replace ((x + y + z) * (- x + y + z) * (x - y + z) * (x + y - z))
      with (4 * (x * x) * (y * y) - (x * x + y * y - z * z) ^ 2) by ring.
    rewrite Hx, Hy, Hz. unfold dot, sub, turn; cbn [fst snd]. ring. }
  rewrite E. replace ((2 * turn a b c) ^ 2) with (Rsqr (2 * turn a b c)) by (unfold Rsqr; ring).
  rewrite sqrt_Rsqr_abs, Rabs_mult, (Rabs_pos_eq 2) by lra. lra.
Qed.

Lemma shoelace_triangle a b c : shoelace [a; b; c] = triangle a b c.
Proof.
  rewrite shoelace_signed, signed2_triangle, triangle_turn. unfold Rdiv.
  rewrite Rabs_mult, (Rabs_pos_eq (/ 2)) by lra. reflexivity.
Qed.

(** fans *)
Lemma signed2_fan o l : signed2 (o :: l) = sum (map (fun '(a, b, c) => turn a b c) (fan o l)).
Proof.
  destruct l as [|b l]; [unfold signed2, sum; cbn [last chain map fan fold_right]; unfold cr; lra|].
  revert b. induction l as [|c l IH]; intro b.
  - unfold signed2, sum; cbn [last chain map fan fold_right]; unfold cr; lra.
  - transitivity (turn o b c + signed2 (o :: c :: l)); [|rewrite IH; reflexivity].
    rewrite !signed2_cons. cbn [app chain]. unfold turn, cr. ring.
Qed.

Lemma sum_nonneg l : Forall (fun x => 0 <= x) l -> 0 <= sum l.
Proof. induction 1; unfold sum in *; cbn in *; lra. Qed.

Lemma fan_left o l : left_around o l -> shoelace (o :: l) = sum (map (fun '(a, b, c) => triangle a b c) (fan o l)).
Proof.
  intro H. rewrite shoelace_signed, signed2_fan. unfold left_around in H.
  assert (0 <= sum (map (fun '(a, b, c) => turn a b c) (fan o l))).
  { apply sum_nonneg, Forall_map. eapply Forall_impl; [|exact H]. intros [[? ?] ?]; auto. }
  rewrite Rabs_pos_eq by lra. clear H0. induction H as [|[[a b] c] t Ht H IH]; unfold sum in *; cbn in *; [lra|].
  rewrite triangle_turn, Rabs_pos_eq by auto. lra.
Qed.

Lemma fan_right o l : right_around o l -> shoelace (o :: l) = sum (map (fun '(a, b, c) => triangle a b c) (fan o l)).
Proof.
  intro H. rewrite shoelace_signed, signed2_fan. unfold right_around in H.
  assert (sum (map (fun '(a, b, c) => turn a b c) (fan o l)) <= 0).
  { clear -H. induction H as [|[[a b] c] t Ht H IH]; unfold sum in *; cbn in *; lra. }
  rewrite Rabs_left1 by lra. clear H0. induction H as [|[[a b] c] t Ht H IH]; unfold sum in *; cbn in *; [lra|].
  rewrite triangle_turn, Rabs_left1 by auto. lra.
Qed.

Lemma parallelogram p u v :
  shoelace [p; add p u; add (add p u) v; add p v] = Rabs (fst u * snd v - snd u * fst v).
Proof.
  rewrite shoelace_signed.
  replace (signed2 [p; add p u; add (add p u) v; add p v] / 2) with (fst u * snd v - snd u * fst v); [reflexivity|].
  unfold signed2; cbn [last chain]; unfold cr, add; cbn [fst snd]. lra.
Qed.

Lemma rectangle p u v : dot u v = 0 ->
  shoelace [p; add p u; add (add p u) v; add p v] = norm u * norm v.
Proof.
  intro H. rewrite parallelogram. rewrite <- sqrt_Rsqr_abs. unfold norm. rewrite <- sqrt_mult by apply dot_pos.
  f_equal. unfold Rsqr, dot in *.
  replace ((fst u * fst u + snd u * snd u) * (fst v * fst v + snd v * snd v))
    with ((fst u * snd v - snd u * fst v) * (fst u * snd v - snd u * fst v)
          + (fst u * fst v + snd u * snd v) * (fst u * fst v + snd u * snd v)) by ring.
  rewrite H. ring.
Qed.

(** ** arctan2 *)
Lemma dist_distance a b : distance a b = dist a b.
Proof. unfold distance, dist, norm, dot, sub; cbn [fst snd]. f_equal. ring. Qed.

Lemma sqrt_one_ratio x y : x <> 0 -> sqrt (1 + (y / x) ^ 2) = sqrt (x * x + y * y) / Rabs x.
Proof.
  intro Hx. replace (1 + (y / x) ^ 2) with ((x * x + y * y) / Rsqr x) by (unfold Rsqr; field; auto).
  rewrite sqrt_div_alt by (apply Rsqr_pos_lt; auto).
  now rewrite sqrt_Rsqr_abs.
Qed.

Lemma hyp_pos x y : x <> 0 \/ y <> 0 -> 0 < sqrt (x * x + y * y).
Proof. intro H. apply sqrt_lt_R0. destruct H; nra. Qed.

Lemma arctan2_range x y : - PI < arctan2 y x <= PI.
Proof.
  pose proof PI_RGT_0 as Hpi. unfold arctan2.
  destruct (Rlt_dec 0 x).
  { pose proof (atan_bound (y / x)). lra. }
  destruct (Rlt_dec x 0).
  { pose proof (atan_bound (y / x)) as Hb.
    destruct (Rlt_dec y 0).
    - assert (0 < y / x). { unfold Rdiv. assert (/ x < 0) by (apply Rinv_lt_0_compat; auto). nra. }
      assert (0 < atan (y / x)) by (rewrite <- atan_0; now apply atan_increasing). lra.
    - assert (y / x <= 0). { unfold Rdiv. assert (/ x < 0) by (apply Rinv_lt_0_compat; auto). nra. }
      assert (atan (y / x) <= 0).
      { destruct (Req_dec (y / x) 0) as [->|]; [rewrite atan_0; lra|].
        left. rewrite <- atan_0. apply atan_increasing. lra. }
      lra. }
  destruct (Rlt_dec 0 y); [lra|]. destruct (Rlt_dec y 0); lra.
Qed.

Lemma arctan2_polar x y : x <> 0 \/ y <> 0 ->
  cos (arctan2 y x) = x / sqrt (x * x + y * y) /\ sin (arctan2 y x) = y / sqrt (x * x + y * y).
Proof.
  intro H. pose proof (hyp_pos H) as Hh. unfold arctan2.
  assert (HA: x <> 0 -> cos (atan (y / x)) = Rabs x / sqrt (x * x + y * y)
                       /\ sin (atan (y / x)) = (y / x) * (Rabs x / sqrt (x * x + y * y))).
  { intro Hx. rewrite cos_atan, sin_atan. unfold Rsqr.
    replace (1 + y / x * (y / x)) with (1 + (y / x) ^ 2) by ring.
    rewrite sqrt_one_ratio by auto.
    assert (Rabs x <> 0) by (apply Rabs_no_R0; auto). split; field; repeat split; auto; lra. }
  destruct (Rlt_dec 0 x) as [Hx|Hx].
  { destruct HA as [-> ->]; [lra|]. rewrite Rabs_pos_eq by lra. split; field; lra. }
  destruct (Rlt_dec x 0) as [Hx'|Hx'].
  { destruct HA as [HC HS]; [lra|]. rewrite Rabs_left in HC, HS by lra.
    destruct (Rlt_dec y 0).
    - rewrite cos_minus, sin_minus, cos_PI, sin_PI, HC, HS. split; field; lra.
    - rewrite cos_plus, sin_plus, cos_PI, sin_PI, HC, HS. split; field; lra. }
  assert (x = 0) by lra. subst x.
  replace (0 * 0 + y * y) with (Rsqr y) in * by (unfold Rsqr; ring). rewrite sqrt_Rsqr_abs in *.
  destruct (Rlt_dec 0 y).
  { rewrite cos_PI2, sin_PI2, Rabs_pos_eq by lra. split; field; lra. }
  destruct (Rlt_dec y 0).
  { rewrite cos_neg, sin_neg, cos_PI2, sin_PI2, Rabs_left by lra. split; field; lra. }
  destruct H; lra.
Qed.

Lemma arctan2_00 : arctan2 0 0 = 0.
Proof. unfold arctan2. repeat (destruct (Rlt_dec _ _); try lra). Qed.

Lemma aspect_range a b : 0 <= aspect_of a b < 360.
Proof.
  pose proof PI_RGT_0 as Hpi. unfold aspect_of.
  pose proof (arctan2_range (fst b - fst a) (snd b - snd a)) as Hr.
  set (t := arctan2 _ _) in *.
  assert (E: forall k, t * (180 / PI) - k * 180 = (t - k * PI) * (180 / PI)) by (intro; field; lra).
  assert (Hp: 0 < 180 / PI) by (apply Rdiv_lt_0_compat; lra).
  pose proof (E 1) as E1. pose proof (E (-1)) as E2.
  destruct (Rlt_dec _ 0); nra.
Qed.

Lemma vector_aspect a b : a <> b -> vector_of (aspect_of a b) = direction a b.
Proof.
  intro H. pose proof PI_RGT_0 as Hpi.
  assert (Hn: fst b - fst a <> 0 \/ snd b - snd a <> 0).
  { destruct a as [x y], b as [x' y']; cbn [fst snd].
    destruct (Req_dec (x' - x) 0); [|auto]. right. intro. apply H. f_equal; lra. }
  destruct (arctan2_polar Hn) as [HC HS].
  unfold vector_of, aspect_of, direction, dist, norm, dot, sub; cbn [fst snd].
  set (t := arctan2 _ _) in *.
  assert (E: t * (180 / PI) * (PI / 180) = t) by (field; lra).
  destruct (Rlt_dec _ 0).
  - replace ((t * (180 / PI) + 360) * (PI / 180)) with (t + 2 * PI) by (rewrite Rmult_plus_distr_r, E; field).
    pose proof (cos_period t 1) as Hc. pose proof (sin_period t 1) as Hs. cbn [INR] in Hc, Hs.
    replace (2 * 1 * PI) with (2 * PI) in Hc, Hs by ring. rewrite Hc, Hs.
    now rewrite HC, HS.
  - now rewrite E, HC, HS.
Qed.

Lemma npidx_m2 n : (2 <= n)%nat -> npidx n (-2) = Some (n - 2)%nat.
Proof.
  intro H. unfold npidx. change (0 <=? -2)%Z with false. cbv iota.
  destruct (Z.leb_spec (- Z.of_nat n) (-2)); [|lia]. f_equal. lia.
Qed.

Lemma dist_pos a b : a <> b -> 0 < dist a b.
Proof.
  intro Hne. unfold dist, norm. apply sqrt_lt_R0. unfold dot, sub; cbn [fst snd].
  destruct a as [x y], b as [x' y']; cbn [fst snd].
  assert (H: x' - x <> 0 \/ y' - y <> 0).
  { destruct (Req_dec (x' - x) 0); [|auto]. right. intro. apply Hne. f_equal; lra. }
  set (u := x' - x) in *. set (v := y' - y) in *. clearbody u v. destruct H; nra.
Qed.
