(** C67, C68, C73, C74: areas, slopes, aspects and flow vectors (exact real arithmetic). *)
From Coq Require Import Reals Lra Lia List.
From Verif Require Import Py SpecGeo MGeo LGeo.
Set Implicit Arguments.
Unset Strict Implicit.
Local Open Scope R_scope.
Local Open Scope list_scope.

(** ** C67 *)
(** every cell gets the area of its own polygon, whatever the other cells look like (flopy pads
    the vertex lists to the length of the longest) *)
Theorem C67_areas_of_cells : forall cells, cell_areas cells = map shoelace cells.
Proof. intro cells. unfold cell_areas. apply map_ext. intro p. apply shoelace_eq, signed2_patch. Qed.

Theorem C67_start_vertex : forall l1 l2, shoelace (l1 ++ l2) = shoelace (l2 ++ l1).
Proof. intros. apply shoelace_eq, signed2_rotate. Qed.

Theorem C67_orientation : forall p, shoelace (rev p) = shoelace p.
Proof. intro. apply shoelace_opp, signed2_rev. Qed.

(** translations, rotations, reflections, scalings and all other affine maps *)
Theorem C67_affine : forall a b c d t p,
  shoelace (map (affine a b c d t) p) = Rabs (a * d - b * c) * shoelace p.
Proof.
  intros. rewrite !shoelace_signed, signed2_affine, <- Rabs_mult. f_equal. lra.
Qed.

Theorem C67_position : forall t p, shoelace (map (add t) p) = shoelace p.
Proof.
  intros. rewrite <- (Rmult_1_l (shoelace p)).
  replace (map (add t) p) with (map (affine 1 0 0 1 t) p).
  - rewrite C67_affine. replace (1 * 1 - 0 * 0) with 1 by ring. now rewrite Rabs_R1.
  - apply map_ext. intros [x y]. unfold affine, add; cbn [fst snd]. f_equal; ring.
Qed.

Theorem C67_quadratic_scaling : forall k p,
  shoelace (map (fun q => (k * fst q, k * snd q)) p) = k * k * shoelace p.
Proof.
  intros.
  replace (map _ p) with (map (affine k 0 0 k (0, 0)) p).
  - rewrite C67_affine. replace (k * k - 0 * 0) with (k * k) by ring.
    rewrite Rabs_pos_eq by nra. reflexivity.
  - apply map_ext. intros [x y]. unfold affine; cbn [fst snd]. f_equal; ring.
Qed.

Theorem C67_repeated_vertex : forall l1 x k l2,
  shoelace (l1 ++ x :: repeat x k ++ l2) = shoelace (l1 ++ x :: l2).
Proof. intros. apply shoelace_eq, signed2_repeat. Qed.

Theorem C67_closed_polygon : forall a l, shoelace (a :: l ++ [a]) = shoelace (a :: l).
Proof. intros. apply shoelace_eq, signed2_closed. Qed.

(** triangles: Heron's formula in the lengths of the sides *)
Theorem C67_triangle : forall a b c, shoelace [a; b; c] = triangle a b c.
Proof. exact shoelace_triangle. Qed.

(** a polygon that turns one way as seen from one of its vertices (every convex polygon does, from
    each of its vertices) has the area of its triangles *)
Theorem C67_polygon_of_triangles : forall o l,
  left_around o l \/ right_around o l ->
  shoelace (o :: l) = sum (map (fun '(a, b, c) => triangle a b c) (fan o l)).
Proof. intros o l [H|H]; [now apply fan_left|now apply fan_right]. Qed.

(** cutting along a diagonal *)
Theorem C67_cut : forall a l1 b l2,
  left_around a (l1 ++ [b]) /\ left_around b (l2 ++ [a]) \/
  right_around a (l1 ++ [b]) /\ right_around b (l2 ++ [a]) ->
  shoelace (a :: l1 ++ b :: l2) = shoelace (a :: l1 ++ [b]) + shoelace (b :: l2 ++ [a]).
Proof.
  intros a l1 b l2 H. rewrite !shoelace_signed, signed2_cut.
  replace ((signed2 (a :: l1 ++ [b]) + signed2 (b :: l2 ++ [a])) / 2)
    with (signed2 (a :: l1 ++ [b]) / 2 + signed2 (b :: l2 ++ [a]) / 2) by lra.
  apply Rabs_add_same. rewrite !signed2_fan.
  assert (HL: forall o l, left_around o l -> 0 <= sum (map (fun '(a, b, c) => turn a b c) (fan o l))).
  { intros o l X. unfold left_around in X. induction X as [|[[? ?] ?] t Ht X IH]; unfold sum in *; cbn in *; lra. }
  assert (HR: forall o l, right_around o l -> sum (map (fun '(a, b, c) => turn a b c) (fan o l)) <= 0).
  { intros o l X. unfold right_around in X. induction X as [|[[? ?] ?] t Ht X IH]; unfold sum in *; cbn in *; lra. }
  destruct H as [[H1 H2]|[H1 H2]]; [apply HL in H1, H2|apply HR in H1, H2]; nra.
Qed.

Theorem C67_rectangle : forall p u v, dot u v = 0 ->
  shoelace [p; add p u; add (add p u) v; add p v] = norm u * norm v.
Proof. exact rectangle. Qed.

Corollary C67_axis_rectangle : forall x y w h, 0 <= w -> 0 <= h ->
  shoelace [(x, y); (x + w, y); (x + w, y + h); (x, y + h)] = w * h.
Proof.
  intros x y w h Hw Hh.
  replace [(x, y); (x + w, y); (x + w, y + h); (x, y + h)]
    with (let p := (x, y) in let u := (w, 0) in let v := (0, h) in [p; add p u; add (add p u) v; add p v]).
  - cbv zeta. rewrite rectangle by (unfold dot; cbn [fst snd]; ring). unfold norm, dot; cbn [fst snd].
    replace (w * w + 0 * 0) with (Rsqr w) by (unfold Rsqr; ring).
    replace (0 * 0 + h * h) with (Rsqr h) by (unfold Rsqr; ring).
    rewrite !sqrt_Rsqr by auto. reflexivity.
  - cbv zeta. unfold add; cbn [fst snd]. rewrite !Rplus_0_r. reflexivity.
Qed.

(** worked case: an L-shaped (non-convex) hexagon of area 3 next to a triangle; the triangle's
    vertex list is padded to six *)
Example C67_worked :
  cell_areas [[(0, 0); (2, 0); (2, 1); (1, 1); (1, 2); (0, 2)]; [(2, 0); (4, 0); (2, 3)]] = [3; 3].
Proof.
  rewrite C67_areas_of_cells. cbn [map]. rewrite !shoelace_signed.
  unfold signed2; cbn [last chain]; unfold cr; cbn [fst snd].
  repeat f_equal; rewrite Rabs_pos_eq; lra.
Qed.
(** the hypothesis of C67_polygon_of_triangles holds for that hexagon seen from its corner *)
Example C67_worked_fan : left_around (0, 0) [(2, 0); (2, 1); (1, 1); (1, 2); (0, 2)].
Proof. unfold left_around, turn; cbn [fan fst snd]. repeat constructor; cbn; lra. Qed.
Example C67_worked_cut :
  left_around (0, 0) ([(2, 0); (2, 1)] ++ [(1, 1)]) /\ left_around (1, 1) ([(1, 2); (0, 2)] ++ [(0, 0)]).
Proof. unfold left_around, turn; cbn [fan fst snd app]. split; repeat constructor; cbn; lra. Qed.

(** ** C68 *)
Lemma aspect_nth centers fdir asp :
  aspect centers fdir = Ok asp -> length centers = length fdir ->
  length asp = length fdir /\
  forall c k, (c < length fdir)%nat -> npidx (length centers) (nth c fdir 0%Z) = Some k ->
    nth c asp 0 = aspect_of (nth c centers (0, 0)) (nth k centers (0, 0)).
Proof.
  unfold aspect. intros H HL.
  set (g := fun p : point * Z =>
              aspect_of (fst p) (nth (match npidx (length centers) (snd p) with Some k => k | None => 0%nat end) centers (0, 0))).
  assert (HG: forall l l', mapM (fun p => there <- npget centers (snd p);; Ok (aspect_of (fst p) there)) l = Ok l' -> l' = map g l).
  { induction l as [|p l IH]; cbn; intros l' Hl; [congruence|].
    destruct (npget centers (snd p)) as [th|] eqn:Eg; cbn in Hl; [|discriminate].
    destruct (mapM _ l) as [t|] eqn:Et; cbn in Hl; [|discriminate].
    rewrite (IH _ eq_refl) in Hl. inversion Hl. f_equal. unfold g.
    unfold npget in Eg. destruct (npidx _ _) as [k|] eqn:Ek; [|discriminate].
    apply get_ok in Eg. erewrite nth_error_nth by exact Eg. reflexivity. }
  apply HG in H. subst asp. split; [rewrite map_length, combine_length; lia|].
  intros c k Hc Hk.
  rewrite nth_indep with (d' := g ((0, 0), 0%Z)) by (rewrite map_length, combine_length; lia).
  rewrite map_nth, combine_nth by auto. unfold g; cbn [fst snd]. now rewrite Hk.
Qed.

(** the answer exists whenever the flow directions are cell numbers or -2 *)
Theorem C68_succeeds : forall centers fdir, length centers = length fdir ->
  (2 <= length fdir)%nat ->
  Forall (fun d => d = (-2)%Z \/ (0 <= d < Z.of_nat (length fdir))%Z) fdir ->
  exists asp vec, aspect centers fdir = Ok asp /\ vectors centers fdir = Ok vec.
Proof.
  intros centers fdir HL H2 HF.
  enough (exists asp, aspect centers fdir = Ok asp) as [asp Ha].
  { exists asp, (map vector_of asp). unfold vectors. now rewrite Ha. }
  unfold aspect.
  assert (HN: Forall (fun p : point * Z => exists t, npget centers (snd p) = Ok t) (combine centers fdir)).
  { apply Forall_forall. intros [q d] Hq. apply in_combine_r in Hq.
    rewrite Forall_forall in HF. cbn [snd]. unfold npget.
    assert (Hk: exists k, npidx (length centers) d = Some k).
    { destruct (HF _ Hq) as [->|Hd].
      - rewrite npidx_m2 by lia. eauto.
      - rewrite npidx_pos by (rewrite HL; auto). eauto. }
    destruct Hk as [k Hk]. rewrite Hk. pose proof (npidx_lt _ _ Hk).
    rewrite get_nth with (d := (0, 0)) by auto. eauto. }
  revert HN. generalize (combine centers fdir). intros l HN.
  induction HN as [|p l [t Ht] HN [asp IH]]; cbn; [eauto|].
  rewrite Ht; cbn. rewrite IH; cbn. eauto.
Qed.

Theorem C68_aspect_range : forall centers fdir asp c,
  length centers = length fdir -> aspect centers fdir = Ok asp -> 0 <= nth c asp 0 < 360.
Proof.
  intros centers fdir asp c HL H. unfold aspect in H.
  revert asp H c. generalize (combine centers fdir).
  induction l as [|p l IH]; cbn; intros asp H c; [inversion H; destruct c; cbn; lra|].
  destruct (npget _ _); cbn in H; [|discriminate].
  destruct (mapM _ l) as [t|] eqn:Et; cbn in H; [|discriminate]. inversion H; subst.
  destruct c as [|c]; cbn; [apply aspect_range|apply (IH _ eq_refl)].
Qed.

Lemma vectors_nth centers fdir vec c k :
  length centers = length fdir -> vectors centers fdir = Ok vec ->
  (c < length fdir)%nat -> npidx (length centers) (nth c fdir 0%Z) = Some k ->
  nth c vec (0, 0) = vector_of (aspect_of (nth c centers (0, 0)) (nth k centers (0, 0))).
Proof.
  unfold vectors. intros HL H Hc Hk. apply bind_ok in H. destruct H as (asp & Ha & Hv).
  inversion Hv; subst. destruct (aspect_nth Ha HL) as [HLa Hn].
  rewrite nth_indep with (d' := vector_of 0) by (rewrite map_length; lia).
  rewrite map_nth. now rewrite (Hn c k).
Qed.

(** a cell that flows to another cell gets the unit vector towards it *)
Theorem C68_vectors_point_downstream : forall centers fdir vec c d,
  length centers = length fdir -> vectors centers fdir = Ok vec ->
  (c < length fdir)%nat -> nth c fdir 0%Z = Z.of_nat d -> (d < length fdir)%nat ->
  nth c centers (0, 0) <> nth d centers (0, 0) ->
  nth c vec (0, 0) = direction (nth c centers (0, 0)) (nth d centers (0, 0)) /\
  norm (nth c vec (0, 0)) = 1.
Proof.
  intros centers fdir vec c d HL H Hc Hd Hd' Hne.
  assert (Hk: npidx (length centers) (nth c fdir 0%Z) = Some d) by (rewrite Hd; apply npidx_nat; lia).
  rewrite (vectors_nth HL H Hc Hk). rewrite vector_aspect by auto. split; [reflexivity|].
  pose proof (dist_pos Hne) as Hp.
  unfold norm at 1. unfold direction, dot; cbn [fst snd].
  set (r := dist _ _) in *.
  transitivity (sqrt 1); [f_equal|apply sqrt_1].
  assert (Hr: r * r = (fst (nth d centers (0, 0)) - fst (nth c centers (0, 0))) * (fst (nth d centers (0, 0)) - fst (nth c centers (0, 0)))
                      + (snd (nth d centers (0, 0)) - snd (nth c centers (0, 0))) * (snd (nth d centers (0, 0)) - snd (nth c centers (0, 0)))).
  { unfold r, dist. rewrite norm_sq. unfold dot, sub; cbn [fst snd]. reflexivity. }
  set (x := fst (nth d centers (0, 0)) - fst (nth c centers (0, 0))) in *.
  set (y := snd (nth d centers (0, 0)) - snd (nth c centers (0, 0))) in *.
  transitivity ((x * x + y * y) / (r * r)); [field; lra|]. rewrite <- Hr. field. lra.
Qed.

(** a cell that drains to itself gets the aspect 0 and the vector (1, 0): due east *)
Theorem C68_self_draining : forall centers fdir asp vec c,
  length centers = length fdir -> aspect centers fdir = Ok asp -> vectors centers fdir = Ok vec ->
  (c < length fdir)%nat -> nth c fdir 0%Z = Z.of_nat c ->
  nth c asp 0 = 0 /\ nth c vec (0, 0) = (1, 0).
Proof.
  intros centers fdir asp vec c HL Ha Hv Hc Hd.
  assert (Hk: npidx (length centers) (nth c fdir 0%Z) = Some c) by (rewrite Hd; apply npidx_nat; lia).
  rewrite (proj2 (aspect_nth Ha HL) c c Hc Hk), (vectors_nth HL Hv Hc Hk).
  assert (E: aspect_of (nth c centers (0, 0)) (nth c centers (0, 0)) = 0).
  { unfold aspect_of. rewrite !Rminus_eq_0 || rewrite !(Rminus_diag_eq _ _ eq_refl). rewrite arctan2_00, Rmult_0_l.
    destruct (Rlt_dec 0 0); lra. }
  rewrite E. unfold vector_of. rewrite Rmult_0_l, cos_0, sin_0. auto.
Qed.

(** worked case: 1 flows to 2 (3-4-5 triangle), 2 to itself, 0 nowhere *)
Example C68_worked : exists vec,
  vectors [(1, 1); (5, 5); (2, 1)] [(-2)%Z; 2%Z; 2%Z] = Ok vec /\ nth 1 vec (0, 0) = (- 3 / 5, - 4 / 5).
Proof.
  destruct (@C68_succeeds [(1, 1); (5, 5); (2, 1)] [(-2)%Z; 2%Z; 2%Z]) as (asp & vec & Ha & Hv);
    [reflexivity|cbn; lia|repeat constructor; cbn; lia|].
  exists vec. split; [exact Hv|].
  destruct (@C68_vectors_point_downstream [(1, 1); (5, 5); (2, 1)] [(-2)%Z; 2%Z; 2%Z] vec 1 2 eq_refl Hv) as [E _];
    [cbn; lia|reflexivity|cbn; lia|cbn; intro X; inversion X; lra|].
  rewrite E. cbn [nth].
  assert (HD: dist (5, 5) (2, 1) = 5).
  { unfold dist, norm, dot, sub; cbn [fst snd]. replace (_ + _) with (Rsqr 5) by (unfold Rsqr; lra).
    apply sqrt_Rsqr. lra. }
  unfold direction. rewrite HD. cbn [fst snd]. f_equal; lra.
Qed.

(** ** C73: slope along the drainage path *)
Lemma slopes_nth centers dem fdir sl c k :
  slopes centers dem fdir = Ok sl -> (c < length fdir)%nat ->
  npidx (length fdir) (nth c fdir 0%Z) = Some k -> nth c sl 0 = slope_to centers dem c k.
Proof.
  unfold slopes. intros H Hc Hk.
  set (n := length fdir) in *.
  set (g := fun p : nat * Z => slope_to centers dem (fst p) (match npidx n (snd p) with Some k => k | None => 0%nat end)).
  assert (HG: forall l l', mapM (fun p => match npidx n (snd p) with
                 | Some n0 => Ok (slope_to centers dem (fst p) n0) | None => Err IndexError end) l = Ok l' -> l' = map g l).
  { induction l as [|p l IH]; cbn; intros l' Hl; [congruence|].
    destruct (npidx n (snd p)) as [j|] eqn:Ej; cbn in Hl; [|discriminate].
    destruct (mapM _ l) as [t|] eqn:Et; cbn in Hl; [|discriminate].
    rewrite (IH _ eq_refl) in Hl. inversion Hl. f_equal. unfold g. now rewrite Ej. }
  apply HG in H. subst sl.
  rewrite nth_indep with (d' := g (0%nat, 0%Z)) by (rewrite map_length, combine_length, seq_length; unfold n in *; lia).
  rewrite map_nth, combine_nth by (rewrite seq_length; reflexivity). unfold g; cbn [fst snd].
  rewrite Hk, seq_nth by exact Hc. reflexivity.
Qed.

(** the drop over the distance; drops between 0 and 1e-6 count as flat *)
Theorem C73_slope_of_drainage_path : forall centers dem fdir sl c d zc zd,
  slopes centers dem fdir = Ok sl ->
  (c < length fdir)%nat -> nth c fdir 0%Z = Z.of_nat d -> (d < length fdir)%nat ->
  nth c dem None = Some zc -> nth d dem None = Some zd ->
  nth c centers (0, 0) <> nth d centers (0, 0) ->
  let dd := dist (nth c centers (0, 0)) (nth d centers (0, 0)) in
  (zc - zd <= 0 \/ 1 / 1000000 <= zc - zd -> nth c sl 0 = (zc - zd) / dd) /\
  (0 <= zc - zd < 1 / 1000000 -> nth c sl 0 = 0) /\
  (zd <= zc -> 0 <= nth c sl 0) /\
  (zc < zd -> nth c sl 0 < 0).
Proof.
  intros centers dem fdir sl c d zc zd H Hc Hd Hd' Hzc Hzd Hne dd.
  assert (Hk: npidx (length fdir) (nth c fdir 0%Z) = Some d) by (rewrite Hd; apply npidx_nat; lia).
  rewrite (slopes_nth H Hc Hk). unfold slope_to. rewrite Hzc, Hzd, dist_distance. fold dd.
  assert (Hp: 0 < dd) by (apply dist_pos; exact Hne).
  assert (Hi: 0 < / dd) by (apply Rinv_0_lt_compat; auto).
  destruct (Req_EM_T dd 0); [lra|]. unfold small_drop.
  destruct (Rlt_dec (zc - zd) (1 / 1000000)), (Rlt_dec 0 (zc - zd)); repeat split; intros; try lra.
  all: try (assert (zc - zd = 0) as -> by lra).
  all: unfold Rdiv; try lra; nra.
Qed.

(** no elevation (NaN), or a cell that drains to itself: slope 0 *)
Theorem C73_slope_zero : forall centers dem fdir sl c,
  slopes centers dem fdir = Ok sl -> (c < length fdir)%nat ->
  nth c dem None = None \/ nth c fdir 0%Z = Z.of_nat c ->
  (exists k, npidx (length fdir) (nth c fdir 0%Z) = Some k) -> nth c sl 0 = 0.
Proof.
  intros centers dem fdir sl c H Hc HO [k Hk]. rewrite (slopes_nth H Hc Hk). unfold slope_to.
  destruct HO as [->|E]; [reflexivity|].
  rewrite E, npidx_nat in Hk by lia. inversion Hk; subst k.
  destruct (nth c dem None); [|reflexivity]. rewrite dist_distance. unfold dist, norm, dot, sub; cbn [fst snd].
  replace (_ + _) with 0 by lra. rewrite sqrt_0. destruct (Req_EM_T 0 0); lra.
Qed.

Example C73_worked : exists sl,
  slopes [(0, 0); (3, 4); (6, 8)] [Some 9; Some 4; None] [1%Z; 1%Z; (-2)%Z] = Ok sl /\ nth 0 sl 0 = 1.
Proof.
  destruct (slopes [(0, 0); (3, 4); (6, 8)] [Some 9; Some 4; None] [1%Z; 1%Z; (-2)%Z]) as [sl|] eqn:E.
  2:{ unfold slopes in E; cbn in E. discriminate. }
  exists sl. split; [reflexivity|].
  destruct (@C73_slope_of_drainage_path _ _ _ sl 0 1 9 4 E) as (HS & _); try (cbn; lia); try reflexivity.
  - cbn. intro X. inversion X; lra.
  - rewrite HS by lra. cbn [nth]. replace (dist (0, 0) (3, 4)) with 5; [lra|].
    unfold dist, norm, dot, sub; cbn [fst snd]. replace (_ + _) with (Rsqr 5) by (unfold Rsqr; lra).
    rewrite sqrt_Rsqr; lra.
Qed.

(** ** C74: cells that drain nowhere (flow direction -2) *)
(** FALSE of the code: -2 is used as an index, so such a cell is given the direction and slope
    towards the last but one cell of the grid, wherever that is *)
Theorem C74_sink_points_elsewhere_refuted : forall centers fdir vec c,
  length centers = length fdir -> vectors centers fdir = Ok vec ->
  (c < length fdir)%nat -> nth c fdir 0%Z = (-2)%Z -> (2 <= length fdir)%nat ->
  let e := (length fdir - 2)%nat in
  nth c centers (0, 0) <> nth e centers (0, 0) ->
  nth c vec (0, 0) = direction (nth c centers (0, 0)) (nth e centers (0, 0)).
Proof.
  intros centers fdir vec c HL H Hc Hd H2 e Hne.
  assert (Hk: npidx (length centers) (nth c fdir 0%Z) = Some e).
  { rewrite Hd, HL. apply npidx_m2. lia. }
  rewrite (vectors_nth HL H Hc Hk). apply vector_aspect. exact Hne.
Qed.

Theorem C74_sink_slope_elsewhere_refuted : forall centers dem fdir sl c zc ze,
  slopes centers dem fdir = Ok sl ->
  (c < length fdir)%nat -> nth c fdir 0%Z = (-2)%Z -> (2 <= length fdir)%nat ->
  let e := (length fdir - 2)%nat in
  nth c centers (0, 0) <> nth e centers (0, 0) ->
  nth c dem None = Some zc -> nth e dem None = Some ze -> 1 / 1000000 <= zc - ze ->
  nth c sl 0 = (zc - ze) / dist (nth c centers (0, 0)) (nth e centers (0, 0)).
Proof.
  intros centers dem fdir sl c zc ze H Hc Hd H2 e Hne Hzc Hze Hz.
  assert (Hk: npidx (length fdir) (nth c fdir 0%Z) = Some e).
  { rewrite Hd. apply npidx_m2. lia. }
  rewrite (slopes_nth H Hc Hk). unfold slope_to. rewrite Hzc, Hze, dist_distance.
  destruct (Req_EM_T _ 0) as [E|E].
  - pose proof (dist_pos Hne). lra.
  - unfold small_drop. destruct (Rlt_dec (zc - ze) (1 / 1000000)); [lra|reflexivity].
Qed.

Example C74_worked : exists sl,
  slopes [(0, 0); (3, 4); (6, 8)] [Some 9; Some 4; Some 5] [(-2)%Z; 1%Z; 1%Z] = Ok sl /\ nth 0 sl 0 = 1.
Proof.
  destruct (slopes [(0, 0); (3, 4); (6, 8)] [Some 9; Some 4; Some 5] [(-2)%Z; 1%Z; 1%Z]) as [sl|] eqn:E.
  2:{ unfold slopes in E; cbn in E. discriminate. }
  exists sl. split; [reflexivity|].
  rewrite (@C74_sink_slope_elsewhere_refuted _ _ _ sl 0 9 4 E); try (cbn; lia); try reflexivity; try lra.
  - cbn [nth length Nat.sub]. replace (dist (0, 0) (3, 4)) with 5; [lra|].
    unfold dist, norm, dot, sub; cbn [fst snd]. replace (_ + _) with (Rsqr 5) by (unfold Rsqr; lra).
    rewrite sqrt_Rsqr; lra.
  - cbn. intro X. inversion X; lra.
Qed.

Print Assumptions C67_polygon_of_triangles.
Print Assumptions C68_vectors_point_downstream.
Print Assumptions C73_slope_of_drainage_path.
