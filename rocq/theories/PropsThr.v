(** C131: thresholds and basins of delineate_streams. *)
From Verif Require Import Py Spec MStream LStream PropsStream.
Set Implicit Arguments.
Unset Strict Implicit.
Local Open Scope nat_scope.
Local Open Scope list_scope.

Section Thr.
  Context {T : Type} (ge : T -> T -> bool).
  Notation streams := (delineate_streams ge).

  (** an array of equal thresholds acts like the number *)
  Theorem C131_constant_array facc t basin :
    streams facc (PerCell (repeat t (length facc))) basin = streams facc (Scalar t) basin.
  Proof.
    unfold delineate_streams, above. rewrite repeat_length, Nat.eqb_refl. cbn [negb].
    replace (map (fun p => if ge (fst p) (snd p) then 1%Z else 0%Z) (combine facc (repeat t (length facc))))
      with (map (fun a => if ge a t then 1%Z else 0%Z) facc); auto.
    induction facc as [|a facc IH]; cbn; auto. now rewrite IH.
  Qed.


  (** the streams of a basin are the streams of the whole grid that lie in it: delineating without a
      basin and then clearing the cells outside gives the same array *)
  Theorem C131_basin_clips facc t b whole : streams facc t None = Ok whole -> length b = length facc ->
    exists part, streams facc t (Some b) = Ok part /\ length part = length whole /\
      forall c v x, nth_error whole c = Some v -> nth_error b c = Some x ->
        nth_error part c = Some (if (x =? 0)%Z then 0%Z else v).
  Proof.
    unfold delineate_streams. intros E Lb. destruct (above ge facc t) as [s|] eqn:Ea; [|discriminate]. cbn [bind] in *.
    inversion E; subst whole. assert (La := above_length _ _ _ Ea). rewrite La, Lb, Nat.eqb_refl. cbn [negb].
    eexists. split; [reflexivity|]. split; [rewrite map_length, combine_length; lia|].
    intros c v x Hv Hx. rewrite nth_error_map. assert (Ec : nth_error (combine s b) c = Some (v, x)) by (now apply nth_error_combine).
    now rewrite Ec.
  Qed.

  (** the thresholds of the cells outside the basin do not matter *)
  Theorem C131_thresholds_outside facc l1 l2 b : length l1 = length facc -> length l2 = length facc -> length b = length facc ->
    (forall c x, nth_error b c = Some x -> x <> 0%Z -> nth_error l1 c = nth_error l2 c) ->
    streams facc (PerCell l1) (Some b) = streams facc (PerCell l2) (Some b).
  Proof.
    intros L1 L2 Lb H. unfold delineate_streams, above. rewrite L1, L2, Nat.eqb_refl. cbn [negb bind].
    assert (X : forall l, length l = length facc -> length (map (fun p => if ge (fst p) (snd p) then 1%Z else 0%Z) (combine facc l)) = length facc)
      by (intros l Hl; rewrite map_length, combine_length; lia).
    rewrite !X, Lb, Nat.eqb_refl by auto. cbn [negb]. f_equal. clear X. revert l1 l2 b L1 L2 Lb H.
    induction facc as [|a facc IH]; intros [|x1 l1] [|x2 l2] [|z b]; cbn; try discriminate; auto.
    intros L1 L2 Lb H. rewrite (IH l1 l2 b); auto; try lia.
    - f_equal. destruct (Z.eqb_spec z 0) as [|Nz]; auto. specialize (H 0 z eq_refl Nz). cbn in H. inversion H. reflexivity.
    - intros c. exact (H (S c)).
  Qed.

  (** two basins one after the other: the cells that lie in both *)
  Theorem C131_basins_intersect facc t b1 b2 b12 : length b1 = length facc -> length b2 = length facc -> length b12 = length facc ->
    (forall c x1 x2 x12, nth_error b1 c = Some x1 -> nth_error b2 c = Some x2 -> nth_error b12 c = Some x12 ->
       (x12 = 0%Z <-> x1 = 0%Z \/ x2 = 0%Z)) ->
    forall part both, streams facc t (Some b1) = Ok part -> streams facc t (Some b12) = Ok both ->
    forall c v x2, nth_error part c = Some v -> nth_error b2 c = Some x2 ->
      nth_error both c = Some (if (x2 =? 0)%Z then 0%Z else v).
  Proof.
    intros L1 L2 L12 H part both E1 E2 c v x2 Hv H2.
    assert (exists whole, streams facc t None = Ok whole) as [whole EW].
    { unfold delineate_streams in *. destruct (above ge facc t); [now eexists|discriminate]. }
    destruct (C131_basin_clips EW L1) as [p1 [P1 [Q1 R1]]]. destruct (C131_basin_clips EW L12) as [p2 [P2 [Q2 R2]]].
    assert (p1 = part) by congruence. assert (p2 = both) by congruence. subst.
    assert (Hc : c < length part) by (apply nth_error_Some; congruence).
    destruct (nth_error whole c) as [w|] eqn:Ew; [|apply nth_error_None in Ew; lia].
    assert (LW : length whole = length facc).
    { unfold delineate_streams in EW. destruct (above ge facc t) eqn:Ea; [|discriminate]. inversion EW; subst. exact (above_length _ _ _ Ea). }
    destruct (nth_error b1 c) as [x1|] eqn:Ex1; [|apply nth_error_None in Ex1; lia].
    destruct (nth_error b12 c) as [x12|] eqn:Ex12; [|apply nth_error_None in Ex12; lia].
    assert (Y1 := R1 c w x1 Ew Ex1). assert (Y2 := R2 c w x12 Ew Ex12). specialize (H c x1 x2 x12 Ex1 H2 Ex12).
    rewrite Y2. f_equal. rewrite Y1 in Hv. inversion Hv; subst v.
    destruct (Z.eqb_spec x12 0), (Z.eqb_spec x1 0), (Z.eqb_spec x2 0); auto; exfalso; tauto.
  Qed.
End Thr.

Module ExThr.
  Example e1 : delineate_streams Z.geb [5; 3; 8]%Z (PerCell [4; 4; 4]%Z) (Some [1; 1; 0]%Z) = Ok [1; 0; 0]%Z. Proof. reflexivity. Qed.
  Example e2 : delineate_streams Z.geb [5; 3; 8]%Z (Scalar 4%Z) None = Ok [1; 0; 1]%Z. Proof. reflexivity. Qed.
End ExThr.
