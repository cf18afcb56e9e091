(** C115: flow directions and the numbering of the cells.  Where every cell has exactly one
    steepest neighbour, renumbering the cells and reordering the neighbour lists only renames
    the directions; with ties it does not. *)
From Coq Require Import QArith String.
From Verif Require Import Py Spec MFlow MDir Grids LRat LGraph LDir LDir2 LDir3 LDir4 PropsDir LTie PropsTie PropsDirInv.
Set Implicit Arguments.
Unset Strict Implicit.
Local Open Scope nat_scope.
Local Open Scope list_scope.
Local Notation length := List.length.

(** [s] renumbers the [N] cells, [t] is its inverse *)
Definition renumbering (N : nat) (s t : nat -> nat) : Prop :=
  (forall c, c < N -> s c < N /\ t (s c) = c) /\ (forall c, c < N -> t c < N /\ s (t c) = c).

(** grid, DEM, distances and terminal cells (2) are those of (1) in the new numbering *)
Record same_terrain {T} (s : nat -> nat) (dem1 dem2 : list (option T)) (nb1 nb2 : list (list nat))
       (dist1 dist2 : nat -> nat -> T) (terms1 terms2 : list Z) : Prop := {
  st_len : length dem2 = length dem1;
  st_dem : forall c, c < length dem1 -> nth_error dem2 (s c) = nth_error dem1 c;
  st_nb : forall c n, c < length dem1 -> n < length dem1 -> (adjacent nb2 (s c) (s n) <-> adjacent nb1 c n);
  st_dist : forall c n, c < length dem1 -> n < length dem1 -> dist2 (s c) (s n) = dist1 c n;
  st_term : forall c, c < length dem1 -> (In (Z.of_nat (s c)) terms2 <-> In (Z.of_nat c) terms1) }.

(** every valid cell that is neither lowest nor a terminal has exactly one steepest neighbour *)
Definition no_ties {T} (O : slope_ops T) thr dist dem nb terminals : Prop :=
  forall c, is_valid dem c -> ~ (lowest O dem c \/ In (Z.of_nat c) terminals) ->
    exists n, steepest O thr dist dem nb c n /\ forall n', steepest O thr dist dem nb c n' -> n' = n.

Lemma finite_choice (P : nat -> nat -> Prop) N : (forall c, c < N -> exists d, P c d) ->
  exists g, forall c, c < N -> P c (g c).
Proof.
  induction N as [|N IH]; intros H; [exists (fun _ => 0); lia|].
  destruct IH as [g Hg]; [intros c Hc; apply H; lia|]. destruct (H N) as [d Hd]; [lia|].
  exists (fun c => if c =? N then d else g c). intros c Hc. destruct (Nat.eqb_spec c N) as [->|NE]; auto. apply Hg. lia.
Qed.

Lemma filter_one (l : list nat) n : NoDup l -> In n l -> filter (Nat.eqb n) l = [n].
Proof.
  induction l as [|x l IH]; intros ND H; [destruct H|]. inversion ND as [|? ? N1 N2]; subst. cbn.
  destruct (Nat.eqb_spec n x) as [->|NE].
  - f_equal. clear -N1. induction l as [|y l IH]; auto. cbn. destruct (Nat.eqb_spec x y) as [->|NE].
    + exfalso. apply N1. now left.
    + apply IH. intros H. apply N1. now right.
  - destruct H as [H|H]; [congruence|]. now apply IH.
Qed.

Section Num.
  Context {T : Type} (O : slope_ops T) (ok : T -> Prop).
  Hypothesis OL : order_laws O ok.

  (** the directions of terrain without ties *)
  Lemma no_ties_run thr dist dem nb terminals fuel : terrain_ok O ok thr dist dem nb terminals ->
    enough_steps nb fuel -> (forall l, In l nb -> NoDup l) -> no_ties O thr dist dem nb terminals ->
    forall g, (forall c, c < length dem ->
       ((is_nan dem c \/ lowest O dem c \/ In (Z.of_nat c) terminals) /\ g c = c) \/
       (is_valid dem c /\ ~ (lowest O dem c \/ In (Z.of_nat c) terminals) /\ steepest O thr dist dem nb c (g c))) ->
    exists nb', run O fuel dist dem nb thr terminals = Ok (map (fun c => Z.of_nat (g c)) (seq 0 (length dem)), nb').
  Proof.
    intros TR FU ND NT g H. apply (C84_ties_by_position OL TR FU ND). intros c Hc.
    destruct (H c Hc) as [[A B]|[V [NS S]]]; [left; split; auto; destruct A as [A|A]; auto|right].
    split; auto. split; [exact NS|]. destruct (NT c V NS) as [n [Sn U]]. rewrite (U _ S) in *.
    exists [n]. split; [|now left]. destruct (Sn) as [[row [Er Hn]] _]. exists row, (Nat.eqb n). split; auto. split.
    - intros m Hm. rewrite Nat.eqb_eq. split; [intros <-; auto|]. intros X. symmetry. now apply U.
    - symmetry. apply filter_one; auto. apply ND. eapply nth_error_In; eauto.
  Qed.

  Lemma valid_or_nan (dem : list (option T)) c : c < length dem -> is_valid dem c \/ is_nan dem c.
  Proof.
    intros H. destruct (nth_error dem c) as [[z|]|] eqn:E; [left; now exists z|now right|apply nth_error_None in E; lia].
  Qed.

  Variables (thr : T) (s t : nat -> nat) (dem1 dem2 : list (option T)) (nb1 nb2 : list (list nat)).
  Variables (dist1 dist2 : nat -> nat -> T) (terms1 terms2 : list Z).
  Hypothesis RN : renumbering (length dem1) s t.
  Hypothesis ST : same_terrain s dem1 dem2 nb1 nb2 dist1 dist2 terms1 terms2.
  Hypothesis NB1 : neighbours_in nb1 (length dem1).
  Hypothesis NB2 : neighbours_in nb2 (length dem1).
  Notation N := (length dem1).

  Lemma lowest_num c : c < N -> (lowest O dem2 (s c) <-> lowest O dem1 c).
  Proof.
    intros Hc. destruct RN as [R1 R2]. split; intros [z [Hz H]].
    - rewrite (st_dem ST) in Hz by auto. exists z. split; auto. intros c' z' Hz'.
      assert (L : c' < N) by (apply nth_error_Some; congruence). apply (H (s c')). now rewrite (st_dem ST).
    - exists z. rewrite (st_dem ST) by auto. split; auto. intros c' z' Hz'.
      assert (L : c' < N) by (rewrite <- (st_len ST); apply nth_error_Some; congruence).
      destruct (R2 c' L) as [L' E]. apply (H (t c')). rewrite <- (st_dem ST) by auto. now rewrite E.
  Qed.

  Lemma slope_num c n x : c < N -> n < N -> (slope_to O thr dist2 dem2 (s c) (s n) x <-> slope_to O thr dist1 dem1 c n x).
  Proof. intros Hc Hn. unfold slope_to. now rewrite !(st_dem ST), (st_dist ST) by auto. Qed.

  Lemma steepest_num c n : c < N -> n < N -> (steepest O thr dist2 dem2 nb2 (s c) (s n) <-> steepest O thr dist1 dem1 nb1 c n).
  Proof.
    intros Hc Hn. destruct RN as [R1 R2]. unfold steepest. rewrite (st_nb ST) by auto. split; intros [A [x [Hx H]]].
    - split; auto. exists x. split; [now apply slope_num|]. intros n' x' A' Hx'.
      assert (L : n' < N) by (apply (NB1 Hc A')). apply (H (s n')); [now apply (st_nb ST)|now apply slope_num].
    - split; auto. exists x. split; [now apply slope_num|]. intros n' x' A' Hx'.
      assert (L : n' < N) by (apply (NB2 (proj1 (R1 c Hc)) A')). destruct (R2 n' L) as [L' E]. rewrite <- E in A', Hx'.
      apply (H (t n')); [now apply (st_nb ST) in A'|now apply slope_num in Hx'].
  Qed.
End Num.

(** ** C115 *)
Theorem C115_any_numbering_without_ties :
  forall T (O : slope_ops T) ok thr s t dem1 dem2 nb1 nb2 dist1 dist2 terms1 terms2 fuel,
    order_laws O ok ->
    renumbering (length dem1) s t -> same_terrain s dem1 dem2 nb1 nb2 dist1 dist2 terms1 terms2 ->
    terrain_ok O ok thr dist1 dem1 nb1 terms1 -> terrain_ok O ok thr dist2 dem2 nb2 terms2 ->
    enough_steps nb1 fuel -> enough_steps nb2 fuel ->
    (forall l, In l nb1 -> NoDup l) -> (forall l, In l nb2 -> NoDup l) ->
    no_ties O thr dist1 dem1 nb1 terms1 ->
    exists fdir1 fdir2 nb1' nb2',
      run O fuel dist1 dem1 nb1 thr terms1 = Ok (fdir1, nb1') /\
      run O fuel dist2 dem2 nb2 thr terms2 = Ok (fdir2, nb2') /\
      forall c d, nth_error fdir1 c = Some (Z.of_nat d) -> nth_error fdir2 (s c) = Some (Z.of_nat (s d)).
Proof.
  intros T O ok thr s t dem1 dem2 nb1 nb2 dist1 dist2 terms1 terms2 fuel OL RN ST TR1 TR2 FU1 FU2 ND1 ND2 NT.
  assert (L := st_len ST). assert (R := RN). destruct R as [R1 R2].
  assert (NB1 : neighbours_in nb1 (length dem1)) by exact (@tr_nb _ _ _ _ _ _ _ _ TR1).
  assert (NB2 : neighbours_in nb2 (length dem1)) by (rewrite <- L; exact (@tr_nb _ _ _ _ _ _ _ _ TR2)).
  assert (SD : forall c, {In (Z.of_nat c) terms1} + {~ In (Z.of_nat c) terms1}) by (intros; apply in_dec, Z.eq_dec).
  assert (LD : forall c, {lowest O dem1 c} + {~ lowest O dem1 c}).
  { intros c. destruct (in_dec Nat.eq_dec c (mins O dem1)) as [H|H]; [left|right]; rewrite <- (proj1 (proj2 (mins_spec OL TR1))); auto. }
  assert (G : exists g, forall c, c < length dem1 -> g c < length dem1 /\
    (((is_nan dem1 c \/ lowest O dem1 c \/ In (Z.of_nat c) terms1) /\ g c = c) \/
     (is_valid dem1 c /\ ~ (lowest O dem1 c \/ In (Z.of_nat c) terms1) /\ steepest O thr dist1 dem1 nb1 c (g c)))).
  { apply (finite_choice (P := fun c d => d < length dem1 /\
      (((is_nan dem1 c \/ lowest O dem1 c \/ In (Z.of_nat c) terms1) /\ d = c) \/
       (is_valid dem1 c /\ ~ (lowest O dem1 c \/ In (Z.of_nat c) terms1) /\ steepest O thr dist1 dem1 nb1 c d)))).
    intros c Hc. destruct (valid_or_nan Hc) as [V|V]; [|exists c; split; auto].
    destruct (SD c) as [S|S]; [exists c; split; auto|]. destruct (LD c) as [S'|S']; [exists c; split; auto|].
    destruct (NT c V) as [n [Sn _]]; [tauto|]. exists n. split; [exact (NB1 _ _ Hc (proj1 Sn))|]. right. tauto. }
  destruct G as [g Hg].
  destruct (no_ties_run OL TR1 FU1 ND1 NT (g := g)) as [nb1' E1]; [intros c Hc; apply (Hg c Hc)|].
  assert (NT2 : no_ties O thr dist2 dem2 nb2 terms2).
  { intros c V NS. assert (Hc : c < length dem1) by (rewrite <- L; destruct V as [z Hz]; apply nth_error_Some; congruence).
    destruct (R2 c Hc) as [Ht Et]. rewrite <- Et in V, NS. rewrite (lowest_num O RN ST Ht), (st_term ST Ht) in NS.
    destruct V as [z Hz]. rewrite (st_dem ST Ht) in Hz. destruct (NT (t c)) as [n [Sn U]]; [now exists z|exact NS|].
    assert (Ln : n < length dem1) by exact (NB1 _ _ Ht (proj1 Sn)). exists (s n). rewrite <- Et. split.
    - now apply (steepest_num O thr RN ST NB1 NB2).
    - intros n' S'. assert (Ln' : n' < length dem1) by (destruct (R1 _ Ht) as [X _]; exact (NB2 _ _ X (proj1 S'))).
      destruct (R2 n' Ln') as [Lt E']. rewrite <- E' in S'. apply (steepest_num O thr RN ST NB1 NB2) in S'; auto.
      rewrite <- E'. f_equal. now apply U. }
  destruct (no_ties_run OL TR2 FU2 ND2 NT2 (g := fun c => s (g (t c)))) as [nb2' E2].
  { intros c Hc. rewrite L in Hc. destruct (R2 c Hc) as [Ht Et]. destruct (Hg (t c) Ht) as [Lg H].
    assert (X : lowest O dem2 c <-> lowest O dem1 (t c)) by (rewrite <- (lowest_num O RN ST Ht), Et; tauto).
    assert (Y : In (Z.of_nat c) terms2 <-> In (Z.of_nat (t c)) terms1) by (rewrite <- (st_term ST Ht), Et; tauto).
    assert (Z : nth_error dem2 c = nth_error dem1 (t c)) by (rewrite <- (st_dem ST Ht), Et; auto).
    unfold is_nan, is_valid in *. rewrite Z, X, Y. destruct H as [[H1 H2]|[H1 [H2 H3]]]; [left; split; auto; now rewrite H2|].
    right. split; auto. split; auto. rewrite <- Et at 1. now apply (steepest_num O thr RN ST NB1 NB2). }
  eexists _, _, nb1', nb2'. split; [exact E1|]. split; [exact E2|]. rewrite L.
  assert (NM : forall h i, i < length dem1 -> nth_error (map (fun c => Z.of_nat (h c)) (seq 0 (length dem1))) i = Some (Z.of_nat (h i))).
  { intros h i Hi. rewrite nth_error_map. rewrite (nth_error_nth' _ 0) by (now rewrite seq_length). now rewrite seq_nth. }
  intros c d Hd. assert (Hc : c < length dem1).
  { assert (X : c < length (map (fun c => Z.of_nat (g c)) (seq 0 (length dem1)))) by (apply nth_error_Some; congruence).
    now rewrite map_length, seq_length in X. }
  rewrite NM in Hd by auto. inversion Hd as [Ed]. apply Nat2Z.inj in Ed. destruct (R1 c Hc) as [Ls Es].
  rewrite NM by auto. now rewrite Es, Ed.
Qed.

(** ** with ties: a symmetric terrain whose flow directions are not symmetric *)
Module Ex.
  Import PropsDir.Ex.
  (** cells 1 and 2 are alike; 0 lies above both, 3 is the outlet *)
  Definition nb4 : list (list nat) := [[1; 2]; [0; 2; 3]; [0; 1; 3]; [1; 2]].
  Definition dem4 : list (option Q) := z [9; 5; 5; 1]%Z.
  Definition swap12 (c : nat) : nat := match c with 1 => 2 | 2 => 1 | _ => c end.
  Lemma ren4 : renumbering 4 swap12 swap12.
  Proof. split; intros c H; do 4 (destruct c as [|c]; [split; [cbn; lia|reflexivity]|]); lia. Qed.
  Lemma same4 : same_terrain swap12 dem4 dem4 nb4 nb4 one one [] [].
  Proof.
    constructor; auto; cbn [length dem4 z map]; try tauto.
    - intros c H. do 4 (destruct c as [|c]; [reflexivity|]). lia.
    - assert (A : forall c n, adjacent nb4 c n <-> In n (nth c nb4 [])).
      { intros c n. split; [|apply adj_nth]. intros [l [E H]]. now rewrite (nth_error_nth _ _ [] E). }
      intros c n Hc Hn. rewrite !A.
      do 4 (destruct c as [|c]; [do 4 (destruct n as [|n]; [vm_compute; intuition lia|]); lia|]). lia.
  Qed.
  (** terrain without ties, renumbered by swapping cells 1 and 2 *)
  Definition demA : list (option Q) := z [9; 5; 4; 1]%Z.
  Definition demB : list (option Q) := z [9; 4; 5; 1]%Z.
  Lemma trA : terrain_ok Qops (fun _ => True) thr one demA nb4 [].
  Proof. apply terrain_checked. vm_compute. reflexivity. Qed.
  Lemma trB : terrain_ok Qops (fun _ => True) thr one demB nb4 [].
  Proof. apply terrain_checked. vm_compute. reflexivity. Qed.
  Lemma sameAB : same_terrain swap12 demA demB nb4 nb4 one one [] [].
  Proof.
    constructor; auto; cbn [length demA z map]; try tauto.
    - intros c H. do 4 (destruct c as [|c]; [reflexivity|]). lia.
    - apply (st_nb same4).
  Qed.
  Definition targetsA : list (list nat) := Eval vm_compute in
    map (tg (pad_neighbors 4 nb4) (F0 Qops thr one demA nb4)) (seq 0 4).
  Lemma no_tiesA : no_ties Qops thr one demA nb4 [].
  Proof.
    intros c V NS. assert (Hc := val_lt V). change (length demA) with 4 in Hc.
    assert (S : forall n, steepest Qops thr one demA nb4 c n <-> In n (nth c targetsA [])).
    { intros n. rewrite <- (tg_steep Qlaws trA n V). change (length demA) with 4.
      do 4 (destruct c as [|c]; [vm_compute; tauto|]). lia. }
    destruct c as [|[|[|[|c]]]]; [exists 2|exists 3|exists 3|exfalso; apply NS; left|lia];
      try (split; [apply S; vm_compute; tauto|intros n' H; apply S in H; vm_compute in H; lia]).
    rewrite <- (proj1 (proj2 (mins_spec Qlaws trA))). vm_compute. tauto.
  Qed.
  Example C115_case : exists fdir1 fdir2 nb1' nb2',
      run Qops 103 one demA nb4 thr [] = Ok (fdir1, nb1') /\ run Qops 103 one demB nb4 thr [] = Ok (fdir2, nb2') /\
      forall c d, nth_error fdir1 c = Some (Z.of_nat d) -> nth_error fdir2 (swap12 c) = Some (Z.of_nat (swap12 d)).
  Proof.
    assert (FU : enough_steps nb4 103).
    { exists 3. split; [|vm_compute; lia]. intros l Hl. vm_compute in Hl. repeat destruct Hl as [<-|Hl]; cbn; try lia; try destruct Hl. }
    assert (ND : forall l, In l nb4 -> NoDup l) by (apply rows_nodup; vm_compute; reflexivity).
    apply (C115_any_numbering_without_ties (dem1 := demA) Qlaws ren4 sameAB trA trB FU FU ND ND no_tiesA).
  Qed.
End Ex.

Import PropsDir.Ex Ex.

(** the terrain is its own image under the exchange of cells 1 and 2 ([same4]), its flow
    directions are not *)
Theorem C115_ties_follow_the_numbering_refuted :
  same_terrain swap12 dem4 dem4 nb4 nb4 one one [] [] /\
  exists fdir nb', run Qops 103 one dem4 nb4 thr [] = Ok (fdir, nb') /\
    nth_error fdir 0 = Some 1%Z /\ nth_error fdir (swap12 0) <> Some (Z.of_nat (swap12 1)).
Proof. split; [exact same4|]. eexists _, _. split; [vm_compute; reflexivity|]. split; [reflexivity|discriminate]. Qed.

(** the order of the neighbour lists decides as well *)
Definition nb4' : list (list nat) := [[2; 1]; [0; 2; 3]; [0; 1; 3]; [1; 2]].
Theorem C115_neighbour_order_refuted :
  exists fdir fdir' nb' nb'', run Qops 103 one dem4 nb4 thr [] = Ok (fdir, nb') /\ run Qops 103 one dem4 nb4' thr [] = Ok (fdir', nb'') /\
    (forall c n, adjacent nb4 c n <-> adjacent nb4' c n) /\ nth_error fdir 0 = Some 1%Z /\ nth_error fdir' 0 = Some 2%Z.
Proof.
  eexists _, _, _, _. split; [vm_compute; reflexivity|]. split; [vm_compute; reflexivity|]. split; [|split; reflexivity].
  intros c n. unfold adjacent. destruct c as [|c]; [|reflexivity].
  split; intros [l [E I]]; inversion E; subst l; cbn in I; eexists; (split; [reflexivity|]); cbn; lia.
Qed.

