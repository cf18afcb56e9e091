(** C136: water routed along the many-to-many cascades is neither lost nor multiplied. *)
From Coq Require Import QArith Qabs Lqa Relations.Relation_Operators.
From Verif Require Import Py Spec MFlow MDir MStream LGraph LStream LCasc LRat LAcc2 PropsAcc PropsStream PropsCasc PropsCasc2 PropsWorld3 LCircle PropsCircle.
Set Implicit Arguments.
Unset Strict Implicit.
Local Open Scope nat_scope.
Local Open Scope list_scope.
Local Notation length := List.length.

(** ** Specification *)
Notation cascade := (Z * Z * option Q * Z)%type.
(** the fraction of a record (0 for NaN) *)
Definition fraction (f : option Q) : Q := match f with Some x => x | None => 0%Q end.
(** what arrives at cell [c] from other cells if every cell [u] holds [q u] and passes its
    fractions on *)
Definition arriving (out : list cascade) (q : nat -> Q) (c : nat) : Q :=
  qsum (map (fun e => let '(u, _, f, _) := e in (fraction f * q (Z.to_nat (u - 1)))%Q)
            (filter (fun e => let '(u, d, _, _) := e in (d =? Z.of_nat c + 1)%Z && negb (u =? d)%Z) out)).
(** [q]: every cell holds its rain and what arrives *)
Definition routed (out : list cascade) (size : nat) (rain q : nat -> Q) : Prop :=
  forall c, c < size -> (q c == rain c + arriving out q c)%Q.
(** a record leads from [c] to another cell *)
Definition passes_on (out : list cascade) (c : nat) : bool :=
  existsb (fun e => let '(u, d, _, _) := e in (u =? Z.of_nat c + 1)%Z && negb (u =? d)%Z) out.
Definition total (cells : list nat) (q : nat -> Q) : Q := qsum (map q cells).

(** ** Sums *)
Lemma qsum_ext {A} (f g : A -> Q) l : (forall x, In x l -> (f x == g x)%Q) -> (qsum (map f l) == qsum (map g l))%Q.
Proof.
  induction l as [|x l IH]; intros H; [reflexivity|]. cbn [map]. rewrite !qsum_cons, (H x (or_introl eq_refl)), IH; [reflexivity|].
  intros; apply H; now right.
Qed.
Lemma qsum_plus {A} (f g : A -> Q) l : (qsum (map (fun x => f x + g x)%Q l) == qsum (map f l) + qsum (map g l))%Q.
Proof. induction l as [|x l IH]; [reflexivity|]. cbn [map]. rewrite !qsum_cons, IH. ring. Qed.
Lemma qsum_zero {A} (f : A -> Q) l : (forall x, In x l -> (f x == 0)%Q) -> (qsum (map f l) == 0)%Q.
Proof.
  intros H. rewrite (qsum_ext (g := fun _ => 0%Q)); auto. clear. induction l as [|x l IH]; [reflexivity|]. cbn [map]. rewrite qsum_cons, IH. ring.
Qed.
Lemma qsum_scale {A} (f : A -> Q) a l : (qsum (map (fun x => f x * a)%Q l) == qsum (map f l) * a)%Q.
Proof. induction l as [|x l IH]; [cbn; reflexivity|]. cbn [map]. rewrite !qsum_cons, IH. ring. Qed.
Lemma qsum_at (w : Q) k : forall n a, a <= k < a + n -> (qsum (map (fun c => if Nat.eqb k c then w else 0%Q) (seq a n)) == w)%Q.
Proof.
  induction n as [|n IH]; intros a H; [lia|]. cbn [seq map]. rewrite qsum_cons. destruct (Nat.eqb_spec k a) as [->|NE].
  - rewrite qsum_zero; [ring|]. intros x Hx. apply in_seq in Hx. destruct (Nat.eqb_spec a x); [lia|reflexivity].
  - rewrite IH by lia. ring.
Qed.
(** adding by key *)
Lemma qsum_keys {A} (key : A -> nat) (p : A -> bool) (w : A -> Q) n out : (forall e, In e out -> p e = true -> key e < n) ->
  (qsum (map (fun c => qsum (map w (filter (fun e => Nat.eqb (key e) c && p e) out))) (seq 0 n)) == qsum (map w (filter p out)))%Q.
Proof.
  induction out as [|e out IH]; intros H.
  - cbn [filter map]. rewrite qsum_zero; [reflexivity|]. reflexivity.
  - rewrite (qsum_ext (g := fun c => ((if Nat.eqb (key e) c then (if p e then w e else 0%Q) else 0%Q) +
       qsum (map w (filter (fun e => Nat.eqb (key e) c && p e) out)))%Q)).
    + rewrite qsum_plus, IH by (intros; apply H; [now right|auto]). cbn [filter]. destruct (p e) eqn:Ep.
      * rewrite qsum_at by (assert (X := H e (or_introl eq_refl) Ep); lia). cbn [map]. rewrite qsum_cons. reflexivity.
      * rewrite qsum_zero; [ring|]. intros x _. destruct (Nat.eqb (key e) x); reflexivity.
    + intros c _. cbn [filter]. destruct (Nat.eqb (key e) c); cbn [andb].
      * destruct (p e); [cbn [map]; rewrite qsum_cons; reflexivity|ring].
      * ring.
Qed.
Lemma qsum_split {A} (p : A -> bool) (w : A -> Q) l :
  (qsum (map w l) == qsum (map w (filter p l)) + qsum (map w (filter (fun x => negb (p x)) l)))%Q.
Proof.
  induction l as [|x l IH]; [reflexivity|]. cbn [map filter]. rewrite qsum_cons, IH.
  destruct (p x); cbn [negb map]; rewrite qsum_cons; ring.
Qed.

Section Water.
  Variables (fdir strm : list Z) (basin : option (list Z)) (dem : list (option Q)) (thr : Q)
            (dist : nat -> nat -> Q) (nb : list (list nat)) (out : list cascade).
  Notation N := (length fdir).
  Hypothesis V : valid_fdir fdir.
  Hypothesis LD : length dem = N.
  Hypothesis HB : basin_fits basin N.
  Hypothesis HN : forall c n, adjacent nb c n -> n < N /\ (0 < dist c n)%Q.
  Hypothesis OUT : qmany fdir strm basin (table Qminus Qdiv q_lt 0%Q 10000000000%Q dist nb dem thr) (table_nb nb dem) = Ok out.

  Lemma laws_here : down_laws Qminus Qdiv q_lt 0%Q 10000000000%Q Qabs qdiv qle0 qkeep dist nb (fun _ => True).
  Proof using HN. apply rational_down_laws. intros c n H. now apply HN in H. Qed.

  Lemma shape e : In e out -> let '(u, d, f, _) := e in exists n c, u = (Z.of_nat n + 1)%Z /\ d = (Z.of_nat c + 1)%Z /\ n < N /\ c < N /\
    (river strm n -> f = Some 1%Q) /\ (~ river strm n -> n <> c).
  Proof using V LD HB HN OUT.
    destruct e as [[[u d] f] s]. intros I.
    assert (HN' : forall c n, adjacent nb c n -> n < N) by (intros c n X; now apply HN in X).
    destruct (C135_landscape_cascades_descend laws_here V LD HB HN' (fun _ _ _ => Logic.I) OUT I) as (n & c & -> & -> & Ln & Lc & Hin & _ & HL).
    exists n, c. do 4 (split; [auto|]). split.
    - intros R. destruct (@record_cases Q _ _ _ _ _ _ fdir strm basin _ _ out V HB OUT _ _ _ _ I) as (n' & c' & E1 & E2 & _ & _ & [[_ [E _]]|[R' _]]); auto.
      assert (n' = n) by lia. subst. contradiction.
    - intros R ->. destruct (HL R) as (_ & zn & zc & Z1 & Z2 & LT). rewrite Z1 in Z2. injection Z2 as <-. apply q_lt_spec in LT. now apply Qlt_irrefl in LT.
  Qed.

  (** what leaves a cell for other cells: everything, or nothing *)
  Lemma leaving_whole n : n < N ->
    (qsum (map (fun e => let '(_, _, f, _) := e in fraction f)
       (filter (fun e => let '(u, d, _, _) := e in (u =? Z.of_nat n + 1)%Z && negb (u =? d)%Z) out)) ==
     if passes_on out n then 1 else 0)%Q.
  Proof using V LD HB HN OUT.
    intros Ln. set (L := filter (fun e : cascade => let '(u, _, _, _) := e in (u =? Z.of_nat n + 1)%Z) out).
    assert (EL : filter (fun e : cascade => let '(u, d, _, _) := e in (u =? Z.of_nat n + 1)%Z && negb (u =? d)%Z) out =
       filter (fun e : cascade => let '(u, d, _, _) := e in negb (u =? d)%Z) L).
    { unfold L. clear. induction out as [|[[[u d] f] s] o IH]; cbn [filter]; auto.
      destruct (u =? Z.of_nat n + 1)%Z; cbn [andb filter]; [|exact IH]. destruct (negb (u =? d)%Z); now rewrite IH. }
    assert (EP : passes_on out n = existsb (fun e : cascade => let '(u, d, _, _) := e in negb (u =? d)%Z) L).
    { unfold L, passes_on. clear. induction out as [|[[[u d] f] s] o IH]; cbn [existsb filter]; auto.
      destruct (u =? Z.of_nat n + 1)%Z; cbn [andb orb existsb filter]; [|exact IH]. now rewrite IH. }
    rewrite EL, EP.
    assert (SH : forall u d f s, In (u, d, f, s) L -> u = (Z.of_nat n + 1)%Z /\ (river strm n -> f = Some 1%Q) /\ (~ river strm n -> u <> d)).
    { intros u d f s I. unfold L in I. apply filter_In in I. destruct I as [I E]. apply Z.eqb_eq in E.
      destruct (shape I) as (n' & c & E1 & E2 & _ & _ & X1 & X2). assert (n' = n) by lia. subst n'. split; [auto|]. split; auto.
      intros R. specialize (X2 R). lia. }
    assert (FR := @C54_fractions_add_up fdir strm basin _ _ out OUT (Z.of_nat n + 1)%Z).
    unfold leaving in FR. fold L in FR. clearbody L. clear EL EP.
    destruct FR as [FR|[qs [FR [_ SUM]]]].
    { apply map_eq_nil in FR. subst L. reflexivity. }
    assert (S2 : (qsum (map (fun e : cascade => let '(_, _, f, _) := e in fraction f) L) == 1)%Q).
    { rewrite <- SUM. change (fold_left Qplus qs 0%Q) with (qsum qs). clear - FR. revert qs FR.
      induction L as [|[[[u d] f] s] L IH]; intros qs FR; destruct qs as [|q qs]; cbn [map] in FR; try discriminate; [reflexivity|].
      inversion FR; subst. cbn [map]. rewrite !qsum_cons, (IH _ H1). reflexivity. }
    destruct (riverb strm n) eqn:R.
    - apply riverb_spec in R.
      assert (ONE : length L = 1).
      { assert (C : (qsum (map (fun e : cascade => let '(_, _, f, _) := e in fraction f) L) == inject_Z (Z.of_nat (length L)))%Q).
        { clear S2 SUM FR. induction L as [|[[[u d] f] s] L IH]; [reflexivity|]. cbn [map]. rewrite qsum_cons, IH by (intros; eapply SH; right; eauto).
          destruct (SH u d f s (or_introl eq_refl)) as [_ [X _]]. rewrite (X R). cbn [fraction length]. rewrite Nat2Z.inj_succ. unfold Z.succ.
          rewrite inject_Z_plus. change (inject_Z 1) with 1%Q. ring. }
        rewrite S2 in C. unfold Qeq in C. cbn in C. lia. }
      destruct L as [|e [|e' L]]; try discriminate. destruct e as [[[u d] f] s]. cbn [filter existsb]. destruct (u =? d)%Z; cbn [negb orb map]; [reflexivity|exact S2].
    - assert (NR : ~ river strm n) by (rewrite <- riverb_spec; congruence).
      assert (AL : filter (fun e : cascade => let '(u, d, _, _) := e in negb (u =? d)%Z) L = L).
      { apply filter_all. intros [[[u d] f] s] I. destruct (SH _ _ _ _ I) as [_ [_ X]]. apply negb_true_iff, Z.eqb_neq. auto. }
      rewrite AL, S2. destruct L as [|[[[u d] f] s] L]; [cbn in S2; discriminate|].
      destruct (SH _ _ _ _ (or_introl eq_refl)) as [_ [_ X]]. cbn [existsb].
      destruct (Z.eqb_spec u d) as [E|]; [destruct (X NR E)|reflexivity].
  Qed.

  (** C136: what the cells that pass nothing on hold in the end is all the rain *)
  Theorem C136_water_is_conserved rain q : routed out N rain q ->
    (total (filter (fun c => negb (passes_on out c)) (seq 0 N)) q == total (seq 0 N) rain)%Q.
  Proof using V LD HB HN OUT.
    intros R. unfold total.
    assert (T : (qsum (map q (seq 0 N)) == qsum (map rain (seq 0 N)) + qsum (map (arriving out q) (seq 0 N)))%Q).
    { rewrite <- qsum_plus. apply qsum_ext. intros c Hc. apply in_seq in Hc. apply R. lia. }
    set (w := fun e : cascade => let '(u, _, f, _) := e in (fraction f * q (Z.to_nat (u - 1)))%Q).
    set (p := fun e : cascade => let '(u, d, _, _) := e in negb (u =? d)%Z).
    assert (A1 : (qsum (map (arriving out q) (seq 0 N)) == qsum (map w (filter p out)))%Q).
    { rewrite <- (@qsum_keys _ (fun e : cascade => Z.to_nat (snd (fst (fst e)) - 1)) p w N out).
      - apply qsum_ext. intros c _. unfold arriving. fold w.
        assert (E : filter (fun e : cascade => Nat.eqb (Z.to_nat (snd (fst (fst e)) - 1)) c && p e) out =
          filter (fun e : cascade => let '(u, d, _, _) := e in (d =? Z.of_nat c + 1)%Z && negb (u =? d)%Z) out); [|rewrite E; reflexivity].
        apply filter_ext_in. intros [[[u d] f] s] I. unfold p. cbn [fst snd]. f_equal.
        destruct (shape I) as (n & m & -> & -> & _). clear. destruct (Z.eqb_spec (Z.of_nat m + 1) (Z.of_nat c + 1)), (Nat.eqb_spec (Z.to_nat (Z.of_nat m + 1 - 1)) c); auto; lia.
      - intros [[[u d] f] s] I _. cbn [fst snd]. destruct (shape I) as (n & m & -> & -> & _ & Lm & _). lia. }
    assert (A2 : (qsum (map w (filter p out)) == qsum (map q (filter (passes_on out) (seq 0 N))))%Q).
    { rewrite <- (@qsum_keys _ (fun e : cascade => Z.to_nat (fst (fst (fst e)) - 1)) p w N out).
      2:{ intros [[[u d] f] s] I _. cbn [fst snd]. destruct (shape I) as (n & m & -> & -> & Ln & _). lia. }
      rewrite (qsum_ext (g := fun c => (if passes_on out c then 1 else 0) * q c)%Q).
      - clear. induction (seq 0 N) as [|x l IH]; [reflexivity|]. cbn [map filter]. rewrite qsum_cons, IH.
        destruct (passes_on out x); cbn [map]; [rewrite qsum_cons|]; ring.
      - intros n Hn. apply in_seq in Hn. rewrite <- leaving_whole by lia. rewrite <- qsum_scale.
        assert (E : filter (fun e : cascade => Nat.eqb (Z.to_nat (fst (fst (fst e)) - 1)) n && p e) out =
          filter (fun e : cascade => let '(u, d, _, _) := e in (u =? Z.of_nat n + 1)%Z && negb (u =? d)%Z) out).
        { apply filter_ext_in. intros [[[u d] f] s] I. unfold p. cbn [fst snd]. f_equal.
          destruct (shape I) as (n' & m & -> & -> & _). destruct (Z.eqb_spec (Z.of_nat n' + 1) (Z.of_nat n + 1)), (Nat.eqb_spec (Z.to_nat (Z.of_nat n' + 1 - 1)) n); auto; lia. }
        rewrite E. apply qsum_ext. intros [[[u d] f] s] I. apply filter_In in I. destruct I as [_ I]. apply andb_true_iff in I. destruct I as [I _].
        apply Z.eqb_eq in I. subst u. unfold w. replace (Z.to_nat (Z.of_nat n + 1 - 1)) with n by lia. reflexivity. }
    assert (SP := qsum_split (passes_on out) q (seq 0 N)). rewrite A1, A2 in T. rewrite T in SP. 
    apply (Qplus_inj_r _ _ (qsum (map q (filter (passes_on out) (seq 0 N))))). rewrite SP. ring.
  Qed.

  Hypothesis A : acyclic fdir.
  Hypothesis RUN : runs_on fdir strm basin.
  Notation hgt := (height q_lt fdir strm dem).
  Notation H := (2 * N + 1).

  Lemma hgt_le c : hgt c <= H.
  Proof using.
    clear. unfold height. destruct (riverb strm c); [assert (X := @rest_le fdir c); lia|].
    assert (X := filter_len (lowerb q_lt dem c) (seq 0 N)). rewrite seq_length in X. lia.
  Qed.
  Lemma from_above u d f s : In (u, d, f, s) out -> u <> d -> Z.to_nat (u - 1) < N /\ hgt (Z.to_nat (d - 1)) < hgt (Z.to_nat (u - 1)).
  Proof using V LD HB HN OUT A RUN.
    intros I ND. destruct (shape I) as (n & c & -> & -> & _).
    assert (HN' : forall c n, adjacent nb c n -> n < N) by (intros c' n' X; now apply HN in X).
    assert (LE : leads out n c) by (split; [intros ->; now apply ND|eauto]).
    destruct (height_decreases laws_here V LD HB HN' (fun _ _ _ => Logic.I) A RUN OUT LE) as (L1 & _ & L2).
    replace (Z.to_nat (Z.of_nat n + 1 - 1)) with n by lia. replace (Z.to_nat (Z.of_nat c + 1 - 1)) with c by lia. auto.
  Qed.
  Lemma arriving_ext q q' c : (forall u, u < N -> hgt c < hgt u -> (q u == q' u)%Q) -> (arriving out q c == arriving out q' c)%Q.
  Proof using V LD HB HN OUT A RUN.
    intros E. unfold arriving. apply qsum_ext. intros [[[u d] f] s] I. apply filter_In in I. destruct I as [I X].
    apply andb_true_iff in X. destruct X as [X1 X2]. apply Z.eqb_eq in X1. apply negb_true_iff, Z.eqb_neq in X2.
    destruct (from_above I X2) as [Lu LT]. subst d. replace (Z.to_nat (Z.of_nat c + 1 - 1)) with c in LT by lia. now rewrite (E _ Lu LT).
  Qed.

  (** the amounts exist and are unique: the cascades run in no circle *)
  Theorem C136_routing_is_defined rain : exists q, routed out N rain q /\
    forall q', routed out N rain q' -> forall c, c < N -> (q' c == q c)%Q.
  Proof using V LD HB HN OUT A RUN.
    set (it := fix it (k : nat) (c : nat) : Q := match k with O => rain c | S k => (rain c + arriving out (it k) c)%Q end).
    assert (ST : forall k c, H - hgt c <= k -> (it (S k) c == it k c)%Q).
    { induction k as [|k IH]; intros c Hk.
      - change ((rain c + arriving out (it 0%nat) c == rain c)%Q). 
        assert (Z : (arriving out (it 0%nat) c == arriving out (fun _ => 0%Q) c)%Q).
        { apply arriving_ext. intros u _ LT. assert (X := hgt_le u). lia. }
        rewrite Z. unfold arriving. rewrite qsum_zero; [ring|]. intros [[[u d] f] s] _. ring.
      - change ((rain c + arriving out (it (S k)) c == rain c + arriving out (it k) c)%Q).
        apply Qplus_inj_l. apply arriving_ext. intros u _ LT. apply IH. lia. }
    exists (it H). split.
    - intros c _. symmetry. apply (ST H c). lia.
    - intros q' R'.
      assert (G : forall k c, c < N -> H - hgt c <= k -> (q' c == it H c)%Q).
      { induction k as [|k IH]; intros c Lc Hk.
        - rewrite (R' c Lc), <- (ST H c) by lia. change ((rain c + arriving out q' c == rain c + arriving out (it H) c)%Q).
          apply Qplus_inj_l. apply arriving_ext. intros u _ LT. assert (X := hgt_le u). lia.
        - rewrite (R' c Lc), <- (ST H c) by lia. change ((rain c + arriving out q' c == rain c + arriving out (it H) c)%Q).
          apply Qplus_inj_l. apply arriving_ext. intros u Lu LT. apply IH; auto. lia. }
      intros c Lc. apply (G H); auto. lia.
  Qed.
End Water.

(** ** The line of PropsCircle.Gap with the whole stream: 8 units of rain on cell 0 and 4 on cell 2 *)
Module Ex.
  Import PropsCircle.Gap.
  Definition strm' : list Z := [0; 1; 1; 1]%Z.
  Definition out : list cascade := match qmany fdir strm' None tab (table_nb nb dem) with Ok o => o | Err _ => [] end.
  Example made : qmany fdir strm' None tab (table_nb nb dem) = Ok out.
  Proof. vm_compute. reflexivity. Qed.
  Definition rain (c : nat) : Q := nth c [8; 0; 4; 0]%Q 0%Q.
  Definition held (c : nat) : Q := nth c [8; 8; 12; 12]%Q 0%Q.
  Example routes : routed out 4 rain held /\ filter (fun c => negb (passes_on out c)) (seq 0 4) = [3].
  Proof.
    split; [|vm_compute; reflexivity]. intros c Hc. destruct c as [|[|[|[|c]]]]; [| | | |lia]; vm_compute; reflexivity.
  Qed.
  (** where many-to-one cascades multiply the water instead: two cells flow to a third one, and
      each of the two records is written three times (C53) *)
  Definition twice : list cascade := match cascades_one (Some 1%Q) [2; 2; 2]%Z [0; 0; 1]%Z None with Ok o => o | Err _ => [] end.
  Definition drop (c : nat) : Q := nth c [1; 1; 0]%Q 0%Q.
  Theorem C136_many_to_one_multiplies_refuted :
    valid_fdir [2; 2; 2]%Z /\ acyclic [2; 2; 2]%Z /\ cascades_one (Some 1%Q) [2; 2; 2]%Z [0; 0; 1]%Z None = Ok twice /\
    exists q, routed twice 3 drop q /\ filter (fun c => negb (passes_on twice c)) (seq 0 3) = [2] /\
      (total (seq 0 3) drop == 2)%Q /\ (total [2%nat] q == 6)%Q.
  Proof.
    split; [repeat constructor; cbn; lia|]. split.
    { assert (X : forall k, downs [2; 2; 2]%Z k 2 = 2) by (induction k; auto).
      intros n Hn [D [[|k] [Hk E]]]; [lia|]. destruct n as [|[|[|n]]]; cbn in Hn; [| |apply D; reflexivity|lia];
      [change (downs [2; 2; 2]%Z k 2 = 0) in E|change (downs [2; 2; 2]%Z k 2 = 1) in E]; rewrite X in E; discriminate. }
    split; [vm_compute; reflexivity|].
    exists (fun c => nth c [1; 1; 6]%Q 0%Q). split.
    - intros c Hc. destruct c as [|[|[|c]]]; [| | |lia]; vm_compute; reflexivity.
    - split; [vm_compute; reflexivity|]. split; vm_compute; reflexivity.
  Qed.
End Ex.
