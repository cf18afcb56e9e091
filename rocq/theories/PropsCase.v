(** C16: what "case-insensitive" means, without [lower]: the spellings of a method name are the
    strings that differ from it letter by letter in case only. *)
From Coq Require Import String Ascii.
From Verif Require Import Py Spec MHeap MFill LFill3 PropsFill.
Set Implicit Arguments.
Unset Strict Implicit.
Local Open Scope nat_scope.
Local Open Scope list_scope.
Local Notation length := List.length.

(** *** Specification *)
Definition capitals : string := "ABCDEFGHIJKLMNOPQRSTUVWXYZ".
Definition smalls : string := "abcdefghijklmnopqrstuvwxyz".

(** [a] is a capital and [b] the same letter in small *)
Definition capital_of (a b : ascii) : Prop :=
  exists i, String.get i capitals = Some a /\ String.get i smalls = Some b.

(** the same character up to case, the same string up to case *)
Definition same_char (a b : ascii) : Prop := a = b \/ capital_of a b \/ capital_of b a.
Inductive spelled : string -> string -> Prop :=
| spelled_nil : spelled EmptyString EmptyString
| spelled_cons a b s t : same_char a b -> spelled s t -> spelled (String a s) (String b t).

(** *** [lower] *)
Definition caps_ok (a b : ascii) : bool :=
  existsb (fun i => match String.get i capitals, String.get i smalls with
                    | Some x, Some y => Ascii.eqb x a && Ascii.eqb y b | _, _ => false end) (seq 0 26).

Lemma caps_ok_iff a b : caps_ok a b = true <-> capital_of a b.
Proof.
  unfold caps_ok. rewrite existsb_exists. split.
  - intros [i [_ H]]. exists i. destruct (String.get i capitals) as [x|]; [|discriminate].
    destruct (String.get i smalls) as [y|]; [|discriminate]. apply andb_prop in H. destruct H as [H1 H2].
    apply Ascii.eqb_eq in H1, H2. subst. auto.
  - intros [i [H1 H2]]. exists i. split.
    + apply in_seq. split; [lia|]. destruct (le_lt_dec 26 i) as [L|L]; [|lia]. exfalso.
      clear H2. do 26 (destruct i as [|i]; [lia|]). simpl in H1. discriminate.
    + rewrite H1, H2. now rewrite !Ascii.eqb_refl.
Qed.

Definition same_b (a b : ascii) : bool := Ascii.eqb a b || caps_ok a b || caps_ok b a.
Lemma same_b_iff a b : same_b a b = true <-> same_char a b.
Proof. unfold same_b, same_char. rewrite !orb_true_iff, !caps_ok_iff, Ascii.eqb_eq. tauto. Qed.

Definition all_chars : list ascii := map ascii_of_nat (seq 0 256).
Lemma all_chars_all a : In a all_chars.
Proof.
  unfold all_chars. apply in_map_iff. exists (nat_of_ascii a). split; [apply ascii_nat_embedding|].
  apply in_seq. assert (H := nat_ascii_bounded a). lia.
Qed.

Lemma lower_table : forallb (fun a => forallb (fun b => Bool.eqb (Ascii.eqb (lower_ascii a) (lower_ascii b)) (same_b a b)) all_chars) all_chars = true.
Proof. vm_compute. reflexivity. Qed.

Lemma lower_ascii_iff a b : lower_ascii a = lower_ascii b <-> same_char a b.
Proof.
  rewrite <- same_b_iff, <- Ascii.eqb_eq. assert (H := lower_table). rewrite forallb_forall in H.
  specialize (H a (all_chars_all a)). cbv beta in H. rewrite forallb_forall in H. specialize (H b (all_chars_all b)).
  cbv beta in H. apply Bool.eqb_prop in H. rewrite H. tauto.
Qed.

Lemma lower_iff s : forall t, lower s = lower t <-> spelled s t.
Proof.
  induction s as [|a s IH]; intros [|b t]; simpl; split; intros H; try discriminate; try solve [inversion H]; auto using spelled_nil.
  - inversion H. constructor; [now apply lower_ascii_iff|now apply IH].
  - inversion H; subst. f_equal; [now apply lower_ascii_iff|now apply IH].
Qed.

Lemma lower_word w method : lower w = w -> (lower method = w <-> spelled method w).
Proof. intros H. rewrite <- lower_iff, H. tauto. Qed.

(** *** The theorems *)
Section Dispatch.
  Context {T : Type} (E : elev T) (fuel : nat) (iverts nb : list (list nat)) (dem : list T).
  Notation fill := (fill_sinks E fuel iverts nb dem).

  (** C16: two spellings of one name do the same *)
  Theorem C16_any_spelling eps mask m1 m2 : spelled m1 m2 -> fill eps mask m1 = fill eps mask m2.
  Proof. intros H. apply C16_case_insensitive. now apply lower_iff. Qed.

  (** the four cases of the method argument, for every string *)
  Theorem C16_every_name eps mask method :
    (spelled method "complete" -> fill eps mask method = fill (e_zero E) mask "priority") /\
    (spelled method "priority" -> fill eps mask method = fill eps mask "priority") /\
    (~ spelled method "complete" -> ~ spelled method "priority" ->
       fill eps mask method = match mask with
                              | Some _ => fill eps mask "priority"
                              | None => fill eps None "drain" end).
  Proof.
    split; [|split].
    - intros H. apply C16_complete_is_priority_with_eps_0. now apply lower_word.
    - intros H. now apply C16_any_spelling.
    - intros H1 H2. assert (L1 : lower method <> "complete"%string) by (intros H; apply H1; now apply lower_word).
      assert (L2 : lower method <> "priority"%string) by (intros H; apply H2; now apply lower_word).
      destruct mask as [m|]; [now apply C16_mask_forces_priority|].
      unfold fill_sinks. destruct (identify_edge_nodes iverts); auto. cbn [bind].
      destruct (String.eqb_spec (lower method) "priority"); [contradiction|].
      destruct (String.eqb_spec (lower method) "complete"); [contradiction|]. reflexivity.
  Qed.
End Dispatch.

Section NanDispatch.
  Context {T : Type} (a : aggs T) (fuel : nat) (nb : list (list nat)) (dem : list (option T)).

  (** C16: the names of the fill_nan_values methods, for every string: a string that spells none
      of the four is refused as soon as there is a NaN to fill *)
  Theorem C16_nan_any_spelling m1 m2 : spelled m1 m2 -> fill_nan fuel nb a m1 dem = fill_nan fuel nb a m2 dem.
  Proof. intros H. apply lower_iff in H. unfold fill_nan, nan_agg. now rewrite H. Qed.

  Theorem C16_nan_other_names_refused method n :
    ~ spelled method "mean" -> ~ spelled method "median" -> ~ spelled method "min" -> ~ spelled method "max" ->
    (forall i l j, nth_error nb i = Some l -> In j l -> j < length dem) -> length nb = length dem ->
    nth_error dem n = Some None -> 0 < fuel ->
    fill_nan fuel nb a method dem = Err NotImplementedError.
  Proof.
    intros H1 H2 H3 H4 HB HL Hn Hf. unfold fill_nan, nan_agg.
    destruct (String.eqb_spec (lower method) "mean") as [X|_]; [exfalso; apply H1; now apply lower_word|].
    destruct (String.eqb_spec (lower method) "median") as [X|_]; [exfalso; apply H2; now apply lower_word|].
    destruct (String.eqb_spec (lower method) "min") as [X|_]; [exfalso; apply H3; now apply lower_word|].
    destruct (String.eqb_spec (lower method) "max") as [X|_]; [exfalso; apply H4; now apply lower_word|].
    assert (I : In n (rev (where_ isnan dem))).
    { rewrite <- in_rev. apply in_where. exists None. auto. }
    destruct (rev (where_ isnan dem)) as [|c st] eqn:Es; [destruct I|]. destruct fuel as [|f]; [lia|].
    assert (Hc : In c (rev (where_ isnan dem))) by (rewrite Es; now left). rewrite <- in_rev in Hc.
    apply in_where in Hc. destruct Hc as [x [Hc _]]. assert (Lc : c < length nb) by (rewrite HL; apply nth_error_Some; congruence).
    simpl. destruct (nth_error nb c) as [l|] eqn:El; [|apply nth_error_None in El; lia]. cbn [bind].
    assert (M : exists vs, mapM (get dem) l = Ok vs).
    { assert (B : forall j, In j l -> j < length dem) by (intros j Hj; exact (HB c l j El Hj)).
      clear -B. induction l as [|j l IH]; [now exists []|]. destruct IH as [vs Hv]; [intros; apply B; now right|].
      destruct (nth_error dem j) as [x|] eqn:Ej; [|apply nth_error_None in Ej; specialize (B j (or_introl eq_refl)); lia].
      exists (x :: vs). simpl. unfold get at 1. rewrite Ej. simpl. now rewrite Hv. }
    destruct M as [vs ->]. reflexivity.
  Qed.
End NanDispatch.

(** ** Examples *)
Module ExCase.
  Example e1 : spelled "PriOrity" "priority". Proof. apply lower_iff. reflexivity. Qed.
  Example e2 : spelled "COMPLETE" "complete". Proof. apply lower_iff. reflexivity. Qed.
  Example e3 : ~ spelled "priority " "priority". Proof. rewrite <- lower_iff. discriminate. Qed.
  Example e4 : spelled "MAX" "max". Proof. apply lower_iff. reflexivity. Qed.
  Example e5 : ~ spelled "average" "mean". Proof. rewrite <- lower_iff. discriminate. Qed.
End ExCase.
