(** C70 exactly: the records of the many-to-one cascades with a basin boundary. *)
From Verif Require Import Py Spec MStream LGraph LStream LRun LCasc PropsCasc.
Set Implicit Arguments.
Unset Strict Implicit.
Local Open Scope nat_scope.
Local Open Scope list_scope.

Lemma inside_dec basin c : inside basin c \/ ~ inside basin c.
Proof.
  destruct basin as [b|]; [|left; exact I]. unfold inside.
  destruct (nth_error b c) as [v|] eqn:E.
  - destruct (Z.eq_dec v 0) as [->|H]; [right; intros [w [H1 H2]]; congruence|left; eauto].
  - right. intros [w [H1 H2]]. congruence.
Qed.

Section Exactly.
  Context {F : Type} (one : F).
  Variables fdir strm : list Z.
  Hypothesis V : valid_fdir fdir.
  Hypothesis HL : length strm = length fdir.
  Notation N := (length fdir).

  (** As a set: the flow links whose two ends lie inside, and one self-link for every outside
      cell that an inside cell flows to. *)
  Theorem C70_records_exactly basin : basin_fits basin N ->
    exists out, cascades_one one fdir strm basin = Ok out /\
      forall u d f s, In (u, d, f, s) out <->
        f = one /\
        exists c, c < N /\ inside basin c /\ d = (Z.of_nat (down fdir c) + 1)%Z /\ s = nth (down fdir c) strm 0%Z /\
          ((inside basin (down fdir c) /\ u = (Z.of_nat c + 1)%Z) \/
           (~ inside basin (down fdir c) /\ u = d)).
  Proof.
    intros B. destruct (@one_shape F one fdir strm V HL basin B) as [m [L [I1 [I2 E]]]].
    eexists. split; [exact E|]. intros u d f s.
    assert (P9 : forall c, c < N -> (nth c m 0 = -9)%Z <-> ~ inside basin c).
    { intros c Hc. split; [|now apply I2]. intros H Hi. rewrite I1 in H by auto. lia. }
    split.
    - intros Hi. apply in_map_iff in Hi. destruct Hi as [[u' d'] [H Hi]]. simpl in H. inversion H; subst. clear H.
      split; auto. apply in_flat_map in Hi. destruct Hi as [h [Hh Hi]].
      destruct (nth_in_bounds _ _ Hh) as [c0 [Hc0 E0]]. rewrite L in Hc0.
      unfold one_entry in Hi. destruct (Z.eqb_spec h (-9)) as [|N9]; [contradiction|].
      destruct (inside_dec basin c0) as [J|J]; [|now rewrite I2 in E0 by auto; congruence].
      rewrite I1 in E0 by auto. subst h. assert (HD := down_lt V Hc0). rewrite Nat2Z.id in Hi.
      apply in_map_iff in Hi. destruct Hi as [x [Hx Hi]]. inversion Hx; subst x d'. clear Hx. rewrite Nat2Z.id.
      destruct (Z.eqb_spec (nth (down fdir c0) m 0%Z) (-9)) as [X|X].
      + destruct Hi as [<-|[]]. exists c0. repeat split; auto. right. split; auto. now apply P9.
      + apply in_map_iff in Hi. destruct Hi as [c [<- Hi]]. apply in_where_nth with (d := 0%Z) in Hi.
        destruct Hi as [Hc Hi]. apply Z.eqb_eq in Hi. rewrite L in Hc.
        destruct (inside_dec basin c) as [Jc|Jc]; [|rewrite I2 in Hi by auto; lia].
        rewrite I1 in Hi by auto. apply Nat2Z.inj in Hi. exists c. rewrite <- Hi. repeat split; auto. left. split; auto.
        destruct (inside_dec basin (down fdir c0)) as [K|K]; auto. exfalso. apply X. now apply I2.
    - intros [-> [c [Hc [J [-> [-> D]]]]]]. assert (HD := down_lt V Hc).
      apply in_map_iff. exists (u - 1, Z.of_nat (down fdir c))%Z. simpl. rewrite Nat2Z.id.
      replace (u - 1 + 1)%Z with u by lia. split; auto.
      apply in_flat_map. exists (nth c m 0%Z). split; [apply nth_In; lia|]. rewrite I1 by auto.
      unfold one_entry. destruct (Z.eqb_spec (Z.of_nat (down fdir c)) (-9)); [lia|]. rewrite Nat2Z.id.
      apply in_map_iff. exists (u - 1)%Z. split; auto.
      destruct D as [[K ->]|[K ->]].
      + destruct (Z.eqb_spec (nth (down fdir c) m 0%Z) (-9)) as [X|_]; [now apply P9 in X|].
        apply in_map_iff. exists c. split; [lia|]. apply in_where_nth with (d := 0%Z). split; [lia|]. rewrite I1 by auto. apply Z.eqb_refl.
      + rewrite I2 by auto. rewrite Z.eqb_refl. left. lia.
  Qed.

  (** every record starts and ends inside exactly if no cell of the basin flows out of it *)
  Theorem C70_closed_basins basin : basin_fits basin N ->
    exists out, cascades_one one fdir strm basin = Ok out /\
      ((forall u d f s, In (u, d, f, s) out -> exists a b, u = (Z.of_nat a + 1)%Z /\ d = (Z.of_nat b + 1)%Z /\
          inside basin a /\ inside basin b)
       <-> forall c, c < N -> inside basin c -> inside basin (down fdir c)).
  Proof.
    intros B. destruct (C70_records_exactly B) as [out [E S]]. exists out. split; auto. split.
    - intros H c Hc J. destruct (inside_dec basin (down fdir c)) as [K|K]; auto.
      destruct (H (Z.of_nat (down fdir c) + 1)%Z (Z.of_nat (down fdir c) + 1)%Z one (nth (down fdir c) strm 0%Z)) as [a [b [_ [Eb [_ Jb]]]]].
      { apply S. split; auto. exists c. repeat split; auto. }
      assert (b = down fdir c) by lia. now subst b.
    - intros H u d f s Hi. apply S in Hi. destruct Hi as [_ [c [Hc [J [-> [_ [[K ->]|[K _]]]]]]]].
      + exists c, (down fdir c). auto.
      + now apply H in J.
  Qed.
End Exactly.

Module Ex70.
  (** basin {1, 2} of a row of four; cell 1 flows out of it, to cell 0 *)
  Example hyp : basin_fits (Some [0; 1; 1; 0]%Z) 4 /\ valid_fdir [0; 0; 1; 2]%Z.
  Proof. split; [reflexivity|]. repeat constructor; simpl; lia. Qed.
  Example records : cascades_one tt [0; 0; 1; 2]%Z [0; 0; 0; 0]%Z (Some [0; 1; 1; 0]%Z) =
    Ok [(1, 1, tt, 0); (3, 2, tt, 0)]%Z.
  Proof. vm_compute. reflexivity. Qed.
End Ex70.
