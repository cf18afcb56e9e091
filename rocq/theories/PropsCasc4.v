(** C130: many-to-one cascades limited to a watershed delineated by the package itself. *)
From Verif Require Import Py Spec MFlow MStream LGraph LStream LRun LCasc LWs PropsBasin PropsCasc PropsCasc3.
Set Implicit Arguments.
Unset Strict Implicit.
Local Open Scope nat_scope.
Local Open Scope list_scope.

(** C130: the links of the cells upstream of the pour point, which all end inside, and one self-link
    at the cell below the pour point (at the pour point itself if it is terminal) *)
Theorem C130_cascades_of_a_watershed :
  forall (F : Type) (one : F) fdir strm pour fuel,
    valid_fdir fdir -> length strm = length fdir -> pour < length fdir -> length fdir <= fuel ->
    ~ on_cycle fdir pour ->
    exists basin out,
      get_watershed_boundary fuel fdir (Z.of_nat pour) None = Ok basin /\
      cascades_one one fdir strm (Some basin) = Ok out /\
      forall u d f s, In (u, d, f, s) out <->
        f = one /\
        ((exists c, c < length fdir /\ c <> pour /\ flows_through fdir c pour /\
            u = (Z.of_nat c + 1)%Z /\ d = (Z.of_nat (down fdir c) + 1)%Z /\ s = nth (down fdir c) strm 0%Z) \/
         (u = (Z.of_nat (down fdir pour) + 1)%Z /\ d = u /\ s = nth (down fdir pour) strm 0%Z)).
Proof.
  intros F one fdir strm pour fuel V HL Hp Hf NC.
  destruct (C24_watershed_is_upstream V Hp Hf) as [basin [EB [LB HB]]].
  assert (BF : basin_fits (Some basin) (length fdir)) by exact LB.
  destruct (@C70_records_exactly F one fdir strm V HL (Some basin) BF) as [out [EO HO]].
  exists basin, out. split; auto. split; auto.
  assert (INS : forall c, c < length fdir -> flows_through fdir c pour -> inside (Some basin) c).
  { intros c Hc H. exists 1%Z. split; [now apply HB|discriminate]. }
  assert (OUT : forall c, c < length fdir -> ~ flows_through fdir c pour -> ~ inside (Some basin) c).
  { intros c Hc H [v [Hv Nv]]. destruct (HB c Hc) as [_ Z]. rewrite (Z H) in Hv. congruence. }
  assert (UP : forall c, c < length fdir -> inside (Some basin) c -> ~ ~ flows_through fdir c pour).
  { intros c Hc J H. now apply (OUT c Hc H). }
  assert (STEP : forall c, c <> pour -> flows_through fdir c pour -> flows_through fdir (down fdir c) pour).
  { intros c Hne [k Hk]. destruct k as [|k]; [now elim Hne|]. exists k. exact Hk. }
  intros u d f s. rewrite HO. split.
  - intros [-> [c [Hc [J [-> [-> D]]]]]]. split; auto.
    destruct (Nat.eq_dec c pour) as [->|NE].
    + right. destruct D as [[K ->]|[K ->]]; auto. split; [|split; auto].
      * (* the cell below lies inside: then the pour point is terminal *)
        destruct (Nat.eq_dec (down fdir pour) pour) as [->|ND]; auto. exfalso.
        assert (HD := down_lt V Hp). apply (UP _ HD K). intros [k Hk]. apply NC. split; [exact ND|].
        exists (S k). split; [lia|]. exact Hk.
      * destruct (Nat.eq_dec (down fdir pour) pour) as [->|ND]; auto. exfalso.
        assert (HD := down_lt V Hp). apply (UP _ HD K). intros [k Hk]. apply NC. split; [exact ND|].
        exists (S k). split; [lia|]. exact Hk.
    + assert (FT : flows_through fdir c pour).
      { destruct (HB c Hc) as [_ Z]. destruct J as [v [Hv Nv]].
        destruct (@flows_dec fdir V c pour Hc) as [|H]; auto. rewrite (Z H) in Hv. congruence. }
      left. exists c. destruct D as [[K ->]|[K ->]]; [repeat split; auto|].
      exfalso. apply K, INS; [now apply down_lt|now apply STEP].
  - intros [-> [[c [Hc [NE [FT [-> [-> ->]]]]]]|[-> [-> ->]]]]; split; auto.
    + exists c. repeat split; auto. left. split; auto. apply INS; [now apply down_lt|now apply STEP].
    + assert (HD := down_lt V Hp). exists pour. repeat split; auto; [apply INS; auto; now exists 0|].
      destruct (Nat.eq_dec (down fdir pour) pour) as [E|ND].
      * left. rewrite E. split; auto. apply INS; auto. now exists 0.
      * right. split; auto. apply OUT; auto. intros [k Hk]. apply NC. split; [exact ND|].
        exists (S k). split; [lia|]. exact Hk.
Qed.

(** ** Example: 4 -> 3 -> 1 -> 0, 2 -> 1; the watershed of cell 1 *)
Module ExW.
  Definition fdir : list Z := [0; 0; 1; 1; 3]%Z.
  Example basin : get_watershed_boundary 5 fdir 1%Z None = Ok [0; 1; 1; 1; 1]%Z.
  Proof. vm_compute. reflexivity. Qed.
  Example records : cascades_one tt fdir [0; 0; 0; 0; 0]%Z (Some [0; 1; 1; 1; 1]%Z) =
    Ok [(1, 1, tt, 0); (3, 2, tt, 0); (4, 2, tt, 0); (3, 2, tt, 0); (4, 2, tt, 0); (5, 4, tt, 0)]%Z.
  Proof. vm_compute. reflexivity. Qed.
  Example hyp : ~ on_cycle fdir 1.
  Proof.
    intros [_ [k [H1 H2]]]. destruct k as [|k]; [lia|].
    assert (X : forall j, downs fdir j 0 = 0) by (induction j; auto; rewrite downs_S, IHj; reflexivity).
    cbn [downs] in H2. change (down fdir 1) with 0 in H2. rewrite X in H2. discriminate.
  Qed.
End ExW.
