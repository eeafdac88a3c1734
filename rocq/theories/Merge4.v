(** * The linear system of the merge: matrix and right-hand side *)

From Coq Require Import ZArith Reals List Bool Arith Lia Lra.
From Verif Require Import Num Vec MKnots MPoints MCurve MFit MMerge RNum Hoare Lists Struct Spec BMath BMath3 Api Bridge Facts1 Facts3 Gen3 Fit1 Merge1 Merge2 Merge3.
Import ListNotations.
Local Open Scope R_scope.

(** decide comparisons by [lia] *)
Ltac cmp :=
  repeat match goal with
  | |- context [Nat.leb ?a ?b] => first [replace (Nat.leb a b) with true by (symmetry; apply Nat.leb_le; lia) | replace (Nat.leb a b) with false by (symmetry; apply Nat.leb_gt; lia)]
  | |- context [Nat.ltb ?a ?b] => first [replace (Nat.ltb a b) with true by (symmetry; apply Nat.ltb_lt; lia) | replace (Nat.ltb a b) with false by (symmetry; apply Nat.ltb_ge; lia)]
  end; cbn [andb].

Section System.
  Context {p m dim : nat} {V : list R} {S_ : Mat RNum} {a : Curve RNum} (HA : clamped_curve p m dim V S_ a).
  Context {o : nat} {W : list R} {T_ : Mat RNum} {b : Curve RNum} (HB : clamped_curve p o dim W T_ b).
  Context (pa pb : list R) (Hp : (1 <= p)%nat).
  Notation na := (length pa).
  Notation nb := (length pb).

  (** the conditions on the [2 p] shifts: [p] for the joint, then the fixed points *)
  Definition con (r j : nat) : R :=
    if (r <? p)%nat then (if (j <? p)%nat then @lc p m V r j else - @rc p W r (j - p))
    else if (r <? p + na)%nat then (if (j <? p)%nat then @gl p m V pa (r - p) j else 0)
    else (if (j <? p)%nat then 0 else @gr p o W pb (r - (p + na)) (j - p)).
  Definition sg (r : nat) : R := if (r <? p)%nat then / 2 else - / 2.
  Definition Nf (x y : nat) : R :=
    if (x <? 2 * p)%nat then (if (y <? 2 * p)%nat then delta x y else sg (y - 2 * p) * con (y - 2 * p) x)
    else if (y <? 2 * p)%nat then con (x - 2 * p) y else 0.

  Lemma Nmat_R : exists N, @construct_Nmat RNum (mkCC a pa) (mkCC b pb) = Val N /\ shape (3 * p + na + nb) (3 * p + na + nb) N /\
    forall x y, (x < 3 * p + na + nb)%nat -> (y < 3 * p + na + nb)%nat -> ent N y x = Nf x y.
  Proof.
    assert (Wa := proj1 (cc_wf _ _ _ _ _ _ HA)). assert (Wb := proj1 (cc_wf _ _ _ _ _ _ HB)).
    unfold construct_Nmat. cbn [cc_curve cc_params]. rewrite (wf_degree Wa). rn. set (Q := (3 * p + na + nb)%nat).
    destruct (mset_view_val Q Q (2 * p) (2 * p) 0 0 (@mzeros RNum Q Q) (midentity (2 * p)) (mzeros_shape Q Q) (midentity_shape (2 * p)) ltac:(lia) ltac:(lia)) as [N1 [E1 [S1 H1]]].
    rewrite E1. cbn [bind].
    destruct (KV_R HA Hp) as [KV [F2 [G2 I2]]]. rewrite F2. cbn [bind].
    destruct (mset_view_val Q Q p p (2 * p) 0 N1 KV S1 G2 ltac:(lia) ltac:(lia)) as [N2 [E2 [S2 H2]]]. rewrite E2. cbn [bind].
    destruct (KW_R HB Hp) as [KW [F3 [G3 I3]]]. rewrite F3. cbn [bind].
    destruct (mset_view_val Q Q p p (2 * p) p N2 KW S2 G3 ltac:(lia) ltac:(lia)) as [N3 [E3 [S3 H3]]]. rewrite E3. cbn [bind].
    destruct (IV_R HA Hp) as [IV [F4 [G4 I4]]]. rewrite F4. cbn [bind].
    destruct (mset_view_val Q Q p p 0 (2 * p) N3 IV S3 G4 ltac:(lia) ltac:(lia)) as [N4 [E4 [S4 H4]]]. rewrite E4. cbn [bind].
    destruct (JW_R HB Hp) as [JW [F5 [G5 I5]]]. rewrite F5. cbn [bind].
    destruct (mset_view_val Q Q p p p (2 * p) N4 JW S4 G5 ltac:(lia) ltac:(lia)) as [N5 [E5 [S5 H5]]]. rewrite E5. cbn [bind].
    assert (O6 : exists N6, (if (0 <? na)%nat then GV <- calculateGV (mkCC a pa);; N <- mset_view N5 (3 * p) 0 na p GV;; Ip <- calculateIpV (mkCC a pa);; mset_view N 0 (3 * p) p na Ip else Val N5) = Val N6 /\
      shape Q Q N6 /\ forall x y, (x < Q)%nat -> (y < Q)%nat -> ent N6 y x =
        if ((x <? p) && ((3 * p <=? y) && (y <? 3 * p + na)))%nat%bool then - / 2 * @gl p m V pa (y - 3 * p) x
        else if (((3 * p <=? x) && (x <? 3 * p + na)) && (y <? p))%nat%bool then @gl p m V pa (x - 3 * p) y else ent N5 y x).
    { destruct (Nat.ltb_spec 0 na) as [Hn|Hn].
      - destruct (GV_R HA Hp pa Hn) as [GV [F6 [G6 I6]]]. rn. rewrite F6. cbn [bind].
        destruct (mset_view_val Q Q na p (3 * p) 0 N5 GV S5 G6 ltac:(lia) ltac:(lia)) as [N6 [E6 [S6 H6]]]. rn. rewrite E6. cbn [bind].
        destruct (IpV_R HA Hp pa Hn) as [Ip [F7 [G7 I7]]]. rn. rewrite F7. cbn [bind].
        destruct (mset_view_val Q Q p na 0 (3 * p) N6 Ip S6 G7 ltac:(lia) ltac:(lia)) as [N7 [E7 [S7 H7]]]. exists N7. split; [exact E7|]. split; [exact S7|].
        intros x y Hx Hy. rewrite H7, H6 by assumption. cbn [Nat.leb andb Nat.add]. rewrite !Nat.sub_0_r.
        destruct (Nat.ltb_spec x p) as [C1|C1]; cbn [andb].
        + destruct (Nat.leb_spec (3 * p) y), (Nat.ltb_spec y (3 * p + na)); cbn [andb]; try lia; try (rewrite I7 by lia; reflexivity); cmp; reflexivity.
        + destruct (Nat.leb_spec (3 * p) x), (Nat.ltb_spec x (3 * p + na)), (Nat.ltb_spec y p); cbn [andb]; try (rewrite I6 by lia; reflexivity); reflexivity.
      - exists N5. split; [reflexivity|]. split; [exact S5|]. intros x y Hx Hy.
        replace ((3 * p <=? y) && (y <? 3 * p + na))%nat%bool with false by (symmetry; apply andb_false_iff; destruct (le_lt_dec (3 * p) y); [right; apply Nat.ltb_ge|left; apply Nat.leb_gt]; lia).
        replace ((3 * p <=? x) && (x <? 3 * p + na))%nat%bool with false by (symmetry; apply andb_false_iff; destruct (le_lt_dec (3 * p) x); [right; apply Nat.ltb_ge|left; apply Nat.leb_gt]; lia).
        rewrite andb_false_r. reflexivity. }
    destruct O6 as [N6 [E6 [S6 H6]]]. rn. rewrite E6. cbn [bind].
    assert (O7 : exists N7, (if (0 <? nb)%nat then HW <- calculateHW (mkCC b pb);; N <- mset_view N6 (3 * p + na) p nb p HW;; J <- calculateJppW (mkCC b pb);; mset_view N p (3 * p + na) p nb J else Val N6) = Val N7 /\
      shape Q Q N7 /\ forall x y, (x < Q)%nat -> (y < Q)%nat -> ent N7 y x =
        if (((p <=? x) && (x <? p + p)) && (3 * p + na <=? y))%nat%bool then - / 2 * @gr p o W pb (y - (3 * p + na)) (x - p)
        else if ((3 * p + na <=? x) && ((p <=? y) && (y <? p + p)))%nat%bool then @gr p o W pb (x - (3 * p + na)) (y - p) else ent N6 y x).
    { destruct (Nat.ltb_spec 0 nb) as [Hn|Hn].
      - destruct (HW_R HB Hp pb Hn) as [HW [F7 [G7 I7]]]. rn. rewrite F7. cbn [bind].
        destruct (mset_view_val Q Q nb p (3 * p + na) p N6 HW S6 G7 ltac:(lia) ltac:(lia)) as [N7 [E7 [S7 H7]]]. rn. rewrite E7. cbn [bind].
        destruct (JppW_R HB Hp pb Hn) as [J [F8 [G8 I8]]]. rn. rewrite F8. cbn [bind].
        destruct (mset_view_val Q Q p nb p (3 * p + na) N7 J S7 G8 ltac:(lia) ltac:(lia)) as [N8 [E8 [S8 H8]]]. exists N8. split; [exact E8|]. split; [exact S8|].
        intros x y Hx Hy. rewrite H8, H7 by assumption. replace (y <? 3 * p + na + nb)%nat with true by (symmetry; apply Nat.ltb_lt; lia). replace (x <? 3 * p + na + nb)%nat with true by (symmetry; apply Nat.ltb_lt; lia).
        rewrite !andb_true_r.
        destruct (Nat.leb_spec p x), (Nat.ltb_spec x (p + p)), (Nat.leb_spec (3 * p + na) y), (Nat.leb_spec (3 * p + na) x), (Nat.leb_spec p y), (Nat.ltb_spec y (p + p)); cbn [andb];
          try lia; try reflexivity; first [rewrite I8 by lia; reflexivity|rewrite I7 by lia; reflexivity].
      - exists N6. split; [reflexivity|]. split; [exact S6|]. intros x y Hx Hy. cmp. rewrite andb_false_r. reflexivity. }
    destruct O7 as [N7 [E7 [S7 H7]]]. rn. rewrite E7. exists N7. split; [reflexivity|]. split; [exact S7|]. intros x y Hx Hy.
    rewrite H7, H6, H5, H4, H3, H2, H1 by assumption. rewrite ent_mzeros.
    assert (Bx : (x < p \/ p <= x < 2 * p \/ 2 * p <= x < 3 * p \/ 3 * p <= x < 3 * p + na \/ 3 * p + na <= x)%nat) by lia.
    assert (By : (y < p \/ p <= y < 2 * p \/ 2 * p <= y < 3 * p \/ 3 * p <= y < 3 * p + na \/ 3 * p + na <= y)%nat) by lia.
    unfold Nf, con, sg.
    destruct Bx as [Bx|[Bx|[Bx|[Bx|Bx]]]]; destruct By as [By|[By|[By|[By|By]]]]; cmp;
      rewrite ?ent_midentity by lia; rewrite ?I2, ?I3, ?I4, ?I5 by lia; rewrite ?Nat.sub_0_r; rn; unfold delta;
      try (rewrite (Nat.eqb_sym x y); reflexivity); try reflexivity; try ring;
      idtac.
    all: first [do 2 f_equal; lia | f_equal; lia].
  Qed.
End System.
