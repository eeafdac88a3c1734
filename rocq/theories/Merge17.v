(** * What prepend_constrained holds *)

From Coq Require Import Reals List Arith Lra Lia.
From Verif Require Import Num Vec MKnots MPoints MCurve MFit MMerge RNum Spec Api Merge10.
Import ListNotations.
Local Open Scope R_scope.

Lemma prepend_holds svd m dim V P s W Q o ps po :
  clamped_curve 2 m dim V P s -> clamped_curve 2 m dim W Q o -> good_solver svd -> (length ps + length po < 2)%nat ->
  (forall u, In u ps -> 0 <= u <= 1) -> (forall u, In u po -> 0 <= u <= 1) ->
  exists c, prepend_constrained svd s ps o po = Val c /\
    (forall u, In u ps -> agree dim 0 c (u / 2) o u) /\ (forall u, In u po -> agree dim 0 c ((1 + u) / 2) s u).
Proof.
  intros HS HO G Hl I1 I2. destruct (constrained_points svd m dim W Q o V P s ps po HO HS G Hl I1 I2) as [c [E R]].
  exists c. split; [|exact R]. unfold prepend_constrained. rewrite E. reflexivity.
Qed.
