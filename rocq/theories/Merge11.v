(** * append and prepend *)

From Coq Require Import ZArith Reals List Bool Arith Lia Lra.
From Verif Require Import Num Vec MKnots MPoints MCurve MFit MMerge RNum Lists Spec Api Bridge Facts1 Merge1 Merge2 Merge10.
Import ListNotations.
Local Open Scope R_scope.

Theorem append_works svd p m dim V P a W Q b pa pb : (1 <= p)%nat ->
  clamped_curve p m dim V P a -> clamped_curve p m dim W Q b -> returning_solver svd ->
  (exists c, append svd a b = Val c /\ merge svd a b = Val (Ok c) /\ agree dim 0 c 0 a 0 /\ agree dim 0 c 1 b 1) /\
  (exists c, prepend svd a b = Val c /\ merge svd b a = Val (Ok c) /\ agree dim 0 c 0 b 0 /\ agree dim 0 c 1 a 1) /\
  ((length pa + length pb < p)%nat -> exists c, append_constrained svd a pa b pb = Val c /\
     merge_with_constraints svd (mkCC a pa) (mkCC b pb) = Val (Ok c) /\ agree dim 0 c 0 a 0 /\ agree dim 0 c 1 b 1) /\
  ((length pa + length pb < p)%nat -> exists c, prepend_constrained svd a pa b pb = Val c /\ agree dim 0 c 0 b 0 /\ agree dim 0 c 1 a 1).
Proof.
  intros Hp HA HB G. split; [|split; [|split]].
  - destruct (merge_untouched svd p m dim V P a W Q b [] [] Hp HA HB G ltac:(simpl; lia)) as [c [U [C [E [_ [_ [_ [_ [A B]]]]]]]]].
    exists c. change (merge_with_constraints svd (mkCC a []) (mkCC b [])) with (merge svd a b) in E.
    split; [unfold append; rewrite E; reflexivity|]. auto.
  - destruct (merge_untouched svd p m dim W Q b V P a [] [] Hp HB HA G ltac:(simpl; lia)) as [c [U [C [E [_ [_ [_ [_ [A B]]]]]]]]].
    exists c. change (merge_with_constraints svd (mkCC b []) (mkCC a [])) with (merge svd b a) in E.
    split; [unfold prepend; rewrite E; reflexivity|]. auto.
  - intros Hl. destruct (merge_untouched svd p m dim V P a W Q b pa pb Hp HA HB G Hl) as [c [U [C [E [_ [_ [_ [_ [A B]]]]]]]]].
    exists c. split; [unfold append_constrained; rewrite E; reflexivity|]. auto.
  - intros Hl. destruct (merge_untouched svd p m dim W Q b V P a pa pb Hp HB HA G Hl) as [c [U [C [E [_ [_ [_ [_ [A B]]]]]]]]].
    exists c. split; [unfold prepend_constrained; rewrite E; reflexivity|]. auto.
Qed.

Theorem append_panics svd p m dim V P a p' o dim' W Q b pa pb :
  @sized RNum p m dim V P -> @built RNum p V P a -> @sized RNum p' o dim' W Q -> @built RNum p' W Q b ->
  p <> p' \/ dim <> dim' \/ ~ (ends_clamped p V /\ ends_clamped p' W) \/ ~ (spans_unit V /\ spans_unit W) ->
  append svd a b = Panic /\ prepend svd a b = Panic /\ append_constrained svd a pa b pb = Panic /\ prepend_constrained svd a pa b pb = Panic.
Proof.
  intros SA BA SB BB H.
  assert (E : forall x y, exists e, merge_with_constraints svd (mkCC a x) (mkCC b y) = Val (Err e)).
  { intros x y. destruct (merge_refuses svd p m dim V P a p' o dim' W Q b x y SA BA SB BB) as [R1 [R2 [R3 [R4 _]]]].
    destruct (Nat.eq_dec p p') as [Ep|Ep]; [|eexists; apply R1; exact Ep].
    destruct (Nat.eq_dec dim dim') as [Ed|Ed]; [|eexists; apply R2; assumption].
    destruct H as [H|[H|H]]; [contradiction|contradiction|].
    destruct (Classical_Prop.classic (ends_clamped p V /\ ends_clamped p W)) as [C|C]; [|eexists; apply R3; assumption].
    destruct H as [H|H]; [rewrite <- Ep in H; contradiction|]. eexists. apply R4; try assumption; apply C. }
  assert (E' : forall x y, exists e, merge_with_constraints svd (mkCC b x) (mkCC a y) = Val (Err e)).
  { intros x y. destruct (merge_refuses svd p' o dim' W Q b p m dim V P a x y SB BB SA BA) as [R1 [R2 [R3 [R4 _]]]].
    destruct (Nat.eq_dec p' p) as [Ep|Ep]; [|eexists; apply R1; exact Ep].
    destruct (Nat.eq_dec dim' dim) as [Ed|Ed]; [|eexists; apply R2; assumption].
    destruct H as [H|[H|H]]; [congruence|congruence|].
    destruct (Classical_Prop.classic (ends_clamped p' W /\ ends_clamped p' V)) as [C|C]; [|eexists; apply R3; assumption].
    destruct H as [H|H]; [rewrite <- Ep in H; tauto|]. eexists. apply R4; try assumption; try apply C. tauto. }
  unfold append, prepend, append_constrained, prepend_constrained, merge.
  destruct (E [] []) as [e1 ->]. destruct (E' [] []) as [e2 ->]. destruct (E pa pb) as [e3 ->]. destruct (E' pa pb) as [e4 ->].
  repeat split.
Qed.
