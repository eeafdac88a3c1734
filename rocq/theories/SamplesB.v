(** * A curve obtained by several manipulations *)

From Coq Require Import ZArith Reals List Bool Arith Lia Lra Permutation.
From Verif Require Import Num Vec MKnots MPoints MCurve RNum Lists Struct Spec Api Bridge Facts1 Facts3 Facts5 Facts6 Facts8 Samples.
Import ListNotations.
Local Open Scope R_scope.

Lemma count_rev (l : list R) x : count_occ Req_EM_T (rev l) x = count_occ Req_EM_T l x.
Proof. apply Permutation_count_occ. symmetry. apply Permutation_rev. Qed.

Lemma mult_mirror U x : mult (map (fun y => 1 - y) (rev U)) x = mult U (1 - x).
Proof.
  unfold mult. rewrite <- (count_rev U (1 - x)). induction (rev U) as [|y l IH]; [reflexivity|]. cbn [map count_occ].
  destruct (Req_EM_T (1 - y) x), (Req_EM_T y (1 - x)); try lra; rewrite IH; reflexivity.
Qed.

Lemma made_sample : exists c c1 c2 cl cr, @made RNum True c /\ curve_insert c (1/4) = Val (c1, Ok tt) /\ reverse c1 = Val c2 /\
  split c2 (1/4) = Val (Ok (cl, cr)) /\ made True cr.
Proof.
  destruct curve_a as [c H].
  destruct (curve_insert_exact 2 3 2 U_a P_a c (1/4) H ltac:(lra) ltac:(rewrite mult_a_4; lia) ltac:(apply simple_a; lra)) as [c1 [U1 [P1 [E1 [H1 [Pe _]]]]]].
  destruct (reverse_fact _ _ _ _ _ _ H1) as [c2 [E2 [H2 _]]].
  assert (Q : forall x, 0 < x < 1 -> (mult U1 x <= 1)%nat).
  { intros x Hx. rewrite <- (mult_perm _ _ x Pe). unfold mult, U_a. cbn [count_occ]. repeat destruct Req_EM_T; try lra; lia. }
  destruct (split_exact _ _ _ _ _ _ (1/4) H2 ltac:(lra)) as [cl [cr [nl [nr [Ul [Pl [Ur [Pr [E3 _]]]]]]]]].
  - rewrite mult_mirror. specialize (Q (1 - 1/4) ltac:(lra)). lia.
  - intros x Hx. rewrite mult_mirror. apply Q. lra.
  - exists c, c1, c2, cl, cr.
    assert (M0 : @made RNum True c) by (apply (made_new True 2 3 2 U_a P_a); [apply clamped_sized; apply H|apply H]).
    assert (M1 : made True c1) by (apply (made_insert True c (1/4) c1 (Ok tt) M0 E1)).
    assert (M2 : made True c2) by (apply (made_reverse True c1 c2 I M1 E2)).
    split; [exact M0|]. split; [exact E1|]. split; [exact E2|]. split; [exact E3|]. apply (made_right True c2 (1/4) cl cr M2 E3).
Qed.
