(** * Properties C93 - C96: merging curves that fit, mirror images, affine maps, solvers *)

From Coq Require Import ZArith Reals List Bool Arith Lra Lia ClassicalEpsilon.
From Verif Require Import Num Vec MKnots MPoints MCurve MFit MGenerate MMerge RNum Lists Spec Api Bridge Samples Facts8 Fit7 Merge12.
Import ListNotations.
Local Open Scope R_scope.

(** ** C93.  Curves that already meet smoothly are joined as they are; so splitting at
    1/2 and merging gives the curve back. *)
Theorem C93_smooth : forall svd p n dim V W P Q a b pa pb, clamped_curve p n dim V P a -> clamped_curve p n dim W Q b -> good_solver svd -> p = 1%nat \/ p = 2%nat ->
  (length pa + length pb < p)%nat -> (forall u, In u pa -> 0 <= u <= 1) -> (forall u, In u pb -> 0 <= u <= 1) ->
  (forall k, (k < p)%nat -> agree dim k a 1 b 0) ->
  exists c, merge_with_constraints svd (mkCC a pa) (mkCC b pb) = Val (Ok c) /\
    forall t, 0 <= t <= 1 -> evaluate c (t / 2) = evaluate a t /\ evaluate c ((1 + t) / 2) = evaluate b t.
Proof. exact merge_smooth. Qed.
Print Assumptions C93_smooth.

Theorem C93_split_and_merge : forall svd p n m dim U P c cl cr Ul Pl Ur Pr, clamped_curve p n dim U P c -> good_solver svd -> p = 1%nat \/ p = 2%nat ->
  (mult U (1/2) <= 1)%nat -> simple_below U (1/2) -> split c (1/2) = Val (Ok (cl, cr)) -> clamped_curve p m dim Ul Pl cl -> clamped_curve p m dim Ur Pr cr ->
  exists c', merge svd cl cr = Val (Ok c') /\ forall u, 0 <= u <= 1 -> evaluate c' u = evaluate c u.
Proof. exact split_merge. Qed.
Print Assumptions C93_split_and_merge.

Example C93_hypotheses : exists svd c cl cr Ul Pl Ur Pr, good_solver svd /\ clamped_curve 2 3 2 U_a P_a c /\ (mult U_a (1/2) <= 1)%nat /\ simple_below U_a (1/2) /\
  split c (1/2) = Val (Ok (cl, cr)) /\ clamped_curve 2 2 2 Ul Pl cl /\ clamped_curve 2 2 2 Ur Pr cr /\ (forall k, (k < 2)%nat -> agree 2 k cl 1 cr 0).
Proof.
  exists some_solver. destruct curve_a as [c H]. assert (M : (mult U_a (1/2) <= 1)%nat) by (rewrite mult_a; lia). assert (SB := simple_a (1/2) ltac:(lra)).
  destruct (split_exact 2 3 2 U_a P_a c (1/2) H ltac:(lra) ltac:(lia) SB) as [cl [cr [nl [nr [Ul [Pl [Ur [Pr [ES [HL [HR [EN _]]]]]]]]]]]].
  assert (D1 := cl_deg _ _ _ (proj1 HL)). assert (D2 := cl_deg _ _ _ (proj1 HR)). rewrite mult_a in EN. assert (nl = 2 /\ nr = 2)%nat as [-> ->] by lia.
  exists c, cl, cr, Ul, Pl, Ur, Pr. split; [exact some_solver_good|]. do 6 (split; [assumption|]). apply (split_meets 2 3 2 U_a P_a c cl cr H ltac:(lia) M SB ES).
Qed.

(** ** C94.  Merging the reversed curves in the opposite order gives the merged curve
    run backwards. *)
Theorem C94_reverse : forall svd p n dim V W P Q a b, clamped_curve p n dim V P a -> clamped_curve p n dim W Q b -> good_solver svd -> p = 1%nat \/ p = 2%nat ->
  (forall x, 0 < x < 1 -> (mult V x <= p)%nat) -> (forall x, 0 < x < 1 -> (mult W x <= p)%nat) ->
  exists c ar br c', merge svd a b = Val (Ok c) /\ reverse a = Val ar /\ reverse b = Val br /\ merge svd br ar = Val (Ok c') /\
    forall u, 0 <= u <= 1 -> evaluate c' u = evaluate c (1 - u).
Proof. exact merge_reverse. Qed.
Print Assumptions C94_reverse.

(** ** C95.  Merging follows affine maps of the control points. *)
Theorem C95_affine : forall svd p n dim dim' V W P Q P1 Q1 a b a1 b1 pa pb (A : nat -> nat -> R) (o : nat -> R),
  clamped_curve p n dim V P a -> clamped_curve p n dim W Q b -> clamped_curve p n dim' V P1 a1 -> clamped_curve p n dim' W Q1 b1 ->
  good_solver svd -> p = 1%nat \/ p = 2%nat -> (length pa + length pb < p)%nat ->
  (forall u, In u pa -> 0 <= u <= 1) -> (forall u, In u pb -> 0 <= u <= 1) ->
  (forall i e, (i <= n)%nat -> (e < dim')%nat -> ent P1 i e = rsum (fun d => A e d * ent P i d) dim + o e) ->
  (forall i e, (i <= n)%nat -> (e < dim')%nat -> ent Q1 i e = rsum (fun d => A e d * ent Q i d) dim + o e) ->
  exists c c1, merge_with_constraints svd (mkCC a pa) (mkCC b pb) = Val (Ok c) /\ merge_with_constraints svd (mkCC a1 pa) (mkCC b1 pb) = Val (Ok c1) /\
    forall u, 0 <= u <= 1 -> exists x, evaluate c u = Val (Ok x) /\ length x = dim /\ returns (evaluate c1 u) dim' (fun e => rsum (fun d => A e d * nth d x 0) dim + o e).
Proof. exact merge_affine. Qed.
Print Assumptions C95_affine.

(** a map from the plane to the line: twice the first minus the second coordinate plus 1 *)
Example C94_C95_hypotheses : exists svd a b a1 b1, good_solver svd /\ clamped_curve 2 3 2 U_a P_a a /\ clamped_curve 2 3 2 U_a (mkMat 2 [[5; 5]; [1; 2]; [3; 2]; [0; 1]]) b /\
  clamped_curve 2 3 1 U_a (mkMat 1 [[1]; [1]; [5]; [10]]) a1 /\ clamped_curve 2 3 1 U_a (mkMat 1 [[6]; [1]; [5]; [0]]) b1 /\
  (forall x, 0 < x < 1 -> (mult U_a x <= 2)%nat) /\ (forall u, In u [1/2] -> 0 <= u <= 1) /\
  (forall i e, (i <= 3)%nat -> (e < 1)%nat -> ent (@mkMat RNum 1 [[1]; [1]; [5]; [10]]) i e = rsum (fun d => nth d [2; -1] 0 * ent P_a i d) 2 + 1) /\
  (forall i e, (i <= 3)%nat -> (e < 1)%nat -> ent (@mkMat RNum 1 [[6]; [1]; [5]; [0]]) i e = rsum (fun d => nth d [2; -1] 0 * ent (@mkMat RNum 2 [[5; 5]; [1; 2]; [3; 2]; [0; 1]]) i d) 2 + 1).
Proof.
  exists some_solver. destruct curve_a as [a HA].
  destruct (clamped_curve_ex 2 3 2 U_a (mkMat 2 [[5; 5]; [1; 2]; [3; 2]; [0; 1]]) U_a_clamped) as [b HB]; [split; [reflexivity|]; split; [reflexivity|]; intros i Hi; cases i|].
  destruct (clamped_curve_ex 2 3 1 U_a (mkMat 1 [[1]; [1]; [5]; [10]]) U_a_clamped) as [a1 HA1]; [split; [reflexivity|]; split; [reflexivity|]; intros i Hi; cases i|].
  destruct (clamped_curve_ex 2 3 1 U_a (mkMat 1 [[6]; [1]; [5]; [0]]) U_a_clamped) as [b1 HB1]; [split; [reflexivity|]; split; [reflexivity|]; intros i Hi; cases i|].
  exists a, b, a1, b1. split; [exact some_solver_good|]. do 4 (split; [assumption|]). split; [|split; [|split]].
  - intros x Hx. unfold mult, U_a. cbn [count_occ]. repeat destruct Req_EM_T; try lra; lia.
  - intros u [<-|[]]. lra.
  - intros i e Hi He. assert (e = 0%nat) as -> by lia. unfold ent, P_a. cases i.
  - intros i e Hi He. assert (e = 0%nat) as -> by lia. unfold ent. cases i.
Qed.

(** ** C96.  The results do not depend on the linear solver, as long as it solves what
    can be solved. *)
Theorem C96_interpolation : forall svd svd' p m dim (Q : Mat RNum), good_solver svd -> good_solver svd' -> (1 <= p <= m)%nat -> shape dim (S m) Q ->
  generate svd (Interpolation p Q) = generate svd' (Interpolation p Q).
Proof. exact interpolation_solvers. Qed.
Print Assumptions C96_interpolation.

Theorem C96_loose : forall svd svd' p n m dim (Q : Mat RNum) pen, good_solver svd -> good_solver svd' -> shape dim (S m) Q -> (1 <= p <= n)%nat -> (n <= m)%nat ->
  (forall q, pen = Some q -> 0 <= lambda q /\ (1 <= kappa q <= n - 1)%nat) ->
  generate svd (LeastSquaresFit p Q n LooseEnds pen) = generate svd' (LeastSquaresFit p Q n LooseEnds pen).
Proof. exact loose_solvers. Qed.
Print Assumptions C96_loose.

Theorem C96_fixed : forall svd svd' p n m dim (Q : Mat RNum) pen, good_solver svd -> good_solver svd' -> shape dim (S m) Q -> (1 <= p <= n)%nat -> (2 <= n <= m)%nat ->
  (forall q, pen = Some q -> 0 <= lambda q /\ (1 <= kappa q <= n - 2)%nat) ->
  generate svd (LeastSquaresFit p Q n FixedEnds pen) = generate svd' (LeastSquaresFit p Q n FixedEnds pen).
Proof. exact fixed_solvers. Qed.
Print Assumptions C96_fixed.

Theorem C96_merge : forall svd svd' p n dim V W P Q a b pa pb, clamped_curve p n dim V P a -> clamped_curve p n dim W Q b -> good_solver svd -> good_solver svd' -> p = 1%nat \/ p = 2%nat ->
  (length pa + length pb < p)%nat -> (forall u, In u pa -> 0 <= u <= 1) -> (forall u, In u pb -> 0 <= u <= 1) ->
  exists c c', merge_with_constraints svd (mkCC a pa) (mkCC b pb) = Val (Ok c) /\ merge_with_constraints svd' (mkCC a pa) (mkCC b pb) = Val (Ok c') /\
    forall u, 0 <= u <= 1 -> evaluate c u = evaluate c' u.
Proof. exact merge_solvers. Qed.
Print Assumptions C96_merge.

(** two solvers that differ: the second one returns nothing useful for unsolvable systems *)
Example C96_hypotheses : exists svd svd' A B, good_solver svd /\ good_solver svd' /\ svd A B <> svd' A B /\ (1 <= 2 <= 3)%nat /\ shape 2 4 P_a.
Proof.
  pose (A := @mkMat RNum 1 [[0]]). pose (B := @mkMat RNum 1 [[1]]).
  assert (N : forall X, ~ solves A B X).
  { intros X [_ [_ S]]. specialize (S 0%nat 0%nat ltac:(cbn; lia) ltac:(cbn; lia)). cbn in S. lra. }
  assert (G : forall Y, good_solver (fun a b => match excluded_middle_informative (exists X, solves a b X) with left _ => some_solver a b | right _ => Val Y end)).
  { intros Y a b X H. destruct excluded_middle_informative as [E|E]; [|destruct E; exists X; exact H]. apply (some_solver_good a b X H). }
  exists (fun a b => match excluded_middle_informative (exists X, solves a b X) with left _ => some_solver a b | right _ => Val A end).
  exists (fun a b => match excluded_middle_informative (exists X, solves a b X) with left _ => some_solver a b | right _ => Val B end).
  exists A, B. split; [apply G|]. split; [apply G|]. split; [|split; [lia|exact P_a_shape]].
  destruct excluded_middle_informative as [[X E]|E]; [destruct (N X E)|]. intros H. unfold A, B in H. injection H as H. apply R1_neq_R0. symmetry. exact H.
Qed.
