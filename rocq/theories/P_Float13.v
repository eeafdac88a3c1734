(** * Property C150: merging with a solver that errs *)

From Coq Require Import ZArith Reals List Bool Arith Lra Lia.
From Flocq Require Import Core.Core IEEE754.BinarySingleNaN.
From Verif Require Import Num Vec MKnots MPoints MCurve MFit MMerge RNum F64 Lists Struct Spec Api ApiF ApiF3 ApiJ ApiK Bridge Facts11 Samples Float1 Float8 Merge19 Float33.
Import ListNotations.
Local Open Scope R_scope.

(** ** C150.  Merging asks the solver about one linear system, which has a solution.  For
    degrees 1 and 2 and equally many points, an error of at most [e] in the entries of the
    answer moves the merged curve by at most [e]. *)
Theorem C150_solver : forall p m dim V P a W Q b pa pb,
  clamped_curve p m dim V P a -> clamped_curve p m dim W Q b -> (1 <= p <= 2)%nat -> (length pa + length pb < p)%nat ->
  exists A B, (exists X, solves A B X) /\
    forall svd svd' X X' e, svd A B = Val X -> svd' A B = Val X' -> shape (ncols A) (ncols B) X -> shape (ncols A) (ncols B) X' -> 0 <= e ->
    (forall r d, (r < ncols A)%nat -> (d < ncols B)%nat -> Rabs (ent X d r - ent X' d r) <= e) ->
    exists c c', merge_with_constraints svd (mkCC a pa) (mkCC b pb) = Val (Ok c) /\ merge_with_constraints svd' (mkCC a pa) (mkCC b pb) = Val (Ok c') /\
      forall u, 0 <= u <= 1 -> exists f f', returns (evaluate c u) dim f /\ returns (evaluate c' u) dim f' /\ forall d, (d < dim)%nat -> Rabs (f d - f' d) <= e.
Proof. exact (fun p m dim V P a W Q b pa pb HA HB Hp Ht => solver_error HA HB pa pb Hp Ht). Qed.
Print Assumptions C150_solver.

Example C150_solver_hypotheses : exists a, clamped_curve 2 3 2 U_a P_a a /\ (1 <= 2 <= 2)%nat /\ (length [1 / 2] + length (@nil R) < 2)%nat.
Proof. destruct curve_a as [a H]. exists a. split; [exact H|]. cbn. lia. Qed.

(** The same in binary64: [A], [B] is the exact system, [A'], [B'] the one that is computed.
    When the answer to the latter is within [e] of a solution of the former, the merged curve
    is evaluated within [e] plus a small multiple of [2^-53] of the exactly merged one. *)
Theorem C150_binary64 : forall p m dim (V W : list f64) P Q a b M g PR QR aR bR pa pb,
  float_curve p m dim V P M a -> float_curve p m dim W Q M b ->
  clamped_curve p m dim (map val V) PR aR -> clamped_curve p m dim (map val W) QR bR -> same_points m dim P PR -> same_points m dim Q QR ->
  (1 <= p <= 2)%nat -> (length pa + length pb < p)%nat -> wide g (map val V) -> wide g (map val W) -> / 2 ^ 49 <= g ->
  (forall x, 0 < x < 1 -> (mult (map val V) x <= p)%nat) -> (forall x, 0 < x < 1 -> (mult (map val W) x <= p)%nat) -> / 2 ^ 1000 <= M <= 2 ^ 1020 ->
  exists (A B : Mat RNum) (A' B' : Mat F64), (exists X, solves A B X) /\ ncols A' = ncols A /\ ncols B' = ncols B /\
    forall (svd : Mat F64 -> Mat F64 -> Num.M (Mat F64)) (svdR : Mat RNum -> Mat RNum -> Num.M (Mat RNum)) X X' e,
    svdR A B = Val X -> svd A' B' = Val X' -> shape (ncols A) (ncols B) X -> shape (ncols A) (ncols B) X' -> e <= M ->
    (forall r d, (r < ncols A)%nat -> (d < ncols B)%nat -> Rabs (ent X d r) <= M /\ finite (ent X' d r) /\ Rabs (val (ent X' d r) - ent X d r) <= e) ->
    exists c cR, merge_with_constraints svd (mkCC a pa) (mkCC b pb) = Val (Ok c) /\ merge_with_constraints svdR (mkCC aR (map val pa)) (mkCC bR (map val pb)) = Val (Ok cR) /\
      forall u, finite u -> 0 <= val u <= 1 -> exists f, returns (evaluate cR (val u)) dim f /\
        returns_within (@evaluate F64 c u) dim f (e + (24 * INR p + 15 + 96 * INR p / g) * / 2 ^ 53 * M).
Proof.
  exact (fun p m dim V W P Q a b M g PR QR aR bR pa pb HA HB RA RB PS PT Hp Ht GV GW Hg MV MW HM => merge_accurate HA HB RA RB PS PT pa pb Hp Ht GV GW Hg MV MW HM).
Qed.
Print Assumptions C150_binary64.

(** a quadratic on the knots 0 0 0 1/4 1 1 1 with itself *)
Example C150_binary64_hypotheses : exists a aR, float_curve 2 3 1 U_f P_f 2 a /\ clamped_curve 2 3 1 (map val U_f) PR_f aR /\ same_points 3 1 P_f PR_f /\
  (1 <= 2 <= 2)%nat /\ (length [q4 1] + length (@nil f64) < 2)%nat /\ wide (1 / 4) (map val U_f) /\ / 2 ^ 49 <= 1 / 4 /\
  (forall x, 0 < x < 1 -> (mult (map val U_f) x <= 2)%nat) /\ / 2 ^ 1000 <= 2 <= 2 ^ 1020.
Proof.
  destruct curve_f as [c H]. destruct (clamped_curve_ex 2 3 1 (map val U_f) PR_f) as [cR HR]; [apply H|apply same_f|]. exists c, cR.
  split; [exact H|]. split; [exact HR|]. split; [exact same_f|]. split; [lia|]. split; [cbn [length]; lia|]. rewrite val_U_f.
  split; [intros x y Hx Hy Hl; simpl in Hx, Hy; repeat (destruct Hx as [<-|Hx]; [repeat (destruct Hy as [<-|Hy]; [lra|]); destruct Hy|]); destruct Hx|].
  split; [simpl; lra|]. split.
  { intros x Hx. unfold mult. cbn [count_occ filter length]. repeat (destruct (Req_EM_T _ _); cbn [length]; try lra); lia. }
  split; [apply Rle_trans with (/ 1); [|lra]; apply Rinv_le_contravar; [lra|]; apply pow_R1_Rle; lra|]. change 1020%nat with (1 + 1019)%nat. rewrite pow_add. assert (1 <= 2 ^ 1019) by (apply pow_R1_Rle; lra). simpl (2 ^ 1). lra.
Qed.
