(** * Vocabulary: programs that make, edit and merge curves *)

From Coq Require Import ZArith List Bool Arith.
From Verif Require Import Num Vec MKnots MPoints MCurve MFit MGenerate MMerge F64 Lists Api ApiC.
Import ListNotations.

(** a program over the point sets [D 0], [D 1], ... *)
Inductive program (K : Num) : Type :=
| PNew (degree : nat) (knots : list K) (i : nat)
| PUniform (degree : nat) (i : nat)
| PInterpolate (degree : nat) (i : nat)
| PFit (degree : nat) (i : nat) (intended_segments : nat) (method : FitMethod) (penalization : option (Penalization K))
| PEdit (e : edit K) (a : program K)
| PMerge (a : program K) (constraints_a : list K) (b : program K) (constraints_b : list K).
Arguments PNew {K} degree knots i.
Arguments PUniform {K} degree i.
Arguments PInterpolate {K} degree i.
Arguments PFit {K} degree i intended_segments method penalization.
Arguments PEdit {K} e a.
Arguments PMerge {K} a constraints_a b constraints_b.

Inductive program_error (K : Num) : Type :=
| CurveFails (e : CurveError K)
| MergeFails (e : @MergeError K).
Arguments CurveFails {K} e.
Arguments MergeFails {K} e.

Definition fails_with {A E F} (f : E -> F) (r : result A E) : result A F :=
  match r with Ok a => Ok a | Err e => Err (f e) end.

Section Run.
  Context {K : Num} (svd : Mat K -> Mat K -> M (Mat K)) (D : nat -> Mat K).

  Fixpoint run (pr : program K) : M (result (Curve K) (program_error K)) :=
    match pr with
    | PNew p U i =>
        kn <- knots_new p U;;
        r <- curve_new kn (cp_new (D i));;
        Val (fails_with CurveFails r)
    | PUniform p i => r <- generate svd (Manual p (cp_new (D i)) GUniform);; Val (fails_with CurveFails r)
    | PInterpolate p i => r <- generate svd (Interpolation p (D i));; Val (fails_with CurveFails r)
    | PFit p i n m pen => r <- generate svd (LeastSquaresFit p (D i) n m pen);; Val (fails_with CurveFails r)
    | PEdit e a =>
        r <- run a;;
        match r with
        | Err x => Val (Err x)
        | Ok c => c' <- edit_once c e;; Val (Ok c')
        end
    | PMerge a pa b pb =>
        r <- run a;;
        match r with
        | Err x => Val (Err x)
        | Ok ca =>
            s <- run b;;
            match s with
            | Err x => Val (Err x)
            | Ok cb => t <- merge_with_constraints svd (mkCC ca pa) (mkCC cb pb);; Val (fails_with MergeFails t)
            end
        end
    end.

  (** the [k]-th derivative at [u] of the curve that the program makes *)
  Definition run_evaluate (pr : program K) (u : K) (k : nat) : M (result (list K) (program_error K)) :=
    r <- run pr;;
    match r with
    | Err x => Val (Err x)
    | Ok c => v <- evaluate_derivative c u k;; Val (fails_with CurveFails v)
    end.
End Run.

(** no least-squares fit in the program *)
Fixpoint fit_free {K : Num} (pr : program K) : Prop :=
  match pr with
  | PFit _ _ _ _ _ => False
  | PEdit _ a => fit_free a
  | PMerge a _ b _ => fit_free a /\ fit_free b
  | _ => True
  end.

(** The solver follows [f]: given the same equations for the points mapped by [f]
    (one right-hand side per coordinate), it gives the mapped solution. *)
Definition follows {K : Num} (dim : nat) (f : Mat K -> Mat K) (svd : Mat K -> Mat K -> M (Mat K)) : Prop :=
  forall N C m, shape dim m C ->
  match svd N (mtranspose C), svd N (mtranspose (f C)) with
  | Val X, Val Y => ncols X = dim /\ mtranspose Y = f (mtranspose X)
  | Panic, Panic | Undef, Undef | Diverge, Diverge => True
  | _, _ => False
  end.

(** The binary64 solver treats mirrored points alike: the same equations for mirrored
    points give the mirrored solution. *)
Definition mirrors (dim : nat) (s : nat -> bool) (svd : Mat F64 -> Mat F64 -> M (Mat F64)) : Prop :=
  forall N C C' m, shape dim m C -> mirrored_points s C C' ->
  match svd N (mtranspose C), svd N (mtranspose C') with
  | Val X, Val Y => ncols X = dim /\ mirrored_points s (mtranspose X) (mtranspose Y)
  | Panic, Panic | Undef, Undef | Diverge, Diverge => True
  | _, _ => False
  end.
