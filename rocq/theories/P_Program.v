(** * Properties of programs that make, edit and merge curves *)

From Coq Require Import ZArith Reals List Bool Arith Lia Lra QArith Qcanon.
From Verif Require Import Num Vec MKnots MPoints MCurve MFit MGenerate MMerge RNum QNum QSolve F64 Lists Spec Api ApiF ApiF2 ApiC ApiL ApiP Bridge Struct Facts11 MergeQ Coord5.
Import ListNotations.
Local Open Scope R_scope.

(** ** C147.  Linear maps and whole programs.  A program makes curves of the given
    point sets by [Curve::new], uniform generation, interpolation and least-squares
    fits, edits them, and merges them, under constraints or not.  Run on point sets
    mapped by a matrix A, it does exactly what it does on the point sets themselves,
    with all points it returns mapped by A: the same errors, the same panics.  The
    solver is assumed to map its solutions along.  (Translations, in contrast, are not
    followed by merges: C34.) *)
Theorem C147_linear : forall A dim dim' svd, follows dim (linear_points A dim dim') svd ->
  forall D m (pr : program RNum) (u : R) k, (forall i, shape dim (m i) (D i)) ->
  run_evaluate svd (fun i => linear_points A dim dim' (D i)) pr u k = mapped (linear A dim dim') (run_evaluate svd D pr u k).
Proof. exact linear_program_fact. Qed.
Print Assumptions C147_linear.

(** there is a solver that follows all linear maps and solves all systems whose matrix
    has an inverse *)
Example C147_solver : exists svd, (forall A dim dim', follows dim (linear_points A dim dim') svd) /\
  (forall N B, (exists X, solves N (midentity (nrows N)) X) -> shape (nrows N) (ncols B) B ->
   exists Y, svd N B = Val Y /\ solves N B Y).
Proof. exists inverse_solver. split; [exact inverse_solver_follows|exact inverse_solver_solves]. Qed.

(** Coordinates, in every number system, binary64 with all its roundings included:
    a program without least-squares fits computes each coordinate from that coordinate
    of the points alone.  The solver is assumed to treat right-hand sides separately. *)
Theorem C147_coordinates : forall (K : Num) dim ds (svd : Mat K -> Mat K -> M (Mat K)), (forall d, In d ds -> (d < dim)%nat) ->
  follows dim (pick_points ds) svd ->
  forall D m pr u k, fit_free pr -> (forall i, shape dim (m i) (D i)) ->
  run_evaluate svd (fun i => pick_points ds (D i)) pr u k = mapped (pick ds) (run_evaluate svd D pr u k).
Proof. exact (fun K dim ds svd Hds Svd D m pr u k _ Sh => pick_program_fact dim ds svd Hds Svd D m pr u k Sh). Qed.
Print Assumptions C147_coordinates.

(** Mirroring, in binary64: flipping the signs of some coordinates of all points flips
    the signs of those coordinates of every result, up to the signs of zeros. *)
Theorem C147_mirror : forall dim s svd, mirrors dim s svd ->
  forall D D' m (pr : program F64) u k, fit_free pr -> (forall i, shape dim (m i) (D i)) ->
  (forall i, mirrored_points s (D i) (D' i)) ->
  mirrored_outcome s (run_evaluate svd D pr u k) (run_evaluate svd D' pr u k).
Proof. exact (fun dim s svd Svd D D' m pr u k _ => mirror_program_fact dim s svd Svd D D' m pr u k). Qed.
Print Assumptions C147_mirror.

(** a solver as the last two theorems assume, in every number system *)
Example C147_copying : (forall (K : Num) dim ds, @follows K dim (pick_points ds) copying_solver) /\
  (forall dim s, mirrors dim s copying_solver).
Proof. exact (conj (fun K dim ds => copying_follows dim ds) copying_mirrors). Qed.

(** a program that returns a point: three points are made into a curve, which is
    reversed and merged with the curve interpolating three
    other points *)
Definition two_sets (i : nat) : Mat QNum :=
  match i with
  | 0%nat => mkMat 2 [[q 0 1; q 1 1]; [q 2 1; q 3 1]; [q 4 1; q 0 1]]
  | _ => mkMat 2 [[q 5 1; q 1 1]; [q 2 1; q 7 1]; [q 1 1; q 1 1]]
  end.
Definition sample_program : program QNum :=
  PMerge (PEdit EReverse (PNew 2 (bezier_knots 2) 0)) [] (PInterpolate 2 1) [].

Definition point_is (r : M (result (list QNum) (program_error QNum))) (v : list QNum) : bool :=
  okb r (fun x => forallb (fun xy => Qceqb (fst xy) (snd xy)) (combine x v) && Nat.eqb (length x) (length v)).

Example C147_runs :
  fit_free sample_program /\ (forall i, exists m, shape 2 m (two_sets i)) /\
  point_is (run_evaluate gauss_checked two_sets sample_program (q 2 3) 0) [q 5 3; q 19 3] = true /\
  point_is (run_evaluate gauss_checked (fun i => pick_points [1; 0]%nat (two_sets i)) sample_program (q 2 3) 0) [q 19 3; q 5 3] = true.
Proof.
  split; [simpl; auto|]. split.
  - intros [|i]; (exists 3%nat; split; [reflexivity|]; split; [reflexivity|]); intros [|[|[|j]]] Hj; try reflexivity; lia.
  - split; vm_compute; reflexivity.
Qed.
