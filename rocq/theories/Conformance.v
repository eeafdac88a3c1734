(** * The unit tests of the crate, run on the model

    Every [#[test]] of /repo/src is repeated here with the literals of the Rust
    source; each [Example] is closed by computation.  Tests that do not call the
    singular value decomposition run in binary64, so that [assert_eq!] compares
    the bits the Rust code would compare.  [assert_relative_eq!] with
    [epsilon = f64::EPSILON.sqrt()] becomes an absolute difference of at most 2^-26
    ([close]), which implies it.  Interpolation and fits run in binary64 with
    Gaussian elimination instead of the decomposition ([fgauss]; tests that ask
    for equality of bits there are checked up to 2^-26).  Merging runs over the
    rationals, with [gauss_checked], and is compared exactly. *)

From Coq Require Import ZArith List Bool Arith QArith Qcanon.
From Flocq Require Import Core.Core IEEE754.BinarySingleNaN.
From Verif Require Import Num Vec MKnots MPoints MCurve MFit MGenerate MMerge F64 QNum QSolve Facts11.
Import ListNotations.
Local Open Scope nat_scope.

(** ** literals and comparisons *)

(** the literal [m / n] and the Rust expression [m. / n.]: both are the quotient
    rounded once *)
Definition f (m n : Z) : F64 := Bdiv mode_NE (fmk m 0) (fmk n 0).
Definition fi (m : Z) : F64 := fmk m 0.
Definition eps : F64 := fmk 1 (-52).
Definition feq (a b : F64) : bool := (a ==? b)%num.
Definition close (a b : F64) : bool := ((a - b <=? fmk 1 (-26)) && (b - a <=? fmk 1 (-26)))%num.
Definition all2 (r : F64 -> F64 -> bool) (a b : list F64) : bool :=
  (length a =? length b) && forallb (fun xy => r (fst xy) (snd xy)) (combine a b).
Definition mall2 (r : F64 -> F64 -> bool) (a b : Mat F64) : bool :=
  (nrows a =? nrows b) && (ncols a =? ncols b) && forallb (fun xy => all2 r (fst xy) (snd xy)) (combine (mcols a) (mcols b)).
Definition veq := all2 feq.
Definition meq := mall2 feq.
(** [dmatrix![...]] by rows *)
Definition dmatrix {K : Num} (rows : list (list K)) : Mat K := mtranspose (mkMat (length (nth 0 rows [])) rows).

Definition is_val (r : M F64) (x : F64) : bool := valb r (fun y => feq y x).
Definition near_val (r : M F64) (x : F64) : bool := valb r (fun y => close y x).
Definition is_vec (r : M (list F64)) (x : list F64) : bool := valb r (fun y => veq y x).
Definition is_nat (r : M nat) (n : nat) : bool := valb r (fun m => m =? n).
Definition evals_to (c : Curve F64) (u : F64) (x : list F64) : bool := okb (evaluate c u) (fun y => veq y x).
Definition derives_to (c : Curve F64) (u : F64) (k : nat) (x : list F64) : bool := okb (evaluate_derivative c u k) (fun y => veq y x).
Definition knots_are (c : Curve F64) (U : list F64) : bool := is_vec (vector (cknots c)) U.
Definition points_are (c : Curve F64) (P : Mat F64) : bool := valb (cp_matrix (cpoints c)) (fun m => meq m P).
Definition errb {A E} (r : M (result A E)) (q : E -> bool) : bool := match r with Val (Err e) => q e | _ => false end.
Definition no_svd {K : Num} (A B : Mat K) : M (Mat K) := Panic.
Definition manual (p : nat) (P : Mat F64) : M (result (Curve F64) (CurveError F64)) :=
  generate no_svd (Manual p (cp_new P) GUniform).

(** ** curve/basis/mod.rs *)

(** basis/mod.rs:67-139 [basis_func_degree3] *)
Example basis_func_degree3 :
  valb (knots_new 3 [fi 0; fi 0; fi 0; fi 0; f 1 3; f 2 3; fi 1; fi 1; fi 1; fi 1]) (fun kn =>
    is_val (kevaluate kn 0 0 3 (fi 0)) (fi 1) &&
    is_val (kevaluate kn 0 0 3 (f 1 6)) (f 1 8) &&
    is_val (kevaluate kn 0 0 3 (f 1 3)) (fi 0) &&
    is_val (kevaluate kn 0 0 3 (f 1 2)) (fi 0) &&
    is_val (kevaluate kn 0 0 3 (f 2 3)) (fi 0) &&
    is_val (kevaluate kn 0 0 3 (f 5 6)) (fi 0) &&
    is_val (kevaluate kn 0 0 3 (fi 1)) (fi 0) &&
    is_val (kevaluate kn 0 1 3 (fi 0)) (fi 0) &&
    is_val (kevaluate kn 0 1 3 (f 1 6)) (f 19 32) &&
    is_val (kevaluate kn 0 1 3 (f 1 3)) (f 1 4) &&
    near_val (kevaluate kn 0 1 3 (f 1 2)) (f 1 32) &&
    is_val (kevaluate kn 0 1 3 (f 2 3)) (fi 0) &&
    is_val (kevaluate kn 0 1 3 (f 5 6)) (fi 0) &&
    is_val (kevaluate kn 0 1 3 (fi 1)) (fi 0) &&
    is_val (kevaluate kn 0 2 3 (fi 0)) (fi 0) &&
    is_val (kevaluate kn 0 2 3 (f 1 6)) (f 25 96) &&
    is_val (kevaluate kn 0 2 3 (f 1 3)) (f 7 12) &&
    near_val (kevaluate kn 0 2 3 (f 1 2)) (f 15 32) &&
    near_val (kevaluate kn 0 2 3 (f 2 3)) (f 1 6) &&
    near_val (kevaluate kn 0 2 3 (f 5 6)) (f 1 48) &&
    is_val (kevaluate kn 0 2 3 (fi 1)) (fi 0) &&
    is_val (kevaluate kn 0 3 3 (fi 0)) (fi 0) &&
    is_val (kevaluate kn 0 3 3 (f 1 6)) (f 1 48) &&
    is_val (kevaluate kn 0 3 3 (f 1 3)) (f 1 6) &&
    near_val (kevaluate kn 0 3 3 (f 1 2)) (f 15 32) &&
    near_val (kevaluate kn 0 3 3 (f 2 3)) (f 7 12) &&
    near_val (kevaluate kn 0 3 3 (f 5 6)) (f 25 96) &&
    is_val (kevaluate kn 0 3 3 (fi 1)) (fi 0) &&
    is_val (kevaluate kn 0 4 3 (fi 0)) (fi 0) &&
    is_val (kevaluate kn 0 4 3 (f 1 6)) (fi 0) &&
    is_val (kevaluate kn 0 4 3 (f 1 3)) (fi 0) &&
    near_val (kevaluate kn 0 4 3 (f 1 2)) (f 1 32) &&
    near_val (kevaluate kn 0 4 3 (f 2 3)) (f 1 4) &&
    near_val (kevaluate kn 0 4 3 (f 5 6)) (f 19 32) &&
    is_val (kevaluate kn 0 4 3 (fi 1)) (fi 0) &&
    is_val (kevaluate kn 0 5 3 (fi 0)) (fi 0) &&
    is_val (kevaluate kn 0 5 3 (f 1 6)) (fi 0) &&
    is_val (kevaluate kn 0 5 3 (f 1 3)) (fi 0) &&
    is_val (kevaluate kn 0 5 3 (f 1 2)) (fi 0) &&
    is_val (kevaluate kn 0 5 3 (f 2 3)) (fi 0) &&
    near_val (kevaluate kn 0 5 3 (f 5 6)) (f 1 8) &&
    is_val (kevaluate kn 0 5 3 (fi 1)) (fi 1)) = true.
Proof. vm_compute. reflexivity. Qed.

(** basis/mod.rs:141-213 [basis_func_degree4] *)
Example basis_func_degree4 :
  valb (knots_new 4 [fi 0; fi 0; fi 0; fi 0; fi 0; f 1 3; f 2 3; fi 1; fi 1; fi 1; fi 1; fi 1]) (fun kn =>
    is_val (kevaluate kn 1 0 4 (fi 0)) (fi 1) &&
    is_val (kevaluate kn 1 0 4 (f 1 6)) (f 1 8) &&
    is_val (kevaluate kn 1 0 4 (f 1 3)) (fi 0) &&
    is_val (kevaluate kn 1 0 4 (f 1 2)) (fi 0) &&
    is_val (kevaluate kn 1 0 4 (f 2 3)) (fi 0) &&
    is_val (kevaluate kn 1 0 4 (f 5 6)) (fi 0) &&
    is_val (kevaluate kn 1 0 4 (fi 1)) (fi 0) &&
    is_val (kevaluate kn 1 1 4 (fi 0)) (fi 0) &&
    is_val (kevaluate kn 1 1 4 (f 1 6)) (f 19 32) &&
    is_val (kevaluate kn 1 1 4 (f 1 3)) (f 1 4) &&
    near_val (kevaluate kn 1 1 4 (f 1 2)) (f 1 32) &&
    is_val (kevaluate kn 1 1 4 (f 2 3)) (fi 0) &&
    is_val (kevaluate kn 1 1 4 (f 5 6)) (fi 0) &&
    is_val (kevaluate kn 1 1 4 (fi 1)) (fi 0) &&
    is_val (kevaluate kn 1 2 4 (fi 0)) (fi 0) &&
    is_val (kevaluate kn 1 2 4 (f 1 6)) (f 25 96) &&
    is_val (kevaluate kn 1 2 4 (f 1 3)) (f 7 12) &&
    near_val (kevaluate kn 1 2 4 (f 1 2)) (f 15 32) &&
    near_val (kevaluate kn 1 2 4 (f 2 3)) (f 1 6) &&
    near_val (kevaluate kn 1 2 4 (f 5 6)) (f 1 48) &&
    is_val (kevaluate kn 1 2 4 (fi 1)) (fi 0) &&
    is_val (kevaluate kn 1 3 4 (fi 0)) (fi 0) &&
    is_val (kevaluate kn 1 3 4 (f 1 6)) (f 1 48) &&
    is_val (kevaluate kn 1 3 4 (f 1 3)) (f 1 6) &&
    near_val (kevaluate kn 1 3 4 (f 1 2)) (f 15 32) &&
    near_val (kevaluate kn 1 3 4 (f 2 3)) (f 7 12) &&
    near_val (kevaluate kn 1 3 4 (f 5 6)) (f 25 96) &&
    is_val (kevaluate kn 1 3 4 (fi 1)) (fi 0) &&
    is_val (kevaluate kn 1 4 4 (fi 0)) (fi 0) &&
    is_val (kevaluate kn 1 4 4 (f 1 6)) (fi 0) &&
    is_val (kevaluate kn 1 4 4 (f 1 3)) (fi 0) &&
    near_val (kevaluate kn 1 4 4 (f 1 2)) (f 1 32) &&
    near_val (kevaluate kn 1 4 4 (f 2 3)) (f 1 4) &&
    near_val (kevaluate kn 1 4 4 (f 5 6)) (f 19 32) &&
    is_val (kevaluate kn 1 4 4 (fi 1)) (fi 0) &&
    is_val (kevaluate kn 1 5 4 (fi 0)) (fi 0) &&
    is_val (kevaluate kn 1 5 4 (f 1 6)) (fi 0) &&
    is_val (kevaluate kn 1 5 4 (f 1 3)) (fi 0) &&
    is_val (kevaluate kn 1 5 4 (f 1 2)) (fi 0) &&
    is_val (kevaluate kn 1 5 4 (f 2 3)) (fi 0) &&
    near_val (kevaluate kn 1 5 4 (f 5 6)) (f 1 8) &&
    is_val (kevaluate kn 1 5 4 (fi 1)) (fi 1)) = true.
Proof. vm_compute. reflexivity. Qed.

(** ** curve/knots/mod.rs *)

Definition SEGMENTS := 4.
Definition knots_example (degree : nat) (q : Knots F64 -> bool) : bool := okb (uniform degree SEGMENTS) q.

(** knots/mod.rs [segments] *)
Example segments_test :
  forallb (fun p => knots_example p (fun kn => is_nat (ksegments kn) SEGMENTS)) [1; 2; 3] = true.
Proof. vm_compute. reflexivity. Qed.

(** [internal_count] *)
Example internal_count_test :
  forallb (fun pe => knots_example (fst pe) (fun kn => is_nat (internal_count kn) (snd pe))) [(1, 3); (2, 2); (3, 1)] = true.
Proof. vm_compute. reflexivity. Qed.

(** [internal_degree_1] *)
Example internal_degree_1 :
  knots_example 1 (fun kn => is_vec (internal kn) [f 1 4; f 1 2; f 3 4]) = true.
Proof. vm_compute. reflexivity. Qed.

(** [internal_degree_2] *)
Example internal_degree_2 :
  knots_example 2 (fun kn => is_vec (internal kn) [f 1 3; f 2 3]) = true.
Proof. vm_compute. reflexivity. Qed.

(** [internal_degree_3] *)
Example internal_degree_3 :
  knots_example 3 (fun kn => is_vec (internal kn) [f 1 2]) = true.
Proof. vm_compute. reflexivity. Qed.

(** [domain_count] *)
Example domain_count_test :
  forallb (fun pe => knots_example (fst pe) (fun kn => is_nat (domain_count kn) (snd pe))) [(1, 5); (2, 4); (3, 3)] = true.
Proof. vm_compute. reflexivity. Qed.

(** [domain_degree_1] *)
Example domain_degree_1 :
  knots_example 1 (fun kn => is_vec (domain kn) [fi 0; f 1 4; f 1 2; f 3 4; fi 1]) = true.
Proof. vm_compute. reflexivity. Qed.

(** [domain_degree_2] *)
Example domain_degree_2 :
  knots_example 2 (fun kn => is_vec (domain kn) [fi 0; f 1 3; f 2 3; fi 1]) = true.
Proof. vm_compute. reflexivity. Qed.

(** [domain_degree_2_derivative] *)
Example domain_degree_2_derivative :
  knots_example 2 (fun kn => is_vec (domain_derivative kn 1) [fi 0; f 1 3; f 2 3; fi 1]) = true.
Proof. vm_compute. reflexivity. Qed.

(** [domain_degree_3] *)
Example domain_degree_3 :
  knots_example 3 (fun kn => is_vec (domain kn) [fi 0; f 1 2; fi 1]) = true.
Proof. vm_compute. reflexivity. Qed.

(** [multiplicity] *)
Example multiplicity_test :
  valb (knots_new 2 [fi 0; fi 0; fi 0; f 1 4; f 1 2; f 1 2; f 3 4; fi 1; fi 1; fi 1]) (fun kn =>
    is_nat (multiplicity kn (f 2 10)) 0 && is_nat (multiplicity kn (f 1 4)) 1 && is_nat (multiplicity kn (f 1 2)) 2 &&
    is_nat (multiplicity kn (fi 0)) 1 && is_nat (multiplicity kn (fi 1)) 1) = true.
Proof. vm_compute. reflexivity. Qed.

(** [knot_derivation] *)
Example knot_derivation :
  knots_example 3 (fun kn =>
    is_vec (vector_derivative kn 0) [fi 0; fi 0; fi 0; fi 0; f 1 2; fi 1; fi 1; fi 1; fi 1] &&
    is_vec (vector_derivative kn 1) [fi 0; fi 0; fi 0; f 1 2; fi 1; fi 1; fi 1] &&
    is_vec (vector_derivative kn 2) [fi 0; fi 0; f 1 2; fi 1; fi 1] &&
    is_vec (vector_derivative kn 3) [fi 0; f 1 2; fi 1]) = true.
Proof. vm_compute. reflexivity. Qed.

(** [normalize] *)
Example normalize_test :
  valb (knots_new 1 [fi 1; fi 1; f 3 2; fi 2; fi 2]) (fun kn => valb (knots_normalize kn) (fun kn => is_vec (vector kn) [fi 0; fi 0; f 1 2; fi 1; fi 1])) = true.
Proof. vm_compute. reflexivity. Qed.

(** [reverse]: the complement of the double nearest 0.6 is the double nearest 0.4 *)
Example reverse_knots_test :
  valb (knots_new 1 [fi 0; fi 0; f 6 10; fi 1; fi 1]) (fun kn => valb (knots_reverse kn) (fun kn => is_vec (vector kn) [fi 0; fi 0; f 4 10; fi 1; fi 1])) = true.
Proof. vm_compute. reflexivity. Qed.

(** [is_sorted_test] *)
Example is_sorted_test :
  valb (knots_new 1 [fi 0; fi 0; f 1 2; fi 1; fi 1]) (fun kn => valb (is_sorted kn) (fun b => b)) &&
  valb (knots_new 1 [fi 0; fi 1; f 1 2; fi 1; fi 1]) (fun kn => valb (is_sorted kn) negb) = true.
Proof. vm_compute. reflexivity. Qed.

(** [is_clamped_test] *)
Example is_clamped_test :
  valb (knots_new 1 [fi 0; fi 0; f 1 2; fi 1; fi 1]) (fun kn => valb (is_clamped kn) (fun b => b)) &&
  valb (knots_new 1 [fi 0; fi 1; f 1 2; fi 1; fi 1]) (fun kn => okb (is_uniform kn) negb) = true.
Proof. vm_compute. reflexivity. Qed.

(** [is_normed_test] *)
Example is_normed_test :
  valb (knots_new 1 [fi 0; fi 0; f 1 2; fi 1; fi 1]) (fun kn => valb (is_normed kn) (fun b => b)) &&
  valb (knots_new 1 [fi 0; fi 0; f 3 2; fi 1; fi 1]) (fun kn => valb (is_normed kn) negb) = true.
Proof. vm_compute. reflexivity. Qed.

(** [is_uniform_test] *)
Example is_uniform_test :
  valb (knots_new 1 [fi 0; fi 0; f 1 4; f 1 2; f 3 4; fi 1; fi 1]) (fun kn => okb (is_uniform kn) (fun b => b)) &&
  valb (knots_new 1 [fi 0; fi 0; f 1 4; f 3 4; fi 1; fi 1]) (fun kn => okb (is_uniform kn) negb) = true.
Proof. vm_compute. reflexivity. Qed.

(** [test_find_idx_of_left_domain_knot] *)
Example find_idx_of_left_domain_knot :
  forallb (fun ue => knots_example 1 (fun kn => is_nat (find_idx kn (f (fst ue) 100) 0 CLeft) (snd ue))) [(24%Z, 1); (25%Z, 1); (26%Z, 2); (74%Z, 3); (75%Z, 3); (76%Z, 4)] = true.
Proof. vm_compute. reflexivity. Qed.

(** [test_find_idx_of_left_or_equal_domain_knot] *)
Example find_idx_of_left_or_equal_domain_knot :
  forallb (fun ue => knots_example 1 (fun kn => is_nat (find_idx kn (f (fst ue) 100) 0 CLeftOrEqual) (snd ue))) [(24%Z, 1); (25%Z, 2); (26%Z, 2); (74%Z, 3); (75%Z, 4); (76%Z, 4)] = true.
Proof. vm_compute. reflexivity. Qed.

(** [test_find_idx_of_right_or_equal_domain_knot] *)
Example find_idx_of_right_or_equal_domain_knot :
  forallb (fun ue => knots_example 1 (fun kn => is_nat (find_idx kn (f (fst ue) 100) 0 CRightOrEqual) (snd ue))) [(24%Z, 2); (25%Z, 2); (26%Z, 3); (74%Z, 4); (75%Z, 4); (76%Z, 5)] = true.
Proof. vm_compute. reflexivity. Qed.

(** [test_find_idx_of_right_domain_knot] *)
Example find_idx_of_right_domain_knot :
  forallb (fun ue => knots_example 1 (fun kn => is_nat (find_idx kn (f (fst ue) 100) 0 CRight) (snd ue))) [(24%Z, 2); (25%Z, 3); (26%Z, 3); (74%Z, 4); (75%Z, 5); (76%Z, 5)] = true.
Proof. vm_compute. reflexivity. Qed.

(** [test_find_idx_of_left_or_equal_domain_knot_bisection] *)
Example find_idx_of_left_or_equal_domain_knot_bisection :
  forallb (fun ue => knots_example 1 (fun kn => valb (find_index kn (f (fst ue) 100) 0) (fun o => match o with Some i => i =? snd ue | None => false end))) [(24%Z, 1); (25%Z, 2); (26%Z, 2); (74%Z, 3); (75%Z, 4); (76%Z, 4)] = true.
Proof. vm_compute. reflexivity. Qed.

(** [test_find_idx_of_left_or_equal_domain_knot_bisection_limits] *)
Example bisection_limits :
  knots_example 1 (fun kn =>
    valb (find_index kn (f (-1) 10) 0) (fun o => match o with None => true | _ => false end) &&
    forallb (fun ue => valb (find_index kn (f (fst ue) 10) 0) (fun o => match o with Some i => i =? snd ue | None => false end)) [(0%Z, 1); (10%Z, 5); (12%Z, 5)]) = true.
Proof. vm_compute. reflexivity. Qed.

(** ** curve/knots/methods.rs *)

Definition clamp (p : nat) (inner : list F64) : list F64 := repeat (fi 0) (p + 1) ++ inner ++ repeat (fi 1) (p + 1).
Definition gives (r : M (result (Knots F64) (CurveError F64))) (U : list F64) : bool := okb r (fun kn => is_vec (vector kn) U).

(** [uniform::degree_0_errors] *)
Example uniform_degree_0_errors :
  errb (uniform (K := F64) 0 1) (fun _ => true) = true.
Proof. vm_compute. reflexivity. Qed.

(** [uniform::degree_1], [degree_2], [degree_3] *)
Example uniform_degrees :
  gives (uniform 1 4) [fi 0; fi 0; f 1 4; f 1 2; f 3 4; fi 1; fi 1] &&
  gives (uniform 2 4) [fi 0; fi 0; fi 0; f 1 3; f 2 3; fi 1; fi 1; fi 1] &&
  gives (uniform 3 4) [fi 0; fi 0; fi 0; fi 0; f 1 2; fi 1; fi 1; fi 1; fi 1] = true.
Proof. vm_compute. reflexivity. Qed.

(** [uniform::it_creates_knot_vectors_delta0], [_delta1], [_delta2], [segments_eq_degree], [segments_eq_degree_plus_1] *)
Example uniform_deltas :
  forallb (fun p => gives (uniform p p) (clamp p []) && gives (uniform p (p + 1)) (clamp p [f 1 2]) && gives (uniform p (p + 2)) (clamp p [f 1 3; f 2 3])) [1; 2; 3] = true.
Proof. vm_compute. reflexivity. Qed.

(** [averaging::degree_0_errors] *)
Example averaging_degree_0_errors :
  valb (equally_spaced 1) (fun ps => errb (averaging (K := F64) 0 1 ps) (fun _ => true)) = true.
Proof. vm_compute. reflexivity. Qed.

(** [averaging::degree_1], [degree_2], [degree_3] *)
Example averaging_degrees :
  valb (equally_spaced 4) (fun ps =>
    gives (averaging 1 4 ps) (clamp 1 [f 1 4; f 1 2; f 3 4]) &&
    gives (averaging 2 4 ps) (clamp 2 [f 375 1000; f 625 1000]) &&
    gives (averaging 3 4 ps) (clamp 3 [f 1 2])) = true.
Proof. vm_compute. reflexivity. Qed.

(** [averaging::segments_eq_degree], [segments_eq_degree_plus_1] *)
Example averaging_segments_eq_degree :
  forallb (fun p => valb (equally_spaced 4) (fun ps => gives (averaging p p ps) (clamp p [])) &&
    valb (equally_spaced (p + 1)) (fun ps => gives (averaging p (p + 1) ps) (clamp p [f 1 2]))) [1; 2; 3] = true.
Proof. vm_compute. reflexivity. Qed.

(** [de_boor::degree_0_errors] *)
Example de_boor_degree_0_errors :
  valb (equally_spaced 1) (fun ps => errb (de_boor (K := F64) 0 1 ps) (fun _ => true)) = true.
Proof. vm_compute. reflexivity. Qed.

(** [de_boor::degree_1], [degree_2] (relative), [degree_3] *)
Example de_boor_degrees :
  valb (equally_spaced 4) (fun ps =>
    gives (de_boor 1 4 ps) (clamp 1 [f 625 10000; f 375 1000; f 6875 10000]) &&
    okb (de_boor 2 4 ps) (fun kn => valb (vector kn) (fun v => all2 close v (clamp 2 [f 1 6; (f 1 3 + f 1 4)%num]))) &&
    gives (de_boor 3 4 ps) (clamp 3 [f 375 1000])) = true.
Proof. vm_compute. reflexivity. Qed.

(** [de_boor::segments_eq_degree], [segments_eq_degree_plus_1] *)
Example de_boor_segments_eq_degree :
  forallb (fun pk => let p := fst pk in valb (equally_spaced 4) (fun ps => gives (de_boor p p ps) (clamp p [])) &&
    valb (equally_spaced (p + 1)) (fun ps => gives (de_boor p (p + 1) ps) (clamp p [snd pk]))) [(1, f 1 4); (2, f 2 6); (3, f 3 8)] = true.
Proof. vm_compute. reflexivity. Qed.

(** ** curve/parameters/methods.rs *)

Definition points1 (l : list Z) : Mat F64 := dmatrix [map fi l].
Definition params_are (r : M (Parameters F64)) (U : list F64) : bool := valb r (fun ps => veq (pvector ps) U).

(** [equally_spaced::test] *)
Example equally_spaced_test :
  valb (dp_segments (points1 [1; 2; 3; 4; 5]%Z)) (fun m => params_are (equally_spaced m) [fi 0; f 1 4; f 1 2; f 3 4; fi 1]) = true.
Proof. vm_compute. reflexivity. Qed.

(** [chord_length::linear_1], [linear_2], [non_linear_1], [non_linear_2] *)
Example chord_length_tests :
  params_are (chord_length (points1 [1; 2; 3; 4; 5]%Z)) [fi 0; f 1 4; f 1 2; f 3 4; fi 1] &&
  params_are (chord_length (points1 [1; 3; 5]%Z)) [fi 0; f 1 2; fi 1] &&
  params_are (chord_length (points1 [1; 2; 5]%Z)) [fi 0; f 1 4; fi 1] &&
  params_are (chord_length (points1 [1; 4; 5]%Z)) [fi 0; f 3 4; fi 1] = true.
Proof. vm_compute. reflexivity. Qed.

(** [centripetal::linear_1], [linear_2], [non_linear_1], [non_linear_2] *)
Example centripetal_tests :
  params_are (centripetal (points1 [1; 2; 3; 4; 5]%Z)) [fi 0; f 1 4; f 1 2; f 3 4; fi 1] &&
  params_are (centripetal (points1 [1; 3; 5]%Z)) [fi 0; f 1 2; fi 1] &&
  params_are (centripetal (points1 [1; 2; 11]%Z)) [fi 0; f 1 4; fi 1] &&
  params_are (centripetal (points1 [1; 10; 11]%Z)) [fi 0; f 3 4; fi 1] = true.
Proof. vm_compute. reflexivity. Qed.

(** ** curve/points/mod.rs *)

Definition control_points_example : ControlPoints F64 := cp_new (dmatrix [map fi [1; 3; 5; 7]%Z; map fi [2; 4; 6; 8]%Z]).

(** [dimension], [count], [segments], [reverse] *)
Example points_tests :
  is_nat (cp_dimension control_points_example) 2 && is_nat (cp_count control_points_example) 4 && is_nat (cp_segments control_points_example) 3 &&
  valb (points_reverse control_points_example) (fun cp =>
    (length (Pk cp) =? 1) && forallb (fun m => meq m (dmatrix [map fi [7; 5; 3; 1]%Z; map fi [8; 6; 4; 2]%Z])) (Pk cp)) = true.
Proof. vm_compute. reflexivity. Qed.

(** ** curve/mod.rs *)

Definition fixture_c (q : Curve F64 -> bool) : bool :=
  okb (manual 2 (dmatrix [map fi [1; 3; 5]%Z; map fi [2; 4; 6]%Z])) (fun c => knots_are c [fi 0; fi 0; fi 0; fi 1; fi 1; fi 1] && q c).

(** [evaluate::non_existing_derivative] *)
Example non_existing_derivative :
  fixture_c (fun c => derives_to c (f 1 2) 3 [fi 0; fi 0]) = true.
Proof. vm_compute. reflexivity. Qed.

(** [evaluate::outside_lower_bound] *)
Example outside_lower_bound :
  fixture_c (fun c => errb (evaluate_derivative c (f (-1) 10) 0) (fun e => match e with ParameterOutOfBounds u a b => feq u (f (-1) 10) && feq a (fi 0) && feq b (fi 1) | _ => false end)) = true.
Proof. vm_compute. reflexivity. Qed.

(** [evaluate::outside_upper_bound] *)
Example outside_upper_bound :
  fixture_c (fun c => errb (evaluate_derivative c (f (11) 10) 0) (fun e => match e with ParameterOutOfBounds u a b => feq u (f (11) 10) && feq a (fi 0) && feq b (fi 1) | _ => false end)) = true.
Proof. vm_compute. reflexivity. Qed.

(** [evaluate::derivative_out_of_bounds_error] *)
Example derivative_out_of_bounds_error :
  okb (manual 2 (dmatrix [map fi [1; 1; 1; 1]%Z])) (fun c => insb (curve_insert c (f 1 2)) (fun c => derives_to c (f 9 10) 1 [fi 0])) = true.
Proof. vm_compute. reflexivity. Qed.

(** [evaluate::evaluate_p_repeated_knots] *)
Example evaluate_p_repeated_knots :
  okb (manual 3 (dmatrix [[fi (-1); f (-1) 2; f 1 2; fi 1]])) (fun c =>
    knots_are c (clamp 3 []) && evals_to c (fi 0) [fi (-1)] && evals_to c (fi 1) [fi 1] &&
    insb (insert c (f 1 2)) (fun c => knots_are c (clamp 3 [f 1 2]) && points_are c (dmatrix [[fi (-1); f (-3) 4; fi 0; f 3 4; fi 1]]) && evals_to c (f 1 2) [fi 0] && evals_to c (fi 0) [fi (-1)] && evals_to c (fi 1) [fi 1] &&
    insb (insert c (f 1 2)) (fun c => knots_are c (clamp 3 [f 1 2; f 1 2]) && points_are c (dmatrix [[fi (-1); f (-3) 4; f (-375) 1000; f 375 1000; f 3 4; fi 1]]) && evals_to c (f 1 2) [fi 0] && evals_to c (fi 0) [fi (-1)] && evals_to c (fi 1) [fi 1] &&
    insb (insert c (f 1 2)) (fun c => knots_are c (clamp 3 [f 1 2; f 1 2; f 1 2]) && points_are c (dmatrix [[fi (-1); f (-3) 4; f (-375) 1000; fi 0; f 375 1000; f 3 4; fi 1]]) && evals_to c (f 1 2) [fi 0] && evals_to c (fi 0) [fi (-1)] && evals_to c (fi 1) [fi 1])))) = true.
Proof. vm_compute. reflexivity. Qed.

(** [evaluate::start], [middle], [end] *)
Example start_middle_end :
  fixture_c (fun c => derives_to c (fi 0) 0 [fi 1; fi 2] && derives_to c (f 1 2) 0 [fi 3; fi 4] && derives_to c (fi 1) 0 [fi 5; fi 6]) = true.
Proof. vm_compute. reflexivity. Qed.

(** [reverse] *)
Example reverse_curve_test :
  fixture_c (fun c => valb (reverse c) (fun d =>
    knots_are d [fi 0; fi 0; fi 0; fi 1; fi 1; fi 1] && points_are d (dmatrix [map fi [5; 3; 1]%Z; map fi [6; 4; 2]%Z]) &&
    valb (reverse d) (fun e => knots_are e [fi 0; fi 0; fi 0; fi 1; fi 1; fi 1] && points_are e (dmatrix [map fi [1; 3; 5]%Z; map fi [2; 4; 6]%Z])))) = true.
Proof. vm_compute. reflexivity. Qed.

(** ** manipulation/insert.rs *)

(** [degree_1], [degree_1_repeated_knot] *)
Example insert_degree_1 :
  okb (manual 1 (points1 [-1; 1]%Z)) (fun c => knots_are c (clamp 1 []) &&
    insb (insert c (f 1 2)) (fun c => knots_are c (clamp 1 [f 1 2]) && points_are c (points1 [-1; 0; 1]%Z) &&
    insb (insert c (f 1 2)) (fun c => knots_are c (clamp 1 [f 1 2; f 1 2]) && points_are c (points1 [-1; 0; 0; 1]%Z)))) = true.
Proof. vm_compute. reflexivity. Qed.

(** [degree_2_preexisting_knot] *)
Example insert_degree_2_preexisting_knot :
  okb (manual 2 (dmatrix [[f (-3) 2; f (-1) 2; f 1 2; f 3 2]])) (fun c => knots_are c (clamp 2 [f 1 2]) &&
    insb (insert c (f 1 2)) (fun c => knots_are c (clamp 2 [f 1 2; f 1 2]) && points_are c (dmatrix [[f (-3) 2; f (-1) 2; fi 0; f 1 2; f 3 2]]))) = true.
Proof. vm_compute. reflexivity. Qed.

(** [degree_2], [degree_2_repeated_knots] *)
Example insert_degree_2_repeated_knots :
  okb (manual 2 (points1 [-1; 0; 1]%Z)) (fun c => knots_are c (clamp 2 []) && points_are c (points1 [-1; 0; 1]%Z) &&
    insb (insert c (f 1 2)) (fun c => knots_are c (clamp 2 [f 1 2]) && points_are c (dmatrix [[fi (-1); f (-1) 2; f 1 2; fi 1]]) &&
    insb (insert c (f 1 2)) (fun c => knots_are c (clamp 2 [f 1 2; f 1 2]) && points_are c (dmatrix [[fi (-1); f (-1) 2; fi 0; f 1 2; fi 1]]) && evals_to c (f 1 2) [fi 0] &&
    insb (insert c (f 1 2)) (fun c => knots_are c (clamp 2 [f 1 2; f 1 2; f 1 2]) && points_are c (dmatrix [[fi (-1); f (-1) 2; fi 0; fi 0; f 1 2; fi 1]]))))) = true.
Proof. vm_compute. reflexivity. Qed.

(** ** manipulation/split.rs *)

Definition split_c (q : Curve F64 -> bool) : bool :=
  okb (manual 2 (points1 [1; 2; 3; 4; 5; 6]%Z)) (fun c => knots_are c (clamp 2 [f 1 4; f 1 2; f 3 4]) && q c).
Definition near_knots (c : Curve F64) (U : list F64) : bool := valb (vector (cknots c)) (fun v => all2 close v U).
Definition near_points (c : Curve F64) (P : Mat F64) : bool := valb (cp_matrix (cpoints c)) (fun m => mall2 close m P).

(** [cannot_split_start] *)
Example cannot_split_start :
  split_c (fun c => errb (split_and_normalize c (fi 0) (true, true)) (fun e => match e with SOutOfBounds u a b => feq u (fi 0) && feq a (fi 0) && feq b (fi 1) | _ => false end)) = true.
Proof. vm_compute. reflexivity. Qed.

(** [cannot_split_end] *)
Example cannot_split_end :
  split_c (fun c => errb (split_and_normalize c (fi 1) (true, true)) (fun e => match e with SOutOfBounds u a b => feq u (fi 1) && feq a (fi 0) && feq b (fi 1) | _ => false end)) = true.
Proof. vm_compute. reflexivity. Qed.

(** [split_close_to_start] *)
Example split_close_to_start :
  split_c (fun c => okb (split_and_normalize c (fi 0 + eps)%num (true, true)) (fun lr => let (l, r) := lr in
    near_knots l (clamp 2 []) && near_points l (points1 [1; 1; 1]%Z) && near_knots r (clamp 2 [f 1 4; f 1 2; f 3 4]) && near_points r (points1 [1; 2; 3; 4; 5; 6]%Z))) = true.
Proof. vm_compute. reflexivity. Qed.

(** [split_close_to_end] *)
Example split_close_to_end :
  split_c (fun c => okb (split_and_normalize c (fi 1 - eps)%num (true, true)) (fun lr => let (l, r) := lr in
    near_knots l (clamp 2 [f 1 4; f 1 2; f 3 4]) && near_points l (points1 [1; 2; 3; 4; 5; 6]%Z) && near_knots r (clamp 2 []) && near_points r (points1 [6; 6; 6]%Z))) = true.
Proof. vm_compute. reflexivity. Qed.

(** [normalized] *)
Example split_normalized :
  split_c (fun c => okb (split_and_normalize c (f 1 2) (true, true)) (fun lr => let (l, r) := lr in
    knots_are l (clamp 2 [f 1 2]) && points_are l (dmatrix [[fi 1; fi 2; fi 3; f 7 2]]) && knots_are r (clamp 2 [f 1 2]) && points_are r (dmatrix [[f 7 2; fi 4; fi 5; fi 6]]))) = true.
Proof. vm_compute. reflexivity. Qed.

(** [unnormalized] *)
Example split_unnormalized :
  split_c (fun c => okb (split_and_normalize c (f 1 2) (false, false)) (fun lr => let (l, r) := lr in
    knots_are l [fi 0; fi 0; fi 0; f 1 4; f 1 2; f 1 2; f 1 2] && points_are l (dmatrix [[fi 1; fi 2; fi 3; f 7 2]]) &&
    knots_are r [f 1 2; f 1 2; f 1 2; f 3 4; fi 1; fi 1; fi 1] && points_are r (dmatrix [[f 7 2; fi 4; fi 5; fi 6]]))) = true.
Proof. vm_compute. reflexivity. Qed.

(** ** interpolation and fits, with elimination in place of the decomposition *)

(** Gaussian elimination without pivoting: the matrices of the tests are totally
    positive or positive definite *)
Definition faxpy (s : F64) (x y : list F64) : list F64 := map (fun ab => (snd ab - s * fst ab)%num) (combine x y).
Definition fstep (rows : list (list F64)) (c : nat) : list (list F64) :=
  let pr := nth c rows [] in
  let pr := map (fun x => Bdiv mode_NE x (nth c pr (fi 0))) pr in
  map (fun ir => if fst ir =? c then pr else faxpy (nth c (snd ir) (fi 0)) pr (snd ir)) (combine (seq 0 (length rows)) rows).
Definition fgauss (A B : Mat F64) : M (Mat F64) :=
  let rows := map (fun ab => fst ab ++ snd ab) (combine (mcols (mtranspose A)) (mcols (mtranspose B))) in
  let rows := fold_left fstep (seq 0 (nrows A)) rows in
  Val (mtranspose (mkMat (ncols B) (map (skipn (nrows A)) rows))).

Definition line (n : nat) : Mat F64 := let l := map (fun i => fi (Z.of_nat i)) (seq 1 n) in dmatrix [l; l].
Definition gen_knots (p : nat) (P : Mat F64) (pm : ParamMethod) (km : KnotMethod) (q : Knots F64 -> Parameters F64 -> bool) : bool :=
  valb (params_generate P pm) (fun ps => valb (dp_segments P) (fun n => okb (knots_generate p n ps km) (fun kn => q kn ps))).

(** interpolation.rs [linear] *)
Example interpolate_linear_points :
  gen_knots 1 (line 4) ChordLength KAveraging (fun kn ps => valb (interpolate fgauss kn (line 4) ps) (fun m => mall2 close m (line 4))) = true.
Proof. vm_compute. reflexivity. Qed.

(** interpolation.rs [quadratic] *)
Example interpolate_quadratic_points :
  gen_knots 2 (line 4) ChordLength KAveraging (fun kn ps => valb (interpolate fgauss kn (line 4) ps) (fun m =>
    let l := [fi 1; f 7 4; f 13 4; fi 4] in mall2 close m (dmatrix [l; l]))) = true.
Proof. vm_compute. reflexivity. Qed.

(** curve/mod.rs [interpolate_linear] *)
Example interpolate_linear_curve :
  okb (generate fgauss (Interpolation 1 (line 4))) (fun c =>
    forallb (fun ux => okb (evaluate c (fst ux)) (fun y => all2 close y [snd ux; snd ux])) [(fi 0, fi 1); (f 1 3, fi 2); (f 2 3, fi 3); (fi 1, fi 4)]) = true.
Proof. vm_compute. reflexivity. Qed.

(** fixed.rs [calculate_finite_difference_matrix_kappa1_test], [..._kappa2_test] *)
Example fixed_difference_tests :
  valb (knots_new 1 [fi 0; fi 0; f 1 4; f 1 2; f 3 4; fi 1; fi 1]) (fun kn =>
    valb (fixed_difference 1 kn) (fun m => meq m (dmatrix [map fi [-1; 1; 0]%Z; map fi [0; -1; 1]%Z])) &&
    valb (fixed_difference 2 kn) (fun m => meq m (dmatrix [map fi [1; -2; 1]%Z]))) = true.
Proof. vm_compute. reflexivity. Qed.

(** loose.rs [calculate_finite_difference_matrix_kappa1_test], [..._kappa2_test] *)
Example loose_difference_tests :
  valb (knots_new 1 [fi 0; fi 0; f 1 4; f 1 2; f 3 4; fi 1; fi 1]) (fun kn =>
    valb (loose_difference 1 kn) (fun m => meq m (dmatrix [map fi [-1; 1; 0; 0; 0]%Z; map fi [0; -1; 1; 0; 0]%Z; map fi [0; 0; -1; 1; 0]%Z; map fi [0; 0; 0; -1; 1]%Z])) &&
    valb (loose_difference 2 kn) (fun m => meq m (dmatrix [map fi [1; -2; 1; 0; 0]%Z; map fi [0; 1; -2; 1; 0]%Z; map fi [0; 0; 1; -2; 1]%Z]))) = true.
Proof. vm_compute. reflexivity. Qed.

(** loose.rs and fixed.rs [unpenalized_linear] (both call the loose fit) *)
Example unpenalized_linear :
  gen_knots 1 (line 5) EquallySpaced KUniform (fun kn ps => okb (loose_fit fgauss kn (line 5) ps None) (fun m => mall2 close m (line 5))) = true.
Proof. vm_compute. reflexivity. Qed.

(** loose.rs and fixed.rs [penalized_linear]; the knots are those of [averaging] *)
Example penalized_linear :
  gen_knots 1 (line 5) ChordLength KAveraging (fun kn ps =>
    okb (loose_fit fgauss kn (line 5) ps (Some (mkPen (f 1 2) 2))) (fun m => mall2 close m (line 5)) &&
    okb (fixed_fit fgauss kn (line 5) ps (Some (mkPen (f 1 2) 2))) (fun m => mall2 close m (line 5))) = true.
Proof. vm_compute. reflexivity. Qed.

(** fit/mod.rs:113-130 [test_data_points(npoints)] *)
Definition test_data_points (n : nat) : Mat F64 :=
  let inc := Bdiv mode_NE (fi 5) (fi (Z.of_nat n)) in
  let sh := Bdiv mode_NE (fi (Z.of_nat (n - 1)) * inc)%num (fi 2) in
  mkMat 2 (map (fun c => [(fi (Z.of_nat c) * inc - sh)%num; if Nat.even c then f 1 2 else f (-1) 2]) (seq 0 n)).

(** loose.rs and fixed.rs [unpenalized_nonlinear] *)
Example unpenalized_nonlinear :
  gen_knots 1 (test_data_points 10) EquallySpaced KUniform (fun kn ps =>
    okb (loose_fit fgauss kn (test_data_points 10) ps None) (fun m => mall2 close m (test_data_points 10)) &&
    okb (fixed_fit fgauss kn (test_data_points 10) ps None) (fun m => mall2 close m (test_data_points 10))) = true.
Proof. vm_compute. reflexivity. Qed.

(** loose.rs and fixed.rs [penalized_nonlinear] (both call the fixed fit) *)
Example penalized_nonlinear :
  gen_knots 2 (test_data_points 10) EquallySpaced KUniform (fun kn ps =>
    okb (fixed_fit fgauss kn (test_data_points 10) ps (Some (mkPen (fi 1) 2))) (fun m =>
    okb (curve_new kn (cp_new m)) (fun c => okb (evaluate c (f 1 2)) (fun y => all2 close y [fi 0; fi 0])))) = true.
Proof. vm_compute. reflexivity. Qed.

(** ** manipulation/merge.rs and the documentation of [append], [prepend], over the rationals *)

Definition qpoints (l : list QNum) : Mat QNum := dmatrix [l].
Definition z (n : Z) : QNum := q n 1.
Definition test_bspline (p : nat) (P : Mat QNum) (k : Curve QNum -> bool) : bool := okb (generate no_svd (Manual p (cp_new P) GUniform)) k.
Definition neg_reversed (P : Mat QNum) (k : Mat QNum -> bool) : bool := valb (mat_reversed P) (fun m => k (mscale (z (-1)) m)).
Definition qknots_are (c : Curve QNum) (U : list QNum) : bool := valb (vector (cknots c)) (fun v => vec_eqb v U).
Definition qpoints_are (c : Curve QNum) (P : Mat QNum) : bool := valb (cp_matrix (cpoints c)) (fun m => mat_eqb m P).
Definition merges (op : Curve QNum -> Curve QNum -> M (result (Curve QNum) (MergeError QNum))) (p : nat) (P : Mat QNum) (k : Curve QNum -> bool) : bool :=
  neg_reversed P (fun Q => test_bspline p Q (fun a => test_bspline p P (fun b => okb (op a b) k))).
Definition qhalf : list QNum := [q 1 2; z 1; z 2].

(** [knots::knots] *)
Example merge_knots :
  test_bspline 1 (qpoints [z (-2); z (-1); z 0]) (fun a => test_bspline 1 (qpoints [z 0; z 1; z 2]) (fun b =>
    okb (merge gauss_checked a b) (fun c => qknots_are c [z 0; z 0; q 1 4; q 1 2; q 3 4; z 1; z 1]))) = true.
Proof. vm_compute. reflexivity. Qed.

(** [no_shift_degree_1] *)
Example merge_no_shift_degree_1 :
  merges (merge gauss_checked) 1 (dmatrix [[z 0; z 1; z 2]; [z 0; z 1; z 2]]) (fun c => qpoints_are c (dmatrix [map z [-2; -1; 0; 1; 2]%Z; map z [-2; -1; 0; 1; 2]%Z])) = true.
Proof. vm_compute. reflexivity. Qed.

(** [no_shift_degree_2] *)
Example merge_no_shift_degree_2 :
  merges (merge gauss_checked) 2 (qpoints [z 0; z 1; z 2]) (fun c => qpoints_are c (qpoints (map z [-2; -1; 1; 2]%Z))) = true.
Proof. vm_compute. reflexivity. Qed.

(** [shift_degree_1] *)
Example merge_shift_degree_1 :
  merges (merge gauss_checked) 1 (qpoints qhalf) (fun c => qpoints_are c (qpoints (map z [-2; -1; 0; 1; 2]%Z))) = true.
Proof. vm_compute. reflexivity. Qed.

(** [shift_degree_2] *)
Example merge_shift_degree_2 :
  merges (merge gauss_checked) 2 (qpoints qhalf) (fun c => qpoints_are c (qpoints (map z [-2; -1; 1; 2]%Z))) = true.
Proof. vm_compute. reflexivity. Qed.

(** [shift_constrain_left_degree_2] *)
Example merge_constrain_left :
  merges (merge_from gauss_checked) 2 (qpoints qhalf) (fun c => qknots_are c [z 0; z 0; z 0; q 1 2; z 1; z 1; z 1] && qpoints_are c (qpoints [z (-2); q (-3) 2; q 1 2; z 2])) = true.
Proof. vm_compute. reflexivity. Qed.

(** [shift_constrain_right_degree_2] *)
Example merge_constrain_right :
  merges (merge_to gauss_checked) 2 (qpoints qhalf) (fun c => qknots_are c [z 0; z 0; z 0; q 1 2; z 1; z 1; z 1] && qpoints_are c (qpoints [z (-2); q (-1) 2; q 3 2; z 2])) = true.
Proof. vm_compute. reflexivity. Qed.

(** curve/mod.rs:228-257 documentation of [append] (the doc test computes the comparison but does not assert it) *)
Example append_doc :
  test_bspline 2 (qpoints (map z [-3; -2; -1]%Z)) (fun a => test_bspline 2 (qpoints (map z [1; 2; 3]%Z)) (fun b =>
    valb (append gauss_checked a b) (fun c => qpoints_are c (qpoints (map z [-3; -2; 2; 3]%Z))))) = true.
Proof. vm_compute. reflexivity. Qed.

(** curve/mod.rs:173-204 documentation of [prepend] *)
Example prepend_doc :
  test_bspline 2 (qpoints (map z [1; 2; 3]%Z)) (fun a => test_bspline 2 (qpoints (map z [-3; -2; -1]%Z)) (fun b =>
    valb (prepend gauss_checked a b) (fun c => qpoints_are c (qpoints (map z [-3; -2; 2; 3]%Z))))) = true.
Proof. vm_compute. reflexivity. Qed.
