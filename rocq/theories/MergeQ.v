(** * Runs of the merge over the rationals *)

From Coq Require Import ZArith List Bool QArith Qcanon Arith Lia.
From Verif Require Import Num Vec MKnots MPoints MCurve MFit MMerge QNum QSolve Lists Hoare Api Facts11.
Import ListNotations.
Local Open Scope nat_scope.

Definition qrow (l : list Z) : Mat QNum := mkMat 1 (map (fun x => [q x 1]) l).
Definition qbuild (p : nat) (U : list QNum) (P : Mat QNum) : M (result (Curve QNum) (CurveError QNum)) :=
  kn <- knots_new p U;; curve_new kn (cp_new P).

Lemma qbuild_built p U P c : qbuild p U P = Val (Ok c) -> built p U P c.
Proof. intros E. unfold qbuild in E. apply bind_val in E. destruct E as [kn [E1 E2]]. exists kn. auto. Qed.

Lemma sized_qrow p n U l : p <= n -> length U = n + p + 2 -> length l = S n -> sized p n 1 U (qrow l).
Proof.
  intros H1 H2 H3. split; [exact H1|]. split; [exact H2|]. split; [reflexivity|]. unfold qrow. cbn [mcols]. split; [rewrite map_length; exact H3|].
  intros i Hi. rewrite (nth_indep _ [] [q 0 1]) by (rewrite map_length; lia).
  rewrite (map_nth (fun x => [q x 1])). reflexivity.
Qed.

Definition qis (r : M (result (list QNum) (CurveError QNum))) (y : QNum) : bool :=
  okb r (fun x => match x with [z] => Qceqb z y | _ => false end).
Lemma qis_ex r y : qis r y = true -> r = Val (Ok [y]).
Proof.
  intros H. apply okb_ex in H. destruct H as [x [E H]]. destruct x as [|z [|? ?]]; try discriminate H. rewrite E.
  apply Qeq_bool_eq in H. apply Qc_is_canon in H. rewrite H. reflexivity.
Qed.

(** [gauss_checked] only returns solutions *)
Lemma gauss_checked_exact A B X : gauss_checked A B = Val X -> exists AX, mmul A X = Val AX /\ mat_eqb AX B = true.
Proof.
  unfold gauss_checked. intros H. apply bind_val in H. destruct H as [Y [_ H]]. apply bind_val in H. destruct H as [AX [E H]].
  destruct (mat_eqb AX B) eqn:F; [|discriminate H]. injection H as <-. exists AX. auto.
Qed.

Definition bezier_knots (p : nat) : list QNum := repeat (q 0 1) (S p) ++ repeat (q 1 1) (S p).
Definition two_knots (p : nat) : list QNum := repeat (q 0 1) (S p) ++ [q 1 2] ++ repeat (q 1 1) (S p).

Lemma cubic_constants : exists a c : Curve QNum, sized 3 3 1 (bezier_knots 3) (qrow [1; 1; 1; 1]%Z) /\ built 3 (bezier_knots 3) (qrow [1; 1; 1; 1]%Z) a /\
  merge gauss_checked a a = Val (Ok c) /\ evaluate c (q 1 2) = Val (Ok [q 4 3]).
Proof.
  assert (T : okb (qbuild 3 (bezier_knots 3) (qrow [1; 1; 1; 1]%Z)) (fun a => okb (merge gauss_checked a a) (fun c =>
    qis (evaluate c (q 1 2)) (q 4 3))) = true) by (vm_compute; reflexivity).
  apply okb_ex in T. destruct T as [a [E T]]. apply okb_ex in T. destruct T as [c [E2 T]]. apply qis_ex in T.
  exists a, c. split; [apply sized_qrow; try reflexivity; lia|]. split; [apply qbuild_built; exact E|]. auto.
Qed.

Lemma quadratic_constants : exists a b c : Curve QNum,
  sized 2 2 1 (bezier_knots 2) (qrow [1; 1; 1]%Z) /\ built 2 (bezier_knots 2) (qrow [1; 1; 1]%Z) a /\
  sized 2 3 1 (two_knots 2) (qrow [1; 1; 1; 1]%Z) /\ built 2 (two_knots 2) (qrow [1; 1; 1; 1]%Z) b /\
  merge gauss_checked a b = Val (Ok c) /\ evaluate c (q 1 2) = Val (Ok [q 4 3]) /\ merge gauss_checked b a = Panic.
Proof.
  assert (T : okb (qbuild 2 (bezier_knots 2) (qrow [1; 1; 1]%Z)) (fun a => okb (qbuild 2 (two_knots 2) (qrow [1; 1; 1; 1]%Z)) (fun b =>
    okb (merge gauss_checked a b) (fun c => qis (evaluate c (q 1 2)) (q 4 3) && panicb (merge gauss_checked b a)))) = true) by (vm_compute; reflexivity).
  apply okb_ex in T. destruct T as [a [E T]]. apply okb_ex in T. destruct T as [b [E1 T]]. apply okb_ex in T. destruct T as [c [E2 T]].
  apply andb_true_iff in T. destruct T as [T1 T2]. apply qis_ex in T1. apply panicb_ex in T2.
  exists a, b, c. split; [apply sized_qrow; try reflexivity; lia|]. split; [apply qbuild_built; exact E|].
  split; [apply sized_qrow; try reflexivity; lia|]. split; [apply qbuild_built; exact E1|]. auto.
Qed.

Lemma prepend_swaps : exists s o c d : Curve QNum,
  sized 2 2 1 (bezier_knots 2) (qrow [4; 4; 4]%Z) /\ built 2 (bezier_knots 2) (qrow [4; 4; 4]%Z) s /\
  sized 2 2 1 (bezier_knots 2) (qrow [0; 0; 0]%Z) /\ built 2 (bezier_knots 2) (qrow [0; 0; 0]%Z) o /\
  prepend_constrained gauss_checked s [q 1 2] o [] = Val c /\ evaluate s (q 1 2) = Val (Ok [q 4 1]) /\ evaluate c (q 3 4) = Val (Ok [q 59 17]) /\
  append_constrained gauss_checked o [] s [q 1 2] = Val d /\ evaluate d (q 3 4) = Val (Ok [q 4 1]).
Proof.
  assert (T : okb (qbuild 2 (bezier_knots 2) (qrow [4; 4; 4]%Z)) (fun s => okb (qbuild 2 (bezier_knots 2) (qrow [0; 0; 0]%Z)) (fun o =>
    valb (prepend_constrained gauss_checked s [q 1 2] o []) (fun c => valb (append_constrained gauss_checked o [] s [q 1 2]) (fun d =>
     qis (evaluate s (q 1 2)) (q 4 1) && (qis (evaluate c (q 3 4)) (q 59 17) && qis (evaluate d (q 3 4)) (q 4 1)))))) = true) by (vm_compute; reflexivity).
  apply okb_ex in T. destruct T as [s [E T]]. apply okb_ex in T. destruct T as [o [E1 T]]. apply valb_ex in T. destruct T as [c [E2 T]].
  apply valb_ex in T. destruct T as [d [E3 T]]. apply andb_true_iff in T. destruct T as [T1 T]. apply andb_true_iff in T. destruct T as [T2 T3].
  apply qis_ex in T1. apply qis_ex in T2. apply qis_ex in T3.
  exists s, o, c, d. split; [apply sized_qrow; try reflexivity; lia|]. split; [apply qbuild_built; exact E|].
  split; [apply sized_qrow; try reflexivity; lia|]. split; [apply qbuild_built; exact E1|]. auto 10.
Qed.

(** a merge in which all entries of the result can be read off *)
Lemma quadratic_merge : exists a b c : Curve QNum,
  sized 2 2 1 (bezier_knots 2) (qrow [0; 0; 0]%Z) /\ built 2 (bezier_knots 2) (qrow [0; 0; 0]%Z) a /\ built 2 (bezier_knots 2) (qrow [4; 4; 4]%Z) b /\
  merge gauss_checked a b = Val (Ok c) /\ evaluate c (q 0 1) = Val (Ok [q 0 1]) /\ evaluate c (q 1 1) = Val (Ok [q 4 1]) /\ evaluate c (q 1 2) = Val (Ok [q 2 1]).
Proof.
  assert (T : okb (qbuild 2 (bezier_knots 2) (qrow [0; 0; 0]%Z)) (fun a => okb (qbuild 2 (bezier_knots 2) (qrow [4; 4; 4]%Z)) (fun b =>
    okb (merge gauss_checked a b) (fun c => qis (evaluate c (q 0 1)) (q 0 1) && (qis (evaluate c (q 1 1)) (q 4 1) && qis (evaluate c (q 1 2)) (q 2 1))))) = true) by (vm_compute; reflexivity).
  apply okb_ex in T. destruct T as [a [E T]]. apply okb_ex in T. destruct T as [b [E1 T]]. apply okb_ex in T. destruct T as [c [E2 T]].
  apply andb_true_iff in T. destruct T as [T1 T]. apply andb_true_iff in T. destruct T as [T2 T3].
  apply qis_ex in T1. apply qis_ex in T2. apply qis_ex in T3.
  exists a, b, c. split; [apply sized_qrow; try reflexivity; lia|]. split; [apply qbuild_built; exact E|]. split; [apply qbuild_built; exact E1|]. auto.
Qed.
