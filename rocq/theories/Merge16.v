(** * Merging: all segment counts in exact arithmetic *)

From Coq Require Import ZArith Reals List Bool Arith Lia Lra.
From Verif Require Import Num Vec MKnots MPoints MCurve MFit MMerge RNum Hoare Lists Struct Spec BMath3 Api ApiJ Bridge Facts1 Facts3 Gen3 Merge1 Merge2 Merge14 Merge15.
Import ListNotations.
Local Open Scope R_scope.

Lemma div_nat_R (x : R) k : (0 < k)%nat -> ok False (@ndiv RNum x (@nofnat RNum k)) (fun _ => True).
Proof. intros H. unfold nofnat. cbn [ndiv nofZ RNum]. rewrite Rdivm_val by (apply not_0_IZR; lia). exact Logic.I. Qed.

Lemma answers_ok {K : Num} (svd : Mat K -> Mat K -> M (Mat K)) : answers svd -> forall A B, ok False (svd A B) (shape (ncols A) (ncols B)).
Proof. intros G A B. destruct (G A B) as [X [E S]]. rewrite E. exact S. Qed.

Section Exact.
  Context {p m dim : nat} {V : list R} {S_ : Mat RNum} {a : Curve RNum} (HA : clamped_curve p m dim V S_ a).
  Context {o : nat} {W : list R} {T_ : Mat RNum} {b : Curve RNum} (HB : clamped_curve p o dim W T_ b).
  Context (svd : Mat RNum -> Mat RNum -> M (Mat RNum)) (G : answers svd) (pa pb : list R) (Ht : (length pa + length pb < p)%nat).

  Let Wa := proj1 (cc_wf _ _ _ _ _ _ HA).
  Let Wb := proj1 (cc_wf _ _ _ _ _ _ HB).

  Lemma raw_scaled : exists U, joined_knots p m o V W U /\ @vdiv_scalar RNum (map (@raw_knot RNum p m V W) (seq 0 (m + o + 3))) (@raw_knot RNum p m V W (m + o + 2)) = Val U.
  Proof.
    destruct (knots_joined HA HB) as [Va [Wd [U [E1 [_ [_ [E2 [J _]]]]]]]]. destruct (knots_val Wa Wb) as [Va' [Wr' [Wd' [F1 [_ [_ [_ F2]]]]]]].
    rewrite E1 in F1. injection F1 as <- _ <-. rn. rewrite E2 in F2. exists U. split; [exact J|]. symmetry. exact F2.
  Qed.

  Theorem merge_fits : (m <= o < m + p)%nat -> exists c U C, merge_with_constraints svd (mkCC a pa) (mkCC b pb) = Val (Ok c) /\
    joined_knots p m o V W U /\ clamped_curve p (m + o + 1 - p) dim U C c /\ keeps_points p m o S_ T_ C.
  Proof.
    intros H. destruct raw_scaled as [U [J EU]]. assert (DV := cl_deg _ _ _ (proj1 HA)).
    assert (DU : ok False (@vdiv_scalar RNum (map (@raw_knot RNum p m V W) (seq 0 (m + o + 3))) (@raw_knot RNum p m V W (m + o + 2))) (fun _ => True)) by (rewrite EU; exact Logic.I).
    assert (T := core_ok False gdiv_R div_nat_R Wa Wb ltac:(lia) pa pb svd (answers_ok svd G) DU H). rewrite (merge_clamped svd p m dim V S_ a o W T_ b pa pb HA HB Ht).
    apply ok_val_ex in T. destruct T as [r [E [c [U' [C [-> [EU' [LU [SC [B [K1 K2]]]]]]]]]]]. rewrite EU in EU'. injection EU' as <-.
    exists c, U, C. split; [exact E|]. split; [exact J|]. destruct (joined_clamped HA HB U J) as [CU _].
    split; [|split; [exact K1|exact K2]]. split; [exact CU|]. split; [replace (S (m + o + 1 - p)) with (m + o + 2 - p)%nat by lia; exact SC|exact B].
  Qed.

  Theorem merge_overflows : (o < m)%nat \/ (m + p <= o)%nat -> merge_with_constraints svd (mkCC a pa) (mkCC b pb) = Panic.
  Proof.
    intros H. destruct raw_scaled as [U [J EU]].
    assert (DU : ok False (@vdiv_scalar RNum (map (@raw_knot RNum p m V W) (seq 0 (m + o + 3))) (@raw_knot RNum p m V W (m + o + 2))) (fun _ => True)) by (rewrite EU; exact Logic.I).
    rewrite (merge_clamped svd p m dim V S_ a o W T_ b pa pb HA HB Ht). exact (core_panics False gdiv_R div_nat_R Wa Wb ltac:(lia) pa pb svd (answers_ok svd G) DU (fun x => x) H).
  Qed.
End Exact.
