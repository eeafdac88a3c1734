(** * Property C152: runs of edits in exact arithmetic *)

From Coq Require Import ZArith Reals List Bool Arith Lra Lia.
From Verif Require Import Num Vec MKnots MPoints MCurve RNum Lists Spec Api ApiC ApiR Bridge Facts1 Samples Run.
Import ListNotations.
Local Open Scope R_scope.

(** ** C152.  Whether a run of insertions, reversals and splits succeeds can be told from the
    internal knots alone.  The result traces the original curve at the parameter computed
    backwards through the run, its internal knots are the ones so computed, and its
    derivatives are scaled by the product of the single factors. *)
Theorem C152_run : forall p n dim U P c es, clamped_curve p n dim U P c ->
  (forall x, 0 < x < 1 -> (mult U x <= p)%nat) -> all_allowed p (mult U) es ->
  exists c' n' U' P', edited c es = Val c' /\ clamped_curve p n' dim U' P' c' /\
    (forall x, 0 < x < 1 -> mult U' x = knots_after_all es (mult U) x) /\
    (forall t, 0 <= t <= 1 -> 0 <= origin es t <= 1) /\
    (forall t, 0 <= t <= 1 -> evaluate c' t = evaluate c (origin es t)) /\
    (forall t k, 0 < t < 1 -> (k <= p)%nat -> (knots_after_all es (mult U) t <= p - k)%nat ->
      0 < origin es t < 1 /\ (mult U (origin es t) <= p - k)%nat /\
      exists v, evaluate_derivative c (origin es t) k = Val (Ok v) /\ length v = dim /\
        returns (evaluate_derivative c' t k) dim (fun d => stretched es ^ k * nth d v 0)).
Proof. exact (fun p n dim U P c es H Mp A => run_exact p dim es n U P c (mult U) H (fun x _ => eq_refl) Mp A). Qed.
Print Assumptions C152_run.

(** the quadratic on the knots 0 0 0 1/2 1 1 1: insert 1/3, reverse, keep the part right of
    1/4, reverse, keep the part left of 1/3 *)
Definition run_a : list (edit RNum) := [EInsert (1 / 3) 1; EReverse; ERight (1 / 4) (true, true); EReverse; ELeft (1 / 3) (true, true)].

Example C152_hypotheses : exists c, clamped_curve 2 3 2 U_a P_a c /\ (forall x, 0 < x < 1 -> (mult U_a x <= 2)%nat) /\ all_allowed 2 (mult U_a) run_a.
Proof.
  destruct curve_a as [c H]. exists c. split; [exact H|].
  assert (MA : forall x, 0 < x < 1 -> (mult U_a x <= 1)%nat).
  { intros x Hx. unfold U_a, mult. cbn [count_occ]. repeat (destruct (Req_EM_T _ _); try lra); lia. }
  assert (MT : forall x, 0 < x < 1 -> x <> 1 / 2 -> mult U_a x = 0%nat).
  { intros x Hx Hy. unfold U_a, mult. cbn [count_occ]. repeat (destruct (Req_EM_T _ _); try lra); try reflexivity. }
  assert (MB : forall x, 0 < x < 1 -> (mult U_a x + (if Req_EM_T x (1 / 3) then 1 else 0) <= 1)%nat).
  { intros x Hx. destruct (Req_EM_T x (1 / 3)) as [E|E]; [rewrite MT by lra; lia|specialize (MA x Hx); lia]. }
  split; [intros x Hx; specialize (MA x Hx); lia|].
  unfold run_a. cbn [all_allowed allowed knots_after before].
  split; [split; [lra|split; [rewrite MT by lra; lia|intros x Hx; apply MA; lra]]|]. split; [exact I|].
  split; [split; [reflexivity|split; [lra|intros x Hx; apply MB; lra]]|]. split; [exact I|].
  split; [|exact I]. split; [reflexivity|]. split; [lra|]. intros x Hx. apply MB. lra.
Qed.

Example C152_origin : origin run_a 1 = 1 / 4 /\ stretched run_a = 1 / 4.
Proof. unfold run_a. cbn [origin stretched before stretch_of]. lra. Qed.
