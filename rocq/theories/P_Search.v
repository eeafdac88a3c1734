(** * Properties C35, C48, C51: the span search and segment counts *)

From Coq Require Import ZArith Reals List Bool Arith Lra Lia.
From Verif Require Import Num Vec MKnots MPoints MCurve RNum F64 Lists Struct Spec Api Facts9 Facts11 Samples Bridge.
Import ListNotations.
Local Open Scope R_scope.

(** ** C35.  On sorted knots the four searches return the domain index they are
    named after, for every derivative order k.  Entry j of the
    k-th knot vector is U[k + j]. *)
Theorem C35_left : forall p n k U u kn, length U = (n + p + 2)%nat -> (p <= n)%nat -> knots_new p U = Val kn -> (k <= p)%nat -> sorted U ->
  exists l, find_idx kn u k CLeft = Val l /\ (p - k <= l <= n - k)%nat /\
    (forall j, (p - k < j <= l)%nat -> nth (k + j) U 0 < u) /\
    (forall j, (l < j <= n - k)%nat -> u <= nth (k + j) U 0).
Proof. exact find_left_kn. Qed.
Print Assumptions C35_left.

Theorem C35_left_or_equal : forall p n k U u kn, length U = (n + p + 2)%nat -> (p <= n)%nat -> knots_new p U = Val kn -> (k <= p)%nat -> sorted U ->
  (forall i, (p < i < n)%nat -> nth i U 0 <= u -> nth i U 0 < nth (i + 1) U 0) ->
  exists l, find_idx kn u k CLeftOrEqual = Val l /\ (p - k <= l <= n - k)%nat /\
    (forall j, (p - k < j <= l)%nat -> nth (k + j) U 0 <= u) /\
    (forall j, (l < j <= n - k)%nat -> u < nth (k + j) U 0).
Proof. exact find_left_eq_kn. Qed.
Print Assumptions C35_left_or_equal.

Theorem C35_right : forall p n k U u kn, length U = (n + p + 2)%nat -> (p <= n)%nat -> knots_new p U = Val kn -> (k <= p)%nat -> sorted U ->
  exists r, find_idx kn u k CRight = Val r /\ (p - k < r <= n + 1 - k)%nat /\
    (forall j, (r <= j <= n - k)%nat -> u < nth (k + j) U 0) /\
    (forall j, (p - k < j < r)%nat -> nth (k + j) U 0 <= u).
Proof. exact find_right_kn. Qed.
Print Assumptions C35_right.

Theorem C35_right_or_equal : forall p n k U u kn, length U = (n + p + 2)%nat -> (p <= n)%nat -> knots_new p U = Val kn -> (k < p)%nat -> sorted U ->
  (forall i, (p < i <= n)%nat -> u <= nth i U 0 -> nth (i - 1) U 0 < nth i U 0) ->
  exists r, find_idx kn u k CRightOrEqual = Val r /\ (p - k <= r <= n + 1 - k)%nat /\
    (forall j, (r <= j <= n - k)%nat -> u <= nth (k + j) U 0) /\
    (forall j, (p - k <= j < r)%nat -> nth (k + j) U 0 < u).
Proof. exact find_right_eq_kn. Qed.
Print Assumptions C35_right_or_equal.

(** whatever the knots (NaN included), the search used by evaluation returns and
    stays inside the domain *)
Theorem C35_in_domain : forall (K : Num) p n k (U : list K) u kn, length U = (n + p + 2)%nat -> (p <= n)%nat ->
  knots_new p U = Val kn -> (k <= p)%nat ->
  exists l, find_idx kn u k CLeftOrEqual = Val l /\ (p - k <= l <= n - k)%nat.
Proof. exact find_idx_bounds_kn. Qed.
Print Assumptions C35_in_domain.

Example C35_hypotheses : (exists kn, @knots_new RNum 2 U_a = Val kn) /\ length U_a = (3 + 2 + 2)%nat /\ sorted U_a /\
  (forall i, (2 < i < 3)%nat -> nth i U_a 0 <= 3/4 -> nth i U_a 0 < nth (i + 1) U_a 0) /\
  (forall i, (2 < i <= 3)%nat -> 1/4 <= nth i U_a 0 -> nth (i - 1) U_a 0 < nth i U_a 0).
Proof.
  split; [eexists; reflexivity|]. split; [reflexivity|]. split; [apply sorted_steps; intros i Hi; cbn [length U_a] in Hi; do 6 (destruct i as [|i]; [cbn; lra|]); lia|]. split; intros i Hi _; [lia|]. replace i with 3%nat by lia. cbn. lra.
Qed.

(** ** C51.  The search from the right does NOT work for k = p: if the parameter is
    not above any domain knot it runs below index 0 and panics (every number system). *)
Theorem C51_right_or_equal_top_refuted : forall (K : Num) p n (U : list K) u kn, length U = (n + p + 2)%nat -> (p <= n)%nat ->
  knots_new p U = Val kn ->
  (forall i, (p <= i <= n + 1)%nat -> (u <=? nth i U n0)%num = true) ->
  (forall i, (p <= i <= n)%nat -> (nth i U n0 ==? nth (i + 1) U n0)%num = false) ->
  find_idx kn u p CRightOrEqual = Panic.
Proof. exact find_right_eq_panics_kn. Qed.
Print Assumptions C51_right_or_equal_top_refuted.

(** u = 0 on the knots of the quadratic curve *)
Example C51_hypotheses : (exists kn, @knots_new RNum 2 U_a = Val kn) /\ length U_a = (3 + 2 + 2)%nat /\
  (forall i, (2 <= i <= 4)%nat -> @nleb RNum 0 (nth i U_a 0) = true) /\
  (forall i, (2 <= i <= 3)%nat -> @neqb RNum (nth i U_a 0) (nth (i + 1) U_a 0) = false).
Proof.
  split; [eexists; reflexivity|]. split; [reflexivity|]. split; intros i Hi.
  - apply Rleb_le. assert (i = 2 \/ i = 3 \/ i = 4)%nat as [->|[->| ->]] by lia; cbn; lra.
  - apply Reqb_neq. assert (i = 2 \/ i = 3)%nat as [->| ->] by lia; cbn; lra.
Qed.

(** ** C48.  segments_derivative(k) is NOT n - k: it is n, or panics. *)
Theorem C48_segments_derivative_refuted : forall (K : Num) p n k (U : list K) kn, length U = (n + p + 2)%nat -> (1 <= p <= n)%nat ->
  knots_new p U = Val kn -> (k <= p)%nat ->
  segments_derivative kn k = if (2 * k <=? p + 2)%nat then Val n else Panic.
Proof. exact segments_derivative_val. Qed.
Print Assumptions C48_segments_derivative_refuted.

Example C48_hypotheses : exists kn, @knots_new RNum 2 U_a = Val kn.
Proof. eexists. reflexivity. Qed.
