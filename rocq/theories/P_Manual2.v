(** * Properties C128, C129, C130: generation from similar and from reversed polygons *)

From Coq Require Import ZArith Reals List Bool Arith Lra Lia.
From Verif Require Import Num Vec MKnots MPoints MCurve MGenerate RNum Lists Spec Api Bridge Samples Gen5.
Import ListNotations.
Local Open Scope R_scope.

(** ** C128.  Generated knots depend only on the ratios of the distances of neighbouring
    control points. *)
Theorem C128_similar_polygons : forall svd p n dim dim' (P P' : Mat RNum) pm km s, shape dim (S n) P -> shape dim' (S n) P' -> (1 <= p <= n)%nat -> 0 < s ->
  (forall g, (g < n)%nat -> exists d, (d < dim)%nat /\ ent P g d <> ent P (S g) d) ->
  (forall g, (g < n)%nat -> distance P' dim' (S g) g = s * distance P dim (S g) g) ->
  exists U c c', generate svd (Manual p (cp_new P) (GMethod pm km)) = Val (Ok c) /\ clamped_curve p n dim U P c /\
    generate svd (Manual p (cp_new P') (GMethod pm km)) = Val (Ok c') /\ clamped_curve p n dim' U P' c'.
Proof. exact manual_similar. Qed.
Print Assumptions C128_similar_polygons.

(** Hence moving, turning, mirroring or scaling the control polygon does the same to the
    generated curve. *)
Theorem C128_similarity : forall svd p n dim dim' (P P' : Mat RNum) pm km s (A : nat -> nat -> R) (b : nat -> R),
  shape dim (S n) P -> shape dim' (S n) P' -> (1 <= p <= n)%nat -> 0 < s ->
  (forall g, (g < n)%nat -> exists d, (d < dim)%nat /\ ent P g d <> ent P (S g) d) ->
  (forall g, (g < n)%nat -> distance P' dim' (S g) g = s * distance P dim (S g) g) ->
  (forall i d', (i <= n)%nat -> (d' < dim')%nat -> ent P' i d' = rsum (fun d => A d' d * ent P i d) dim + b d') ->
  exists c c', generate svd (Manual p (cp_new P) (GMethod pm km)) = Val (Ok c) /\ generate svd (Manual p (cp_new P') (GMethod pm km)) = Val (Ok c') /\
    forall u, 0 <= u <= 1 -> exists v, evaluate c u = Val (Ok v) /\ length v = dim /\
      returns (evaluate c' u) dim' (fun d' => rsum (fun d => A d' d * nth d v 0) dim + b d').
Proof. exact manual_similarity. Qed.
Print Assumptions C128_similarity.

(** With equal distances the method of choosing parameters makes no difference. *)
Theorem C128_equidistant : forall svd p n dim (P : Mat RNum) pm km s, shape dim (S n) P -> (1 <= p <= n)%nat -> 0 < s ->
  (forall g, (g < n)%nat -> distance P dim (S g) g = s) ->
  exists c, generate svd (Manual p (cp_new P) (GMethod pm km)) = Val (Ok c) /\ generate svd (Manual p (cp_new P) (GMethod EquallySpaced km)) = Val (Ok c).
Proof. exact manual_equidistant. Qed.
Print Assumptions C128_equidistant.

(** a polygon in the plane and its image under (x, y) -> (-2 y + 1, 2 x): turned, scaled
    by two and moved *)
Definition P_turned : Mat RNum := mkMat (K := RNum) 2 [[1; 0]; [-3; 2]; [-3; 6]; [3; 8]].

Example C128_hypotheses : shape 2 4 P_a /\ shape 2 4 P_turned /\ (1 <= 2 <= 3)%nat /\ 0 < 2 /\
  (forall g, (g < 3)%nat -> exists d, (d < 2)%nat /\ ent P_a g d <> ent P_a (S g) d) /\
  (forall g, (g < 3)%nat -> distance P_turned 2 (S g) g = 2 * distance P_a 2 (S g) g) /\
  (forall i d', (i <= 3)%nat -> (d' < 2)%nat -> ent P_turned i d' =
     rsum (fun d => (if (d' =? 0)%nat then if (d =? 1)%nat then -2 else 0 else if (d =? 0)%nat then 2 else 0) * ent P_a i d) 2 + (if (d' =? 0)%nat then 1 else 0)).
Proof.
  split; [exact P_a_shape|]. split; [split; [reflexivity|]; split; [reflexivity|]; intros i Hi; do 4 (destruct i as [|i]; [reflexivity|]); cbn in Hi; lia|].
  split; [lia|]. split; [lra|]. split; [|split].
  - intros g Hg. exists 0%nat. split; [lia|]. do 3 (destruct g as [|g]; [unfold ent; cbn; lra|]); lia.
  - assert (F : sqrt 4 = 2) by (replace 4 with (2 * 2) by ring; apply sqrt_square; lra).
    intros g Hg. rewrite <- F. unfold distance.
    do 3 (destruct g as [|g]; [rewrite <- sqrt_mult by (unfold ent; cbn; lra); f_equal; unfold ent; cbn; ring|]). lia.
  - intros i d' Hi Hd. do 2 (destruct d' as [|d']; [do 4 (destruct i as [|i]; [unfold ent; cbn; ring|]); lia|]). lia.
Qed.

(** a polygon with sides of length 5 *)
Definition P_even : Mat RNum := mkMat (K := RNum) 2 [[0; 0]; [3; 4]; [8; 4]; [12; 1]].

Example C128_equidistant_hypotheses : shape 2 4 P_even /\ (1 <= 2 <= 3)%nat /\ 0 < 5 /\ forall g, (g < 3)%nat -> distance P_even 2 (S g) g = 5.
Proof.
  split; [split; [reflexivity|]; split; [reflexivity|]; intros i Hi; do 4 (destruct i as [|i]; [reflexivity|]); cbn in Hi; lia|].
  split; [lia|]. split; [lra|]. assert (F : sqrt 25 = 5) by (replace 25 with (5 * 5) by ring; apply sqrt_square; lra).
  intros g Hg. rewrite <- F. unfold distance. do 3 (destruct g as [|g]; [f_equal; unfold ent; cbn; ring|]). lia.
Qed.

(** ** C129.  The control points in reverse order give the reversed curve, with uniform
    knots and with averaged ones, for each method of choosing parameters. *)
Theorem C129_reversed_polygon : forall svd p n dim (P : Mat RNum) pm km, shape dim (S n) P -> (1 <= p <= n)%nat -> km <> KDeBoor ->
  (forall g, (g < n)%nat -> exists d, (d < dim)%nat /\ ent P g d <> ent P (S g) d) ->
  exists c c', generate svd (Manual p (cp_new P) (GMethod pm km)) = Val (Ok c) /\
    generate svd (Manual p (cp_new (mkMat (nrows P) (rev (mcols P)))) (GMethod pm km)) = Val (Ok c') /\ reverse c = Val c'.
Proof. exact manual_reversed. Qed.
Print Assumptions C129_reversed_polygon.

(** ** C130.  With de Boor's knots it does NOT: for equally spaced parameters, every
    degree and every polygon with internal knots, all internal knots are off by [1 / n]. *)
Theorem C130_reversed_polygon_de_boor_refuted : forall svd p n dim (P : Mat RNum), shape dim (S n) P -> (1 <= p < n)%nat ->
  (forall g, (g < n)%nat -> exists d, (d < dim)%nat /\ ent P g d <> ent P (S g) d) ->
  exists c c' r (U U' : list R), generate svd (Manual p (cp_new P) (GMethod EquallySpaced KDeBoor)) = Val (Ok c) /\
    generate svd (Manual p (cp_new (mkMat (nrows P) (rev (mcols P)))) (GMethod EquallySpaced KDeBoor)) = Val (Ok c') /\
    reverse c = Val r /\ vector (cknots r) = Val U /\ vector (cknots c') = Val U' /\ length U = length U' /\
    forall i, (p < i <= n)%nat -> nth i U 0 - nth i U' 0 = 1 / INR n.
Proof. exact manual_reversed_de_boor. Qed.
Print Assumptions C130_reversed_polygon_de_boor_refuted.

Example C129_C130_hypotheses : shape 2 4 P_a /\ (1 <= 2 < 3)%nat /\ KAveraging <> KDeBoor /\
  forall g, (g < 3)%nat -> exists d, (d < 2)%nat /\ ent P_a g d <> ent P_a (S g) d.
Proof.
  split; [exact P_a_shape|]. split; [lia|]. split; [discriminate|].
  intros g Hg. exists 0%nat. split; [lia|]. do 3 (destruct g as [|g]; [unfold ent; cbn; lra|]); lia.
Qed.
