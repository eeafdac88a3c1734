(** * Properties C135, C136: which curves can be merged *)

From Coq Require Import ZArith Reals List Bool Arith Lia Lra.
From Verif Require Import Num Vec MKnots MPoints MCurve MFit MMerge RNum F64 Lists Struct Spec Api ApiF ApiF3 ApiJ ApiK Bridge Samples Facts11 Fit3 Float8 Float17 Float21 Merge16 Float26.
Import ListNotations.
Local Open Scope R_scope.

(** ** C135.  Merging in binary64.  The errors are those of exact arithmetic on the
    values of the knots, whatever the control points are. *)
Theorem C135_merge_errors_binary64 : forall svd p m dim V P a p' o dim' W Q b pa pb,
  @sized F64 p m dim V P -> @built F64 p V P a -> @sized F64 p' o dim' W Q -> @built F64 p' W Q b ->
  (forall x, In x V -> finite x) -> (forall x, In x W -> finite x) ->
  let r := merge_with_constraints svd (mkCC a pa) (mkCC b pb) in
  let total := (length pa + length pb)%nat in
  let VR := map val V in let WR := map val W in
  (p <> p' -> r = Val (Err (DegreeMismatch p p'))) /\
  (p = p' -> dim <> dim' -> r = Val (Err (DimensionMismatch dim dim'))) /\
  (p = p' -> dim = dim' -> ~ (ends_clamped p VR /\ ends_clamped p WR) -> r = Val (Err UnclampedCurve)) /\
  (p = p' -> dim = dim' -> ends_clamped p VR -> ends_clamped p WR -> ~ (spans_unit VR /\ spans_unit WR) -> r = Val (Err UnnormedCurve)) /\
  (p = p' -> dim = dim' -> ends_clamped p VR -> ends_clamped p WR -> spans_unit VR -> spans_unit WR -> (p <= total)%nat ->
     r = Val (Err (TooManyConstraints total p))) /\
  (p = p' -> dim = dim' -> ends_clamped p VR -> ends_clamped p WR -> spans_unit VR -> spans_unit WR -> (total < p)%nat ->
     forall e, r <> Val (Err e)).
Proof. exact merge_errors_F64. Qed.
Print Assumptions C135_merge_errors_binary64.

(** The knots of the merged curve are within [2^-52] of the joined knots, sorted, exactly
    0 and 1 at the ends; the points away from the joint are copied bit by bit.  If
    different knots of each curve are at least [2^-49] apart, no two of them collapse. *)
Theorem C135_merge_binary64 : forall p m dim V P a o W Q b svd pa pb,
  on_knots p m dim V P a -> on_knots p o dim W Q b -> answers svd -> (length pa + length pb < p)%nat -> (m <= o < m + p)%nat ->
  exists c U C, @merge_with_constraints F64 svd (mkCC a pa) (mkCC b pb) = Val (Ok c) /\
    sized p (m + o + 1 - p) dim U C /\ built p U C c /\ (forall x, In x U -> finite x) /\
    nearly_joined p m o (map val V) (map val W) (map val U) /\ keeps_points p m o P Q C /\
    (wide (/ 2 ^ 49) (map val V) -> wide (/ 2 ^ 49) (map val W) -> float_knots p (m + o + 1 - p) U).
Proof. exact (fun p m dim V P a o W Q b svd pa pb HA HB G Ht => merge_fits_F64 HA HB svd G pa pb Ht). Qed.
Print Assumptions C135_merge_binary64.

Theorem C135_merge_panics_binary64 : forall p m dim V P a o W Q b svd pa pb,
  on_knots p m dim V P a -> on_knots p o dim W Q b -> answers svd -> (length pa + length pb < p)%nat -> (o < m \/ m + p <= o)%nat ->
  @merge_with_constraints F64 svd (mkCC a pa) (mkCC b pb) = Panic.
Proof. exact (fun p m dim V P a o W Q b svd pa pb HA HB G Ht => merge_overflows_F64 HA HB svd G pa pb Ht). Qed.
Print Assumptions C135_merge_panics_binary64.

(** a quadratic on the knots 0 0 0 1/4 1 1 1 with itself, and with a parabola on the
    knots 0 0 0 1 1 1, once before and once after it; the solver answers zero *)
Example C135_hypotheses : exists a b, on_knots 2 3 1 U_f P_f a /\ on_knots 2 2 1 U_g P_g b /\ answers zero_svd /\
  wide (/ 2 ^ 49) (map val U_f) /\ wide (/ 2 ^ 49) (map val U_g) /\ (3 <= 3 < 3 + 2)%nat /\ (2 <= 3 < 2 + 2)%nat /\ (2 < 3)%nat.
Proof.
  destruct curve_f as [a [[F [CU _]] [SP [_ B]]]].
  destruct (okb_ex (build 2 U_g P_g) (fun _ => true)) as [b [E _]]; [vm_compute; reflexivity|]. assert (Hb := build_built 2 U_g P_g b E). clear E.
  assert (VG : map val U_g = [0; 0; 0; 1; 1; 1]) by (unfold U_g; cbn [map]; rewrite val_q4_0, val_q4_4; reflexivity).
  exists a, b. split; [split; [split; [lia|split; [reflexivity|exact SP]]|split; [exact B|split; [exact F|exact CU]]]|].
  split; [split; [split; [lia|split; [reflexivity|split; [reflexivity|split; [reflexivity|intros i Hi; cases i]]]]|split; [exact Hb|split]]|].
  - intros x Hx. unfold U_g in Hx. cbn [map In] in Hx. repeat (destruct Hx as [<-|Hx]; [apply F; unfold U_f; cbn [map In]; auto 10|]). destruct Hx.
  - rewrite VG. split; [lia|reflexivity| | | |].
    + intros i j Hij Hj. simpl in Hj. do 6 (destruct i as [|i]; [do 6 (destruct j as [|j]; [simpl; first [lra|lia]|]); lia|]). lia.
    + intros i Hi. do 3 (destruct i as [|i]; [reflexivity|]). lia.
    + intros i Hi Hj. simpl in Hj. do 6 (destruct i as [|i]; [first [reflexivity|lia]|]). lia.
    + intros i Hi Hj. lia.
  - split; [intros A Bm; eexists; split; [reflexivity|apply mzeros_shape]|]. rewrite val_U_f, VG.
    split; [intros x y Hx Hy Hl; simpl in Hx, Hy; repeat (destruct Hx as [<-|Hx]; [repeat (destruct Hy as [<-|Hy]; [lra|]); destruct Hy|]); destruct Hx|].
    split; [intros x y Hx Hy Hl; simpl in Hx, Hy; repeat (destruct Hx as [<-|Hx]; [repeat (destruct Hy as [<-|Hy]; [lra|]); destruct Hy|]); destruct Hx|]. lia.
Qed.

(** ** C136.  In exact arithmetic merging succeeds exactly when the second curve has at
    least as many points as the first and fewer than [p] more; then its knots are the
    joined knots and the points away from the joint are kept.  In all other cases it
    panics. *)
Theorem C136_merge_sizes : forall p m dim V P a o W Q b svd pa pb,
  clamped_curve p m dim V P a -> clamped_curve p o dim W Q b -> answers svd -> (length pa + length pb < p)%nat -> (m <= o < m + p)%nat ->
  exists c U C, merge_with_constraints svd (mkCC a pa) (mkCC b pb) = Val (Ok c) /\
    joined_knots p m o V W U /\ clamped_curve p (m + o + 1 - p) dim U C c /\ keeps_points p m o P Q C.
Proof. exact (fun p m dim V P a o W Q b svd pa pb HA HB G Ht => merge_fits HA HB svd G pa pb Ht). Qed.
Print Assumptions C136_merge_sizes.

Theorem C136_merge_panics : forall p m dim V P a o W Q b svd pa pb,
  clamped_curve p m dim V P a -> clamped_curve p o dim W Q b -> answers svd -> (length pa + length pb < p)%nat -> (o < m \/ m + p <= o)%nat ->
  merge_with_constraints svd (mkCC a pa) (mkCC b pb) = Panic.
Proof. exact (fun p m dim V P a o W Q b svd pa pb HA HB G Ht => merge_overflows HA HB svd G pa pb Ht). Qed.
Print Assumptions C136_merge_panics.

(** a quadratic with four points, and a parabola with three *)
Example C136_hypotheses : exists U P a b (svd : Mat RNum -> Mat RNum -> M (Mat RNum)), clamped_curve 2 3 2 U_a P_a a /\ clamped_curve 2 2 2 U P b /\ answers svd /\
  (2 <= 3 < 2 + 2)%nat /\ (2 < 3)%nat /\ (length [1] + length (@nil R) < 2)%nat.
Proof.
  destruct curve_a as [a HA]. exists [0; 0; 0; 1; 1; 1].
  assert (CU : clamped 2 2 [0; 0; 0; 1; 1; 1]).
  { split; [lia|reflexivity| | | |].
    - intros i j Hij Hj. simpl in Hj. do 6 (destruct i as [|i]; [do 6 (destruct j as [|j]; [simpl; first [lra|lia]|]); lia|]). lia.
    - intros i Hi. do 3 (destruct i as [|i]; [reflexivity|]). lia.
    - intros i Hi Hj. simpl in Hj. do 6 (destruct i as [|i]; [first [reflexivity|lia]|]). lia.
    - intros i Hi Hj. lia. }
  destruct (clamped_curve_ex 2 2 2 _ (mat_of 2 3 (fun i d => INR (i * d))) CU (mat_of_shape _ _ _)) as [b HB].
  exists (mat_of 2 3 (fun i d => INR (i * d))), a, b, (fun A B => Val (mzeros (ncols A) (ncols B))).
  split; [exact HA|]. split; [exact HB|]. split; [intros A B; eexists; split; [reflexivity|apply mzeros_shape]|]. simpl. lia.
Qed.
