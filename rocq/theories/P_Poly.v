(** * Polynomials and smooth functions *)

From Coq Require Import Reals List Arith Lra Lia.
From Verif Require Import Num Vec MKnots MPoints MCurve MFit MGenerate RNum Lists Spec Api ApiM ApiS Bridge Facts1 Samples Fit3 Fit7 Marsden Shape8.
Import ListNotations.
Local Open Scope R_scope.

(** ** C132.  Over every clamped knot vector each polynomial of degree at most [p] is a curve; its
    control points are symmetric polynomials in the [p] knots that belong to the point. *)
Theorem C132_polynomial_precision : forall p n dim U P c (a : nat -> list R), clamped_curve p n dim U P c -> (forall d, (d < dim)%nat -> (length (a d) <= S p)%nat) ->
  (forall i d, (i <= n)%nat -> (d < dim)%nat -> ent P i d = rsum (fun k => nth k (a d) 0 * (esym (firstn p (skipn (S i) U)) k / C p k)) (S p)) ->
  forall u, 0 <= u <= 1 -> returns (evaluate c u) dim (fun d => peval (a d) u).
Proof. exact polynomial_precision. Qed.
Print Assumptions C132_polynomial_precision.

(** hence interpolating equally spaced samples of a polynomial gives the polynomial *)
Theorem C132_interpolation : forall svd p m dim (Q : Mat RNum) (a : nat -> list R), good_solver svd -> (1 <= p <= m)%nat -> shape dim (S m) Q ->
  (forall d, (d < dim)%nat -> (length (a d) <= S p)%nat) -> (forall g d, (g <= m)%nat -> (d < dim)%nat -> ent Q g d = peval (a d) (INR g / INR m)) ->
  exists c, generate svd (Interpolation p Q) = Val (Ok c) /\ forall u, 0 <= u <= 1 -> returns (evaluate c u) dim (fun d => peval (a d) u).
Proof. exact polynomial_interpolation. Qed.
Print Assumptions C132_interpolation.

(** and so does fitting them *)
Theorem C132_fit : forall svd p n m dim (Q : Mat RNum) (a : nat -> list R) me, good_solver svd -> (1 <= p <= n)%nat -> (n <= m)%nat -> (me = FixedEnds -> (2 <= n)%nat) -> shape dim (S m) Q ->
  (forall d, (d < dim)%nat -> (length (a d) <= S p)%nat) -> (forall g d, (g <= m)%nat -> (d < dim)%nat -> ent Q g d = peval (a d) (INR g / INR m)) ->
  exists c, generate svd (LeastSquaresFit p Q n me None) = Val (Ok c) /\ forall u, 0 <= u <= 1 -> returns (evaluate c u) dim (fun d => peval (a d) u).
Proof. exact polynomial_fit. Qed.
Print Assumptions C132_fit.

(** For any data the loose fit is at least as close as every polynomial of degree at most [p]. *)
Theorem C132_beats_polynomials : forall svd p n m dim (Q : Mat RNum), good_solver svd -> (1 <= p <= n)%nat -> (n <= m)%nat -> shape dim (S m) Q ->
  exists c e, generate svd (LeastSquaresFit p Q n LooseEnds None) = Val (Ok c) /\ data_error c dim m Q e /\
    forall a : nat -> list R, (forall d, (d < dim)%nat -> (length (a d) <= S p)%nat) ->
      e <= rsum (fun g => rsum (fun d => (peval (a d) (INR g / INR m) - ent Q g d) ^ 2) dim) (S m).
Proof. exact fit_beats_polynomials. Qed.
Print Assumptions C132_beats_polynomials.

(** u ^ 2 over the knots 0 0 0 1/2 1 1 1, and its samples at 0, 1/3, 2/3, 1 *)
Example C132_hypotheses : exists svd c, good_solver svd /\ clamped_curve 2 3 1 U_a (mkMat 1 [[0]; [0]; [1 / 2]; [1]] : Mat RNum) c /\
  (forall i d, (i <= 3)%nat -> (d < 1)%nat -> ent (mkMat 1 [[0]; [0]; [1 / 2]; [1]] : Mat RNum) i d = rsum (fun k => nth k [0; 0; 1] 0 * (esym (firstn 2 (skipn (S i) U_a)) k / C 2 k)) 3) /\
  (1 <= 2 <= 3)%nat /\ shape 1 4 (mkMat 1 [[0]; [1 / 9]; [4 / 9]; [1]] : Mat RNum) /\
  (forall g d, (g <= 3)%nat -> (d < 1)%nat -> ent (mkMat 1 [[0]; [1 / 9]; [4 / 9]; [1]] : Mat RNum) g d = peval [0; 0; 1] (INR g / INR 3)).
Proof.
  destruct curve_a as [c0 H0].
  assert (HS : shape 1 4 (mkMat 1 [[0]; [0]; [1 / 2]; [1]] : Mat RNum)).
  { split; [reflexivity|]. split; [reflexivity|]. intros i Hi. cases i. }
  destruct (clamped_curve_ex 2 3 1 U_a _ (proj1 H0) HS) as [c H]. exists some_solver, c. split; [exact some_solver_good|]. split; [exact H|].
  assert (C20 : C 2 0 = 1) by (unfold C; cbn; field). assert (C21 : C 2 1 = 2) by (unfold C; cbn; field). assert (C22 : C 2 2 = 1) by (unfold C; cbn; field).
  split. { intros i d Hi Hd. destruct d as [|d]; [|lia]. cbn [rsum nth]. rewrite C20, C21, C22. unfold ent, U_a. do 4 (destruct i as [|i]; [cbn; field|]). lia. }
  split; [lia|]. split. { split; [reflexivity|]. split; [reflexivity|]. intros i Hi. cases i. }
  intros g d Hg Hd. destruct d as [|d]; [|lia]. unfold ent. do 4 (destruct g as [|g]; [cbn; field|]). lia.
Qed.

(** ** C133.  Control points sampled from a smooth function at the averages of [p] knots: the
    distance of curve and function falls with the square of the knot spacing. *)
Theorem C133_second_order : forall p n dim U P c (f f' : nat -> R -> R) h M, clamped_curve p n dim U P c -> (1 <= p)%nat ->
  (forall i, (p <= i <= n)%nat -> nth (S i) U 0 - nth i U 0 <= h) ->
  (forall i d, (i <= n)%nat -> (d < dim)%nat -> ent P i d = f d (average U p i)) ->
  (forall d x, (d < dim)%nat -> 0 <= x <= 1 -> derivable_pt_lim (f d) x (f' d x)) ->
  (forall d x y, (d < dim)%nat -> 0 <= x <= 1 -> 0 <= y <= 1 -> Rabs (f' d x - f' d y) <= M * Rabs (x - y)) ->
  forall u, 0 <= u <= 1 -> exists x, evaluate c u = Val (Ok x) /\ length x = dim /\ forall d, (d < dim)%nat -> Rabs (nth d x 0 - f d u) <= M / 2 * ((INR p + 1) / 2 * h) ^ 2.
Proof. exact second_order. Qed.
Print Assumptions C133_second_order.

(** the square, whose derivative [2 u] has the Lipschitz constant 2 *)
Example C133_hypotheses : exists c, clamped_curve 2 3 1 U_a (mkMat 1 [[0]; [1 / 16]; [9 / 16]; [1]] : Mat RNum) c /\ (1 <= 2)%nat /\
  (forall i, (2 <= i <= 3)%nat -> nth (S i) U_a 0 - nth i U_a 0 <= 1 / 2) /\
  (forall i d, (i <= 3)%nat -> (d < 1)%nat -> ent (mkMat 1 [[0]; [1 / 16]; [9 / 16]; [1]] : Mat RNum) i d = average U_a 2 i * average U_a 2 i) /\
  (forall x, 0 <= x <= 1 -> derivable_pt_lim (fun x => x * x) x (2 * x)) /\
  (forall x y, 0 <= x <= 1 -> 0 <= y <= 1 -> Rabs (2 * x - 2 * y) <= 2 * Rabs (x - y)).
Proof.
  destruct curve_a as [c0 H0].
  assert (HS : shape 1 4 (mkMat 1 [[0]; [1 / 16]; [9 / 16]; [1]] : Mat RNum)).
  { split; [reflexivity|]. split; [reflexivity|]. intros i Hi. cases i. }
  destruct (clamped_curve_ex 2 3 1 U_a _ (proj1 H0) HS) as [c H]. exists c. split; [exact H|]. split; [lia|].
  split. { intros i Hi. unfold U_a. destruct i as [|[|[|[|i]]]]; try lia; cbn; lra. }
  split. { intros i d Hi Hd. destruct d as [|d]; [|lia]. unfold ent, average, U_a. do 4 (destruct i as [|i]; [cbn; field|]). lia. }
  split.
  - intros x _. replace (2 * x) with (1 * id x + id x * 1) by (unfold id; ring). apply (derivable_pt_lim_mult id id); apply derivable_pt_lim_id.
  - intros x y _ _. replace (2 * x - 2 * y) with (2 * (x - y)) by ring. rewrite Rabs_mult, (Rabs_pos_eq 2) by lra. lra.
Qed.
