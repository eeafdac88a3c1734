(** * Properties C140, C141, C142, C143: order of approximation, superposition of data *)

From Coq Require Import Reals List Arith Lra Lia.
From Verif Require Import Num Vec MKnots MPoints MCurve MFit MGenerate RNum Lists Spec Bridge Struct Api ApiS ApiO Fit7 Samples Fit11 Fit12 Jackson Shape8 Shape9.
Import ListNotations.
Local Open Scope R_scope.

(** ** C140.  Near every smooth function there is a curve: over any knots whose spans are
    no longer than [h], some curve of degree [p] stays within [K M h^(p+1)] of a function
    whose derivative of order [p] has the Lipschitz constant [M], and meets it at both
    ends.  [K] depends on the degree only. *)
Theorem C140_order : forall p, (1 <= p)%nat -> exists K, 0 <= K /\ forall n dim U h F M, clamped p n U ->
  (forall i, (p <= i <= n)%nat -> nth (S i) U 0 - nth i U 0 <= h) -> smooth p dim F M ->
  exists P c, clamped_curve p n dim U P c /\
    (forall u, 0 <= u <= 1 -> exists x, evaluate c u = Val (Ok x) /\ length x = dim /\ forall d, (d < dim)%nat -> Rabs (nth d x 0 - F d 0%nat u) <= K * (M * h ^ S p)) /\
    (forall d, (d < dim)%nat -> ent P 0 d = F d 0%nat 0 /\ ent P n d = F d 0%nat 1).
Proof. exact near_curve. Qed.
Print Assumptions C140_order.

(** the cube and its derivatives, in one coordinate *)
Definition cube (d r : nat) (x : R) : R := match r with 0%nat => x ^ 3 | 1%nat => 3 * x ^ 2 | _ => 6 * x end.
Lemma cube_smooth : smooth 2 1 cube 6.
Proof.
  split.
  - intros d r t _ Hr _. destruct r as [|[|r]]; [| |lia]; cbn [cube].
    + replace (3 * t ^ 2) with (INR 3 * t ^ pred 3) by (cbn [INR pred]; ring). apply derivable_pt_lim_pow.
    + replace (6 * t) with (3 * (INR 2 * t ^ pred 2)) by (cbn [INR pred]; ring). apply (derivable_pt_lim_scal (fun x => x ^ 2)). apply derivable_pt_lim_pow.
  - intros d s t _ _ _. cbn [cube]. replace (6 * s - 6 * t) with (6 * (s - t)) by ring. rewrite Rabs_mult, (Rabs_pos_eq 6) by lra. lra.
Qed.
Example C140_hypotheses : (1 <= 2)%nat /\ clamped 2 3 U_a /\ (forall i, (2 <= i <= 3)%nat -> nth (S i) U_a 0 - nth i U_a 0 <= 1 / 2) /\ smooth 2 1 cube 6.
Proof.
  split; [lia|]. split; [destruct curve_a as [c H]; apply H|]. split; [|exact cube_smooth].
  intros i Hi. cases i; unfold U_a; cbn [nth]; lra.
Qed.

(** ** C141.  Fits of noisy samples of a smooth function: the root mean square residual is
    at most the noise plus the order [p + 1] of the degree; the same for the fit with
    fixed ends, if the two end points carry no noise *)
Theorem C141_order : forall p, (1 <= p)%nat -> exists K, 0 <= K /\ forall svd n m dim (Q : Mat RNum) F M s,
  good_solver svd -> shape dim (S m) Q -> (p <= n <= m)%nat -> smooth p dim F M ->
  (forall g d, (g <= m)%nat -> (d < dim)%nat -> Rabs (ent Q g d - F d 0%nat (INR g / INR m)) <= s) ->
  (exists c e, generate svd (LeastSquaresFit p Q n LooseEnds None) = Val (Ok c) /\ data_error c dim m Q e /\
     e <= INR (S m) * (INR dim * (s + K * (M * (/ INR (n - p + 1)) ^ S p)) ^ 2)) /\
  ((2 <= n)%nat -> (forall d, (d < dim)%nat -> ent Q 0 d = F d 0%nat 0 /\ ent Q m d = F d 0%nat 1) ->
   exists c e, generate svd (LeastSquaresFit p Q n FixedEnds None) = Val (Ok c) /\ data_error c dim m Q e /\
     e <= INR (S m) * (INR dim * (s + K * (M * (/ INR (n - p + 1)) ^ S p)) ^ 2)).
Proof. exact fit_order. Qed.
Print Assumptions C141_order.

(** with an explicit constant for second order *)
Theorem C141_second_order : forall svd p n m dim (Q : Mat RNum) (f f' : nat -> R -> R) M s, good_solver svd -> shape dim (S m) Q -> (1 <= p <= n)%nat -> (n <= m)%nat ->
  (forall d x, (d < dim)%nat -> 0 <= x <= 1 -> derivable_pt_lim (f d) x (f' d x)) ->
  (forall d x y, (d < dim)%nat -> 0 <= x <= 1 -> 0 <= y <= 1 -> Rabs (f' d x - f' d y) <= M * Rabs (x - y)) ->
  (forall g d, (g <= m)%nat -> (d < dim)%nat -> Rabs (ent Q g d - f d (INR g / INR m)) <= s) ->
  exists c e, generate svd (LeastSquaresFit p Q n LooseEnds None) = Val (Ok c) /\ data_error c dim m Q e /\
    e <= INR (S m) * (INR dim * (s + M / 2 * ((INR p + 1) / 2 * / INR (n - p + 1)) ^ 2) ^ 2).
Proof. exact loose_smooth. Qed.
Print Assumptions C141_second_order.

(** and for samples of any continuous function the residual becomes as small as wanted
    with enough segments, however many data points there are *)
Theorem C141_continuous : forall svd p dim (f : nat -> R -> R) b, good_solver svd -> (1 <= p)%nat -> 0 < b ->
  (forall d x, (d < dim)%nat -> 0 <= x <= 1 -> continuous_on01 (f d) x) ->
  exists N, forall n m (Q : Mat RNum), (N <= n)%nat -> (n <= m)%nat -> shape dim (S m) Q ->
    (forall g d, (g <= m)%nat -> (d < dim)%nat -> ent Q g d = f d (INR g / INR m)) ->
    exists c e, generate svd (LeastSquaresFit p Q n LooseEnds None) = Val (Ok c) /\ data_error c dim m Q e /\ e <= INR (S m) * (INR dim * b ^ 2).
Proof. exact loose_continuous. Qed.
Print Assumptions C141_continuous.

(** samples of the cube at 0, 1/3, 2/3, 1, the inner ones with noise *)
Definition Q_cube : Mat RNum := mkMat 1 [[0]; [1 / 27 + 1 / 100]; [8 / 27 - 1 / 100]; [1]].
Example C141_hypotheses : exists svd, good_solver svd /\ (1 <= 2)%nat /\ (2 <= 2 <= 3)%nat /\ shape 1 4 Q_cube /\ smooth 2 1 cube 6 /\
  (forall g d, (g <= 3)%nat -> (d < 1)%nat -> Rabs (ent Q_cube g d - cube d 0 (INR g / INR 3)) <= 1 / 100) /\
  (forall d, (d < 1)%nat -> ent Q_cube 0 d = cube d 0 0 /\ ent Q_cube 3 d = cube d 0 1).
Proof.
  exists some_solver. split; [exact some_solver_good|]. split; [lia|]. split; [lia|].
  split; [split; [reflexivity|split; [reflexivity|intros i Hi; cases i]]|]. split; [exact cube_smooth|]. split.
  - intros g d Hg Hd. replace d with 0%nat by lia. do 4 (destruct g as [|g]; [cbv [ent nth mcols Q_cube cube]; change (T RNum) with R; cbn [INR]; apply Rabs_le; lra|]). lia.
  - intros d Hd. replace d with 0%nat by lia. cbv [ent nth mcols Q_cube cube]; change (T RNum) with R. split; lra.
Qed.

(** ** C142.  Superposition of data: interpolation and both fits, with or without penalty,
    turn a combination of two data sets into the combination of the two curves *)
Theorem C142_interpolation : forall svd p m dim (Q1 Q2 Q3 : Mat RNum) a b, good_solver svd -> (1 <= p <= m)%nat -> shape dim (S m) Q1 -> shape dim (S m) Q2 -> shape dim (S m) Q3 ->
  (forall g d, (g <= m)%nat -> (d < dim)%nat -> ent Q3 g d = a * ent Q1 g d + b * ent Q2 g d) ->
  exists c1 c2 c3, generate svd (Interpolation p Q1) = Val (Ok c1) /\ generate svd (Interpolation p Q2) = Val (Ok c2) /\ generate svd (Interpolation p Q3) = Val (Ok c3) /\ combines dim a b c1 c2 c3.
Proof. exact interpolation_combines. Qed.
Print Assumptions C142_interpolation.

Theorem C142_loose : forall svd p n m dim (Q1 Q2 Q3 : Mat RNum) a b pen, good_solver svd -> (1 <= p <= n)%nat -> (n <= m)%nat ->
  (forall q, pen = Some q -> 0 <= lambda q /\ (1 <= kappa q <= n - 1)%nat) -> shape dim (S m) Q1 -> shape dim (S m) Q2 -> shape dim (S m) Q3 ->
  (forall g d, (g <= m)%nat -> (d < dim)%nat -> ent Q3 g d = a * ent Q1 g d + b * ent Q2 g d) ->
  exists c1 c2 c3, generate svd (LeastSquaresFit p Q1 n LooseEnds pen) = Val (Ok c1) /\ generate svd (LeastSquaresFit p Q2 n LooseEnds pen) = Val (Ok c2) /\
    generate svd (LeastSquaresFit p Q3 n LooseEnds pen) = Val (Ok c3) /\ combines dim a b c1 c2 c3.
Proof. exact loose_combines. Qed.
Print Assumptions C142_loose.

Theorem C142_fixed : forall svd p n m dim (Q1 Q2 Q3 : Mat RNum) a b pen, good_solver svd -> (1 <= p <= n)%nat -> (2 <= n <= m)%nat ->
  (forall q, pen = Some q -> 0 <= lambda q /\ (1 <= kappa q <= n - 2)%nat) -> shape dim (S m) Q1 -> shape dim (S m) Q2 -> shape dim (S m) Q3 ->
  (forall g d, (g <= m)%nat -> (d < dim)%nat -> ent Q3 g d = a * ent Q1 g d + b * ent Q2 g d) ->
  exists c1 c2 c3, generate svd (LeastSquaresFit p Q1 n FixedEnds pen) = Val (Ok c1) /\ generate svd (LeastSquaresFit p Q2 n FixedEnds pen) = Val (Ok c2) /\
    generate svd (LeastSquaresFit p Q3 n FixedEnds pen) = Val (Ok c3) /\ combines dim a b c1 c2 c3.
Proof. exact fixed_combines. Qed.
Print Assumptions C142_fixed.

(** twice the cube's samples minus the identity's samples *)
Example C142_hypotheses : exists svd (Q2 Q3 : Mat RNum) (q : Penalization RNum), good_solver svd /\ shape 1 4 Q_cube /\ shape 1 4 Q2 /\ shape 1 4 Q3 /\ (1 <= 2 <= 3)%nat /\ (2 <= 3 <= 3)%nat /\
  0 <= lambda q /\ (1 <= kappa q <= 3 - 2)%nat /\ (forall g d, (g <= 3)%nat -> (d < 1)%nat -> ent Q3 g d = 2 * ent Q_cube g d + -1 * ent Q2 g d).
Proof.
  exists some_solver, (mkMat 1 [[0]; [1 / 3]; [2 / 3]; [1]] : Mat RNum), (mkMat 1 [[0]; [2 * (1 / 27 + 1 / 100) - 1 / 3]; [2 * (8 / 27 - 1 / 100) - 2 / 3]; [1]] : Mat RNum), (@mkPen RNum (1/10) 1).
  split; [exact some_solver_good|]. do 3 (split; [split; [reflexivity|split; [reflexivity|intros i Hi; cases i]]|]). split; [lia|]. split; [lia|]. cbn [lambda kappa]. split; [rn; lra|]. split; [lia|].
  intros g d Hg Hd. replace d with 0%nat by lia. do 4 (destruct g as [|g]; [cbv [ent nth mcols Q_cube]; change (T RNum) with R; lra|]). lia.
Qed.

(** ** C143.  The derivative of a curve with control points sampled from a function at the
    averages of the knots is as close to the derivative of the function as this varies
    over [(p + 1) / 2] spans *)
Theorem C143_sampled_derivative : forall p n dim U P c (f f' : nat -> R -> R) h e, clamped_curve p n dim U P c -> (1 <= p)%nat ->
  (forall i, (p <= i <= n)%nat -> nth (S i) U 0 - nth i U 0 <= h) ->
  (forall i d, (i <= n)%nat -> (d < dim)%nat -> ent P i d = f d (average U p i)) ->
  (forall d x, (d < dim)%nat -> 0 <= x <= 1 -> derivable_pt_lim (f d) x (f' d x)) ->
  (forall d x y, (d < dim)%nat -> 0 <= x <= 1 -> 0 <= y <= 1 -> Rabs (x - y) <= (INR p + 1) / 2 * h -> Rabs (f' d x - f' d y) <= e) ->
  forall u, 0 <= u <= 1 -> exists x, evaluate_derivative c u 1 = Val (Ok x) /\ length x = dim /\ forall d, (d < dim)%nat -> Rabs (nth d x 0 - f' d u) <= e.
Proof. exact sampled_derivative. Qed.
Print Assumptions C143_sampled_derivative.

(** the square over the knots 0 0 0 1/2 1 1 1 *)
Example C143_hypotheses : exists c, clamped_curve 2 3 1 U_a (mkMat 1 [[0]; [1 / 16]; [9 / 16]; [1]] : Mat RNum) c /\ (1 <= 2)%nat /\
  (forall i, (2 <= i <= 3)%nat -> nth (S i) U_a 0 - nth i U_a 0 <= 1 / 2) /\
  (forall i d, (i <= 3)%nat -> (d < 1)%nat -> ent (mkMat 1 [[0]; [1 / 16]; [9 / 16]; [1]] : Mat RNum) i d = average U_a 2 i * average U_a 2 i) /\
  (forall x, 0 <= x <= 1 -> derivable_pt_lim (fun x => x * x) x (2 * x)) /\
  (forall x y, 0 <= x <= 1 -> 0 <= y <= 1 -> Rabs (x - y) <= (INR 2 + 1) / 2 * (1 / 2) -> Rabs (2 * x - 2 * y) <= 3 / 2).
Proof.
  destruct curve_a as [c0 H0].
  assert (HS : shape 1 4 (mkMat 1 [[0]; [1 / 16]; [9 / 16]; [1]] : Mat RNum)).
  { split; [reflexivity|]. split; [reflexivity|]. intros i Hi. cases i. }
  destruct (clamped_curve_ex 2 3 1 U_a _ (proj1 H0) HS) as [c H]. exists c. split; [exact H|]. split; [lia|].
  split. { intros i Hi. unfold U_a. destruct i as [|[|[|[|i]]]]; try lia; cbn; lra. }
  split. { intros i d Hi Hd. destruct d as [|d]; [|lia]. unfold ent, average, U_a. do 4 (destruct i as [|i]; [cbn; field|]). lia. }
  split.
  - intros x _. replace (2 * x) with (1 * id x + id x * 1) by (unfold id; ring). apply (derivable_pt_lim_mult id id); apply derivable_pt_lim_id.
  - intros x y _ _ Hxy. replace (2 * x - 2 * y) with (2 * (x - y)) by ring. rewrite Rabs_mult, (Rabs_pos_eq 2) by lra. cbn [INR] in Hxy. lra.
Qed.
