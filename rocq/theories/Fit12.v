(** * Superposition of data *)

From Coq Require Import Reals List Arith Lra Lia.
From Verif Require Import Num Vec MKnots MPoints MCurve MFit MGenerate RNum Lists Spec BMath BMath2 BMath3 Api ApiO Bridge Facts1 Shape1 Fit3 Fit5 Fit6 Fit7 Fit8.
Import ListNotations.
Local Open Scope R_scope.

Definition stacked (dim m : nat) (Q1 Q2 : Mat RNum) : Mat RNum :=
  mat_of (dim + dim) (S m) (fun d g => if (d <? dim)%nat then ent Q1 g d else ent Q2 g (d - dim)).

Lemma rsum_pick (X : nat -> R) (k N : nat) c : (k < N)%nat -> rsum (fun d => (if (d =? k)%nat then c else 0) * X d) N = c * X k.
Proof.
  intros Hk. rewrite (rsum_single _ _ k); [rewrite Nat.eqb_refl; reflexivity|exact Hk|]. intros i _ Hi. destruct (Nat.eqb_spec i k); [congruence|ring].
Qed.

Lemma combination m (gen : Mat RNum -> M (result (Curve RNum) (CurveError RNum))) :
  (forall dim dim' (Q Q' : Mat RNum) A b, shape dim (S m) Q -> shape dim' (S m) Q' -> affine_image dim dim' m A b Q Q' ->
     exists c c', gen Q = Val (Ok c) /\ gen Q' = Val (Ok c') /\ follows dim dim' A b c c') ->
  forall dim (Q1 Q2 Q3 : Mat RNum) a b, shape dim (S m) Q1 -> shape dim (S m) Q2 -> shape dim (S m) Q3 ->
  (forall g d, (g <= m)%nat -> (d < dim)%nat -> ent Q3 g d = a * ent Q1 g d + b * ent Q2 g d) ->
  exists c1 c2 c3, gen Q1 = Val (Ok c1) /\ gen Q2 = Val (Ok c2) /\ gen Q3 = Val (Ok c3) /\ combines dim a b c1 c2 c3.
Proof.
  intros Aff dim Q1 Q2 Q3 a b S1 S2 S3 E3. set (Q := stacked dim m Q1 Q2).
  assert (SQ : shape (dim + dim) (S m) Q) by apply mat_of_shape.
  assert (EQ1 : forall g d, (g <= m)%nat -> (d < dim)%nat -> ent Q g d = ent Q1 g d).
  { intros g d Hg Hd. unfold Q, stacked. rewrite ent_mat_of by lia. destruct (Nat.ltb_spec d dim); [reflexivity|lia]. }
  assert (EQ2 : forall g d, (g <= m)%nat -> (d < dim)%nat -> ent Q g (dim + d) = ent Q2 g d).
  { intros g d Hg Hd. unfold Q, stacked. rewrite ent_mat_of by lia. destruct (Nat.ltb_spec (dim + d) dim); [lia|]. f_equal. lia. }
  assert (Sum : forall (X : nat -> R) e, (e < dim)%nat -> forall s t, rsum (fun d => ((if (d =? e)%nat then s else 0) + (if (d =? dim + e)%nat then t else 0)) * X d) (dim + dim) = s * X e + t * X (dim + e)%nat).
  { intros X e He s t. rewrite <- (rsum_pick X e (dim + dim) s) by lia. rewrite <- (rsum_pick X (dim + e) (dim + dim) t) by lia. rewrite <- rsum_plus. apply rsum_ext. intros; ring. }
  assert (G : forall (Q' : Mat RNum) s t, shape dim (S m) Q' -> (forall g d, (g <= m)%nat -> (d < dim)%nat -> ent Q' g d = s * ent Q1 g d + t * ent Q2 g d) ->
    exists c c', gen Q = Val (Ok c) /\ gen Q' = Val (Ok c') /\ forall u, 0 <= u <= 1 -> exists x, evaluate c u = Val (Ok x) /\ returns (evaluate c' u) dim (fun e => s * nth e x 0 + t * nth (dim + e) x 0)).
  { intros Q' s t S' E'.
    destruct (Aff (dim + dim)%nat dim Q Q' (fun e d => (if (d =? e)%nat then s else 0) + (if (d =? dim + e)%nat then t else 0)) (fun _ => 0) SQ S') as [c [c' [G1 [G2 F]]]].
    - intros g e Hg He. rewrite (Sum (fun d => ent Q g d) e He), EQ1, EQ2, E' by assumption. symmetry. apply Rplus_0_r.
    - exists c, c'. split; [exact G1|]. split; [exact G2|]. intros u Hu. destruct (F u Hu) as [x [X1 [X2 X3]]]. exists x. split; [exact X1|].
      eapply returns_ext; [exact X3|]. intros e He. cbv beta. etransitivity; [apply (f_equal (fun z => z + 0)), (Sum (fun d => nth d x 0) e He)|apply Rplus_0_r]. }
  assert (Id1 : forall x y : R, x = 1 * x + 0 * y) by (intros; ring). assert (Id2 : forall x y : R, y = 0 * x + 1 * y) by (intros; ring).
  assert (Id3 : forall x x' y y' : R, a * x + b * y' = a * (1 * x + 0 * x') + b * (0 * y + 1 * y')) by (intros; ring).
  destruct (G Q1 1 0 S1) as [c [c1 [G1 [H1 F1]]]]; [intros; apply Id1|].
  destruct (G Q2 0 1 S2) as [c' [c2 [G2 [H2 F2]]]]; [intros; apply Id2|]. rewrite G1 in G2. injection G2 as <-.
  destruct (G Q3 a b S3 E3) as [c' [c3 [G3 [H3 F3]]]]. rewrite G1 in G3. injection G3 as <-.
  exists c1, c2, c3. split; [exact H1|]. split; [exact H2|]. split; [exact H3|]. intros u Hu.
  destruct (F1 u Hu) as [x [X [y1 [Y1 [L1 V1]]]]]. destruct (F2 u Hu) as [x' [X' [y2 [Y2 [L2 V2]]]]]. rewrite X in X'. injection X' as <-.
  destruct (F3 u Hu) as [x' [X' R3]]. rewrite X in X'. injection X' as <-.
  exists y1, y2. split; [exact Y1|]. split; [exact Y2|]. split; [exact L1|]. split; [exact L2|]. eapply returns_ext; [exact R3|].
  intros d Hd. cbv beta. etransitivity; [apply (Id3 (nth d x 0) (nth (dim + d) x 0) (nth d x 0))|]. symmetry. f_equal; f_equal; [apply V1|apply V2]; exact Hd.
Qed.

Lemma interpolation_combines svd p m dim (Q1 Q2 Q3 : Mat RNum) a b : good_solver svd -> (1 <= p <= m)%nat -> shape dim (S m) Q1 -> shape dim (S m) Q2 -> shape dim (S m) Q3 ->
  (forall g d, (g <= m)%nat -> (d < dim)%nat -> ent Q3 g d = a * ent Q1 g d + b * ent Q2 g d) ->
  exists c1 c2 c3, generate svd (Interpolation p Q1) = Val (Ok c1) /\ generate svd (Interpolation p Q2) = Val (Ok c2) /\ generate svd (Interpolation p Q3) = Val (Ok c3) /\ combines dim a b c1 c2 c3.
Proof.
  intros GS Hp. apply (combination m (fun Q => generate svd (Interpolation p Q))). intros dim0 dim' Q Q' A b0 SQ SQ' AI. apply (interpolation_affine svd p m dim0 dim' Q Q' A b0); assumption.
Qed.

Lemma loose_combines svd p n m dim (Q1 Q2 Q3 : Mat RNum) a b pen : good_solver svd -> (1 <= p <= n)%nat -> (n <= m)%nat ->
  (forall q, pen = Some q -> 0 <= lambda q /\ (1 <= kappa q <= n - 1)%nat) -> shape dim (S m) Q1 -> shape dim (S m) Q2 -> shape dim (S m) Q3 ->
  (forall g d, (g <= m)%nat -> (d < dim)%nat -> ent Q3 g d = a * ent Q1 g d + b * ent Q2 g d) ->
  exists c1 c2 c3, generate svd (LeastSquaresFit p Q1 n LooseEnds pen) = Val (Ok c1) /\ generate svd (LeastSquaresFit p Q2 n LooseEnds pen) = Val (Ok c2) /\
    generate svd (LeastSquaresFit p Q3 n LooseEnds pen) = Val (Ok c3) /\ combines dim a b c1 c2 c3.
Proof.
  intros GS Hp Hm HP. apply (combination m (fun Q => generate svd (LeastSquaresFit p Q n LooseEnds pen))). intros dim0 dim' Q Q' A b0 SQ SQ' AI. apply (loose_affine svd p n m dim0 dim' Q Q' A b0); assumption.
Qed.

Lemma fixed_combines svd p n m dim (Q1 Q2 Q3 : Mat RNum) a b pen : good_solver svd -> (1 <= p <= n)%nat -> (2 <= n <= m)%nat ->
  (forall q, pen = Some q -> 0 <= lambda q /\ (1 <= kappa q <= n - 2)%nat) -> shape dim (S m) Q1 -> shape dim (S m) Q2 -> shape dim (S m) Q3 ->
  (forall g d, (g <= m)%nat -> (d < dim)%nat -> ent Q3 g d = a * ent Q1 g d + b * ent Q2 g d) ->
  exists c1 c2 c3, generate svd (LeastSquaresFit p Q1 n FixedEnds pen) = Val (Ok c1) /\ generate svd (LeastSquaresFit p Q2 n FixedEnds pen) = Val (Ok c2) /\
    generate svd (LeastSquaresFit p Q3 n FixedEnds pen) = Val (Ok c3) /\ combines dim a b c1 c2 c3.
Proof.
  intros GS Hp Hm HP. apply (combination m (fun Q => generate svd (LeastSquaresFit p Q n FixedEnds pen))). intros dim0 dim' Q Q' A b0 SQ SQ' AI. apply (fixed_affine svd p n m dim0 dim' Q Q' A b0); assumption.
Qed.
