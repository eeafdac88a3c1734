(** * Merging curves of degree 3 and up distorts constants *)

From Coq Require Import ZArith Reals List Bool Arith Lia Lra.
From Verif Require Import Num Vec MKnots MPoints MCurve MFit MMerge RNum Hoare Lists Struct Spec BMath BMath3 Api Bridge Facts1 Facts3 Samples Gen3 LinAlg Fit1 Fit3 Fit4 Shape2 Merge1 Merge2 Merge3 Merge4 Merge5 Merge6 Merge7 Merge8 Merge9 Merge12 Shape6.
Import ListNotations.
Local Open Scope R_scope.

(** if the pieces already fit, nothing is moved *)
Lemma fitting_shifts p m dim V S_ a W T_ b pa pb svd : (1 <= p)%nat -> clamped_curve p m dim V S_ a -> clamped_curve p m dim W T_ b -> good_solver svd ->
  (forall k d, (k < p)%nat -> (d < dim)%nat -> dpoints (kfun V) p (fun i => ent S_ i d) k (m - k) = dpoints (kfun W) p (fun i => ent T_ i d) k 0) ->
  exists X, @solve_linear_equation_system RNum svd (mkCC a pa) (mkCC b pb) = Val X /\ shape dim (3 * p + length pa + length pb) X /\
    forall j d, (j < 2 * p)%nat -> (d < dim)%nat -> ent X j d = 0.
Proof.
  intros Hp HA HB G HJ.
  assert (F0 : forall d, (d < dim)%nat -> feasible (2 * p) (p + length pa + length pb) (@con p m V m W pa pb) (@crhs p m V S_ W T_ d) (fun _ => 0)).
  { intros d Hd r Hr. rewrite rsum_zero by (intros; ring). unfold crhs. destruct (Nat.ltb_spec r p) as [H|H]; [|reflexivity]. unfold gap. rewrite (HJ r d H Hd). ring. }
  destruct (shifts_R HA HB pa pb Hp svd G) as [X [EX [SX HX]]]; [intros d Hd; exists (fun _ => 0); apply F0; exact Hd|].
  exists X. split; [exact EX|]. split; [exact SX|]. intros j d Hj Hd. destruct (HX d Hd) as [Fx [y Sy]].
  assert (M := stationary_min _ _ _ _ _ y (fun _ => 0) Fx Sy (F0 d Hd)). rewrite (rsum_zero (fun _ => 0 ^ 2)) in M by (intros; ring).
  apply (rsum_sq_zero (fun j => ent X j d) (2 * p) M j Hj).
Qed.

Lemma joined_apart p m V W U : clamped p m V -> clamped p m W -> joined_knots p m m V W U ->
  (forall i, (i <= m)%nat -> nth i V 0 < nth (i + p + 1) V 0) -> (forall i, (i <= m)%nat -> nth i W 0 < nth (i + p + 1) W 0) ->
  forall i, (i <= m + m + 1 - p)%nat -> nth i U 0 < nth (i + p + 1) U 0.
Proof.
  intros CV CW [LU [J1 J2]] DV DW i Hi. assert (D := cl_deg _ _ _ CV). assert (LV := cl_len _ _ _ CV). assert (LW := cl_len _ _ _ CW).
  destruct (Nat.le_gt_cases (i + p + 1) (m + 1)) as [H|H].
  - rewrite !J1 by lia. assert (T := DV i ltac:(lia)). lra.
  - assert (E : nth (i + p + 1) U 0 = (1 + nth (i + 2 * p - m) W 0) / 2) by (rewrite <- (J2 (i + 2 * p - m)%nat) by lia; f_equal; lia).
    rewrite E. destruct (Nat.le_gt_cases i (m + 1)) as [H1|H1].
    + rewrite J1 by exact H1. assert (B : nth i V 0 <= 1) by (rewrite <- (cl_one _ _ _ CV (m + p + 1)%nat) by lia; apply (cl_sorted _ _ _ CV); lia).
      assert (0 < nth (i + 2 * p - m) W 0); [|lra]. apply Rlt_le_trans with (nth (p + 1) W 0).
      * assert (T := DW 0%nat ltac:(lia)). rewrite (cl_zero _ _ _ CW 0) in T by lia. exact T.
      * apply (cl_sorted _ _ _ CW); lia.
    + assert (E2 : nth i U 0 = (1 + nth (i + p - (m + 1)) W 0) / 2) by (rewrite <- (J2 (i + p - (m + 1))%nat) by lia; f_equal; lia).
      rewrite E2. assert (T := DW (i + p - (m + 1))%nat ltac:(lia)). replace (i + p - (m + 1) + p + 1)%nat with (i + 2 * p - m)%nat in T by lia. lra.
Qed.

Theorem merge_distorts svd p m dim V P a W Q b pa pb (v : nat -> R) : (3 <= p)%nat -> good_solver svd ->
  clamped_curve p m dim V P a -> clamped_curve p m dim W Q b -> (length pa + length pb < p)%nat ->
  (forall i, (i <= m)%nat -> nth i V 0 < nth (i + p + 1) V 0) -> (forall i, (i <= m)%nat -> nth i W 0 < nth (i + p + 1) W 0) ->
  (forall i d, (i <= m)%nat -> (d < dim)%nat -> ent P i d = v d /\ ent Q i d = v d) -> (exists d, (d < dim)%nat /\ v d <> 0) ->
  exists c, merge_with_constraints svd (mkCC a pa) (mkCC b pb) = Val (Ok c) /\ ~ (forall u, 0 <= u <= 1 -> returns (evaluate c u) dim v).
Proof.
  intros H3 G HA HB Ht DV DW HC [d0 [Hd0 Nz]]. assert (D := cl_deg _ _ _ (proj1 HA)).
  assert (SP := proj1 (proj2 HA)).
  destruct (fitting_shifts p m dim V P a W Q b pa pb svd ltac:(lia) HA HB G) as [X [EX [SX HX]]].
  { intros k d Hk Hd. rewrite (dpoints_ext _ _ _ (fun _ => v d)) by (intros j Hj; apply HC; [lia|exact Hd]). rewrite (dpoints_ext (kfun W) _ _ (fun _ => v d)) by (intros j Hj; apply HC; [lia|exact Hd]).
    destruct k as [|k]; [reflexivity|]. rewrite !dpoints_const by lia. reflexivity. }
  destruct (merge_assembles HA HB pa pb ltac:(lia) svd X Ht EX SX) as [c [U [C [E [J [CC [S' [T' [SS [ST [ES [ET [QS [QT Q3]]]]]]]]]]]]]].
  exists c. split; [exact E|]. intros Hc.
  set (P0 := mat_of dim (S (m + m + 1 - p)) (fun x _ => v x)).
  destruct (clamped_curve_ex p (m + m + 1 - p) dim U P0 (proj1 CC) (mat_of_shape _ _ _)) as [c0 HC0].
  assert (E0 : forall u, 0 <= u <= 1 -> evaluate c u = evaluate c0 u).
  { intros u Hu. apply (returns_eq _ _ dim v); [apply Hc; exact Hu|]. destruct (cc_eval0 _ _ _ _ _ _ u HC0 Hu) as [x [X1 [X2 X3]]]. exists x. split; [exact X1|]. split; [exact X2|].
    intros d Hd. rewrite X3 by exact Hd. rewrite (spline_ext _ _ _ _ (fun _ => v d)) by (intros i Hi; unfold P0; rewrite ent_mat_of by (try exact Hd; lia); reflexivity).
    apply spline_const; [apply kfun_clamped; apply CC|exact Hu]. }
  assert (T := points_unique _ _ _ _ _ _ _ _ CC HC0 (joined_apart p m V W U (proj1 HA) (proj1 HB) J DV DW) E0 (m - p + 2)%nat d0 ltac:(lia) Hd0).
  rewrite (Q3 H3 d0 Hd0) in T. unfold P0 in T. rewrite ent_mat_of in T by (try exact Hd0; lia). rewrite ES in T by (try exact Hd0; lia).
  replace (m - p + 1 <? m + 1 - p)%nat with false in T by (symmetry; apply Nat.ltb_ge; lia). rewrite HX in T by (try exact Hd0; lia). rewrite (proj1 (HC (m - p + 1)%nat d0 ltac:(lia) Hd0)) in T.
  assert (B : nth (m - p + 2) V 0 < 1).
  { destruct (Nat.le_gt_cases (m - p + 2) p) as [B|B]; [rewrite (cl_zero _ _ _ (proj1 HA)) by exact B; lra|]. apply (cl_inner _ _ _ (proj1 HA)); lia. }
  assert (B0 : 0 <= nth (p + 1) W 0).
  { assert (Z0 := cl_zero _ _ _ (proj1 HB) 0%nat ltac:(lia)). assert (LW := cl_len _ _ _ (proj1 HB)). assert (Z1 := cl_sorted _ _ _ (proj1 HB) 0%nat (p + 1)%nat ltac:(lia) ltac:(lia)). lra. }
  assert (Ip : 0 < INR p) by (apply lt_0_INR; lia).
  assert (K : 0 < (1 + nth (p + 1) W 0 - nth (m - p + 2) V 0) / INR p) by (apply Rdiv_lt_0_compat; lra).
  set (k := (1 + nth (p + 1) W 0 - nth (m - p + 2) V 0) / INR p) in *. rn. assert (Z : k * v d0 = 0) by lra. apply Rmult_integral in Z. destruct Z as [Z|Z]; [lra|contradiction].
Qed.
