(** * Derivatives and the control polygon: hull, speed, ends, closed forms *)

From Coq Require Import Reals List Arith Lra Lia Permutation.
From Verif Require Import Num Vec MKnots MPoints MCurve RNum Lists Spec BMath BMath2 BMath3 BMath4 SW Api Bridge Facts1 Shape1 Shape2.
Import ListNotations.
Local Open Scope R_scope.

(** ** Weights *)
Lemma weights p n U j u : fclamped p n U -> (p <= j <= n)%nat -> in_span U n u j ->
  exists w, (forall i, (i <= p)%nat -> 0 <= w i) /\ rsum w (S p) = 1 /\
    forall P, spline U n p P u = rsum (fun i => w i * P (j - p + i)%nat) (S p).
Proof.
  intros C J S. exists (fun i => cox (delta j) U p (j - p + i) u). split; [|split].
  - intros i _. apply (piece_nonneg U (fc_mono _ _ _ C)). apply (in_span_le n U u j S).
  - assert (E := pfun_local p n U C (fun _ => 1) j u J). unfold pfun in E.
    rewrite (rsum_ext _ (fun i => cox (delta j) U p i u)) in E by (intros; ring).
    rewrite piece_sum in E; [|apply C|apply S|lia|lia]. rewrite E. apply rsum_ext. intros; ring.
  - intros P. rewrite (spline_piece p n U C P u j ltac:(lia) S). rewrite (pfun_local p n U C P j u J). reflexivity.
Qed.

Lemma span_of p n U j u : clamped p n U -> (p <= j <= n)%nat -> nth j U 0 <= u -> u < nth (S j) U 0 \/ j = n /\ u = 1 ->
  in_span (kfun U) n u j.
Proof.
  intros C J L R. assert (F := kfun_clamped p n U C). assert (E := cl_len _ _ _ C).
  unfold in_span. rewrite !kfun_nth by lia.
  destruct R as [R|[-> ->]].
  - split; [lra|]. split; [exact L|]. left. exact R.
  - rewrite (cl_one _ _ _ C (S n)) by lia. split; [|split; [exact L|right; split; reflexivity]].
    assert (T := U_n_lt p n (kfun U) F). rewrite kfun_nth in T by lia. exact T.
Qed.

Lemma in_span_shift_k k : forall p n U u j, (k <= p)%nat -> (p <= j <= n)%nat -> in_span U n u j -> in_span (shift k U) (n - k) u (j - k).
Proof.
  intros p n U u j Hk J [A [B D]]. unfold in_span, shift.
  replace (j - k + k)%nat with j by lia. replace (S (j - k) + k)%nat with (S j) by lia. replace (S (n - k) + k)%nat with (S n) by lia.
  split; [exact A|]. split; [exact B|]. destruct D as [D|[D1 D2]]; [left; exact D|right]. split; [lia|exact D2].
Qed.

Lemma derivative_hull p n dim U P c j u k : clamped_curve p n dim U P c -> (p <= j <= n)%nat -> (k <= p)%nat ->
  nth j U 0 <= u -> u < nth (S j) U 0 \/ j = n /\ u = 1 ->
  exists w, (forall i, (i <= p - k)%nat -> 0 <= w i) /\ rsum w (S (p - k)) = 1 /\
    returns (evaluate_derivative c u k) dim
      (fun d => rsum (fun i => w i * dpoints (kfun U) p (fun i => ent P i d) k (j - p + i)%nat) (S (p - k))).
Proof.
  intros H J K L R. assert (C : clamped p n U) by apply H. assert (F := kfun_clamped p n U C).
  assert (S := span_of p n U j u C J L R). assert (S' := in_span_shift_k k p n _ u j K J S).
  destruct (weights (p - k) (n - k) (shift k (kfun U)) (j - k) u (fclamped_shift p n _ k F K) ltac:(lia) S') as [w [W1 [W2 W3]]].
  exists w. split; [exact W1|]. split; [exact W2|].
  assert (Hu : 0 <= u <= 1).
  { assert (A := U_range p n _ F j). assert (B := U_range p n _ F (Datatypes.S j)). assert (E := cl_len _ _ _ C). rewrite !kfun_nth in * by lia.
    destruct R as [R|[_ R]]; lra. }
  eapply returns_ext; [apply (cc_eval p n dim U P c u k H Hu K)|]. intros d Hd. cbv beta.
  rewrite dspline_spline, W3. apply rsum_ext. intros i _. do 2 f_equal. lia.
Qed.

(** ** Norms *)
Lemma norm_comb dim m (w : nat -> R) (X : nat -> nat -> R) : (forall i, (i < m)%nat -> 0 <= w i) ->
  norm dim (fun d => rsum (fun i => w i * X i d) m) <= rsum (fun i => w i * norm dim (X i)) m.
Proof.
  induction m as [|m IH]; intros W; cbn [rsum].
  - rewrite norm_0. lra.
  - eapply Rle_trans; [apply norm_add|]. specialize (IH ltac:(intros; apply W; lia)).
    rewrite norm_scal by (apply W; lia). lra.
Qed.

Lemma dot_le dim x y : rsum (fun d => x d * y d) dim <= norm dim x * norm dim y.
Proof.
  assert (A := norm_nonneg dim x). assert (B := norm_nonneg dim y).
  assert (Q : rsum (fun d => x d * y d) dim ^ 2 <= (norm dim x * norm dim y) ^ 2).
  { replace ((norm dim x * norm dim y) ^ 2) with (norm dim x ^ 2 * norm dim y ^ 2) by ring. rewrite !norm_sq. apply cauchy. }
  set (a := rsum (fun d => x d * y d) dim) in *. set (b := norm dim x * norm dim y) in *.
  assert (0 <= b) by (unfold b; apply Rmult_le_pos; assumption). nra.
Qed.

Lemma comb_le m (w X : nat -> R) K : (forall i, (i < m)%nat -> 0 <= w i) -> rsum w m = 1 -> (forall i, (i < m)%nat -> X i <= K) ->
  rsum (fun i => w i * X i) m <= K.
Proof.
  intros W S B. replace K with (rsum (fun i => w i * K) m) by (rewrite rsum_scal_r, S; ring).
  apply rsum_le. intros i Hi. apply Rmult_le_compat_l; [apply W; exact Hi|apply B; exact Hi].
Qed.

Lemma comb_pos m (w X : nat -> R) : (forall i, (i < m)%nat -> 0 <= w i) -> rsum w m = 1 -> (forall i, (i < m)%nat -> 0 < X i) ->
  0 < rsum (fun i => w i * X i) m.
Proof.
  intros W S B. assert (M : exists e, 0 < e /\ forall i, (i < m)%nat -> e <= X i).
  { clear W S. induction m as [|m IH]; [exists 1; split; [lra|intros; lia]|].
    destruct IH as [e [E1 E2]]; [intros; apply B; lia|]. exists (Rmin e (X m)). split; [apply Rmin_pos; [exact E1|apply B; lia]|].
    intros i Hi. destruct (Nat.eq_dec i m) as [->|N]; [apply Rmin_r|]. eapply Rle_trans; [apply Rmin_l|apply E2; lia]. }
  destruct M as [e [E1 E2]]. apply Rlt_le_trans with e; [exact E1|].
  replace e with (rsum (fun i => w i * e) m) by (rewrite rsum_scal_r, S; ring).
  apply rsum_le. intros i Hi. apply Rmult_le_compat_l; [apply W; exact Hi|apply E2; exact Hi].
Qed.

(** a functional of the curve is the spline of the functional of the points *)
Lemma spline_dot U n p dim (w : nat -> R) (P : nat -> nat -> R) u :
  rsum (fun d => w d * spline U n p (fun i => P i d) u) dim = spline U n p (fun i => rsum (fun d => w d * P i d) dim) u.
Proof.
  unfold spline. rewrite (rsum_ext _ (fun d => rsum (fun i => w d * (bspline U n p i u * P i d)) (S n))) by (intros; rewrite rsum_scal; reflexivity).
  rewrite rsum_swap. apply rsum_ext. intros i _. rewrite <- rsum_scal. apply rsum_ext. intros; ring.
Qed.

(** ** Speed *)
Lemma rd_line f g K u : right_derivative_on01 f u g -> right_derivative_on01 (fun t => f t - K * t) u (g - K).
Proof.
  intros D eps He. destruct (D eps He) as [dl [D1 D2]]. exists dl. split; [exact D1|]. intros v Hv A B.
  replace ((f v - K * v - (f u - K * u)) / (v - u) - (g - K)) with ((f v - f u) / (v - u) - g) by (field; lra). apply D2; assumption.
Qed.
Lemma cont_line f K u : continuous_on01 f u -> continuous_on01 (fun t => f t - K * t) u.
Proof.
  intros D eps He. destruct (D (eps / 2) ltac:(lra)) as [dl [D1 D2]].
  assert (K0 := Rabs_pos K). assert (E : 0 < eps / 2 / (Rabs K + 1)) by (repeat apply Rdiv_lt_0_compat; lra).
  exists (Rmin dl (eps / 2 / (Rabs K + 1))). split; [apply Rmin_pos; assumption|]. intros v Hv A.
  assert (A1 := Rlt_le_trans _ _ _ A (Rmin_l _ _)). assert (A2 := Rlt_le_trans _ _ _ A (Rmin_r _ _)).
  replace (f v - K * v - (f u - K * u)) with ((f v - f u) + - (K * (v - u))) by ring.
  eapply Rle_lt_trans; [apply Rabs_triang|]. rewrite Rabs_Ropp, Rabs_mult. specialize (D2 v Hv A1).
  assert (Rabs K * Rabs (v - u) <= (Rabs K + 1) * (eps / 2 / (Rabs K + 1))) by (apply Rmult_le_compat; try apply Rabs_pos; lra).
  replace ((Rabs K + 1) * (eps / 2 / (Rabs K + 1))) with (eps / 2) in H by (field; lra). lra.
Qed.

Lemma spline_slope p n U q K u v : fclamped p n U -> (1 <= p)%nat -> (forall x, 0 < x < 1 -> mult_le U x p) ->
  (forall i, (i < n)%nat -> dpoints U p q 1 i <= K) -> 0 <= u -> u < v -> v <= 1 ->
  spline U n p q v - spline U n p q u <= K * (v - u).
Proof.
  intros C Hp HM HD Hu Huv Hv.
  assert (D := dini (fun t => spline U n p q t - K * t) (fun t => spline (shift 1 U) (n - 1) (p - 1) (dpoints U p q 1) t - K) u v Hu Huv Hv).
  cbv beta in D. enough (spline U n p q v - K * v <= spline U n p q u - K * u) by lra. apply D.
  - intros t Ht. apply cont_line. apply (spline_continuous p n U C); [exact Ht|]. apply HM.
  - intros t Ht. apply (rd_line (spline U n p q)). apply (spline_rd p n U q t C Hp). lra.
  - intros t Ht. assert (F := fclamped_shift p n U 1 C Hp). destruct (span_ex _ _ _ F t ltac:(lra)) as [j [J1 J2]].
    destruct (weights _ _ _ j t F J1 J2) as [w [W1 [W2 W3]]]. rewrite W3.
    assert (T := comb_le (S (p - 1)) w (fun i => dpoints U p q 1 (j - (p - 1) + i)) K ltac:(intros; apply W1; lia) W2). cbv beta in T.
    enough (rsum (fun i => w i * dpoints U p q 1 (j - (p - 1) + i)) (S (p - 1)) <= K) by lra. apply T. intros i Hi. apply HD. assert (PN := fc_deg _ _ _ C). lia.
Qed.

Lemma mults_le p n U : clamped p n U -> (forall x, 0 < x < 1 -> (mult U x <= p)%nat) -> forall x, 0 < x < 1 -> mult_le (kfun U) x p.
Proof. intros C M x Hx. apply (mult_mult_le p n U x p C Hx). apply M. exact Hx. Qed.

Lemma speed_bound p n dim U P c L : clamped_curve p n dim U P c -> (1 <= p)%nat -> (forall x, 0 < x < 1 -> (mult U x <= p)%nat) ->
  (forall i, (i < n)%nat -> INR p * distance P dim (S i) i <= L * (nth (i + p + 1) U 0 - nth (i + 1) U 0)) ->
  forall u v x y, 0 <= u <= 1 -> 0 <= v <= 1 -> evaluate c u = Val (Ok x) -> evaluate c v = Val (Ok y) ->
  sqrt (rsum (fun d => (nth d y 0 - nth d x 0) ^ 2) dim) <= L * Rabs (v - u).
Proof.
  intros H Hp HM HL. assert (C : clamped p n U) by apply H. assert (F := kfun_clamped p n U C). assert (E := cl_len _ _ _ C).
  assert (PN := cl_deg _ _ _ C).
  assert (L0 : 0 <= L).
  { assert (T := HL 0%nat ltac:(lia)). assert (0 <= INR p * distance P dim 1 0) by (apply Rmult_le_pos; [apply pos_INR|apply sqrt_pos]).
    assert (Z : 0 <= nth (0 + 1) U 0) by (apply Rle_trans with (nth 0 U 0); [rewrite (cl_zero _ _ _ C) by lia; lra|apply C; lia]).
    assert (G : nth (0 + 1) U 0 < nth (0 + p + 1) U 0).
    { rewrite (cl_zero _ _ _ C (0 + 1)) by lia. destruct (Nat.eq_dec p n) as [->|NE]; [rewrite (cl_one _ _ _ C) by lia; lra|].
      apply (cl_inner _ _ _ C); lia. }
    destruct (Rle_lt_dec 0 L) as [|N]; [assumption|]. exfalso. nra. }
  assert (G : forall u v x y, 0 <= u -> u < v -> v <= 1 -> evaluate c u = Val (Ok x) -> evaluate c v = Val (Ok y) ->
    sqrt (rsum (fun d => (nth d y 0 - nth d x 0) ^ 2) dim) <= L * (v - u)).
  { intros u v x y Hu Huv Hv Ex Ey.
    destruct (eval_at p n dim U P c H u x ltac:(lra) Ex) as [_ X]. destruct (eval_at p n dim U P c H v y ltac:(lra) Ey) as [_ Y].
    set (D := fun d => nth d y 0 - nth d x 0). change (norm dim D <= L * (v - u)).
    set (q := fun i => rsum (fun d => D d * ent P i d) dim).
    assert (B := spline_slope p n (kfun U) q (norm dim D * L) u v F Hp (mults_le p n U C HM)).
    assert (N0 := norm_nonneg dim D).
    assert (SD : spline (kfun U) n p q v - spline (kfun U) n p q u = norm dim D ^ 2).
    { unfold q. rewrite <- !(spline_dot (kfun U) n p dim D (fun i d => ent P i d)), norm_sq, <- rsum_minus. apply rsum_ext. intros d Hd. rewrite <- X, <- Y by exact Hd. unfold D. ring. }
    rewrite SD in B. assert (B' : norm dim D ^ 2 <= norm dim D * L * (v - u)).
    { apply B; try lra. intros i Hi. cbn [dpoints]. unfold ratio. destruct Req_EM_T as [Z|Z]; [apply Rmult_le_pos; assumption|].
      assert (GP : 0 < kfun U (i + p + 1) - kfun U (i + 1)).
      { assert (T := fc_mono _ _ _ F (i + 1)%nat (i + p + 1)%nat ltac:(lia)). lra. }
      apply Rmult_le_reg_r with (kfun U (i + p + 1) - kfun U (i + 1)); [exact GP|].
      replace (INR (p - 0) * (q (S i) - q i) / (kfun U (i + p + 1) - kfun U (i + 1)) * (kfun U (i + p + 1) - kfun U (i + 1))) with (INR p * (q (S i) - q i)) by (replace (p - 0)%nat with p by lia; field; lra).
      assert (Q : q (S i) - q i <= norm dim D * distance P dim (S i) i).
      { rewrite distance_norm. unfold q. rewrite <- rsum_minus. eapply Rle_trans; [|apply dot_le]. right. apply rsum_ext. intros; ring. }
      assert (T := HL i Hi). rewrite !kfun_nth by lia. assert (I0 := pos_INR p).
      apply Rle_trans with (norm dim D * (INR p * distance P dim (S i) i)); [|replace (norm dim D * L * (nth (i + p + 1) U 0 - nth (i + 1) U 0)) with (norm dim D * (L * (nth (i + p + 1) U 0 - nth (i + 1) U 0))) by ring; apply Rmult_le_compat_l; assumption].
      replace (norm dim D * (INR p * distance P dim (S i) i)) with (INR p * (norm dim D * distance P dim (S i) i)) by ring. apply Rmult_le_compat_l; assumption. }
    destruct (Req_dec (norm dim D) 0) as [Z|Z]; [rewrite Z; apply Rmult_le_pos; lra|]. nra. }
  intros u v x y Hu Hv Ex Ey. destruct (Rtotal_order u v) as [T|[T|T]].
  - rewrite Rabs_right by lra. apply G; try lra; assumption.
  - subst v. rewrite Ex in Ey. injection Ey as ->. rewrite (rsum_zero (fun d => (nth d y 0 - nth d y 0) ^ 2)) by (intros; ring). rewrite sqrt_0.
    apply Rmult_le_pos; [exact L0|apply Rabs_pos].
  - rewrite Rabs_left by lra. rewrite (rsum_ext _ (fun d => (nth d x 0 - nth d y 0) ^ 2)) by (intros; ring).
    replace (- (v - u)) with (u - v) by ring. apply G; try lra; assumption.
Qed.

(** ** Derivatives at the ends *)
Lemma dspline_0_end p n U q k : fclamped p n U -> (k <= p)%nat -> dspline U n p q k 0 = dpoints U p q k 0 /\ dspline U n p q k 1 = dpoints U p q k (n - k).
Proof.
  intros C K. rewrite !dspline_spline. assert (F := fclamped_shift p n U k C K). split; [apply (spline_at_0 _ _ _ F)|apply (spline_at_1 _ _ _ F)].
Qed.

Lemma end_derivatives p n dim U P c k : clamped_curve p n dim U P c -> (k <= p)%nat ->
  returns (evaluate_derivative c 0 k) dim (fun d => dpoints (kfun U) p (fun i => ent P i d) k 0) /\
  returns (evaluate_derivative c 1 k) dim (fun d => dpoints (kfun U) p (fun i => ent P i d) k (n - k)).
Proof.
  intros H K. assert (F : fclamped p n (kfun U)) by (apply kfun_clamped; apply H).
  split; (eapply returns_ext; [apply (cc_eval p n dim U P c); [exact H|lra|exact K]|]; intros d _; apply (dspline_0_end p n _ _ k F K)).
Qed.

Lemma end_tangents p n dim U P c : clamped_curve p n dim U P c -> (1 <= p)%nat ->
  returns (evaluate_derivative c 0 1) dim (fun d => INR p / nth (p + 1) U 0 * (ent P 1 d - ent P 0 d)) /\
  returns (evaluate_derivative c 1 1) dim (fun d => INR p / (1 - nth n U 0) * (ent P n d - ent P (n - 1) d)).
Proof.
  intros H K. assert (C : clamped p n U) by apply H. assert (F := kfun_clamped p n U C). assert (E := cl_len _ _ _ C). assert (PN := cl_deg _ _ _ C).
  destruct (end_derivatives p n dim U P c 1 H K) as [A B]. split.
  - eapply returns_ext; [exact A|]. intros d _. cbn [dpoints]. rewrite !kfun_nth by lia. rewrite (cl_zero _ _ _ C (0 + 1)) by lia.
    assert (G : 0 < nth (0 + p + 1) U 0).
    { destruct (Nat.eq_dec p n) as [->|NE]; [rewrite (cl_one _ _ _ C) by lia; lra|apply (cl_inner _ _ _ C); lia]. }
    rewrite ratio_nz by lra. replace (p - 0)%nat with p by lia. replace (0 + p + 1)%nat with (p + 1)%nat in * by lia. field. lra.
  - eapply returns_ext; [exact B|]. intros d _. cbn [dpoints]. rewrite !kfun_nth by lia. replace (n - 1 + 1)%nat with n by lia.
    rewrite (cl_one _ _ _ C (n - 1 + p + 1)) by lia. assert (G := U_n_lt p n _ F). rewrite kfun_nth in G by lia.
    rewrite ratio_nz by lra. replace (p - 0)%nat with p by lia. replace (S (n - 1)) with n by lia. field. lra.
Qed.

(** ** The curve depends continuously on its control points *)
Lemma point_stability p n dim U P P' c c' e : clamped_curve p n dim U P c -> clamped_curve p n dim U P' c' ->
  (forall i, (i <= n)%nat -> sqrt (rsum (fun d => (ent P' i d - ent P i d) ^ 2) dim) <= e) ->
  forall u x y, 0 <= u <= 1 -> evaluate c u = Val (Ok x) -> evaluate c' u = Val (Ok y) ->
  sqrt (rsum (fun d => (nth d y 0 - nth d x 0) ^ 2) dim) <= e.
Proof.
  intros H H' HE u x y Hu Ex Ey. assert (F : fclamped p n (kfun U)) by (apply kfun_clamped; apply H).
  destruct (eval_at p n dim U P c H u x Hu Ex) as [_ X]. destruct (eval_at p n dim U P' c' H' u y Hu Ey) as [_ Y].
  change (norm dim (fun d => nth d y 0 - nth d x 0) <= e).
  rewrite (norm_ext dim _ (fun d => rsum (fun i => bspline (kfun U) n p i u * (ent P' i d - ent P i d)) (S n))).
  - eapply Rle_trans; [apply norm_comb; intros; apply (bspline_nonneg p n _ F); exact Hu|].
    apply comb_le; [intros; apply (bspline_nonneg p n _ F); exact Hu|apply (bspline_sum p n _ F); exact Hu|]. intros i Hi. apply HE. lia.
  - intros d Hd. rewrite X, Y by exact Hd. unfold spline. rewrite <- rsum_minus. apply rsum_ext. intros; ring.
Qed.

Lemma superposition p n dim U P Q S c1 c2 c3 a b : clamped_curve p n dim U P c1 -> clamped_curve p n dim U Q c2 -> clamped_curve p n dim U S c3 ->
  (forall i d, (i <= n)%nat -> (d < dim)%nat -> ent S i d = a * ent P i d + b * ent Q i d) ->
  forall u k, 0 <= u <= 1 -> (k <= p)%nat -> exists x y, evaluate_derivative c1 u k = Val (Ok x) /\ evaluate_derivative c2 u k = Val (Ok y) /\
    returns (evaluate_derivative c3 u k) dim (fun d => a * nth d x 0 + b * nth d y 0).
Proof.
  intros H1 H2 H3 E u k Hu K.
  destruct (cc_eval p n dim U P c1 u k H1 Hu K) as [x [X1 [X2 X3]]]. destruct (cc_eval p n dim U Q c2 u k H2 Hu K) as [y [Y1 [Y2 Y3]]].
  exists x, y. split; [exact X1|]. split; [exact Y1|]. eapply returns_ext; [apply (cc_eval p n dim U S c3 u k H3 Hu K)|]. intros d Hd. cbv beta.
  rewrite X3, Y3 by exact Hd. unfold dspline. rewrite <- !rsum_scal, <- rsum_plus. apply rsum_ext. intros i Hi.
  assert (D : forall k i, (i + k <= n)%nat -> dpoints (kfun U) p (fun i => ent S i d) k i = a * dpoints (kfun U) p (fun i => ent P i d) k i + b * dpoints (kfun U) p (fun i => ent Q i d) k i).
  { clear - E Hd. induction k as [|k IH]; intros i Hi; cbn [dpoints]; [apply E; [lia|exact Hd]|]. rewrite !IH by lia.
    rewrite <- !ratio_mult. unfold ratio. destruct Req_EM_T as [Z|Z]; [ring|]. field. exact Z. }
  rewrite D; [ring|]. assert (T := cl_deg _ _ _ (proj1 H1)). lia.
Qed.

(** ** Strictly advancing control points *)
Lemma strict_curve p n dim U P c (w : nat -> R) : clamped_curve p n dim U P c -> (1 <= p)%nat ->
  (forall i, (i < n)%nat -> rsum (fun d => w d * ent P i d) dim < rsum (fun d => w d * ent P (S i) d) dim) ->
  forall u v x y, 0 <= u -> u < v -> v <= 1 -> evaluate c u = Val (Ok x) -> evaluate c v = Val (Ok y) ->
  rsum (fun d => w d * nth d x 0) dim < rsum (fun d => w d * nth d y 0) dim.
Proof.
  intros H Hp HW u v x y Hu Huv Hv Ex Ey. assert (C : clamped p n U) by apply H. assert (F := kfun_clamped p n U C).
  assert (E := cl_len _ _ _ C). assert (PN := cl_deg _ _ _ C).
  set (q := fun i => rsum (fun d => w d * ent P i d) dim) in *.
  assert (V : forall t z, 0 <= t <= 1 -> evaluate c t = Val (Ok z) -> rsum (fun d => w d * nth d z 0) dim = spline (kfun U) n p q t).
  { intros t z Ht Ez. destruct (eval_at p n dim U P c H t z Ht Ez) as [_ Z]. unfold q. rewrite <- (spline_dot (kfun U) n p dim w (fun i d => ent P i d)). apply rsum_ext. intros d Hd. rewrite Z by exact Hd. reflexivity. }
  assert (D := spline_rd p n (kfun U) q u F Hp ltac:(lra)).
  destruct (span_ex p n _ F u ltac:(lra)) as [j [J1 J2]].
  assert (J3 := in_span_shift_k 1 p n _ u j Hp J1 J2).
  destruct (weights (p - 1) (n - 1) (shift 1 (kfun U)) (j - 1) u (fclamped_shift p n _ 1 F Hp) ltac:(lia) J3) as [ww [W1 [W2 W3]]].
  rewrite W3 in D.
  assert (G : 0 < rsum (fun i => ww i * dpoints (kfun U) p q 1 (j - 1 - (p - 1) + i)) (S (p - 1))).
  { apply (comb_pos (S (p - 1)) ww (fun i => dpoints (kfun U) p q 1 (j - 1 - (p - 1) + i))); [intros; apply W1; lia|exact W2|].
    intros i Hi. set (a := (j - 1 - (p - 1) + i)%nat). cbn [dpoints].
    assert (A1 : kfun U (a + 1) <= kfun U j) by (apply (fc_mono _ _ _ F); unfold a; lia).
    assert (A2 : kfun U (S j) <= kfun U (a + p + 1)) by (apply (fc_mono _ _ _ F); unfold a; lia).
    destruct J2 as [J2 _]. rewrite ratio_nz by lra. apply Rdiv_lt_0_compat; [|lra]. apply Rmult_lt_0_compat; [apply lt_0_INR; lia|].
    assert (T := HW a ltac:(unfold a; lia)). fold (q a) (q (S a)) in T. lra. }
  set (g := rsum (fun i => ww i * dpoints (kfun U) p q 1 (j - 1 - (p - 1) + i)) (S (p - 1))) in *.
  destruct (D g G) as [dl [D1 D2]].
  set (t := Rmin v (u + dl / 2)). assert (T : u < t <= v /\ t - u < dl).
  { unfold t. destruct (Rle_dec v (u + dl / 2)) as [A|A]; [rewrite Rmin_left by lra; lra|rewrite Rmin_right by lra; lra]. }
  assert (K := D2 t ltac:(lra) ltac:(lra) ltac:(lra)).
  assert (Q : 0 < (spline (kfun U) n p q t - spline (kfun U) n p q u) / (t - u)) by (unfold Rabs in K; destruct Rcase_abs in K; lra).
  assert (Q2 : 0 < spline (kfun U) n p q t - spline (kfun U) n p q u).
  { replace (spline (kfun U) n p q t - spline (kfun U) n p q u) with ((spline (kfun U) n p q t - spline (kfun U) n p q u) / (t - u) * (t - u)) by (field; lra). apply Rmult_lt_0_compat; lra. }
  destruct (cc_eval0 p n dim U P c t H ltac:(lra)) as [z [Z1 _]].
  assert (M := monotone_curve p n dim U P c H w ltac:(intros i Hi; left; apply HW; exact Hi) t v z y ltac:(lra) ltac:(lra) ltac:(lra) Z1 Ey).
  rewrite (V u x ltac:(lra) Ex). rewrite (V t z ltac:(lra) Z1) in M. lra.
Qed.

Lemma no_self_intersection p n dim U P c (w : nat -> R) : clamped_curve p n dim U P c -> (1 <= p)%nat ->
  (forall i, (i < n)%nat -> rsum (fun d => w d * ent P i d) dim < rsum (fun d => w d * ent P (S i) d) dim) ->
  forall u v, 0 <= u <= 1 -> 0 <= v <= 1 -> evaluate c u = evaluate c v -> u = v.
Proof.
  intros H Hp HW u v Hu Hv E. destruct (cc_eval0 p n dim U P c u H Hu) as [x [X _]]. destruct (cc_eval0 p n dim U P c v H Hv) as [y [Y _]].
  assert (x = y) by congruence. subst y.
  destruct (Rtotal_order u v) as [T|[T|T]]; [|exact T|].
  - assert (S := strict_curve p n dim U P c w H Hp HW u v x x ltac:(lra) T ltac:(lra) X Y). lra.
  - assert (S := strict_curve p n dim U P c w H Hp HW v u x x ltac:(lra) T ltac:(lra) Y X). lra.
Qed.

(** ** Bezier curves *)
Lemma binomial_over q : forall a, (q < a)%nat -> binomial q a = 0%nat.
Proof. induction q as [|q IH]; intros [|a] H; try lia; cbn [binomial]; [reflexivity|]. rewrite !IH by lia. reflexivity. Qed.
Lemma binomial_0 q : binomial q 0 = 1%nat.
Proof. destruct q; reflexivity. Qed.

Lemma bernstein p U x : (forall i, (i <= p)%nat -> U i = 0) -> (forall i, (p < i)%nat -> U i = 1) ->
  forall q a, (q <= p)%nat -> (a <= q)%nat -> cox (delta p) U q (p - q + a) x = INR (binomial q a) * x ^ a * (1 - x) ^ (q - a).
Proof.
  intros Z O. induction q as [|q IH]; intros a Hq Ha.
  - replace a with 0%nat by lia. cbn [cox]. replace (p - 0 + 0)%nat with p by lia. rewrite delta_eq. cbn. ring.
  - cbn [cox]. rewrite (Z (p - S q + a)%nat) by lia. destruct a as [|a].
    + rewrite (piece_support U p q (p - S q + 0)) by lia.
      rewrite (Z (S (p - S q + 0))) by lia. rewrite (O (S (p - S q + 0) + S q)%nat) by lia.
      replace (S (p - S q + 0)) with (p - q + 0)%nat by lia. rewrite IH by lia. rewrite (ratio_nz _ (1 - 0)) by lra. rewrite !binomial_0.
      replace (S q - 0)%nat with (S (q - 0)) by lia. cbn [pow INR]. field.
    + rewrite (O (p - S q + S a + S q)%nat) by lia. rewrite (ratio_nz _ (1 - 0)) by lra.
      replace (p - S q + S a)%nat with (p - q + a)%nat by lia. rewrite IH by lia.
      destruct (Nat.eq_dec a q) as [->|NE].
      * rewrite (piece_support U p q (S (p - q + q))) by lia. cbn [binomial]. rewrite (binomial_over q (S q)) by lia.
        rewrite Nat.add_0_r. replace (S q - S q)%nat with 0%nat by lia. replace (q - q)%nat with 0%nat by lia. cbn [pow]. field.
      * rewrite (Z (S (p - q + a))) by lia. rewrite (O (S (p - q + a) + S q)%nat) by lia. rewrite (ratio_nz _ (1 - 0)) by lra.
        replace (S (p - q + a)) with (p - q + S a)%nat by lia. rewrite IH by lia. cbn [binomial]. rewrite plus_INR.
        replace (S q - S a)%nat with (S (q - S a)) by lia. replace (q - a)%nat with (S (q - S a)) by lia. cbn [pow]. field.
Qed.

Lemma bezier p dim U P c u : clamped_curve p p dim U P c -> 0 <= u <= 1 ->
  returns (evaluate c u) dim (fun d => rsum (fun i => INR (binomial p i) * u ^ i * (1 - u) ^ (p - i) * ent P i d) (S p)).
Proof.
  intros H Hu. assert (F : fclamped p p (kfun U)) by (apply kfun_clamped; apply H).
  eapply returns_ext; [apply (cc_eval0 p p dim U P c u H Hu)|]. intros d _. cbv beta.
  destruct (span_ex p p _ F u Hu) as [j [J1 J2]]. assert (j = p) by lia. subst j.
  rewrite (spline_piece p p _ F _ u p ltac:(lia) J2). unfold pfun. apply rsum_ext. intros i Hi.
  assert (B := bernstein p (kfun U) u ltac:(apply F) ltac:(apply F) p i ltac:(lia) ltac:(lia)). replace (p - p + i)%nat with i in B by lia. rewrite B. ring.
Qed.

(** ** Degrees 0 and 1 *)
Lemma step_curve n dim U P c j u : clamped_curve 0 n dim U P c -> (j <= n)%nat -> nth j U 0 <= u -> u < nth (S j) U 0 \/ j = n /\ u = 1 ->
  returns (evaluate c u) dim (fun d => ent P j d).
Proof.
  intros H J L R. assert (C : clamped 0 n U) by apply H. assert (F := kfun_clamped 0 n U C). assert (E := cl_len _ _ _ C). assert (SP := span_of 0 n U j u C ltac:(lia) L R).
  assert (Hu : 0 <= u <= 1).
  { assert (A := U_range 0 n _ F j). assert (B := U_range 0 n _ F (S j)). rewrite kfun_nth in A, B by lia. destruct R as [R|[_ R]]; lra. }
  eapply returns_ext; [apply (cc_eval0 0 n dim U P c u H Hu)|]. intros d _. cbv beta.
  rewrite (spline_piece 0 n _ F _ u j ltac:(lia) SP). rewrite (pfun_local 0 n _ F _ j u ltac:(lia)). cbn [rsum cox].
  replace (j - 0 + 0)%nat with j by lia. rewrite delta_eq. ring.
Qed.

Lemma polyline n dim U P c j u : clamped_curve 1 n dim U P c -> (1 <= j <= n)%nat -> nth j U 0 <= u <= nth (S j) U 0 ->
  nth j U 0 < nth (S j) U 0 -> (u < nth (S j) U 0 \/ u = 1 \/ (mult U u <= 1)%nat) ->
  returns (evaluate c u) dim (fun d => ((nth (S j) U 0 - u) * ent P (j - 1) d + (u - nth j U 0) * ent P j d) / (nth (S j) U 0 - nth j U 0)).
Proof.
  intros H J L G R. assert (C : clamped 1 n U) by apply H. assert (F := kfun_clamped 1 n U C). assert (E := cl_len _ _ _ C).
  assert (R1 := U_range 1 n _ F j). assert (R2 := U_range 1 n _ F (S j)). rewrite !kfun_nth in R1, R2 by lia.
  eapply returns_ext; [apply (cc_eval0 1 n dim U P c u H ltac:(lra))|]. intros d _. cbv beta.
  assert (PJ : pfun 1 n (kfun U) (fun i => ent P i d) j u = ((nth (S j) U 0 - u) * ent P (j - 1) d + (u - nth j U 0) * ent P j d) / (nth (S j) U 0 - nth j U 0)).
  { rewrite (pfun_local 1 n _ F _ j u J). cbn [rsum cox]. replace (j - 1 + 0)%nat with (j - 1)%nat by lia. replace (j - 1 + 1)%nat with j by lia.
    replace (S (j - 1)) with j by lia. replace (j + 1)%nat with (S j) by lia. rewrite delta_eq, (delta_ne j (j - 1)), (delta_ne j (S j)) by lia.
    rewrite !kfun_nth by lia. rewrite !(ratio_nz _ (nth (S j) U 0 - nth j U 0)) by lra. field. lra. }
  rewrite <- PJ. destruct (Rlt_le_dec u (nth (S j) U 0)) as [A|A].
  - apply (spline_piece 1 n _ F _ u j ltac:(lia)). apply (span_of 1 n U); [exact C|lia|lra|left; exact A].
  - assert (EQ : u = nth (S j) U 0) by lra. destruct (Req_dec u 1) as [U1|U1].
    + assert (j = n). { destruct (Nat.eq_dec j n) as [|NE]; [assumption|exfalso]. assert (T := cl_inner _ _ _ C (S j) ltac:(lia) ltac:(lia)). lra. }
      apply (spline_piece 1 n _ F _ u j ltac:(lia)). apply (span_of 1 n U); [exact C|lia|lra|right; split; assumption].
    + assert (HM : (mult U u <= 1)%nat) by (destruct R as [R|[R|R]]; [lra|contradiction|exact R]).
      assert (JN : (j < n)%nat). { destruct (Nat.eq_dec j n) as [->|NE]; [|lia]. exfalso. rewrite (cl_one _ _ _ C (S n)) in EQ by lia. contradiction. }
      assert (UI := cl_inner _ _ _ C (S j) ltac:(lia) ltac:(lia)).
      assert (ML := mult_mult_le 1 n U u 1 C ltac:(lra) HM).
      assert (SJ : kfun U (S j) = u) by (rewrite kfun_nth by lia; symmetry; exact EQ).
      assert (G2 : u < kfun U (S (S j))).
      { assert (T := fc_mono _ _ _ F (S j) (S (S j)) ltac:(lia)). destruct (Req_dec (kfun U (S (S j))) u) as [B|B]; [exfalso|rewrite SJ in T; lra].
        assert (T2 := ML (S j) (S (S j)) SJ B). lia. }
      assert (IS : in_span (kfun U) n u (S j)) by (split; [rewrite SJ; exact G2|split; [rewrite SJ; lra|left; exact G2]]).
      rewrite (spline_piece 1 n _ F _ u (S j) ltac:(lia) IS). unfold pfun. apply rsum_ext. intros i _. f_equal. symmetry.
      apply (agree_at 1 n _ F u (S j) j 1 i); try assumption; try lia. rewrite !kfun_nth by lia. lra.
Qed.
