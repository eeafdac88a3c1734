(** * Polynomials are curves over every knot vector *)

From Coq Require Import Reals List Arith Lra Lia.
From Verif Require Import Num Vec MKnots MPoints MCurve MFit MGenerate RNum Lists Spec BMath BMath2 BMath3 BMath4 Api ApiM Bridge Facts1 Samples Shape1 Shape2 Gen3 Fit2 Fit3 Fit5 Fit6 Fit7 Fit5 Fit8 Fit9.
Import ListNotations.
Local Open Scope R_scope.

(** the symmetric polynomial in the knots [U i, …, U (i + p - 1)] *)
Definition ks (U : nat -> R) (i p k : nat) : R := esym (map U (seq i p)) k.

Lemma esym_0 l : esym l 0 = 1.
Proof. destruct l; reflexivity. Qed.

Lemma esym_snoc l x k : esym (l ++ [x]) (S k) = esym l (S k) + x * esym l k.
Proof.
  revert k. induction l as [|y l IH]; intros k.
  - cbn [app esym]. destruct k; cbn; ring.
  - cbn [app]. cbn [esym]. rewrite IH. destruct k as [|k].
    + rewrite !esym_0. ring.
    + rewrite IH. ring.
Qed.

Lemma esym_long l k : (length l < k)%nat -> esym l k = 0.
Proof.
  revert k. induction l as [|y l IH]; intros k Hk; (destruct k as [|k]; [cbn [length] in Hk; lia|]); [reflexivity|].
  cbn [esym length] in *. rewrite !IH by lia. ring.
Qed.

Lemma ks_right U i p k : ks U i (S p) (S k) = ks U i p (S k) + U (i + p)%nat * ks U i p k.
Proof. unfold ks. rewrite seq_S, map_app. cbn [map]. apply esym_snoc. Qed.

Lemma ks_left U i p k : ks U i (S p) (S k) = ks U (S i) p (S k) + U i * ks U (S i) p k.
Proof. reflexivity. Qed.

Lemma ks_0 U i p : ks U i p 0 = 1.
Proof. apply esym_0. Qed.

(** binomial numbers with zeros outside *)
Fixpoint bin (p k : nat) : R :=
  match p, k with
  | _, O => 1
  | O, S _ => 0
  | S p', S k' => bin p' (S k') + bin p' k'
  end.

Lemma bin_0 p : bin p 0 = 1.
Proof. destruct p; reflexivity. Qed.

Lemma bin_C p : forall k, (k <= p)%nat -> bin p k = C p k.
Proof.
  assert (Z : forall p k, (p < k)%nat -> bin p k = 0).
  { induction p0 as [|q IH]; intros k Hk; (destruct k as [|k]; [lia|]); [reflexivity|]. cbn [bin]. rewrite !IH by lia. ring. }
  assert (F : forall p, INR (fact p) <> 0) by (intros; apply INR_fact_neq_0).
  assert (CN : forall p, C p p = 1) by (intros q; unfold C; rewrite Nat.sub_diag; cbn [fact INR]; field; apply F).
  assert (C0 : forall p, C p 0 = 1) by (intros q; unfold C; rewrite Nat.sub_0_r; cbn [fact INR]; field; apply F).
  induction p as [|p IH]; intros k Hk.
  - replace k with 0%nat by lia. rewrite C0. reflexivity.
  - destruct k as [|k]; [rewrite C0; reflexivity|]. cbn [bin]. destruct (le_lt_dec (S k) p) as [L|L].
    + rewrite !IH by lia. rewrite <- (pascal p k) by lia. ring.
    + rewrite Z by exact L. rewrite IH by lia. replace k with p by lia. rewrite !CN. ring.
Qed.

Lemma symmetric_sums U j x : mono U -> U j < U (S j) -> forall p k N, (p <= j)%nat -> (j < N)%nat ->
  rsum (fun i => ks U (S i) p k * cox (delta j) U p i x) N = bin p k * x ^ k.
Proof.
  intros HU HJ. induction p as [|p IH]; intros k N Hp HN; (destruct k as [|k]; [rewrite bin_0; rewrite (rsum_ext _ (fun i => cox (delta j) U _ i x)) by (intros; rewrite ks_0; ring); rewrite piece_sum by (try lia; assumption); cbn [pow]; ring|]).
  - rewrite rsum_zero; [cbn [bin]; ring|]. intros i _. change (0 * cox (delta j) U 0 i x = 0). ring.
  - set (T1 := fun i => ks U (S i) p (S k)). set (T2 := fun i => ks U (S i) p k).
    set (w := fun i => ratio (x - U i) (U (i + S p)%nat - U i)).
    set (v := fun i => ratio (U (i + S p)%nat - x) (U (i + S p)%nat - U i)).
    set (B := fun i => cox (delta j) U p i x).
    assert (W : forall i, w i * U (i + S p)%nat * B i + v i * U i * B i = x * B i /\ w i * B i + v i * B i = B i).
    { intros i. unfold B. destruct (Nat.lt_ge_cases j i) as [L|L]; [rewrite piece_support by lia; split; ring|].
      destruct (Nat.lt_ge_cases (i + p) j) as [L2|L2]; [rewrite piece_support by lia; split; ring|].
      assert (U i <= U j) by (apply HU; lia). assert (U (S j) <= U (i + S p)%nat) by (apply HU; lia).
      unfold w, v, ratio. destruct (Req_EM_T (U (i + S p)%nat - U i) 0) as [E|E]; [lra|]. split; field; exact E. }
    assert (R1 : forall i, ks U (S i) (S p) (S k) = T1 i + U (i + S p)%nat * T2 i).
    { intros i. rewrite ks_right. unfold T1, T2. replace (S i + p)%nat with (i + S p)%nat by lia. reflexivity. }
    rewrite (rsum_ext _ (fun i => (T1 i + U (i + S p)%nat * T2 i) * (w i * B i) + ks U (S i) (S p) (S k) * (v (S i) * B (S i)))) by (intros i _; rewrite <- R1; cbn [cox]; fold (w i) (B i); unfold v; fold (B (S i)); ring).
    rewrite rsum_plus.
    assert (Sh : rsum (fun i => ks U (S i) (S p) (S k) * (v (S i) * B (S i))) N = rsum (fun i => (T1 i + U i * T2 i) * (v i * B i)) (S N)).
    { rewrite (rsum_first (fun i => (T1 i + U i * T2 i) * (v i * B i)) N).
      replace (B 0%nat) with 0 by (unfold B; symmetry; apply piece_support; lia).
      rewrite (rsum_ext (fun i => ks U (S i) (S p) (S k) * (v (S i) * B (S i))) (fun i => (T1 (S i) + U (S i) * T2 (S i)) * (v (S i) * B (S i)))); [ring|].
      intros i _. rewrite ks_left. reflexivity. }
    rewrite Sh. assert (Z : B N = 0) by (apply piece_support; lia). cbn [rsum]. rewrite Z.
    rewrite Rmult_0_r, Rmult_0_r, Rplus_0_r, <- rsum_plus.
    rewrite (rsum_ext _ (fun i => T1 i * B i + x * (T2 i * B i))).
    + rewrite rsum_plus, rsum_scal. unfold T1, T2, B. rewrite !IH by lia. cbn [bin pow]. ring.
    + intros i _. destruct (W i) as [W1 W2]. replace (x * (T2 i * B i)) with (T2 i * (x * B i)) by ring. rewrite <- W1.
      replace (T1 i * B i) with (T1 i * (w i * B i + v i * B i)) by (rewrite W2; reflexivity). ring.
Qed.

Lemma peval_sum a x : forall m, (length a <= m)%nat -> peval a x = rsum (fun k => nth k a 0 * x ^ k) m.
Proof.
  induction a as [|c a IH]; intros m Hm.
  - rewrite rsum_zero; [reflexivity|]. intros k _. destruct k; cbn [nth]; ring.
  - destruct m as [|m]; [cbn [length] in Hm; lia|]. cbn [length] in Hm. cbn [peval]. rewrite rsum_first. rewrite (IH m) by lia.
    rewrite <- rsum_scal. f_equal; [cbn [nth pow]; ring|]. apply rsum_ext. intros k _. cbn [nth pow]. ring.
Qed.

Lemma firstn_kfun (U : list R) i p : (i + p <= length U)%nat -> firstn p (skipn i U) = map (kfun U) (seq i p).
Proof.
  intros L. apply (nth_ext _ _ 0 0).
  - rewrite firstn_length, skipn_length, map_length, seq_length. lia.
  - intros k Hk. rewrite firstn_length, skipn_length in Hk. rewrite (@nth_segment R) by lia.
    rewrite (nth_indep (map (kfun U) (seq i p)) 0 (kfun U 0)) by (rewrite map_length, seq_length; lia).
    rewrite map_nth, seq_nth by lia. rewrite kfun_nth by lia. reflexivity.
Qed.

Lemma polynomial_precision p n dim U P c (a : nat -> list R) : clamped_curve p n dim U P c -> (forall d, (d < dim)%nat -> (length (a d) <= S p)%nat) ->
  (forall i d, (i <= n)%nat -> (d < dim)%nat -> ent P i d = rsum (fun k => nth k (a d) 0 * (esym (firstn p (skipn (S i) U)) k / C p k)) (S p)) ->
  forall u, 0 <= u <= 1 -> returns (evaluate c u) dim (fun d => peval (a d) u).
Proof.
  intros H Ha HP u Hu. assert (FC : fclamped p n (kfun U)) by (apply kfun_clamped; apply H).
  assert (L : length U = (n + p + 2)%nat) by (apply H).
  destruct (cc_eval0 p n dim U P c u H Hu) as [x [X1 [X2 X3]]]. exists x. split; [exact X1|]. split; [exact X2|]. intros d Hd. rewrite X3 by exact Hd.
  destruct (span_ex p n (kfun U) FC u Hu) as [j [J1 J2]].
  rewrite (spline_piece p n (kfun U) FC _ u j ltac:(lia) J2). unfold pfun.
  rewrite (rsum_ext _ (fun i => rsum (fun k => nth k (a d) 0 / C p k * (ks (kfun U) (S i) p k * cox (delta j) (kfun U) p i u)) (S p))).
  - rewrite rsum_swap. rewrite (peval_sum (a d) u (S p)) by (apply Ha; exact Hd). apply rsum_ext. intros k Hk. rewrite rsum_scal.
    assert (D : C p k <> 0) by (unfold C; apply Rmult_integral_contrapositive_currified; [apply INR_fact_neq_0|apply Rinv_neq_0_compat; apply Rmult_integral_contrapositive_currified; apply INR_fact_neq_0]).
    rewrite symmetric_sums; try lia; [|apply (fc_mono _ _ _ FC)|apply J2]. rewrite bin_C by lia. field. exact D.
  - intros i Hi. rewrite HP by (try lia; exact Hd). rewrite Rmult_comm, <- rsum_scal_r. apply rsum_ext. intros k Hk. rewrite firstn_kfun by lia. unfold ks. unfold Rdiv. ring.
Qed.

(** ** Interpolation and fits of polynomial data *)
Lemma sample_curve p n dim U (a : nat -> list R) : clamped p n U -> (forall d, (d < dim)%nat -> (length (a d) <= S p)%nat) ->
  exists P c, clamped_curve p n dim U P c /\ forall u, 0 <= u <= 1 -> returns (evaluate c u) dim (fun d => peval (a d) u).
Proof.
  intros HC Ha. set (P := mat_of dim (S n) (fun d i => rsum (fun k => nth k (a d) 0 * (esym (firstn p (skipn (S i) U)) k / C p k)) (S p))).
  destruct (clamped_curve_ex p n dim U P HC (mat_of_shape _ _ _)) as [c H]. exists P, c. split; [exact H|].
  apply (polynomial_precision p n dim U P c a H Ha). intros i d Hi Hd. unfold P. rewrite ent_mat_of by (try exact Hd; lia); reflexivity.
Qed.

Definition sampled (dim m : nat) (a : nat -> list R) (Q : Mat RNum) : Prop := forall g d, (g <= m)%nat -> (d < dim)%nat -> ent Q g d = peval (a d) (INR g / INR m).

Lemma polynomial_interpolation svd p m dim (Q : Mat RNum) (a : nat -> list R) : good_solver svd -> (1 <= p <= m)%nat -> shape dim (S m) Q ->
  (forall d, (d < dim)%nat -> (length (a d) <= S p)%nat) -> sampled dim m a Q ->
  exists c, generate svd (Interpolation p Q) = Val (Ok c) /\ forall u, 0 <= u <= 1 -> returns (evaluate c u) dim (fun d => peval (a d) u).
Proof.
  intros GS Hp SQ Ha HL. destruct (uniform_exists p m Hp) as [U [CL UK]]. destruct (sample_curve p m dim U a CL Ha) as [P [c [HC V]]].
  exists c. split; [|exact V]. apply (interpolation_reproduces svd p m dim U P c Q GS ltac:(lia) HC UK SQ). intros g Hg.
  eapply returns_ext; [apply V; apply frac01; lia|]. intros d Hd. cbv beta. rewrite HL by assumption. reflexivity.
Qed.

Lemma polynomial_fit svd p n m dim (Q : Mat RNum) (a : nat -> list R) me : good_solver svd -> (1 <= p <= n)%nat -> (n <= m)%nat -> (me = FixedEnds -> (2 <= n)%nat) -> shape dim (S m) Q ->
  (forall d, (d < dim)%nat -> (length (a d) <= S p)%nat) -> sampled dim m a Q ->
  exists c, generate svd (LeastSquaresFit p Q n me None) = Val (Ok c) /\ forall u, 0 <= u <= 1 -> returns (evaluate c u) dim (fun d => peval (a d) u).
Proof.
  intros GS Hp Hm H2 SQ Ha HL. destruct (uniform_exists p n Hp) as [U [CL UK]]. destruct (sample_curve p n dim U a CL Ha) as [P [c [HC V]]].
  exists c. split; [|exact V].
  assert (D : forall g, (g <= m)%nat -> returns (evaluate c (INR g / INR m)) dim (fun d => ent Q g d)).
  { intros g Hg. eapply returns_ext; [apply V; apply frac01; lia|]. intros d Hd. cbv beta. rewrite HL by assumption. reflexivity. }
  destruct me.
  - specialize (H2 eq_refl). apply (fixed_reproduces svd p n m dim U P c None Q GS ltac:(lia) ltac:(lia) HC UK SQ); [discriminate|reflexivity|exact D].
  - apply (loose_reproduces svd p n m dim U P c None Q GS ltac:(lia) Hm HC UK SQ); [discriminate|reflexivity|exact D].
Qed.

(** the loose fit is at least as close to the data as any polynomial of the degree *)
Lemma fit_beats_polynomials svd p n m dim (Q : Mat RNum) : good_solver svd -> (1 <= p <= n)%nat -> (n <= m)%nat -> shape dim (S m) Q ->
  exists c e, generate svd (LeastSquaresFit p Q n LooseEnds None) = Val (Ok c) /\ data_error c dim m Q e /\
    forall a : nat -> list R, (forall d, (d < dim)%nat -> (length (a d) <= S p)%nat) ->
      e <= rsum (fun g => rsum (fun d => (peval (a d) (INR g / INR m) - ent Q g d) ^ 2) dim) (S m).
Proof.
  intros GS Hp Hm SQ. destruct (loose_fit_fact svd p n m dim Q None GS SQ Hp Hm ltac:(discriminate)) as [U [P [c [e [E [H [UK [DE Min]]]]]]]].
  exists c, e. split; [exact E|]. split; [exact DE|]. intros a Ha. destruct (sample_curve p n dim U a (proj1 H) Ha) as [P' [c' [HC V]]].
  assert (D' : data_error c' dim m Q (rsum (fun g => rsum (fun d => (peval (a d) (INR g / INR m) - ent Q g d) ^ 2) dim) (S m))).
  { exists (fun g d => peval (a d) (INR g / INR m)). split; [|reflexivity]. intros g Hg. apply V. apply frac01; lia. }
  destruct (Min P' c' _ HC D') as [M _]. unfold penalty in M. lra.
Qed.
