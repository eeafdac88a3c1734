(** * Fits and interpolation of reversed data; data on a line *)

From Coq Require Import ZArith Reals List Bool Arith Lia Lra.
From Verif Require Import Num Vec MKnots MPoints MCurve MFit MGenerate RNum Lists Struct Spec BMath BMath2 BMath3 SW Api Bridge Facts1 Facts3 Gen1 Fit2 Fit3 Fit5 Fit6 Fit7 Fit8 Shape2 Gen3.
Import ListNotations.
Local Open Scope R_scope.

Lemma uniform_vrev p n U : clamped p n U -> uniform_knots p n U -> vrev U = U.
Proof.
  intros C K. apply (uniform_list p n); [apply reverse_clamped; exact C|exact C| |exact K].
  intros i Hi. assert (L := cl_len _ _ _ C). assert (D := cl_deg _ _ _ C). rewrite nth_vrev by lia. rewrite L, K by lia.
  replace (n + p + 2 - 1 - i - p)%nat with (n - p + 1 - (i - p))%nat by lia. rewrite minus_INR by lia.
  assert (T := INR_pos (n - p + 1) ltac:(lia)). field. lra.
Qed.

Lemma uniform_mult p n U u : (1 <= p)%nat -> clamped p n U -> uniform_knots p n U -> 0 < u < 1 -> mult_le (kfun U) u 1.
Proof.
  intros Hp C K Hu a b Ha Hb. assert (FC := kfun_clamped p n U C). assert (Si := uk_simple p n U C K Hp). assert (D := cl_deg _ _ _ C).
  assert (R : forall i, kfun U i = u -> (p < i <= n)%nat).
  { intros i Hi. split; [apply Nat.nle_gt|apply Nat.nlt_ge]; intros L.
    - rewrite (fc_zero _ _ _ FC) in Hi by lia. lra.
    - rewrite (fc_one _ _ _ FC) in Hi by lia. lra. }
  assert (Ra := R a Ha). assert (Rb := R b Hb).
  destruct (le_lt_dec (a + 1) b) as [L|L]; [|exact L]. exfalso.
  assert (T : kfun U a < kfun U (S a)) by (apply Si; lia). assert (T2 : kfun U (S a) <= kfun U b) by (apply (fc_mono _ _ _ FC); lia). lra.
Qed.

Lemma reverse_uniform p n dim U C c : (1 <= p)%nat -> clamped_curve p n dim U C c -> uniform_knots p n U ->
  exists c', @reverse RNum c = Val c' /\ clamped_curve p n dim U (mrev C) c' /\ forall u, 0 <= u <= 1 -> evaluate c' u = evaluate c (1 - u).
Proof.
  intros Hp H K. destruct (reverse_curve p n dim U C c H) as [c' [E H']]. rewrite (uniform_vrev p n U (proj1 H) K) in H'.
  exists c'. split; [exact E|]. split; [exact H'|]. intros u Hu.
  destruct (cc_eval0 p n dim U (mrev C) c' u H' Hu) as [x [X1 [X2 X3]]]. destruct (cc_eval0 p n dim U C c (1 - u) H ltac:(lra)) as [y [Y1 [Y2 Y3]]].
  rewrite X1, Y1. do 2 f_equal. apply (list_ext 0); [lia|]. intros d Hd. rewrite X3, Y3 by lia.
  assert (FC := kfun_clamped p n U (proj1 H)). assert (L := cl_len _ _ _ (proj1 H)).
  assert (T := dspline_reverse p n (kfun U) (kfun U) (fun i => ent C i d) (fun i => ent (mrev C) i d) 0 u FC FC).
  rewrite !dspline_0 in T. cbn [pow] in T. rewrite Rmult_1_l in T. apply T.
  - intros a Ha. rewrite <- (uniform_vrev p n U (proj1 H) K) at 1. rewrite !kfun_nth by (rewrite ?vrev_length; lia). rewrite nth_vrev by lia. do 2 f_equal. lia.
  - intros i Hi. rewrite (ent_mrev dim (S n)) by (try apply H; lia). f_equal. lia.
  - lia.
  - exact Hu.
  - intros Hu'. intros a b Ha Hb. assert (M := uniform_mult p n U (1 - u) Hp (proj1 H) K ltac:(lra) a b Ha Hb). lia.
Qed.

Lemma fdiff_rev k (y : nat -> R) N : forall r, (r + k <= N)%nat -> fdiff k (fun i => y (N - i)%nat) r = (-1) ^ k * fdiff k y (N - k - r)%nat.
Proof.
  induction k as [|k IH]; intros r Hr; cbn [fdiff pow].
  - replace (N - 0 - r)%nat with (N - r)%nat by lia. ring.
  - rewrite !IH by lia. replace (N - k - r)%nat with (S (N - S k - r)) by lia. replace (N - k - S r)%nat with (N - S k - r)%nat by lia. ring.
Qed.

Lemma roughness_rev k count off dim n (C C' : Mat RNum) : (n + 1 = 2 * off + count)%nat -> (forall i d, (i <= n)%nat -> (d < dim)%nat -> ent C' i d = ent C (n - i) d) ->
  roughness k (count - k) off dim C' = roughness k (count - k) off dim C.
Proof.
  intros Hn E. unfold roughness. rewrite <- rsum_rev. apply rsum_ext. intros r Hr. apply rsum_ext. intros d Hd.
  rewrite (fdiff_ext k (fun i => ent C' (off + i) d) (fun i => ent C (off + (count - 1 - i)) d)).
  - rewrite (fdiff_rev k (fun i => ent C (off + i) d) (count - 1)) by lia. replace (count - 1 - k - (count - k - 1 - r))%nat with r by lia.
    rewrite Rpow_mult_distr, <- pow_mult, Nat.mul_comm, pow_1_even. ring.
  - intros j Hj. rewrite E by lia. f_equal. lia.
Qed.

Lemma penalty_rev pen count off dim n (C C' : Mat RNum) : (n + 1 = 2 * off + count)%nat -> (forall i d, (i <= n)%nat -> (d < dim)%nat -> ent C' i d = ent C (n - i) d) ->
  penalty pen count off dim C' = penalty pen count off dim C.
Proof. intros Hn E. destruct pen as [q|]; cbn [penalty]; [|reflexivity]. rewrite (roughness_rev (kappa q) count off dim n C C' Hn E). reflexivity. Qed.

(** the data in reverse order *)
Definition backwards (dim m : nat) (Q Q' : Mat RNum) : Prop := forall g d, (g <= m)%nat -> (d < dim)%nat -> ent Q' g d = ent Q (m - g) d.

Lemma backwards_sym dim m Q Q' : backwards dim m Q Q' -> backwards dim m Q' Q.
Proof. intros H g d Hg Hd. rewrite H by lia. f_equal. lia. Qed.

Lemma mrev_backwards dim n C : shape dim (S n) C -> backwards dim n C (mrev C).
Proof. intros H i d Hi Hd. rewrite (ent_mrev dim (S n)) by (try exact H; lia). f_equal. lia. Qed.

Lemma frac_rev g m : (g <= m)%nat -> (1 <= m)%nat -> 1 - INR g / INR m = INR (m - g) / INR m.
Proof. intros Hg Hm. rewrite minus_INR by lia. assert (T := INR_pos m ltac:(lia)). field. lra. Qed.

Lemma data_error_rev c c' dim m Q Q' e : (1 <= m)%nat -> (forall u, 0 <= u <= 1 -> evaluate c' u = evaluate c (1 - u)) -> backwards dim m Q Q' ->
  data_error c dim m Q e -> data_error c' dim m Q' e.
Proof.
  intros Hm Ev B [f [Hf ->]]. exists (fun g => f (m - g)%nat). split.
  - intros g Hg. rewrite Ev by (apply frac01; lia). rewrite frac_rev by lia. apply Hf. lia.
  - rewrite <- (rsum_rev (fun g => rsum (fun d => (f g d - ent Q g d) ^ 2) dim)). apply rsum_ext. intros g Hg. replace (S m - 1 - g)%nat with (m - g)%nat by lia.
    apply rsum_ext. intros d Hd. rewrite B by lia. reflexivity.
Qed.

Lemma loose_reverse svd p n m dim (Q Q' : Mat RNum) pen : good_solver svd -> shape dim (S m) Q -> shape dim (S m) Q' -> (1 <= p <= n)%nat -> (n <= m)%nat ->
  (forall q, pen = Some q -> 0 <= lambda q /\ (1 <= kappa q <= n - 1)%nat) -> backwards dim m Q Q' ->
  exists c c', generate svd (LeastSquaresFit p Q n LooseEnds pen) = Val (Ok c) /\ reverse c = Val c' /\ generate svd (LeastSquaresFit p Q' n LooseEnds pen) = Val (Ok c').
Proof.
  intros GS SQ SQ' Hp Hm HP B.
  destruct (loose_fit_fact svd p n m dim Q pen GS SQ Hp Hm HP) as [U [C [c [e [E [HC [UK [DE UN]]]]]]]].
  destruct (loose_fit_fact svd p n m dim Q' pen GS SQ' Hp Hm HP) as [U' [C' [c' [e' [E' [HC' [UK' [DE' UN']]]]]]]].
  assert (U = U') as <- by (apply (uniform_list p n); [apply HC|apply HC'|exact UK|exact UK']).
  destruct (reverse_uniform p n dim U C c ltac:(lia) HC UK) as [r [Er [HR VR]]].
  destruct (reverse_uniform p n dim U C' c' ltac:(lia) HC' UK) as [r' [Er' [HR' VR']]].
  exists c, c'. split; [exact E|]. split; [|exact E']. rewrite Er. f_equal.
  apply (same_curve p n dim U (mrev C) C' r c' HR HC').
  assert (D1 := data_error_rev c r dim m Q Q' e ltac:(lia) VR B DE).
  assert (D2 := data_error_rev c' r' dim m Q' Q e' ltac:(lia) VR' (backwards_sym _ _ _ _ B) DE').
  destruct (UN' (mrev C) r e HR D1) as [_ G]. apply G.
  destruct (UN (mrev C') r' e' HR' D2) as [M _].
  rewrite (penalty_rev pen (S n) 0 dim n C (mrev C) ltac:(lia)) by (apply mrev_backwards; apply HC).
  rewrite (penalty_rev pen (S n) 0 dim n C' (mrev C') ltac:(lia)) in M by (apply mrev_backwards; apply HC'). exact M.
Qed.

Lemma fixed_reverse svd p n m dim (Q Q' : Mat RNum) pen : good_solver svd -> shape dim (S m) Q -> shape dim (S m) Q' -> (1 <= p <= n)%nat -> (2 <= n <= m)%nat ->
  (forall q, pen = Some q -> 0 <= lambda q /\ (1 <= kappa q <= n - 2)%nat) -> backwards dim m Q Q' ->
  exists c c', generate svd (LeastSquaresFit p Q n FixedEnds pen) = Val (Ok c) /\ reverse c = Val c' /\ generate svd (LeastSquaresFit p Q' n FixedEnds pen) = Val (Ok c').
Proof.
  intros GS SQ SQ' Hp Hm HP B.
  destruct (fixed_fit_fact svd p n m dim Q pen GS SQ Hp Hm HP) as [U [C [c [e [E [HC [UK [DE [E0 [E1 UN]]]]]]]]]].
  destruct (fixed_fit_fact svd p n m dim Q' pen GS SQ' Hp Hm HP) as [U' [C' [c' [e' [E' [HC' [UK' [DE' [E0' [E1' UN']]]]]]]]]].
  assert (U = U') as <- by (apply (uniform_list p n); [apply HC|apply HC'|exact UK|exact UK']).
  destruct (reverse_uniform p n dim U C c ltac:(lia) HC UK) as [r [Er [HR VR]]].
  destruct (reverse_uniform p n dim U C' c' ltac:(lia) HC' UK) as [r' [Er' [HR' VR']]].
  exists c, c'. split; [exact E|]. split; [|exact E']. rewrite Er. f_equal.
  apply (same_curve p n dim U (mrev C) C' r c' HR HC').
  assert (D1 := data_error_rev c r dim m Q Q' e ltac:(lia) VR B DE).
  assert (D2 := data_error_rev c' r' dim m Q' Q e' ltac:(lia) VR' (backwards_sym _ _ _ _ B) DE').
  assert (Ends : forall (k k' : Curve RNum) (D D' : Mat RNum), (forall u, 0 <= u <= 1 -> evaluate k' u = evaluate k (1 - u)) -> backwards dim m D D' ->
    returns (evaluate k 0) dim (fun d => ent D 0 d) -> returns (evaluate k 1) dim (fun d => ent D m d) ->
    returns (evaluate k' 0) dim (fun d => ent D' 0 d) /\ returns (evaluate k' 1) dim (fun d => ent D' m d)).
  { intros k k' D D' V BB R0 R1. split.
    - rewrite V by lra. replace (1 - 0) with 1 by ring. eapply returns_ext; [exact R1|]. intros d Hd. cbv beta. rewrite BB by lia. f_equal. lia.
    - rewrite V by lra. replace (1 - 1) with 0 by ring. eapply returns_ext; [exact R0|]. intros d Hd. cbv beta. rewrite BB by lia. f_equal. lia. }
  destruct (Ends c r Q Q' VR B E0 E1) as [R0 R1]. destruct (Ends c' r' Q' Q VR' (backwards_sym _ _ _ _ B) E0' E1') as [R0' R1'].
  destruct (UN' (mrev C) r e HR D1 R0 R1) as [_ G]. apply G.
  destruct (UN (mrev C') r' e' HR' D2 R0' R1') as [M _].
  rewrite (penalty_rev pen (n - 1) 1 dim n C (mrev C) ltac:(lia)) by (apply mrev_backwards; apply HC).
  rewrite (penalty_rev pen (n - 1) 1 dim n C' (mrev C') ltac:(lia)) in M by (apply mrev_backwards; apply HC'). exact M.
Qed.

Lemma interpolation_reverse svd p m dim (Q Q' : Mat RNum) : good_solver svd -> (1 <= p <= m)%nat -> shape dim (S m) Q -> shape dim (S m) Q' -> backwards dim m Q Q' ->
  exists c c', generate svd (Interpolation p Q) = Val (Ok c) /\ reverse c = Val c' /\ generate svd (Interpolation p Q') = Val (Ok c').
Proof.
  intros GS Hp SQ SQ' B. destruct (interpolation_fact svd p m dim Q GS Hp SQ) as [U [C [c [E [HC [UK [HD _]]]]]]].
  destruct (reverse_uniform p m dim U C c ltac:(lia) HC UK) as [r [Er [HR VR]]]. exists c, r. split; [exact E|]. split; [exact Er|].
  apply (interpolation_reproduces svd p m dim U (mrev C) r Q' GS ltac:(lia) HR UK SQ'). intros g Hg.
  rewrite VR by (apply frac01; lia). rewrite frac_rev by lia. eapply returns_ext; [apply HD; lia|]. intros d Hd. cbv beta. rewrite B by assumption. reflexivity.
Qed.

(** ** equally spaced data on a line *)
Lemma line_curve p n dim U (a b : nat -> R) : (1 <= p)%nat -> clamped p n U -> exists C c, clamped_curve p n dim U C c /\
  forall u, 0 <= u <= 1 -> returns (evaluate c u) dim (fun d => a d + b d * u).
Proof.
  intros Hp CL. set (C := mat_of dim (S n) (fun d i => a d + b d * (rsum (fun k => nth (i + 1 + k) U 0) p / INR p))).
  destruct (new_curve p n dim U C CL (mat_of_shape _ _ _)) as [c H]. exists C, c. split; [exact H|].
  apply (greville p n dim U C c a b Hp H). intros i d Hi Hd. unfold C. rewrite ent_mat_of by lia. reflexivity.
Qed.

Lemma uniform_exists p n : (1 <= p <= n)%nat -> exists U, clamped p n U /\ uniform_knots p n U.
Proof. intros Hp. destruct (Gen3.uniform_fact p n Hp) as [kn [U [A [B [V [CL [VU _]]]]]]]. exists U. split; [exact CL|]. apply uniform_values; assumption. Qed.

Definition on_line (dim m : nat) (a b : nat -> R) (Q : Mat RNum) : Prop := forall g d, (g <= m)%nat -> (d < dim)%nat -> ent Q g d = a d + b d * (INR g / INR m).

Lemma interpolation_line svd p m dim (Q : Mat RNum) a b : good_solver svd -> (1 <= p <= m)%nat -> shape dim (S m) Q -> on_line dim m a b Q ->
  exists c, generate svd (Interpolation p Q) = Val (Ok c) /\ forall u, 0 <= u <= 1 -> returns (evaluate c u) dim (fun d => a d + b d * u).
Proof.
  intros GS Hp SQ HL. destruct (uniform_exists p m Hp) as [U [CL UK]]. destruct (line_curve p m dim U a b ltac:(lia) CL) as [C [c [HC V]]].
  exists c. split; [|exact V]. apply (interpolation_reproduces svd p m dim U C c Q GS ltac:(lia) HC UK SQ). intros g Hg.
  eapply returns_ext; [apply V; apply frac01; lia|]. intros d Hd. cbv beta. rewrite HL by assumption. reflexivity.
Qed.

Lemma fit_line svd p n m dim (Q : Mat RNum) a b me : good_solver svd -> (1 <= p <= n)%nat -> (n <= m)%nat -> (me = FixedEnds -> (2 <= n)%nat) -> shape dim (S m) Q -> on_line dim m a b Q ->
  exists c, generate svd (LeastSquaresFit p Q n me None) = Val (Ok c) /\ forall u, 0 <= u <= 1 -> returns (evaluate c u) dim (fun d => a d + b d * u).
Proof.
  intros GS Hp Hm H2 SQ HL. destruct (uniform_exists p n Hp) as [U [CL UK]]. destruct (line_curve p n dim U a b ltac:(lia) CL) as [C [c [HC V]]].
  exists c. split; [|exact V].
  assert (D : forall g, (g <= m)%nat -> returns (evaluate c (INR g / INR m)) dim (fun d => ent Q g d)).
  { intros g Hg. eapply returns_ext; [apply V; apply frac01; lia|]. intros d Hd. cbv beta. rewrite HL by assumption. reflexivity. }
  destruct me.
  - specialize (H2 eq_refl). apply (fixed_reproduces svd p n m dim U C c None Q GS ltac:(lia) ltac:(lia) HC UK SQ); [discriminate|reflexivity|exact D].
  - apply (loose_reproduces svd p n m dim U C c None Q GS ltac:(lia) Hm HC UK SQ); [discriminate|reflexivity|exact D].
Qed.
