(** * Corner cutting: points of a spline are control points of a refinement *)

From Coq Require Import Reals List Arith Lra Lia.
From Verif Require Import Spec BMath BMath2 BMath3 BMath4.
Local Open Scope R_scope.

(** [cuts n P N Q]: the [N + 1] points [Q] arise from the [n + 1] points [P] by
    repeated corner cutting *)
Inductive cuts (n : nat) (P : nat -> nat -> R) : nat -> (nat -> nat -> R) -> Prop :=
| cuts_none : cuts n P n P
| cuts_more N Q a : cuts n P N Q -> (forall i, 0 <= a i <= 1) -> a 0%nat = 1 -> a (S N) = 0 ->
    cuts n P (S N) (fun i d => a i * Q i d + (1 - a i) * Q (i - 1)%nat d).

Lemma ins_coef_01 U l t p i : mono U -> U l <= t -> t <= U (S l) -> 0 <= ins_coef U l t p i <= 1.
Proof.
  intros HU H1 H2. unfold ins_coef. destruct (i + p <=? l)%nat eqn:E1; [lra|]. destruct (l <? i)%nat eqn:E2; [lra|].
  apply Nat.leb_gt in E1. apply Nat.ltb_ge in E2.
  assert (A : U i <= U l) by (apply HU; lia). assert (B : U (S l) <= U (i + p)%nat) by (apply HU; lia).
  unfold ratio. destruct (Req_EM_T (U (i + p)%nat - U i) 0) as [E|E]; [lra|].
  assert (D : 0 < U (i + p)%nat - U i) by lra. split.
  - apply Rmult_le_pos; [lra|]. left. apply Rinv_0_lt_compat. exact D.
  - apply (Rmult_le_reg_r (U (i + p)%nat - U i)); [exact D|]. unfold Rdiv. rewrite Rmult_assoc, Rinv_l by exact E. lra.
Qed.

Section Refine.
  Variables (p n : nat) (U : nat -> R).
  Hypothesis C : fclamped p n U.
  Variable P : nat -> nat -> R.

  Definition reach (N : nat) (V : nat -> R) (Q : nat -> nat -> R) : Prop :=
    fclamped p N V /\ cuts n P N Q /\
    forall d x, 0 <= x <= 1 -> spline V N p (fun i => Q i d) x = spline U n p (fun i => P i d) x.

  Lemma reach_start : reach n U P.
  Proof. split; [exact C|]. split; [apply cuts_none|]. reflexivity. Qed.

  Lemma reach_step N V Q l t : reach N V Q -> 0 < t < 1 -> (p <= l <= N)%nat -> V l <= t <= V (S l) ->
    exists Q', reach (S N) (ins_knots V l t) Q'.
  Proof.
    intros [CV [HQ HS]] Ht Hl Hlt.
    exists (fun i d => ins_coef V l t p i * Q i d + (1 - ins_coef V l t p i) * Q (i - 1)%nat d).
    split; [apply fclamped_ins; assumption|]. split.
    - apply cuts_more; [exact HQ| | |].
      + intros i. apply ins_coef_01; [apply (fc_mono _ _ _ CV)| |]; apply Hlt.
      + apply a_one. lia.
      + apply a_zero. lia.
    - intros d x Hx. rewrite <- (HS d x Hx). apply (spline_insert p N V CV l t Ht Hl Hlt (fun i => Q i d) x Hx).
  Qed.

  (** at [x] the spline takes the value of control point [b] *)
  Definition place (V : nat -> R) (N : nat) (x : R) (b : nat) : Prop :=
    (x < 1 /\ (b + p <= N)%nat /\ V (b + p)%nat <= x < V (S (b + p)) /\ (forall i, (b < i <= b + p)%nat -> V i = x)) \/ (x = 1 /\ b = N).

  Lemma place_value V N x b Q : fclamped p N V -> 0 <= x -> place V N x b -> spline V N p Q x = Q b.
  Proof.
    intros CV Hx [[H1 [H2 [H3 H4]]]|[-> ->]]; [|apply (spline_at_1 p N V CV)].
    assert (Hs : in_span V N x (b + p)).
    { split; [lra|]. split; [apply H3|]. left. apply H3. }
    rewrite (spline_piece p N V CV Q x (b + p)) by (try lia; exact Hs).
    assert (E : forall i, cox (delta (b + p)) V p i x = delta b i).
    { intros i. destruct (Nat.eq_dec p 0) as [E|E].
      - rewrite E, Nat.add_0_r. reflexivity.
      - rewrite <- (H4 (S b)) by lia. rewrite right_piece; try lia.
        + f_equal. lia.
        + apply (fc_mono _ _ _ CV).
        + rewrite !H4 by lia. reflexivity.
        + rewrite H4 by lia. apply H3. }
    unfold pfun. rewrite (rsum_single _ _ b).
    - rewrite E, delta_eq. ring.
    - lia.
    - intros i _ Hi. rewrite E, delta_ne by exact Hi. ring.
  Qed.

  Lemma place_le V N x b : place V N x b -> (b <= N)%nat.
  Proof. intros [[_ [H _]]|[_ ->]]; lia. Qed.

  Lemma place_order V N x y b c : mono V -> x <= y -> place V N x b -> place V N y c -> (b <= c)%nat.
  Proof.
    intros HV Hxy H1 H2. assert (B := place_le _ _ _ _ H1). destruct H1 as [[A1 [A2 [A3 A4]]]|[-> ->]].
    - destruct H2 as [[B1 [B2 [B3 B4]]]|[-> ->]]; [|exact B].
      apply Nat.nlt_ge. intros T. assert (V (S (c + p)) <= V (b + p)%nat) by (apply HV; lia). lra.
    - destruct H2 as [[B1 _]|[-> ->]]; [lra|lia].
  Qed.

  Lemma place_ins V N l t x b : mono V -> (p <= l <= N)%nat -> V l <= t < V (S l) -> x < t -> t < 1 -> place V N x b ->
    place (ins_knots V l t) (S N) x b.
  Proof.
    intros HV Hl Hlt Hx Ht [[A1 [A2 [A3 A4]]]|[-> _]]; [|lra]. left.
    assert (L : (b + p <= l)%nat).
    { apply Nat.nlt_ge. intros T. assert (V (S l) <= V (b + p)%nat) by (apply HV; lia). lra. }
    split; [exact A1|]. split; [lia|]. split.
    - rewrite ins_le by exact L. split; [apply A3|]. destruct (Nat.eq_dec (b + p) l) as [E|E].
      + rewrite E, ins_eq. exact Hx.
      + rewrite ins_le by lia. apply A3.
    - intros i Hi. rewrite ins_le by lia. apply A4. exact Hi.
  Qed.

  (** [t] becomes a [p]-fold knot at least *)
  Lemma make_full N V Q t : reach N V Q -> 0 < t < 1 -> forall k, (k <= p)%nat ->
    exists N' V' Q' l, reach N' V' Q' /\ (p <= l <= N')%nat /\ V' l <= t < V' (S l) /\ (forall i, (l < i + k)%nat -> (i <= l)%nat -> V' i = t) /\
      (forall x b, x < t -> place V N x b -> place V' N' x b).
  Proof.
    intros HR Ht. induction k as [|k IH]; intros Hk.
    - destruct HR as [CV HR']. destruct (span_ex p N V CV t ltac:(lra)) as [l [Hl [S1 [S2 S3]]]].
      exists N, V, Q, l. split; [split; assumption|]. split; [exact Hl|]. split; [|split; [intros i Hi1 Hi2; lia|auto]].
      split; [exact S2|]. destruct S3 as [S3|[-> S3]]; [exact S3|]. rewrite (fc_one _ _ _ CV) in S3 by lia. lra.
    - destruct (IH ltac:(lia)) as [N' [V' [Q' [l [HR' [Hl [Hlt [Hk' Hp]]]]]]]].
      destruct (reach_step N' V' Q' l t HR' Ht Hl ltac:(lra)) as [Q2 HR2].
      exists (S N'), (ins_knots V' l t), Q2, (S l). split; [exact HR2|]. split; [lia|].
      rewrite ins_eq, ins_gt by lia. split; [lra|]. split.
      + intros i Hi1 Hi2. destruct (Nat.eq_dec i (S l)) as [->|E]; [apply ins_eq|]. rewrite ins_le by lia. apply Hk'; lia.
      + intros x b Hx Hb. apply place_ins; [apply (fc_mono _ _ _ (proj1 HR'))|exact Hl|exact Hlt|exact Hx|apply Ht|]. apply Hp; assumption.
  Qed.

  Lemma place_all (u : nat -> R) m : (forall j, (j < m)%nat -> 0 <= u j <= 1) -> (forall j, (S j < m)%nat -> u j < u (S j)) ->
    exists N V Q, reach N V Q /\ forall j, (j < m)%nat -> exists b, place V N (u j) b.
  Proof.
    induction m as [|m IH]; intros H01 Hinc.
    - exists n, U, P. split; [apply reach_start|]. intros; lia.
    - destruct IH as [N [V [Q [HR Hb]]]]; [intros j Hj; apply H01; lia|intros j Hj; apply Hinc; lia|].
      assert (Lt : forall j, (j < m)%nat -> u j < u m).
      { clear Hb. intros j Hj. induction m as [|k IHk]; [lia|]. destruct (Nat.eq_dec j k) as [->|E]; [apply Hinc; lia|].
        assert (T := Hinc k ltac:(lia)). assert (u j < u k); [|lra]. apply IHk; [intros; apply H01; lia|intros; apply Hinc; lia|lia]. }
      assert (Hm := H01 m ltac:(lia)).
      destruct (Req_dec (u m) 1) as [E1|E1].
      + exists N, V, Q. split; [exact HR|]. intros j Hj. destruct (Nat.eq_dec j m) as [->|E]; [exists N; right; auto|apply Hb; lia].
      + destruct (Req_dec (u m) 0) as [E0|E0].
        * exists N, V, Q. split; [exact HR|]. intros j Hj. destruct (Nat.eq_dec j m) as [->|E]; [|apply Hb; lia].
          destruct HR as [CV _]. exists 0%nat. left. cbn [plus]. rewrite E0. split; [lra|]. split; [apply (fc_deg _ _ _ CV)|]. split.
          -- rewrite (fc_zero _ _ _ CV) by lia. split; [lra|]. apply (U_pos p N V CV). lia.
          -- intros i Hi. apply (fc_zero _ _ _ CV). lia.
        * destruct (make_full N V Q (u m) HR ltac:(lra) p (Nat.le_refl _)) as [N' [V' [Q' [l [HR' [Hl [Hlt [Hk Hp]]]]]]]].
          exists N', V', Q'. split; [exact HR'|]. intros j Hj. destruct (Nat.eq_dec j m) as [->|E].
          -- exists (l - p)%nat. left. replace (l - p + p)%nat with l by lia. split; [lra|]. split; [lia|]. split; [exact Hlt|].
             intros i Hi. apply Hk; lia.
          -- destruct (Hb j ltac:(lia)) as [b B]. exists b. apply Hp; [apply Lt; lia|exact B].
  Qed.

  (** the points of the spline at increasing parameters occur, in order, among the
      points of a sequence obtained from the control points by corner cutting *)
  Theorem sampled (u : nat -> R) m : (forall j, (j < m)%nat -> 0 <= u j <= 1) -> (forall j, (S j < m)%nat -> u j < u (S j)) ->
    exists N Q b, cuts n P N Q /\ (forall j, (j < m)%nat -> (b j <= N)%nat /\ forall d, spline U n p (fun i => P i d) (u j) = Q (b j) d) /\
      forall j, (S j < m)%nat -> (b j <= b (S j))%nat.
  Proof.
    intros H01 Hinc. destruct (place_all u m H01 Hinc) as [N [V [Q [[CV [HQ HS]] Hb]]]].
    assert (Ch : exists b, forall j, (j < m)%nat -> place V N (u j) (b j)).
    { clear H01 Hinc HS HQ CV. induction m as [|m IH]; [exists (fun _ => 0%nat); intros; lia|].
      destruct IH as [b B]; [intros j Hj; apply Hb; lia|]. destruct (Hb m ltac:(lia)) as [c Hc].
      exists (fun j => if (j =? m)%nat then c else b j). intros j Hj. destruct (Nat.eqb_spec j m) as [->|E]; [exact Hc|apply B; lia]. }
    destruct Ch as [b B]. exists N, Q, b. split; [exact HQ|]. split.
    - intros j Hj. split; [exact (place_le _ _ _ _ (B j Hj))|]. intros d. rewrite <- HS by (apply H01; exact Hj).
      apply (place_value V N (u j) (b j) (fun i => Q i d)); [exact CV|apply H01; exact Hj|apply B; exact Hj].
    - intros j Hj. apply (place_order V N (u j) (u (S j))); [apply (fc_mono _ _ _ CV)|left; apply Hinc; exact Hj|apply B; lia|apply B; lia].
  Qed.
End Refine.

(** ** What corner cutting preserves *)

(** signs *)
Lemma cuts_signs n P N Q : cuts n P N Q -> forall (F : (nat -> R) -> R) k (b : nat -> nat) (s : nat -> R),
  (forall a x y, F (fun d => a * x d + (1 - a) * y d) = a * F x + (1 - a) * F y) ->
  (forall j, (j <= k)%nat -> (b j <= N)%nat /\ 0 < s j * F (Q (b j))) -> (forall j, (j < k)%nat -> (b j <= b (S j))%nat) -> (forall j, (j < k)%nat -> s j * s (S j) < 0) ->
  exists i, (forall j, (j <= k)%nat -> (i j <= n)%nat /\ 0 < s j * F (P (i j))) /\ forall j, (j < k)%nat -> (i j < i (S j))%nat.
Proof.
  intros H F k b s HF. revert b. induction H as [|N Q a H IH Ha Ha0 Ha1]; intros b Hb Hle Hs.
  - exists b. split; [exact Hb|]. intros j Hj. specialize (Hle j Hj).
    destruct (Nat.eq_dec (b j) (b (S j))) as [E|E]; [|lia]. exfalso.
    assert (A := proj2 (Hb j ltac:(lia))). assert (B := proj2 (Hb (S j) ltac:(lia))). rewrite <- E in B. assert (T := Hs j Hj).
    set (x := F (P (b j))) in *. assert (0 < (s j * s (S j)) * (x * x)) by (replace ((s j * s (S j)) * (x * x)) with ((s j * x) * (s (S j) * x)) by ring; apply Rmult_lt_0_compat; assumption).
    assert (0 <= x * x) by nra. nra.
  - assert (D : forall j, (j <= k)%nat -> exists c, (c <= N)%nat /\ (b j - 1 <= c <= b j)%nat /\ 0 < s j * F (Q c)).
    { intros j Hj. destruct (Hb j Hj) as [B1 B2]. cbv beta in B2. rewrite HF in B2.
      assert (A01 := Ha (b j)). set (x := F (Q (b j))) in *. set (y := F (Q (b j - 1)%nat)) in *.
      assert (Dec : (b j <= N)%nat /\ 0 < s j * x \/ (b j - 1 <= N)%nat /\ 0 < s j * y).
      { destruct (Nat.eq_dec (b j) (S N)) as [E|E].
        - right. split; [lia|]. rewrite E, Ha1 in B2. replace (s j * (0 * x + (1 - 0) * y)) with (s j * y) in B2 by ring. exact B2.
        - destruct (Rlt_le_dec 0 (s j * x)) as [L|L]; [left; split; [lia|exact L]|].
          right. split; [lia|]. destruct (Rlt_le_dec 0 (s j * y)) as [L'|L']; [exact L'|]. exfalso.
          replace (s j * (a (b j) * x + (1 - a (b j)) * y)) with (a (b j) * (s j * x) + (1 - a (b j)) * (s j * y)) in B2 by ring. nra. }
      destruct Dec as [[D1 D2]|[D1 D2]]; [exists (b j)|exists (b j - 1)%nat]; (split; [exact D1|]; split; [lia|exact D2]). }
    assert (Ch : exists c, forall j, (j <= k)%nat -> (c j <= N)%nat /\ (b j - 1 <= c j <= b j)%nat /\ 0 < s j * F (Q (c j))).
    { clear - D. induction k as [|k IHk].
      - destruct (D 0%nat ltac:(lia)) as [c Hc]. exists (fun _ => c). intros j Hj. replace j with 0%nat by lia. exact Hc.
      - destruct IHk as [c Hc]; [intros j Hj; apply D; lia|]. destruct (D (S k) ltac:(lia)) as [e He].
        exists (fun j => if (j =? S k)%nat then e else c j). intros j Hj. destruct (Nat.eqb_spec j (S k)) as [->|E]; [exact He|apply Hc; lia]. }
    destruct Ch as [c Hc]. apply (IH c); [|intros j Hj|exact Hs].
    + intros j Hj. destruct (Hc j Hj) as [H1 [_ H3]]. auto.
    + destruct (Hc j ltac:(lia)) as [_ [A1 A2]]. destruct (Hc (S j) ltac:(lia)) as [_ [B1 B2]]. specialize (Hle j Hj).
      destruct (Nat.eq_dec (b j) (b (S j))) as [E|E]; [|lia]. exfalso.
      assert (X1 := proj2 (Hb j ltac:(lia))). assert (X2 := proj2 (Hb (S j) ltac:(lia))). rewrite <- E in X2. assert (T := Hs j Hj). cbv beta in X1, X2.
      match type of X1 with 0 < _ * ?z => set (x := z) in * end.
      assert (0 < (s j * s (S j)) * (x * x)) by (replace ((s j * s (S j)) * (x * x)) with ((s j * x) * (s (S j) * x)) by ring; apply Rmult_lt_0_compat; assumption).
      assert (0 <= x * x) by nra. nra.
Qed.

(** monotonicity *)
Lemma cuts_monotone n P N Q : cuts n P N Q -> forall F : (nat -> R) -> R,
  (forall a x y, F (fun d => a * x d + (1 - a) * y d) = a * F x + (1 - a) * F y) ->
  (forall i, (i < n)%nat -> F (P i) <= F (P (S i))) -> forall i, (i < N)%nat -> F (Q i) <= F (Q (S i)).
Proof.
  intros H F HF HP. induction H as [|N Q a H IH Ha Ha0 Ha1]; [exact HP|]. intros i Hi. cbv beta. rewrite !HF.
  replace (S i - 1)%nat with i by lia. assert (A1 := Ha i). assert (A2 := Ha (S i)).
  assert (E1 : a i * F (Q i) + (1 - a i) * F (Q (i - 1)%nat) <= F (Q i)).
  { destruct i as [|i]; [rewrite Ha0; cbn [Nat.sub]; lra|]. replace (S i - 1)%nat with i by lia. assert (T := IH i ltac:(lia)). nra. }
  assert (E2 : F (Q i) <= a (S i) * F (Q (S i)) + (1 - a (S i)) * F (Q i)).
  { destruct (Nat.eq_dec i N) as [->|E]; [rewrite Ha1; lra|]. assert (T := IH i ltac:(lia)). nra. }
  lra.
Qed.

(** ** Euclidean length *)
Definition norm (dim : nat) (x : nat -> R) : R := sqrt (rsum (fun d => x d ^ 2) dim).

Lemma sumsq_nonneg x dim : 0 <= rsum (fun d => x d ^ 2) dim.
Proof. apply rsum_nonneg. intros. apply pow2_ge_0. Qed.

Lemma cauchy x y dim : rsum (fun d => x d * y d) dim ^ 2 <= rsum (fun d => x d ^ 2) dim * rsum (fun d => y d ^ 2) dim.
Proof.
  set (a := rsum (fun d => x d ^ 2) dim). set (b := rsum (fun d => x d * y d) dim). set (c := rsum (fun d => y d ^ 2) dim).
  assert (Q : forall s, 0 <= a * s ^ 2 - 2 * b * s + c).
  { intros s. assert (T := sumsq_nonneg (fun d => s * x d - y d) dim).
    replace (a * s ^ 2 - 2 * b * s + c) with (rsum (fun d => (s * x d - y d) ^ 2) dim); [exact T|].
    unfold a, b, c. clear. induction dim as [|m IH]; cbn [rsum]; [ring|]. rewrite IH. ring. }
  assert (Ha : 0 <= a) by apply sumsq_nonneg. destruct (Req_dec a 0) as [E|E].
  - rewrite E in *. destruct (Req_dec b 0) as [B|B]; [rewrite B; lra|]. exfalso.
    assert (T := Q ((c + 1) / (2 * b))). replace (2 * b * ((c + 1) / (2 * b))) with (c + 1) in T by (field; exact B). lra.
  - assert (T := Q (b / a)). replace (a * (b / a) ^ 2 - 2 * b * (b / a) + c) with ((a * c - b ^ 2) / a) in T by (field; exact E).
    assert (0 < a) by lra. apply (Rmult_le_compat_r a) in T; [|lra]. unfold Rdiv in T. rewrite Rmult_assoc, Rinv_l in T by exact E. lra.
Qed.

Lemma norm_nonneg dim x : 0 <= norm dim x.
Proof. apply sqrt_pos. Qed.

Lemma norm_sq dim x : norm dim x ^ 2 = rsum (fun d => x d ^ 2) dim.
Proof. unfold norm. replace (sqrt (rsum (fun d => x d ^ 2) dim) ^ 2) with (sqrt (rsum (fun d => x d ^ 2) dim) * sqrt (rsum (fun d => x d ^ 2) dim)) by ring. apply sqrt_sqrt. apply sumsq_nonneg. Qed.

Lemma norm_ext dim x y : (forall d, (d < dim)%nat -> x d = y d) -> norm dim x = norm dim y.
Proof. intros H. unfold norm. f_equal. apply rsum_ext. intros d Hd. rewrite H by exact Hd. reflexivity. Qed.

Lemma norm_scal dim a x : 0 <= a -> norm dim (fun d => a * x d) = a * norm dim x.
Proof.
  intros Ha. apply Rsqr_inj; [apply norm_nonneg|apply Rmult_le_pos; [exact Ha|apply norm_nonneg]|].
  unfold Rsqr. replace (norm dim (fun d => a * x d) * norm dim (fun d => a * x d)) with (norm dim (fun d => a * x d) ^ 2) by ring.
  replace (a * norm dim x * (a * norm dim x)) with (a ^ 2 * norm dim x ^ 2) by ring. rewrite !norm_sq. rewrite <- rsum_scal. apply rsum_ext. intros; ring.
Qed.

Lemma norm_add dim x y : norm dim (fun d => x d + y d) <= norm dim x + norm dim y.
Proof.
  assert (X := norm_nonneg dim x). assert (Y := norm_nonneg dim y). assert (Z := norm_nonneg dim (fun d => x d + y d)).
  assert (E : norm dim (fun d => x d + y d) ^ 2 = norm dim x ^ 2 + 2 * rsum (fun d => x d * y d) dim + norm dim y ^ 2).
  { rewrite !norm_sq. clear. induction dim as [|m IH]; cbn [rsum]; [ring|]. rewrite IH. ring. }
  assert (T := cauchy x y dim). rewrite <- !norm_sq in T. set (b := rsum (fun d => x d * y d) dim) in *.
  assert (B : b <= norm dim x * norm dim y).
  { destruct (Rle_lt_dec b 0); [nra|]. apply Rnot_lt_le. intros N. assert (0 <= norm dim x * norm dim y) by nra. nra. }
  apply Rnot_lt_le. intros N. nra.
Qed.

Lemma norm_0 dim : norm dim (fun _ => 0) = 0.
Proof. replace (norm dim (fun _ => 0)) with (norm dim (fun d => 0 * 0)) by (apply norm_ext; intros; ring). rewrite (norm_scal dim 0 (fun _ => 0)) by lra. ring. Qed.

Lemma cuts_length dim n P N Q : cuts n P N Q ->
  rsum (fun i => norm dim (fun d => Q (S i) d - Q i d)) N <= rsum (fun i => norm dim (fun d => P (S i) d - P i d)) n.
Proof.
  intros H. induction H as [|N Q a H IH Ha Ha0 Ha1]; [lra|].
  apply (Rle_trans _ (rsum (fun i => norm dim (fun d => Q (S i) d - Q i d)) N)); [|exact IH]. clear IH H.
  set (L := fun i => norm dim (fun d => Q (S i) d - Q i d)).
  apply (Rle_trans _ (rsum (fun i => a (S i) * L i + (1 - a i) * L (i - 1)%nat) (S N))).
  - apply rsum_le. intros i Hi. cbv beta. replace (S i - 1)%nat with i by lia. assert (A1 := Ha i). assert (A2 := Ha (S i)).
    unfold L. rewrite <- !norm_scal by lra. eapply Rle_trans; [|apply norm_add]. right. apply norm_ext. intros d _.
    destruct i as [|i]; [rewrite Ha0; ring|]. replace (S (S i - 1)) with (S i) by lia. replace (S i - 1)%nat with i by lia. ring.
  - rewrite rsum_plus, (rsum_first (fun i => (1 - a i) * L (i - 1)%nat) N), Ha0.
    rewrite (rsum_ext (fun i => (1 - a (S i)) * L (S i - 1)%nat) (fun i => L i - a (S i) * L i)) by (intros i _; replace (S i - 1)%nat with i by lia; ring).
    rewrite rsum_minus. right. cbn [rsum]. rewrite Ha1. ring.
Qed.

Lemma sub_length dim (Q : nat -> nat -> R) a : forall b, (a <= b)%nat ->
  norm dim (fun d => Q b d - Q a d) + rsum (fun i => norm dim (fun d => Q (S i) d - Q i d)) a <= rsum (fun i => norm dim (fun d => Q (S i) d - Q i d)) b.
Proof.
  induction b as [|b IH]; intros H.
  - replace a with 0%nat by lia. cbn [rsum]. rewrite (norm_ext dim _ (fun _ => 0)) by (intros; ring). rewrite norm_0. lra.
  - destruct (Nat.eq_dec a (S b)) as [->|E].
    + rewrite (norm_ext dim _ (fun _ => 0)) by (intros; ring). rewrite norm_0. lra.
    + specialize (IH ltac:(lia)). cbn [rsum].
      assert (T := norm_add dim (fun d => Q (S b) d - Q b d) (fun d => Q b d - Q a d)). cbv beta in T.
      rewrite (norm_ext dim (fun d => Q (S b) d - Q b d + (Q b d - Q a d)) (fun d => Q (S b) d - Q a d)) in T by (intros; ring). lra.
Qed.

Lemma points_length dim (Q : nat -> nat -> R) N (b : nat -> nat) m : (forall j, (j <= m)%nat -> (b j <= N)%nat) -> (forall j, (j < m)%nat -> (b j <= b (S j))%nat) ->
  rsum (fun j => norm dim (fun d => Q (b (S j)) d - Q (b j) d)) m <= rsum (fun i => norm dim (fun d => Q (S i) d - Q i d)) N.
Proof.
  intros HN Hle. set (L := fun i => norm dim (fun d => Q (S i) d - Q i d)).
  assert (Mono : forall a c, (a <= c)%nat -> rsum L a <= rsum L c).
  { intros a c H. induction H as [|c H IH]; [lra|]. cbn [rsum]. assert (0 <= L c) by apply norm_nonneg. lra. }
  apply (Rle_trans _ (rsum L (b m))); [|apply Mono; apply HN; lia].
  clear HN. induction m as [|m IH]; cbn [rsum].
  - apply rsum_nonneg. intros. apply norm_nonneg.
  - specialize (IH ltac:(intros; apply Hle; lia)). assert (T := sub_length dim Q (b m) (b (S m)) ltac:(apply Hle; lia)). fold L in T. lra.
Qed.
