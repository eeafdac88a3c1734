(** * Knot insertion and the polygons of the derivatives; distance of curve and polygon *)

From Coq Require Import ZArith Reals List Bool Arith Lia Lra Permutation.
From Verif Require Import Num Vec MKnots MPoints MCurve RNum Hoare Lists Struct Spec BMath BMath2 BMath3 BMath4 BMath5 Api ApiS Bridge Facts1 Facts4 Facts5 Facts6 Facts7 Facts8 Fit7 Shape1 Shape2 Shape3 Insert2 Samples.
Import ListNotations.
Local Open Scope R_scope.

(** ** one insertion cuts the corners of all derivative polygons *)
Definition cut (f : nat -> R) (p l : nat) (u : R) (k i : nat) : R :=
  if (i + p <=? l)%nat then 1 else if (l <? i + k)%nat then 0 else (u - f (i + k)%nat) / (f (i + p)%nat - f (i + k)%nat).

Section Cut.
  Variables (f : nat -> R) (p l K N : nat) (u : R) (q q' : nat -> R).
  Hypothesis M : mono f.
  Hypothesis Hl : (p <= l)%nat.
  Hypothesis HK : (K <= p)%nat.
  Hypothesis U1 : f l <= u.
  Hypothesis U2 : u <= f (S l).
  Hypothesis MU : mult_le f u (p - K).
  Hypothesis Q0 : forall i, (i <= N)%nat -> q' i = cut f p l u 0 i * q i + (1 - cut f p l u 0 i) * q (i - 1)%nat.
  Let f' := ins_knots f l u.

  Lemma gap i j : (i <= l < j)%nat -> (p - K <= j - i)%nat -> f i < f j.
  Proof.
    intros A B. assert (T1 := M i l ltac:(lia)). assert (T2 := M (S l) j ltac:(lia)). destruct (Req_dec (f i) (f j)) as [E|E]; [|lra].
    exfalso. assert (C := MU i j ltac:(lra) ltac:(lra)). lia.
  Qed.
  Lemma gap_left i : (i + (p - K) <= l)%nat -> f i < u.
  Proof.
    intros A. assert (T1 := M i l ltac:(lia)). destruct (Req_dec (f i) u) as [E|E]; [|lra].
    exfalso. assert (T2 := M i (i + (p - K))%nat ltac:(lia)). assert (T3 := M (i + (p - K))%nat l ltac:(lia)). assert (C := MU i (i + (p - K))%nat ltac:(lra) ltac:(lra)). lia.
  Qed.
  Lemma gap_right j : (l + 1 + (p - K) <= j)%nat -> u < f j.
  Proof.
    intros A. assert (T1 := M (S l) j ltac:(lia)). destruct (Req_dec (f j) u) as [E|E]; [|lra].
    exfalso. assert (C := MU (S l) j ltac:(assert (T2 := M (S l) j ltac:(lia)); lra) ltac:(lra)). lia.
  Qed.

  Lemma cut_01 k i : (k <= K)%nat -> 0 <= cut f p l u k i <= 1.
  Proof.
    intros Hk. unfold cut. destruct (Nat.leb_spec (i + p) l); [lra|]. destruct (Nat.ltb_spec l (i + k)); [lra|].
    assert (G := gap (i + k) (i + p) ltac:(lia) ltac:(lia)). assert (T1 := M (i + k)%nat l ltac:(lia)). assert (T2 := M (S l) (i + p)%nat ltac:(lia)).
    split.
    - apply Rmult_le_pos; [lra|]. left. apply Rinv_0_lt_compat. lra.
    - apply Rmult_le_reg_r with (f (i + p)%nat - f (i + k)%nat); [lra|]. unfold Rdiv. rewrite Rmult_assoc, Rinv_l by lra. lra.
  Qed.

  Lemma dpoints_cut k : (k <= K)%nat -> forall i, (i + k <= N)%nat ->
    dpoints f' p q' k i = cut f p l u k i * dpoints f p q k i + (1 - cut f p l u k i) * dpoints f p q k (i - 1).
  Proof.
    induction k as [|k IH]; intros Hk i Hi; [apply Q0; lia|]. cbn [dpoints]. rewrite !IH by lia. replace (S i - 1)%nat with i by lia.
    set (D := dpoints f p q k) in *. unfold f', ins_knots.
    destruct (Nat.le_gt_cases (i + p + 1) l) as [C1|C1].
    { (* left of everything *)
      unfold cut. replace (S i + p <=? l)%nat with true by (symmetry; apply Nat.leb_le; lia). replace (i + p <=? l)%nat with true by (symmetry; apply Nat.leb_le; lia).
      replace (i + p + 1 <=? l)%nat with true by (symmetry; apply Nat.leb_le; lia). replace (i + S k <=? l)%nat with true by (symmetry; apply Nat.leb_le; lia).
      unfold ratio. destruct Req_EM_T; [ring|field; assumption]. }
    destruct (Nat.le_gt_cases (i + p) l) as [C2|C2].
    { assert (E : (l = i + p)%nat) by lia. assert (G := gap_left (i + S k)%nat ltac:(lia)). assert (G2 := gap (i + S k) (i + p + 1) ltac:(lia) ltac:(lia)).
      unfold cut. replace (S i + p <=? l)%nat with false by (symmetry; apply Nat.leb_gt; lia). replace (l <? S i + k)%nat with false by (symmetry; apply Nat.ltb_ge; lia).
      replace (i + p <=? l)%nat with true by (symmetry; apply Nat.leb_le; lia).
      replace (i + p + 1 <=? l)%nat with false by (symmetry; apply Nat.leb_gt; lia). replace (i + p + 1 =? l + 1)%nat with true by (symmetry; apply Nat.eqb_eq; lia).
      replace (i + S k <=? l)%nat with true by (symmetry; apply Nat.leb_le; lia).
      replace (S i + k)%nat with (i + S k)%nat by lia. replace (S i + p)%nat with (i + p + 1)%nat by lia.
      unfold ratio. destruct Req_EM_T; [lra|]. destruct Req_EM_T; [lra|]. field. lra. }
    destruct (Nat.le_gt_cases (i + S k) l) as [C3|C3].
    { assert (G := gap (i + S k) (i + p) ltac:(lia) ltac:(lia)). assert (G2 := gap (i + S k) (i + p + 1) ltac:(lia) ltac:(lia)). assert (G3 := gap (i + k) (i + p) ltac:(lia) ltac:(lia)).
      unfold cut. replace (S i + p <=? l)%nat with false by (symmetry; apply Nat.leb_gt; lia). replace (l <? S i + k)%nat with false by (symmetry; apply Nat.ltb_ge; lia).
      replace (i + p <=? l)%nat with false by (symmetry; apply Nat.leb_gt; lia). replace (l <? i + k)%nat with false by (symmetry; apply Nat.ltb_ge; lia). replace (l <? i + S k)%nat with false by (symmetry; apply Nat.ltb_ge; lia).
      replace (i + p + 1 <=? l)%nat with false by (symmetry; apply Nat.leb_gt; lia). replace (i + p + 1 =? l + 1)%nat with false by (symmetry; apply Nat.eqb_neq; lia).
      replace (i + S k <=? l)%nat with true by (symmetry; apply Nat.leb_le; lia).
      replace (S i + k)%nat with (i + S k)%nat by lia. replace (S i + p)%nat with (i + p + 1)%nat by lia. replace (i + p + 1 - 1)%nat with (i + p)%nat by lia.
      replace (i - 1 + p + 1)%nat with (i + p)%nat by lia. replace (i - 1 + S k)%nat with (i + k)%nat by lia. replace (S (i - 1)) with i by lia.
      unfold ratio. destruct Req_EM_T; [lra|]. destruct Req_EM_T; [lra|]. destruct Req_EM_T; [lra|]. field. lra. }
    destruct (Nat.le_gt_cases (i + k) l) as [C4|C4].
    { assert (E : (l = i + k)%nat) by lia. assert (G := gap_right (i + p)%nat ltac:(lia)). assert (G3 := gap (i + k) (i + p) ltac:(lia) ltac:(lia)).
      unfold cut. replace (S i + p <=? l)%nat with false by (symmetry; apply Nat.leb_gt; lia). replace (l <? S i + k)%nat with true by (symmetry; apply Nat.ltb_lt; lia).
      replace (i + p <=? l)%nat with false by (symmetry; apply Nat.leb_gt; lia). replace (l <? i + k)%nat with false by (symmetry; apply Nat.ltb_ge; lia). replace (l <? i + S k)%nat with true by (symmetry; apply Nat.ltb_lt; lia).
      replace (i + p + 1 <=? l)%nat with false by (symmetry; apply Nat.leb_gt; lia). replace (i + p + 1 =? l + 1)%nat with false by (symmetry; apply Nat.eqb_neq; lia).
      replace (i + S k <=? l)%nat with false by (symmetry; apply Nat.leb_gt; lia). replace (i + S k =? l + 1)%nat with true by (symmetry; apply Nat.eqb_eq; lia).
      replace (i + p + 1 - 1)%nat with (i + p)%nat by lia.
      replace (i - 1 + p + 1)%nat with (i + p)%nat by lia. replace (i - 1 + S k)%nat with (i + k)%nat by lia. replace (S (i - 1)) with i by lia.
      unfold ratio at 1 3. destruct Req_EM_T; [lra|]. destruct Req_EM_T; [lra|]. field. lra. }
    unfold cut. replace (S i + p <=? l)%nat with false by (symmetry; apply Nat.leb_gt; lia). replace (l <? S i + k)%nat with true by (symmetry; apply Nat.ltb_lt; lia).
    replace (i + p <=? l)%nat with false by (symmetry; apply Nat.leb_gt; lia). replace (l <? i + k)%nat with true by (symmetry; apply Nat.ltb_lt; lia). replace (l <? i + S k)%nat with true by (symmetry; apply Nat.ltb_lt; lia).
    replace (i + p + 1 <=? l)%nat with false by (symmetry; apply Nat.leb_gt; lia). replace (i + p + 1 =? l + 1)%nat with false by (symmetry; apply Nat.eqb_neq; lia).
    replace (i + S k <=? l)%nat with false by (symmetry; apply Nat.leb_gt; lia). replace (i + S k =? l + 1)%nat with false by (symmetry; apply Nat.eqb_neq; lia).
    replace (i + p + 1 - 1)%nat with (i + p)%nat by lia. replace (i + S k - 1)%nat with (i + k)%nat by lia.
    replace (i - 1 + p + 1)%nat with (i + p)%nat by lia. replace (i - 1 + S k)%nat with (i + k)%nat by lia. replace (S (i - 1)) with i by lia.
    unfold ratio. destruct (Req_EM_T (f (i + p)%nat - f (i + k)%nat) 0); [ring|field; assumption].
  Qed.
End Cut.

Lemma deriv_matrix p n dim U P c k : clamped_curve p n dim U P c -> (k <= p)%nat ->
  exists D, @matrix_derivative RNum (cpoints c) k = Val D /\ shape dim (S n - k) D /\
    forall i d, (i + k <= n)%nat -> (d < dim)%nat -> ent D i d = dpoints (kfun U) p (fun j => ent P j d) k i.
Proof.
  intros H Hk. destruct (cc_wf _ _ _ _ _ _ H) as [W E]. exists (nth k (Pk (cpoints c)) (mzeros 0 0)).
  split; [|split; [apply (wf_pts _ _ _ _ _ _ W k Hk)|intros i d Hi Hd; apply E; assumption]].
  unfold matrix_derivative. rewrite (wf_max _ _ _ _ _ _ W). replace (k <=? p)%nat with true by (symmetry; apply Nat.leb_le; exact Hk). cbn [assert bind].
  apply vget_nth. rewrite (wf_Pk _ _ _ _ _ _ W). lia.
Qed.

Lemma dpoints_knots (f g : nat -> R) p q : (forall j, f j = g j) -> forall k i, dpoints f p q k i = dpoints g p q k i.
Proof. intros H. induction k as [|k IH]; intros i; [reflexivity|]. cbn [dpoints]. rewrite !IH, !H. reflexivity. Qed.

Lemma insert_cuts_all p n dim U P c u k : clamped_curve p n dim U P c -> 0 < u < 1 -> (k <= p)%nat -> (mult U u <= p - k)%nat -> simple_below U u ->
  exists c' U' P' a, @curve_insert RNum c u = Val (c', Ok tt) /\ clamped_curve p (S n) dim U' P' c' /\
    (forall i, 0 <= a i <= 1) /\ a 0%nat = 1 /\ a (S n - k)%nat = 0 /\
    forall i d, (i + k <= S n)%nat -> (d < dim)%nat ->
      dpoints (kfun U') p (fun j => ent P' j d) k i = a i * dpoints (kfun U) p (fun j => ent P j d) k i + (1 - a i) * dpoints (kfun U) p (fun j => ent P j d) k (i - 1).
Proof.
  intros H Hu Hk Hm Hs. assert (C : clamped p n U) by apply H. assert (E := cl_len _ _ _ C). assert (PN := cl_deg _ _ _ C). assert (F := kfun_clamped p n U C).
  destruct (insert_cuts p n dim U P c u H Hu ltac:(lia) Hs) as [c' [U' [P' [l [a [EI [H' [Hl [Hlu [EU [A01 [A1 [A0 [AM [EP _]]]]]]]]]]]]]]].
  exists c', U', P', (cut (kfun U) p l u k). split; [exact EI|]. split; [exact H'|].
  assert (ML := mult_mult_le p n U u (p - k) C Hu Hm).
  assert (L1 : kfun U l <= u) by (rewrite kfun_nth by lia; lra). assert (L2 : u <= kfun U (S l)) by (rewrite kfun_nth by lia; lra).
  split; [intros i; eapply cut_01 with (K := k); first [exact (fc_mono _ _ _ F)|exact L1|exact L2|exact ML|lia]|].
  split; [unfold cut; replace (0 + p <=? l)%nat with true by (symmetry; apply Nat.leb_le; lia); reflexivity|].
  split.
  { unfold cut. replace (S n - k + p <=? l)%nat with false by (symmetry; apply Nat.leb_gt; lia). replace (l <? S n - k + k)%nat with true by (symmetry; apply Nat.ltb_lt; lia). reflexivity. }
  intros i d Hi Hd. assert (EK : forall j, kfun U' j = ins_knots (kfun U) l u j) by (intros j; rewrite EU; apply kfun_insU; lia).
  rewrite (dpoints_knots (kfun U') (ins_knots (kfun U) l u) p (fun j => ent P' j d) EK).
  eapply dpoints_cut with (K := k) (N := S n); first [exact (fc_mono _ _ _ F)|exact L1|exact L2|exact ML|lia|idtac].
  intros j Hj. rewrite (EP j d Hj Hd). assert (EC : cut (kfun U) p l u 0 j = a j); [|rewrite EC; reflexivity].
  unfold cut. destruct (Nat.leb_spec (j + p) l) as [T|T]; [symmetry; apply A1; exact T|]. rewrite !Nat.add_0_r. destruct (Nat.ltb_spec l j) as [T2|T2]; [symmetry; apply A0; exact T2|].
  rewrite !kfun_nth by lia. symmetry. apply AM; lia.
Qed.

(** in terms of the matrices of derivative points *)
Theorem insert_derivative_polygons p n dim U P c u k : clamped_curve p n dim U P c -> 0 < u < 1 -> (k <= p)%nat -> (mult U u <= p - k)%nat -> simple_below U u ->
  exists c' D D' a, @curve_insert RNum c u = Val (c', Ok tt) /\
    @matrix_derivative RNum (cpoints c) k = Val D /\ shape dim (S n - k) D /\ @matrix_derivative RNum (cpoints c') k = Val D' /\ shape dim (S (S n) - k) D' /\
    (forall i, 0 <= a i <= 1) /\ a 0%nat = 1 /\ a (S n - k)%nat = 0 /\
    forall i d, (i <= S n - k)%nat -> (d < dim)%nat -> ent D' i d = a i * ent D i d + (1 - a i) * ent D (i - 1) d.
Proof.
  intros H Hu Hk Hm Hs. destruct (insert_cuts_all p n dim U P c u k H Hu Hk Hm Hs) as (c' & U' & P' & a & EI & H' & A & A0 & A1 & E).
  destruct (deriv_matrix p n dim U P c k H Hk) as (D & D1 & D2 & D3). destruct (deriv_matrix p (S n) dim U' P' c' k H' Hk) as (D' & E1 & E2 & E3).
  exists c', D, D', a. split; [exact EI|]. split; [exact D1|]. split; [exact D2|]. split; [exact E1|]. split; [exact E2|]. split; [exact A|]. split; [exact A0|]. split; [exact A1|].
  assert (PN := cl_deg _ _ _ (proj1 H)).
  intros i d Hi Hd. rewrite E3 by (try exact Hd; lia). rewrite E by (try exact Hd; lia). f_equal.
  - destruct (Nat.eq_dec i (S n - k)) as [->|Ne]; [rewrite A1; ring|]. rewrite D3 by (try exact Hd; lia). reflexivity.
  - destruct (Nat.eq_dec i 0) as [->|Ne]; [rewrite A0; ring|]. rewrite D3 by (try exact Hd; lia). reflexivity.
Qed.

Theorem insert_halfspace p n dim U P c u k : clamped_curve p n dim U P c -> 0 < u < 1 -> (k <= p)%nat -> (mult U u <= p - k)%nat -> simple_below U u ->
  exists c' D D', @curve_insert RNum c u = Val (c', Ok tt) /\
    @matrix_derivative RNum (cpoints c) k = Val D /\ @matrix_derivative RNum (cpoints c') k = Val D' /\
    forall (w : nat -> R) b, (forall i, (i <= n - k)%nat -> b <= rsum (fun d => w d * ent D i d) dim) ->
    forall i, (i <= S n - k)%nat -> b <= rsum (fun d => w d * ent D' i d) dim.
Proof.
  intros H Hu Hk Hm Hs. destruct (insert_derivative_polygons p n dim U P c u k H Hu Hk Hm Hs) as (c' & D & D' & a & EI & D1 & D2 & E1 & E2 & A & A0 & A1 & E).
  exists c', D, D'. split; [exact EI|]. split; [exact D1|]. split; [exact E1|]. intros w b HB i Hi. assert (PN := cl_deg _ _ _ (proj1 H)).
  rewrite (rsum_ext _ (fun d => a i * (w d * ent D i d) + (1 - a i) * (w d * ent D (i - 1)%nat d))) by (intros d Hd; rewrite E by (try exact Hd; lia); ring).
  rewrite rsum_plus, !rsum_scal. assert (Ai := A i). destruct (Nat.eq_dec i (S n - k)) as [->|Ne].
  - rewrite A1. assert (T := HB (S n - k - 1)%nat ltac:(lia)). lra.
  - assert (T := HB i ltac:(lia)). assert (T2 := HB (i - 1)%nat ltac:(lia)). nra.
Qed.

(** ** a curve is close to its control polygon *)
Lemma rsum_cst c p : rsum (fun _ => c) p = INR p * c.
Proof. induction p as [|p IH]; [cbn; lra|]. cbn [rsum]. rewrite IH, S_INR. ring. Qed.

Section Polygon.
  Variables (p n : nat) (f : nat -> R).
  Hypothesis F : fclamped p n f.
  Hypothesis Hp : (2 <= p)%nat.
  Hypothesis MU : forall x, 0 < x < 1 -> mult_le f x (p - 1).
  Definition xi (i : nat) : R := rsum (fun k => f (i + 1 + k)%nat) p / INR p.

  Lemma P0 : 0 < INR p. Proof. apply lt_0_INR. lia. Qed.
  Lemma P1 : 0 < INR (p - 1). Proof. apply lt_0_INR. lia. Qed.

  Lemma xi_step i : xi (S i) - xi i = (f (i + p + 1)%nat - f (i + 1)%nat) / INR p.
  Proof.
    unfold xi. assert (T := P0). destruct p as [|q]; [lia|]. rewrite (rsum_first (fun k => f (i + 1 + k)%nat) q). cbn [rsum]. rewrite Nat.add_0_r.
    replace (S i + 1 + q)%nat with (i + S q + 1)%nat by lia.
    rewrite (rsum_ext (fun k => f (S i + 1 + k)%nat) (fun k => f (i + 1 + S k)%nat)) by (intros; f_equal; lia). field. lra.
  Qed.

  Lemma level1 i : (i < n)%nat -> f (i + 1)%nat < f (i + p + 1)%nat.
  Proof.
    intros Hi. assert (T := fc_mono _ _ _ F (i + 1)%nat (i + p + 1)%nat ltac:(lia)). destruct (Req_dec (f (i + 1)%nat) (f (i + p + 1)%nat)) as [E|E]; [exfalso|lra].
    destruct (Nat.le_gt_cases (i + 1) p) as [A|A]; [assert (B := fc_zero _ _ _ F (i + 1)%nat A); destruct (Nat.le_gt_cases (i + p + 1) n) as [G|G]|].
    - assert (Q := fc_inner _ _ _ F (i + p + 1)%nat ltac:(lia)). lra.
    - assert (Q := fc_one _ _ _ F (i + p + 1)%nat ltac:(lia)). lra.
    - assert (Q := fc_inner _ _ _ F (i + 1)%nat ltac:(lia)). assert (Z := MU _ Q (i + 1)%nat (i + p + 1)%nat eq_refl ltac:(lra)). lia.
  Qed.
  Lemma level2 i : (i + 1 < n)%nat -> f (i + 2)%nat < f (i + p + 1)%nat.
  Proof.
    intros Hi. assert (T := fc_mono _ _ _ F (i + 2)%nat (i + p + 1)%nat ltac:(lia)). destruct (Req_dec (f (i + 2)%nat) (f (i + p + 1)%nat)) as [E|E]; [exfalso|lra].
    destruct (Nat.le_gt_cases (i + 2) p) as [A|A]; [assert (B := fc_zero _ _ _ F (i + 2)%nat A); destruct (Nat.le_gt_cases (i + p + 1) n) as [G|G]|].
    - assert (Q := fc_inner _ _ _ F (i + p + 1)%nat ltac:(lia)). lra.
    - assert (Q := fc_one _ _ _ F (i + p + 1)%nat ltac:(lia)). lra.
    - assert (Q := fc_inner _ _ _ F (i + 2)%nat ltac:(lia)). assert (Z := MU _ Q (i + 2)%nat (i + p + 1)%nat eq_refl ltac:(lra)). lia.
  Qed.

  Lemma xi_bounds i : f (i + 1)%nat <= xi i <= f (i + p)%nat.
  Proof.
    assert (T := P0). assert (G : INR p * f (i + 1)%nat <= rsum (fun k => f (i + 1 + k)%nat) p <= INR p * f (i + p)%nat).
    { split.
      - replace (INR p * f (i + 1)%nat) with (rsum (fun _ => f (i + 1)%nat) p) by apply rsum_cst. apply rsum_le. intros k Hk. apply (fc_mono _ _ _ F). lia.
      - replace (INR p * f (i + p)%nat) with (rsum (fun _ => f (i + p)%nat) p) by apply rsum_cst. apply rsum_le. intros k Hk. apply (fc_mono _ _ _ F). lia. }
    unfold xi. split; (apply Rmult_le_reg_r with (INR p); [exact T|]); unfold Rdiv; rewrite Rmult_assoc, Rinv_l by lra; lra.
  Qed.

  Lemma spline_linear a b u : 0 <= u <= 1 -> spline f n p (fun i => a + b * xi i) u = a + b * u.
  Proof.
    intros Hu. assert (T := P0). destruct (span_ex p n f F u Hu) as [j [J1 J2]]. rewrite (spline_piece p n f F _ u j ltac:(lia) J2). unfold pfun.
    rewrite (rsum_ext _ (fun i => a * cox (delta j) f p i u + b / INR p * (rsum (fun k => f (i + 1 + k)%nat) p * cox (delta j) f p i u))) by (intros i Hi; unfold xi; field; lra).
    rewrite rsum_plus, !rsum_scal. rewrite piece_sum, knot_sums; try lia.
    - field. lra.
    - apply (fc_mono _ _ _ F).
    - apply J2.
    - apply (fc_mono _ _ _ F).
    - apply J2.
  Qed.

  Variables (dim : nat) (q : nat -> nat -> R) (M h : R).
  Hypothesis HM : forall i, (i + 2 <= n)%nat -> norm dim (fun d => dpoints f p (q d) 2 i) <= M.
  Hypothesis Hh : forall i, (i < n)%nat -> f (i + p + 1)%nat - f (i + 1)%nat <= h.
  Let D1 d i := dpoints f p (q d) 1 i.

  Lemma D1_step d i : (i + 2 <= n)%nat -> D1 d (S i) - D1 d i = dpoints f p (q d) 2 i * ((f (i + p + 1)%nat - f (i + 2)%nat) / INR (p - 1)).
  Proof.
    intros Hi. assert (L := level2 i ltac:(lia)). assert (T := P1). unfold D1. cbn [dpoints]. set (A := ratio _ _). set (B := ratio _ _).
    unfold ratio. destruct Req_EM_T; [lra|]. field. lra.
  Qed.
  Lemma q_step d i : (i < n)%nat -> q d (S i) - q d i = D1 d i * (xi (S i) - xi i).
  Proof.
    intros Hi. assert (L := level1 i Hi). assert (T := P0). rewrite xi_step. unfold D1. cbn [dpoints]. rewrite Nat.sub_0_r. unfold ratio. destruct Req_EM_T; [lra|]. field. lra.
  Qed.

  Lemma M0 : (2 <= n)%nat -> 0 <= M.
  Proof. intros Hn. eapply Rle_trans; [apply norm_nonneg|apply (HM 0%nat ltac:(lia))]. Qed.
  Lemma h0 : 0 <= h.
  Proof. assert (L := level1 0%nat ltac:(pose proof (fc_deg _ _ _ F); lia)). assert (T := Hh 0%nat ltac:(pose proof (fc_deg _ _ _ F); lia)). lra. Qed.

  Lemma norm_sym x y : norm dim (fun d => x d - y d) = norm dim (fun d => y d - x d).
  Proof. unfold norm. f_equal. apply rsum_ext. intros; ring. Qed.

  Lemma D1_far s : forall i, (i + s + 1 <= n)%nat -> norm dim (fun d => D1 d (i + s)%nat - D1 d i) <= INR s * (h * M / INR (p - 1)).
  Proof.
    assert (T := P1). assert (H0 := h0). assert (M_0 : 0 <= M) by (apply M0; pose proof (fc_deg _ _ _ F); lia).
    induction s as [|s IH]; intros i Hi.
    - rewrite Nat.add_0_r. rewrite (norm_ext dim _ (fun _ => 0)) by (intros; ring). rewrite norm_0. cbn. lra.
    - rewrite (norm_ext dim _ (fun d => (D1 d (S (i + s)) - D1 d (i + s)%nat) + (D1 d (i + s)%nat - D1 d i))) by (intros d Hd; replace (i + S s)%nat with (S (i + s)) by lia; ring).
      eapply Rle_trans; [apply norm_add|]. rewrite S_INR, Rmult_plus_distr_r, Rmult_1_l, Rplus_comm. apply Rplus_le_compat; [apply IH; lia|].
      set (g := (f (i + s + p + 1)%nat - f (i + s + 2)%nat) / INR (p - 1)).
      assert (G : 0 <= g).
      { unfold g. assert (L := level2 (i + s) ltac:(lia)). apply Rmult_le_pos; [lra|]. left. apply Rinv_0_lt_compat. exact T. }
      rewrite (norm_ext dim _ (fun d => g * dpoints f p (q d) 2 (i + s))) by (intros d Hd; rewrite D1_step by lia; unfold g; ring).
      rewrite norm_scal by exact G. replace (h * M / INR (p - 1)) with (h / INR (p - 1) * M) by (field; lra).
      apply Rmult_le_compat; [exact G|apply norm_nonneg| |apply HM; lia]. unfold g. apply Rmult_le_compat_r; [left; apply Rinv_0_lt_compat; exact T|].
      assert (A := Hh (i + s)%nat ltac:(lia)). assert (B := fc_mono _ _ _ F (i + s + 1)%nat (i + s + 2)%nat ltac:(lia)). lra.
  Qed.

  (** distance of the points from the line through one leg *)
  Let line i d x := q d i + D1 d i * (x - xi i).
  Let k0 := h * M / INR (p - 1) * (h / INR p).

  Lemma step_bound i m : (i < n)%nat -> (m < n)%nat -> forall r, norm dim (fun d => D1 d m - D1 d i) <= INR r * (h * M / INR (p - 1)) ->
    norm dim (fun d => (D1 d m - D1 d i) * (xi (S m) - xi m)) <= INR r * k0.
  Proof.
    intros Hi Hm r Hr. assert (T := P0). assert (T1 := P1). assert (L := level1 m Hm). assert (G := Hh m Hm). assert (MM : 0 <= M) by (apply M0; pose proof (fc_deg _ _ _ F); lia). assert (HH := h0).
    assert (S0 : 0 <= xi (S m) - xi m <= h / INR p).
    { rewrite xi_step. split; [apply Rmult_le_pos; [lra|left; apply Rinv_0_lt_compat; exact T]|]. apply Rmult_le_compat_r; [left; apply Rinv_0_lt_compat; exact T|lra]. }
    rewrite (norm_ext dim _ (fun d => (xi (S m) - xi m) * (D1 d m - D1 d i))) by (intros; ring). rewrite norm_scal by apply S0.
    rewrite Rmult_comm. unfold k0. rewrite <- Rmult_assoc. apply Rmult_le_compat; [apply norm_nonneg|apply S0|exact Hr|apply S0].
  Qed.

  Lemma k0_nonneg : 0 <= k0.
  Proof.
    assert (T := P0). assert (T1 := P1). assert (MM : 0 <= M) by (apply M0; pose proof (fc_deg _ _ _ F); lia). assert (HH := h0). unfold k0.
    apply Rmult_le_pos; apply Rmult_le_pos; try (left; apply Rinv_0_lt_compat; assumption); [apply Rmult_le_pos; assumption|exact HH].
  Qed.

  Lemma right_of i : (i < n)%nat -> forall s, (i + s <= n)%nat -> norm dim (fun d => q d (i + s)%nat - line i d (xi (i + s))) <= INR s * (INR s - 1) / 2 * k0.
  Proof.
    intros Hi. induction s as [|s IH]; intros Hs.
    - rewrite Nat.add_0_r. rewrite (norm_ext dim _ (fun _ => 0)) by (intros; unfold line; ring). rewrite norm_0. cbn. lra.
    - rewrite (norm_ext dim _ (fun d => (D1 d (i + s)%nat - D1 d i) * (xi (S (i + s)) - xi (i + s)) + (q d (i + s)%nat - line i d (xi (i + s))))).
      2:{ intros d Hd. replace (i + S s)%nat with (S (i + s)) by lia. assert (E := q_step d (i + s) ltac:(lia)). unfold line in *. lra. }
      eapply Rle_trans; [apply norm_add|]. assert (A := step_bound i (i + s) Hi ltac:(lia) s (D1_far s i ltac:(lia))). assert (B := IH ltac:(lia)).
      rewrite S_INR. eapply Rle_trans; [apply Rplus_le_compat; [exact A|exact B]|]. right. field.
  Qed.

  Lemma left_of i : (i < n)%nat -> forall s, (s <= i)%nat -> norm dim (fun d => q d (i - s)%nat - line i d (xi (i - s))) <= INR s * (INR s + 1) / 2 * k0.
  Proof.
    intros Hi. induction s as [|s IH]; intros Hs.
    - rewrite Nat.sub_0_r. rewrite (norm_ext dim _ (fun _ => 0)) by (intros; unfold line; ring). rewrite norm_0. cbn. lra.
    - set (m := (i - S s)%nat). assert (E1 : (i - s)%nat = S m) by lia. rewrite E1 in IH.
      rewrite (norm_ext dim _ (fun d => (D1 d i - D1 d m) * (xi (S m) - xi m) + (q d (S m) - line i d (xi (S m))))).
      2:{ intros d Hd. assert (E := q_step d m ltac:(lia)). unfold line in *. lra. }
      eapply Rle_trans; [apply norm_add|]. assert (A := D1_far (S s) m ltac:(lia)). replace (m + S s)%nat with i in A by lia. rewrite norm_sym in A.
      assert (A2 := step_bound i m Hi ltac:(lia) (S s) A). assert (B := IH ltac:(lia)).
      rewrite (norm_ext dim _ (fun d => - ((D1 d m - D1 d i) * (xi (S m) - xi m)))) by (intros; ring).
      replace (norm dim (fun d => - ((D1 d m - D1 d i) * (xi (S m) - xi m)))) with (norm dim (fun d => (D1 d m - D1 d i) * (xi (S m) - xi m))) by (unfold norm; f_equal; apply rsum_ext; intros; ring).
      rewrite S_INR in *. eapply Rle_trans; [apply Rplus_le_compat; [exact A2|exact B]|]. right. field.
  Qed.

  Lemma close_to_leg i u : (i < n)%nat -> xi i <= u <= xi (S i) -> norm dim (fun d => spline f n p (q d) u - line i d u) <= M * h ^ 2 / 2.
  Proof.
    intros Hi Hu. assert (T := P0). assert (T1 := P1). assert (K0 := k0_nonneg). assert (PN := fc_deg _ _ _ F).
    assert (B1 := xi_bounds i). assert (B2 := xi_bounds (S i)).
    assert (U01 : 0 <= u <= 1).
    { assert (X := fc_mono _ _ _ F 0%nat (i + 1)%nat ltac:(lia)). assert (Y := fc_mono _ _ _ F (S i + p)%nat (n + p + 1)%nat ltac:(lia)).
      rewrite (fc_zero _ _ _ F 0%nat) in X by lia. rewrite (fc_one _ _ _ F (n + p + 1)%nat) in Y by lia. lra. }
    destruct (span_ex p n f F u U01) as [j [Hj SP]].
    assert (J1 : (i + 1 <= j)%nat).
    { destruct (Nat.le_gt_cases (i + 1) j) as [|G]; [assumption|]. exfalso. assert (X := fc_mono _ _ _ F (S j) (i + 1)%nat ltac:(lia)). unfold in_span in SP. destruct SP as [_ [_ [S1|S1]]]; [lra|lia]. }
    assert (J2 : (j <= i + p)%nat).
    { destruct (Nat.le_gt_cases j (i + p)) as [|G]; [assumption|]. exfalso. assert (X := fc_mono _ _ _ F (S i + p)%nat j ltac:(lia)). unfold in_span in SP. destruct SP as [S0 [S2 S1]].
      assert (EQ : xi (S i) = f (S i + p)%nat) by lra. assert (L := level2 i ltac:(lia)). replace (i + p + 1)%nat with (S i + p)%nat in L by lia. unfold xi in EQ.
      assert (Z : rsum (fun k => f (S i + 1 + k)%nat) p < INR p * f (S i + p)%nat).
      { destruct p as [|p']; [lia|]. rewrite rsum_first. rewrite S_INR, Rmult_plus_distr_r, Rmult_1_l, Rplus_comm. apply Rplus_le_lt_compat.
        - replace (INR p' * f (S i + S p')%nat) with (rsum (fun _ => f (S i + S p')%nat) p') by apply rsum_cst. apply rsum_le. intros k Hk. apply (fc_mono _ _ _ F). lia.
        - replace (S i + 1 + 0)%nat with (i + 2)%nat by lia. exact L. }
      apply (Rmult_eq_compat_r (INR p)) in EQ. unfold Rdiv in EQ. rewrite Rmult_assoc, Rinv_l in EQ by lra. lra. }
    destruct (weights p n f j u F Hj SP) as [w [W0 [W1 WE]]].
    rewrite (norm_ext dim _ (fun d => rsum (fun k => w k * (q d (j - p + k)%nat - line i d (xi (j - p + k)))) (S p))).
    2:{ intros d Hd. assert (L := spline_linear (q d i - D1 d i * xi i) (D1 d i) u U01). rewrite WE in L. rewrite WE.
        replace (line i d u) with (q d i - D1 d i * xi i + D1 d i * u) by (unfold line; ring). rewrite <- L.
        rewrite (rsum_ext (fun k => w k * (q d (j - p + k)%nat - line i d (xi (j - p + k)))) (fun k => w k * q d (j - p + k)%nat + - 1 * (w k * (q d i - D1 d i * xi i + D1 d i * xi (j - p + k))))) by (intros; unfold line; ring).
        rewrite rsum_plus, rsum_scal. ring. }
    eapply Rle_trans; [apply (norm_comb dim (S p) w (fun k d => q d (j - p + k)%nat - line i d (xi (j - p + k)))); intros; apply W0; lia|].
    apply comb_le; [intros; apply W0; lia|exact W1|]. intros k Hk. cbn beta.
    assert (KE : INR p * INR (p - 1) / 2 * k0 = M * h ^ 2 / 2) by (unfold k0; field; lra).
    rewrite <- KE. assert (PE : INR (p - 1) = INR p - 1) by (rewrite minus_INR by lia; reflexivity).
    destruct (Nat.le_gt_cases i (j - p + k)) as [G|G].
    - assert (X := right_of i Hi (j - p + k - i) ltac:(lia)). replace (i + (j - p + k - i))%nat with (j - p + k)%nat in X by lia.
      eapply Rle_trans; [exact X|]. apply Rmult_le_compat_r; [exact K0|]. rewrite PE. set (s := (j - p + k - i)%nat) in *.
      assert (S1 : 0 <= INR s) by apply pos_INR. assert (S2 : INR s <= INR p) by (apply le_INR; lia). destruct (Nat.eq_dec s 0) as [E0|E0]; [rewrite E0; cbn; assert (1 <= INR p) by (apply (le_INR 1); lia); nra|].
      assert (1 <= INR s) by (apply (le_INR 1); lia). nra.
    - assert (X := left_of i Hi (i - (j - p + k)) ltac:(lia)). replace (i - (i - (j - p + k)))%nat with (j - p + k)%nat in X by lia.
      eapply Rle_trans; [exact X|]. apply Rmult_le_compat_r; [exact K0|]. rewrite PE. set (s := (i - (j - p + k))%nat) in *.
      assert (S1 : 0 <= INR s) by apply pos_INR. assert (S2 : INR s <= INR (p - 1)) by (apply le_INR; lia). rewrite PE in S2. nra.
  Qed.
End Polygon.

(** ** refinement *)
Definition bent (p n dim : nat) (U : list R) (P : Mat RNum) (k : nat) (M : R) : Prop :=
  forall i, (i + k <= n)%nat -> norm dim (fun d => dpoints (kfun U) p (fun j => ent P j d) k i) <= M.

Lemma insert_bent p n dim U P c u k M : clamped_curve p n dim U P c -> 0 < u < 1 -> (k <= p)%nat -> (mult U u <= p - k)%nat -> simple_below U u -> bent p n dim U P k M ->
  exists c' U' P', @curve_insert RNum c u = Val (c', Ok tt) /\ clamped_curve p (S n) dim U' P' c' /\ bent p (S n) dim U' P' k M.
Proof.
  intros H Hu Hk Hm Hs B. destruct (insert_cuts_all p n dim U P c u k H Hu Hk Hm Hs) as (c' & U' & P' & a & EI & H' & A & A0 & A1 & E).
  exists c', U', P'. split; [exact EI|]. split; [exact H'|]. intros i Hi. assert (PN := cl_deg _ _ _ (proj1 H)). assert (Ai := A i).
  rewrite (norm_ext dim _ _ (fun d Hd => E i d Hi Hd)).
  eapply Rle_trans; [apply norm_add|]. rewrite !norm_scal by lra.
  destruct (Nat.eq_dec i (S n - k)) as [->|Ne].
  - rewrite A1. assert (T := B (S n - k - 1)%nat ltac:(lia)). rewrite Rmult_0_l. lra.
  - assert (T := B i ltac:(lia)). assert (T2 := B (i - 1)%nat ltac:(lia)). nra.
Qed.

Lemma inserted_bent us : forall p n dim U P c k M, clamped_curve p n dim U P c -> (1 <= k <= p)%nat -> bent p n dim U P k M ->
  (forall u, In u us -> 0 < u < 1 /\ simple_below (us ++ U) u) -> (forall x, 0 < x < 1 -> (mult (us ++ U) x <= p - k + 1)%nat) ->
  exists c' U' P', inserted c us c' /\ clamped_curve p (n + length us) dim U' P' c' /\ Permutation (us ++ U) U' /\ same_function c c' /\ bent p (n + length us) dim U' P' k M.
Proof.
  induction us as [|u us IH]; intros p n dim U P c k M H Hk ST HU HM.
  - exists c, U, P. split; [constructor|]. rewrite Nat.add_0_r. split; [exact H|]. split; [apply Permutation_refl|]. split; [apply same_function_refl|exact ST].
  - destruct (HU u ltac:(left; reflexivity)) as [Hu Hs].
    assert (M1 : (mult U u <= p - k)%nat).
    { assert (T := HM u Hu). unfold mult in *. cbn [app count_occ] in T. rewrite count_occ_app in T. destruct Req_EM_T; [|contradiction]. lia. }
    assert (S1 : simple_below U u).
    { apply (simple_mono U _ u Hs). intros x. unfold mult. rewrite count_occ_app. lia. }
    destruct (curve_insert_exact p n dim U P c u H Hu ltac:(lia) S1) as [c1 [U1 [P1 [E1 [H1 [Q1 F1]]]]]].
    destruct (insert_bent p n dim U P c u k M H Hu ltac:(lia) M1 S1 ST) as [c2 [U2 [P2 [E2 [H2 ST2]]]]].
    rewrite E1 in E2. injection E2 as <-.
    assert (K1 := wf_knots _ _ _ _ _ _ (proj1 (cc_wf _ _ _ _ _ _ H1))). assert (K2 := wf_knots _ _ _ _ _ _ (proj1 (cc_wf _ _ _ _ _ _ H2))).
    assert (EU : U2 = U1). { rewrite K1 in K2. apply (f_equal (fun k : Knots RNum => nth 0 (Uk k) [])) in K2. unfold knots_of in K2. cbn [Uk seq map nth] in K2. rewrite !kderiv_0 in K2. congruence. }
    rewrite EU in *. clear K1 K2.
    assert (PE : Permutation ((u :: us) ++ U) (us ++ U1)).
    { eapply Permutation_trans; [|apply Permutation_app_head; exact Q1]. cbn [app]. apply Permutation_middle. }
    destruct (IH p (S n) dim U1 P2 c1 k M H2 Hk ST2) as [c' [U' [P' [I [H' [Q' [F' ST']]]]]]].
    + intros v Hv. destruct (HU v ltac:(right; exact Hv)) as [A B]. split; [exact A|]. apply (simple_mono _ _ v B). intros x. rewrite (mult_perm _ _ x PE). apply le_n.
    + intros x Hx. rewrite <- (mult_perm _ _ x PE). apply HM. exact Hx.
    + exists c', U', P'. split; [econstructor; eassumption|]. cbn [length]; replace (n + S (length us))%nat with (S n + length us)%nat by lia. split; [exact H'|].
      split; [eapply Permutation_trans; [exact PE|exact Q']|]. split; [eapply same_function_trans; eassumption|exact ST'].
Qed.

Theorem polygon_second_order p n dim U P c M h D : clamped_curve p n dim U P c -> (2 <= p)%nat -> (forall x, 0 < x < 1 -> (mult U x <= p - 1)%nat) ->
  @matrix_derivative RNum (cpoints c) 2 = Val D -> (forall i, (i + 2 <= n)%nat -> sqrt (rsum (fun d => ent D i d ^ 2) dim) <= M) ->
  (forall i, (i < n)%nat -> nth (i + p + 1) U 0 - nth (i + 1) U 0 <= h) ->
  forall i t x, (i < n)%nat -> 0 <= t <= 1 -> evaluate c ((1 - t) * average U p i + t * average U p (S i)) = Val (Ok x) ->
  sqrt (rsum (fun d => (nth d x 0 - ((1 - t) * ent P i d + t * ent P (S i) d)) ^ 2) dim) <= M * h ^ 2 / 2.
Proof.
  intros H Hp HM ED BD Hh i t x Hi Ht EX. assert (C : clamped p n U) by apply H. assert (F := kfun_clamped p n U C). assert (E := cl_len _ _ _ C). assert (PN := cl_deg _ _ _ C).
  assert (MU : forall x, 0 < x < 1 -> mult_le (kfun U) x (p - 1)) by (intros y Hy; apply (mult_mult_le p n U y (p - 1) C Hy); apply HM; exact Hy).
  assert (EN : forall j, (j <= n)%nat -> average U p j = xi p (kfun U) j).
  { intros j Hj. unfold average, xi. f_equal. apply rsum_ext. intros k Hk. rewrite kfun_nth by lia. reflexivity. }
  rewrite !EN in EX by lia. set (u := (1 - t) * xi p (kfun U) i + t * xi p (kfun U) (S i)) in *.
  assert (ST := xi_step p n (kfun U) F Hp MU i). assert (L1 := level1 p n (kfun U) F Hp MU i Hi).
  assert (P0' : 0 < INR p) by (apply lt_0_INR; lia).
  assert (SP : 0 <= xi p (kfun U) (S i) - xi p (kfun U) i) by (rewrite ST; apply Rmult_le_pos; [lra|left; apply Rinv_0_lt_compat; exact P0']).
  assert (Hu : xi p (kfun U) i <= u <= xi p (kfun U) (S i)) by (unfold u; nra).
  assert (B1 := xi_bounds p n (kfun U) F Hp i). assert (B2 := xi_bounds p n (kfun U) F Hp (S i)).
  assert (U01 : 0 <= u <= 1).
  { assert (X := fc_mono _ _ _ F 0%nat (i + 1)%nat ltac:(lia)). assert (Y := fc_mono _ _ _ F (S i + p)%nat (n + p + 1)%nat ltac:(lia)).
    rewrite (fc_zero _ _ _ F 0%nat) in X by lia. rewrite (fc_one _ _ _ F (n + p + 1)%nat) in Y by lia. lra. }
  destruct (cc_eval0 p n dim U P c u H U01) as [y [Y1 [Y2 Y3]]]. assert (EQ : y = x) by (unfold evaluate in *; rewrite Y1 in EX; congruence). subst y.
  destruct (deriv_matrix p n dim U P c 2 H Hp) as (D' & D1 & D2 & D3). rewrite ED in D1. injection D1 as <-.
  assert (CL := close_to_leg p n (kfun U) F Hp MU dim (fun d j => ent P j d) M h).
  fold (norm dim (fun d => nth d x 0 - ((1 - t) * ent P i d + t * ent P (S i) d))).
  rewrite (norm_ext dim _ (fun d => spline (kfun U) n p (fun j => ent P j d) u - (ent P i d + dpoints (kfun U) p (fun j => ent P j d) 1 i * (u - xi p (kfun U) i)))).
  - apply CL; try assumption.
    + intros j Hj. rewrite <- (norm_ext dim (fun d => ent D j d)) by (intros d Hd; apply D3; assumption). apply BD. exact Hj.
    + intros j Hj. rewrite !kfun_nth by lia. apply Hh. exact Hj.
  - intros d Hd. rewrite Y3 by exact Hd. assert (Q := q_step p n (kfun U) F Hp MU (fun d j => ent P j d) d i Hi). cbn beta in Q.
    f_equal. unfold u. replace ((1 - t) * xi p (kfun U) i + t * xi p (kfun U) (S i) - xi p (kfun U) i) with (t * (xi p (kfun U) (S i) - xi p (kfun U) i)) by ring.
    replace (dpoints (kfun U) p (fun j => ent P j d) 1 i * (t * (xi p (kfun U) (S i) - xi p (kfun U) i))) with (t * (ent P (S i) d - ent P i d)) by (rewrite Q; ring). ring.
Qed.

Theorem refinement_second_order p n dim U P c M h us D : clamped_curve p n dim U P c -> (2 <= p)%nat ->
  @matrix_derivative RNum (cpoints c) 2 = Val D -> (forall i, (i + 2 <= n)%nat -> sqrt (rsum (fun d => ent D i d ^ 2) dim) <= M) ->
  (forall u, In u us -> 0 < u < 1 /\ simple_below (us ++ U) u) -> (forall x, 0 < x < 1 -> (mult (us ++ U) x <= p - 1)%nat) ->
  exists c' U' P', inserted c us c' /\ clamped_curve p (n + length us) dim U' P' c' /\ Permutation (us ++ U) U' /\
    ((forall i, (i < n + length us)%nat -> nth (i + p + 1) U' 0 - nth (i + 1) U' 0 <= h) ->
     forall i t x, (i < n + length us)%nat -> 0 <= t <= 1 -> evaluate c ((1 - t) * average U' p i + t * average U' p (S i)) = Val (Ok x) ->
     sqrt (rsum (fun d => (nth d x 0 - ((1 - t) * ent P' i d + t * ent P' (S i) d)) ^ 2) dim) <= M * h ^ 2 / 2).
Proof.
  intros H Hp ED BD HU HM. destruct (deriv_matrix p n dim U P c 2 H ltac:(lia)) as (D' & D1 & D2 & D3). rewrite ED in D1. injection D1 as <-.
  assert (B : bent p n dim U P 2 M).
  { intros i Hi. rewrite <- (norm_ext dim (fun d => ent D i d)) by (intros d Hd; apply D3; assumption). apply BD. exact Hi. }
  destruct (inserted_bent us p n dim U P c 2 M H ltac:(lia) B HU) as [c' [U' [P' [I [H' [Q' [F' B']]]]]]].
  { intros x Hx. assert (T := HM x Hx). lia. }
  exists c', U', P'. split; [exact I|]. split; [exact H'|]. split; [exact Q'|]. intros HH i t x Hi Ht EX.
  destruct (deriv_matrix p _ dim U' P' c' 2 H' ltac:(lia)) as (E & E1 & E2 & E3).
  apply (polygon_second_order p _ dim U' P' c' M h E H' ltac:(lia)); try assumption.
  - intros y Hy. rewrite <- (mult_perm _ _ y Q'). apply HM. exact Hy.
  - intros j Hj. fold (norm dim (fun d => ent E j d)). rewrite (norm_ext dim _ (fun d => dpoints (kfun U') p (fun j => ent P' j d) 2 j)) by (intros d Hd; apply E3; assumption). apply B'. exact Hj.
  - unfold evaluate in *. rewrite (F' _ 0%nat). exact EX.
Qed.

(** ** the second derivative points of the quadratic sample *)
Lemma second_a c : clamped_curve 2 3 2 U_a P_a c -> exists D, @matrix_derivative RNum (cpoints c) 2 = Val D /\
  ent D 0 0 = 0 /\ ent D 0 1 = -16 /\ ent D 1 0 = 0 /\ ent D 1 1 = -24.
Proof.
  intros H. destruct (deriv_matrix 2 3 2 U_a P_a c 2 H (le_n 2)) as (D & D1 & D2 & D3). exists D. split; [exact D1|].
  rewrite !D3 by lia. cbn [dpoints]. unfold ratio, kfun, ent, P_a, U_a. cbn.
  repeat split; repeat (destruct Req_EM_T as [?|?]; [exfalso; lra|]); field.
Qed.
