(** * Predicates, rescaling, manual generation *)

From Coq Require Import ZArith Reals List Bool Arith Lia Lra.
From Verif Require Import Num Vec MKnots MPoints MCurve MFit MGenerate RNum QNum F64 Hoare Lists Struct Spec BMath Api Bridge Facts1 Facts7 Facts9 Gen1 Gen2.
Import ListNotations.

Lemma knots_new_inv {K : Num} p (U : list K) kn : knots_new p U = Val kn -> kn = knots_of p U /\ 2 * p <= length U.
Proof.
  intros E. destruct (Nat.le_gt_cases (2 * p) (length U)) as [H|H].
  - rewrite knots_new_val in E by exact H. injection E as <-. split; [reflexivity|exact H].
  - rewrite knots_new_short in E by exact H. discriminate E.
Qed.

Section Pred.
  Context {K : Num}.

  Lemma is_clamped_gen p (U : list K) kn : knots_new p U = Val kn -> exists b, is_clamped kn = Val b /\
    (b = true <-> forall i, i < length U -> (i <= p -> (nth i U n0 ==? n0)%num = true) /\ (length U <= i + p + 1 -> (nth i U n0 ==? n1)%num = true)).
  Proof.
    intros E. destruct (knots_new_inv p U kn E) as [-> _].
    unfold is_clamped. rewrite knots_of_vector. cbn [bind kp knots_of]. eexists. split; [reflexivity|].
    rewrite andb_true_iff, !forallb_forall. split.
    - intros [H1 H2] i Hi. split; intros Hp.
      + apply H1. rewrite <- (nth_firstn U (p + 1) i n0) by lia. apply nth_In. rewrite firstn_length. lia.
      + apply H2. replace (nth i U n0) with (nth (length U - 1 - i) (firstn (p + 1) (rev U)) n0).
        * apply nth_In. rewrite firstn_length, rev_length. lia.
        * rewrite nth_firstn by lia. rewrite nth_rev by lia. f_equal. lia.
    - intros H. split; intros x Hx.
      + apply (In_nth _ _ n0) in Hx. destruct Hx as [i [Hi E']]. rewrite firstn_length in Hi. rewrite nth_firstn in E' by lia.
        rewrite <- E'. apply H; lia.
      + apply (In_nth _ _ n0) in Hx. destruct Hx as [i [Hi E']]. rewrite firstn_length, rev_length in Hi.
        rewrite nth_firstn in E' by lia. rewrite nth_rev in E' by lia. rewrite <- E'. apply H; lia.
  Qed.

  Lemma sorted_from_gen (v : list K) : forall x, sorted_from x v = true <-> forall i, S i < length (x :: v) -> (nth i (x :: v) n0 <=? nth (S i) (x :: v) n0)%num = true.
  Proof.
    induction v as [|y v IH]; intros x; cbn [sorted_from].
    - split; [|reflexivity]. intros _ i Hi. cbn [length] in Hi. lia.
    - rewrite andb_true_iff, IH. split.
      + intros [H S] i Hi. destruct i as [|i]; [exact H|]. apply (S i). cbn [length] in *. lia.
      + intros H. split; [apply (H 0); cbn [length]; lia|]. intros i Hi. apply (H (S i)). cbn [length] in *. lia.
  Qed.

  Lemma is_sorted_gen p (U : list K) kn : knots_new p U = Val kn -> exists b, is_sorted kn = Val b /\
    (b = true <-> forall i, S i < length U -> (nth i U n0 <=? nth (S i) U n0)%num = true).
  Proof.
    intros E. destruct (knots_new_inv p U kn E) as [-> _].
    unfold is_sorted. rewrite knots_of_vec by lia. rewrite kderiv_0. cbn [bind]. eexists. split; [reflexivity|].
    destruct U as [|x U]; [|apply sorted_from_gen]. split; [|reflexivity]. intros _ i Hi. cbn [length] in Hi. lia.
  Qed.
End Pred.

Local Open Scope R_scope.

Lemma is_sorted_new p (U : list R) kn : @knots_new RNum p U = Val kn -> exists b, is_sorted kn = Val b /\ (b = true <-> sorted U).
Proof. intros E. destruct (knots_new_inv p U kn E) as [-> _]. apply is_sorted_R. Qed.

Lemma is_clamped_new p (U : list R) kn : @knots_new RNum p U = Val kn -> exists b, is_clamped kn = Val b /\
  (b = true <-> forall i, (i < length U)%nat -> ((i <= p)%nat -> nth i U 0 = 0) /\ ((length U <= i + p + 1)%nat -> nth i U 0 = 1)).
Proof. intros E. destruct (knots_new_inv p U kn E) as [-> _]. apply is_clamped_R. Qed.

Lemma is_normed_new p (U : list R) kn : @knots_new RNum p U = Val kn -> exists b, is_normed kn = Val b /\
  (b = true <-> In 0 U /\ In 1 U /\ forall x, In x U -> 0 <= x <= 1).
Proof. intros E. destruct (knots_new_inv p U kn E) as [-> _]. apply is_normed_R. Qed.

Lemma is_uniform_new p n (U : list R) kn kn' U' : length U = (n + p + 2)%nat -> @knots_new RNum p U = Val kn ->
  uniform p n = Val (Ok kn') -> vector kn' = Val U' -> exists b, is_uniform kn = Val (Ok b) /\ (b = true <-> U = U').
Proof.
  intros L E EU EV. destruct (knots_new_inv p U kn E) as [-> _].
  assert (Hp : (1 <= p <= n)%nat).
  { destruct p; [discriminate EU|]. destruct (Nat.le_gt_cases (S p) n); [lia|]. exfalso. unfold uniform in EU. rewrite inputCheck_short in EU by lia. discriminate EU. }
  rewrite uniform_R in EU by exact Hp. injection EU as <-. rewrite (@knots_of_vector RNum) in EV. injection EV as <-.
  destruct (is_uniform_R p n U L ltac:(lia)) as [[-> _]|[_ H]]; [lia|exact H].
Qed.

(** ** uniform *)
Lemma clamped_is_clamped p n U kn : clamped p n U -> @knots_new RNum p U = Val kn -> is_clamped kn = Val true /\ is_normed kn = Val true /\ is_sorted kn = Val true.
Proof.
  intros C E. assert (L := cl_len _ _ _ C). assert (D := cl_deg _ _ _ C). split; [|split].
  - destruct (is_clamped_new p U kn E) as [b [-> H]]. f_equal. apply H. intros i Hi. split; intros Hp; [apply (cl_zero _ _ _ C); lia|apply (cl_one _ _ _ C); lia].
  - destruct (is_normed_new p U kn E) as [b [-> H]]. f_equal. apply H. split; [|split].
    + rewrite <- (cl_zero _ _ _ C 0 ltac:(lia)). apply nth_In. lia.
    + rewrite <- (cl_one _ _ _ C (n + 1) ltac:(lia) ltac:(lia)). apply nth_In. lia.
    + intros x Hx. apply (In_nth _ _ 0) in Hx. destruct Hx as [i [Hi E']]. rewrite <- E'.
      assert (A := cl_sorted _ _ _ C 0%nat i ltac:(lia) ltac:(lia)). assert (B := cl_sorted _ _ _ C i (n + p + 1)%nat ltac:(lia) ltac:(lia)).
      rewrite (cl_zero _ _ _ C 0%nat) in A by lia. rewrite (cl_one _ _ _ C (n + p + 1)%nat) in B by lia. split; assumption.
  - destruct (is_sorted_new p U kn E) as [b [-> H]]. f_equal. apply H. exact (cl_sorted _ _ _ C).
Qed.

Lemma uniform_fact p n : (1 <= p <= n)%nat -> exists kn (U : list R), @uniform RNum p n = Val (Ok kn) /\ knots_new p U = Val kn /\ vector kn = Val U /\
  clamped p n U /\ (forall i, (p < i <= n)%nat -> nth i U 0 = INR (i - p) / INR (n - p + 1)) /\
  is_clamped kn = Val true /\ is_normed kn = Val true /\ is_sorted kn = Val true /\ is_uniform kn = Val (Ok true).
Proof.
  intros H. exists (knots_of p (unif p n)), (unif p n). assert (C := unif_clamped p n ltac:(lia)).
  assert (E : @knots_new RNum p (unif p n) = Val (knots_of p (unif p n))) by (apply knots_new_val; rn; rewrite (cl_len _ _ _ C); lia).
  split; [apply uniform_R; exact H|]. split; [exact E|]. split; [apply (@knots_of_vector RNum)|]. split; [exact C|]. split.
  - intros i Hi. unfold unif. rewrite nth_fill_R by lia. replace (i <=? p)%nat with false by (symmetry; apply Nat.leb_gt; lia).
    replace (i <=? n)%nat with true by (symmetry; apply Nat.leb_le; lia). reflexivity.
  - destruct (clamped_is_clamped p n _ _ C E) as [T1 [T2 T3]]. repeat split; try assumption.
    destruct (is_uniform_new p n (unif p n) _ _ _ (cl_len _ _ _ C) E (uniform_R p n H) ltac:(apply (@knots_of_vector RNum))) as [b [EB HB]].
    rewrite EB. do 2 f_equal. apply HB. reflexivity.
Qed.

Lemma generators_reject (K : Num) (params : Parameters K) (m : KnotMethod) n :
  knots_generate 0 n params m = Val (Err (DegreeTooLow 0 0)) /\
  forall p, (1 <= p)%nat -> (n < p)%nat -> knots_generate p n params m = Val (Err (DegreeAndSegmentsMismatch p n)).
Proof. split; [apply generate_bad|]. intros p H1 H2. apply generate_short; assumption. Qed.

Lemma uniform_reject (K : Num) n : @uniform K 0 n = Val (Err (DegreeTooLow 0 0)) /\
  forall p, (1 <= p)%nat -> (n < p)%nat -> @uniform K p n = Val (Err (DegreeAndSegmentsMismatch p n)).
Proof. split; [reflexivity|]. intros p H1 H2. unfold uniform. rewrite inputCheck_short by assumption. reflexivity. Qed.

(** ** averaging *)
Lemma averaging_fact p n v s : (1 <= p <= n)%nat -> length v = (n + 1)%nat ->
  exists kn (U : list R), @averaging RNum p n (mkParams v s) = Val (Ok kn) /\ knots_new p U = Val kn /\ vector kn = Val U /\
    length U = (n + p + 2)%nat /\
    (forall i, (i <= p)%nat -> nth i U 0 = 0) /\ (forall i, (n < i < n + p + 2)%nat -> nth i U 0 = 1) /\
    (forall j, (1 <= j <= n - p)%nat -> nth (p + j) U 0 = rsum (fun k => nth (j + k) v 0) p / INR p) /\
    (sorted v -> (forall x, In x v -> 0 <= x <= 1) -> sorted U) /\
    (increasing v -> nth 0 v 0 = 0 -> nth n v 0 = 1 -> clamped p n U /\ forall i j, (p <= i < j)%nat -> (j <= n + 1)%nat -> nth i U 0 < nth j U 0).
Proof.
  intros H L. set (U := @fill_knots RNum p n (avg p v) : list R). exists (knots_of p U), U.
  assert (LU : length U = (n + p + 2)%nat) by apply fill_length_R.
  assert (IN : forall j, (1 <= j <= n - p)%nat -> nth (p + j) U 0 = avg p v j).
  { intros j Hj. unfold U. rewrite nth_fill_R by lia. replace (p + j <=? p)%nat with false by (symmetry; apply Nat.leb_gt; lia).
    replace (p + j <=? n)%nat with true by (symmetry; apply Nat.leb_le; lia). f_equal. lia. }
  split; [apply averaging_R; assumption|]. split; [apply knots_new_val; rn; lia|]. split; [apply (@knots_of_vector RNum)|]. split; [exact LU|].
  split; [|split; [|split; [exact IN|split]]].
  - intros i Hi. unfold U. rewrite nth_fill_R by lia. replace (i <=? p)%nat with true by (symmetry; apply Nat.leb_le; lia). reflexivity.
  - intros i Hi. unfold U. rewrite nth_fill_R by lia. replace (i <=? p)%nat with false by (symmetry; apply Nat.leb_gt; lia).
    replace (i <=? n)%nat with false by (symmetry; apply Nat.leb_gt; lia). reflexivity.
  - intros S B. apply averaging_sorted; assumption.
  - intros S E0 E1. destruct (averaging_clamped p n v H L S E0 E1) as [C Q]. split; [exact C|]. fold U in C.
    assert (ST : forall i, (p <= i <= n)%nat -> nth i U 0 < nth (Datatypes.S i) U 0).
    { intros i Hi. destruct (Nat.eq_dec i n) as [->|].
      - rewrite (cl_one _ _ _ C (Datatypes.S n)) by lia. destruct (Nat.eq_dec n p) as [->|]; [rewrite (cl_zero _ _ _ C) by lia; lra|].
        apply (cl_inner _ _ _ C n); lia.
      - destruct (Nat.eq_dec i p) as [->|]; [rewrite (cl_zero _ _ _ C p) by lia; apply (cl_inner _ _ _ C); lia|].
        assert (T := Q (i - p)%nat ltac:(lia) ltac:(lia)). rewrite <- (IN (i - p)%nat) in T by lia.
        rewrite <- (IN (Datatypes.S (i - p))) in T by lia. replace (p + (i - p))%nat with i in T by lia. replace (p + Datatypes.S (i - p))%nat with (Datatypes.S i) in T by lia. exact T. }
    intros i j [Hi Hij]. induction Hij as [|j Hij IH]; intros Hj; [apply ST; lia|]. assert (T := ST j ltac:(lia)). specialize (IH ltac:(lia)). lra.
Qed.

(** ** de Boor *)
Lemma de_boor_fact p n v s : (1 <= p <= n)%nat -> length v = (n + 1)%nat -> increasing v -> nth 0 v 0 = 0 -> nth n v 0 = 1 ->
  exists kn (U : list R), @de_boor RNum p n (mkParams v s) = Val (Ok kn) /\ knots_new p U = Val kn /\ vector kn = Val U /\ clamped p n U /\
    forall i, (p <= i <= n)%nat -> exists g, (g <= n)%nat /\ nth i U 0 <= nth g v 0 <= nth (i + 1) U 0 /\
      ((i < n)%nat -> nth g v 0 < nth (i + 1) U 0) /\ ((p < i)%nat -> nth i U 0 < nth g v 0).
Proof.
  intros H L S E0 E1. set (U := @fill_knots RNum p n (dbk p n v) : list R). exists (knots_of p U), U.
  assert (LU : length U = (n + p + 2)%nat) by apply fill_length_R.
  split; [apply de_boor_R; assumption|]. split; [apply knots_new_val; rn; lia|]. split; [apply (@knots_of_vector RNum)|].
  split; [apply db_clamped; assumption|]. intros i Hi. apply db_spans; assumption.
Qed.

(** ** rescale, normalize *)
Lemma kderiv_map {A B} (f : A -> B) k U : kderiv k (map f U) = map f (kderiv k U).
Proof. unfold kderiv. rewrite map_length, skipn_map, firstn_map. reflexivity. Qed.

Lemma rescale_fact p (U : list R) kn a b c d : a <> b -> @knots_new RNum p U = Val kn ->
  knots_rescale kn (a, b) (c, d) = knots_new p (map (fun x => c + (x - a) / (b - a) * (d - c)) U).
Proof.
  intros H E. destruct (knots_new_inv p U kn E) as [-> L]. rn.
  rewrite (@knots_new_val RNum p (map _ U)) by (rn; rewrite map_length; exact L).
  unfold knots_rescale, knots_of. cbn [Uk kp kk_max].
  rewrite (mapM_all _ (map (fun x => c + (x - a) / (b - a) * (d - c)))) by (intros v _; apply vec_rescale_R; exact H).
  cbn [bind]. do 2 f_equal. rewrite map_map. apply map_ext. intros k. symmetry. apply kderiv_map.
Qed.

Lemma normalize_vector p (U : list R) kn kn' : @knots_new RNum p U = Val kn -> knots_normalize kn = Val kn' -> U <> [] ->
  exists lo hi, In lo U /\ In hi U /\ lo < hi /\ (forall x, In x U -> lo <= x <= hi) /\ vector kn' = Val (map (fun x => (x - lo) / (hi - lo)) U) /\ is_normed kn' = Val true.
Proof.
  intros E EN NE. destruct (knots_new_inv p U kn E) as [-> L]. exists (@vmin RNum U), (@vmax RNum U).
  destruct (vmin_R U NE) as [M1 M2]. destruct (vmax_R U NE) as [X1 X2].
  unfold knots_normalize, knots_of in EN. cbn [Uk kp kk_max seq map mapM] in EN. rewrite kderiv_0 in EN.
  assert (LE : @vmin RNum U <= @vmax RNum U) by (apply M2; exact X1).
  destruct (Req_dec (@vmin RNum U) (@vmax RNum U)) as [Q|Q].
  { exfalso. unfold vec_normalize at 1 in EN. rewrite Q in EN. unfold vec_rescale, vdiv_scalar in EN. cbn [fst snd] in EN.
    unfold vsub in EN at 1. rewrite (@zipM_map RNum) in EN. cbn [bind] in EN. rn.
    destruct U as [|x U]; [congruence|]. cbn [map mapM] in EN. unfold Rdivm at 1 in EN.
    destruct (Req_EM_T (@vmax RNum (x :: U) - @vmax RNum (x :: U)) 0) as [_|C]; [discriminate EN|lra]. }
  rewrite vec_normalize_R in EN by exact Q. cbn [bind] in EN.
  match type of EN with (bind ?m _ = _) => destruct m as [r| | |] eqn:ER; try discriminate EN end.
  cbn [bind] in EN. injection EN as <-.
  match type of ER with (bind ?m _ = _) => destruct m as [r'| | |]; try discriminate ER end. injection ER as <-.
  split; [exact M1|]. split; [exact X1|]. split; [rn; lra|]. split; [intros x Hx; split; [apply M2|apply X2]; exact Hx|].
  split; [reflexivity|].
  set (W := map (fun x => (x - @vmin RNum U) / (@vmax RNum U - @vmin RNum U)) U).
  assert (EV : is_normed (mkKnots (W :: r') p p) = is_normed (@knots_of RNum p W)) by (unfold is_normed; rewrite (@knots_of_vector RNum); reflexivity).
  rn. rewrite EV. destruct (is_normed_R p W) as [b [-> HB]]. f_equal. apply HB. unfold W. split; [|split].
  - apply in_map_iff. exists (@vmin RNum U). split; [field; rn; lra|exact M1].
  - apply in_map_iff. exists (@vmax RNum U). split; [field; rn; lra|exact X1].
  - intros x Hx. apply in_map_iff in Hx. destruct Hx as [y [<- Hy]]. assert (A := M2 y Hy). assert (B := X2 y Hy). rn.
    assert (P : 0 < @vmax RNum U - @vmin RNum U) by (rn; lra). split.
    + unfold Rdiv. apply Rmult_le_pos; [rn; lra|]. left. apply Rinv_0_lt_compat. exact P.
    + replace 1 with ((@vmax RNum U - @vmin RNum U) / (@vmax RNum U - @vmin RNum U)) by (field; rn; lra). apply div_le; [exact P|rn; lra].
Qed.
