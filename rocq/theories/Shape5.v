(** * Bezier pieces *)

From Coq Require Import ZArith Reals List Bool Arith Lra Lia Permutation Sorted.
From Verif Require Import Num Vec MKnots MPoints MCurve RNum Lists Spec BMath BMath2 BMath3 Api Bridge Facts1 Shape1 Shape2 Shape3 Facts6 Insert2.
Import ListNotations.
Local Open Scope R_scope.

Lemma bernstein_piece p U j a b x : (p <= j)%nat -> a < b -> (forall i, (j - p < i)%nat -> (i <= j)%nat -> U i = a) -> (forall i, (j < i)%nat -> (i <= j + p)%nat -> U i = b) ->
  forall q k, (q <= p)%nat -> (k <= q)%nat -> cox (delta j) U q (j - q + k) x = INR (binomial q k) * ((x - a) / (b - a)) ^ k * (1 - (x - a) / (b - a)) ^ (q - k).
Proof.
  intros Hj L Z O. set (t := (x - a) / (b - a)).
  assert (T1 : ratio (b - x) (b - a) = 1 - t) by (rewrite ratio_nz by lra; unfold t; field; lra).
  assert (T0 : ratio (x - a) (b - a) = t) by (rewrite ratio_nz by lra; reflexivity).
  induction q as [|q IH]; intros k Hq Hk.
  - replace k with 0%nat by lia. cbn [cox]. replace (j - 0 + 0)%nat with j by lia. rewrite delta_eq. cbn. ring.
  - cbn [cox]. destruct k as [|k].
    + rewrite (piece_support U j q (j - S q + 0)) by lia.
      rewrite (Z (S (j - S q + 0))) by lia. rewrite (O (S (j - S q + 0) + S q)%nat) by lia.
      replace (S (j - S q + 0)) with (j - q + 0)%nat by lia. rewrite IH by lia. rewrite T1. rewrite !binomial_0.
      replace (S q - 0)%nat with (S (q - 0)) by lia. cbn [pow INR]. ring.
    + rewrite (Z (j - S q + S k)%nat) by lia. rewrite (O (j - S q + S k + S q)%nat) by lia. rewrite T0.
      replace (j - S q + S k)%nat with (j - q + k)%nat by lia. rewrite IH by lia.
      destruct (Nat.eq_dec k q) as [->|NE].
      * rewrite (piece_support U j q (S (j - q + q))) by lia. cbn [binomial]. rewrite (binomial_over q (S q)) by lia.
        rewrite Nat.add_0_r. replace (S q - S q)%nat with 0%nat by lia. replace (q - q)%nat with 0%nat by lia. cbn [pow]. ring.
      * rewrite (Z (S (j - q + k))) by lia. rewrite (O (S (j - q + k) + S q)%nat) by lia. rewrite T1.
        replace (S (j - q + k)) with (j - q + S k)%nat by lia. rewrite IH by lia. cbn [binomial]. rewrite plus_INR.
        replace (S q - S k)%nat with (S (q - S k)) by lia. replace (q - k)%nat with (S (q - S k)) by lia. cbn [pow]. ring.
Qed.

Lemma bezier_piece p n dim U P c j u : clamped_curve p n dim U P c -> (1 <= p <= j)%nat -> (j <= n)%nat ->
  nth (j + 1 - p) U 0 = nth j U 0 -> nth j U 0 < nth (j + 1) U 0 -> nth (j + p) U 0 = nth (j + 1) U 0 ->
  nth j U 0 <= u -> u < nth (j + 1) U 0 \/ j = n /\ u = 1 ->
  returns (evaluate c u) dim (fun d => rsum (fun i => INR (binomial p i) * ((u - nth j U 0) / (nth (j + 1) U 0 - nth j U 0)) ^ i *
    (1 - (u - nth j U 0) / (nth (j + 1) U 0 - nth j U 0)) ^ (p - i) * ent P (j - p + i) d) (S p)).
Proof.
  intros H J1 J2 EA L EB A B. assert (C : clamped p n U) by apply H. assert (F := kfun_clamped p n U C). assert (E := cl_len _ _ _ C).
  replace (j + 1)%nat with (S j) in L, EB, B by lia.
  assert (SP := span_of p n U j u C ltac:(lia) A B).
  assert (Hu : 0 <= u <= 1).
  { assert (R1 := U_range p n _ F j). assert (R2 := U_range p n _ F (S j)). rewrite kfun_nth in R1, R2 by lia. destruct B as [B|[_ B]]; lra. }
  assert (SO := cl_sorted _ _ _ C).
  eapply returns_ext; [apply (cc_eval0 p n dim U P c u H Hu)|]. intros d _. cbv beta.
  rewrite (spline_piece p n _ F _ u j ltac:(lia) SP). rewrite (pfun_local p n _ F _ j u ltac:(lia)). replace (j + 1)%nat with (S j) by lia.
  apply rsum_ext. intros i Hi.
  rewrite (bernstein_piece p (kfun U) j (nth j U 0) (nth (S j) U 0) u ltac:(lia) L) with (q := p) (k := i); try lia; [ring| |].
  - intros k K1 K2. rewrite kfun_nth by lia. apply Rle_antisym; [apply SO; lia|]. rewrite <- EA. apply SO; lia.
  - intros k K1 K2. rewrite kfun_nth by lia. apply Rle_antisym; [|apply SO; lia]. rewrite <- EB. apply SO; lia.
Qed.

(** ** Decomposition into Bezier pieces *)
Lemma raise_one x k : forall p n dim U P c, clamped_curve p n dim U P c -> 0 < x < 1 -> (mult U x + k <= p + 1)%nat -> simple_below U x ->
  exists c' U' P', inserted c (repeat x k) c' /\ clamped_curve p (n + k) dim U' P' c' /\ Permutation (repeat x k ++ U) U' /\ same_function c c'.
Proof.
  induction k as [|k IH]; intros p n dim U P c H Hx Hm Hs.
  - exists c, U, P. split; [constructor|]. rewrite Nat.add_0_r. split; [exact H|]. split; [apply Permutation_refl|apply same_function_refl].
  - destruct (curve_insert_exact p n dim U P c x H Hx ltac:(lia) Hs) as [c1 [U1 [P1 [E1 [H1 [Q1 F1]]]]]].
    destruct (IH p (S n) dim U1 P1 c1 H1 Hx) as [c' [U' [P' [I [H' [Q' F']]]]]].
    + rewrite (mult_insert _ _ _ Q1). lia.
    + intros y Hy. rewrite <- (mult_perm _ _ y Q1). unfold mult. cbn [count_occ]. destruct (Req_EM_T x y); [lra|]. apply Hs. exact Hy.
    + exists c', U', P'. split; [cbn [repeat]; econstructor; eassumption|]. replace (n + S k)%nat with (S n + k)%nat by lia. split; [exact H'|].
      split; [|eapply same_function_trans; eassumption]. eapply Permutation_trans; [|exact Q']. eapply Permutation_trans; [|apply Permutation_app_head; exact Q1].
      cbn [repeat app]. apply Permutation_middle.
Qed.

Lemma inserted_app {K : Num} (us : list K) : forall vs a b c, inserted a us b -> inserted b vs c -> inserted a (us ++ vs) c.
Proof. induction us as [|u us IH]; intros vs a b c A B; inversion A; subst; [exact B|]. cbn [app]. econstructor; [eassumption|]. eapply IH; eassumption. Qed.

Lemma mult_repeat_eq (x : R) k : mult (repeat x k) x = k.
Proof. unfold mult. induction k as [|k IH]; [reflexivity|]. cbn [repeat count_occ]. destruct Req_EM_T; [|contradiction]. rewrite IH. reflexivity. Qed.
Lemma mult_repeat_ne (x y : R) k : x <> y -> mult (repeat x k) y = 0%nat.
Proof. intros N. unfold mult. induction k as [|k IH]; [reflexivity|]. cbn [repeat count_occ]. destruct Req_EM_T; [contradiction|exact IH]. Qed.
Lemma mult_app (U V : list R) x : mult (U ++ V) x = (mult U x + mult V x)%nat.
Proof. apply count_occ_app. Qed.

Lemma raise p dim xs : StronglySorted Rgt xs -> forall n U P c, clamped_curve p n dim U P c ->
  (forall x, In x xs -> 0 < x < 1 /\ (mult U x <= p)%nat /\ simple_below U x) ->
  exists us n' c' U' P', inserted c us c' /\ clamped_curve p n' dim U' P' c' /\ same_function c c' /\ (forall u, In u us -> In u xs) /\
    (forall x, In x xs -> mult U' x = p) /\ (forall x, ~ In x xs -> mult U' x = mult U x).
Proof.
  induction 1 as [|x xs SS IH FA]; intros n U P c H HX.
  - exists [], n, c, U, P. split; [constructor|]. split; [exact H|]. split; [apply same_function_refl|]. split; [intros u []|]. split; [intros y []|reflexivity].
  - destruct (HX x ltac:(left; reflexivity)) as [X1 [X2 X3]].
    destruct (raise_one x (p - mult U x) p n dim U P c H X1 ltac:(lia) X3) as [c1 [U1 [P1 [I1 [H1 [Q1 F1]]]]]].
    assert (ME : mult U1 x = p) by (rewrite <- (mult_perm _ _ x Q1), mult_app, mult_repeat_eq; lia).
    assert (MN : forall y, y <> x -> mult U1 y = mult U y) by (intros y N; rewrite <- (mult_perm _ _ y Q1), mult_app, mult_repeat_ne by congruence; reflexivity).
    rewrite Forall_forall in FA.
    destruct (IH _ U1 P1 c1 H1) as [us [n' [c' [U' [P' [I [H' [F [A [B D]]]]]]]]]].
    + intros y Hy. assert (G := FA y Hy). destruct (HX y ltac:(right; exact Hy)) as [Y1 [Y2 Y3]]. split; [exact Y1|]. rewrite MN by lra. split; [exact Y2|].
      intros z Hz. rewrite MN by lra. apply Y3. exact Hz.
    + exists (repeat x (p - mult U x) ++ us), n', c', U', P'. split; [eapply inserted_app; eassumption|]. split; [exact H'|]. split; [eapply same_function_trans; eassumption|].
      split; [|split].
      * intros u Hu. apply in_app_or in Hu. destruct Hu as [Hu|Hu]; [left; symmetry; apply (repeat_spec _ _ _ Hu)|right; apply A; exact Hu].
      * intros y [<-|Hy]; [|apply B; exact Hy]. rewrite D; [exact ME|]. intros Q. apply FA in Q. lra.
      * intros y N. rewrite D by (intros Q; apply N; right; exact Q). apply MN. intros ->. apply N. left. reflexivity.
Qed.

Lemma decreasing_add (x : R) xs : StronglySorted Rgt xs -> exists ys, StronglySorted Rgt ys /\ forall y, In y ys <-> y = x \/ In y xs.
Proof.
  induction 1 as [|z xs SS IH FA].
  - exists [x]. split; [repeat constructor|]. intros y. cbn. intuition.
  - rewrite Forall_forall in FA. destruct IH as [ys [S1 I1]]. destruct (Rtotal_order x z) as [L|[->|G]].
    + exists (z :: ys). split; [constructor; [exact S1|]|].
      * apply Forall_forall. intros y Hy. apply I1 in Hy. destruct Hy as [->|Hy]; [exact L|apply FA; exact Hy].
      * intros y. cbn [In]. rewrite I1. intuition.
    + exists (z :: xs). split; [constructor; [exact SS|apply Forall_forall; exact FA]|]. intros y. cbn [In]. intuition.
    + exists (x :: z :: xs). split; [constructor; [constructor; [exact SS|apply Forall_forall; exact FA]|]|intros y; cbn [In]; intuition].
      apply Forall_forall. intros y [<-|Hy]; [exact G|]. apply FA in Hy. lra.
Qed.

Lemma decreasing_ex (U : list R) : exists xs, StronglySorted Rgt xs /\ forall x, In x xs <-> In x U /\ 0 < x < 1.
Proof.
  induction U as [|u U [xs [S1 I1]]].
  - exists []. split; [constructor|]. intros x. cbn. intuition.
  - destruct (Rlt_dec 0 u) as [A|A]; [destruct (Rlt_dec u 1) as [B|B]|].
    + destruct (decreasing_add u xs S1) as [ys [S2 I2]]. exists ys. split; [exact S2|]. intros x. rewrite I2, I1. cbn [In]. split; [intros [->|[X Y]]|intros [[X|X] Y]]; auto.
    + exists xs. split; [exact S1|]. intros x. rewrite I1. cbn [In]. split; [intros [X Y]; auto|]. intros [[X|X] Y]; [lra|auto].
    + exists xs. split; [exact S1|]. intros x. rewrite I1. cbn [In]. split; [intros [X Y]; auto|]. intros [[X|X] Y]; [lra|auto].
Qed.

Lemma count_none (l : list R) x : (forall i, (i < length l)%nat -> nth i l 0 <> x) -> mult l x = 0%nat.
Proof.
  intros H. unfold mult. apply count_occ_not_In. intros Q. destruct (In_nth l x 0 Q) as [i [Hi E]]. apply (H i Hi E).
Qed.
Lemma count_length (l : list R) x : (mult l x <= length l)%nat.
Proof. apply count_occ_bound. Qed.

(** the knots that are equal to [x] are within [a .. b - 1] *)
Lemma mult_range (U : list R) x a b : (a <= b <= length U)%nat -> (forall i, (i < a)%nat -> nth i U 0 <> x) -> (forall i, (b <= i < length U)%nat -> nth i U 0 <> x) -> (mult U x <= b - a)%nat.
Proof.
  intros AB HA HB. rewrite <- (firstn_skipn a U). rewrite mult_app. rewrite (count_none (firstn a U)).
  - rewrite <- (firstn_skipn (b - a) (skipn a U)). rewrite mult_app. rewrite (count_none (skipn (b - a) (skipn a U))).
    + assert (T := count_length (firstn (b - a) (skipn a U)) x). rewrite firstn_length in T. lia.
    + intros i Hi. rewrite !skipn_length in Hi. rewrite !nth_skipn. apply HB. lia.
  - intros i Hi. rewrite firstn_length in Hi. rewrite nth_firstn by lia. apply HA. lia.
Qed.

Lemma run_left p n U j : clamped p n U -> (1 <= p <= j)%nat -> (j <= n)%nat -> (nth j U 0 = 0 \/ (p <= mult U (nth j U 0%R))%nat) -> nth j U 0 < nth (j + 1) U 0 ->
  nth (j + 1 - p) U 0 = nth j U 0.
Proof.
  intros C J1 J2 D L. assert (SO := cl_sorted _ _ _ C). assert (E := cl_len _ _ _ C).
  assert (LE : nth (j + 1 - p) U 0 <= nth j U 0) by (apply SO; lia).
  destruct D as [Z|D].
  - assert (nth 0 U 0 <= nth (j + 1 - p) U 0) by (apply SO; lia). rewrite (cl_zero _ _ _ C 0%nat) in H by lia. lra.
  - destruct LE as [LT|EQ]; [exfalso|exact EQ]. assert (T := mult_range U (nth j U 0) (j + 2 - p) (j + 1) ltac:(lia)).
    assert (mult U (nth j U 0%R) <= j + 1 - (j + 2 - p))%nat; [apply T|lia].
    + intros i Hi. assert (nth i U 0 <= nth (j + 1 - p) U 0) by (apply SO; lia). lra.
    + intros i Hi. assert (nth (j + 1) U 0 <= nth i U 0) by (apply SO; lia). lra.
Qed.

Lemma run_right p n U j : clamped p n U -> (1 <= p <= j)%nat -> (j <= n)%nat -> (nth (j + 1) U 0 = 1 \/ (p <= mult U (nth (j + 1) U 0%R))%nat) -> nth j U 0 < nth (j + 1) U 0 ->
  nth (j + p) U 0 = nth (j + 1) U 0.
Proof.
  intros C J1 J2 D L. assert (SO := cl_sorted _ _ _ C). assert (E := cl_len _ _ _ C).
  assert (LE : nth (j + 1) U 0 <= nth (j + p) U 0) by (apply SO; lia).
  destruct D as [Z|D].
  - assert (nth (j + p) U 0 <= nth (n + p + 1) U 0) by (apply SO; lia). rewrite (cl_one _ _ _ C (n + p + 1)%nat) in H by lia. lra.
  - destruct LE as [LT|EQ]; [exfalso|symmetry; exact EQ]. assert (T := mult_range U (nth (j + 1) U 0) (j + 1) (j + p) ltac:(lia)).
    assert (mult U (nth (j + 1) U 0%R) <= j + p - (j + 1))%nat; [apply T|lia].
    + intros i Hi. assert (nth i U 0 <= nth j U 0) by (apply SO; lia). lra.
    + intros i Hi. assert (nth (j + p) U 0 <= nth i U 0) by (apply SO; lia). lra.
Qed.

Lemma decompose p n dim U P c : clamped_curve p n dim U P c -> (1 <= p)%nat -> (forall x, 0 < x < 1 -> (mult U x <= 1)%nat) ->
  exists us n' c' U' P', inserted c us c' /\ (forall u, In u us -> In u U) /\ clamped_curve p n' dim U' P' c' /\ same_function c c' /\ (forall x, In x U' <-> In x U) /\
    forall j u, (p <= j <= n')%nat -> nth j U' 0 < nth (j + 1) U' 0 -> nth j U' 0 <= u -> u < nth (j + 1) U' 0 \/ j = n' /\ u = 1 ->
    returns (evaluate c u) dim (fun d => rsum (fun i => INR (binomial p i) * ((u - nth j U' 0) / (nth (j + 1) U' 0 - nth j U' 0)) ^ i *
      (1 - (u - nth j U' 0) / (nth (j + 1) U' 0 - nth j U' 0)) ^ (p - i) * ent P' (j - p + i) d) (S p)).
Proof.
  intros H Hp HM. destruct (decreasing_ex U) as [xs [SS IX]].
  destruct (raise p dim xs SS n U P c H) as [us [n' [c' [U' [P' [I [H' [F [A [B D]]]]]]]]]].
  { intros x Hx. apply IX in Hx. destruct Hx as [_ Hx]. split; [exact Hx|]. split; [specialize (HM x Hx); lia|]. intros y Hy. apply HM. lra. }
  assert (C' : clamped p n' U') by apply H'. assert (E' := cl_len _ _ _ C'). assert (F' := kfun_clamped _ _ _ C').
  assert (MU : forall x, In x U' <-> In x U).
  { intros x. rewrite !(count_occ_In Req_EM_T). change (mult U' x > 0 <-> mult U x > 0)%nat. destruct (in_dec Req_EM_T x xs) as [Q|Q]; [|rewrite D by exact Q; reflexivity].
    rewrite (B x Q). apply IX in Q. destruct Q as [Q _]. apply (count_occ_In Req_EM_T) in Q. unfold mult. lia. }
  assert (MP : forall j, (j < length U')%nat -> 0 < nth j U' 0 < 1 -> (p <= mult U' (nth j U' 0%R))%nat).
  { intros j Hj Hx. rewrite B; [lia|]. apply IX. split; [|exact Hx]. apply MU. apply nth_In. exact Hj. }
  exists us, n', c', U', P'. split; [exact I|]. split; [intros u Hu; apply A in Hu; apply IX in Hu; apply Hu|]. split; [exact H'|]. split; [exact F|]. split; [exact MU|].
  intros j u J L L1 L2.
  assert (R1 := U_range p n' _ F' j). assert (R2 := U_range p n' _ F' (j + 1)%nat). rewrite kfun_nth in R1, R2 by lia.
  unfold evaluate. rewrite <- (F u 0%nat). apply (bezier_piece p n' dim U' P' c' j u H'); try assumption; try lia.
  - apply (run_left p n' U' j C'); try lia; [|exact L]. destruct (Req_dec (nth j U' 0) 0) as [Z|Z]; [left; exact Z|right]. apply MP; [lia|lra].
  - apply (run_right p n' U' j C'); try lia; [|exact L]. destruct (Req_dec (nth (j + 1) U' 0) 1) as [Z|Z]; [left; exact Z|right]. apply MP; [lia|lra].
Qed.
