(** * Fits: orthogonality, trade-off, nested spaces, stability *)

From Coq Require Import ZArith Reals List Bool Arith Lia Lra Psatz Permutation.
From Verif Require Import Num Vec MKnots MPoints MCurve MFit MGenerate RNum Hoare Lists Struct Spec BMath BMath2 BMath3 Api Bridge Facts1 Facts5 Facts6 Facts7 Facts8 Gen1 Gen2 Gen3 Gen4 LinAlg SW Fit1 Fit2 Fit3 Fit4 Fit5 Fit6 Fit7 Fit8 Fit9 Insert2.
Import ListNotations.
Local Open Scope R_scope.

(** ** As many segments as data: interpolation *)
Lemma fit_interpolates svd p m dim (Q : Mat RNum) : good_solver svd -> (1 <= p <= m)%nat -> shape dim (S m) Q ->
  generate svd (LeastSquaresFit p Q m LooseEnds None) = generate svd (Interpolation p Q) /\
  ((2 <= m)%nat -> generate svd (LeastSquaresFit p Q m FixedEnds None) = generate svd (Interpolation p Q)).
Proof.
  intros GS Hp SQ. destruct (interpolation_fact svd p m dim Q GS Hp SQ) as [U [C [c [E [HC [UK [HD _]]]]]]]. rewrite E. split.
  - apply (loose_reproduces svd p m m dim U C c None Q GS ltac:(lia) ltac:(lia) HC UK SQ); [intros q Eq; discriminate Eq|reflexivity|exact HD].
  - intros H2. apply (fixed_reproduces svd p m m dim U C c None Q GS ltac:(lia) ltac:(lia) HC UK SQ); [intros q Eq; discriminate Eq|reflexivity|exact HD].
Qed.

(** ** A larger penalty factor: smoother, but farther from the data *)
Lemma trade (e1 e2 r1 r2 l1 l2 : R) : 0 <= l1 -> l1 <= l2 -> e1 + l1 * r1 <= e2 + l1 * r2 -> e2 + l2 * r2 <= e1 + l2 * r1 -> l1 < l2 -> r2 <= r1 /\ e1 <= e2.
Proof.
  intros H0 H1 A B S. assert (r2 <= r1) by nra. split; [assumption|]. nra.
Qed.

Lemma loose_tradeoff svd p n m dim (Q : Mat RNum) k l1 l2 : good_solver svd -> shape dim (S m) Q -> (1 <= p <= n)%nat -> (n <= m)%nat ->
  (1 <= k <= n - 1)%nat -> 0 <= l1 -> l1 <= l2 ->
  exists U C1 C2 c1 c2 e1 e2, generate svd (LeastSquaresFit p Q n LooseEnds (Some (mkPen l1 k))) = Val (Ok c1) /\ generate svd (LeastSquaresFit p Q n LooseEnds (Some (mkPen l2 k))) = Val (Ok c2) /\
    clamped_curve p n dim U C1 c1 /\ clamped_curve p n dim U C2 c2 /\ data_error c1 dim m Q e1 /\ data_error c2 dim m Q e2 /\
    e1 <= e2 /\ roughness k (S n - k) 0 dim C2 <= roughness k (S n - k) 0 dim C1.
Proof.
  intros GS SQ Hp Hm Hk H0 H1.
  destruct (loose_fit_fact svd p n m dim Q (Some (@mkPen RNum l1 k)) GS SQ Hp Hm) as [U [C1 [c1 [e1 [E1 [HC1 [UK1 [DE1 UN1]]]]]]]]; [intros q Eq; injection Eq as <-; cbn [lambda kappa]; rn; split; [exact H0|exact Hk]|].
  destruct (loose_fit_fact svd p n m dim Q (Some (@mkPen RNum l2 k)) GS SQ Hp Hm) as [U' [C2 [c2 [e2 [E2 [HC2 [UK2 [DE2 UN2]]]]]]]]; [intros q Eq; injection Eq as <-; cbn [lambda kappa]; rn; split; [lra|exact Hk]|].
  assert (U = U') as <- by (apply (uniform_list p n); [apply HC1|apply HC2|exact UK1|exact UK2]).
  destruct (Req_dec l1 l2) as [EQ|NE].
  - subst l2. rewrite E1 in E2. injection E2 as <-. exists U, C1, C1, c1, c1, e1, e1. do 6 (split; [assumption|]). split; lra.
  - destruct (UN1 C2 c2 e2 HC2 DE2) as [A _]. destruct (UN2 C1 c1 e1 HC1 DE1) as [B _]. unfold penalty in A, B. cbn [lambda kappa] in A, B.
    destruct (trade e1 e2 _ _ l1 l2 H0 H1 A B ltac:(lra)) as [T1 T2].
    exists U, C1, C2, c1, c2, e1, e2. do 6 (split; [assumption|]). split; assumption.
Qed.

Lemma fixed_tradeoff svd p n m dim (Q : Mat RNum) k l1 l2 : good_solver svd -> shape dim (S m) Q -> (1 <= p <= n)%nat -> (2 <= n <= m)%nat ->
  (1 <= k <= n - 2)%nat -> 0 <= l1 -> l1 <= l2 ->
  exists U C1 C2 c1 c2 e1 e2, generate svd (LeastSquaresFit p Q n FixedEnds (Some (mkPen l1 k))) = Val (Ok c1) /\ generate svd (LeastSquaresFit p Q n FixedEnds (Some (mkPen l2 k))) = Val (Ok c2) /\
    clamped_curve p n dim U C1 c1 /\ clamped_curve p n dim U C2 c2 /\ data_error c1 dim m Q e1 /\ data_error c2 dim m Q e2 /\
    e1 <= e2 /\ roughness k (n - 1 - k) 1 dim C2 <= roughness k (n - 1 - k) 1 dim C1.
Proof.
  intros GS SQ Hp Hm Hk H0 H1.
  destruct (fixed_fit_fact svd p n m dim Q (Some (@mkPen RNum l1 k)) GS SQ Hp Hm) as [U [C1 [c1 [e1 [E1 [HC1 [UK1 [DE1 [R0 [R1 UN1]]]]]]]]]]; [intros q Eq; injection Eq as <-; cbn [lambda kappa]; rn; split; [exact H0|exact Hk]|].
  destruct (fixed_fit_fact svd p n m dim Q (Some (@mkPen RNum l2 k)) GS SQ Hp Hm) as [U' [C2 [c2 [e2 [E2 [HC2 [UK2 [DE2 [R0' [R1' UN2]]]]]]]]]]; [intros q Eq; injection Eq as <-; cbn [lambda kappa]; rn; split; [lra|exact Hk]|].
  assert (U = U') as <- by (apply (uniform_list p n); [apply HC1|apply HC2|exact UK1|exact UK2]).
  destruct (Req_dec l1 l2) as [EQ|NE].
  - subst l2. rewrite E1 in E2. injection E2 as <-. exists U, C1, C1, c1, c1, e1, e1. do 6 (split; [assumption|]). split; lra.
  - destruct (UN1 C2 c2 e2 HC2 DE2 R0' R1') as [A _]. destruct (UN2 C1 c1 e1 HC1 DE1 R0 R1) as [B _]. unfold penalty in A, B. cbn [lambda kappa] in A, B.
    destruct (trade e1 e2 _ _ l1 l2 H0 H1 A B ltac:(lra)) as [T1 T2].
    exists U, C1, C2, c1, c2, e1, e2. do 6 (split; [assumption|]). split; assumption.
Qed.

(** ** Fixed ends cost accuracy *)
Lemma ends_cost svd p n m dim (Q : Mat RNum) : good_solver svd -> shape dim (S m) Q -> (1 <= p <= n)%nat -> (2 <= n <= m)%nat ->
  exists cl cf el ef, generate svd (LeastSquaresFit p Q n LooseEnds None) = Val (Ok cl) /\ generate svd (LeastSquaresFit p Q n FixedEnds None) = Val (Ok cf) /\
    data_error cl dim m Q el /\ data_error cf dim m Q ef /\ el <= ef.
Proof.
  intros GS SQ Hp Hm.
  destruct (loose_fit_fact svd p n m dim Q None GS SQ Hp ltac:(lia)) as [U [C1 [c1 [e1 [E1 [HC1 [UK1 [DE1 UN1]]]]]]]]; [intros q Eq; discriminate Eq|].
  destruct (fixed_fit_fact svd p n m dim Q None GS SQ Hp Hm) as [U' [C2 [c2 [e2 [E2 [HC2 [UK2 [DE2 _]]]]]]]]; [intros q Eq; discriminate Eq|].
  assert (U = U') as <- by (apply (uniform_list p n); [apply HC1|apply HC2|exact UK1|exact UK2]).
  destruct (UN1 C2 c2 e2 HC2 DE2) as [A _]. cbn [penalty] in A. exists c1, c2, e1, e2. repeat (split; [assumption|]). lra.
Qed.

(** ** Nested knots *)
Lemma clamped_parts p n U : clamped p n U -> U = repeat 0 (p + 1) ++ firstn (n - p) (skipn (p + 1) U) ++ repeat 1 (p + 1).
Proof.
  intros C. assert (L := cl_len _ _ _ C). assert (D := cl_deg _ _ _ C).
  assert (LM : length (firstn (n - p) (skipn (p + 1) U)) = (n - p)%nat) by (rewrite firstn_length, skipn_length; lia).
  apply (list_ext 0); [rewrite !app_length, !repeat_length, LM; lia|]. intros i Hi.
  destruct (le_lt_dec i p) as [A|A].
  - rewrite app_nth1 by (rewrite repeat_length; lia). rewrite (cl_zero _ _ _ C) by exact A.
    symmetry. apply (repeat_spec (p + 1)). apply nth_In. rewrite repeat_length. lia.
  - rewrite app_nth2 by (rewrite repeat_length; lia). rewrite repeat_length. destruct (le_lt_dec i n) as [B|B].
    + rewrite app_nth1 by lia. rewrite nth_firstn by lia. rewrite nth_skipn. f_equal. lia.
    + rewrite app_nth2 by lia. rewrite LM. rewrite (cl_one _ _ _ C) by lia. symmetry. apply (repeat_spec (p + 1)). apply nth_In. rewrite repeat_length. lia.
Qed.

Lemma uniform_inner p n U : clamped p n U -> uniform_knots p n U -> firstn (n - p) (skipn (p + 1) U) = map (fun j => INR j / INR (n - p + 1)) (seq 1 (n - p)).
Proof.
  intros C K. assert (L := cl_len _ _ _ C). assert (D := cl_deg _ _ _ C).
  apply (list_ext 0); [rewrite firstn_length, skipn_length, map_length, seq_length; lia|]. intros i Hi. rewrite firstn_length, skipn_length in Hi.
  rewrite nth_firstn by lia. rewrite nth_skipn. rewrite K by lia.
  rewrite <- seq_shift, map_map, nth_seq_map by lia. do 2 f_equal. lia.
Qed.

Lemma fill {A} (l : list A) : forall l', NoDup l -> incl l l' -> exists us, Permutation (us ++ l) l'.
Proof.
  induction l as [|a l IH]; intros l' N I.
  - exists l'. rewrite app_nil_r. apply Permutation_refl.
  - inversion N as [|? ? N1 N2]; subst. destruct (in_split a l' (I a ltac:(left; reflexivity))) as [x [y ->]].
    destruct (IH (x ++ y) N2) as [us Hus].
    + intros b Hb. assert (T := I b ltac:(right; exact Hb)). apply in_app_iff in T. apply in_app_iff. destruct T as [T|[T|T]]; [left; exact T|subst b; contradiction|right; exact T].
    + exists us. eapply Permutation_trans; [apply Permutation_sym, Permutation_middle|]. eapply Permutation_trans; [apply perm_skip; exact Hus|apply Permutation_middle].
Qed.

Lemma grid_NoDup N : (1 <= N)%nat -> forall a k, NoDup (map (fun j => INR j / INR N) (seq a k)).
Proof.
  intros HN a k. apply FinFun.Injective_map_NoDup; [|apply seq_NoDup]. intros x y E. assert (P := INR_pos N HN). apply INR_eq.
  apply (f_equal (fun z => z * INR N)) in E. unfold Rdiv in E. rewrite !Rmult_assoc, Rinv_l, !Rmult_1_r in E by lra. exact E.
Qed.

Lemma nested_knots p n n' k U U' : (1 <= p)%nat -> (1 <= k)%nat -> (n' - p + 1 = k * (n - p + 1))%nat -> clamped p n U -> uniform_knots p n U -> clamped p n' U' -> uniform_knots p n' U' ->
  exists us, Permutation (us ++ U) U' /\ (forall u, In u us -> 0 < u < 1) /\ (forall x, 0 < x < 1 -> (mult U' x <= 1)%nat).
Proof.
  intros Hp Hk HN C K C' K'. assert (D := cl_deg _ _ _ C). assert (D' := cl_deg _ _ _ C').
  assert (E := clamped_parts p n U C). assert (E' := clamped_parts p n' U' C'). rewrite (uniform_inner p n U C K) in E. rewrite (uniform_inner p n' U' C' K') in E'.
  set (I := map (fun j => INR j / INR (n - p + 1)) (seq 1 (n - p))) in *. set (I' := map (fun j => INR j / INR (n' - p + 1)) (seq 1 (n' - p))) in *.
  assert (P0 : 0 < INR (n - p + 1)) by (apply INR_pos; lia). assert (P0' : 0 < INR (n' - p + 1)) by (apply INR_pos; lia). assert (PK : 0 < INR k) by (apply INR_pos; lia).
  destruct (fill I I') as [us Hus].
  - apply grid_NoDup. lia.
  - intros x Hx. apply in_map_iff in Hx. destruct Hx as [j [Ej Hj]]. apply in_seq in Hj. apply in_map_iff. exists (k * j)%nat. split.
    + rewrite HN, !mult_INR, <- Ej. field. split; lra.
    + apply in_seq. split; [nia|]. assert (k * j < k * (n - p + 1))%nat by (apply Nat.mul_lt_mono_pos_l; lia). lia.
  - assert (M : forall x, 0 < x < 1 -> mult U' x = count_occ Req_EM_T I' x).
    { intros x Hx. unfold mult. rewrite E' at 1. rewrite !count_occ_app. rewrite !count_occ_repeat_neq by lra. lia. }
    exists us. split; [|split].
    + rewrite E, E'. eapply Permutation_trans; [apply Permutation_app_swap_app|]. apply Permutation_app_head. rewrite app_assoc. apply Permutation_app_tail. exact Hus.
    + intros u Hu. assert (T : In u I') by (apply (Permutation_in u Hus); apply in_app_iff; left; exact Hu).
      apply in_map_iff in T. destruct T as [j [<- Hj]]. apply in_seq in Hj. assert (INR j < INR (n' - p + 1)) by (apply lt_INR; lia). assert (0 < INR j) by (apply INR_pos; lia).
      split; [apply Rdiv_lt_0_compat; assumption|]. apply Rmult_lt_reg_r with (INR (n' - p + 1)); [assumption|]. unfold Rdiv. rewrite Rmult_assoc, Rinv_l, Rmult_1_r by lra. lra.
    + intros x Hx. rewrite M by exact Hx. apply (proj1 (NoDup_count_occ Req_EM_T I')). apply grid_NoDup. lia.
Qed.

Lemma segments_help svd p n n' m dim k (Q : Mat RNum) : good_solver svd -> shape dim (S m) Q -> (1 <= p <= n)%nat -> (n <= m)%nat -> (p <= n' <= m)%nat ->
  (1 <= k)%nat -> (n' - p + 1 = k * (n - p + 1))%nat ->
  exists c c' e e', generate svd (LeastSquaresFit p Q n LooseEnds None) = Val (Ok c) /\ generate svd (LeastSquaresFit p Q n' LooseEnds None) = Val (Ok c') /\
    data_error c dim m Q e /\ data_error c' dim m Q e' /\ e' <= e.
Proof.
  intros GS SQ Hp Hm Hm' Hk HN. assert (Hp' : (1 <= p <= n')%nat) by lia.
  destruct (loose_fit_fact svd p n m dim Q None GS SQ Hp Hm) as [U [C1 [c1 [e1 [E1 [HC1 [UK1 [DE1 _]]]]]]]]; [intros q Eq; discriminate Eq|].
  destruct (loose_fit_fact svd p n' m dim Q None GS SQ Hp' ltac:(lia)) as [U' [C2 [c2 [e2 [E2 [HC2 [UK2 [DE2 UN2]]]]]]]]; [intros q Eq; discriminate Eq|].
  exists c1, c2, e1, e2. repeat (split; [assumption|]).
  destruct (nested_knots p n n' k U U' ltac:(lia) Hk HN (proj1 HC1) UK1 (proj1 HC2) UK2) as [us [PE [IN SI]]].
  assert (LU := Permutation_length PE). rewrite app_length, (cl_len _ _ _ (proj1 HC1)), (cl_len _ _ _ (proj1 HC2)) in LU.
  destruct (insert_list us p n dim U C1 c1 HC1) as [c3 [U3 [C3 [_ [HC3 [PE3 SF]]]]]].
  - intros u Hu. split; [apply IN; exact Hu|]. intros x Hx. rewrite (mult_perm _ _ x PE). apply SI. assert (T := IN u Hu). lra.
  - intros x Hx. rewrite (mult_perm _ _ x PE). assert (T := SI x Hx). lia.
  - replace (n + length us)%nat with n' in HC3 by lia.
    assert (U3 = U') as ->.
    { apply sorted_perm_eq; [apply (clamped_sorted' _ _ _ (proj1 HC3))|apply (clamped_sorted' _ _ _ (proj1 HC2))|]. eapply Permutation_trans; [apply Permutation_sym; exact PE3|exact PE]. }
    assert (DE3 : data_error c3 dim m Q e1).
    { destruct DE1 as [f [F ->]]. exists f. split; [|reflexivity]. intros g Hg. unfold evaluate. rewrite (SF (INR g / INR m) 0%nat). apply F. exact Hg. }
    destruct (UN2 C3 c3 e1 HC3 DE3) as [A _]. cbn [penalty] in A. lra.
Qed.

(** ** The residual is orthogonal to the curves with the same knots *)
Section Orth.
  Variables (svd : Mat RNum -> Mat RNum -> M (Mat RNum)) (p n m dim : nat) (pen : option (Penalization RNum)).
  Hypothesis GS : good_solver svd.
  Hypothesis Hp : (1 <= p <= n)%nat.
  Hypothesis Hm : (n <= m)%nat.
  Hypothesis HP : forall q, pen = Some q -> 0 <= lambda q /\ (1 <= kappa q <= n - 1)%nat.
  Notation F U := (form p n m U (fun g => INR g / INR m) pen (S n) 0).

  Lemma loose_stationary (Q : Mat RNum) : shape dim (S m) Q ->
    exists U C c e, generate svd (LeastSquaresFit p Q n LooseEnds pen) = Val (Ok c) /\ clamped_curve p n dim U C c /\ uniform_knots p n U /\ data_error c dim m Q e /\
      forall d y, (d < dim)%nat -> F U (fun i => ent C i d) (fun g => ent Q g d) y = 0.
  Proof.
    intros SQ. destruct (loose_fit_fact svd p n m dim Q pen GS SQ Hp Hm HP) as [U [C [c [e [E [HC [UK [DE UN]]]]]]]].
    exists U, C, c, e. repeat (split; [assumption|]). assert (Hm1 : (1 <= m)%nat) by lia.
    assert (L := pen_lam pen ltac:(intros q Eq; apply (HP q Eq))). intros d y Hd.
    apply (min_stationary p n m U _ pen (S n) 0 (fun _ => True) dim Q C L ltac:(lia)); [|exact Hd|exact I].
    intros C2 _ S2. destruct (new_curve p n dim U C2 (proj1 HC) S2) as [c2 H2].
    destruct (UN C2 c2 _ H2 (proj2 (data_error_val p n dim m U C2 c2 Q _ H2 Hm1) eq_refl)) as [M _].
    rewrite (proj1 (data_error_val p n dim m U C c Q _ HC Hm1) DE) in M. exact M.
  Qed.

  (** samples of a curve *)
  Definition samples (c : Curve RNum) (f : nat -> nat -> R) : Prop := forall g, (g <= m)%nat -> returns (evaluate c (INR g / INR m)) dim (f g).

  Lemma samples_spline U C c f : clamped_curve p n dim U C c -> samples c f -> forall g d, (g <= m)%nat -> (d < dim)%nat -> f g d = spline (kfun U) n p (fun i => ent C i d) (INR g / INR m).
  Proof.
    intros H Sf g d Hg Hd. destruct (Sf g Hg) as [x [X1 [X2 X3]]]. assert (Hu : 0 <= INR g / INR m <= 1) by (apply frac01; lia).
    destruct (cc_eval0 p n dim U C c _ H Hu) as [y [Y1 [Y2 Y3]]]. unfold evaluate in *. rewrite X1 in Y1. injection Y1 as <-.
    rewrite <- X3 by exact Hd. rewrite Y3 by exact Hd. reflexivity.
  Qed.

  Lemma samples_ex U C c : clamped_curve p n dim U C c -> samples c (fun g d => spline (kfun U) n p (fun i => ent C i d) (INR g / INR m)).
  Proof. intros H g Hg. apply (cc_eval0 p n dim U C c _ H). apply frac01; lia. Qed.

  Lemma centre_of_mass (Q : Mat RNum) : shape dim (S m) Q -> exists c, generate svd (LeastSquaresFit p Q n LooseEnds pen) = Val (Ok c) /\
    forall f, samples c f -> forall d, (d < dim)%nat -> rsum (fun g => f g d) (S m) = rsum (fun g => ent Q g d) (S m).
  Proof.
    intros SQ. destruct (loose_stationary Q SQ) as [U [C [c [e [E [HC [UK [DE ST]]]]]]]]. exists c. split; [exact E|]. intros f Sf d Hd.
    assert (T := ST d (fun _ => 1) Hd). unfold form in T. assert (FC := kfun_clamped p n U (proj1 HC)).
    rewrite (rsum_zero (fun r => _ * Dv pen 0 (fun _ => 1) r)) in T.
    - rewrite Rmult_0_r, Rplus_0_r in T.
      rewrite (rsum_ext _ (fun g => f g d + -1 * ent Q g d)) in T.
      + rewrite rsum_plus, rsum_scal in T. lra.
      + intros g Hg. unfold Sv. rewrite (spline_one p n (kfun U) FC) by (apply frac01; lia). rewrite (samples_spline U C c f HC Sf) by (try lia; exact Hd). ring.
    - intros r Hr. unfold Dv. rewrite fdiff_const by (apply pen_kap; intros q Eq; apply (HP q Eq)). ring.
  Qed.

  Lemma cauchy K (x y : nat -> R) : rsum (fun g => x g * y g) K <= sqrt (rsum (fun g => x g ^ 2) K) * sqrt (rsum (fun g => y g ^ 2) K).
  Proof. apply (Shape3.dot_le K x y). Qed.

  Lemma noise (Q Q' : Mat RNum) : shape dim (S m) Q -> shape dim (S m) Q' ->
    exists c c', generate svd (LeastSquaresFit p Q n LooseEnds pen) = Val (Ok c) /\ generate svd (LeastSquaresFit p Q' n LooseEnds pen) = Val (Ok c') /\
      forall f f', samples c f -> samples c' f' -> forall d, (d < dim)%nat ->
        rsum (fun g => (f' g d - f g d) ^ 2) (S m) <= rsum (fun g => (ent Q' g d - ent Q g d) ^ 2) (S m).
  Proof.
    intros SQ SQ'. destruct (loose_stationary Q SQ) as [U [C [c [e [E [HC [UK [DE ST]]]]]]]]. destruct (loose_stationary Q' SQ') as [U' [C' [c' [e' [E' [HC' [UK' [DE' ST']]]]]]]].
    assert (U = U') as <- by (apply (uniform_list p n); [apply HC|apply HC'|exact UK|exact UK']).
    exists c, c'. split; [exact E|]. split; [exact E'|]. intros f f' Sf Sf' d Hd.
    assert (L := pen_lam pen ltac:(intros q Eq; apply (HP q Eq))).
    set (y := fun i => ent C' i d + -1 * ent C i d). assert (T := ST d y Hd). assert (T' := ST' d y Hd). unfold form in T, T'.
    set (t := fun g => INR g / INR m) in *.
    assert (YS : forall g, (g < S m)%nat -> Sv p n U t y g = f' g d - f g d).
    { intros g Hg. unfold y. rewrite Sv_lin. unfold Sv, t. rewrite (samples_spline U C c f HC Sf), (samples_spline U C' c' f' HC' Sf') by (try lia; exact Hd). ring. }
    set (N := (S n - kap pen)%nat) in *.
    set (DY := rsum (fun r => Dv pen 0 y r ^ 2) N).
    assert (DN : 0 <= DY) by (apply rsum_nonneg; intros; apply pow2_ge_0).
    assert (EQ : rsum (fun g => (f' g d - f g d) ^ 2) (S m) + lam pen * DY = rsum (fun g => (ent Q' g d - ent Q g d) * (f' g d - f g d)) (S m)).
    { assert (A : rsum (fun g => (Sv p n U t (fun i => ent C' i d) g - ent Q' g d) * Sv p n U t y g) (S m) =
                  rsum (fun g => (Sv p n U t (fun i => ent C i d) g - ent Q g d) * Sv p n U t y g) (S m) +
                  (rsum (fun g => (f' g d - f g d) ^ 2) (S m) + -1 * rsum (fun g => (ent Q' g d - ent Q g d) * (f' g d - f g d)) (S m))).
      { rewrite <- rsum_scal, <- !rsum_plus. apply rsum_ext. intros g Hg. rewrite YS by exact Hg. unfold Sv, t. rewrite <- (samples_spline U C c f HC Sf), <- (samples_spline U C' c' f' HC' Sf') by (try lia; exact Hd). ring. }
      assert (B : rsum (fun r => Dv pen 0 (fun i => ent C' i d) r * Dv pen 0 y r) N = rsum (fun r => Dv pen 0 (fun i => ent C i d) r * Dv pen 0 y r) N + DY).
      { unfold DY. rewrite <- rsum_plus. apply rsum_ext. intros r Hr. assert (DY1 : Dv pen 0 y r = Dv pen 0 (fun i => ent C' i d) r + -1 * Dv pen 0 (fun i => ent C i d) r) by (unfold y; apply Dv_lin). rewrite DY1. ring. }
      rewrite A, B in T'. lra. }
    set (X := rsum (fun g => (f' g d - f g d) ^ 2) (S m)) in *. set (Z := rsum (fun g => (ent Q' g d - ent Q g d) ^ 2) (S m)).
    assert (X0 : 0 <= X) by (apply rsum_nonneg; intros; apply pow2_ge_0). assert (Z0 : 0 <= Z) by (apply rsum_nonneg; intros; apply pow2_ge_0).
    assert (CS := cauchy (S m) (fun g => ent Q' g d - ent Q g d) (fun g => f' g d - f g d)). cbv beta in CS. fold X Z in CS. rewrite <- EQ in CS.
    assert (LD := Rmult_le_pos _ _ L DN). assert (IX : X <= sqrt Z * sqrt X) by lra.
    assert (SX := sqrt_pos X). assert (SZ := sqrt_pos Z). assert (QX := sqrt_sqrt X X0). assert (QZ := sqrt_sqrt Z Z0).
    destruct (Req_dec (sqrt X) 0) as [Z1|Z1]; [rewrite Z1 in QX; lra|]. assert (SL : sqrt X <= sqrt Z) by (apply Rmult_le_reg_r with (sqrt X); lra). apply sqrt_le_0; assumption.
  Qed.
End Orth.

Lemma orthogonal svd p n m dim (Q : Mat RNum) : good_solver svd -> shape dim (S m) Q -> (1 <= p <= n)%nat -> (n <= m)%nat ->
  exists U C c e, generate svd (LeastSquaresFit p Q n LooseEnds None) = Val (Ok c) /\ clamped_curve p n dim U C c /\ data_error c dim m Q e /\
    forall P s f h, clamped_curve p n dim U P s -> samples m dim c f -> samples m dim s h ->
      rsum (fun g => rsum (fun d => (f g d - ent Q g d) * h g d) dim) (S m) = 0 /\
      data_error s dim m Q (e + rsum (fun g => rsum (fun d => (h g d - f g d) ^ 2) dim) (S m)).
Proof.
  intros GS SQ Hp Hm. destruct (loose_stationary svd p n m dim None GS Hp Hm ltac:(intros q Eq; discriminate Eq) Q SQ) as [U [C [c [e [E [HC [UK [DE ST]]]]]]]].
  exists U, C, c, e. repeat (split; [assumption|]). intros P s f h HS Sf Sh.
  assert (O : forall y, rsum (fun g => rsum (fun d => (f g d - ent Q g d) * spline (kfun U) n p (y d) (INR g / INR m)) dim) (S m) = 0).
  { intros y. rewrite rsum_swap. apply rsum_zero. intros d Hd. assert (T := ST d (y d) Hd). unfold form in T. cbn [lam] in T. rewrite Rmult_0_l, Rplus_0_r in T. rewrite <- T. apply rsum_ext. intros g Hg.
    unfold Sv. rewrite (samples_spline p n m dim Hp Hm U C c f HC Sf) by (try lia; exact Hd). reflexivity. }
  assert (O1 : rsum (fun g => rsum (fun d => (f g d - ent Q g d) * h g d) dim) (S m) = 0).
  { rewrite <- (O (fun d i => ent P i d)). apply rsum_ext. intros g Hg. apply rsum_ext. intros d Hd. rewrite (samples_spline p n m dim Hp Hm U P s h HS Sh) by (try lia; exact Hd). reflexivity. }
  assert (O2 : rsum (fun g => rsum (fun d => (f g d - ent Q g d) * f g d) dim) (S m) = 0).
  { rewrite <- (O (fun d i => ent C i d)). apply rsum_ext. intros g Hg. apply rsum_ext. intros d Hd. rewrite <- (samples_spline p n m dim Hp Hm U C c f HC Sf) by (try lia; exact Hd). reflexivity. }
  split; [exact O1|]. exists h. split; [exact Sh|].
  assert (EE : e = rsum (fun g => rsum (fun d => (f g d - ent Q g d) ^ 2) dim) (S m)).
  { rewrite (proj1 (data_error_val p n dim m U C c Q e HC ltac:(lia)) DE). unfold fit_error. apply rsum_ext. intros g Hg. apply rsum_ext. intros d Hd.
    rewrite (samples_spline p n m dim Hp Hm U C c f HC Sf) by (try lia; exact Hd). reflexivity. }
  rewrite EE, <- rsum_plus.
  rewrite (rsum_ext (fun g => rsum (fun d => (h g d - ent Q g d) ^ 2) dim)
    (fun g => (rsum (fun d => (f g d - ent Q g d) ^ 2) dim + rsum (fun d => (h g d - f g d) ^ 2) dim) + (2 * rsum (fun d => (f g d - ent Q g d) * h g d) dim + -2 * rsum (fun d => (f g d - ent Q g d) * f g d) dim))).
  - rewrite (rsum_plus _ (fun g => 2 * _ + -2 * _)). rewrite (rsum_plus (fun g => 2 * _)), !rsum_scal, O1, O2. ring.
  - intros g Hg. rewrite <- !rsum_scal, <- !rsum_plus. apply rsum_ext. intros d Hd. rn. ring.
Qed.
