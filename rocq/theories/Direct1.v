(** * Which calls look at the cached derivatives, and how to recompute them *)

From Coq Require Import ZArith List Bool Arith Lia.
From Verif Require Import Num Vec MKnots MPoints MCurve MFit MMerge MDirect Lists Struct Api ApiU Facts6.
Import ListNotations.

Section Direct.
  Context {K : Num}.
  Notation Vec := (list K).
  Notation Knots := (Knots K).
  Notation ControlPoints := (ControlPoints K).
  Notation Curve := (Curve K).

  Lemma alike_refl (c : Curve) : alike c c.
  Proof. repeat split. Qed.
  Lemma alike_sym (c c' : Curve) : alike c c' -> alike c' c.
  Proof. intros (A & B & C). repeat split; symmetry; assumption. Qed.
  Lemma alike_trans (a b c : Curve) : alike a b -> alike b c -> alike a c.
  Proof. intros (A & B & C) (A' & B' & C'). repeat split; etransitivity; eassumption. Qed.

  (** level 0 of the knots decides *)
  Definition kalike (kn kn' : Knots) : Prop := kp kn = kp kn' /\ vget (Uk kn) 0 = vget (Uk kn') 0.
  Definition palike (cp cp' : ControlPoints) : Prop := vget (Pk cp) 0 = vget (Pk cp') 0.

  Lemma alike_parts (c c' : Curve) : alike c c' <-> kalike (cknots c) (cknots c') /\ palike (cpoints c) (cpoints c').
  Proof. unfold alike, kalike, palike, degree, kdegree, vector, cp_matrix. tauto. Qed.

  Lemma ksegments_al kn kn' : kalike kn kn' -> ksegments kn = ksegments kn'.
  Proof. intros [A B]. unfold ksegments, segments_derivative, klen. rewrite A, B. reflexivity. Qed.

  Lemma multiplicity_al kn kn' u : kalike kn kn' -> multiplicity kn u = multiplicity kn' u.
  Proof.
    intros H. unfold multiplicity, domain, domain_derivative, domain_count. rewrite (ksegments_al _ _ H). destruct H as [A B]. rewrite A, B. reflexivity.
  Qed.

  Lemma find_idx_al kn kn' u cmp : kalike kn kn' -> find_idx kn u 0 cmp = find_idx kn' u 0 cmp.
  Proof.
    intros H. unfold find_idx, vector_derivative, kdegree. rewrite (ksegments_al _ _ H). destruct H as [A B]. rewrite A, B. reflexivity.
  Qed.

  Lemma kevaluate_al kn kn' i p u : kalike kn kn' -> kevaluate kn 0 i p u = kevaluate kn' 0 i p u.
  Proof. intros H. unfold kevaluate. rewrite (ksegments_al _ _ H). destruct H as [A B]. rewrite B. reflexivity. Qed.

  Lemma cp_segments_al cp cp' : palike cp cp' -> cp_segments cp = cp_segments cp'.
  Proof. intros H. unfold cp_segments, cp_count, count_derivative. rewrite H. reflexivity. Qed.
  Lemma cp_dimension_al cp cp' : palike cp cp' -> cp_dimension cp = cp_dimension cp'.
  Proof. intros H. unfold cp_dimension, cp_matrix. rewrite H. reflexivity. Qed.
  Lemma matrix0_al cp cp' : palike cp cp' -> matrix_derivative cp 0 = matrix_derivative cp' 0.
  Proof. intros H. unfold matrix_derivative. cbn [Nat.leb assert bind]. exact H. Qed.

  Lemma bind_ext {A B} (x : M A) (f g : A -> M B) : (forall a, f a = g a) -> bind x f = bind x g.
  Proof. intros H. destruct x; cbn; [apply H|reflexivity..]. Qed.

  Lemma evaluate_al (c c' : Curve) u : alike c c' -> evaluate c u = evaluate c' u.
  Proof.
    intros H. apply alike_parts in H. destruct H as [HK HP]. unfold evaluate, evaluate_derivative, dimension, segments, degree, kdegree.
    rewrite (find_idx_al _ _ u CLeftOrEqual HK), (cp_segments_al _ _ HP), (cp_dimension_al _ _ HP).
    destruct (negb _); [reflexivity|]. apply bind_ext. intros d. rewrite (proj1 HK). destruct (0 <=? kp (cknots c')); [|reflexivity].
    do 5 (apply bind_ext; intros ?). f_equal. apply foldM_ext. intros s x _. rewrite (kevaluate_al _ _ x (kp (cknots c')) u HK), (matrix0_al _ _ HP). reflexivity.
  Qed.

  (** ** recomputing the caches *)

  Lemma firstn1 {A} (l l' : list A) : vget l 0 = vget l' 0 -> firstn 1 l = firstn 1 l'.
  Proof. unfold vget. destruct l, l'; cbn; congruence. Qed.

  Lemma knots_derive_al kn kn' : kalike kn kn' -> knots_derive kn = knots_derive kn'.
  Proof. intros [A B]. unfold knots_derive. rewrite A, (firstn1 _ _ B). reflexivity. Qed.

  Lemma derive_point_al cp cp' kn kn' k : kalike kn kn' -> palike cp cp' -> forall i, derive_single_point cp kn k i = derive_single_point cp' kn' k i.
  Proof.
    intros HK HP. induction k as [|k IH]; intros i; cbn [derive_single_point]; [rewrite HP; reflexivity|].
    unfold kdegree, vector. rewrite (proj1 HK), (proj2 HK), (cp_dimension_al _ _ HP). do 3 (apply bind_ext; intros ?). destruct (neqb _ _); [reflexivity|].
    do 2 (apply bind_ext; intros ?). rewrite (IH (i + 1)), (IH i). reflexivity.
  Qed.

  Lemma palike_app l x m m' : l <> [] -> palike (mkCP (l ++ x) m) (mkCP l m').
  Proof. intros H. unfold palike. destruct l; [contradiction|reflexivity]. Qed.

  Lemma derive_loop_al kn kn' n js : kalike kn kn' -> forall l m m',
    let step kn := (fun cp k =>
                    nk <- usub n k;;
                    d <- cp_dimension cp;;
                    Pnew <- foldM (fun P i => v <- derive_single_point cp kn k i;; mset_col P i v)
                              (range 0 (nk + 1)) (mzeros d (nk + 1));;
                    Val (mkCP (Pk cp ++ [Pnew]) (pk_max cp))) in
    (cp1 <- foldM (step kn) js (mkCP l m);; Val (Pk cp1)) = (cp1 <- foldM (step kn') js (mkCP l m');; Val (Pk cp1)).
  Proof.
    intros HK l m m' step. revert l. induction js as [|k js IH]; intros l; cbn [foldM bind]; [reflexivity|].
    assert (E : forall (A B : list (Mat K)) m, palike (mkCP A m) (mkCP A m')) by reflexivity.
    unfold step at 1 3. destruct (usub n k); cbn [bind]; try reflexivity.
    change (cp_dimension (mkCP l m)) with (cp_dimension (mkCP l m')). destruct (cp_dimension (mkCP l m')); cbn [bind]; try reflexivity.
    rewrite (foldM_ext (fun P i => v <- derive_single_point (mkCP l m) kn k i;; mset_col P i v) (fun P i => v <- derive_single_point (mkCP l m') kn' k i;; mset_col P i v)).
    2: { intros s x _. rewrite (derive_point_al (mkCP l m) (mkCP l m') kn kn' k HK eq_refl). reflexivity. }
    destruct (foldM _ _ _); cbn [bind Pk pk_max]; try reflexivity. apply IH.
  Qed.

  Lemma bind_pair {A B C D} (x : M A) (y : M B) (f : A -> C) (g : B -> C) (h : C -> M D) :
    (a <- x;; Val (f a)) = (b <- y;; Val (g b)) -> (a <- x;; h (f a)) = (b <- y;; h (g b)).
  Proof. destruct x, y; cbn; intros E; try discriminate; try reflexivity. inversion E as [E1]. rewrite E1. reflexivity. Qed.

  Lemma points_derive_al cp cp' kn kn' : kalike kn kn' -> palike cp cp' -> points_derive cp kn = points_derive cp' kn'.
  Proof.
    intros HK HP. unfold points_derive, kdegree. rewrite (cp_segments_al _ _ HP). apply bind_ext. intros n. rewrite (proj1 HK), (firstn1 _ _ HP).
    apply (bind_pair _ _ (fun c => Pk c) (fun c => Pk c) (fun l => Val (mkCP l (kp kn')))).
    apply derive_loop_al. exact HK.
  Qed.

  Lemma calculate_al (c c' : Curve) : alike c c' -> calculate_derivatives c = calculate_derivatives c'.
  Proof.
    intros H. apply alike_parts in H. destruct H as [HK HP]. unfold calculate_derivatives. rewrite (knots_derive_al _ _ HK). apply bind_ext. intros kn.
    rewrite (points_derive_al _ (cpoints c') kn kn); [reflexivity|split; reflexivity|exact HP].
  Qed.

  Lemma curve_new_al kn kn' cp cp' : kalike kn kn' -> palike cp cp' -> curve_new kn cp = curve_new kn' cp'.
  Proof.
    intros HK HP. unfold curve_new, kdegree. rewrite (cp_segments_al _ _ HP), (proj1 HK). apply bind_ext. intros n. destruct (n <? kp kn'); [reflexivity|].
    rewrite (calculate_al (mkCurve kn cp) (mkCurve kn' cp')); [reflexivity|]. apply alike_parts. split; assumption.
  Qed.

  (** ** insertion and splitting *)

  Lemma vset0 {A} (l : list A) x y : vget l 0 = Val x -> exists t, vset l 0 y = Val (y :: t).
  Proof. destruct l as [|a t]; [discriminate|]. intros _. exists t. reflexivity. Qed.

  Definition same_insert (r r' : M (Curve * result unit (InsertError K))) : Prop :=
    (exists c1, r = Val (c1, Ok tt) /\ r' = Val (c1, Ok tt)) \/
    (exists c1 c2 e, r = Val (c1, Err e) /\ r' = Val (c2, Err e) /\ alike c1 c2) \/
    (r = Panic /\ r' = Panic) \/ (r = Undef /\ r' = Undef) \/ (r = Diverge /\ r' = Diverge).

  Lemma same_insert_bind {A} (x : M A) f g : (forall a, x = Val a -> same_insert (f a) (g a)) -> same_insert (bind x f) (bind x g).
  Proof. destruct x; cbn; intros H; [apply H; reflexivity|..]; unfold same_insert; tauto. Qed.

  Lemma insert_al (c c' : Curve) u : alike c c' -> same_insert (insert c u) (insert c' u).
  Proof.
    intros H. pose proof H as HA. apply alike_parts in H. destruct H as [HK HP]. unfold insert, degree, kdegree.
    destruct (_ || _); [right; left; exists c, c', (IOutOfBounds u n0 n1); repeat split; apply HA|].
    rewrite (multiplicity_al _ _ u HK), (proj1 HK). apply same_insert_bind. intros m _. destruct (kp (cknots c') <? m); [right; left; exists c, c'; eexists; repeat split; apply HA|].
    rewrite (cp_dimension_al _ _ HP), (find_idx_al _ _ u CLeftOrEqual HK). unfold vector, cp_matrix. rewrite (proj2 HK), HP.
    apply same_insert_bind. intros dim _. apply same_insert_bind. intros U EU. apply same_insert_bind. intros P EP.
    apply same_insert_bind. intros l _. apply same_insert_bind. intros U' _. apply same_insert_bind. intros P' _.
    rewrite <- (proj2 HK) in EU. destruct (vset0 _ _ U' EU) as [t ->]. rewrite (proj2 HK) in EU. destruct (vset0 _ _ U' EU) as [t' ->].
    pose proof EP as EP0. rewrite <- HP in EP0. destruct (vset0 _ _ P' EP0) as [s ->]. destruct (vset0 _ _ P' EP) as [s' ->]. cbn [bind].
    rewrite (calculate_al (mkCurve (mkKnots (U' :: t) (kp (cknots c')) (kk_max (cknots c))) (mkCP (P' :: s) (pk_max (cpoints c))))
                          (mkCurve (mkKnots (U' :: t') (kp (cknots c')) (kk_max (cknots c'))) (mkCP (P' :: s') (pk_max (cpoints c'))))) by (repeat split).
    destruct (calculate_derivatives _) as [c1| | |]; cbn [bind]; [left; exists c1; split; reflexivity|unfold same_insert; tauto..].
  Qed.

  Lemma insert_times_al x : forall (c c' : Curve) u, alike c c' ->
    insert_times c u (S x) = insert_times c' u (S x) \/ exists c1 c2 e, insert_times c u (S x) = Val (c1, Err e) /\ insert_times c' u (S x) = Val (c2, Err e) /\ alike c1 c2.
  Proof.
    intros c c' u H. cbn [insert_times]. destruct (insert_al c c' u H) as [(c1 & -> & ->)|[(c1 & c2 & e & -> & -> & A)|[[-> ->]|[[-> ->]|[-> ->]]]]]; cbn [bind]; try (left; reflexivity).
    right. exists c1, c2, e. repeat split; apply A.
  Qed.

  Lemma split_al (c c' : Curve) u flags : alike c c' -> split_and_normalize c u flags = split_and_normalize c' u flags.
  Proof.
    intros H. pose proof H as HA. apply alike_parts in H. destruct H as [HK HP]. unfold split_and_normalize, degree, kdegree.
    destruct (_ || _); [reflexivity|]. rewrite (find_idx_al _ _ u CLeftOrEqual HK). unfold vector, cp_matrix. rewrite (proj2 HK), (proj1 HK).
    apply bind_ext. intros l. apply bind_ext. intros U0. destruct (_ <? _); [reflexivity|]. apply bind_ext. intros reps.
    set (step := fun (b : Curve) (_ : nat) => _).
    assert (G : (exists d d', foldM step (seq 0 reps) c = Val d /\ foldM step (seq 0 reps) c' = Val d' /\ alike d d') \/ foldM step (seq 0 reps) c = foldM step (seq 0 reps) c').
    { destruct reps as [|reps]; [left; exists c, c'; repeat split; apply HA|]. right. cbn [seq foldM]. unfold step at 1 3.
      destruct (insert_al c c' u HA) as [(c1 & -> & ->)|[(c1 & c2 & e & -> & -> & A)|[[-> ->]|[[-> ->]|[-> ->]]]]]; reflexivity. }
    destruct G as [(d & d' & -> & -> & A)| ->]; [|reflexivity]. cbn [bind]. apply alike_parts in A. destruct A as [HK' HP']. rewrite (proj2 HK'), HP'. reflexivity.
  Qed.

  (** ** refreshing *)

  Lemma refresh_calc (c : Curve) : refresh c = calculate_derivatives c.
  Proof.
    unfold refresh, accessed, calculate_derivatives. cbn [foldM access_once]. destruct (knots_derive (cknots c)) as [kn| | |]; cbn [bind cpoints cknots]; try reflexivity.
    destruct (points_derive (cpoints c) kn); reflexivity.
  Qed.

  Lemma built_refresh p n dim (U : Vec) P (c : Curve) : sized p n dim U P -> degree c = p -> vector (cknots c) = Val U -> cp_matrix (cpoints c) = Val P ->
    forall c', refresh c = Val c' <-> built p U P c'.
  Proof.
    intros (Hn & HU & HP) Hd HV HM c'. rewrite refresh_calc. unfold built. pose proof (knots_new_val p U ltac:(lia)) as EK.
    assert (EC : curve_new (knots_of p U) (cp_new P) = (c1 <- calculate_derivatives c;; Val (Ok c1))).
    { unfold curve_new. pose proof (cp_segments_val P [] 0 dim n HP) as ES. change (mkCP [P] 0) with (cp_new P) in ES. rewrite ES. cbn [bind].
      replace (n <? kdegree (knots_of p U)) with false by (symmetry; apply Nat.ltb_ge; exact Hn).
      rewrite (calculate_al (mkCurve (knots_of p U) (cp_new P)) c); [reflexivity|].
      split; [symmetry; exact Hd|]. split; [cbn [cknots]; rewrite knots_of_vector; symmetry; exact HV|symmetry; exact HM]. }
    split.
    - intros E. exists (knots_of p U). split; [exact EK|]. rewrite EC, E. reflexivity.
    - intros (kn & E1 & E2). rewrite EK in E1. inversion E1. subst kn. rewrite EC in E2. destruct (calculate_derivatives c); cbn [bind] in E2; congruence.
  Qed.

  Lemma refresh_orders (c : Curve) U : vector (cknots c) = Val U -> 2 * degree c <= length U -> refresh_backwards c = refresh c.
  Proof.
    intros HV HL. unfold refresh, refresh_backwards, accessed. cbn [foldM access_once].
    destruct c as [[[|V rest] p m] cp]; [discriminate|]. cbn in HV. inversion HV. subst V. cbn in HL. cbn [cknots cpoints].
    pose proof (knots_derive_val (mkKnots (U :: rest) p m) U rest eq_refl HL) as E. cbn [kp] in E. rewrite E. cbn [bind cknots cpoints].
    rewrite (points_derive_al cp cp (mkKnots (U :: rest) p m) (knots_of p U)).
    - destruct (points_derive cp (knots_of p U)); cbn [bind cknots cpoints]; try reflexivity.
      rewrite E. reflexivity.
    - split; [reflexivity|]. change (vget (Uk (knots_of p U)) 0) with (vector (knots_of p U)). rewrite knots_of_vector. reflexivity.
    - reflexivity.
  Qed.

  (** ** merging reads the control points, not their cached derivatives *)
  Lemma merge_al svd (a a' b b' : Curve) pa pb : alike_points a a' -> alike_points b b' ->
    merge_with_constraints svd (mkCC a pa) (mkCC b pb) = merge_with_constraints svd (mkCC a' pa) (mkCC b' pb).
  Proof.
    destruct a as [ka cpa], a' as [ka' cpa'], b as [kb cpb], b' as [kb' cpb']. unfold alike_points. cbn [cknots cpoints]. intros [-> HA] [-> HB].
    unfold merge_with_constraints, solve_linear_equation_system, construct_Nmat, constructConstMat, calculateKconst, calculateKV, calculateKW, calculateIV, calculateJW,
      calculateGV, calculateHW, calculateIpV, calculateJppW, left_coefficient, right_coefficient, shifted_points, adjust_knots_of_both_splines, create_merged_knot_vector,
      adjust_shifted_control_points_of_both_splines, merged_points, segments, dimension, cp_segments, cp_count, count_derivative, cp_dimension, degree.
    cbn [cc_curve cc_params cknots cpoints]. unfold cp_matrix in *. rewrite HA, HB. reflexivity.
  Qed.
End Direct.
