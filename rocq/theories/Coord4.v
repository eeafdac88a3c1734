(** * Related points stay related under merging and fitting *)

From Coq Require Import ZArith List Bool Arith Lia.
From Verif Require Import Num Vec MKnots MPoints MCurve MFit MGenerate MMerge Lists Api ApiC ApiP Coord Coord2.
Import ListNotations.

Lemma rM_eq_inv {A} (x y : M A) : rM eq x y -> x = y.
Proof. destruct x, y; simpl; intros H; try contradiction; congruence. Qed.

Lemma rM_val {A B A' B'} (R : A -> B -> Prop) (Q : A' -> B' -> Prop) x y f g :
  rM R x y -> (forall a b, R a b -> Q (f a) (g b)) -> rM Q (a <- x;; Val (f a)) (b <- y;; Val (g b)).
Proof. intros H1 H2. apply (rM_bind R); [exact H1|]. intros a b Hab. exact (H2 a b Hab). Qed.

Lemma rM_mapM {A B X} (R : A -> B -> Prop) f g (l : list X) :
  (forall x, rM R (f x) (g x)) -> rM (Forall2 R) (mapM f l) (mapM g l).
Proof.
  intros H. induction l as [|x l IH]; simpl; [constructor|]. apply (rM_bind R); [apply H|]. intros a b Hab.
  apply (rM_bind (Forall2 R)); [exact IH|]. intros v w Hvw. simpl. constructor; assumption.
Qed.

Section Related.
  Context {K : Num} (r1 r2 : nat) (V : list K -> list K -> Prop).
  Notation Vec := (list K).
  Hypothesis V_l : forall a b, V a b -> length a = r1.
  Hypothesis V_r : forall a b, V a b -> length b = r2.
  Hypothesis V_zero : V (vzeros r1) (vzeros r2).
  Hypothesis V_add : forall a b a' b', V a b -> V a' b' -> rM V (vadd a a') (vadd b b').
  Hypothesis V_sub : forall a b a' b', V a b -> V a' b' -> rM V (vsub a a') (vsub b b').
  Hypothesis V_scale : forall s a b, V a b -> V (vscale s a) (vscale s b).
  Hypothesis V_mul : forall s a b, V a b -> V (vmul_scalar a s) (vmul_scalar b s).
  Notation RM := (rmat r1 r2 V).
  Notation RC := (rcurve r1 r2 V).

  (** the solver treats the equations for related points alike *)
  Definition rsolver (svd : Mat K -> Mat K -> M (Mat K)) : Prop :=
    forall N C C', RM C C' -> rM RM (X <- svd N (mtranspose C);; Val (mtranspose X)) (X <- svd N (mtranspose C');; Val (mtranspose X)).
  Context (svd : Mat K -> Mat K -> M (Mat K)).
  Hypothesis Svd : rsolver svd.

  Lemma rsolve N C C' : RM C C' ->
    rM RM (X <- svd_solve svd N (mtranspose C);; Val (mtranspose X)) (X <- svd_solve svd N (mtranspose C');; Val (mtranspose X)).
  Proof.
    intros H. unfold svd_solve. destruct (mis_empty N); [exact I|].
    change (nrows (mtranspose C)) with (ncols C). change (nrows (mtranspose C')) with (ncols C').
    rewrite (rmat_ncols _ _ _ _ _ H). destruct (nrows N =? ncols C'); [apply Svd, H|exact I].
  Qed.

  (** ** Merging *)
  Lemma nmat_same (kn kn' : Knots K) P P' Q Q' s s' t t' k k' l l' pa pb : ncols P = ncols P' -> ncols Q = ncols Q' ->
    construct_Nmat (mkCC (mkCurve kn (mkCP (P :: s) k)) pa) (mkCC (mkCurve kn' (mkCP (Q :: t) l)) pb) =
    construct_Nmat (mkCC (mkCurve kn (mkCP (P' :: s') k')) pa) (mkCC (mkCurve kn' (mkCP (Q' :: t') l')) pb).
  Proof.
    intros H1 H2. unfold construct_Nmat, calculateKV, calculateKW, calculateIV, calculateJW, calculateGV, calculateHW, calculateIpV, calculateJppW,
      left_coefficient, right_coefficient, segments, cp_segments, cp_count, count_derivative, cp_matrix, degree.
    cbn [cc_curve cc_params cpoints cknots Pk vget nth_error bind]. unfold vget at 1. rewrite H1, H2. reflexivity.
  Qed.

  Lemma rmat_view P P' Q Q' c w : RM P P' -> RM Q Q' -> rM RM (mset_view P 0 c r1 w Q) (mset_view P' 0 c r2 w Q').
  Proof.
    intros HP HQ. unfold mset_view. rewrite (rmat_ncols _ _ _ _ _ HP), (rmat_ncols _ _ _ _ _ HQ).
    assert (HP' := HP). assert (HQ' := HQ). destruct HP' as [E1 [E2 _]]. destruct HQ' as [F1 [F2 _]]. rewrite E1, E2, F1, F2, !Nat.leb_refl, !Nat.eqb_refl.
    destruct (_ && _); [|exact I]. apply rM_foldM; [exact HP|]. intros s t i Hst.
    apply (rM_bind V); [apply (rmat_col _ _ _ _ _ _ HQ)|]. intros x x' Hx.
    apply (rM_bind V); [apply (rmat_col _ _ _ _ _ _ Hst)|]. intros o o' Ho.
    apply (rM_bind V).
    - unfold segment_set. rewrite (V_l _ _ Ho), (V_r _ _ Ho), (V_l _ _ Hx), (V_r _ _ Hx). cbn [Nat.add]. rewrite !Nat.leb_refl, !Nat.eqb_refl.
      cbn [firstn app]. rewrite !skipn_all2 by (rewrite ?(V_l _ _ Ho), ?(V_r _ _ Ho); lia). rewrite !app_nil_r. exact Hx.
    - intros y y' Hy. apply rmat_set; assumption.
  Qed.

  Lemma rkconst (kn kn' : Knots K) P P' Q Q' s s' t t' k k' l l' : RM P P' -> RM Q Q' ->
    rM RM (calculateKconst (mkCurve kn (mkCP (P :: s) k)) (mkCurve kn' (mkCP (Q :: t) l)))
          (calculateKconst (mkCurve kn (mkCP (P' :: s') k')) (mkCurve kn' (mkCP (Q' :: t') l'))).
  Proof.
    intros HP HQ. assert (NP := rmat_ncols _ _ _ _ _ HP). assert (NQ := rmat_ncols _ _ _ _ _ HQ).
    assert (HP' := HP). destruct HP' as [E1 [E2 _]].
    unfold calculateKconst, dimension, cp_dimension, segments, cp_segments, cp_count, count_derivative, cp_matrix, degree.
    cbn [cpoints cknots Pk]. change (vget (P :: s) 0) with (@Val (Mat K) P). change (vget (P' :: s') 0) with (@Val (Mat K) P').
    change (vget (Q :: t) 0) with (@Val (Mat K) Q). change (vget (Q' :: t') 0) with (@Val (Mat K) Q'). cbn [bind].
    rewrite NP, NQ, E1, E2. apply rM_same. intros m. apply rM_same. intros o. apply rM_same. intros V0. apply rM_same. intros W0. apply rM_same. intros p1.
    apply rM_foldM; [apply rmat_zeros; exact V_zero|]. intros A B i HAB.
    apply rM_same. intros mp. apply rM_same. intros mk. apply rM_same. intros pk.
    apply (rM_bind V).
    { apply rM_foldM; [exact V_zero|]. intros x y j Hxy. apply rM_foldM; [exact Hxy|]. clear x y Hxy. intros x y a Hxy.
      do 4 (apply rM_same; intros ?). apply (rM_bind V); [apply (rmat_col _ _ _ _ _ _ HP)|]. intros z w Hz.
      apply V_add; [exact Hxy|apply V_scale, Hz]. }
    intros sum sum' Hsum. apply (rM_bind V).
    { apply rM_foldM; [exact Hsum|]. intros x y j Hxy. apply rM_foldM; [exact Hxy|]. clear x y Hxy. intros x y a Hxy.
      do 5 (apply rM_same; intros ?). apply (rM_bind V); [apply (rmat_col _ _ _ _ _ _ HQ)|]. intros z w Hz.
      apply V_sub; [exact Hxy|apply V_scale, Hz]. }
    clear sum sum' Hsum. intros sum sum' Hsum. apply (rM_bind V); [apply (rmat_col _ _ _ _ _ _ HAB)|]. intros o1 o2 Ho.
    apply (rM_bind V); [apply V_sub; assumption|]. intros n n' Hn. apply rmat_set; assumption.
  Qed.

  Lemma radd_columns m m' s n x y : RM m m' -> RM x y -> rM RM (madd_columns m s n x) (madd_columns m' s n y).
  Proof.
    intros H G. unfold madd_columns. apply (rM_bind RM); [apply rmat_columns, H|]. intros o o' Ho.
    rewrite (rmat_ncols _ _ _ _ _ G). destruct (ncols y =? n); [|exact I].
    apply (rM_bind (Forall2 V)).
    - apply rM_mapM. intros i. apply (rM_bind V); [apply (rmat_col _ _ _ _ _ _ Ho)|]. intros a b Hab.
      apply (rM_bind V); [apply (rmat_col _ _ _ _ _ _ G)|]. intros a' b' Hab'. apply V_add; assumption.
    - intros c c' Hc. apply rmat_set_columns; [exact H|]. destruct H as [E1 [E2 _]]. split; [exact E1|]. split; [exact E2|]. exact Hc.
  Qed.

  Lemma rgenerate_point idx k P P' (U0 : list K) p n : RM P P' ->
    rM V (generateDerivativeControlPoint idx k P U0 p n r1) (generateDerivativeControlPoint idx k P' U0 p n r2).
  Proof.
    intros H. unfold generateDerivativeControlPoint. rewrite (rmat_ncols _ _ _ _ _ H). apply rM_same. intros nk. apply rM_same. intros _.
    apply rM_foldM; [exact V_zero|]. intros x y z Hxy. apply rM_same. intros f.
    apply (rM_bind V); [apply (rmat_col _ _ _ _ _ _ H)|]. intros c c' Hc. apply V_add; [exact Hxy|apply V_scale, Hc].
  Qed.

  Lemma rl_resize (e e' : list (list K)) n : Forall2 V e e' -> Forall2 V (resize e n (vzeros r1)) (resize e' n (vzeros r2)).
  Proof.
    intros H. unfold resize. rewrite (rl_length _ _ _ H). apply Forall2_app; [apply rl_firstn, H|apply rl_repeat, V_zero].
  Qed.

  Lemma radjust P P' (U0 Uadj : list K) p n : RM P P' ->
    rM RM (adjust_shifted_control_points P U0 Uadj p n r1) (adjust_shifted_control_points P' U0 Uadj p n r2).
  Proof.
    intros H. unfold adjust_shifted_control_points. set (LL := Forall2 (Forall2 V)).
    apply (rM_bind LL).
    { apply rM_mapM. intros i. apply (rM_bind V); [apply (rmat_col _ _ _ _ _ _ H)|]. intros c c' Hc. simpl. auto. }
    intros q q' Hq. apply rM_same. intros p1. apply rM_same. intros np.
    apply (rM_bind LL).
    { apply rM_foldM; [exact Hq|]. clear q q' Hq. intros q q' k Hq. apply (rM_bind V); [apply rgenerate_point, H|]. intros v v' Hv.
      apply (rM_bind (Forall2 V)); [apply rl_vget, Hq|]. intros e e' He. apply rl_vset; [exact Hq|]. apply Forall2_app; auto. }
    clear q q' Hq. intros q q' Hq. apply (rM_bind LL).
    { apply rM_foldM; [exact Hq|]. clear q q' Hq. intros q q' i Hq. apply (rM_bind (Forall2 V)); [apply rl_vget, Hq|]. intros e e' He.
      apply rM_same. intros ni. apply (rM_bind LL); [apply rl_vset; [exact Hq|apply rl_resize, He]|]. clear q q' Hq e e' He. intros q q' Hq.
      apply rM_foldM; [exact Hq|]. clear q q' Hq. intros q q' k Hq. do 5 (apply rM_same; intros ?).
      apply (rM_bind (Forall2 V)); [apply rl_vget, Hq|]. intros row row' Hrow.
      apply (rM_bind V); [apply rl_vget, Hrow|]. intros x x' Hx. apply (rM_bind V); [apply rl_vget, Hrow|]. intros y y' Hy.
      apply (rM_bind V); [apply V_add; [apply V_scale, Hx|exact Hy]|]. intros r r' Hr.
      apply (rM_bind (Forall2 V)); [apply rl_vget, Hq|]. intros e e' He.
      apply (rM_bind (Forall2 V)); [apply rl_vset; assumption|]. clear e e' He. intros e e' He. apply rl_vset; assumption. }
    clear q q' Hq. intros q q' Hq. apply rM_foldM; [apply rmat_zeros; exact V_zero|]. intros A B i HAB.
    apply (rM_bind (Forall2 V)); [apply rl_vget, Hq|]. intros e e' He. apply (rM_bind V); [apply rl_vget, He|]. intros c c' Hc.
    apply rmat_set; assumption.
  Qed.

  (** what a curve shows to [merge] *)
  Lemma rcurve_heads c d : RC c d ->
    (exists kn k k', c = mkCurve kn (mkCP [] k) /\ d = mkCurve kn (mkCP [] k')) \/
    (exists kn P P' s s' k k', c = mkCurve kn (mkCP (P :: s) k) /\ d = mkCurve kn (mkCP (P' :: s') k') /\ RM P P').
  Proof.
    intros [E [_ F]]. destruct c as [kn [pk k]], d as [kn' [pk' k']]. cbn [cknots cpoints Pk] in *. subst kn'.
    destruct F as [|P P' s s' HP _]; [left|right]; repeat eexists; apply HP.
  Qed.

  Lemma rmerge a b a' b' pa pb : RC a a' -> RC b b' ->
    rM (rres RC) (merge_with_constraints svd (mkCC a pa) (mkCC b pb)) (merge_with_constraints svd (mkCC a' pa) (mkCC b' pb)).
  Proof.
    intros HA HB. unfold merge_with_constraints. cbn [cc_curve cc_params].
    assert (EA := proj1 HA). assert (EB := proj1 HB). unfold degree. rewrite EA, EB.
    destruct (negb (kdegree (cknots a') =? kdegree (cknots b'))); [reflexivity|].
    unfold dimension.
    destruct (rcurve_heads _ _ HA) as [[kn [k [k' [-> ->]]]]|[kn [P [P' [s [s' [k [k' [-> [-> HP]]]]]]]]]]; [exact I|].
    destruct (rcurve_heads _ _ HB) as [[kn2 [l [l' [-> ->]]]]|[kn2 [Q [Q' [t [t' [l [l' [-> [-> HQ]]]]]]]]]]; [exact I|].
    apply (rM_bind (fun x y => x = r1 /\ y = r2)); [apply (rcp_dimension _ _ V), (proj2 HA)|]. intros da da' [-> ->].
    apply (rM_bind (fun x y => x = r1 /\ y = r2)); [apply (rcp_dimension _ _ V), (proj2 HB)|]. intros db db' [-> ->].
    rewrite !Nat.eqb_refl. cbn [negb]. apply rM_same. intros cl. apply rM_same. intros un. destruct un; [reflexivity|].
    apply rM_same. intros no. apply rM_same. intros nn. destruct nn; [reflexivity|].
    destruct (_ <=? _); [reflexivity|].
    cbn [cknots].
    apply (rM_bind RM).
    { unfold solve_linear_equation_system. cbn [cc_curve cc_params].
      rewrite (nmat_same kn kn2 P P' Q Q' s s' t t' k k' l l' pa pb (rmat_ncols _ _ _ _ _ HP) (rmat_ncols _ _ _ _ _ HQ)).
      apply rM_same. intros N. apply (rM_bind RM); [|intros C C' HC; apply rsolve, HC].
      unfold constructConstMat, dimension, degree. cbn [cknots].
      apply (rM_bind (fun x y => x = r1 /\ y = r2)); [apply (rcp_dimension _ _ V), (proj2 HA)|]. intros da da' [-> ->].
      apply (rM_bind RM); [apply rkconst; assumption|]. intros Kc Kc' HK. apply rmat_view; [apply rmat_zeros; exact V_zero|exact HK]. }
    intros sh sh' Hsh. apply (rM_bind (fun x y => RM (fst x) (fst y) /\ RM (snd x) (snd y))).
    { unfold shifted_points, degree. cbn [cknots]. change (cp_matrix (cpoints (mkCurve kn (mkCP (P :: s) k)))) with (@Val (Mat K) P).
      change (cp_matrix (cpoints (mkCurve kn (mkCP (P' :: s') k')))) with (@Val (Mat K) P').
      change (cp_matrix (cpoints (mkCurve kn2 (mkCP (Q :: t) l)))) with (@Val (Mat K) Q).
      change (cp_matrix (cpoints (mkCurve kn2 (mkCP (Q' :: t') l')))) with (@Val (Mat K) Q'). cbn [bind].
      rewrite (rmat_ncols _ _ _ _ _ HP). apply rM_same. intros st.
      apply (rM_bind RM); [apply rmat_columns, Hsh|]. intros d1 d1' H1. apply (rM_bind RM); [apply radd_columns; assumption|]. intros S1 S1' HS1.
      apply (rM_bind RM); [apply rmat_columns, Hsh|]. intros d2 d2' H2. apply (rM_bind RM); [apply radd_columns; assumption|]. intros T1 T1' HT1.
      simpl. auto. }
    intros [S1 T1] [S1' T1'] [HS HT]. cbn [fst snd] in HS, HT.
    assert (SA : @segments K (mkCurve kn (mkCP (P :: s) k)) = segments (mkCurve kn (mkCP (P' :: s') k'))).
    { apply rM_eq_inv. apply (rcp_segments r1 r2 V), (proj2 HA). }
    assert (SB : @segments K (mkCurve kn2 (mkCP (Q :: t) l)) = segments (mkCurve kn2 (mkCP (Q' :: t') l'))).
    { apply rM_eq_inv. apply (rcp_segments r1 r2 V), (proj2 HB). }
    assert (AK : adjust_knots_of_both_splines (mkCurve kn (mkCP (P :: s) k)) (mkCurve kn2 (mkCP (Q :: t) l)) =
                 adjust_knots_of_both_splines (mkCurve kn (mkCP (P' :: s') k')) (mkCurve kn2 (mkCP (Q' :: t') l'))).
    { unfold adjust_knots_of_both_splines, degree. cbn [cknots]. rewrite SA, SB. reflexivity. }
    rewrite AK. apply rM_same. intros [[Vadj Wrev] Wadj].
    assert (MK : create_merged_knot_vector (mkCurve kn (mkCP (P :: s) k)) (mkCurve kn2 (mkCP (Q :: t) l)) Vadj Wadj =
                 create_merged_knot_vector (mkCurve kn (mkCP (P' :: s') k')) (mkCurve kn2 (mkCP (Q' :: t') l')) Vadj Wadj).
    { unfold create_merged_knot_vector. rewrite SA, SB. reflexivity. }
    rewrite MK. apply rM_same. intros Um.
    apply (rM_bind (fun x y => RM (fst x) (fst y) /\ RM (snd x) (snd y))).
    { unfold adjust_shifted_control_points_of_both_splines, degree, dimension. cbn [cknots]. rewrite SA. apply rM_same. intros n.
      apply (rM_bind (fun x y => x = r1 /\ y = r2)); [apply (rcp_dimension _ _ V), (proj2 HA)|]. intros da da' [-> ->].
      apply rM_same. intros V0. apply (rM_bind RM); [apply radjust, HS|]. intros Sa Sa' HSa.
      apply (rM_bind RM); [apply rmat_reverse, HT|]. intros P2 P2' HP2. apply (rM_bind RM); [apply radjust, HP2|]. intros Tr Tr' HTr.
      apply (rM_bind RM); [apply rmat_reverse, HTr|]. intros Ta Ta' HTa. simpl. auto. }
    intros [Sa Ta] [Sa' Ta'] [HSa HTa]. cbn [fst snd] in HSa, HTa.
    apply (rM_bind RM).
    { unfold merged_points, degree, dimension. cbn [cknots].
      apply (rM_bind (fun x y => x = r1 /\ y = r2)); [apply (rcp_dimension _ _ V), (proj2 HA)|]. intros da da' [-> ->].
      change (cp_count (cpoints (mkCurve kn (mkCP (P :: s) k)))) with (@Val nat (ncols P)).
      change (cp_count (cpoints (mkCurve kn (mkCP (P' :: s') k')))) with (@Val nat (ncols P')).
      change (cp_count (cpoints (mkCurve kn2 (mkCP (Q :: t) l)))) with (@Val nat (ncols Q)).
      change (cp_count (cpoints (mkCurve kn2 (mkCP (Q' :: t') l')))) with (@Val nat (ncols Q')). cbn [bind].
      rewrite (rmat_ncols _ _ _ _ _ HP), (rmat_ncols _ _ _ _ _ HQ). apply rM_same. intros c.
      apply (rM_bind RM); [apply rmat_set_columns; [apply rmat_zeros; exact V_zero|exact HSa]|]. intros A A' HAA.
      apply rM_same. intros r. rewrite (rmat_ncols _ _ _ _ _ HAA), (rmat_ncols _ _ _ _ _ HTa). apply rM_same. intros s1. apply rM_same. intros s2.
      apply (rM_bind RM); [apply rmat_columns, HTa|]. intros src src' Hsrc. apply rmat_set_columns; assumption. }
    intros Pm Pm' HPm. apply rM_same. intros knm.
    apply (rM_bind (rres RC)); [apply rcurve_new; try assumption; apply rcp_new, HPm|].
    intros [c|e] [c'|e'] Hc; simpl in *; try contradiction; [exact Hc|congruence].
  Qed.

  (** ** Interpolation and fits *)
  Lemma rinterpolate kn P P' (q : Parameters K) : RM P P' -> rM RM (interpolate svd kn P q) (interpolate svd kn P' q).
  Proof.
    intros H. unfold interpolate. assert (E : collocation kn P q = collocation kn P' q).
    { unfold collocation, dp_segments. rewrite (rmat_ncols _ _ _ _ _ H). reflexivity. }
    rewrite E. apply rM_same. intros N. apply rsolve, H.
  Qed.

  (** the product with the points, seen from the points *)
  Definition weighted (r : list K) (P : Mat K) (acc : list K) : M (list K) :=
    foldM (fun acc x => vadd acc (vscale (fst x) (snd x))) (combine r (mcols P)) acc.

  Lemma rweighted r P P' : RM P P' -> rM V (weighted r P (vzeros r1)) (weighted r P' (vzeros r2)).
  Proof.
    intros [_ [_ H]]. unfold weighted. assert (Z := V_zero). revert Z. generalize (vzeros r1 : list K) as a, (vzeros r2 : list K) as b. revert r.
    induction H as [|v w l l' Hv H IH]; intros [|x r] a b Z; cbn [combine foldM]; try exact Z. cbn [fst snd].
    apply (rM_bind V); [apply V_add; [exact Z|apply V_scale, Hv]|]. intros a' b' Hab. apply IH, Hab.
  Qed.

  Lemma weighted_val dim (cols : list (list K)) : (forall v, In v cols -> length v = dim) -> forall r acc, length acc = dim ->
    exists w, foldM (fun acc x => vadd acc (vscale (fst x) (snd x))) (combine r cols) acc = Val w /\ length w = dim /\
      forall d, d < dim -> nth d w n0 = fold_left (fun s xy => (s + fst xy * snd xy)%num) (combine r (map (fun c => nth d c n0) cols)) (nth d acc n0).
  Proof.
    induction cols as [|v cols IH]; intros Hc [|x r] acc Ha; cbn [combine foldM map fold_left]; try solve [exists acc; auto].
    cbn [fst snd]. destruct (zipM_val nadd acc (vscale x v)) as [z [E [Lz Nz]]].
    { unfold vscale. rewrite map_length, Ha, Hc; [reflexivity|left; reflexivity]. }
    unfold vadd at 1. rewrite E. cbn [bind]. destruct (IH ltac:(intros y Hy; apply Hc; right; exact Hy) r z ltac:(congruence)) as [w [Ew [Lw Nw]]].
    exists w. split; [exact Ew|]. split; [exact Lw|]. intros d Hd. rewrite (Nw d Hd), (Nz d n0) by lia. unfold vscale.
    rewrite (nth_indep (map (fun y => (x * y)%num) v) n0 (x * n0)%num) by (rewrite map_length, Hc; [lia|left; reflexivity]). rewrite (map_nth (fun y => (x * y)%num)). reflexivity.
  Qed.

  Lemma rproduct N P P' : RM P P' ->
    rM (fun B B' => exists C C', B = mtranspose C /\ B' = mtranspose C' /\ RM C C') (mmul (mtranspose N) (mtranspose P)) (mmul (mtranspose N) (mtranspose P')).
  Proof.
    intros H. unfold mmul. change (nrows (mtranspose P)) with (ncols P). change (nrows (mtranspose P')) with (ncols P').
    rewrite (rmat_ncols _ _ _ _ _ H). destruct (_ =? _); [|exact I]. cbn [rM].
    set (rows := mcols (mtranspose (mtranspose N))). 
    assert (FL : forall v, In v (mcols P) -> length v = r1).
    { destruct H as [_ [_ F]]. clear - F V_l. induction F as [|v w l l' Hv F IH]; intros x Hx; [destruct Hx|]. destruct Hx as [<-|Hx]; [apply (V_l _ _ Hv)|apply IH, Hx]. }
    assert (FR : forall v, In v (mcols P') -> length v = r2).
    { destruct H as [_ [_ F]]. clear - F V_r. induction F as [|v w l l' Hv F IH]; intros x Hx; [destruct Hx|]. destruct Hx as [<-|Hx]; [apply (V_r _ _ Hv)|apply IH, Hx]. }
    assert (G : exists L L', Forall2 V L L' /\ length L = length rows /\
      (forall i d, i < length rows -> d < r1 -> nth d (nth i L []) n0 = dot (nth i rows []) (map (fun c => nth d c n0) (mcols P))) /\
      (forall i d, i < length rows -> d < r2 -> nth d (nth i L' []) n0 = dot (nth i rows []) (map (fun c => nth d c n0) (mcols P')))).
    { generalize rows. clear rows. induction rows as [|r rows IH]; [exists [], []; repeat split; [constructor| |]; cbn; intros; lia|].
      destruct IH as [L [L' [F1 [F2 [F3 F4]]]]]. assert (W := rweighted r P P' H).
      destruct (weighted_val r1 (mcols P) FL r (vzeros r1)) as [w [Ew [Lw Nw]]]; [apply repeat_length|].
      destruct (weighted_val r2 (mcols P') FR r (vzeros r2)) as [w' [Ew' [Lw' Nw']]]; [apply repeat_length|].
      unfold weighted in W. rewrite Ew, Ew' in W. cbn [rM] in W.
      exists (w :: L), (w' :: L'). split; [constructor; assumption|]. split; [cbn; congruence|]. split; intros [|i] d Hi Hd; cbn [nth].
      - rewrite (Nw d Hd). unfold vzeros. rewrite nth_repeat. reflexivity.
      - apply F3; [cbn in Hi; lia|exact Hd].
      - rewrite (Nw' d Hd). unfold vzeros. rewrite nth_repeat. reflexivity.
      - apply F4; [cbn in Hi; lia|exact Hd]. }
    destruct G as [L [L' [F1 [F2 [F3 F4]]]]]. assert (F2' : length L' = length rows) by (rewrite <- (rl_length _ _ _ F1); exact F2).
    assert (LN : length rows = nrows (mtranspose N)). { unfold rows, mtranspose. cbn [mcols nrows]. rewrite map_length, seq_length. reflexivity. }
    destruct H as [E1 [E2 _]].
    assert (X : forall r (Q : Mat K) Lx, nrows Q = r -> length Lx = length rows ->
      (forall i d, i < length rows -> d < r -> nth d (nth i Lx []) n0 = dot (nth i rows []) (map (fun c => nth d c n0) (mcols Q))) ->
      mkMat (nrows (mtranspose N)) (map (fun c => map (fun x => dot x c) rows) (mcols (mtranspose Q))) = mtranspose (mkMat r Lx)).
    { intros r Q Lx EQ ELx HN. rewrite <- LN. unfold mtranspose, ncols. cbn [nrows mcols]. f_equal; [congruence|].
      rewrite EQ, map_map. apply map_ext_in. intros d Hd. apply in_seq in Hd.
      apply (nth_ext _ _ n0 n0); [rewrite !map_length; congruence|]. intros i Hi. rewrite map_length in Hi.
      set (f := fun x => dot x _). rewrite (nth_indep _ n0 (f [])) by (rewrite map_length; exact Hi). rewrite map_nth. unfold f.
      rewrite (nth_indep _ n0 (nth d [] n0)) by (rewrite map_length; lia). rewrite (map_nth (fun c => nth d c n0)). symmetry. apply HN; lia. }
    exists (mkMat r1 L), (mkMat r2 L'). split; [apply X; assumption|]. split; [apply X; assumption|].
    split; [reflexivity|]. split; [reflexivity|exact F1].
  Qed.

  Lemma rloose kn P P' (q : Parameters K) pen : RM P P' -> rM (rres RM) (loose_fit svd kn P q pen) (loose_fit svd kn P' q pen).
  Proof.
    intros H. assert (EN := rmat_ncols _ _ _ _ _ H). unfold loose_fit, input_checks, loose_coefficients, dp_segments. rewrite EN.
    apply rM_same. intros [u|e]; [|reflexivity]. apply rM_same. intros N. apply rM_same. intros [A|e]; [|reflexivity].
    apply (rM_bind (fun B B' => exists C C', B = mtranspose C /\ B' = mtranspose C' /\ RM C C')); [apply rproduct, H|].
    intros B B' [C [C' [-> [-> HC]]]]. assert (X := rsolve A C C' HC).
    destruct (svd_solve svd A (mtranspose C)), (svd_solve svd A (mtranspose C')); cbn [bind rM rres] in *; try contradiction; exact X || exact I.
  Qed.

  Lemma rfixed kn P P' (q : Parameters K) pen : RM P P' -> rM (rres RM) (fixed_fit svd kn P q pen) (fixed_fit svd kn P' q pen).
  Proof.
    intros H. assert (EN := rmat_ncols _ _ _ _ _ H). unfold fixed_fit, input_checks, fixed_coefficients, fixed_qvectors, fixed_constant_terms, dp_segments. rewrite EN.
    assert (H' := H). destruct H' as [E1 [E2 _]]. rewrite E1, E2.
    apply rM_same. intros [u|e]; [|reflexivity].
    apply (rM_bind RM).
    { apply rM_same. intros n. apply rM_same. intros m. apply rM_same. intros m1. apply rM_foldM; [apply rmat_zeros; exact V_zero|]. intros Q Q' g HQ.
      apply (rM_bind V); [apply (rmat_col _ _ _ _ _ _ H)|]. intros v v' Hv.
      apply (rM_bind RM); [apply rmat_set; assumption|]. clear Q Q' HQ. intros Q Q' HQ. apply rM_same. intros u0. apply rM_same. intros b0.
      apply (rM_bind V); [apply (rmat_col _ _ _ _ _ _ H)|]. intros p0 p0' Hp0.
      apply (rM_bind V); [apply (rmat_col _ _ _ _ _ _ HQ)|]. intros c c' Hc. apply (rM_bind V); [apply V_sub; [exact Hc|apply V_scale, Hp0]|]. clear c c' Hc. intros c c' Hc.
      apply (rM_bind RM); [apply rmat_set; assumption|]. clear Q Q' HQ. intros Q Q' HQ. apply rM_same. intros bn.
      apply (rM_bind V); [apply (rmat_col _ _ _ _ _ _ H)|]. intros pm pm' Hpm.
      apply (rM_bind V); [apply (rmat_col _ _ _ _ _ _ HQ)|]. clear c c' Hc. intros c c' Hc. apply (rM_bind V); [apply V_sub; [exact Hc|apply V_scale, Hpm]|]. clear c c' Hc. intros c c' Hc.
      apply rmat_set; assumption. }
    intros Q Q' HQ. apply (rM_bind RM).
    { apply rM_same. intros n. apply rM_same. intros m. apply rM_same. intros n1. apply rM_same. intros m1.
      apply (rM_bind (fun x y => RM (fst x) (fst y) /\ V (snd x) (snd y))).
      - apply rM_foldM; [split; [apply rmat_zeros; exact V_zero|exact V_zero]|]. intros [A a] [A' a'] i [HA Ha]. cbn [fst snd] in *.
        apply (rM_bind V).
        + apply rM_foldM; [apply V_mul, Ha|]. intros x y g Hxy. apply rM_same. intros u0. apply rM_same. intros b.
          apply (rM_bind V); [apply (rmat_col _ _ _ _ _ _ HQ)|]. intros z w Hz. apply V_add; [exact Hxy|apply V_scale, Hz].
        + intros x y Hxy. apply rM_same. intros i1. apply (rM_bind RM); [apply rmat_set; assumption|]. intros B B' HB. simpl. auto.
      - intros [A a] [A' a'] [HA _]. exact HA. }
    clear Q Q' HQ. intros Q Q' HQ. apply rM_same. intros N. apply rM_same. intros [A|e]; [|reflexivity].
    assert (X := rsolve A Q Q' HQ).
    destruct (svd_solve svd A (mtranspose Q)) as [Y| | |], (svd_solve svd A (mtranspose Q')) as [Y'| | |]; cbn [bind rM] in X |- *; try contradiction; try exact I.
    apply rM_same. intros n. apply rM_same. intros m. 
    apply (rM_bind V); [apply (rmat_col _ _ _ _ _ _ H)|]. intros p0 p0' Hp0.
    apply (rM_bind RM); [apply rmat_set; try assumption; apply rmat_zeros; exact V_zero|]. intros c c' Hc.
    apply (rM_bind V); [apply (rmat_col _ _ _ _ _ _ H)|]. intros pm pm' Hpm.
    apply (rM_bind RM); [apply rmat_set; assumption|]. clear c c' Hc. intros c c' Hc. apply rM_same. intros n1.
    apply (rM_bind RM); [|intros d d' Hd; exact Hd].
    apply rM_foldM; [exact Hc|]. clear c c' Hc. intros c c' i Hc. apply rM_same. intros i1.
    apply (rM_bind V); [apply (rmat_col _ _ _ _ _ _ X)|]. intros v v' Hv. apply rmat_set; assumption.
  Qed.

  Lemma rgenerate_interpolation p P P' : RM P P' -> rM (rres RC) (generate svd (Interpolation p P)) (generate svd (Interpolation p P')).
  Proof.
    intros H. unfold generate, params_generate, dp_segments. rewrite (rmat_ncols _ _ _ _ _ H).
    apply rM_same. intros q. apply rM_same. intros n. apply rM_same. intros [kn|e]; [|reflexivity].
    apply (rM_bind RM); [apply rinterpolate, H|]. intros Q Q' HQ. apply rcurve_new; try assumption. apply rcp_new, HQ.
  Qed.

  Lemma rgenerate_fit p P P' n m pen : RM P P' ->
    rM (rres RC) (generate svd (LeastSquaresFit p P n m pen)) (generate svd (LeastSquaresFit p P' n m pen)).
  Proof.
    intros H. unfold generate, params_generate, dp_segments. rewrite (rmat_ncols _ _ _ _ _ H).
    apply rM_same. intros q. apply rM_same. intros [kn|e]; [|reflexivity].
    apply (rM_bind (rres RM)); [destruct m; [apply rfixed|apply rloose]; exact H|].
    intros [Q|e] [Q'|e'] HQ; simpl in HQ; try contradiction; [|subst; reflexivity]. apply rcurve_new; try assumption. apply rcp_new, HQ.
  Qed.

  Lemma rgenerate_uniform p P P' : RM P P' -> rM (rres RC) (generate svd (Manual p (cp_new P) GUniform)) (generate svd (Manual p (cp_new P') GUniform)).
  Proof.
    intros H. unfold generate. apply (rM_bind eq); [apply (rcp_segments r1 r2 V), rcp_new, H|]. intros n n' <-.
    destruct (n <? p); [reflexivity|]. apply (rM_bind RM); [apply rcp_matrix, rcp_new, H|]. intros A A' HA.
    apply rM_same. intros [kn|e]; [|reflexivity]. apply rcurve_new; try assumption. apply rcp_new, H.
  Qed.

  (** ** Programs *)
  Lemma rfails {A B E F} (R : A -> B -> Prop) (f : E -> F) x y : rM (rres R) x y ->
    rM (rres R) (r <- x;; Val (fails_with f r)) (r <- y;; Val (fails_with f r)).
  Proof. intros H. apply (rM_bind (rres R)); [exact H|]. intros [a|e] [b|e'] Hab; simpl in *; try contradiction; [exact Hab|congruence]. Qed.

  Lemma rrun D D' pr : (forall i, RM (D i) (D' i)) -> rM (rres RC) (run svd D pr) (run svd D' pr).
  Proof.
    intros H. induction pr as [p U i|p i|p i|p i n m pen|e a IH|a IHa pa b IHb pb]; cbn [run].
    - apply rM_same. intros kn. apply rfails, rcurve_new; try assumption. apply rcp_new, H.
    - apply rfails, rgenerate_uniform, H.
    - apply rfails, rgenerate_interpolation, H.
    - apply rfails, rgenerate_fit, H.
    - apply (rM_bind (rres RC)); [exact IH|]. intros [c|x] [c'|x'] Hc; simpl in Hc; try contradiction; [|subst; reflexivity].
      apply (rM_bind RC); [apply redit; assumption|]. intros d d' Hd. exact Hd.
    - apply (rM_bind (rres RC)); [exact IHa|]. intros [c|x] [c'|x'] Hc; simpl in Hc; try contradiction; [|subst; reflexivity].
      apply (rM_bind (rres RC)); [exact IHb|]. intros [d|x] [d'|x'] Hd; simpl in Hd; try contradiction; [|subst; reflexivity].
      apply rfails, rmerge; assumption.
  Qed.

  Lemma rrun_evaluate D D' pr u k : (forall i, RM (D i) (D' i)) -> rM (rres V) (run_evaluate svd D pr u k) (run_evaluate svd D' pr u k).
  Proof.
    intros H. unfold run_evaluate. apply (rM_bind (rres RC)); [apply rrun, H|].
    intros [c|x] [c'|x'] Hc; simpl in Hc; try contradiction; [|subst; reflexivity].
    apply rfails. apply rcurve_evaluate with (r1 := r1) (r2 := r2); assumption.
  Qed.
End Related.
