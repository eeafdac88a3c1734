(** * The derivative curve, for every number system *)

From Coq Require Import ZArith List Bool Arith Lia.
From Verif Require Import Num Vec MKnots MPoints MCurve Hoare Lists Struct Api RNum Bridge Facts1.
Import ListNotations.

Section Derived.
  Context {K : Num}.

  Lemma basis_order (v : list K) u k n : k <= n -> forall q i, basis v q i k n u = basis v q i 0 (n - k) u.
  Proof.
    intros H. induction q as [|q IH]; intros i; cbn [basis].
    - rewrite !usub_ok by lia. cbn [bind]. rewrite Nat.sub_0_r. replace (n - k + 1 - 0) with (n + 1 - k) by lia. reflexivity.
    - rewrite !IH. reflexivity.
  Qed.

  Lemma derivative_curve_val p n dim (U : list K) P c k : wf p n dim U P c -> k <= p ->
    get_derivative_curve c k = Val (mkCurve (knots_of (p - k) (kderiv k U)) (cp_new (nth k (Pk (cpoints c)) (mzeros 0 0)))).
  Proof.
    intros [Wd Wl Ws Wk Wm Wh Wp Wpt] Hk. unfold get_derivative_curve, degree. rewrite Wk. cbn [kdegree kp knots_of].
    rewrite usub_ok by lia. cbn [bind]. fold (knots_of p U). unfold vector_derivative. rewrite knots_of_vec by lia.
    cbn [bind]. rewrite knots_new_val by (rewrite kderiv_length; lia). cbn [bind].
    unfold matrix_derivative. rewrite Wm. assert (Ek := Hk). apply Nat.leb_le in Ek. rewrite Ek. cbn [assert bind].
    rewrite (vget_nth _ k (mzeros 0 0)) by lia. reflexivity.
  Qed.

  Lemma derivative_curve_eval p n dim (U : list K) P c k u : wf p n dim U P c -> k <= p ->
    evaluate (mkCurve (knots_of (p - k) (kderiv k U)) (cp_new (nth k (Pk (cpoints c)) (mzeros 0 0)))) u
    = evaluate_derivative c u k.
  Proof.
    intros [Wd Wl Ws Wk Wm Wh Wp Wpt] Hk. unfold evaluate, evaluate_derivative.
    destruct (negb _); [reflexivity|]. specialize (Wpt k Hk).
    unfold degree, dimension, segments. destruct c as [kn [pk km]]. cbn [cknots cpoints Pk pk_max] in *. subst kn km.
    destruct pk as [|P0 pk]; [simpl in Wp; lia|]. cbn [nth] in Wh. subst P0.
    set (Q := nth k (P :: pk) (mzeros 0 0)) in *.
    rewrite (cp_dimension_val P pk p dim (S n) Ws). unfold cp_new at 1. rewrite (cp_dimension_val Q [] 0 dim (S n - k) Wpt).
    cbn [bind kdegree kp knots_of]. fold (knots_of p U). fold (knots_of (p - k) (kderiv k U)).
    assert (Ek := Hk). apply Nat.leb_le in Ek. rewrite Ek. cbn [Nat.leb].
    rewrite (cp_segments_val P pk p dim n Ws).
    replace (S n - k) with (S (n - k)) in Wpt by lia. unfold cp_new at 1. rewrite (cp_segments_val Q [] 0 dim (n - k) Wpt). cbn [bind].
    assert (F : find_idx (knots_of (p - k) (kderiv k U)) u 0 CLeftOrEqual = find_idx (knots_of p U) u k CLeftOrEqual).
    { unfold find_idx, vector_derivative. rewrite !knots_of_vec by lia. cbn [bind kdegree kp knots_of].
      fold (knots_of p U). fold (knots_of (p - k) (kderiv k U)). rewrite !usub_ok by lia. cbn [bind].
      rewrite (knots_of_segments p U n Wl). rewrite (knots_of_segments (p - k) (kderiv k U) (n - k)) by (rewrite kderiv_length; lia).
      cbn [bind]. rewrite !usub_ok by lia. cbn [bind]. rewrite kderiv_0, !Nat.sub_0_r.
      replace (n - k + 1) with (n + 1 - k) by lia. reflexivity. }
    rewrite F. destruct (find_idx (knots_of p U) u k CLeftOrEqual) as [l| | |] eqn:El; cbn [bind]; try reflexivity.
    rewrite (usub_ok (p - k) 0), (usub_ok p k), (usub_ok (n - k) 0), (usub_ok n k) by lia. cbn [bind]. rewrite !Nat.sub_0_r.
    destruct (usub l (p - k)) as [lo| | |]; cbn [bind]; try reflexivity.
    erewrite foldM_ext; [reflexivity|]. intros s i Hi. cbv beta.
    rewrite (kevaluate_val (p - k) (kderiv k U) (n - k)) by (try rewrite kderiv_length; lia).
    rewrite (kevaluate_val p U n) by lia. rewrite kderiv_0, Nat.sub_0_r.
    rewrite (basis_order _ u k n) by lia.
    unfold matrix_derivative. cbn [pk_max Pk cp_new]. rewrite Ek. cbn [Nat.leb assert bind].
    rewrite (vget_nth (P :: pk) k (mzeros 0 0)) by lia. unfold vget at 1. cbn [nth_error bind]. reflexivity.
  Qed.

  Lemma derived_facts p n dim (U : list K) P c k : wf p n dim U P c -> k <= p ->
    exists c', get_derivative_curve c k = Val c' /\ degree c' = p - k /\ segments c' = Val (n - k) /\
      dimension c' = Val dim /\ vector (cknots c') = Val (firstn (length U - 2 * k) (skipn k U)) /\
      forall u, evaluate c' u = evaluate_derivative c u k.
  Proof.
    intros W Hk. eexists. split; [apply (derivative_curve_val p n dim U P c k W Hk)|].
    split; [reflexivity|]. assert (Wpt := wf_pts _ _ _ _ _ _ W k Hk). assert (Wd := wf_deg _ _ _ _ _ _ W).
    assert (Wpt2 := Wpt). replace (S n - k) with (S (n - k)) in Wpt2 by lia.
    split; [apply (cp_segments_val _ _ _ dim); exact Wpt2|].
    split; [apply (cp_dimension_val _ _ _ dim (S n - k)); exact Wpt|].
    split; [apply knots_of_vector|]. intros u. apply (derivative_curve_eval p n dim U P); assumption.
  Qed.

  Lemma derived_over p n dim (U : list K) P c k : wf p n dim U P c -> p < k -> get_derivative_curve c k = Panic.
  Proof.
    intros W Hk. unfold get_derivative_curve, degree. rewrite (wf_knots _ _ _ _ _ _ W). cbn [kdegree kp knots_of].
    unfold usub. replace (k <=? p) with false by (symmetry; apply Nat.leb_gt; exact Hk). reflexivity.
  Qed.

  Lemma derived_max p n dim (U : list K) P c k c' : wf p n dim U P c -> k < p -> get_derivative_curve c k = Val c' ->
    max_derivative c' = Panic.
  Proof.
    intros W Hk E. rewrite (derivative_curve_val p n dim U P c k W) in E by lia. injection E as <-.
    unfold max_derivative, kmax_derivative, pmax_derivative. cbn [cknots cpoints kk_max knots_of pk_max cp_new].
    replace (p - k =? 0) with false by (symmetry; apply Nat.eqb_neq; lia). reflexivity.
  Qed.

  Lemma derived_second (G : @gdiv K False) p n dim (U : list K) P c k c' u j : wf p n dim U P c ->
    get_derivative_curve c k = Val c' -> 1 <= j -> j + k <= p ->
    (n0 <=? u)%num && (u <=? n1)%num = true -> evaluate_derivative c' u j = Panic.
  Proof.
    intros W E Hj Hk Hu. rewrite (derivative_curve_val p n dim U P c k W) in E by lia. injection E as <-.
    assert (Wpt := wf_pts _ _ _ _ _ _ W k ltac:(lia)). assert (Wd := wf_deg _ _ _ _ _ _ W). assert (Wl := wf_len _ _ _ _ _ _ W).
    replace (S n - k) with (S (n - k)) in Wpt by lia.
    set (Q := nth k (Pk (cpoints c)) (mzeros 0 0)) in *.
    unfold evaluate_derivative. rewrite Hu. cbn [negb]. unfold degree, dimension, segments. cbn [cknots cpoints].
    unfold cp_new. rewrite (cp_dimension_val Q [] 0 dim _ Wpt). cbn [bind].
    change (kdegree (knots_of (p - k) (kderiv k U))) with (p - k).
    replace (j <=? p - k) with true by (symmetry; apply Nat.leb_le; lia).
    rewrite (cp_segments_val Q [] 0 dim _ Wpt). cbn [bind].
    assert (L : length (kderiv k U) = n - k + (p - k) + 2) by (rewrite kderiv_length; lia).
    assert (F := find_idx_le_ok False (p - k) (kderiv k U) (n - k) j u L ltac:(lia) ltac:(lia)). apply ok_val_ex in F.
    destruct F as [l [-> [Hl _]]]. cbn [bind]. repeat (rewrite usub_ok by lia; cbn [bind]).
    unfold rangei. replace (n - k - j + 1 - (l - (p - k - j))) with (S (n - k - j - (l - (p - k - j)))) by lia.
    cbn [seq foldM]. rewrite (kevaluate_val (p - k) (kderiv k U) (n - k)) by (assumption || lia).
    assert (B : ok False (basis (kderiv j (kderiv k U)) (p - k - j) (l - (p - k - j)) j (n - k) u) (fun _ => True)).
    { apply basis_ok; [exact G|lia| |]; rewrite kderiv_length; lia. }
    apply ok_val_ex in B. destruct B as [b [-> _]]. cbn [bind].
    unfold matrix_derivative. cbn [pk_max]. destruct j as [|j]; [lia|]. reflexivity.
  Qed.
End Derived.

Lemma derived_api (K : Num) : (forall x y : K, ndiv x y <> Panic /\ ndiv x y <> Diverge) ->
  forall p n dim (U : list K) (P : Mat K) c k, sized p n dim U P -> built p U P c -> k <= p ->
  exists c', get_derivative_curve c k = Val c' /\ degree c' = p - k /\ segments c' = Val (n - k) /\
    dimension c' = Val dim /\ vector (cknots c') = Val (firstn (length U - 2 * k) (skipn k U)) /\
    forall u, evaluate c' u = evaluate_derivative c u k.
Proof.
  intros D p n dim U P c k S B Hk. apply (derived_facts p n dim U P); [|exact Hk].
  apply (sized_wf True (gdiv_total K D)); assumption.
Qed.

Lemma derived_api_over (K : Num) : (forall x y : K, ndiv x y <> Panic /\ ndiv x y <> Diverge) ->
  forall p n dim (U : list K) (P : Mat K) c k, sized p n dim U P -> built p U P c -> p < k -> get_derivative_curve c k = Panic.
Proof.
  intros D p n dim U P c k S B Hk. apply (derived_over p n dim U P); [|exact Hk].
  apply (sized_wf True (gdiv_total K D)); assumption.
Qed.

Lemma derived_api_limits (K : Num) : @gdiv K False ->
  forall p n dim (U : list K) (P : Mat K) c k c', sized p n dim U P -> built p U P c -> k < p ->
  get_derivative_curve c k = Val c' ->
  max_derivative c' = Panic /\
  forall u j, 1 <= j -> j + k <= p -> (n0 <=? u)%num && (u <=? n1)%num = true -> evaluate_derivative c' u j = Panic.
Proof.
  intros G p n dim U P c k c' S B Hk E. assert (W := sized_wf False G p n dim U P c S B). split.
  - apply (derived_max p n dim U P c k); assumption.
  - intros u j H1 H2 H3. apply (derived_second G p n dim U P c k); assumption.
Qed.
