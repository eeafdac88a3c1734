(** * Every curve is the derivative of a curve; integrals *)

From Coq Require Import Reals List Arith Lra Lia.
From Verif Require Import Num Vec MKnots MPoints MCurve RNum Lists Spec BMath BMath2 BMath3 BMath4 SW Api Bridge Facts1 Fit3 Samples Shape1 Shape2 Shape3 Shape6.
Import ListNotations.
Local Open Scope R_scope.

Section Anti.
  Variables (p n : nat) (U : list R).
  Hypothesis C : clamped p n U.
  Let V := 0 :: U ++ [1].

  Let LU : length U = (n + p + 2)%nat := cl_len _ _ _ C.
  Let LV : length V = (n + p + 4)%nat.
  Proof. unfold V. cbn [length]. rewrite app_length. cbn [length]. lia. Qed.

  Lemma wide_nth i : (i < n + p + 2)%nat -> nth (S i) V 0 = nth i U 0.
  Proof. intros Hi. unfold V. cbn [nth]. apply app_nth1. lia. Qed.
  Lemma wide_last : nth (n + p + 3) V 0 = 1.
  Proof. replace (n + p + 3)%nat with (S (n + p + 2)) by lia. unfold V. cbn [nth]. rewrite app_nth2 by lia. rewrite LU, Nat.sub_diag. reflexivity. Qed.

  Lemma wide_clamped : clamped (S p) (S n) V.
  Proof.
    assert (D := cl_deg _ _ _ C). constructor.
    - lia.
    - rewrite LV. lia.
    - intros i j Hij Hj. rewrite LV in Hj. destruct i as [|i].
      + change (nth 0 V 0) with 0. destruct j as [|j]; [cbn; lra|]. destruct (Nat.eq_dec j (n + p + 2)) as [->|Ne].
        * replace (S (n + p + 2)) with (n + p + 3)%nat by lia. rewrite wide_last. lra.
        * rewrite wide_nth by lia. assert (T := cl_sorted _ _ _ C 0 j ltac:(lia) ltac:(lia)). rewrite (cl_zero _ _ _ C 0) in T by lia. exact T.
      + destruct j as [|j]; [lia|]. destruct (Nat.eq_dec j (n + p + 2)) as [->|Ne].
        * replace (S (n + p + 2)) with (n + p + 3)%nat by lia. rewrite wide_last. destruct (Nat.eq_dec i (n + p + 2)) as [->|Ne].
          -- replace (S (n + p + 2)) with (n + p + 3)%nat by lia. rewrite wide_last. lra.
          -- rewrite wide_nth by lia. assert (T := cl_sorted _ _ _ C i (n + p + 1) ltac:(lia) ltac:(lia)). rewrite (cl_one _ _ _ C (n + p + 1)) in T by lia. exact T.
        * rewrite !wide_nth by lia. apply (cl_sorted _ _ _ C); lia.
    - intros i Hi. destruct i as [|i]; [reflexivity|]. rewrite wide_nth by lia. apply (cl_zero _ _ _ C). lia.
    - intros i Hi Hi2. rewrite LV in Hi2. destruct (Nat.eq_dec i (n + p + 3)) as [->|Ne]; [apply wide_last|]. destruct i as [|i]; [lia|]. rewrite wide_nth by lia. apply (cl_one _ _ _ C); lia.
    - intros i Hi Hi2. destruct i as [|i]; [lia|]. rewrite wide_nth by lia. apply (cl_inner _ _ _ C); lia.
  Qed.

  Lemma wide_kfun i : kfun V (S i) = kfun U i.
  Proof.
    destruct (Nat.lt_ge_cases i (n + p + 2)) as [H|H]; [rewrite !kfun_nth by lia; apply wide_nth; exact H|].
    rewrite (fc_one _ _ _ (kfun_clamped _ _ _ wide_clamped)) by lia. rewrite (fc_one _ _ _ (kfun_clamped _ _ _ C)) by lia. reflexivity.
  Qed.

  Lemma wide_mult x : 0 < x < 1 -> mult V x = mult U x.
  Proof.
    intros Hx. unfold mult, V. cbn [count_occ]. destruct (Req_EM_T 0 x) as [E|E]; [lra|]. rewrite count_occ_app. cbn [count_occ]. destruct (Req_EM_T 1 x) as [E'|E']; [lra|]. lia.
  Qed.

  Lemma support_pos i : (forall x, 0 < x < 1 -> (mult U x <= p + 1)%nat) -> (i <= n)%nat -> nth i U 0 < nth (i + p + 1) U 0.
  Proof.
    intros M Hi. assert (F := kfun_clamped _ _ _ C). rewrite <- !kfun_nth by lia.
    assert (L : kfun U i <= kfun U (i + p + 1)%nat) by (apply (fc_mono _ _ _ F); lia).
    destruct (Req_dec (kfun U i) (kfun U (i + p + 1)%nat)) as [Q|Q]; [|lra]. exfalso.
    assert (A : 0 < kfun U (i + p + 1)%nat).
    { destruct (Nat.le_gt_cases (i + p + 1) n) as [H|H]; [apply (fc_inner _ _ _ F); lia|]. rewrite (fc_one _ _ _ F) by exact H. lra. }
    assert (B : kfun U i < 1).
    { destruct (Nat.le_gt_cases i p) as [H|H]; [rewrite (fc_zero _ _ _ F) by exact H; lra|]. apply (fc_inner _ _ _ F). lia. }
    assert (R : 0 < kfun U i < 1) by lra. assert (T := mult_mult_le p n U (kfun U i) (p + 1) C R (M _ R) i (i + p + 1)%nat eq_refl (eq_sym Q)). lia.
  Qed.

  Variable P : nat -> R.
  Definition sums (i : nat) : R := rsum (fun j => (nth (j + p + 1) U 0 - nth j U 0) / INR (p + 1) * P j) i.

  Hypothesis M : forall x, 0 < x < 1 -> (mult U x <= p + 1)%nat.

  Lemma sums_dpoints k : (k <= p)%nat -> forall i, (i + k <= n)%nat -> dpoints (kfun V) (S p) sums (S k) i = dpoints (kfun U) p P k i.
  Proof.
    induction k as [|k IH]; intros Hk i Hi.
    - cbn [dpoints]. replace (i + S p + 1)%nat with (S (i + p + 1)) by lia. replace (i + 1)%nat with (S i) by lia. rewrite !wide_kfun.
      assert (T := support_pos i M ltac:(lia)). rewrite !kfun_nth by lia. rewrite ratio_nz by lra. unfold sums. cbn [rsum].
      replace (S p - 0)%nat with (p + 1)%nat by lia. field. split; [|lra]. apply not_0_INR. lia.
    - change (dpoints (kfun U) p P (S k) i) with (ratio (INR (p - k) * (dpoints (kfun U) p P k (S i) - dpoints (kfun U) p P k i)) (kfun U (i + p + 1)%nat - kfun U (i + S k)%nat)).
      rewrite <- (IH ltac:(lia) i ltac:(lia)), <- (IH ltac:(lia) (S i) ltac:(lia)).
      change (dpoints (kfun V) (S p) sums (S (S k)) i) with (ratio (INR (S p - S k) * (dpoints (kfun V) (S p) sums (S k) (S i) - dpoints (kfun V) (S p) sums (S k) i)) (kfun V (i + S p + 1)%nat - kfun V (i + S (S k))%nat)).
      replace (i + S p + 1)%nat with (S (i + p + 1)) by lia. replace (i + S (S k))%nat with (S (i + S k)) by lia. rewrite !wide_kfun. reflexivity.
  Qed.

  Lemma sums_dspline k u : (k <= p)%nat -> dspline (kfun V) (S n) (S p) sums (S k) u = dspline (kfun U) n p P k u.
  Proof.
    intros Hk. assert (D := cl_deg _ _ _ C). unfold dspline. cbn [Nat.sub]. apply rsum_ext. intros i Hi. rewrite sums_dpoints by lia. f_equal. apply bspline_ext.
    intros a. unfold shift. replace (a + S k)%nat with (S (a + k)) by lia. apply wide_kfun.
  Qed.
End Anti.

Lemma antiderivative_curve p n dim U P c : clamped_curve p n dim U P c -> (forall x, 0 < x < 1 -> (mult U x <= p + 1)%nat) ->
  exists Q c', clamped_curve (p + 1) (n + 1) dim (0 :: U ++ [1]) Q c' /\
    (forall i d, (i <= n + 1)%nat -> (d < dim)%nat -> ent Q i d = rsum (fun j => (nth (j + p + 1) U 0 - nth j U 0) / INR (p + 1) * ent P j d) i) /\
    forall u k, (k <= p)%nat -> evaluate_derivative c' u (k + 1) = evaluate_derivative c u k.
Proof.
  intros H M.
  set (Q := mat_of dim (S (S n)) (fun d i => sums p U (fun j => ent P j d) i)).
  destruct (clamped_curve_ex (S p) (S n) dim (0 :: U ++ [1]) Q (wide_clamped p n U (proj1 H)) (mat_of_shape _ _ _)) as [c' H'].
  assert (EQ : forall i d, (i <= n + 1)%nat -> (d < dim)%nat -> ent Q i d = sums p U (fun j => ent P j d) i) by (intros i d Hi Hd; unfold Q; rewrite ent_mat_of by lia; reflexivity).
  exists Q, c'. split; [rewrite (Nat.add_1_r p), (Nat.add_1_r n); exact H'|]. split; [exact EQ|]. intros u k Hk. replace (k + 1)%nat with (S k) by lia.
  destruct (Rle_dec 0 u) as [A|A]; [destruct (Rle_dec u 1) as [B|B]|].
  - apply (returns_eq _ _ dim (fun d => dspline (kfun U) n p (fun i => ent P i d) k u)).
    + eapply returns_ext; [apply (cc_eval (S p) (S n) dim _ Q c' u (S k) H'); [lra|lia]|]. intros d Hd. cbv beta.
      rewrite <- (sums_dspline p n U (proj1 H) (fun i => ent P i d) M k u Hk). assert (D := cl_deg _ _ _ (proj1 H)).
      unfold dspline. apply rsum_ext. intros i Hi. f_equal.
      assert (G : forall m j, (j + m <= n + 1)%nat -> dpoints (kfun (0 :: U ++ [1])) (S p) (fun i => ent Q i d) m j = dpoints (kfun (0 :: U ++ [1])) (S p) (sums p U (fun j => ent P j d)) m j).
      { induction m as [|m IH]; intros j Hj; cbn [dpoints]; [apply EQ; [lia|exact Hd]|]. rewrite !IH by lia. reflexivity. }
      apply G. lia.
    + apply (cc_eval p n dim U P c u k H); [lra|exact Hk].
  - rewrite !eval_out by lra. reflexivity.
  - rewrite !eval_out by lra. reflexivity.
Qed.

(** ** The fundamental theorem, on [[0, 1]] *)
Lemma newton F f a b : (forall u, 0 <= u <= 1 -> derivative_on01 F u (f u)) -> (forall u, 0 <= u <= 1 -> continuous_on01 f u) -> 0 <= a -> a <= b -> b <= 1 ->
  exists pr : Riemann_integrable f a b, RiemannInt pr = F b - F a.
Proof.
  intros HD Hc Ha Hab Hb. set (g := fun x => f (Rmax 0 (Rmin 1 x))).
  set (G := fun x => F (Rmax 0 (Rmin 1 x)) + (x - Rmax 0 (Rmin 1 x)) * g x).
  assert (GF : forall x, 0 <= x <= 1 -> G x = F x) by (intros x Hx; unfold G; rewrite (clip_id x Hx); ring).
  assert (gf : forall x, 0 <= x <= 1 -> g x = f x) by (intros x Hx; unfold g; rewrite (clip_id x Hx); reflexivity).
  assert (gc : forall x, 0 <= x <= 1 -> continuity_pt g x).
  { intros x Hx eps Heps. destruct (Hc x Hx eps Heps) as [d [D1 D2]]. exists d. split; [exact D1|]. intros y [_ Hy]. cbn in Hy |- *. unfold R_dist in *. unfold g.
    rewrite (clip_id x Hx). apply D2; [apply clip_01|]. assert (T := clip_near y x). rewrite (clip_id x Hx) in T. lra. }
  assert (GD : forall x, 0 <= x <= 1 -> derivable_pt_lim G x (g x)).
  { intros x Hx eps Heps. destruct (HD x Hx eps Heps) as [d [D1 D2]].
    set (d0 := if Rlt_dec 0 x then x else 1). set (d1 := if Rlt_dec x 1 then 1 - x else 1).
    assert (P0 : 0 < d0) by (unfold d0; destruct (Rlt_dec 0 x); lra). assert (P1 : 0 < d1) by (unfold d1; destruct (Rlt_dec x 1); lra).
    assert (Pd : 0 < Rmin d (Rmin d0 d1)) by (repeat apply Rmin_glb_lt; assumption).
    exists (mkposreal _ Pd). intros h Hh Hd. cbn [pos] in Hd.
    assert (T1 := Rmin_l d (Rmin d0 d1)). assert (T2 := Rmin_r d (Rmin d0 d1)). assert (T3 := Rmin_l d0 d1). assert (T4 := Rmin_r d0 d1).
    rewrite (GF x Hx), (gf x Hx).
    assert (T : 0 <= x + h <= 1 \/ x = 0 /\ h < 0 \/ x = 1 /\ 0 < h).
    { destruct (Rlt_le_dec h 0) as [L|L].
      - rewrite Rabs_left in Hd by exact L. unfold d0 in *. destruct (Rlt_dec 0 x) as [X|X]; [left; lra|]. right. left. lra.
      - rewrite Rabs_pos_eq in Hd by exact L. unfold d1 in *. destruct (Rlt_dec x 1) as [X|X]; [left; lra|]. right. right. lra. }
    destruct T as [T|[[-> L]|[-> L]]].
    - rewrite (GF _ T). assert (Q := D2 (x + h) T ltac:(lra)). replace (x + h - x) with h in Q by ring. apply Q. lra.
    - unfold G, g. replace (Rmax 0 (Rmin 1 (0 + h))) with 0 by (unfold Rmax, Rmin; destruct (Rle_dec 1 (0 + h)), (Rle_dec 0 _); lra).
      replace ((F 0 + (0 + h - 0) * f 0 - F 0) / h - f 0) with 0 by (field; lra). rewrite Rabs_R0. exact Heps.
    - unfold G, g. replace (Rmax 0 (Rmin 1 (1 + h))) with 1 by (unfold Rmax, Rmin; destruct (Rle_dec 1 (1 + h)), (Rle_dec 0 _); lra).
      replace ((F 1 + (1 + h - 1) * f 1 - F 1) / h - f 1) with 0 by (field; lra). rewrite Rabs_R0. exact Heps. }
  assert (C0 : forall x, a <= x <= b -> continuity_pt g x) by (intros x Hx; apply gc; lra).
  assert (A1 := @RiemannInt_P29 g a b Hab C0).
  assert (A2 : antiderivative g G a b).
  { split; [|exact Hab]. intros x Hx. exists (exist _ (g x) (GD x ltac:(lra))). reflexivity. }
  destruct (@antiderivative_Ucte g _ _ a b A1 A2) as [k K].
  assert (Ka := K a ltac:(lra)). assert (Kb := K b ltac:(lra)). unfold primitive in Ka, Kb.
  destruct (Rle_dec a a) as [Ra|Ra]; [|lra]. destruct (Rle_dec a b) as [Rb|Rb]; [|lra]. destruct (Rle_dec b b) as [Rc|Rc]; [|lra].
  rewrite RiemannInt_P9 in Ka. rewrite GF in Ka, Kb by lra.
  assert (pr : Riemann_integrable f a b).
  { apply (@Riemann_integrable_ext g f a b); [|exact (FTC_P1 Hab C0 Rb Rc)]. intros x Hx. rewrite Rmin_left, Rmax_right in Hx by lra. apply gf. lra. }
  exists pr. rewrite (@RiemannInt_P18 f g a b pr (FTC_P1 Hab C0 Rb Rc) Hab) by (intros x Hx; symmetry; apply gf; lra). lra.
Qed.

Lemma integral p n dim U P c d f : clamped_curve p n dim U P c -> (forall x, 0 < x < 1 -> (mult U x <= p)%nat) -> (d < dim)%nat -> evals c 0 d f ->
  forall Q c' F, clamped_curve (p + 1) (n + 1) dim (0 :: U ++ [1]) Q c' -> (forall u, evaluate_derivative c' u 1 = evaluate_derivative c u 0) -> evals c' 0 d F ->
  forall a b, 0 <= a -> a <= b -> b <= 1 -> exists pr : Riemann_integrable f a b, RiemannInt pr = F b - F a.
Proof.
  intros H M Hd Hf Q c' F H' D HF a b Ha Hab Hb.
  assert (UQ : forall (e : Curve RNum) k g g', evals e k d g -> evals e k d g' -> forall u, 0 <= u <= 1 -> g u = g' u).
  { intros e k g g' G1 G2 u Hu. destruct (G1 u Hu) as [x [X1 X2]], (G2 u Hu) as [y [Y1 Y2]]. rewrite X1 in Y1. injection Y1 as ->. rewrite X2 in Y2. injection Y2 as ->. reflexivity. }
  assert (Ef := UQ c 0%nat f _ Hf (cc_evals p n dim U P c 0 d H ltac:(lia) Hd)).
  assert (EF := UQ c' 0%nat F _ HF (cc_evals _ _ _ _ _ _ 0 d H' ltac:(lia) Hd)).
  assert (E1 : evals c' 1 d f) by (intros u Hu; rewrite D; apply Hf; exact Hu).
  assert (Ef1 := UQ c' 1%nat f _ E1 (cc_evals _ _ _ _ _ _ 1 d H' ltac:(lia) Hd)).
  assert (MV : forall x, 0 < x < 1 -> mult_le (kfun (0 :: U ++ [1])) x p).
  { intros x Hx. apply (mult_mult_le (p + 1) (n + 1) _ x p (proj1 H') Hx). rewrite (wide_mult p n U (proj1 H) x Hx). apply M. exact Hx. }
  apply newton; try assumption.
  - intros u Hu eps Heps. destruct (dspline_derivative (p + 1) (n + 1) _ (fun i => ent Q i d) 0 u (kfun_clamped _ _ _ (proj1 H')) ltac:(lia) Hu) with (eps := eps) as [dl [D1 D2]].
    + intros Hu2. replace (p + 1 - 0 - 1)%nat with p by lia. apply MV. exact Hu2.
    + exact Heps.
    + exists dl. split; [exact D1|]. intros v Hv Hne Hv2. rewrite !EF, Ef1 by assumption. apply D2; assumption.
  - intros u Hu eps Heps. destruct (dspline_continuous p n _ (fun i => ent P i d) 0 u (kfun_clamped _ _ _ (proj1 H)) ltac:(lia) Hu) with (eps := eps) as [dl [D1 D2]].
    + intros Hu2. rewrite Nat.sub_0_r. apply (mult_mult_le p n U u p (proj1 H) Hu2). apply M. exact Hu2.
    + exact Heps.
    + exists dl. split; [exact D1|]. intros v Hv Hv2. rewrite !Ef by assumption. apply D2; assumption.
Qed.

Lemma mean_value p n dim U P c d f : clamped_curve p n dim U P c -> (forall x, 0 < x < 1 -> (mult U x <= p)%nat) -> (d < dim)%nat -> evals c 0 d f ->
  exists pr : Riemann_integrable f 0 1, RiemannInt pr = rsum (fun j => (nth (j + p + 1) U 0 - nth j U 0) / INR (p + 1) * ent P j d) (n + 1).
Proof.
  intros H M Hd Hf. destruct (antiderivative_curve p n dim U P c H) as [Q [c' [H' [EQ D]]]]; [intros x Hx; assert (T := M x Hx); lia|].
  destruct (endpoints _ _ _ _ _ _ H') as [[x [X1 [X2 X3]]] [y [Y1 [Y2 Y3]]]].
  assert (EV := cc_evals _ _ _ _ _ _ 0 d H' ltac:(lia) Hd).
  destruct (integral p n dim U P c d f H M Hd Hf Q c' _ H' (fun u => D u 0%nat ltac:(lia)) EV 0 1) as [pr E]; try lra. exists pr. rewrite E.
  rewrite <- (EQ (n + 1)%nat d) by (try lia; exact Hd).
  assert (A : dspline (kfun (0 :: U ++ [1])) (n + 1) (p + 1) (fun i => ent Q i d) 0 1 = ent Q (n + 1) d).
  { destruct (EV 1 ltac:(lra)) as [z [Z1 Z2]]. change (evaluate_derivative c' 1 0) with (evaluate c' 1) in Z1. rewrite Y1 in Z1. injection Z1 as <-. rewrite <- Y3 by exact Hd. symmetry. apply nth_error_nth. exact Z2. }
  assert (B : dspline (kfun (0 :: U ++ [1])) (n + 1) (p + 1) (fun i => ent Q i d) 0 0 = 0).
  { destruct (EV 0 ltac:(lra)) as [z [Z1 Z2]]. change (evaluate_derivative c' 0 0) with (evaluate c' 0) in Z1. rewrite X1 in Z1. injection Z1 as <-. rewrite <- (nth_error_nth _ _ 0 Z2), X3 by exact Hd.
    rewrite EQ by (try lia; exact Hd). reflexivity. }
  rewrite A, B. ring.
Qed.
