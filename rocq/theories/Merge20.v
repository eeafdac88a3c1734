(** * Merging with constraints and reversal *)

From Coq Require Import ZArith Reals List Bool Arith Lia Lra Psatz.
From Verif Require Import Num Vec MKnots MPoints MCurve MFit MGenerate MMerge RNum Hoare Lists Struct Spec BMath BMath2 BMath3 Api Bridge Facts1 Facts3 Facts6 Facts8 Facts9 LinAlg Fit2 Fit3 Fit6 Fit7 Fit8 Shape3 Merge3 Merge10 Merge12.
Import ListNotations.
Local Open Scope R_scope.

Definition flip1 (l : list R) : list R := map (fun u => 1 - u) l.

Lemma flip1_flip1 l : flip1 (flip1 l) = l.
Proof. unfold flip1. rewrite map_map. rewrite <- (map_id l) at 2. apply map_ext. intros x. ring. Qed.
Lemma flip1_in l u : In u (flip1 l) -> In (1 - u) l.
Proof. unfold flip1. intros H. apply in_map_iff in H. destruct H as [x [<- H]]. replace (1 - (1 - x)) with x by ring. exact H. Qed.

Lemma spline_vrev p n U (x : nat -> R) u : clamped p n U -> 0 <= u <= 1 -> (forall x, 0 < x < 1 -> (mult U x <= p)%nat) ->
  spline (kfun (vrev U)) n p (fun i => x (n - i)%nat) u = spline (kfun U) n p x (1 - u).
Proof.
  intros C Hu M. assert (F := kfun_clamped p n U C). assert (F' := kfun_clamped p n _ (reverse_clamped p n U C)).
  assert (T := dspline_reverse p n (kfun U) (kfun (vrev U)) x (fun i => x (n - i)%nat) 0 u F F' (kfun_vrev p n U C) (fun i _ => eq_refl) ltac:(lia) Hu).
  rewrite !dspline_0 in T. cbn [pow] in T. rewrite Rmult_1_l in T. apply T.
  intros Hu'. rewrite Nat.sub_0_r. apply (mults_le p n _ C); [exact M|lra].
Qed.

Lemma fit1_reverse_con p n V W pa pb x y x' y' : clamped p n V -> clamped p n W ->
  (forall u, In u pa -> 0 <= u <= 1) -> (forall u, In u pb -> 0 <= u <= 1) ->
  (forall x, 0 < x < 1 -> (mult V x <= p)%nat) -> (forall x, 0 < x < 1 -> (mult W x <= p)%nat) -> fit1 p n V W pa pb x y x' y' ->
  fit1 p n (vrev W) (vrev V) (flip1 pb) (flip1 pa) (fun i => y (n - i)%nat) (fun i => x (n - i)%nat) (fun i => y' (n - i)%nat) (fun i => x' (n - i)%nat).
Proof.
  intros CV CW Ia Ib MV MW [A1 [A2 [A3 [A4 A5]]]].
  assert (T : fit1 p n V W [] [] x y x' y') by (split; [exact A1|]; split; [exact A2|]; split; [exact A3|]; split; intros u []).
  destruct (fit1_reverse p n V W x y x' y' CV CW T) as [B1 [B2 [B3 _]]].
  split; [exact B1|]. split; [exact B2|]. split; [exact B3|]. split; intros u Hu; apply flip1_in in Hu.
  - specialize (Ib _ Hu). rewrite !(spline_vrev p n W) by (try assumption; lra). apply A5. exact Hu.
  - specialize (Ia _ Hu). rewrite !(spline_vrev p n V) by (try assumption; lra). apply A4. exact Hu.
Qed.

Lemma mult_vrevR (U : list R) x : mult (vrev U) x = mult U (1 - x).
Proof.
  unfold mult, vrev. assert (A : forall l, count_occ Req_EM_T (map (fun x => 1 - x) l) x = count_occ Req_EM_T l (1 - x)).
  { induction l as [|y l IH]; [reflexivity|]. cbn [map count_occ]. rewrite IH. destruct (Req_EM_T (1 - y) x), (Req_EM_T y (1 - x)); try lra; reflexivity. }
  rewrite A. clear A. induction U as [|y U IH]; [reflexivity|]. cbn [rev]. rewrite count_occ_app. cbn [count_occ]. rewrite IH. destruct (Req_EM_T y (1 - x)); lia.
Qed.

Lemma merge_reverse_con svd p n dim V W P Q a b pa pb : clamped_curve p n dim V P a -> clamped_curve p n dim W Q b -> good_solver svd -> p = 1%nat \/ p = 2%nat ->
  (length pa + length pb < p)%nat -> (forall u, In u pa -> 0 <= u <= 1) -> (forall u, In u pb -> 0 <= u <= 1) ->
  (forall x, 0 < x < 1 -> (mult V x <= p)%nat) -> (forall x, 0 < x < 1 -> (mult W x <= p)%nat) ->
  exists c ar br c', merge_with_constraints svd (mkCC a pa) (mkCC b pb) = Val (Ok c) /\ reverse a = Val ar /\ reverse b = Val br /\
    merge_with_constraints svd (mkCC br (map (fun u => 1 - u) pb)) (mkCC ar (map (fun u => 1 - u) pa)) = Val (Ok c') /\
    forall u, 0 <= u <= 1 -> evaluate c' u = evaluate c (1 - u).
Proof.
  intros HA HB G H12 Ht Ia Ib MV MW. assert (D := cl_deg _ _ _ (proj1 HA)).
  fold (flip1 pa) (flip1 pb).
  assert (Ia' : forall u, In u (flip1 pa) -> 0 <= u <= 1) by (intros u Hu; apply flip1_in in Hu; specialize (Ia _ Hu); lra).
  assert (Ib' : forall u, In u (flip1 pb) -> 0 <= u <= 1) by (intros u Hu; apply flip1_in in Hu; specialize (Ib _ Hu); lra).
  destruct (merge_stationary svd p n dim V W P Q a b pa pb HA HB G H12 Ht Ia Ib) as [c [P' [Q' [a' [b' [E [HA' [HB' [ST EV]]]]]]]]].
  destruct (reverse_curve p n dim V P a HA) as [ar [EA HAR]]. destruct (reverse_curve p n dim W Q b HB) as [br [EB HBR]].
  destruct (merge_stationary svd p n dim (vrev W) (vrev V) (mrev Q) (mrev P) br ar (flip1 pb) (flip1 pa) HBR HAR G H12) as [c2 [P2 [Q2 [a2 [b2 [E2 [HA2 [HB2 [ST2 EV2]]]]]]]]]; try assumption.
  { unfold flip1. rewrite !map_length. lia. }
  assert (RE : forall (X : Mat RNum) i d, shape dim (S n) X -> (i <= n)%nat -> ent (mrev X) i d = ent X (n - i) d).
  { intros X i d SX Hi. rewrite (ent_mrev dim (S n)) by (try exact SX; lia). f_equal. lia. }
  assert (S0 : stationary_at p n dim (vrev W) (vrev V) (mrev Q) (mrev P) (flip1 pb) (flip1 pa) (mrev Q') (mrev P')).
  { intros d Hd. destruct (ST d Hd) as [F O]. assert (SHP := proj1 (proj2 HA)). assert (SHQ := proj1 (proj2 HB)). assert (SHP' := proj1 (proj2 HA')). assert (SHQ' := proj1 (proj2 HB')). split.
    - eapply (fit1_ext p n (vrev W) (vrev V) (flip1 pb) (flip1 pa) (proj1 HBR)); [|apply (fit1_reverse_con p n V W pa pb _ _ _ _ (proj1 HA) (proj1 HB) Ia Ib MV MW F)]. intros i Hi. cbv beta. rewrite !RE by assumption. auto.
    - intros dx dy Ad.
      assert (AR : fit1 p n V W pa pb zero zero (fun i => dy (n - i)%nat) (fun i => dx (n - i)%nat)).
      { assert (T := fit1_reverse_con p n (vrev W) (vrev V) (flip1 pb) (flip1 pa) _ _ _ _ (proj1 HBR) (proj1 HAR) Ib' Ia'
          ltac:(intros x Hx; rewrite mult_vrevR; apply MW; lra) ltac:(intros x Hx; rewrite mult_vrevR; apply MV; lra) Ad). rewrite !vrev_vrev, !flip1_flip1 in T. exact T. }
      rewrite <- (O _ _ AR). rewrite <- scal_reverse. unfold scal. f_equal; apply rsum_ext; intros i Hi; rewrite !RE by (try assumption; lia); reflexivity. }
  assert (SM := stationary_same p n dim (vrev W) (vrev V) (mrev Q) (mrev P) (flip1 pb) (flip1 pa) _ _ _ _ S0 ST2).
  destruct (reverse_curve p n dim V P' a' HA') as [ar' [EA' HAR']]. destruct (reverse_curve p n dim W Q' b' HB') as [br' [EB' HBR']].
  assert (br' = a2) as <- by (apply (same_curve p n dim (vrev W) (mrev Q') P2 br' a2 HBR' HA2); intros; apply SM; assumption).
  assert (ar' = b2) as <- by (apply (same_curve p n dim (vrev V) (mrev P') Q2 ar' b2 HAR' HB2); intros; apply SM; assumption).
  exists c, ar, br, c2. split; [exact E|]. split; [exact EA|]. split; [exact EB|]. split; [exact E2|].
  apply (halves (fun u => evaluate c2 u = evaluate c (1 - u))). intros t T01. destruct (EV2 t T01) as [-> ->].
  destruct (EV (1 - t) ltac:(lra)) as [E3 E4]. split.
  - replace (1 - t / 2) with ((1 + (1 - t)) / 2) by field. rewrite E4. apply (reverse_value p n dim W Q' b' br' t HB' EB' T01). intros; apply MW; lra.
  - replace (1 - (1 + t) / 2) with ((1 - t) / 2) by field. rewrite E3. apply (reverse_value p n dim V P' a' ar' t HA' EA' T01). intros; apply MV; lra.
Qed.

Lemma merge_from_reverse svd n dim V W P Q a b : clamped_curve 2 n dim V P a -> clamped_curve 2 n dim W Q b -> good_solver svd ->
  (forall x, 0 < x < 1 -> (mult V x <= 2)%nat) -> (forall x, 0 < x < 1 -> (mult W x <= 2)%nat) ->
  exists c ar br c', merge_from svd a b = Val (Ok c) /\ reverse a = Val ar /\ reverse b = Val br /\ merge_to svd br ar = Val (Ok c') /\
    forall u, 0 <= u <= 1 -> evaluate c' u = evaluate c (1 - u).
Proof.
  intros HA HB G MV MW.
  destruct (merge_reverse_con svd 2 n dim V W P Q a b [1] [] HA HB G (or_intror eq_refl) ltac:(cbn; lia) ltac:(intros u [<-|[]]; lra) ltac:(intros u []) MV MW) as [c [ar [br [c' [E [EA [EB [E' H]]]]]]]].
  exists c, ar, br, c'. split; [exact E|]. split; [exact EA|]. split; [exact EB|]. split; [|exact H].
  cbn [map] in E'. replace (1 - 1) with 0 in E' by ring. exact E'.
Qed.
