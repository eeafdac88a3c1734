(** * Which knots stay consistent under normalize *)

From Coq Require Import ZArith Reals List Bool Arith Lia Lra.
From Verif Require Import Num Vec MKnots RNum Hoare Lists Struct Spec Api Bridge Facts1 Facts7 Facts9 Gen1 Gen3 Gen4.
Import ListNotations.
Local Open Scope R_scope.

Lemma vecd_nth p q (uk : list (list R)) k : (k < length uk)%nat -> @vector_derivative RNum (mkKnots uk p q) k = Val (nth k uk []).
Proof. intros H. unfold vector_derivative. cbn [Uk]. apply (vget_nth uk k []). exact H. Qed.

Lemma normalize_iff p n (U : list R) kn : length U = (n + p + 2)%nat -> (p <= n)%nat -> sorted U -> nth p U 0 < nth (n + 1) U 0 ->
  @knots_new RNum p U = Val kn ->
  exists kn' U' kn'', knots_normalize kn = Val kn' /\ vector kn' = Val U' /\ knots_new p U' = Val kn'' /\
    forall k, (k <= p)%nat -> (vector_derivative kn' k = vector_derivative kn'' k <->
      nth k U 0 = nth 0 U 0 /\ nth (n + p + 1 - k) U 0 = nth (n + p + 1) U 0).
Proof.
  intros L Hpn So Hd E. destruct (knots_new_inv p U kn E) as [-> L2]. rn.
  set (lo k := nth k U 0). set (hi k := nth (n + p + 1 - k) U 0).
  assert (LH : forall k, (k <= p)%nat -> lo k < hi k).
  { intros k Hk. unfold lo, hi. assert (A := So k p ltac:(lia) ltac:(lia)). assert (B := So (n + 1)%nat (n + p + 1 - k)%nat ltac:(lia) ltac:(lia)). lra. }
  set (f k := map (fun x => (x - lo k) / (hi k - lo k)) (kderiv k U)).
  set (U' := f 0%nat). exists (mkKnots (map f (seq 0 (S p))) p p), U', (@knots_of RNum p U').
  assert (LK : forall k, length (kderiv k U) = (length U - 2 * k)%nat) by (intros; apply kderiv_length).
  assert (EU' : U' = map (fun x => (x - lo 0%nat) / (hi 0%nat - lo 0%nat)) U) by (unfold U', f; rewrite kderiv_0; reflexivity).
  assert (LU' : length U' = (n + p + 2)%nat) by (rewrite EU', map_length; exact L).
  split; [|split; [|split]].
  - unfold knots_normalize, knots_of. cbn [Uk kp kk_max].
    assert (G : forall l, (forall k, In k l -> (k <= p)%nat) -> mapM (@vec_normalize RNum) (map (fun k => kderiv k U) l) = Val (map f l)).
    { induction l as [|k l IH]; intros Hl; [reflexivity|]. cbn [map mapM]. rewrite IH by (intros; apply Hl; right; assumption).
      assert (Hk := Hl k (or_introl eq_refl)). assert (LKk := LK k).
      assert (SK : sorted (kderiv k U)). { intros i j Hij Hj. rn. rewrite !nth_kderiv_R by lia. apply So; lia. }
      assert (EA : @vmin RNum (kderiv k U) = lo k).
      { rewrite sorted_min by (try exact SK; rn; lia). rewrite nth_kderiv_R by lia. unfold lo. f_equal. lia. }
      assert (EB : @vmax RNum (kderiv k U) = hi k).
      { rewrite sorted_max by (try exact SK; rn; lia). rewrite nth_kderiv_R by (rn; lia). unfold hi. f_equal. rn. lia. }
      rn. rewrite vec_normalize_R; rewrite EA, EB; [reflexivity|]. assert (T := LH k Hk). lra. }
    rewrite G; [reflexivity|]. intros k Hk. apply in_seq in Hk. lia.
  - reflexivity.
  - apply knots_new_val. rn. lia.
  - intros k Hk. rewrite vecd_nth by (rewrite map_length, seq_length; lia).
    unfold knots_of. rewrite (vecd_nth p p (map (fun k0 => kderiv k0 U') (seq 0 (S p)))) by (rewrite map_length, seq_length; lia).
    rewrite (nth_indep _ [] (f 0%nat)) by (rewrite map_length, seq_length; lia). rewrite (map_nth f), seq_nth by lia.
    rewrite (nth_indep _ [] (kderiv 0%nat U')) by (rewrite map_length, seq_length; lia).
    rewrite (map_nth (fun k0 => kderiv k0 U')), seq_nth by lia. cbn [plus].
    rewrite EU', kderiv_map. unfold f. assert (T0 := LH 0%nat ltac:(lia)). assert (Tk := LH k Hk).
    assert (LKk := LK k).
    assert (N : forall g i, (i < length U - 2 * k)%nat -> nth i (map g (kderiv k U)) 0 = g (nth (k + i) U 0)).
    { intros g i Hi. rewrite (nth_indep _ 0 (g 0)) by (rewrite map_length; rn; lia). rewrite (map_nth g). f_equal. apply nth_kderiv_R. exact Hi. }
    split.
    + intros H. injection H as H.
      assert (A := f_equal (fun v => nth 0 v 0) H). cbv beta in A. rewrite !N in A by lia. rewrite Nat.add_0_r in A. fold (lo k) in A.
      assert (B := f_equal (fun v => nth (n + p + 1 - 2 * k) v 0) H). cbv beta in B. rewrite !N in B by lia.
      replace (k + (n + p + 1 - 2 * k))%nat with (n + p + 1 - k)%nat in B by lia. fold (hi k) in B.
      replace ((lo k - lo k) / (hi k - lo k)) with 0 in A by (field; lra).
      replace ((hi k - lo k) / (hi k - lo k)) with 1 in B by (field; lra).
      assert (A' : lo k = lo 0%nat).
      { apply (Rmult_eq_compat_r (hi 0%nat - lo 0%nat)) in A. replace ((lo k - lo 0%nat) / (hi 0%nat - lo 0%nat) * (hi 0%nat - lo 0%nat)) with (lo k - lo 0%nat) in A by (field; lra). lra. }
      assert (B' : hi k = hi 0%nat).
      { apply (Rmult_eq_compat_r (hi 0%nat - lo 0%nat)) in B. replace ((hi k - lo 0%nat) / (hi 0%nat - lo 0%nat) * (hi 0%nat - lo 0%nat)) with (hi k - lo 0%nat) in B by (field; lra). lra. }
      split; [exact A'|]. unfold hi in B'. rewrite Nat.sub_0_r in B'. exact B'.
    + intros [A B]. fold (lo k) (lo 0%nat) in A. fold (hi k) in B.
      assert (B' : hi k = hi 0%nat) by (unfold hi at 2; rewrite Nat.sub_0_r; exact B). rewrite A, B'. reflexivity.
Qed.
