(** * Runs of edits in exact arithmetic *)

From Coq Require Import ZArith Reals List Bool Arith Lia Lra Psatz Permutation.
From Verif Require Import Num Vec MKnots MPoints MCurve RNum Lists Spec Api ApiC ApiR BMath BMath3 Bridge Facts1 Facts3 Facts5 Facts6 Facts7 Facts8 Split2 Rev2.
Import ListNotations.
Local Open Scope R_scope.

Lemma mult_rev U x : mult (map (fun x => 1 - x) (rev U)) x = mult U (1 - x).
Proof.
  unfold mult. assert (A : forall l, count_occ Req_EM_T (map (fun x => 1 - x) l) x = count_occ Req_EM_T l (1 - x)).
  { induction l as [|y l IH]; [reflexivity|]. cbn [map count_occ]. rewrite IH. destruct (Req_EM_T (1 - y) x), (Req_EM_T y (1 - x)); try lra; reflexivity. }
  rewrite A. clear A. induction U as [|y U IH]; [reflexivity|]. cbn [rev]. rewrite count_occ_app. cbn [count_occ]. rewrite IH. destruct (Req_EM_T y (1 - x)); lia.
Qed.

Lemma mult_many u k U V x : Permutation (repeat u k ++ U) V -> mult V x = (mult U x + if Req_EM_T x u then k else 0)%nat.
Proof.
  intros H. rewrite <- (mult_perm _ _ x H). unfold mult. rewrite count_occ_app. destruct (Req_EM_T x u) as [->|Ne].
  - rewrite count_occ_repeat_eq by reflexivity. lia.
  - rewrite count_occ_repeat_neq by congruence. lia.
Qed.

(** one edit *)
Lemma edit_exact p n dim U P c m e : clamped_curve p n dim U P c -> (forall x, 0 < x < 1 -> mult U x = m x) -> (forall x, 0 < x < 1 -> (m x <= p)%nat) ->
  allowed p m e ->
  exists c' n' U' P', edit_once c e = Val c' /\ clamped_curve p n' dim U' P' c' /\
    (forall x, 0 < x < 1 -> mult U' x = knots_after e m x) /\ (forall x, 0 < x < 1 -> (knots_after e m x <= p)%nat) /\
    (forall t, 0 <= t <= 1 -> 0 <= before e t <= 1) /\ (forall t, 0 < t < 1 -> 0 < before e t < 1) /\
    (forall t, 0 <= t <= 1 -> evaluate c' t = evaluate c (before e t)) /\
    (forall t k, 0 < t < 1 -> (k <= p)%nat -> (knots_after e m t <= p - k)%nat ->
      (m (before e t) <= p - k)%nat /\
      exists v, evaluate_derivative c (before e t) k = Val (Ok v) /\ length v = dim /\ returns (evaluate_derivative c' t k) dim (fun d => stretch_of e ^ k * nth d v 0)).
Proof.
  intros H HM Mp A. destruct e as [u k| |u f|u f|k]; cbn [allowed edit_once before stretch_of knots_after] in *; [| | | |contradiction].
  - destruct A as [Hu [A1 A2]].
    assert (SB : simple_below U u) by (intros x Hx; rewrite HM by lra; apply A2; exact Hx).
    destruct (insert_times_exact k p n dim U P c u H Hu ltac:(rewrite HM by exact Hu; lia) SB) as [c1 [V [Q [E1 [H1 [Pe Sf]]]]]].
    exists c1, (n + k)%nat, V, Q. rewrite E1. split; [reflexivity|]. split; [exact H1|].
    split; [intros x Hx; rewrite (mult_many _ _ _ _ x Pe), HM by exact Hx; reflexivity|].
    split; [intros x Hx; destruct (Req_EM_T x u) as [->|]; [lia|rewrite Nat.add_0_r; apply Mp; exact Hx]|].
    split; [auto|]. split; [auto|]. split; [intros t Ht; apply (Sf t 0%nat)|].
    intros t j Ht Hj Hk. split; [lia|]. destruct (cc_eval p n dim U P c t j H ltac:(lra) Hj) as [v [Ev [Lv Nv]]].
    exists v. split; [exact Ev|]. split; [exact Lv|]. rewrite (Sf t j). exists v. split; [exact Ev|]. split; [exact Lv|].
    intros d Hd. rewrite pow1. symmetry. apply Rmult_1_l.
  - destruct (reverse_fact p n dim U P c H) as [c' [E [H' R]]].
    exists c', n, (map (fun x => 1 - x) (rev U)), (mkMat (nrows P) (rev (mcols P))). split; [exact E|]. split; [exact H'|].
    split; [intros x Hx; rewrite mult_rev; apply HM; lra|]. split; [intros x Hx; apply Mp; lra|].
    split; [intros t Ht; lra|]. split; [intros t Ht; lra|]. split.
    + intros t Ht. destruct (R 0%nat t ltac:(lia) Ht) as [v [E1 [E2 E3]]]; [intros Ht'; rewrite Nat.sub_0_r, HM by lra; apply Mp; lra|].
      unfold evaluate. rewrite E1. destruct E3 as [w [F1 [F2 F3]]]. rewrite F1.
      assert (X : w = v); [|rewrite X; reflexivity]. apply (nth_ext _ _ 0 0); [rn; lia|]. intros d Hd. rewrite F3 by (rn; lia). cbn [pow]. apply Rmult_1_l.
    + intros t k Ht Hk Hm. split; [exact Hm|]. apply R; [exact Hk|lra|]. intros _. rewrite HM by lra. exact Hm.
  - destruct A as [-> [Hu A2]]. assert (SB : simple_below U u) by (intros x Hx; rewrite HM by lra; apply A2; exact Hx).
    assert (MU : (mult U u <= p)%nat) by (rewrite HM by exact Hu; apply Mp; exact Hu).
    destruct (split_knots p n dim U P c u H Hu MU SB) as [l [r [nl [nr [Ul [Pl [Ur [Pr [E [HL [HR [ML [MR _]]]]]]]]]]]]].
    destruct (split_exact p n dim U P c u H Hu MU SB) as [cl [cr [_ [_ [_ [_ [_ [_ [E' [_ [_ [_ F]]]]]]]]]]]]. unfold split in E, E'. rewrite E in E'. injection E' as <- <-.
    exists l, nl, Ul, Pl. rewrite E. split; [reflexivity|]. split; [exact HL|].
    assert (B : forall t, 0 < t < 1 -> 0 < t * u < 1) by (intros t Ht; split; nra).
    split; [intros x Hx; rewrite ML by exact Hx; apply HM, B, Hx|]. split; [intros x Hx; apply Mp, B, Hx|].
    split; [intros t Ht; split; nra|]. split; [exact B|]. split; [intros t Ht; apply (F t Ht)|].
    intros t k Ht Hk Hm. split; [exact Hm|]. destruct (proj2 (F t ltac:(lra)) k Hk) as [x [y [xr [yr [F1 [F2 [_ [_ [F3 [F4 [_ [_ F5]]]]]]]]]]]].
    exists x. split; [exact F1|]. split; [exact F3|]. exists y. split; [exact F2|]. split; [exact F4|]. intros d Hd. apply (F5 d Hd). intros; lra.
  - destruct A as [-> [Hu A2]]. assert (SB : simple_below U u) by (intros x Hx; rewrite HM by lra; apply A2; exact Hx).
    assert (MU : (mult U u <= p)%nat) by (rewrite HM by exact Hu; apply Mp; exact Hu).
    destruct (split_knots p n dim U P c u H Hu MU SB) as [l [r [nl [nr [Ul [Pl [Ur [Pr [E [HL [HR [ML [MR _]]]]]]]]]]]]].
    destruct (split_exact p n dim U P c u H Hu MU SB) as [cl [cr [_ [_ [_ [_ [_ [_ [E' [_ [_ [_ F]]]]]]]]]]]]. unfold split in E, E'. rewrite E in E'. injection E' as <- <-.
    exists r, nr, Ur, Pr. rewrite E. split; [reflexivity|]. split; [exact HR|].
    assert (B : forall t, 0 < t < 1 -> 0 < u + t * (1 - u) < 1) by (intros t Ht; split; nra).
    split; [intros x Hx; rewrite MR by exact Hx; apply HM, B, Hx|]. split; [intros x Hx; apply Mp, B, Hx|].
    split; [intros t Ht; split; nra|]. split; [exact B|]. split; [intros t Ht; apply (F t Ht)|].
    intros t k Ht Hk Hm. split; [exact Hm|]. destruct (proj2 (F t ltac:(lra)) k Hk) as [x [y [xr [yr [_ [_ [F1 [F2 [_ [_ [F3 [F4 F5]]]]]]]]]]]].
    exists xr. split; [exact F1|]. split; [exact F3|]. exists yr. split; [exact F2|]. split; [exact F4|]. intros d Hd. apply (F5 d Hd).
Qed.

Theorem run_exact p dim es : forall n U P c m, clamped_curve p n dim U P c -> (forall x, 0 < x < 1 -> mult U x = m x) -> (forall x, 0 < x < 1 -> (m x <= p)%nat) ->
  all_allowed p m es ->
  exists c' n' U' P', edited c es = Val c' /\ clamped_curve p n' dim U' P' c' /\
    (forall x, 0 < x < 1 -> mult U' x = knots_after_all es m x) /\
    (forall t, 0 <= t <= 1 -> 0 <= origin es t <= 1) /\
    (forall t, 0 <= t <= 1 -> evaluate c' t = evaluate c (origin es t)) /\
    (forall t k, 0 < t < 1 -> (k <= p)%nat -> (knots_after_all es m t <= p - k)%nat ->
      0 < origin es t < 1 /\ (m (origin es t) <= p - k)%nat /\
      exists v, evaluate_derivative c (origin es t) k = Val (Ok v) /\ length v = dim /\ returns (evaluate_derivative c' t k) dim (fun d => stretched es ^ k * nth d v 0)).
Proof.
  induction es as [|e es IH]; intros n U P c m H HM Mp A.
  - exists c, n, U, P. cbn [origin stretched knots_after_all]. split; [reflexivity|]. split; [exact H|]. split; [exact HM|]. split; [auto|]. split; [reflexivity|].
    intros t k Ht Hk Hm. split; [exact Ht|]. split; [exact Hm|]. destruct (cc_eval p n dim U P c t k H ltac:(lra) Hk) as [v [Ev [Lv Nv]]].
    exists v. split; [exact Ev|]. split; [exact Lv|]. exists v. split; [exact Ev|]. split; [exact Lv|]. intros d Hd. rewrite pow1. symmetry. apply Rmult_1_l.
  - cbn [all_allowed] in A. destruct A as [A1 A2].
    destruct (edit_exact p n dim U P c m e H HM Mp A1) as [c1 [n1 [U1 [P1 [E1 [H1 [K1 [M1 [B1 [B2 [V1 D1]]]]]]]]]]].
    destruct (IH n1 U1 P1 c1 (knots_after e m) H1 K1 M1 A2) as [c2 [n2 [U2 [P2 [E2 [H2 [K2 [B3 [V2 D2]]]]]]]]].
    exists c2, n2, U2, P2. cbn [origin stretched knots_after_all]. split; [unfold edited in *; cbn [foldM]; rewrite E1; cbn [bind]; exact E2|]. split; [exact H2|]. split; [exact K2|].
    split; [intros t Ht; apply B1, B3, Ht|]. split; [intros t Ht; rewrite V2 by exact Ht; apply V1, B3, Ht|].
    intros t k Ht Hk Hm. destruct (D2 t k Ht Hk Hm) as [O [Om [v [Ev [Lv [w [Ew [Lw Nw]]]]]]]].
    destruct (D1 (origin es t) k O Hk Om) as [O' [v' [Ev' [Lv' [w' [Ew' [Lw' Nw']]]]]]].
    split; [apply B2; exact O|]. split; [exact O'|]. exists v'. split; [exact Ev'|]. split; [exact Lv'|]. exists w. split; [exact Ew|]. split; [exact Lw|].
    intros d Hd. rewrite Nw by exact Hd. rewrite Ev in Ew'. injection Ew' as <-. rewrite Nw' by exact Hd. rewrite Rpow_mult_distr. ring.
Qed.
