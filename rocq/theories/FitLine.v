(** * Interpolation of degree 1 *)

From Coq Require Import ZArith Reals List Bool Arith Lia Lra.
From Verif Require Import Num Vec MKnots MPoints MCurve MFit MGenerate RNum Lists Spec Api BMath BMath3 Bridge Facts1 Samples Fit6 Fit7 Shape3.
Import ListNotations.
Local Open Scope R_scope.

Lemma uniform_polyline m dim U Q c : (1 <= m)%nat -> clamped_curve 1 m dim U Q c -> uniform_knots 1 m U ->
  forall g s, (g < m)%nat -> 0 <= s <= 1 -> returns (evaluate c ((INR g + s) / INR m)) dim (fun d => (1 - s) * ent Q g d + s * ent Q (S g) d).
Proof.
  intros Hm H UK. assert (Pm : 0 < INR m) by (apply lt_0_INR; lia).
  assert (K : forall g, (g <= m)%nat -> nth (S g) U 0 = INR g / INR m).
  { intros g Hg. rewrite UK by lia. replace (S g - 1)%nat with g by lia. replace (m - 1 + 1)%nat with m by lia. reflexivity. }
  assert (Lt : forall x y, x < y -> x / INR m < y / INR m).
  { intros x y Hxy. apply Rmult_lt_compat_r; [apply Rinv_0_lt_compat, Pm|exact Hxy]. }
  assert (Le : forall x y, x <= y -> x / INR m <= y / INR m).
  { intros x y Hxy. apply Rmult_le_compat_r; [apply Rlt_le, Rinv_0_lt_compat, Pm|exact Hxy]. }
  assert (G : forall g s, (g < m)%nat -> 0 <= s <= 1 -> (s < 1 \/ S g = m) -> returns (evaluate c ((INR g + s) / INR m)) dim (fun d => (1 - s) * ent Q g d + s * ent Q (S g) d)).
  { intros g s Hg Hs HC. eapply returns_ext.
    - apply (polyline m dim U Q c (S g) ((INR g + s) / INR m) H ltac:(lia)).
      + rewrite !K by lia. rewrite S_INR. split; apply Le; lra.
      + rewrite !K by lia. apply Lt. rewrite S_INR. lra.
      + rewrite !K by lia. destruct HC as [A|A].
        * left. apply Lt. rewrite S_INR. lra.
        * destruct (Req_dec s 1) as [->|N].
          -- right. left. rewrite <- S_INR, A. field. lra.
          -- left. apply Lt. rewrite S_INR. lra.
    - intros d Hd. cbv beta. rewrite !K by lia. rewrite S_INR. replace (S g - 1)%nat with g by lia. field. lra. }
  intros g s Hg Hs. destruct (Rlt_dec s 1) as [A|A]; [apply G; auto|].
  destruct (Nat.eq_dec (S g) m) as [B|B]; [apply G; auto|].
  assert (s = 1) as -> by lra. replace (INR g + 1) with (INR (S g) + 0) by (rewrite S_INR; ring).
  eapply returns_ext; [apply (G (S g) 0); [lia|lra|left; lra]|]. intros d Hd. cbv beta. ring.
Qed.

Lemma interpolation_line svd m dim (Q : Mat RNum) : good_solver svd -> (1 <= m)%nat -> shape dim (S m) Q ->
  exists U c, generate svd (Interpolation 1 Q) = Val (Ok c) /\ clamped_curve 1 m dim U Q c /\ uniform_knots 1 m U /\
    forall g s, (g < m)%nat -> 0 <= s <= 1 -> returns (evaluate c ((INR g + s) / INR m)) dim (fun d => (1 - s) * ent Q g d + s * ent Q (S g) d).
Proof.
  intros GS Hm SQ. destruct (interpolation_fact svd 1 m dim Q GS ltac:(lia) SQ) as [U [C [c0 [_ [HC [UK _]]]]]].
  destruct (clamped_curve_ex 1 m dim U Q (proj1 HC) SQ) as [c H].
  assert (L := uniform_polyline m dim U Q c Hm H UK).
  exists U, c. split; [|split; [exact H|split; [exact UK|exact L]]].
  apply (interpolation_reproduces svd 1 m dim U Q c Q GS ltac:(lia) H UK SQ). intros g Hg.
  destruct (Nat.eq_dec g m) as [->|N].
  - destruct m as [|m]; [lia|]. eapply returns_ext; [rewrite S_INR; rewrite <- (S_INR m) at 2; apply (L m 1); [lia|lra]|].
    intros d Hd. cbv beta. ring.
  - replace (INR g) with (INR g + 0) by ring. eapply returns_ext; [apply (L g 0); [lia|lra]|]. intros d Hd. cbv beta. ring.
Qed.
