(** * In binary64 a curve starts and ends exactly in its first and last control points *)

From Coq Require Import ZArith Reals List Bool Arith Lia Lra Psatz.
From Flocq Require Import Core.Core IEEE754.BinarySingleNaN.
From Verif Require Import Num Vec MKnots MPoints MCurve F64 RNum Lists Hoare Struct Divisions Spec BMath BMath2 BMath3 Api Bridge Facts1 ApiF Float1 Float2 Float3 Float4.
Import ListNotations.
Local Open Scope R_scope.

(** ** Operations whose exact result is a binary64 number *)
Lemma val_lt (z : f64) : Rlt_bool (Rabs (val z)) (bpow radix2 1024) = true.
Proof. apply Rlt_bool_true. apply abs_B2R_lt_emax. Qed.

Lemma add_exact (x y z : f64) : fin x = true -> fin y = true -> val x + val y = val z ->
  fin (Bplus mode_NE x y) = true /\ val (Bplus mode_NE x y) = val z.
Proof.
  intros Hx Hy E. assert (T := Bplus_correct 53 1024 prec53 emax1024 mode_NE x y Hx Hy).
  rewrite E, rnd_fmt in T by apply fmt_val. rewrite val_lt in T. destruct T as [T1 [T2 _]]. split; assumption.
Qed.
Lemma sub_exact (x y z : f64) : fin x = true -> fin y = true -> val x - val y = val z ->
  fin (Bminus mode_NE x y) = true /\ val (Bminus mode_NE x y) = val z.
Proof.
  intros Hx Hy E. assert (T := Bminus_correct 53 1024 prec53 emax1024 mode_NE x y Hx Hy).
  rewrite E, rnd_fmt in T by apply fmt_val. rewrite val_lt in T. destruct T as [T1 [T2 _]]. split; assumption.
Qed.
Lemma mul_exact (x y z : f64) : fin x = true -> fin y = true -> val x * val y = val z ->
  fin (Bmult mode_NE x y) = true /\ val (Bmult mode_NE x y) = val z.
Proof.
  intros Hx Hy E. assert (T := Bmult_correct 53 1024 prec53 emax1024 mode_NE x y).
  rewrite E, rnd_fmt in T by apply fmt_val. rewrite val_lt in T. destruct T as [T1 [T2 _]]. rewrite Hx, Hy in T2. split; assumption.
Qed.
Lemma mul_0_l (x y : f64) : fin x = true -> fin y = true -> val x = 0 -> 
  fin (Bmult mode_NE x y) = true /\ val (Bmult mode_NE x y) = 0.
Proof. intros Hx Hy E. rewrite <- (proj2 n0_ok). apply mul_exact; try assumption. rewrite E, (proj2 n0_ok). ring. Qed.
Lemma mul_0_r (x y : f64) : fin x = true -> fin y = true -> val y = 0 -> 
  fin (Bmult mode_NE x y) = true /\ val (Bmult mode_NE x y) = 0.
Proof. intros Hx Hy E. rewrite <- (proj2 n0_ok). apply mul_exact; try assumption. rewrite E, (proj2 n0_ok). ring. Qed.
Lemma mul_1_l (x y : f64) : fin x = true -> fin y = true -> val x = 1 -> 
  fin (Bmult mode_NE x y) = true /\ val (Bmult mode_NE x y) = val y.
Proof. intros Hx Hy E. apply mul_exact; try assumption. rewrite E. ring. Qed.
Lemma mul_1_1 (x y : f64) : fin x = true -> fin y = true -> val x = 1 -> val y = 1 ->
  fin (Bmult mode_NE x y) = true /\ val (Bmult mode_NE x y) = 1.
Proof. intros Hx Hy E1 E2. rewrite <- E2. apply mul_1_l; assumption. Qed.
Lemma div_self (x y : f64) : fin x = true -> val x = val y -> val y <> 0 ->
  fin (Bdiv mode_NE x y) = true /\ val (Bdiv mode_NE x y) = 1.
Proof.
  intros Hx E Hy. assert (E1 : val x / val y = 1) by (rewrite E; field; exact Hy).
  destruct (div_ok x y 0 ltac:(lia) Hx Hy) as [F G]; [rewrite E1, Rabs_R1; simpl; lra|].
  split; [exact F|]. rewrite G, E1. apply rnd_fmt, fmt_1.
Qed.
Lemma div_0 (x y : f64) : fin x = true -> val x = 0 -> val y <> 0 ->
  fin (Bdiv mode_NE x y) = true /\ val (Bdiv mode_NE x y) = 0.
Proof.
  intros Hx E Hy. assert (E1 : val x / val y = 0) by (rewrite E; field; exact Hy).
  destruct (div_ok x y 0 ltac:(lia) Hx Hy) as [F G]; [rewrite E1, Rabs_R0; simpl; lra|].
  split; [exact F|]. rewrite G, E1. apply rnd_0.
Qed.

(** the difference of two different knots is not rounded to zero *)
Lemma sub_nz (x y : f64) : fin x = true -> fin y = true -> 0 <= val x <= 1 -> 0 <= val y <= 1 -> val x <> val y ->
  fin (Bminus mode_NE x y) = true /\ val (Bminus mode_NE x y) = rnd (val x - val y) /\ val (Bminus mode_NE x y) <> 0.
Proof.
  intros Hx Hy Rx Ry Hne. destruct (sub_ok x y 0 ltac:(lia) Hx Hy) as [F E]; [change (pow2 0) with 1; apply Rabs_le; lra|].
  split; [exact F|]. split; [exact E|]. destruct (rnd_minus (val x) (val y) (fmt_val _) (fmt_val _)) as [g [Hg Eg]].
  rewrite E, Eg. destruct (factor_abs g Hg) as [_ G0]. apply Rmult_integral_contrapositive. split; lra.
Qed.

Section Ends.
  Variables (v : list f64) (n k : nat) (u : f64).
  Let V : list R := map val v.
  Hypothesis Hfin : forall x, In x v -> fin x = true.
  Hypothesis Hmono : mono (kfun V).
  Hypothesis Hrange : forall x, In x V -> 0 <= x <= 1.
  Hypothesis Hgap : forall i, (i + 1 < length v)%nat -> nth i V 0 <> nth (i + 1) V 0 -> pow2 (-1000) <= nth (i + 1) V 0 - nth i V 0.
  Hypothesis Hu : fin u = true.
  Hypothesis Hkn : (k <= n)%nat.
  Hypothesis Hlen : (n + 1 - k < length v)%nat.

  (** any weight is finite *)
  Lemma weight_fin a b (x y : f64) : (a <= b < length v)%nat -> val (nth a v (@n0 F64)) <> val (nth b v (@n0 F64)) ->
    fin x = true -> fin y = true -> 0 <= val x <= 1 -> 0 <= val y <= 1 ->
    fin (Bdiv mode_NE (Bminus mode_NE x y) (Bminus mode_NE (nth b v (@n0 F64)) (nth a v (@n0 F64)))) = true.
  Proof.
    intros Hab Hne Fx Fy Rx Ry.
    destruct (sub_ok x y 0 ltac:(lia) Fx Fy) as [F E]; [change (pow2 0) with 1; apply Rabs_le; lra|].
    apply (weight_ok v Hfin Hmono Hrange Hgap a b _ (val x - val y) Hab Hne F E). apply Rabs_le. lra.
  Qed.

  Ltac sel X s E := match goal with |- context [bind (if ?b then ?x else ?y) _] => replace (if b then x else y) with (@Val (T F64) s) by (symmetry; exact E) end; cbn [bind].

  Lemma base_exact j i : 0 <= val u <= 1 -> (j <= n - k)%nat -> in_span (kfun V) (n - k) (val u) j -> 
    (forall i, span_ind (kfun V) (n - k) (val u) i = delta j i) -> (i + 1 < length v)%nat ->
    exists b, @basis F64 v 0 i k n u = Val b /\ fin b = true /\ val b = delta j i.
  Proof.
    intros Hu01 Hj Hs Hd Hi.
    destruct (basis_near v n k j u Hfin Hmono Hrange Hgap Hu Hu01 Hkn Hlen Hj Hs Hd 0 i ltac:(lia) ltac:(lia) ltac:(lia)) as [b [Eb [Fb [Nb _]]]].
    exists b. split; [exact Eb|]. split; [exact Fb|].
    unfold near, abserr, bspline in Nb. cbn [cox] in Nb. rewrite Hd in Nb. simpl in Nb. lra.
  Qed.

  Lemma val_knot i : (i < length v)%nat -> kfun V i = val (nth i v (@n0 F64)).
  Proof. apply V_kfun. Qed.

  (** *** The end: [u = 1], all knots behind number [n - k] are 1 *)
  Lemma basis_end : val u = 1 -> (forall i, (n - k < i)%nat -> kfun V i = 1) -> kfun V (n - k) < 1 ->
    forall q i, (i <= n - k)%nat -> (n - k + q + 1 < length v)%nat ->
    exists b, @basis F64 v q i k n u = Val b /\ fin b = true /\ val b = delta (n - k) i.
  Proof.
    intros E1 Hone Hlt.
    assert (Hs : in_span (kfun V) (n - k) (val u) (n - k)).
    { unfold in_span. rewrite E1, (Hone (S (n - k))) by lia. split; [lra|]. split; [lra|]. right. split; [reflexivity|lra]. }
    assert (Hd : forall i, span_ind (kfun V) (n - k) (val u) i = delta (n - k) i).
    { intros i. unfold span_ind, delta. rewrite E1.
      destruct (lt_eq_lt_dec i (n - k)) as [[Hi|Hi]|Hi].
      - assert (kfun V (S i) <= kfun V (n - k)) by (apply Hmono; lia).
        replace (i =? n - k)%nat with false by (symmetry; apply Nat.eqb_neq; lia).
        destruct (Rle_dec _ _); [|reflexivity]. destruct (Rlt_dec _ _); [lra|reflexivity].
      - subst i. rewrite Nat.eqb_refl, (Hone (S (n - k))) by lia. destruct (Rle_dec _ _); [|lra].
        destruct (Rlt_dec _ _); [lra|]. destruct (Req_EM_T _ _); [reflexivity|lra].
      - replace (i =? n - k)%nat with false by (symmetry; apply Nat.eqb_neq; lia). rewrite (Hone (S i)) by lia.
        destruct (Rle_dec _ _); [|reflexivity]. destruct (Rlt_dec _ _); [lra|reflexivity]. }
    assert (Z0 := n0_ok).
    induction q as [|h IH]; intros i Hi Hl.
    - apply base_exact; try assumption; try lia. lra.
    - destruct (IH i Hi ltac:(lia)) as [r1 [B1 [F1 V1]]].
      cbn [basis]. replace (i + h + 1)%nat with (i + S h)%nat by lia. replace (i + 1 + h + 1)%nat with (i + 1 + S h)%nat by lia.
      rewrite !(vg v) by lia. cbn [bind ndiv F64 neqb nsub nmul nadd]. rewrite B1. cbn [bind].
      rewrite !eqb_val by (apply (v_fin v Hfin); lia).
      assert (S1 : exists s, (if Req_bool (val (nth (i + S h) v (@n0 F64))) (val (nth i v (@n0 F64))) then Val (@n0 F64)
          else Val (Bmult mode_NE (Bdiv mode_NE (Bminus mode_NE u (nth i v (@n0 F64)))
                 (Bminus mode_NE (nth (i + S h) v (@n0 F64)) (nth i v (@n0 F64)))) r1)) = Val s /\ fin s = true /\ val s = delta (n - k) i).
      { assert (Fi := v_fin v Hfin i ltac:(lia)). assert (Ri := v_range v Hrange i ltac:(lia)).
        assert (Fh := v_fin v Hfin (i + S h) ltac:(lia)). assert (Rh := v_range v Hrange (i + S h) ltac:(lia)).
        destruct (Nat.eq_dec i (n - k)) as [Ei|Ei].
        - assert (X1 : val (nth (i + S h) v (@n0 F64)) = 1) by (rewrite <- val_knot by lia; apply Hone; lia).
          assert (X2 : val (nth i v (@n0 F64)) < 1) by (rewrite <- val_knot, Ei by lia; exact Hlt).
          destruct (Req_bool_spec (val (nth (i + S h) v (@n0 F64))) (val (nth i v (@n0 F64)))) as [Q|Q]; [lra|].
          destruct (sub_nz (nth (i + S h) v (@n0 F64)) (nth i v (@n0 F64)) Fh Fi Rh Ri Q) as [G1 [G2 G3]].
          destruct (sub_nz u (nth i v (@n0 F64)) Hu Fi ltac:(lra) Ri ltac:(lra)) as [K1 [K2 K3]].
          assert (KE : val (Bminus mode_NE u (nth i v (@n0 F64))) = val (Bminus mode_NE (nth (i + S h) v (@n0 F64)) (nth i v (@n0 F64)))).
          { rewrite G2, K2, X1, E1. reflexivity. }
          destruct (div_self _ _ K1 KE G3) as [D1 D2].
          rewrite Ei, delta_eq in V1. rewrite Ei, delta_eq. rewrite <- Ei.
          eexists. split; [reflexivity|]. apply mul_1_1; assumption.
        - rewrite delta_ne in V1 by exact Ei. rewrite delta_ne by exact Ei.
          destruct (Req_bool_spec (val (nth (i + S h) v (@n0 F64))) (val (nth i v (@n0 F64)))) as [Q|Q].
          + eexists. split; [reflexivity|]. exact Z0.
          + eexists. split; [reflexivity|]. apply mul_0_r; try assumption.
            apply (weight_fin i (i + S h)); try assumption; try lia; try lra; congruence. }
      destruct S1 as [s1 [Es1 [Fs1 Vs1]]].
      assert (S2 : exists s, (if Req_bool (val (nth (i + 1 + S h) v (@n0 F64))) (val (nth (i + 1) v (@n0 F64))) then Val (@n0 F64)
          else r <- @basis F64 v h (i + 1) k n u;; Val (Bmult mode_NE (Bdiv mode_NE (Bminus mode_NE (nth (i + 1 + S h) v (@n0 F64)) u)
                 (Bminus mode_NE (nth (i + 1 + S h) v (@n0 F64)) (nth (i + 1) v (@n0 F64)))) r)) = Val s /\ fin s = true /\ val s = 0).
      { assert (Fi := v_fin v Hfin (i + 1) ltac:(lia)). assert (Ri := v_range v Hrange (i + 1) ltac:(lia)).
        assert (Fh := v_fin v Hfin (i + 1 + S h) ltac:(lia)). assert (Rh := v_range v Hrange (i + 1 + S h) ltac:(lia)).
        destruct (Req_bool_spec (val (nth (i + 1 + S h) v (@n0 F64))) (val (nth (i + 1) v (@n0 F64)))) as [Q|Q];
          [eexists; split; [reflexivity|]; exact Z0|].
        destruct (Nat.eq_dec i (n - k)) as [Ei|Ei].
        { exfalso. apply Q. rewrite <- !val_knot by lia. rewrite !Hone by lia. reflexivity. }
        destruct (IH (i + 1)%nat ltac:(lia) ltac:(lia)) as [r2 [B2 [F2 V2]]]. rewrite B2. cbn [bind].
        eexists. split; [reflexivity|].
        destruct (Nat.eq_dec (i + 1) (n - k)) as [Ej|Ej].
        - assert (X1 : val (nth (i + 1 + S h) v (@n0 F64)) = 1) by (rewrite <- val_knot by lia; apply Hone; lia).
          destruct (sub_exact (nth (i + 1 + S h) v (@n0 F64)) u (@n0 F64) Fh Hu ltac:(rewrite (proj2 Z0); lra)) as [K1 K2]. rewrite (proj2 Z0) in K2.
          destruct (sub_nz (nth (i + 1 + S h) v (@n0 F64)) (nth (i + 1) v (@n0 F64)) Fh Fi Rh Ri Q) as [G1 [G2 G3]].
          destruct (div_0 _ _ K1 K2 G3) as [D1 D2]. apply mul_0_l; assumption.
        - rewrite delta_ne in V2 by exact Ej. apply mul_0_r; try assumption.
          apply (weight_fin (i + 1) (i + 1 + S h)); try assumption; try lia; try lra; congruence. }
      destruct S2 as [s2 [Es2 [Fs2 Vs2]]].
      sel x s1 Es1. sel x s2 Es2.
      eexists. split; [reflexivity|]. rewrite <- Vs1. apply add_exact; try assumption. rewrite Vs2. ring.
  Qed.

  (** *** The start: [u = 0], the knots up to number [j] are 0 and the next is not *)
  Lemma basis_start j : val u = 0 -> (j <= n - k)%nat -> (forall i, (i <= j)%nat -> kfun V i = 0) -> 0 < kfun V (S j) ->
    forall q i, (q <= j)%nat -> (i + q + 1 < length v)%nat -> (j + 1 < length v)%nat ->
    exists b, @basis F64 v q i k n u = Val b /\ fin b = true /\ val b = delta (j - q) i.
  Proof.
    intros E1 Hj Hzero Hlt.
    assert (Hs : in_span (kfun V) (n - k) (val u) j).
    { unfold in_span. rewrite E1, (Hzero j) by lia. split; [lra|]. split; [lra|]. left. lra. }
    assert (Hd : forall i, span_ind (kfun V) (n - k) (val u) i = delta j i).
    { intros i. unfold span_ind, delta. rewrite E1.
      destruct (lt_eq_lt_dec i j) as [[Hi|Hi]|Hi].
      - rewrite (Hzero (S i)) by lia.
        replace (i =? n - k)%nat with false by (symmetry; apply Nat.eqb_neq; lia).
        replace (i =? j)%nat with false by (symmetry; apply Nat.eqb_neq; lia).
        destruct (Rle_dec _ _); [|reflexivity]. destruct (Rlt_dec _ _); [lra|reflexivity].
      - subst i. rewrite Nat.eqb_refl, (Hzero j) by lia. destruct (Rle_dec _ _); [|lra].
        destruct (Rlt_dec _ _); [reflexivity|lra].
      - replace (i =? j)%nat with false by (symmetry; apply Nat.eqb_neq; lia).
        assert (kfun V (S j) <= kfun V i) by (apply Hmono; lia).
        destruct (Rle_dec _ _); [lra|reflexivity]. }
    assert (Z0 := n0_ok).
    induction q as [|h IH]; intros i Hq Hl Hjl.
    - rewrite Nat.sub_0_r. apply base_exact; try assumption; try lia. lra.
    - destruct (IH i ltac:(lia) ltac:(lia) Hjl) as [r1 [B1 [F1 V1]]].
      destruct (IH (i + 1)%nat ltac:(lia) ltac:(lia) Hjl) as [r2 [B2 [F2 V2]]].
      cbn [basis]. replace (i + h + 1)%nat with (i + S h)%nat by lia. replace (i + 1 + h + 1)%nat with (i + 1 + S h)%nat by lia.
      rewrite !(vg v) by lia. cbn [bind ndiv F64 neqb nsub nmul nadd]. rewrite B1, B2. cbn [bind].
      rewrite !eqb_val by (apply (v_fin v Hfin); lia).
      assert (S1 : exists s, (if Req_bool (val (nth (i + S h) v (@n0 F64))) (val (nth i v (@n0 F64))) then Val (@n0 F64)
          else Val (Bmult mode_NE (Bdiv mode_NE (Bminus mode_NE u (nth i v (@n0 F64)))
                 (Bminus mode_NE (nth (i + S h) v (@n0 F64)) (nth i v (@n0 F64)))) r1)) = Val s /\ fin s = true /\ val s = 0).
      { assert (Fi := v_fin v Hfin i ltac:(lia)). assert (Ri := v_range v Hrange i ltac:(lia)).
        assert (Fh := v_fin v Hfin (i + S h) ltac:(lia)). assert (Rh := v_range v Hrange (i + S h) ltac:(lia)).
        destruct (Req_bool_spec (val (nth (i + S h) v (@n0 F64))) (val (nth i v (@n0 F64)))) as [Q|Q];
          [eexists; split; [reflexivity|]; exact Z0|].
        eexists. split; [reflexivity|].
        destruct (Nat.eq_dec i (j - h)) as [Ei|Ei].
        - assert (X1 : val (nth i v (@n0 F64)) = 0) by (rewrite <- val_knot by lia; apply Hzero; lia).
          destruct (sub_exact u (nth i v (@n0 F64)) (@n0 F64) Hu Fi ltac:(rewrite (proj2 Z0); lra)) as [K1 K2]. rewrite (proj2 Z0) in K2.
          destruct (sub_nz (nth (i + S h) v (@n0 F64)) (nth i v (@n0 F64)) Fh Fi Rh Ri Q) as [G1 [G2 G3]].
          destruct (div_0 _ _ K1 K2 G3) as [D1 D2]. apply mul_0_l; assumption.
        - rewrite delta_ne in V1 by exact Ei. apply mul_0_r; try assumption.
          apply (weight_fin i (i + S h)); try assumption; try lia; try lra; congruence. }
      destruct S1 as [s1 [Es1 [Fs1 Vs1]]].
      assert (S2 : exists s, (if Req_bool (val (nth (i + 1 + S h) v (@n0 F64))) (val (nth (i + 1) v (@n0 F64))) then Val (@n0 F64)
          else Val (Bmult mode_NE (Bdiv mode_NE (Bminus mode_NE (nth (i + 1 + S h) v (@n0 F64)) u)
                 (Bminus mode_NE (nth (i + 1 + S h) v (@n0 F64)) (nth (i + 1) v (@n0 F64)))) r2)) = Val s /\ fin s = true /\ val s = delta (j - S h) i).
      { assert (Fi := v_fin v Hfin (i + 1) ltac:(lia)). assert (Ri := v_range v Hrange (i + 1) ltac:(lia)).
        assert (Fh := v_fin v Hfin (i + 1 + S h) ltac:(lia)). assert (Rh := v_range v Hrange (i + 1 + S h) ltac:(lia)).
        destruct (Nat.eq_dec i (j - S h)) as [Ei|Ei].
        - assert (X0 : val (nth (i + 1) v (@n0 F64)) = 0) by (rewrite <- val_knot by lia; apply Hzero; lia).
          assert (X1 : 0 < val (nth (i + 1 + S h) v (@n0 F64))).
          { rewrite <- val_knot by lia. replace (i + 1 + S h)%nat with (S j) by lia. exact Hlt. }
          destruct (Req_bool_spec (val (nth (i + 1 + S h) v (@n0 F64))) (val (nth (i + 1) v (@n0 F64)))) as [Q|Q]; [lra|].
          destruct (sub_nz (nth (i + 1 + S h) v (@n0 F64)) (nth (i + 1) v (@n0 F64)) Fh Fi Rh Ri Q) as [G1 [G2 G3]].
          destruct (sub_nz (nth (i + 1 + S h) v (@n0 F64)) u Fh Hu Rh ltac:(lra) ltac:(lra)) as [K1 [K2 K3]].
          assert (KE : val (Bminus mode_NE (nth (i + 1 + S h) v (@n0 F64)) u) = val (Bminus mode_NE (nth (i + 1 + S h) v (@n0 F64)) (nth (i + 1) v (@n0 F64)))).
          { rewrite G2, K2, X0, E1. reflexivity. }
          destruct (div_self _ _ K1 KE G3) as [D1 D2].
          replace (i + 1)%nat with (j - h)%nat in V2 by lia. rewrite delta_eq in V2.
          replace (delta (j - S h) i) with 1 by (rewrite Ei, delta_eq; reflexivity).
          eexists. split; [reflexivity|]. apply mul_1_1; assumption.
        - rewrite delta_ne in V2 by lia. rewrite delta_ne by exact Ei.
          destruct (Req_bool_spec (val (nth (i + 1 + S h) v (@n0 F64))) (val (nth (i + 1) v (@n0 F64)))) as [Q|Q].
          + eexists. split; [reflexivity|]. exact Z0.
          + eexists. split; [reflexivity|]. apply mul_0_r; try assumption.
            apply (weight_fin (i + 1) (i + 1 + S h)); try assumption; try lia; try lra; congruence. }
      destruct S2 as [s2 [Es2 [Fs2 Vs2]]].
      sel x s1 Es1. sel x s2 Es2.
      eexists. split; [reflexivity|]. rewrite <- Vs2. apply add_exact; try assumption. rewrite Vs1. ring.
  Qed.
End Ends.

(** ** The sum when exactly one basis function is one and the others are zero *)
Lemma sum_exact (v : list f64) n k q dim (u : f64) (Q : Mat F64) lo t :
  (lo <= t <= n - k)%nat -> shape dim (S n - k) Q ->
  (forall i d, (i <= n - k)%nat -> (d < dim)%nat -> fin (ent Q i d) = true) ->
  (forall i, (lo <= i <= n - k)%nat -> exists b, @basis F64 v q i k n u = Val b /\ fin b = true /\ val b = delta t i) ->
  (k <= n)%nat ->
  exists r, foldM (fun value i => b <- @basis F64 v q i k n u;; x <- @mcol F64 Q i;; @vadd F64 value (@vscale F64 b x))
      (rangei lo (n - k)) (@vzeros F64 dim) = Val r /\ length r = dim /\
    forall d, (d < dim)%nat -> fin (nth d r (@n0 F64)) = true /\ val (nth d r (@n0 F64)) = val (ent Q t d).
Proof.
  intros Ht HQ HQf HB Hkn.
  set (Inv := fun i (r : list f64) => length r = dim /\ forall d, (d < dim)%nat -> fin (nth d r (@n0 F64)) = true /\
     val (nth d r (@n0 F64)) = if (t <? i)%nat then val (ent Q t d) else 0).
  assert (OK : ok False (foldM (fun value i => b <- @basis F64 v q i k n u;; x <- @mcol F64 Q i;; @vadd F64 value (@vscale F64 b x))
      (rangei lo (n - k)) (@vzeros F64 dim)) (Inv (n - k + 1)%nat)).
  { apply ok_foldM_rangei; [lia| |].
    - split; [apply vzeros_length|]. intros d Hd. unfold vzeros. rewrite nth_repeat. split; [apply n0_ok|].
      replace (t <? lo)%nat with false by (symmetry; apply Nat.ltb_ge; lia). apply n0_ok.
    - intros i s Hi [Ls Hs]. destruct (HB i Hi) as [b [Eb [Fb Vb]]]. rewrite Eb. cbn [bind].
      rewrite (mcol_val Q dim (S n - k)) by (try exact HQ; lia). cbn [bind].
      assert (HQl := proj2 (proj2 HQ) i ltac:(lia)).
      destruct (@vadd_val F64 s (@vscale F64 b (nth i (mcols Q) []))) as [r [Er [Lr Hr]]].
      { rewrite vscale_length. transitivity dim; [exact Ls|symmetry; exact HQl]. }
      rewrite Er. cbn [ok]. split; [transitivity (length s); [exact Lr|exact Ls]|]. intros d Hd.
      rewrite Hr by (apply Nat.lt_le_trans with (1 := Hd); apply Nat.eq_le_incl; symmetry; exact Ls).
      rewrite nth_vscale by (rewrite HQl; exact Hd). destruct (Hs d Hd) as [Fs Es].
      change (nth d (nth i (mcols Q) []) n0) with (ent Q i d). cbn [nadd nmul F64].
      assert (FP := HQf i d ltac:(lia) Hd).
      destruct (Nat.eq_dec i t) as [E|E].
      + subst i. rewrite delta_eq in Vb. destruct (mul_1_l b (ent Q t d) Fb FP Vb) as [G1 G2].
        replace (t <? 1 + t)%nat with true by (symmetry; apply Nat.ltb_lt; lia).
        rewrite Nat.ltb_irrefl in Es. apply add_exact; try assumption. exact (eq_trans (f_equal2 Rplus Es G2) (Rplus_0_l _)).
      + rewrite delta_ne in Vb by exact E. destruct (mul_0_l b (ent Q i d) Fb FP Vb) as [G1 G2].
        replace (t <? 1 + i)%nat with (t <? i)%nat.
        2:{ destruct (t <? i)%nat eqn:X; symmetry; [apply Nat.ltb_lt in X; apply Nat.ltb_lt; lia|apply Nat.ltb_ge in X; apply Nat.ltb_ge; lia]. }
        rewrite <- Es. apply add_exact; try assumption. exact (eq_trans (f_equal2 Rplus eq_refl G2) (Rplus_0_r _)). }
  apply ok_val_ex in OK. destruct OK as [r [Er [Lr Hr]]]. exists r. split; [exact Er|]. split; [exact Lr|].
  intros d Hd. destruct (Hr d Hd) as [F E]. split; [exact F|].
  replace (t <? n - k + 1)%nat with true in E by (symmetry; apply Nat.ltb_lt; lia). exact E.
Qed.

(** ** The curve *)
Lemma float_wf p n dim (U : list f64) P M c : float_curve p n dim U P M c -> @wf F64 p n dim U P c.
Proof.
  intros [K [S [B Bu]]]. assert (C := proj1 (proj2 K)).
  assert (LU : length U = (n + p + 2)%nat) by (rewrite <- (cl_len _ _ _ C), map_length; reflexivity).
  apply (sized_wf False gdiv_F64); [split; [apply C|split; [exact LU|exact S]]|exact Bu].
Qed.

Theorem ends_F64 p n dim (U : list f64) P M c (u : f64) : float_curve p n dim U P M c -> finite u ->
  (val u = 0 -> returns_within (@evaluate F64 c u) dim (fun d => val (ent P 0 d)) 0) /\
  (val u = 1 -> returns_within (@evaluate F64 c u) dim (fun d => val (ent P n d)) 0).
Proof.
  intros FCu Fu. assert (W := float_wf _ _ _ _ _ _ _ FCu). destruct FCu as [K [HS [B Bu]]].
  destruct (float_kderiv p n U 0 K ltac:(lia)) as [Lv [Fv [Cv Sv]]]. assert (HP := wf_head _ _ _ _ _ _ W).
  rewrite !Nat.sub_0_r in *. assert (FC := kfun_clamped _ _ _ Cv). assert (Hpn := wf_deg _ _ _ _ _ _ W).
  assert (R : forall r (x : nat -> R), length r = dim -> (forall d, (d < dim)%nat -> finite (nth d r (@n0 F64)) /\ val (nth d r (@n0 F64)) = x d) ->
     @evaluate_derivative F64 c u 0 = Val (Ok r) -> returns_within (@evaluate F64 c u) dim x 0).
  { intros r x Lr Hr E. exists r. split; [exact E|]. split; [exact Lr|]. intros d Hd. destruct (Hr d Hd) as [F V]. split; [exact F|].
    rewrite Rminus_diag_eq by exact V. rewrite Rabs_R0. lra. }
  split; intros Eu.
  - assert (Hs : in_span (kfun (map val (@kderiv f64 0 U))) (n - 0) (val u) p).
    { rewrite Eu. unfold in_span. rewrite (fc_zero _ _ _ FC) by lia. assert (T := U_pos _ _ _ FC (S p) ltac:(lia)). split; [exact T|]. split; [lra|left; exact T]. }
    destruct (eval_unfold p n dim U P c 0 u p W K ltac:(lia) Fu ltac:(lra) ltac:(lia) Hs) as [lo [Hlo HE]].
    rewrite HP in HE. rewrite !Nat.sub_0_r in *.
    destruct (sum_exact (@kderiv f64 0 U) n 0 p dim u P lo 0) as [r [Er [Lr Hr]]].
    + lia.
    + exact HS.
    + intros i d Hi Hd. apply B; [lia|exact Hd].
    + intros i Hi. rewrite Nat.sub_0_r in Hi.
      destruct (basis_start (@kderiv f64 0 U) n 0 u Fv (fc_mono _ _ _ FC) (fun x => clamped_range _ _ _ x Cv) (separated_gap _ Sv) Fu ltac:(lia) ltac:(lia) p Eu ltac:(lia)) with (q := p) (i := i) as [b Hb]; try lia.
      * intros t Ht. apply (fc_zero _ _ _ FC). exact Ht.
      * apply (U_pos _ _ _ FC). lia.
      * rewrite Nat.sub_diag in Hb. exists b. exact Hb.
    + lia.
    + apply (R r); [exact Lr|exact Hr|]. apply HE. rewrite <- Er, Nat.sub_0_r. reflexivity.
  - assert (Hs : in_span (kfun (map val (@kderiv f64 0 U))) (n - 0) (val u) n).
    { rewrite Eu, Nat.sub_0_r. unfold in_span. rewrite (fc_one _ _ _ FC (S n)) by lia. assert (T := U_n_lt _ _ _ FC). split; [exact T|]. split; [lra|right; split; [reflexivity|lra]]. }
    destruct (eval_unfold p n dim U P c 0 u n W K ltac:(lia) Fu ltac:(lra) ltac:(lia) Hs) as [lo [Hlo HE]].
    rewrite HP in HE. rewrite !Nat.sub_0_r in *.
    destruct (sum_exact (@kderiv f64 0 U) n 0 p dim u P lo n) as [r [Er [Lr Hr]]].
    + lia.
    + exact HS.
    + intros i d Hi Hd. apply B; [lia|exact Hd].
    + intros i Hi. rewrite Nat.sub_0_r in Hi.
      destruct (basis_end (@kderiv f64 0 U) n 0 u Fv (fc_mono _ _ _ FC) (fun x => clamped_range _ _ _ x Cv) (separated_gap _ Sv) Fu ltac:(lia) ltac:(lia) Eu) with (q := p) (i := i) as [b Hb]; try lia.
      * intros t Ht. apply (fc_one _ _ _ FC). lia.
      * rewrite Nat.sub_0_r. apply (U_n_lt _ _ _ FC).
      * rewrite Nat.sub_0_r in Hb. exists b. exact Hb.
    + lia.
    + apply (R r); [exact Lr|exact Hr|]. apply HE. rewrite <- Er, Nat.sub_0_r. reflexivity.
Qed.
