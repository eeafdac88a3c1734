(** * Interpolation by splines has exactly one solution (Schoenberg and Whitney),
      for knots that are simple inside *)

From Coq Require Import Reals List Arith Lia Lra Classical.
From Verif Require Import Spec BMath BMath2 BMath3.
Import ListNotations.
Local Open Scope R_scope.

(** ** a mean value theorem with right derivatives *)
Lemma dini f g x y : 0 <= x -> x < y -> y <= 1 -> (forall u, 0 <= u <= 1 -> continuous_on01 f u) ->
  (forall u, x <= u < y -> right_derivative_on01 f u (g u)) -> (forall u, x <= u < y -> g u <= 0) -> f y <= f x.
Proof.
  intros H0 Hxy H1 HC HD HN.
  assert (K : forall eps, 0 < eps -> f y <= f x + eps * (y - x)).
  { intros eps He.
    set (E := fun v => x <= v <= y /\ forall w, x <= w <= v -> f w <= f x + eps * (w - x)).
    assert (Ex : E x) by (split; [lra|]; intros w Hw; replace w with x by lra; lra).
    assert (Bd : bound E) by (exists y; intros v [Hv _]; lra).
    destruct (completeness E Bd (ex_intro _ x Ex)) as [s [Ub Lub]].
    assert (Hs : x <= s <= y) by (split; [apply Ub; exact Ex|apply Lub; intros v [Hv _]; lra]).
    assert (Below : forall w, x <= w < s -> f w <= f x + eps * (w - x)).
    { intros w Hw. destruct (classic (exists v, E v /\ w < v)) as [[v [[Hv HE] Hwv]]|N]; [apply HE; lra|].
      exfalso. assert (T : s <= w); [|lra]. apply Lub. intros v HE. destruct (Rle_lt_dec v w) as [T|T]; [exact T|]. exfalso. apply N. exists v. split; assumption. }
    assert (At : f s <= f x + eps * (s - x)).
    { destruct (Req_dec s x) as [->|Hne]; [lra|]. apply Rnot_lt_le. intros HL. set (e := f s - (f x + eps * (s - x))).
      destruct (HC s ltac:(lra) (e / 2)) as [d [Hd HCd]]; [unfold e; lra|].
      set (w := Rmax x (s - d / 2)). assert (Hw : x <= w < s) by (unfold w, Rmax; destruct (Rle_dec x (s - d / 2)); lra).
      assert (Hw2 : Rabs (w - s) < d) by (unfold w, Rmax; destruct (Rle_dec x (s - d / 2)); rewrite Rabs_left by lra; lra).
      assert (T := HCd w ltac:(lra) Hw2). assert (T2 := Below w Hw). apply Rabs_def2 in T.
      assert (eps * (w - x) <= eps * (s - x)) by (apply Rmult_le_compat_l; lra). unfold e in *. lra. }
    assert (Es : E s) by (split; [exact Hs|]; intros w Hw; destruct (Req_dec w s) as [->|]; [exact At|apply Below; lra]).
    destruct (Rle_lt_dec y s) as [Hys|Hys]; [apply Es; lra|]. exfalso.
    destruct (HD s ltac:(lra) eps He) as [d [Hd HDd]].
    set (v := Rmin y (s + d / 2)). assert (Hv : s < v <= y) by (unfold v, Rmin; destruct (Rle_dec y (s + d / 2)); lra).
    assert (Hvd : v - s < d) by (unfold v, Rmin; destruct (Rle_dec y (s + d / 2)); lra).
    assert (Ev : E v).
    { split; [lra|]. intros w Hw. destruct (Rle_lt_dec w s) as [Hws|Hws]; [apply Es; lra|].
      assert (T := HDd w ltac:(lra) Hws ltac:(lra)). apply Rabs_def2 in T. assert (N := HN s ltac:(lra)).
      assert (Q : (f w - f s) / (w - s) < eps) by lra.
      assert (Q2 : f w - f s < eps * (w - s)).
      { apply (Rmult_lt_compat_r (w - s)) in Q; [|lra]. unfold Rdiv in Q. rewrite Rmult_assoc, Rinv_l in Q by lra. lra. }
      replace (eps * (w - x)) with (eps * (w - s) + eps * (s - x)) by ring. lra. }
    assert (T := Ub v Ev). lra. }
  apply Rnot_lt_le. intros HL. set (e := (f y - f x) / (2 * (y - x))).
  assert (He : 0 < e) by (unfold e; apply Rdiv_lt_0_compat; lra).
  assert (T := K e He). assert (E2 : e * (y - x) = (f y - f x) / 2) by (unfold e; field; lra). lra.
Qed.

Definition sgn (e : bool) (x : R) : Prop := if e then 0 < x else x < 0.

Lemma sgn_ne e x : sgn e x -> x <> 0.
Proof. destruct e; cbn; lra. Qed.
Lemma sgn_ex x : x <> 0 -> exists e, sgn e x.
Proof. intros H. destruct (Rlt_dec 0 x); [exists true; exact r|exists false; cbn; lra]. Qed.

Lemma rise f g x y e : 0 <= x -> x < y -> y <= 1 -> (forall u, 0 <= u <= 1 -> continuous_on01 f u) ->
  (forall u, 0 <= u < 1 -> right_derivative_on01 f u (g u)) -> sgn e (f y - f x) -> exists u, x <= u < y /\ sgn e (g u).
Proof.
  intros H0 Hxy H1 HC HD HS. apply NNPP. intros N.
  destruct e; cbn in *.
  - assert (T : f y <= f x); [|lra]. apply (dini f g); try assumption; [intros u Hu; apply HD; lra|].
    intros u Hu. apply Rnot_lt_le. intros L. apply N. exists u. split; assumption.
  - assert (T : - f y <= - f x); [|lra]. apply (dini (fun v => - f v) (fun v => - g v)); try assumption.
    + intros u Hu eps He. destruct (HC u Hu eps He) as [d [Hd H]]. exists d. split; [exact Hd|]. intros v Hv1 Hv2.
      replace (- f v - - f u) with (- (f v - f u)) by ring. rewrite Rabs_Ropp. apply H; assumption.
    + intros u Hu eps He. destruct (HD u ltac:(lra) eps He) as [d [Hd H]]. exists d. split; [exact Hd|]. intros v Hv1 Hv2 Hv3.
      replace ((- f v - - f u) / (v - u) - - g u) with (- ((f v - f u) / (v - u) - g u)) by (field; lra). rewrite Rabs_Ropp. apply H; assumption.
    + intros u Hu. assert (~ g u < 0); [|lra]. intros L. apply N. exists u. split; assumption.
Qed.

(** [m] points from [lo] on with alternating signs of [f], the last one [x] with sign [e] *)
Inductive alt (f : R -> R) (lo : R) : nat -> bool -> R -> Prop :=
| alt1 e x : lo <= x -> sgn e (f x) -> alt f lo 1 e x
| altS m e x y : alt f lo m e x -> x < y -> sgn (negb e) (f y) -> alt f lo (S m) (negb e) y.

Lemma alt_last f lo m e x : alt f lo m e x -> lo <= x /\ sgn e (f x) /\ (1 <= m)%nat.
Proof. intros H. induction H as [e x H1 H2|m e x y H IH H1 H2]; [auto|]. destruct IH as [I1 [I2 I3]]. split; [lra|]. split; [exact H2|lia]. Qed.

Section Rolle.
  Variables (f g : R -> R).
  Hypothesis HC : forall u, 0 <= u <= 1 -> continuous_on01 f u.
  Hypothesis HD : forall u, 0 <= u < 1 -> right_derivative_on01 f u (g u).

  Lemma opposite e x y : sgn e (f x) -> sgn (negb e) (f y) -> sgn (negb e) (f y - f x).
  Proof. destruct e; cbn; lra. Qed.

  Lemma rolle_left m e x : alt f 0 m e x -> x <= 1 -> f 0 = 0 -> exists x', alt g 0 m e x' /\ x' < x.
  Proof.
    intros H. induction H as [e x H1 H2|m e x y H IH H1 H2]; intros Hx H0.
    - assert (Hx0 : 0 < x) by (destruct (Req_dec x 0) as [->|]; [apply sgn_ne in H2; lra|lra]).
      destruct (rise f g 0 x e) as [u [Hu Hs]]; try assumption; try lra; [rewrite H0, Rminus_0_r; exact H2|].
      exists u. split; [apply alt1; [lra|exact Hs]|lra].
    - destruct (IH ltac:(lra) H0) as [x' [A Hx']]. destruct (alt_last _ _ _ _ _ H) as [L1 [L2 _]].
      destruct (rise f g x y (negb e)) as [u [Hu Hs]]; try assumption; try lra; [apply opposite; assumption|].
      exists u. split; [apply (altS _ _ m e x' u A); [lra|exact Hs]|lra].
  Qed.

  Lemma rolle_plain m e x : alt f 0 m e x -> x <= 1 -> m = 1%nat \/ exists x', alt g 0 (m - 1) e x' /\ x' < x.
  Proof.
    intros H. induction H as [e x H1 H2|m e x y H IH H1 H2]; intros Hx; [left; reflexivity|]. right.
    destruct (alt_last _ _ _ _ _ H) as [L1 [L2 L3]].
    destruct (rise f g x y (negb e)) as [u [Hu Hs]]; try assumption; try lra; [apply opposite; assumption|].
    exists u. split; [|lra]. replace (S m - 1)%nat with m by lia. destruct (IH ltac:(lra)) as [->|[x' [A Hx']]].
    - apply alt1; [lra|exact Hs].
    - replace m with (S (m - 1)) by lia. apply (altS _ _ (m - 1) e x' u A); [lra|exact Hs].
  Qed.

  Lemma rolle_right e x : sgn e (f x) -> 0 <= x < 1 -> f 1 = 0 -> exists u, x <= u < 1 /\ sgn (negb e) (g u).
  Proof.
    intros H Hx H1. apply (rise f g x 1 (negb e)); try assumption; try lra. rewrite H1. destruct e; cbn in *; lra.
  Qed.

  Lemma bump l r : 0 <= l -> l < r -> r <= 1 -> f l = 0 -> f r = 0 -> (exists x, l <= x < r /\ f x <> 0) ->
    exists e u1 u2, l <= u1 /\ u1 < u2 /\ u2 < r /\ sgn e (g u1) /\ sgn (negb e) (g u2).
  Proof.
    intros H0 Hlr H1 Fl Fr [x [Hx Nx]]. destruct (sgn_ex _ Nx) as [e He].
    assert (Hxl : l < x) by (destruct (Req_dec x l) as [->|]; [contradiction|lra]).
    destruct (rise f g l x e) as [u1 [Hu1 S1]]; try assumption; try lra; [rewrite Fl, Rminus_0_r; exact He|].
    destruct (rise f g x r (negb e)) as [u2 [Hu2 S2]]; try assumption; try lra; [rewrite Fr; destruct e; cbn in *; lra|].
    exists e, u1, u2. repeat split; try assumption; lra.
  Qed.
End Rolle.

(** ** splines with simple inner knots *)
Definition simple (p n : nat) (U : nat -> R) : Prop := forall i, (p <= i <= n)%nat -> U i < U (S i).

Lemma simple_shift p n U : (1 <= p)%nat -> (p <= n)%nat -> simple p n U -> simple (p - 1) (n - 1) (shift 1 U).
Proof. intros Hp Hn H i Hi. unfold shift. replace (S i + 1)%nat with (S (i + 1)) by lia. apply H. lia. Qed.

Lemma simple_lt p n U i j : fclamped p n U -> simple p n U -> (i < j)%nat -> (p <= i <= n)%nat -> U i < U j.
Proof. intros C H Hij Hi. assert (T := H i Hi). assert (U (S i) <= U j) by (apply (fc_mono _ _ _ C); lia). lra. Qed.

Lemma spline_cont p n U c u : fclamped p n U -> simple p n U -> (1 <= p)%nat -> 0 <= u <= 1 -> continuous_on01 (spline U n p c) u.
Proof.
  intros C H Hp Hu. apply (spline_continuous p n U C); [exact Hu|]. intros Hu' a b Ha Hb.
  assert (Pa : (p < a <= n)%nat).
  { destruct (le_lt_dec a p); [rewrite (fc_zero _ _ _ C) in Ha by lia; lra|]. destruct (le_lt_dec a n); [lia|]. rewrite (fc_one _ _ _ C) in Ha by lia; lra. }
  apply Nat.nle_gt. intros T. assert (L := simple_lt p n U a b C H ltac:(lia) ltac:(lia)). lra.
Qed.

Lemma spline_rd p n U c u : fclamped p n U -> (1 <= p)%nat -> 0 <= u < 1 ->
  right_derivative_on01 (spline U n p c) u (spline (shift 1 U) (n - 1) (p - 1) (dpoints U p c 1) u).
Proof. intros C Hp Hu. apply (spline_right_derivative p n U C); assumption. Qed.

Lemma ratio_0_l y : ratio 0 y = 0.
Proof. unfold ratio. destruct (Req_EM_T y 0); [reflexivity|]. unfold Rdiv. ring. Qed.

Lemma dpoints_same U p c i : c (S i) = c i -> dpoints U p c 1 i = 0.
Proof. intros E. cbn [dpoints]. rewrite E. replace (INR (p - 0) * (c i - c i)) with 0 by ring. apply ratio_0_l. Qed.

Lemma spline_zero p n U c u : (forall i, (i <= n)%nat -> c i = 0) -> spline U n p c u = 0.
Proof. intros H. unfold spline. apply rsum_zero. intros i Hi. rewrite H by lia. ring. Qed.

(** the number of sign changes is below the number of coefficients *)
Lemma changes p : forall n U c a b m e x, fclamped p n U -> simple p n U -> (a <= b)%nat -> (b <= S n)%nat ->
  (forall i, (i <= n)%nat -> (i < a \/ b <= i)%nat -> c i = 0) -> alt (spline U n p c) 0 m e x -> x < 1 -> (m <= b - a)%nat.
Proof.
  induction p as [|p IH]; intros n U c a b m e x C HS Hab Hb HZ HA Hx.
  - assert (T : forall j, in_span U n x j -> (j <= n)%nat -> (a <= j < b)%nat /\ (m <= j + 1 - a)%nat).
    { revert Hx. induction HA as [e x H1 H2|m e x y H IHa H1 H2]; intros Hx j Hj Hjn.
      - assert (E : spline U n 0 c x = c j).
        { rewrite (spline_piece 0 n U C c x j Hjn Hj). unfold pfun. rewrite (rsum_single _ _ j); [cbn [cox]; rewrite delta_eq; ring|lia|]. intros i Hi Hij. cbn [cox]. rewrite delta_ne by exact Hij. ring. }
        rewrite E in H2. apply sgn_ne in H2. assert (R1 : (a <= j < b)%nat); [|lia].
        destruct (le_lt_dec a j); [destruct (le_lt_dec b j); [|lia]|]; exfalso; apply H2; apply HZ; lia.
      - assert (E : forall v i, (i <= n)%nat -> in_span U n v i -> spline U n 0 c v = c i).
        { intros v i Hin Hi. rewrite (spline_piece 0 n U C c v i Hin Hi). unfold pfun. rewrite (rsum_single _ _ i); [cbn [cox]; rewrite delta_eq; ring|lia|]. intros i' Hi' Hij. cbn [cox]. rewrite delta_ne by exact Hij. ring. }
        destruct (alt_last _ _ _ _ _ H) as [L1 [L2 _]].
        destruct (span_ex 0 n U C x ltac:(lra)) as [i [Hi Hsi]]. destruct (IHa ltac:(lra) i Hsi ltac:(lia)) as [R1 R2].
        rewrite (E y j Hjn Hj) in H2. rewrite (E x i ltac:(lia) Hsi) in L2.
        assert (Nij : i <> j) by (intros ->; destruct e; cbn in *; lra).
        assert (Lij : (i < j)%nat).
        { apply Nat.nle_gt. intros T. destruct Hj as [_ [_ J3]], Hsi as [_ [I2 _]]. assert (U (S j) <= U i) by (apply (fc_mono _ _ _ C); lia).
          destruct J3 as [J3|[J3 J4]]; [lra|]. rewrite (fc_one _ _ _ C) in J4 by lia. lra. }
        assert (R3 : (a <= j < b)%nat); [|lia].
        apply sgn_ne in H2. destruct (le_lt_dec a j); [destruct (le_lt_dec b j); [|lia]|]; exfalso; apply H2; apply HZ; lia. }
    destruct (alt_last _ _ _ _ _ HA) as [L1 _]. destruct (span_ex 0 n U C x ltac:(lra)) as [j [Hj Hsj]]. destruct (T j Hsj ltac:(lia)). lia.
  - assert (Hn := fc_deg _ _ _ C). set (d := dpoints U (S p) c 1).
    assert (C' : fclamped p (n - 1) (shift 1 U)) by (assert (T := fclamped_shift (S p) n U 1 C ltac:(lia)); replace (S p - 1)%nat with p in T by lia; exact T).
    assert (HS' : simple p (n - 1) (shift 1 U)) by (assert (T := simple_shift (S p) n U ltac:(lia) Hn HS); replace (S p - 1)%nat with p in T by lia; exact T).
    set (f := spline U n (S p) c) in *. set (g := spline (shift 1 U) (n - 1) p d).
    assert (HC : forall u, 0 <= u <= 1 -> continuous_on01 f u) by (intros u Hu; apply spline_cont; try assumption; lia).
    assert (HD : forall u, 0 <= u < 1 -> right_derivative_on01 f u (g u)).
    { intros u Hu. assert (T := spline_rd (S p) n U c u C ltac:(lia) Hu). replace (S p - 1)%nat with p in T by lia. exact T. }
    assert (HZd : forall i, (i <= n - 1)%nat -> (i < a - 1 \/ Nat.min b n <= i)%nat -> d i = 0).
    { intros i Hi Ho. unfold d. apply dpoints_same. rewrite !HZ by lia. reflexivity. }
    destruct (alt_last _ _ _ _ _ HA) as [L1 [L2 L3]].
    assert (F0 : (1 <= a)%nat -> f 0 = 0) by (intros Ha; unfold f; rewrite (spline_at_0 (S p) n U C); apply HZ; lia).
    assert (F1 : (b <= n)%nat -> f 1 = 0) by (intros Ha; unfold f; rewrite (spline_at_1 (S p) n U C); apply HZ; lia).
    assert (Hlt : (a < b)%nat).
    { apply Nat.nle_gt. intros T. apply (sgn_ne _ _ L2). apply spline_zero. intros i Hi. apply HZ; lia. }
    assert (IH' : forall m' e' x', alt g 0 m' e' x' -> x' < 1 -> (m' <= Nat.min b n - (a - 1))%nat).
    { intros m' e' x' HA' Hx'. apply (IH (n - 1)%nat (shift 1 U) d (a - 1)%nat (Nat.min b n) m' e' x'); try assumption; lia. }
    destruct (le_lt_dec 1 a) as [Ha|Ha]; destruct (le_lt_dec b n) as [Hbn|Hbn].
    + destruct (rolle_left f g HC HD m e x HA ltac:(lra) (F0 Ha)) as [x' [A Hx']].
      destruct (rolle_right f g HC HD e x L2 ltac:(lra) (F1 Hbn)) as [u [Hu Su]].
      assert (T := IH' (S m) (negb e) u (altS _ _ _ e x' u A ltac:(lra) Su) ltac:(lra)). lia.
    + destruct (rolle_left f g HC HD m e x HA ltac:(lra) (F0 Ha)) as [x' [A Hx']].
      assert (T := IH' m e x' A ltac:(lra)). lia.
    + destruct (rolle_right f g HC HD e x L2 ltac:(lra) (F1 Hbn)) as [u [Hu Su]].
      destruct (rolle_plain f g HC HD m e x HA ltac:(lra)) as [->|[x' [A Hx']]]; [lia|].
      assert (T := IH' (S (m - 1)) (negb e) u (altS _ _ _ e x' u A ltac:(lra) Su) ltac:(lra)). lia.
    + destruct (rolle_plain f g HC HD m e x HA ltac:(lra)) as [->|[x' [A Hx']]]; [lia|].
      assert (T := IH' (m - 1)%nat e x' A ltac:(lra)). lia.
Qed.

(** a spline that vanishes on part of a span has no coefficients there *)
Lemma local_independence p : forall n U c j x y, fclamped p n U -> (p <= j <= n)%nat -> U j < U (S j) -> U j <= x -> x < y -> y <= U (S j) ->
  (forall u, x <= u < y -> spline U n p c u = 0) -> forall i, (j <= i + p)%nat -> (i <= j)%nat -> c i = 0.
Proof.
  induction p as [|p IH]; intros n U c j x y C Hj HU Hx Hxy Hy HZ i Hi1 Hi2.
  - replace i with j by lia. rewrite <- (HZ x ltac:(lra)).
    assert (Hs : in_span U n x j) by (split; [exact HU|]; split; [exact Hx|left; lra]).
    rewrite (spline_piece 0 n U C c x j ltac:(lia) Hs). unfold pfun. rewrite (rsum_single _ _ j); [cbn [cox]; rewrite delta_eq; ring|lia|]. intros k Hk Hkj. cbn [cox]. rewrite delta_ne by exact Hkj. ring.
  - assert (Rg := U_range (S p) n U C). assert (R0 := Rg j). assert (R1 := Rg (S j)).
    assert (C' : fclamped p (n - 1) (shift 1 U)) by (assert (T := fclamped_shift (S p) n U 1 C ltac:(lia)); replace (S p - 1)%nat with p in T by lia; exact T).
    assert (D : forall k, (j <= k + S p)%nat -> (k < j)%nat -> dpoints U (S p) c 1 k = 0).
    { intros k Hk1 Hk2. apply (IH (n - 1)%nat (shift 1 U) (dpoints U (S p) c 1) (j - 1)%nat x y C'); try lia; try assumption; unfold shift;
        replace (j - 1 + 1)%nat with j by lia; try replace (S (j - 1) + 1)%nat with (S j) by lia; try assumption.
      intros u Hu. assert (T := spline_rd (S p) n U c u C ltac:(lia) ltac:(lra)). replace (S p - 1)%nat with p in T by lia. unfold shift in T.
      set (l := spline (fun i0 : nat => U (i0 + 1)%nat) (n - 1) p (dpoints U (S p) c 1) u) in *.
      destruct (Req_dec l 0) as [E|E]; [exact E|]. exfalso. destruct (T (Rabs l)) as [d [Hd Hq]]; [apply Rabs_pos_lt; exact E|].
      set (v := Rmin ((u + y) / 2) (u + d / 2)). assert (Hv : u < v < y /\ v - u < d) by (unfold v, Rmin; destruct (Rle_dec ((u + y) / 2) (u + d / 2)); lra).
      assert (Q := Hq v ltac:(lra) ltac:(lra) ltac:(lra)). rewrite !HZ in Q by lra. replace ((0 - 0) / (v - u) - l) with (- l) in Q by (field; lra). rewrite Rabs_Ropp in Q. lra. }
    assert (Cst : forall k, (j <= k + S p)%nat -> (k <= j)%nat -> c k = c j).
    { intros k Hk1 Hk2. remember (j - k)%nat as q eqn:Eq. revert k Hk1 Hk2 Eq. induction q as [|q IHq]; intros k Hk1 Hk2 Eq; [replace k with j by lia; reflexivity|].
      rewrite <- (IHq (S k)) by lia. assert (T := D k Hk1 ltac:(lia)). cbn [dpoints] in T. unfold ratio in T.
      assert (G : U (S k) <= U j /\ U (S j) <= U (k + S p + 1)%nat) by (split; apply (fc_mono _ _ _ C); lia).
      replace (k + 1)%nat with (S k) in T by lia. destruct (Req_EM_T (U (k + S p + 1)%nat - U (S k)) 0) as [E|E]; [lra|].
      unfold Rdiv in T. apply Rmult_integral in T. destruct T as [T|T]; [|apply Rinv_neq_0_compat in T; [contradiction|exact E]].
      apply Rmult_integral in T. destruct T as [T|T]; [exfalso; apply (not_0_INR (S p - 0)); [lia|exact T]|]. lra. }
    rewrite (Cst i Hi1 Hi2). assert (E0 := HZ x ltac:(lra)).
    assert (E1 : spline U n (S p) c x = c j * rsum (fun k => bspline U n (S p) k x) (S n)).
    { unfold spline. rewrite <- rsum_scal. apply rsum_ext. intros k Hk.
      destruct (le_lt_dec k j) as [K1|K1]; [destruct (le_lt_dec j (k + S p)) as [K2|K2]|].
      - rewrite (Cst k K2 K1). ring.
      - rewrite (bspline_support (S p) n U C k x ltac:(lra)); [ring|]. right. assert (U (k + S p + 1)%nat <= U j) by (apply (fc_mono _ _ _ C); lia). split; [lra|left; lra].
      - rewrite (bspline_support (S p) n U C k x ltac:(lra)); [ring|]. left. assert (U (S j) <= U k) by (apply (fc_mono _ _ _ C); lia). lra. }
    rewrite (bspline_sum (S p) n U C x ltac:(lra)) in E1. lra.
Qed.

Lemma spline_plus p n U c1 c2 u : spline U n p (fun i => c1 i + c2 i) u = spline U n p c1 u + spline U n p c2 u.
Proof. unfold spline. rewrite <- rsum_plus. apply rsum_ext. intros i _. ring. Qed.

Section Window.
  Variables (p n : nat) (U t : nat -> R).
  Hypotheses (C : fclamped p n U) (HS : simple p n U) (Hp : (1 <= p)%nat).

  Lemma left_zero c a : (1 <= a <= n)%nat -> (forall i, (i < a)%nat -> c i = 0) -> spline U n p c (U a) = 0.
  Proof.
    intros Ha Hc. destruct (le_lt_dec a p) as [Hap|Hap].
    - rewrite (fc_zero _ _ _ C) by exact Hap. rewrite (spline_at_0 p n U C). apply Hc. lia.
    - assert (Rg := U_range p n U C a). unfold spline. apply rsum_zero. intros i Hi. destruct (lt_eq_lt_dec i a) as [[L|E]|L].
      + rewrite Hc by exact L. ring.
      + subst i. assert (Hs : in_span U n (U a) a) by (split; [apply HS; lia|]; split; [lra|left; apply HS; lia]).
        rewrite (bspline_piece p n U C (U a) a a p ltac:(lia) Hs). destruct p as [|q]; [lia|]. cbn [cox].
        rewrite (piece_support U a q (S a)) by lia. replace (U a - U a) with 0 by ring. rewrite ratio_0_l. ring.
      + rewrite (bspline_support p n U C i (U a) Rg); [ring|]. left. apply (simple_lt p n); try assumption; lia.
  Qed.

  Lemma right_zero c b : (b <= n)%nat -> (forall i, (b <= i)%nat -> (i <= n)%nat -> c i = 0) -> spline U n p c (U (b + p)%nat) = 0.
  Proof.
    intros Hb Hc. destruct (le_lt_dec (S n) (b + p)) as [H|H].
    - rewrite (fc_one _ _ _ C) by lia. rewrite (spline_at_1 p n U C). apply Hc; lia.
    - assert (Rg := U_range p n U C (b + p)). assert (L := U_lt1 p n U C (b + p)%nat ltac:(lia)). unfold spline. apply rsum_zero. intros i Hi.
      destruct (le_lt_dec b i); [rewrite Hc by lia; ring|]. rewrite (bspline_support p n U C i _ Rg); [ring|]. right. split; [apply (fc_mono _ _ _ C); lia|left; exact L].
  Qed.

  Lemma window k : forall c a b, (b - a)%nat = k -> (1 <= a)%nat -> (b <= n)%nat ->
    (forall i, (i <= n)%nat -> (i < a \/ b <= i)%nat -> c i = 0) ->
    (forall i, (a <= i < b)%nat -> U i < t i < U (i + p + 1)%nat) ->
    (forall i, (a <= i)%nat -> (S i < b)%nat -> t i < t (S i)) ->
    (forall i, (a <= i < b)%nat -> spline U n p c (t i) = 0) ->
    forall i, (i <= n)%nat -> c i = 0.
  Proof.
    induction k as [k IH] using lt_wf_ind. intros c a b Hk Ha Hb HZ HSW Hinc Hzero.
    destruct (le_lt_dec b a) as [Hba|Hba]; [intros i Hi; apply HZ; lia|].
    assert (Mono := fc_mono _ _ _ C). assert (Hpn := fc_deg _ _ _ C). assert (Rg := U_range p n U C).
    set (f := spline U n p c). set (g := spline (shift 1 U) (n - 1) (p - 1) (dpoints U p c 1)).
    set (z := fun i => match i with O => U a | S i' => if (i' <? b - a)%nat then t (a + i')%nat else U (b + p)%nat end).
    assert (Z1 : forall i, (i < b - a)%nat -> z (S i) = t (a + i)%nat) by (intros i Hi; unfold z; apply Nat.ltb_lt in Hi; rewrite Hi; reflexivity).
    assert (Z2 : z (S (b - a)) = U (b + p)%nat) by (unfold z; rewrite Nat.ltb_irrefl; reflexivity).
    assert (Zlt : forall i, (i <= b - a)%nat -> z i < z (S i)).
    { intros [|i] Hi.
      - rewrite Z1 by lia. cbn [z]. rewrite Nat.add_0_r. apply HSW. lia.
      - rewrite Z1 by lia. destruct (Nat.eq_dec (S i) (b - a)) as [E|E].
        + rewrite E, Z2. replace (b + p)%nat with (a + i + p + 1)%nat by lia. apply HSW. lia.
        + rewrite Z1 by lia. replace (a + S i)%nat with (S (a + i)) by lia. apply Hinc; lia. }
    assert (Zf : forall i, (i <= S (b - a))%nat -> f (z i) = 0).
    { intros [|i] Hi.
      - cbn [z]. apply left_zero; [lia|]. intros i Hi'. apply HZ; lia.
      - destruct (Nat.eq_dec i (b - a)) as [->|E]; [rewrite Z2; apply right_zero; [exact Hb|]; intros i Hi1 Hi2; apply HZ; lia|].
        rewrite Z1 by lia. apply Hzero. lia. }
    assert (Zlo : forall i, (i <= S (b - a))%nat -> U a <= z i).
    { induction i as [|i IHi]; intros Hi; [cbn [z]; lra|]. assert (T := Zlt i ltac:(lia)). specialize (IHi ltac:(lia)). lra. }
    assert (Zhi : forall i, (i <= S (b - a))%nat -> z i <= U (b + p)%nat).
    { intros i Hi. rewrite <- Z2. remember (S (b - a) - i)%nat as q eqn:Eq. revert i Hi Eq. induction q as [|q IHq]; intros i Hi Eq; [replace i with (S (b - a)) by lia; lra|].
      assert (T := Zlt i ltac:(lia)). assert (T2 := IHq (S i) ltac:(lia) ltac:(lia)). lra. }
    assert (HC : forall u, 0 <= u <= 1 -> continuous_on01 f u) by (intros u Hu; apply spline_cont; assumption).
    assert (HD : forall u, 0 <= u < 1 -> right_derivative_on01 f u (g u)) by (intros u Hu; apply spline_rd; assumption).
    assert (ZR : forall i, (i <= S (b - a))%nat -> 0 <= z i <= 1).
    { intros i Hi. assert (A1 := Zlo i Hi). assert (A2 := Zhi i Hi). assert (A3 := Rg a). assert (A4 := Rg (b + p)%nat). lra. }
    destruct (classic (exists i, (i <= b - a)%nat /\ forall u, z i <= u < z (S i) -> f u = 0)) as [[i0 [Hi0 Flat]]|N].
    - assert (R0 := ZR i0 ltac:(lia)). assert (R1 := ZR (S i0) ltac:(lia)). assert (L0 := Zlt i0 Hi0).
      destruct (span_ex p n U C (z i0) R0) as [j [Hj [S1 [S2 S3]]]].
      assert (S4 : z i0 < U (S j)) by (destruct S3 as [S3|[_ S3]]; [exact S3|rewrite (fc_one _ _ _ C) in S3 by lia; lra]).
      assert (Haj : (a <= j)%nat).
      { apply Nat.nlt_ge. intros T. assert (U (S j) <= U a) by (apply Mono; lia). assert (T2 := Zlo i0 ltac:(lia)). lra. }
      assert (Hjb : (j < b + p)%nat).
      { apply Nat.nle_gt. intros T. assert (U (b + p)%nat <= U j) by (apply Mono; lia). assert (T2 := Zhi (S i0) ltac:(lia)). lra. }
      assert (LI : forall i, (j <= i + p)%nat -> (i <= j)%nat -> c i = 0).
      { apply (local_independence p n U c j (z i0) (Rmin (z (S i0)) (U (S j)))); try assumption.
        - unfold Rmin; destruct (Rle_dec (z (S i0)) (U (S j))); lra.
        - apply Rmin_r.
        - intros u Hu. apply Flat. assert (T := Rmin_l (z (S i0)) (U (S j))). lra. }
      set (cl := fun i => if (i + p <? j)%nat then c i else 0). set (cr := fun i => if (j <? i)%nat then c i else 0).
      assert (Dec : forall i, (i <= n)%nat -> c i = cl i + cr i).
      { intros i Hi. unfold cl, cr. destruct (Nat.ltb_spec (i + p) j), (Nat.ltb_spec j i); try lia; try ring. rewrite LI by lia. ring. }
      assert (DecS : forall u, spline U n p c u = spline U n p cl u + spline U n p cr u).
      { intros u. rewrite <- spline_plus. unfold spline. apply rsum_ext. intros i Hi. rewrite (Dec i) by lia. reflexivity. }
      assert (ZL : forall i, (i <= n)%nat -> cl i = 0).
      { apply (IH (Nat.min b (j - p) - a)%nat ltac:(lia) cl a (Nat.min b (j - p))); try lia.
        - intros i Hi Ho. unfold cl. destruct (Nat.ltb_spec (i + p) j); [apply HZ; lia|reflexivity].
        - intros i Hi. apply HSW. lia.
        - intros i Hi1 Hi2. apply Hinc; lia.
        - intros i Hi. assert (W := HSW i ltac:(lia)). assert (T := Hzero i ltac:(lia)). rewrite DecS in T.
          assert (ER : spline U n p cr (t i) = 0).
          { unfold spline. apply rsum_zero. intros k' Hk'. unfold cr. destruct (Nat.ltb_spec j k'); [|ring].
            assert (A1 := Rg i). assert (A2 := Rg (i + p + 1)%nat).
            rewrite (bspline_support p n U C k' (t i) ltac:(lra)); [ring|]. left. assert (U (i + p + 1)%nat <= U k') by (apply Mono; lia). lra. }
          lra. }
      assert (ZRt : forall i, (i <= n)%nat -> cr i = 0).
      { apply (IH (b - Nat.max a (S j))%nat ltac:(lia) cr (Nat.max a (S j)) b); try lia.
        - intros i Hi Ho. unfold cr. destruct (Nat.ltb_spec j i); [apply HZ; lia|reflexivity].
        - intros i Hi. apply HSW. lia.
        - intros i Hi1 Hi2. apply Hinc; lia.
        - intros i Hi. assert (W := HSW i ltac:(lia)). assert (T := Hzero i ltac:(lia)). rewrite DecS in T.
          assert (EL : spline U n p cl (t i) = 0).
          { unfold spline. apply rsum_zero. intros k' Hk'. unfold cl. destruct (Nat.ltb_spec (k' + p) j); [|ring].
            assert (A1 := Rg i). assert (A2 := Rg (i + p + 1)%nat).
            rewrite (bspline_support p n U C k' (t i) ltac:(lra)); [ring|]. right. assert (U (k' + p + 1)%nat <= U i) by (apply Mono; lia). split; [lra|left; lra]. }
          lra. }
      intros i Hi. rewrite (Dec i Hi), ZL, ZRt by exact Hi. ring.
    - exfalso.
      assert (NZ : forall i, (i <= b - a)%nat -> exists x, z i <= x < z (S i) /\ f x <> 0).
      { intros i Hi. apply NNPP. intros N2. apply N. exists i. split; [exact Hi|]. intros u Hu. apply NNPP. intros N3. apply N2. exists u. split; assumption. }
      assert (Bumps : forall i, (i <= b - a)%nat -> exists e x, alt g 0 (i + 2) e x /\ x < z (S i)).
      { induction i as [|i IHi]; intros Hi.
        - destruct (bump f g HC HD (z 0%nat) (z 1%nat)) as [e [u1 [u2 [B1 [B2 [B3 [B4 B5]]]]]]]; try apply Zf; try apply ZR; try apply Zlt; try apply NZ; try lia.
          exists (negb e), u2. split; [|exact B3]. apply (altS g 0 1 e u1 u2); try assumption. apply alt1; [|exact B4]. assert (T := ZR 0%nat ltac:(lia)). lra.
        - destruct (IHi ltac:(lia)) as [e0 [x [A Hx]]].
          destruct (bump f g HC HD (z (S i)) (z (S (S i)))) as [e [u1 [u2 [B1 [B2 [B3 [B4 B5]]]]]]]; try apply Zf; try apply ZR; try apply Zlt; try apply NZ; try lia.
          exists (negb e0). destruct (Bool.bool_dec e (negb e0)) as [E|E].
          + exists u1. split; [|lra]. apply (altS g 0 (i + 2) e0 x u1 A); [lra|]. rewrite <- E. exact B4.
          + exists u2. split; [|lra]. apply (altS g 0 (i + 2) e0 x u2 A); [lra|]. replace (negb e0) with (negb e); [exact B5|]. destruct e, e0; cbn in *; congruence. }
      destruct (Bumps (b - a)%nat ltac:(lia)) as [e [x [A Hx]]].
      assert (T : (b - a + 2 <= b - (a - 1))%nat); [|lia].
      apply (changes (p - 1) (n - 1) (shift 1 U) (dpoints U p c 1) (a - 1) b (b - a + 2) e x); try lia; try exact A.
      + apply fclamped_shift; [exact C|exact Hp].
      + apply simple_shift; assumption.
      + intros i Hi Ho. apply dpoints_same. rewrite !HZ by lia. reflexivity.
      + assert (T2 := ZR (S (b - a)) ltac:(lia)). lra.
  Qed.

  (** Schoenberg and Whitney *)
  Theorem spline_unisolvent c : (1 <= n)%nat -> t 0%nat = 0 -> t n = 1 -> (forall i, (1 <= i < n)%nat -> U i < t i < U (i + p + 1)%nat) ->
    (forall i, (1 <= i)%nat -> (S i < n)%nat -> t i < t (S i)) -> (forall i, (i <= n)%nat -> spline U n p c (t i) = 0) ->
    forall i, (i <= n)%nat -> c i = 0.
  Proof.
    intros Hn T0 T1 HSW Hinc HZ.
    assert (E0 := HZ 0%nat ltac:(lia)). rewrite T0, (spline_at_0 p n U C c) in E0.
    assert (E1 := HZ n ltac:(lia)). rewrite T1, (spline_at_1 p n U C c) in E1.
    apply (window (n - 1) c 1 n); try lia; try assumption.
    - intros i Hi Ho. assert (D : i = 0%nat \/ i = n) by lia. destruct D as [-> | ->]; assumption.
    - intros i Hi. apply HZ. lia.
  Qed.
End Window.
