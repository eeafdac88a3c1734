(** * Insertion and splitting in binary64: decisions and what stays exactly as it was *)

From Coq Require Import ZArith Reals List Bool Arith Lia Lra Permutation.
From Verif Require Import Num Vec MKnots MPoints MCurve RNum F64 Lists Struct Spec Api ApiF ApiF3 ApiK Bridge Facts1 Facts11 Float8 Samples Float17 Float21 Float23 Float24.
Import ListNotations.
Local Open Scope R_scope.

(** ** C131.  Over finite clamped knots a binary64 insertion reports the error that exact
    arithmetic reports, with the same multiplicity, and otherwise succeeds with the same
    knots, whatever the control points. *)
Theorem C131_insert : forall p n dim dim' U P c P' cR (u : f64),
  on_knots p n dim U P c -> clamped_curve p n dim' (map val U) P' cR -> finite u -> simple_below (map val U) (val u) ->
  (@curve_insert F64 c u = Val (c, Err (@IOutOfBounds F64 u n0 n1)) /\ @curve_insert RNum cR (val u) = Val (cR, Err (@IOutOfBounds RNum (val u) n0 n1))) \/
  (exists m, @curve_insert F64 c u = Val (c, Err (@IMultiplicityError F64 u m p)) /\ @curve_insert RNum cR (val u) = Val (cR, Err (@IMultiplicityError RNum (val u) m p))) \/
  (exists c' U' Q cR' Q', @curve_insert F64 c u = Val (c', Ok tt) /\ on_knots p (S n) dim U' Q c' /\ Permutation (u :: U) U' /\
     @curve_insert RNum cR (val u) = Val (cR', Ok tt) /\ clamped_curve p (S n) dim' (map val U') Q' cR').
Proof. exact insert_same. Qed.
Print Assumptions C131_insert.

(** Inserting x times succeeds as long as the multiplicity does not exceed p + 1. *)
Theorem C131_insert_times : forall x p n dim U P c (u : f64),
  on_knots p n dim U P c -> finite u -> 0 < val u < 1 -> (mult (map val U) (val u) + x <= p + 1)%nat -> simple_below (map val U) (val u) ->
  exists c' U' P', @insert_times F64 c u x = Val (c', Ok tt) /\ on_knots p (n + x) dim U' P' c' /\ Permutation (repeat u x ++ U) U'.
Proof. exact insert_times_on. Qed.
Print Assumptions C131_insert_times.

(** A split reports the same error, or both parts have the sizes of exact arithmetic and, without
    normalisation, the same knots. *)
Theorem C131_split : forall p n dim dim' U P c P' cR (u : f64) fl fr,
  on_knots p n dim U P c -> clamped_curve p n dim' (map val U) P' cR -> finite u -> simple_below (map val U) (val u) ->
  (@split_and_normalize F64 c u (fl, fr) = Val (Err (@SOutOfBounds F64 u n0 n1)) /\ @split_and_normalize RNum cR (val u) (fl, fr) = Val (Err (@SOutOfBounds RNum (val u) n0 n1))) \/
  (exists m, @split_and_normalize F64 c u (fl, fr) = Val (Err (@MultiplicityTooHigh F64 u p m)) /\ @split_and_normalize RNum cR (val u) (fl, fr) = Val (Err (@MultiplicityTooHigh RNum (val u) p m))) \/
  (exists l r lR rR nl nr Ul Ur Pl Pr Vl Vr Ql Qr,
     @split_and_normalize F64 c u (fl, fr) = Val (Ok (l, r)) /\ @sized F64 p nl dim Ul Pl /\ @built F64 p Ul Pl l /\ @sized F64 p nr dim Ur Pr /\ @built F64 p Ur Pr r /\
     @split_and_normalize RNum cR (val u) (fl, fr) = Val (Ok (lR, rR)) /\ @sized RNum p nl dim' Vl Ql /\ @built RNum p Vl Ql lR /\ @sized RNum p nr dim' Vr Qr /\ @built RNum p Vr Qr rR /\
     (fl = false -> Vl = map val Ul) /\ (fr = false -> Vr = map val Ur)).
Proof. exact split_same. Qed.
Print Assumptions C131_split.

(** insert at 3/4 *)
Example C131_hypotheses : exists c cR, on_knots 2 3 1 U_f P_f c /\ clamped_curve 2 3 1 (map val U_f) PR_f cR /\ finite (q4 3) /\
  0 < val (q4 3) < 1 /\ (mult (map val U_f) (val (q4 3)) + 3 <= 2 + 1)%nat /\ simple_below (map val U_f) (val (q4 3)).
Proof.
  destruct curve_f as [c H]. assert (C := proj1 (proj2 (proj1 H))).
  destruct (clamped_curve_ex 2 3 1 (map val U_f) PR_f C (proj1 same_f)) as [cR HR]. exists c, cR.
  destruct H as [[Ff _] [HS [_ HB]]]. split.
  { split; [split; [lia|split; [reflexivity|exact HS]]|]. split; [exact HB|]. split; [exact Ff|exact C]. }
  split; [exact HR|]. split; [reflexivity|]. rewrite val_U_f, val_q4_3. split; [lra|].
  split; [|intros x Hx]; unfold mult; cbn [count_occ]; repeat (destruct (Req_EM_T _ _); try lra); lia.
Qed.

(** ** C134.  An insertion in binary64 copies the control points outside the span, NaN and
    infinities included, and puts the knot into its span. *)
Theorem C134_insert_local : forall p n dim U P c (u : f64),
  on_knots p n dim U P c -> finite u -> 0 < val u < 1 -> (mult (map val U) (val u) <= p)%nat -> simple_below (map val U) (val u) ->
  exists c' P' l, @curve_insert F64 c u = Val (c', Ok tt) /\ on_knots p (S n) dim (firstn (l + 1) U ++ u :: skipn (l + 1) U) P' c' /\
    (p <= l <= n)%nat /\ nth l (map val U) 0 <= val u <= nth (l + 1) (map val U) 0 /\
    (forall i d, (i + p <= l)%nat -> (d < dim)%nat -> ent P' i d = ent P i d) /\
    (forall i d, (l < i <= S n)%nat -> (d < dim)%nat -> ent P' i d = ent P (i - 1) d).
Proof. exact insert_local. Qed.
Print Assumptions C134_insert_local.

(** However often a knot is inserted, the first and the last control point stay. *)
Theorem C134_insert_ends : forall x p n dim U P c (u : f64),
  on_knots p n dim U P c -> finite u -> 0 < val u < 1 -> (mult (map val U) (val u) + x <= p + 1)%nat -> simple_below (map val U) (val u) ->
  exists c' U' P', @insert_times F64 c u x = Val (c', Ok tt) /\ on_knots p (n + x) dim U' P' c' /\
    forall d, (d < dim)%nat -> ent P' 0 d = ent P 0 d /\ ent P' (n + x) d = ent P n d.
Proof. exact insert_ends. Qed.
Print Assumptions C134_insert_ends.

(** The two parts of a split meet without a gap: the left part ends in the very numbers in which
    the right part starts.  The outer ends are the outer control points of the curve. *)
Theorem C134_watertight : forall p n dim (U : list f64) P M c P' cR (u : f64) g, float_curve p n dim U P M c -> same_points n dim P P' ->
  clamped_curve p n dim (map val U) P' cR -> (1 <= p <= 100)%nat -> / 2 ^ 1000 <= M <= 2 ^ 1019 -> finite u -> 0 < val u < 1 ->
  (forall x, 0 < x < 1 -> (mult (map val U) x <= p)%nat) -> simple_below (map val U) (val u) ->
  / 2 ^ 49 <= g -> wide g (val u :: map val U) ->
  exists cl cr, @split F64 c u = Val (Ok (cl, cr)) /\
    forall t0 t1 : f64, finite t0 -> finite t1 -> val t0 = 0 -> val t1 = 1 ->
      (exists f, returns_within (@evaluate F64 cl t1) dim f 0 /\ returns_within (@evaluate F64 cr t0) dim f 0) /\
      returns_within (@evaluate F64 cl t0) dim (fun d => val (ent P 0 d)) 0 /\
      returns_within (@evaluate F64 cr t1) dim (fun d => val (ent P n d)) 0.
Proof. exact watertight. Qed.
Print Assumptions C134_watertight.

(** the hypotheses of the first two are those of [C131_hypotheses] *)
Example C134_hypotheses : exists c cR, float_curve 2 3 1 U_f P_f 2 c /\ same_points 3 1 P_f PR_f /\ clamped_curve 2 3 1 (map val U_f) PR_f cR /\
  (1 <= 2 <= 100)%nat /\ / 2 ^ 1000 <= 2 <= 2 ^ 1019 /\ finite (q4 3) /\ 0 < val (q4 3) < 1 /\
  (forall x, 0 < x < 1 -> (mult (map val U_f) x <= 2)%nat) /\ simple_below (map val U_f) (val (q4 3)) /\
  / 2 ^ 49 <= 1 / 4 /\ wide (1 / 4) (val (q4 3) :: map val U_f) /\ finite (q4 0) /\ finite (q4 4) /\ val (q4 0) = 0 /\ val (q4 4) = 1.
Proof.
  destruct curve_f as [c H]. assert (C := proj1 (proj2 (proj1 H))).
  destruct (clamped_curve_ex 2 3 1 (map val U_f) PR_f C (proj1 same_f)) as [cR HR]. exists c, cR.
  split; [exact H|]. split; [exact same_f|]. split; [exact HR|]. split; [lia|]. rewrite val_U_f, val_q4_3. split.
  { assert (1 <= 2 ^ 999) by (apply pow_R1_Rle; lra). assert (1 <= 2 ^ 1018) by (apply pow_R1_Rle; lra). split.
    - apply Rle_trans with (/ 1); [|lra]. apply Rinv_le_contravar; [lra|]. apply pow_R1_Rle. lra.
    - change 1019%nat with (S 1018). cbn [pow]. lra. }
  split; [reflexivity|]. split; [lra|].
  split. { intros x Hx. unfold mult. cbn [count_occ]. repeat (destruct (Req_EM_T _ _); try lra); lia. }
  split. { intros x Hx. unfold mult. cbn [count_occ]. repeat (destruct (Req_EM_T _ _); try lra); lia. }
  split. { apply Rle_trans with (/ 4); [|lra]. apply Rinv_le_contravar; [lra|]. change 49%nat with (2 + 47)%nat. rewrite pow_add. assert (1 <= 2 ^ 47) by (apply pow_R1_Rle; lra). lra. }
  split. { intros x y Hx Hy Lt. cbn [In] in Hx, Hy. intuition lra. }
  split; [reflexivity|]. split; [reflexivity|]. split; [exact val_q4_0|exact val_q4_4].
Qed.
