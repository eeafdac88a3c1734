(** * Property C145: control points that are hit exactly *)

From Coq Require Import ZArith Reals List Bool Arith Lia Lra.
From Flocq Require Import IEEE754.BinarySingleNaN.
From Verif Require Import Num Vec MKnots MPoints MCurve RNum F64 Lists Struct Spec Api ApiF Bridge Samples Facts11 Float8 Float28.
Import ListNotations.
Local Open Scope R_scope.

(** ** C145.  At a knot that occurs [p] times the binary64 curve passes exactly through a
    control point, as in exact arithmetic (C84). *)
Theorem C145_knot_point : forall p n dim (U : list f64) P M c (u : f64) b, float_curve p n dim U P M c -> finite u -> (b + p <= n)%nat ->
  nth (b + p) (map val U) 0 <= val u < nth (b + p + 1) (map val U) 0 -> (forall i, (b < i <= b + p)%nat -> nth i (map val U) 0 = val u) ->
  returns_within (@evaluate F64 c u) dim (fun d => val (ent P b d)) 0.
Proof. exact knot_point_F64. Qed.
Print Assumptions C145_knot_point.

(** A curve of degree one with distinct internal knots passes exactly through all its
    control points. *)
Theorem C145_polygon : forall n dim (U : list f64) P M c, float_curve 1 n dim U P M c ->
  (forall i, (1 <= i <= n)%nat -> nth i (map val U) 0 < nth (i + 1) (map val U) 0) ->
  forall i, (i <= n)%nat -> returns_within (@evaluate F64 c (nth (i + 1) U (@n0 F64))) dim (fun d => val (ent P i d)) 0.
Proof. exact polygon_F64. Qed.
Print Assumptions C145_polygon.

(** degree 1, knots 0 0 1/4 3/4 1 1, points 0, 1, -3/2, 3/4 *)
Definition U_145 : list f64 := map q4 [0; 0; 1; 3; 4; 4]%Z.
Lemma vals_145 : map val U_145 = [0; 0; 1/4; 3/4; 1; 1].
Proof. unfold U_145. cbn [map]. rewrite ?val_q4_0, ?val_q4_1, ?val_q4_3, ?val_q4_4. repeat f_equal; lra. Qed.

Example C145_hypotheses : exists c, float_curve 1 3 1 U_145 P_f 2 c /\
  (forall i, (1 <= i <= 3)%nat -> nth i (map val U_145) 0 < nth (i + 1) (map val U_145) 0) /\ finite (q4 1) /\ (1 + 1 <= 3)%nat /\
  nth (1 + 1) (map val U_145) 0 <= val (q4 1) < nth (1 + 1 + 1) (map val U_145) 0 /\
  (forall i, (1 < i <= 1 + 1)%nat -> nth i (map val U_145) 0 = val (q4 1)).
Proof.
  destruct (okb_ex (build 1 U_145 P_f) (fun _ => true)) as [c [E _]]; [vm_compute; reflexivity|]. apply build_built in E. exists c.
  rewrite vals_145.
  split.
  - split; [|split; [|split; [|exact E]]].
    + split; [|split].
      * intros x Hx. unfold U_145 in Hx. cbn [map In] in Hx. repeat destruct Hx as [<-|Hx]; try contradiction; reflexivity.
      * rewrite vals_145. split; [lia|reflexivity| | | |].
        -- apply sorted_steps. intros i Hi. cbn [length] in Hi. cases i.
        -- intros i Hi. cases i.
        -- intros i Hi Hj. cbn [length] in Hj. cases i.
        -- intros i Hi Hj. cases i.
      * rewrite vals_145. assert (S := small_1000). intros i Hi Hne. simpl in Hi.
        destruct i as [|[|[|[|[|i]]]]]; simpl in Hne |- *; try lra; try lia.
    + split; [reflexivity|split; [reflexivity|intros i Hi; cases i]].
    + exact P_f_pts.
  - split; [intros i Hi; cases i|]. split; [reflexivity|]. split; [lia|]. rewrite val_q4_1. split; [cbn [plus nth]; lra|]. intros i Hi. cases i.
Qed.
