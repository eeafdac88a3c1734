(** * Properties C172 and C173: debug builds *)

From Coq Require Import ZArith Reals List Bool Arith Lia Lra.
From Flocq Require Import IEEE754.BinarySingleNaN.
From Verif Require Import Num Vec MKnots MPoints MCurve MFit MGenerate MDebug RNum F64 Lists Struct Spec Api ApiF ApiF2 Samples Facts11 Float8 Debug.
Import ListNotations.
Local Open Scope R_scope.

(** ** C172.  A debug build generates the same curve as a release build or panics, whatever
    the input and the arithmetic are; it can panic only for the centripetal method. *)
Theorem C172_same_or_panic : forall (K : Num) (svd : Mat K -> Mat K -> M (Mat K)) g, generate_debug svd g = generate svd g \/ generate_debug svd g = Panic.
Proof. exact @debug_cases. Qed.
Print Assumptions C172_same_or_panic.

Theorem C172_only_centripetal : forall (K : Num) (svd : Mat K -> Mat K -> M (Mat K)) g, (forall p cp km, g <> Manual p cp (GMethod Centripetal km)) ->
  generate_debug svd g = generate svd g.
Proof. exact @debug_same. Qed.
Print Assumptions C172_only_centripetal.

(** it does so if and only if the roots of the chord lengths add up to less than [2^-26] *)
Theorem C172_limit : forall svd p n dim (P : Mat RNum) km, shape dim (S n) P -> (p <= n)%nat ->
  (/ 2 ^ 26 <= rsum (fun g => sqrt (distance P dim (S g) g)) n -> generate_debug svd (Manual p (cp_new P) (GMethod Centripetal km)) = generate svd (Manual p (cp_new P) (GMethod Centripetal km))) /\
  (rsum (fun g => sqrt (distance P dim (S g) g)) n < / 2 ^ 26 -> generate_debug svd (Manual p (cp_new P) (GMethod Centripetal km)) = Panic).
Proof. exact debug_exact. Qed.
Print Assumptions C172_limit.

(** so one pair of neighbours at least [f64::EPSILON = 2^-52] apart is enough *)
Theorem C172_far : forall svd p n dim (P : Mat RNum) km g, shape dim (S n) P -> (p <= n)%nat -> (g < n)%nat -> / 2 ^ 52 <= distance P dim (S g) g ->
  generate_debug svd (Manual p (cp_new P) (GMethod Centripetal km)) = generate svd (Manual p (cp_new P) (GMethod Centripetal km)).
Proof. exact debug_far. Qed.
Print Assumptions C172_far.

Example C172_far_hypotheses : shape 2 4 P_a /\ / 2 ^ 52 <= distance P_a 2 1 0.
Proof.
  split; [split; [reflexivity|]; split; [reflexivity|]; intros i Hi; cases i|]. unfold distance. cbn [rsum]. rewrite <- (sqrt_Rsqr (/ 2 ^ 52)) by lra. apply sqrt_le_1_alt. unfold Rsqr, ent, P_a. cbn. lra.
Qed.

(** in binary64 the limit is met up to a relative error of [2^-30] *)
Theorem C172_binary64 : forall svd p m dim (P : Mat F64) (P' : Mat RNum) km, tame m dim P -> same_points m dim P P' -> (Z.of_nat m <= 2 ^ 20)%Z -> (Z.of_nat dim <= 2 ^ 20)%Z -> (p <= m)%nat ->
  (/ 2 ^ 26 * (1 + / 2 ^ 30) <= rsum (fun g => sqrt (distance P' dim (S g) g)) m -> generate_debug svd (Manual p (cp_new P) (GMethod Centripetal km)) = generate svd (Manual p (cp_new P) (GMethod Centripetal km))) /\
  (rsum (fun g => sqrt (distance P' dim (S g) g)) m <= / 2 ^ 26 * (1 - / 2 ^ 30) -> generate_debug svd (Manual p (cp_new P) (GMethod Centripetal km)) = Panic).
Proof. exact debug_float. Qed.
Print Assumptions C172_binary64.

(** the points 0, 1, -3/2, 3/4 on the line *)
Example C172_binary64_hypotheses : tame 3 1 P_f /\ same_points 3 1 P_f PR_f.
Proof. split; [exact tame_f|exact same_f]. Qed.

(** NaN coordinates are always caught in a debug build *)
Theorem C172_nan : forall svd p m dim (P : Mat F64) km i d, shape dim (S m) P -> (1 <= m)%nat -> (p <= m)%nat -> (i <= m)%nat -> (d < dim)%nat -> is_nan (ent P i d) = true ->
  generate_debug svd (Manual p (cp_new P) (GMethod Centripetal km)) = Panic.
Proof. exact debug_nan. Qed.
Print Assumptions C172_nan.

Example C172_nan_hypotheses : let P := mkMat 1 [[fmk 0 0]; [B754_nan]; [fmk 1 0]] : Mat F64 in shape 1 3 P /\ is_nan (ent P 1 0) = true.
Proof. split; [|reflexivity]. split; [reflexivity|]. split; [reflexivity|]. intros [|[|[|i]]] Hi; try reflexivity. lia. Qed.

(** ** C173.  The claim that both builds generate the same curves is false, for every control
    polygon: a small enough copy is generated by a release build and makes a debug build
    panic. *)
Theorem C173_builds_refuted : forall n dim (P : Mat RNum) p km, shape dim (S n) P -> (1 <= p <= n)%nat ->
  (forall g, (g < n)%nat -> exists d, (d < dim)%nat /\ ent P g d <> ent P (S g) d) ->
  exists t P', 0 < t /\ shape dim (S n) P' /\ (forall i d, (i <= n)%nat -> (d < dim)%nat -> ent P' i d = t * ent P i d) /\
    forall svd, (exists U c, generate svd (Manual p (cp_new P') (GMethod Centripetal km)) = Val (Ok c) /\ clamped_curve p n dim U P' c) /\
                generate_debug svd (Manual p (cp_new P') (GMethod Centripetal km)) = Panic.
Proof. exact profiles_differ. Qed.
Print Assumptions C173_builds_refuted.

(** the points 0, 2^-60, 3 * 2^-60 in binary64, with de Boor's knots *)
Theorem C173_tiny_refuted : forall svd : Mat F64 -> Mat F64 -> M (Mat F64), exists P, P = mkMat 1 [[fmk 0 0]; [fmk 1 (-60)]; [fmk 3 (-60)]] /\
  generate_debug svd (Manual 2 (cp_new P) (GMethod Centripetal KDeBoor)) = Panic /\
  exists c x, generate svd (Manual 2 (cp_new P) (GMethod Centripetal KDeBoor)) = Val (Ok c) /\ evaluate c (fmk 1 (-1)) = Val (Ok [x]) /\ finite x.
Proof. exact (fun svd => ex_intro _ tiny (conj eq_refl (tiny_differs svd))). Qed.
Print Assumptions C173_tiny_refuted.
