(** * Model of the direct access to a curve through its public fields:
      src/curve/mod.rs:45-48 [pub knots], [pub points] and the methods of
      src/curve/knots/mod.rs and src/curve/points/mod.rs that write in place *)

From Coq Require Import ZArith List Bool Arith.
From Verif Require Import Num Vec MKnots MPoints MCurve.
Import ListNotations.

Section Direct.
  Context {K : Num}.
  Notation Vec := (list K).
  Notation Mat := (Mat K).
  Notation Knots := (Knots K).
  Notation ControlPoints := (ControlPoints K).
  Notation Curve := (Curve K).

  (** knots/mod.rs:98-100 [vector_derivative_mut(k)].  A mutable borrow is modelled by
      what the caller does with it: the function [f] from the old to the new vector,
      which may itself panic (an index out of bounds). *)
  Definition vector_derivative_mut (kn : Knots) (k : nat) (f : Vec -> M Vec) : M Knots :=
    v <- vget (Uk kn) k;; w <- f v;; uk <- vset (Uk kn) k w;; Val (mkKnots uk (kp kn) (kk_max kn)).
  (** knots/mod.rs:88-90 [vector_mut()] *)
  Definition vector_mut (kn : Knots) (f : Vec -> M Vec) : M Knots := vector_derivative_mut kn 0 f.

  (** points/mod.rs:88-90 [matrix_mut()] *)
  Definition matrix_mut (cp : ControlPoints) (f : Mat -> M Mat) : M ControlPoints :=
    m <- vget (Pk cp) 0;; w <- f m;; pk <- vset (Pk cp) 0 w;; Val (mkCP pk (pk_max cp)).
  (** points/mod.rs:114-117 [matrix_derivative_mut(k)] *)
  Definition matrix_derivative_mut (cp : ControlPoints) (k : nat) (f : Mat -> M Mat) : M ControlPoints :=
    _ <- assert (k <=? pk_max cp);;
    m <- vget (Pk cp) k;; w <- f m;; pk <- vset (Pk cp) k w;; Val (mkCP pk (pk_max cp)).
  (** points/mod.rs:38-40 [get(i)] *)
  Definition cp_get (cp : ControlPoints) (i : nat) : M Vec := m <- cp_matrix cp;; mcol m i.
  (** points/mod.rs:42-44 [get_mut(i)]: a view of column [i], whose length cannot be
      changed *)
  Definition get_mut (cp : ControlPoints) (i : nat) (f : Vec -> M Vec) : M ControlPoints :=
    matrix_mut cp (fun m => v <- mcol m i;; w <- f v;; mset_col m i w).
  (** points/mod.rs:54-56 [is_empty()] *)
  Definition cp_is_empty (cp : ControlPoints) : M bool := m <- cp_matrix cp;; Val (mis_empty m).

  (** one call on a public field of a curve *)
  Inductive access : Type :=
  | AKnots (f : Vec -> M Vec)                    (* curve.knots.vector_mut() *)
  | AKnotsDerivative (k : nat) (f : Vec -> M Vec)  (* curve.knots.vector_derivative_mut(k) *)
  | ANormalizeKnots                              (* curve.knots.normalize() *)
  | ARescaleKnots (old_lim new_lim : K * K)      (* curve.knots.rescale(old_lim, new_lim) *)
  | ADeriveKnots                                 (* curve.knots.derive() *)
  | APoints (f : Mat -> M Mat)                   (* curve.points.matrix_mut() *)
  | APoint (i : nat) (f : Vec -> M Vec)          (* curve.points.get_mut(i) *)
  | APointsDerivative (k : nat) (f : Mat -> M Mat) (* curve.points.matrix_derivative_mut(k) *)
  | AReversePoints                               (* curve.points.reverse() *)
  | ADerivePoints.                               (* curve.points.derive(&curve.knots) *)

  Definition access_once (c : Curve) (a : access) : M Curve :=
    let on_knots kn := kn <- kn;; Val (mkCurve kn (cpoints c)) in
    let on_points cp := cp <- cp;; Val (mkCurve (cknots c) cp) in
    match a with
    | AKnots f => on_knots (vector_mut (cknots c) f)
    | AKnotsDerivative k f => on_knots (vector_derivative_mut (cknots c) k f)
    | ANormalizeKnots => on_knots (knots_normalize (cknots c))
    | ARescaleKnots a b => on_knots (knots_rescale (cknots c) a b)
    | ADeriveKnots => on_knots (knots_derive (cknots c))
    | APoints f => on_points (matrix_mut (cpoints c) f)
    | APoint i f => on_points (get_mut (cpoints c) i f)
    | APointsDerivative k f => on_points (matrix_derivative_mut (cpoints c) k f)
    | AReversePoints => on_points (points_reverse (cpoints c))
    | ADerivePoints => on_points (points_derive (cpoints c) (cknots c))
    end.

  (** several calls, one after the other *)
  Definition accessed (c : Curve) (l : list access) : M Curve := foldM access_once l c.
End Direct.
Arguments access : clear implicits.
