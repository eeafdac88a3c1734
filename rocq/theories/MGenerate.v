(** * Model of src/curve/generation/mod.rs *)

From Coq Require Import ZArith List Bool Arith.
From Verif Require Import Num Vec MKnots MPoints MCurve MFit.
Import ListNotations.

Section Generate.
  Context {K : Num}.
  Notation Mat := (Mat K).
  Context (svd : Mat -> Mat -> M Mat).

  (** knots/mod.rs:42-46 [knots::Generation] *)
  Inductive KnotGeneration : Type :=
  | GUniform
  | GManual (knots : Knots K)
  | GMethod (pm : ParamMethod) (km : KnotMethod).

  (** fit/mod.rs:16-19 [fit::Method] *)
  Inductive FitMethod := FixedEnds | LooseEnds.

  (** generation/mod.rs:38-55 [enum Generation] *)
  Inductive Generation : Type :=
  | Manual (degree : nat) (points : ControlPoints K) (knots : KnotGeneration)
  | Interpolation (degree : nat) (points : Mat)
  | LeastSquaresFit (degree : nat) (points : Mat) (intended_segments : nat)
                    (method : FitMethod) (penalization : option (Penalization K)).

  (** generation/mod.rs:80-150 [generate(generation)] *)
  Definition generate (g : Generation) : M (result (Curve K) (CurveError K)) :=
    match g with
    | Manual degree points method =>
        n <- cp_segments points;;
        let p := degree in
        if n <? degree then Val (Err (DegreeAndSegmentsMismatch p n))
        else
          data <- cp_matrix points;;
          knots <- (match method with
                    | GUniform => uniform p n
                    | GManual kn => Val (Ok kn)
                    | GMethod pm km =>
                        params <- params_generate data pm;;
                        knots_generate p n params km
                    end);;
          match knots with
          | Err e => Val (Err e)
          | Ok kn => curve_new kn points
          end
    | Interpolation degree points =>
        params <- params_generate points EquallySpaced;;
        n <- dp_segments points;;
        knots <- knots_generate degree n params KUniform;;
        match knots with
        | Err e => Val (Err e)
        | Ok kn =>
            P <- interpolate svd kn points params;;
            curve_new kn (cp_new P)
        end
    | LeastSquaresFit degree points intended_segments method pen =>
        params <- params_generate points EquallySpaced;;
        knots <- knots_generate degree intended_segments params KUniform;;
        match knots with
        | Err e => Val (Err e)
        | Ok kn =>
            P <- (match method with
                  | FixedEnds => fixed_fit svd kn points params pen
                  | LooseEnds => loose_fit svd kn points params pen
                  end);;
            match P with
            | Err e => Val (Err (FitErr e))
            | Ok P => curve_new kn (cp_new P)
            end
        end
    end.
End Generate.
