(** * Model of generation in debug builds

    The other model files leave out the one [debug_assert!] of the crate, which is absent
    from release builds.  Here the functions that reach it are modelled with it. *)

From Coq Require Import ZArith List Bool Arith.
From Verif Require Import Num Vec MKnots MPoints MCurve MFit MGenerate.
Import ListNotations.

Section Debug.
  Context {K : Num}.
  Notation Mat := (Mat K).
  Context (svd : Mat -> Mat -> M Mat).

  (** [f64::EPSILON.sqrt()] is [2^-26], a number of both instances, here a product of
      26 halves *)
  Definition sqrt_epsilon : K := fold_left (fun s _ => (s * nhalf)%num) (seq 0 26) n1.

  (** parameters/methods.rs:25-47 [centripetal(points)] with line 35,
      [debug_assert!(sum >= f64::EPSILON.sqrt(), ..)]; [a >= b] is [b <= a], false if one
      of them is NaN *)
  Definition centripetal_debug (points : Mat) : M (Parameters K) :=
    m <- dp_segments points;;
    sum <- foldM (fun s g => c <- chord points g;; Val (s + nsqrt c)%num) (rangei 1 m) n0;;
    if negb (sqrt_epsilon <=? sum)%num then Panic
    else
    u_bar <- foldM (fun w g =>
                      c <- chord points g;;
                      g1 <- usub g 1;;
                      prev <- vget w g1;;
                      x <- ndiv (nsqrt c) sum;;
                      vset w g (prev + x)%num)
               (range 1 m) (vzeros (m + 1));;
    u_bar <- vset u_bar m n1;;
    Val (mkParams u_bar m).

  (** parameters/mod.rs:37-43 [generate(points, method)] *)
  Definition params_generate_debug (points : Mat) (m : ParamMethod) : M (Parameters K) :=
    match m with
    | EquallySpaced => s <- dp_segments points;; equally_spaced s
    | ChordLength => chord_length points
    | Centripetal => centripetal_debug points
    end.

  (** generation/mod.rs:80-150 [generate(generation)] *)
  Definition generate_debug (g : Generation) : M (result (Curve K) (CurveError K)) :=
    match g with
    | Manual degree points method =>
        n <- cp_segments points;;
        let p := degree in
        if n <? degree then Val (Err (DegreeAndSegmentsMismatch p n))
        else
          data <- cp_matrix points;;
          knots <- (match method with
                    | GUniform => uniform p n
                    | GManual kn => Val (Ok kn)
                    | GMethod pm km =>
                        params <- params_generate_debug data pm;;
                        knots_generate p n params km
                    end);;
          match knots with
          | Err e => Val (Err e)
          | Ok kn => curve_new kn points
          end
    | Interpolation degree points =>
        params <- params_generate_debug points EquallySpaced;;
        n <- dp_segments points;;
        knots <- knots_generate degree n params KUniform;;
        match knots with
        | Err e => Val (Err e)
        | Ok kn =>
            P <- interpolate svd kn points params;;
            curve_new kn (cp_new P)
        end
    | LeastSquaresFit degree points intended_segments method pen =>
        params <- params_generate_debug points EquallySpaced;;
        knots <- knots_generate degree intended_segments params KUniform;;
        match knots with
        | Err e => Val (Err e)
        | Ok kn =>
            P <- (match method with
                  | FixedEnds => fixed_fit svd kn points params pen
                  | LooseEnds => loose_fit svd kn points params pen
                  end);;
            match P with
            | Err e => Val (Err (FitErr e))
            | Ok P => curve_new kn (cp_new P)
            end
        end
    end.
End Debug.
