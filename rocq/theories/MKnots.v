(** * Model of src/curve/basis/mod.rs and src/curve/knots/{mod,methods}.rs,
      src/curve/parameters/{mod,methods}.rs *)

From Coq Require Import ZArith List Bool Arith.
From Verif Require Import Num Vec.
Import ListNotations.

(** curve/mod.rs:50-74 [enum CurveError] (f64 payloads of
    [ParameterOutOfBounds] other than [u] are the constants 0.0 and 1.0) *)
Inductive FitError {K : Num} : Type :=
| NegativeLambda (lambda : K)                                        (* fit/mod.rs:23-24 *)
| RequestedPolynomialSegmentAndDataSegementMismatch (n m : nat)      (* fit/mod.rs:26-29 *)
| RequestedPolynomialSegmentAndSplineDegreeMismatch (n p : nat)      (* fit/mod.rs:31-34 *)
| RequestedPolynomialSegmentAndPenalizationKappaMismatch (n kappa : nat) (* fit/mod.rs:36-37 *)
| DataSegmentsAndParameterSegmentsMismatch (m mp : nat)              (* fit/mod.rs:39-40 *)
| NonUniformKnots.                                                   (* fit/mod.rs:42-43 *)
Arguments FitError : clear implicits.

Inductive CurveError {K : Num} : Type :=
| ParameterOutOfBounds (u lower_bound upper_bound : K)
| DegreeAndSegmentsMismatch (p n : nat)
| DegreeAndDerivativeOrderMismatch (p k : nat)
| DerivativeNotAvailable (k_max p : nat)
| DegreeTooLow (p limit : nat)
| FitErr (err : FitError K).
Arguments CurveError : clear implicits.

Section Knots.
  Context {K : Num}.
  Notation Vec := (list K).
  Local Open Scope num_scope.
  Local Open Scope nat_scope.

  (** curve/basis/mod.rs:29-57 [basis(Uk, i, p, k, n, u)].  The degree comes
      first to make the recursion structural; [h] is the code's [p - 1]. *)
  Fixpoint basis (Uk : Vec) (p i k n : nat) (u : K) {struct p} : M K :=
    match p with
    | O =>
        (* (Uk[i] <= u && u < Uk[i + 1]) || (i == n - k && u == Uk[n + 1 - k]) *)
        a <- vget Uk i;;
        in_span <- (if (a <=? u)%num then b <- vget Uk (i + 1);; Val (u <? b)%num else Val false);;
        if (in_span : bool) then Val n1
        else
          nk <- usub n k;;
          if i =? nk then
            e <- usub (n + 1) k;;
            x <- vget Uk e;;
            if (u ==? x)%num then Val n1 else Val n0
          else Val n0
    | S h =>
        (* summand1 *)
        a1 <- vget Uk (i + S h);;
        b1 <- vget Uk i;;
        s1 <- (if (a1 ==? b1)%num then Val n0
               else
                 x <- vget Uk i;;
                 y <- vget Uk (i + h + 1);;
                 w <- ndiv (u - x)%num (y - x)%num;;
                 r <- basis Uk h i k n u;;
                 Val (w * r)%num);;
        (* summand2, with g = i + 1 *)
        a2 <- vget Uk (i + 1 + S h);;
        b2 <- vget Uk (i + 1);;
        s2 <- (if (a2 ==? b2)%num then Val n0
               else
                 z <- vget Uk (i + 1 + S h);;
                 y <- vget Uk (i + 1 + h + 1);;
                 x <- vget Uk (i + 1);;
                 w <- ndiv (z - u)%num (y - x)%num;;
                 r <- basis Uk h (i + 1) k n u;;
                 Val (w * r)%num);;
        Val (s1 + s2)%num
    end.

  (** knots/mod.rs:28-33 [struct Knots] *)
  Record Knots : Type := mkKnots { Uk : list Vec; kp : nat; kk_max : nat }.

  (** knots/mod.rs:35-40 *)
  Inductive DomainKnotComparatorType := CLeft | CLeftOrEqual | CRightOrEqual | CRight.

  (** knots/mod.rs:94-96 [vector_derivative(k)] *)
  Definition vector_derivative (kn : Knots) (k : nat) : M Vec := vget (Uk kn) k.
  (** knots/mod.rs:84-86 [vector()] *)
  Definition vector (kn : Knots) : M Vec := vget (Uk kn) 0.
  (** knots/mod.rs:102-104 [degree()] *)
  Definition kdegree (kn : Knots) : nat := kp kn.
  (** knots/mod.rs:114-116 [len(k)] *)
  Definition klen (kn : Knots) (k : nat) : M nat := v <- vget (Uk kn) k;; Val (length v).
  (** knots/mod.rs:110-112 [segments_derivative(k)]: [len - (p + 2 - 2 * k)] *)
  Definition segments_derivative (kn : Knots) (k : nat) : M nat :=
    len <- klen kn k;;
    d <- usub (kp kn + 2) (2 * k);;
    usub len d.
  (** knots/mod.rs:106-108 [segments()] *)
  Definition ksegments (kn : Knots) : M nat := segments_derivative kn 0.
  (** knots/mod.rs:118-120 [internal_count()] *)
  Definition internal_count (kn : Knots) : M nat := n <- ksegments kn;; usub n (kp kn).
  (** knots/mod.rs:122-124 [internal()] *)
  Definition internal (kn : Knots) : M Vec :=
    v <- vget (Uk kn) 0;; c <- internal_count kn;; segment v (kp kn + 1) c.
  (** knots/mod.rs:126-128 [internal_knot(i)] *)
  Definition internal_knot (kn : Knots) (i : nat) : M K := v <- internal kn;; vget v i.
  (** knots/mod.rs:130-132 [domain_count()] *)
  Definition domain_count (kn : Knots) : M nat :=
    n <- ksegments kn;; d <- usub n (kp kn);; Val (d + 2).
  (** knots/mod.rs:138-140 [domain_derivative(k)] *)
  Definition domain_derivative (kn : Knots) (k : nat) : M Vec :=
    v <- vget (Uk kn) k;; s <- usub (kp kn) k;; c <- domain_count kn;; segment v s c.
  (** knots/mod.rs:134-136 [domain()] *)
  Definition domain (kn : Knots) : M Vec := domain_derivative kn 0.
  (** knots/mod.rs:142-144 [domain_knot(i)] *)
  Definition domain_knot (kn : Knots) (i : nat) : M K := v <- domain kn;; vget v i.
  (** knots/mod.rs:146-148 [multiplicity(u)] *)
  Definition multiplicity (kn : Knots) (u : K) : M nat :=
    d <- domain kn;; Val (length (filter (fun x => (x ==? u)%num) d)).
  (** knots/mod.rs:170-172 [max_derivative()] *)
  Definition kmax_derivative (kn : Knots) : nat := kk_max kn.

  (** knots/mod.rs:174-186 [derive(&mut self)] *)
  Definition knots_derive (kn : Knots) : M Knots :=
    let p := kp kn in
    uk <- foldM (fun uk k =>
                   k1 <- usub k 1;;
                   prev <- vget uk k1;;
                   len2 <- usub (length prev) 2;;
                   seg <- segment prev 1 len2;;
                   Val (uk ++ [seg]))
                (rangei 1 p) (firstn 1 (Uk kn));;
    Val (mkKnots uk p p).

  (** knots/mod.rs:73-82 [Knots::new(degree, knots)] *)
  Definition knots_new (degree : nat) (knots : Vec) : M Knots :=
    knots_derive (mkKnots [knots] degree 0).

  (** knots/mod.rs:191-215 [find_index(u, k)] (bisection; private, unused) *)
  Definition find_index (kn : Knots) (u : K) (k : nat) : M (option nat) :=
    v <- vector_derivative kn k;;
    pk <- usub (kdegree kn) k;;
    f <- vget v pk;;
    if (u <? f)%num then Val None
    else
      l1 <- usub (length v) pk;;
      last <- usub l1 1;;
      lh <- while_ (S (S (last - pk)))
              (fun '(low, high) => Val (low <? high))
              (fun '(low, high) =>
                 let mid := high - (high - low) / 2 in
                 x <- vget v mid;;
                 if (u <? x)%num then hi <- usub mid 1;; Val ((low, hi), false)
                 else Val ((mid, high), false))
              (pk, last);;
      Val (Some (snd lh)).

  (** knots/mod.rs:220-265 [find_idx(u, k, comparator)].  The fuel of each
      [while] is the number of knots plus one. *)
  Definition find_idx (kn : Knots) (u : K) (k : nat) (cmp : DomainKnotComparatorType) : M nat :=
    v <- vector_derivative kn k;;
    pk <- usub (kdegree kn) k;;
    match cmp with
    | CLeft =>
        n <- ksegments kn;; lim <- usub (n + 1) k;;
        while_ (S (length v))
          (fun i => x <- vget v (i + 1);; Val ((x <? u)%num && (i + 1 <? lim)))
          (fun i => Val (i + 1, false))
          pk
    | CLeftOrEqual =>
        n <- ksegments kn;; lim <- usub (n + 1) k;;
        while_ (S (length v))
          (fun i => x <- vget v (i + 1);; Val ((x <=? u)%num && (i + 1 <? lim)))
          (fun i => let i := i + 1 in
                    x <- vget v (i + 1);; y <- vget v i;; Val (i, (x ==? y)%num))
          pk
    | CRightOrEqual =>
        l1 <- usub (length v) 1;; i0 <- usub l1 pk;;
        while_ (S (length v))
          (fun i => i1 <- usub i 1;; x <- vget v i1;; Val ((u <=? x)%num && (pk <? i)))
          (fun i => i <- usub i 1;;
                    i1 <- usub i 1;; x <- vget v i1;; y <- vget v i;; Val (i, (x ==? y)%num))
          i0
    | CRight =>
        l1 <- usub (length v) 1;; i0 <- usub l1 pk;;
        while_ (S (length v))
          (fun i => i1 <- usub i 1;; x <- vget v i1;;
                    if (u <? x)%num then i2 <- usub i 1;; Val (pk <? i2) else Val false)
          (fun i => i <- usub i 1;; Val (i, false))
          i0
    end.

  (** knots/mod.rs:268-274 [evaluate(k, i, p, u)] *)
  Definition kevaluate (kn : Knots) (k i p : nat) (u : K) : M K :=
    v <- vget (Uk kn) k;;
    n <- ksegments kn;;
    pk <- usub p k;;
    basis v pk i k n u.

  (** knots/mod.rs:281-289 [is_clamped] *)
  Definition is_clamped (kn : Knots) : M bool :=
    v <- vector kn;;
    let c := kp kn + 1 in
    Val (forallb (fun x => (x ==? n0)%num) (firstn c v) &&
         forallb (fun x => (x ==? n1)%num) (firstn c (rev v))).

  (** [a.partial_cmp(b).unwrap()]: [true] for [Greater]; panics on NaN *)
  Definition cmp_greater (a b : K) : M bool :=
    if (a <=? b)%num then Val false else if (b <=? a)%num then Val true else Panic.

  (** [Iterator::min_by] / [max_by]: the first minimum, the last maximum *)
  Definition min_by (v : Vec) : M (option K) :=
    match v with
    | [] => Val None
    | x :: r => m <- foldM (fun m y => g <- cmp_greater m y;; Val (if (g : bool) then y else m)) r x;; Val (Some m)
    end.
  Definition max_by (v : Vec) : M (option K) :=
    match v with
    | [] => Val None
    | x :: r => m <- foldM (fun m y => g <- cmp_greater m y;; Val (if (g : bool) then m else y)) r x;; Val (Some m)
    end.

  (** knots/mod.rs:291-298 [is_normed] *)
  Definition is_normed (kn : Knots) : M bool :=
    v <- vector kn;;
    mn <- min_by v;;
    mx <- max_by v;;
    Val ((match mn with Some x => (x ==? n0)%num | None => false end) &&
         (match mx with Some x => (x ==? n1)%num | None => false end)).

  (** knots/mod.rs:300-312 [is_sorted] *)
  Fixpoint sorted_from (x : K) (v : Vec) : bool :=
    match v with
    | [] => true
    | y :: r => (x <=? y)%num && sorted_from y r
    end.
  Definition is_sorted (kn : Knots) : M bool :=
    v <- vget (Uk kn) 0;;
    Val (match v with [] => true | x :: r => sorted_from x r end).

  (** knots/mod.rs:323-333 [reverse(knots: &mut VecD)] *)
  Definition vec_reverse (v : Vec) : M Vec :=
    let nr := length v in
    w <- foldM (fun w i => a <- usub nr 1;; j <- usub a i;; swap w i j) (range 0 (nr / 2)) v;;
    Val (vmul_scalar (vadd_scalar w (nofZ (-1))) (nofZ (-1))).

  (** knots/mod.rs:335-339 [reversed] *)
  Definition vec_reversed (v : Vec) : M Vec := vec_reverse v.

  (** knots/mod.rs:150-155 [Knots::reverse] *)
  Definition knots_reverse (kn : Knots) : M Knots :=
    uk <- mapM vec_reverse (Uk kn);; Val (mkKnots uk (kp kn) (kk_max kn)).

  (** knots/mod.rs:368-374 [rescale(knots, old_lim, new_lim)] *)
  Definition vec_rescale (v : Vec) (old_lim new_lim : K * K) : M Vec :=
    let n := length v in
    v1 <- vsub v (repeat (fst old_lim) n);;
    v2 <- vdiv_scalar v1 (snd old_lim - fst old_lim)%num;;
    let v3 := vmul_scalar v2 (snd new_lim - fst new_lim)%num in
    vadd v3 (repeat (fst new_lim) n).

  (** knots/mod.rs:353-360 [rescaled_knot] *)
  Definition rescaled_knot (x : K) (old_lim new_lim : K * K) : M K :=
    let x1 := (x - fst old_lim)%num in
    x2 <- ndiv x1 (snd old_lim - fst old_lim)%num;;
    let x3 := (x2 * (snd new_lim - fst new_lim))%num in
    Val (x3 + fst new_lim)%num.

  (** knots/mod.rs:341-345 [normalize(knots: &mut VecD)] *)
  Definition vec_normalize (v : Vec) : M Vec := vec_rescale v (vmin v, vmax v) (n0, n1).

  (** knots/mod.rs:157-162 [Knots::normalize] *)
  Definition knots_normalize (kn : Knots) : M Knots :=
    uk <- mapM vec_normalize (Uk kn);; Val (mkKnots uk (kp kn) (kk_max kn)).

  (** knots/mod.rs:164-168 [Knots::rescale] *)
  Definition knots_rescale (kn : Knots) (old_lim new_lim : K * K) : M Knots :=
    uk <- mapM (fun v => vec_rescale v old_lim new_lim) (Uk kn);; Val (mkKnots uk (kp kn) (kk_max kn)).

  (** ** Parameters *)

  (** parameters/mod.rs:11-15 [struct Parameters] *)
  Record Parameters : Type := mkParams { pvector : Vec; psegments : nat }.

  (** parameters/methods.rs:12-22 [equally_spaced(segments)] *)
  Definition equally_spaced (segments : nat) : M Parameters :=
    let m := segments in
    u_bar <- foldM (fun w g => x <- ndiv (nofnat g) (nofnat m);; vset w g x)
               (range 1 m) (vzeros (m + 1));;
    u_bar <- vset u_bar m n1;;
    Val (mkParams u_bar segments).

  (** ** Knot generation, knots/methods.rs *)

  (** knots/methods.rs:6-12 [inputCheck] *)
  Definition inputCheck (degree segments : nat) : result unit (CurveError K) :=
    match degree with
    | O => Err (DegreeTooLow degree 0)
    | _ => if segments <? degree then Err (DegreeAndSegmentsMismatch degree segments) else Ok tt
    end.

  (** [for i in n + 1..U.len() { U[i] = 1. }] *)
  Definition clamp_tail (U : Vec) (n : nat) : M Vec :=
    foldM (fun w i => vset w i n1) (range (n + 1) (length U)) U.

  (** knots/methods.rs:18-39 [uniform(degree, segments)] *)
  Definition uniform (degree segments : nat) : M (result Knots (CurveError K)) :=
    let p := degree in
    let n := segments in
    match inputCheck p n with
    | Err e => Val (Err e)
    | Ok _ =>
        ic <- usub n p;;
        U <- foldM (fun w i => x <- ndiv (nofnat i) (nofnat (ic + 1));; vset w (degree + i) x)
               (rangei 1 ic) (vzeros (p + n + 2));;
        U <- clamp_tail U n;;
        kn <- knots_new degree U;;
        Val (Ok kn)
    end.

  (** knots/methods.rs:42-69 [averaging(degree, segments, parameters)] *)
  Definition averaging (degree segments : nat) (params : Parameters) : M (result Knots (CurveError K)) :=
    let p := degree in
    let n := segments in
    match inputCheck p n with
    | Err e => Val (Err e)
    | Ok _ =>
        ic <- usub n p;;
        let U_bar := pvector params in
        U <- foldM (fun w j =>
                      lim <- usub (j + p) 1;;
                      s <- foldM (fun s i => x <- vget U_bar i;; Val (s + x)%num) (rangei j lim) n0;;
                      y <- ndiv s (nofnat p);;
                      vset w (p + j) y)
               (rangei 1 ic) (vzeros (p + n + 2));;
        U <- clamp_tail U n;;
        kn <- knots_new degree U;;
        Val (Ok kn)
    end.

  (** knots/methods.rs:79-112 [de_boor(degree, segments, parameters)].  [i] is
      [jd as usize]; an index beyond any vector is out of bounds either way. *)
  Definition de_boor (degree segments : nat) (params : Parameters) : M (result Knots (CurveError K)) :=
    let p := degree in
    let n := segments in
    match inputCheck p n with
    | Err e => Val (Err e)
    | Ok _ =>
        let U_bar := pvector params in
        ic <- usub n p;;
        d <- ndiv (nofnat (n + 1)) (nofnat (ic + 1));;
        U <- foldM (fun w j =>
                      let jd := (nofnat j * d)%num in
                      let i := Z.to_nat (ntrunc jd) in
                      let alpha := (jd - nofnat i)%num in
                      i1 <- usub i 1;;
                      x <- vget U_bar i1;;
                      y <- vget U_bar i;;
                      vset w (degree + j) ((n1 - alpha) * x + alpha * y)%num)
               (rangei 1 ic) (vzeros (p + n + 2));;
        U <- clamp_tail U n;;
        kn <- knots_new degree U;;
        Val (Ok kn)
    end.

  (** knots/mod.rs:48-52 [enum Method] *)
  Inductive KnotMethod := KUniform | KDeBoor | KAveraging.

  (** knots/mod.rs:63-69 [generate(degree, segments, params, method)] *)
  Definition knots_generate (degree segments : nat) (params : Parameters) (m : KnotMethod)
    : M (result Knots (CurveError K)) :=
    match m with
    | KUniform => uniform degree segments
    | KDeBoor => de_boor degree segments params
    | KAveraging => averaging degree segments params
    end.

  (** [U0.eq(expected.vector())]: same length and equal components *)
  Definition vec_eqb (a b : Vec) : bool :=
    (length a =? length b) && forallb (fun xy => (fst xy ==? snd xy)%num) (combine a b).

  (** knots/mod.rs:314-321 [is_uniform] *)
  Definition is_uniform (kn : Knots) : M (result bool (CurveError K)) :=
    v <- vector kn;;
    n <- ksegments kn;;
    r <- uniform (kdegree kn) n;;
    match r with
    | Err e => Val (Err e)
    | Ok expected => w <- vector expected;; Val (Ok (vec_eqb v w))
    end.
End Knots.
Arguments Knots : clear implicits.
Arguments Parameters : clear implicits.
