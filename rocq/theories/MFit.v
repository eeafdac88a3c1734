(** * Model of src/curve/points/methods/{interpolation.rs, fit/*.rs}

    The singular value decomposition is external (nalgebra).  It appears as an
    oracle argument [svd : Mat -> Mat -> M Mat]: [svd A B] is the matrix that
    [SVD::new(A, true, true).solve(&B, f64::EPSILON.sqrt()).unwrap()] returns
    for a non-empty [A]. *)

From Coq Require Import ZArith List Bool Arith.
From Verif Require Import Num Vec MKnots MPoints.
Import ListNotations.

Section Fit.
  Context {K : Num}.
  Notation Vec := (list K).
  Notation Mat := (Mat K).
  Notation Knots := (Knots K).
  Notation Parameters := (Parameters K).

  Context (svd : Mat -> Mat -> M Mat).

  (** [SVD::new(A, true, true).solve(&B, eps).unwrap()]: nalgebra asserts that
      the matrix to decompose is not empty and that the row counts agree *)
  Definition svd_solve (A B : Mat) : M Mat :=
    if mis_empty A then Panic
    else if nrows A =? nrows B then svd A B else Panic.

  (** interpolation.rs:19-24: the collocation matrix *)
  Definition collocation (kn : Knots) (points : Mat) (params : Parameters) : M Mat :=
    let p := kdegree kn in
    m <- dp_segments points;;
    let n := m in
    foldM (fun N i =>
             foldM (fun N g =>
                      u <- vget (pvector params) g;;
                      b <- kevaluate kn 0 i p u;;
                      mset N g i b) (rangei 0 m) N)
          (rangei 0 n) (mzeros (ncols points) (ncols points)).

  (** interpolation.rs:12-29 [interpolate(knots, points, params)] *)
  Definition interpolate (kn : Knots) (points : Mat) (params : Parameters) : M Mat :=
    N <- collocation kn points params;;
    X <- svd_solve N (mtranspose points);;
    Val (mtranspose X).

  (** fit/mod.rs:46-54 [struct Penalization] *)
  Record Penalization : Type := mkPen { lambda : K; kappa : nat }.

  (** fit/mod.rs:56-71 [input_checks] *)
  Definition input_checks (kn : Knots) (points : Mat) (params : Parameters) (pen : option Penalization)
    : M (result unit (FitError K)) :=
    n <- ksegments kn;;
    m <- dp_segments points;;
    let mp := psegments params in
    let p := kdegree kn in
    if m <? n then Val (Err (RequestedPolynomialSegmentAndDataSegementMismatch n m))
    else if negb (m =? mp) then Val (Err (DataSegmentsAndParameterSegmentsMismatch m mp))
    else if n <? p then Val (Err (RequestedPolynomialSegmentAndSplineDegreeMismatch n p))
    else
      match pen with
      | Some pen =>
          n1 <- usub n 1;;
          if n1 <? kappa pen then
            Val (Err (RequestedPolynomialSegmentAndPenalizationKappaMismatch n (kappa pen)))
          else Val (Ok tt)
      | None => Val (Ok tt)
      end.

  (** fit/mod.rs:97-111 [difference_operator(i, j, kappa)]; simplification:
      [isize] is unbounded *)
  Fixpoint difference_operator (kappa i j : nat) {struct kappa} : Z :=
    match kappa with
    | O => 0
    | S O => if i =? j then (-1)%Z else if i + 1 =? j then 1%Z else 0%Z
    | S k => (difference_operator k (i + 1) j - difference_operator k i j)%Z
    end.

  (** fit/mod.rs:73-94 [compute_svd], up to the decomposition: the matrix that
      is handed to [SVD::new] *)
  Definition normal_matrix (kn : Knots) (Nmat : Mat) (pen : option Penalization)
             (finite_difference : nat -> Knots -> M Mat) : M (result Mat (FitError K)) :=
    mat <- mmul (mtranspose Nmat) Nmat;;
    match pen with
    | Some pen =>
        let l := lambda pen in
        if (l <? n0)%num then Val (Err (NegativeLambda l))
        else
          bad <- (if (n0 <? l)%num then
                    r <- is_uniform kn;; b <- unwrap r;; Val (negb b)
                  else Val false);;
          if (bad : bool) then Val (Err NonUniformKnots)
          else
            delta <- finite_difference (kappa pen) kn;;
            dtd <- mmul (mtranspose delta) delta;;
            mat' <- madd mat (mscale l dtd);;
            Val (Ok mat')
    | None => Val (Ok mat)
    end.

  (** *** fit/loose.rs *)

  (** loose.rs:30-45 [calculate_coefficient_matrix] *)
  Definition loose_coefficients (kn : Knots) (points : Mat) (params : Parameters) : M Mat :=
    let p := kdegree kn in
    n <- ksegments kn;;
    m <- dp_segments points;;
    foldM (fun N g =>
             u <- vget (pvector params) g;;
             foldM (fun N i => b <- kevaluate kn 0 i p u;; mset N g i b) (rangei 0 n) N)
          (rangei 0 m) (mzeros (m + 1) (n + 1)).

  (** loose.rs:47-60 [calculate_finite_difference_matrix] *)
  Definition loose_difference (kappa : nat) (kn : Knots) : M Mat :=
    n <- ksegments kn;;
    _ <- assert (kappa <=? n);;
    rows <- usub (n + 1) kappa;;
    nk <- usub n kappa;;
    foldM (fun D i =>
             foldM (fun D j => mset D i j (nofZ (difference_operator kappa i j))) (rangei 0 n) D)
          (rangei 0 nk) (mzeros rows (n + 1)).

  (** loose.rs:13-28 [fit] *)
  Definition loose_fit (kn : Knots) (points : Mat) (params : Parameters) (pen : option Penalization)
    : M (result Mat (FitError K)) :=
    chk <- input_checks kn points params pen;;
    match chk with
    | Err e => Val (Err e)
    | Ok _ =>
        N <- loose_coefficients kn points params;;
        A <- normal_matrix kn N pen loose_difference;;
        match A with
        | Err e => Val (Err e)
        | Ok A =>
            B <- mmul (mtranspose N) (mtranspose points);;
            X <- svd_solve A B;;
            Val (Ok (mtranspose X))
        end
    end.

  (** *** fit/fixed.rs *)

  (** fixed.rs:46-65 [generate_qvectors] *)
  Definition fixed_qvectors (kn : Knots) (points : Mat) (params : Parameters) : M Mat :=
    let p := kdegree kn in
    n <- ksegments kn;;
    m <- dp_segments points;;
    let dim := nrows points in
    m1 <- usub m 1;;
    foldM (fun Q g =>
             v <- mcol points g;;
             Q <- mset_col Q g v;;
             u <- vget (pvector params) g;;
             b0 <- kevaluate kn 0 0 p u;;
             p0 <- mcol points 0;;
             c <- mcol Q g;;
             c <- vsub c (vscale b0 p0);;
             Q <- mset_col Q g c;;
             bn <- kevaluate kn 0 n p u;;
             pm <- mcol points m;;
             c <- mcol Q g;;
             c <- vsub c (vscale bn pm);;
             mset_col Q g c)
          (rangei 1 m1) (mzeros dim (m + 1)).

  (** fixed.rs:67-89 [calculate_constant_terms_matrix].  [accum *= 0.0] keeps
      the accumulator as [0 * accum]. *)
  Definition fixed_constant_terms (kn : Knots) (points : Mat) (params : Parameters) (Q : Mat) : M Mat :=
    let p := kdegree kn in
    n <- ksegments kn;;
    m <- dp_segments points;;
    let dim := nrows points in
    n1 <- usub n 1;;
    m1 <- usub m 1;;
    r <- foldM (fun '(Qmat, accum) i =>
                  acc <- foldM (fun acc g =>
                                  u <- vget (pvector params) g;;
                                  b <- kevaluate kn 0 i p u;;
                                  q <- mcol Q g;;
                                  vadd acc (vscale b q))
                           (rangei 1 m1) (vmul_scalar accum n0);;
                  i1 <- usub i 1;;
                  Qmat <- mset_col Qmat i1 acc;;
                  Val (Qmat, acc))
               (rangei 1 n1) (mzeros dim n1, vzeros dim);;
    Val (fst r).

  (** fixed.rs:91-106 [calculate_coefficient_matrix] *)
  Definition fixed_coefficients (kn : Knots) (points : Mat) (params : Parameters) : M Mat :=
    let p := kdegree kn in
    n <- ksegments kn;;
    m <- dp_segments points;;
    m1 <- usub m 1;;
    n1 <- usub n 1;;
    foldM (fun N g =>
             u <- vget (pvector params) g;;
             foldM (fun N i =>
                      b <- kevaluate kn 0 i p u;;
                      g1 <- usub g 1;;
                      i1 <- usub i 1;;
                      mset N g1 i1 b) (rangei 1 n1) N)
          (rangei 1 m1) (mzeros m1 n1).

  (** fixed.rs:108-126 [calculate_finite_difference_matrix] *)
  Definition fixed_difference (kappa : nat) (kn : Knots) : M Mat :=
    n <- ksegments kn;;
    n2 <- usub n 2;;
    _ <- assert (kappa <=? n2);;
    n1 <- usub n 1;;
    rows <- usub n1 kappa;;
    nk <- usub n kappa;;
    nk2 <- usub nk 2;;
    foldM (fun D i =>
             foldM (fun D j => mset D i j (nofZ (difference_operator kappa i j))) (rangei 0 n2) D)
          (rangei 0 nk2) (mzeros rows n1).

  (** fixed.rs:15-44 [fit] *)
  Definition fixed_fit (kn : Knots) (points : Mat) (params : Parameters) (pen : option Penalization)
    : M (result Mat (FitError K)) :=
    chk <- input_checks kn points params pen;;
    match chk with
    | Err e => Val (Err e)
    | Ok _ =>
        Q <- fixed_qvectors kn points params;;
        Qmat <- fixed_constant_terms kn points params Q;;
        N <- fixed_coefficients kn points params;;
        A <- normal_matrix kn N pen fixed_difference;;
        match A with
        | Err e => Val (Err e)
        | Ok A =>
            X <- svd_solve A (mtranspose Qmat);;
            let inner := mtranspose X in
            n <- ksegments kn;;
            m <- dp_segments points;;
            let cp := mzeros (nrows points) (n + 1) in
            p0 <- mcol points 0;;
            cp <- mset_col cp 0 p0;;
            pm <- mcol points m;;
            cp <- mset_col cp n pm;;
            n1 <- usub n 1;;
            cp <- foldM (fun cp i =>
                           i1 <- usub i 1;;
                           v <- mcol inner i1;;
                           mset_col cp i v)
                        (rangei 1 n1) cp;;
            Val (Ok cp)
        end
    end.
End Fit.
Arguments Penalization : clear implicits.
