(** * Model of src/manipulation/merge.rs and of the merging methods of
      src/curve/mod.rs *)

From Coq Require Import ZArith List Bool Arith.
From Verif Require Import Num Vec MKnots MPoints MCurve MFit.
Import ListNotations.

Section Merge.
  Context {K : Num}.
  Notation Vec := (list K).
  Notation Mat := (Mat K).
  Notation Knots := (Knots K).
  Notation Curve := (Curve K).

  Context (svd : Mat -> Mat -> M Mat).

  (** merge.rs:36-53 [Constraints] (a list of parameters), [ConstrainedCurve] *)
  Record ConstrainedCurve : Type := mkCC { cc_curve : Curve; cc_params : list K }.

  (** merge.rs:55-78 [enum MergeError] *)
  Inductive MergeError : Type :=
  | DegreeMismatch (left right : nat)
  | DimensionMismatch (left right : nat)
  | UnclampedCurve
  | UnnormedCurve
  | TooManyConstraints (total degree : nat)
  | CurveGenerationFailure (e : CurveError K).

  (** merge.rs:571-590 [prefactor(p, i, i0, k, P0, U0)]; the matrix is used for
      its number of columns only *)
  Fixpoint prefactor (p : nat) (nc : nat) (U0 : Vec) (k i i0 : nat) {struct k} : M K :=
    n <- usub nc 1;;
    nk <- usub n k;;
    if i <=? nk then
      match k with
      | O => if i =? i0 then Val n1 else Val n0
      | S k' =>
          a <- vget U0 (i + p + 1);;
          b <- vget U0 (i + S k');;
          if (a ==? b)%num then Val n0
          else
            pk <- usub (p + 1) (S k');;
            s <- ndiv (nofnat pk) (a - b)%num;;
            hi <- prefactor p nc U0 k' (i + 1) i0;;
            lo <- prefactor p nc U0 k' i i0;;
            Val (s * (hi - lo))%num
      end
    else Val n0.

  (** merge.rs:186-191 / 230-235: derivative coefficient of point [i] of the
      left curve at its end *)
  Definition left_coefficient (a : Curve) (p m k i : nat) : M K :=
    S_ <- cp_matrix (cpoints a);;
    V0 <- vget (Uk (cknots a)) 0;;
    mp <- usub m p;;
    mk <- usub m k;;
    foldM (fun sum a_ =>
             f <- prefactor p (ncols S_) V0 k a_ i;;
             Vk <- vget (Uk (cknots a)) k;;
             pk <- usub p k;;
             u <- vget V0 (m + 1);;
             b <- basis Vk pk a_ 0 mk u;;
             Val (sum + f * b)%num)
          (rangei mp mk) n0.

  (** merge.rs:207-212 / 253-258: derivative coefficient of point [j] of the
      right curve at its start *)
  Definition right_coefficient (b : Curve) (p o k j : nat) : M K :=
    T_ <- cp_matrix (cpoints b);;
    W0 <- vget (Uk (cknots b)) 0;;
    pk <- usub p k;;
    foldM (fun sum b_ =>
             f <- prefactor p (ncols T_) W0 k b_ j;;
             Wk <- vget (Uk (cknots b)) k;;
             ok <- usub o k;;
             u <- vget W0 p;;
             bb <- basis Wk pk b_ 0 ok u;;
             Val (sum + f * bb)%num)
          (rangei 0 pk) n0.

  (** merge.rs:175-195 [calculateKV] *)
  Definition calculateKV (a : Curve) : M Mat :=
    let p := degree a in
    m <- segments a;;
    p1 <- usub p 1;;
    mp <- usub m p;;
    foldM (fun KV k =>
             foldM (fun KV i =>
                      s <- left_coefficient a p m k i;;
                      c <- usub i (m + 1 - p);;
                      mset KV k c s) (rangei (mp + 1) m) KV)
          (rangei 0 p1) (mzeros p p).

  (** merge.rs:197-218 [calculateKW] *)
  Definition calculateKW (b : Curve) : M Mat :=
    let p := degree b in
    o <- segments b;;
    p1 <- usub p 1;;
    KW <- foldM (fun KW k =>
             foldM (fun KW j =>
                      s <- right_coefficient b p o k j;;
                      mset KW k j s) (rangei 0 p1) KW)
          (rangei 0 p1) (mzeros p p);;
    Val (mscale (nofZ (-1)) KW).

  (** merge.rs:220-241 [calculateIV] *)
  Definition calculateIV (a : Curve) : M Mat :=
    let p := degree a in
    m <- segments a;;
    mp <- usub m p;;
    p1 <- usub p 1;;
    IV <- foldM (fun IV i =>
             foldM (fun IV k =>
                      s <- left_coefficient a p m k i;;
                      c <- usub i (m + 1 - p);;
                      mset IV c k s) (rangei 0 p1) IV)
          (rangei (mp + 1) m) (mzeros p p);;
    Val (mscale nhalf IV).

  (** merge.rs:243-264 [calculateJW] *)
  Definition calculateJW (b : Curve) : M Mat :=
    let p := degree b in
    o <- segments b;;
    p1 <- usub p 1;;
    JW <- foldM (fun JW j =>
             foldM (fun JW k =>
                      s <- right_coefficient b p o k j;;
                      mset JW j k s) (rangei 0 p1) JW)
          (rangei 0 p1) (mzeros p p);;
    Val (mscale nmhalf JW).

  (** merge.rs:45-47 [Constraints::segments] *)
  Definition constraint_segments (ps : list K) : M nat := usub (length ps) 1.

  (** merge.rs:266-281 [calculateGV] *)
  Definition calculateGV (a : ConstrainedCurve) : M Mat :=
    let p := degree (cc_curve a) in
    m <- segments (cc_curve a);;
    V0 <- vector (cknots (cc_curve a));;
    mg <- constraint_segments (cc_params a);;
    mp <- usub m p;;
    foldM (fun GV g =>
             foldM (fun GV i =>
                      c <- usub i (mp + 1);;
                      u <- vget (cc_params a) g;;
                      b <- basis V0 p i 0 m u;;
                      mset GV g c b) (rangei (mp + 1) m) GV)
          (rangei 0 mg) (mzeros (mg + 1) p).

  (** merge.rs:283-306 [calculateHW] *)
  Definition calculateHW (b : ConstrainedCurve) : M Mat :=
    let p := degree (cc_curve b) in
    o <- segments (cc_curve b);;
    W0 <- vector (cknots (cc_curve b));;
    oh <- constraint_segments (cc_params b);;
    p1 <- usub p 1;;
    foldM (fun HW h =>
             foldM (fun HW i =>
                      u <- vget (cc_params b) h;;
                      x <- basis W0 p i 0 o u;;
                      mset HW h i x) (rangei 0 p1) HW)
          (rangei 0 oh) (mzeros (oh + 1) p).

  (** merge.rs:308-324 [calculateIpV] *)
  Definition calculateIpV (a : ConstrainedCurve) : M Mat :=
    let p := degree (cc_curve a) in
    m <- segments (cc_curve a);;
    V0 <- vector (cknots (cc_curve a));;
    mg <- constraint_segments (cc_params a);;
    mp <- usub m p;;
    R <- foldM (fun IpV i =>
             foldM (fun IpV g =>
                      c <- usub i (m + 1 - p);;
                      u <- vget (cc_params a) g;;
                      b <- basis V0 p i 0 m u;;
                      mset IpV c g b) (rangei 0 mg) IpV)
          (rangei (mp + 1) m) (mzeros p (mg + 1));;
    Val (mscale nmhalf R).

  (** merge.rs:326-342 [calculateJppW] *)
  Definition calculateJppW (b : ConstrainedCurve) : M Mat :=
    let p := degree (cc_curve b) in
    o <- segments (cc_curve b);;
    W0 <- vector (cknots (cc_curve b));;
    oh <- constraint_segments (cc_params b);;
    p1 <- usub p 1;;
    R <- foldM (fun J j =>
             foldM (fun J h =>
                      u <- vget (cc_params b) h;;
                      x <- basis W0 p j 0 o u;;
                      mset J j h x) (rangei 0 oh) J)
          (rangei 0 p1) (mzeros p (oh + 1));;
    Val (mscale nmhalf R).

  (** merge.rs:145-173 [construct_Nmat] *)
  Definition construct_Nmat (a b : ConstrainedCurve) : M Mat :=
    let p := degree (cc_curve a) in
    let na := length (cc_params a) in
    let nb := length (cc_params b) in
    let dim := 3 * p + na + nb in
    let N := mzeros dim dim in
    N <- mset_view N 0 0 (2 * p) (2 * p) (midentity (2 * p));;
    KV <- calculateKV (cc_curve a);;
    N <- mset_view N (2 * p) 0 p p KV;;
    KW <- calculateKW (cc_curve b);;
    N <- mset_view N (2 * p) p p p KW;;
    IV <- calculateIV (cc_curve a);;
    N <- mset_view N 0 (2 * p) p p IV;;
    JW <- calculateJW (cc_curve b);;
    N <- mset_view N p (2 * p) p p JW;;
    N <- (if 0 <? na then
            GV <- calculateGV a;;
            N <- mset_view N (3 * p) 0 na p GV;;
            Ip <- calculateIpV a;;
            mset_view N 0 (3 * p) p na Ip
          else Val N);;
    (if 0 <? nb then
       HW <- calculateHW b;;
       N <- mset_view N (3 * p + na) p nb p HW;;
       J <- calculateJppW b;;
       mset_view N p (3 * p + na) p nb J
     else Val N).

  (** merge.rs:344-380 [calculateKconst] *)
  Definition calculateKconst (a b : Curve) : M Mat :=
    let p := degree a in
    dim <- dimension a;;
    m <- segments a;;
    o <- segments b;;
    S_ <- cp_matrix (cpoints a);;
    T_ <- cp_matrix (cpoints b);;
    V0 <- vget (Uk (cknots a)) 0;;
    W0 <- vget (Uk (cknots b)) 0;;
    p1 <- usub p 1;;
    foldM (fun Kc k =>
             mp <- usub m p;;
             mk <- usub m k;;
             pk <- usub p k;;
             sum <- foldM (fun sum i =>
                      foldM (fun sum a_ =>
                               f <- prefactor p (ncols S_) V0 k a_ i;;
                               Vk <- vget (Uk (cknots a)) k;;
                               u <- vget V0 (m + 1);;
                               x <- basis Vk pk a_ 0 mk u;;
                               c <- mcol S_ i;;
                               vadd sum (vscale (f * x)%num c))
                            (rangei mp mk) sum)
                    (rangei mp m) (vzeros dim);;
             sum <- foldM (fun sum j =>
                      foldM (fun sum b_ =>
                               f <- prefactor p (ncols T_) W0 k b_ j;;
                               Wk <- vget (Uk (cknots b)) k;;
                               ok <- usub o k;;
                               u <- vget W0 p;;
                               x <- basis Wk pk b_ 0 ok u;;
                               c <- mcol T_ j;;
                               vsub sum (vscale (f * x)%num c))
                            (rangei 0 pk) sum)
                    (rangei 0 p) sum;;
             old <- mcol Kc k;;
             new <- vsub old sum;;
             mset_col Kc k new)
          (rangei 0 p1) (mzeros dim p).

  (** merge.rs:382-392 [constructConstMat] *)
  Definition constructConstMat (a b : Curve) (total : nat) : M Mat :=
    let p := degree a in
    dim <- dimension a;;
    Kc <- calculateKconst a b;;
    mset_view (mzeros dim (3 * p + total)) 0 (2 * p) dim p Kc.

  (** merge.rs:394-401 [solve_linear_equation_system] *)
  Definition solve_linear_equation_system (a b : ConstrainedCurve) : M Mat :=
    let total := length (cc_params a) + length (cc_params b) in
    N <- construct_Nmat a b;;
    C <- constructConstMat (cc_curve a) (cc_curve b) total;;
    X <- svd_solve svd N (mtranspose C);;
    Val (mtranspose X).

  (** merge.rs:403-413 [generate_shifted_control_point_vectors_of_spline1and2] *)
  Definition shifted_points (a b : Curve) (shifts : Mat) : M (Mat * Mat) :=
    let p := degree a in
    S_ <- cp_matrix (cpoints a);;
    T_ <- cp_matrix (cpoints b);;
    s <- usub (ncols S_) p;;
    d1 <- mcolumns shifts 0 p;;
    S' <- madd_columns S_ s p d1;;
    d2 <- mcolumns shifts p p;;
    T' <- madd_columns T_ 0 p d2;;
    Val (S', T').

  (** merge.rs:436-444 [adjust_knots(p, Uleft, nLeft, Uright)] *)
  Definition adjust_knots (p : nat) (Uleft : Vec) (nLeft : nat) (Uright : Vec) : M Vec :=
    let R := vzeros (nLeft + p + 2) in
    h <- head Uleft (nLeft + 2);;
    R <- head_set R (nLeft + 2) h;;
    s <- segment Uright (p + 1) p;;
    tail_set R p (vadd_scalar s n1).

  (** merge.rs:415-434 [adjust_knots_of_both_splines]: [(Vadj, Wrev, Wadj)] *)
  Definition adjust_knots_of_both_splines (a b : Curve) : M (Vec * Vec * Vec) :=
    let p := degree a in
    m <- segments a;;
    o <- segments b;;
    V0 <- vector (cknots a);;
    W0 <- vector (cknots b);;
    Vadj <- adjust_knots p V0 m W0;;
    Vrev <- vec_reversed V0;;
    Wrev <- vec_reversed W0;;
    Wadjrev <- adjust_knots p Wrev o Vrev;;
    R <- vec_reversed Wadjrev;;
    Val (Vadj, Wrev, vadd_scalar R n1).

  (** merge.rs:446-460 [create_merged_knot_vector] *)
  Definition create_merged_knot_vector (a b : Curve) (Vadj Wadj : Vec) : M Vec :=
    m <- segments a;;
    o <- segments b;;
    let U := vzeros (m + 2 + o + 1) in
    h <- head Vadj (m + 2);;
    U <- head_set U (m + 2) h;;
    t <- tail Wadj (o + 1);;
    U <- tail_set U (o + 1) t;;
    x <- vget U (m + o + 2);;
    vdiv_scalar U x.

  (** merge.rs:462-478 [generateDerivativeControlPoint] *)
  Definition generateDerivativeControlPoint (idx k : nat) (P : Mat) (U0 : Vec) (p n dim : nat) : M Vec :=
    nk <- usub n k;;
    _ <- assert (idx <=? nk);;
    foldM (fun cp z =>
             f <- prefactor p (ncols P) U0 k idx z;;
             c <- mcol P z;;
             vadd cp (vscale f c))
          (rangei 0 n) (vzeros dim).

  (** [Vec::resize(n, x)] *)
  Definition resize {A} (v : list A) (n : nat) (x : A) : list A :=
    firstn n v ++ repeat x (n - length v).

  (** merge.rs:480-512 [adjust_shifted_control_points] *)
  Definition adjust_shifted_control_points (P : Mat) (U0 Uadj : Vec) (p n dim : nat) : M Mat :=
    (* qki[i] starts as [P.column(i)] *)
    qki <- mapM (fun i => c <- mcol P i;; Val [c]) (range 0 (n + 1));;
    p1 <- usub p 1;;
    np <- usub n p;;
    qki <- foldM (fun q k =>
                    v <- generateDerivativeControlPoint (np + 1) k P U0 p n dim;;
                    e <- vget q (np + 1);;
                    vset q (np + 1) (e ++ [v]))
                 (rangei 0 p1) qki;;
    qki <- foldM (fun q i =>
                    e <- vget q i;;
                    ni <- usub n i;;
                    q <- vset q i (resize e (ni + 1) (vzeros dim));;
                    foldM (fun q k =>
                             a <- vget Uadj (i + p);;
                             b <- vget Uadj (i + k);;
                             pk <- usub p k;;
                             s <- ndiv (a - b)%num (nofnat pk);;
                             i1 <- usub i 1;;
                             row <- vget q i1;;
                             x <- vget row (k + 1);;
                             y <- vget row k;;
                             r <- vadd (vscale s x) y;;
                             e <- vget q i;;
                             e <- vset e k r;;
                             vset q i e)
                          (rev (rangei 0 ni)) q)
                 (rangei (np + 2) n) qki;;
    foldM (fun padj i => e <- vget qki i;; c <- vget e 0;; mset_col padj i c)
          (range 0 (n + 1)) (mzeros dim (n + 1)).

  (** merge.rs:514-541 [adjust_shifted_control_points_of_both_splines]; as in
      the code, both halves use the segment count of the left curve, and the
      last argument is whatever the caller passes as [Wadjrev] *)
  Definition adjust_shifted_control_points_of_both_splines
    (a : Curve) (Sshifted Tshifted : Mat) (Vadj Wrev Wadjrev : Vec) : M (Mat * Mat) :=
    let p := degree a in
    n <- segments a;;
    dim <- dimension a;;
    V0 <- vector (cknots a);;
    Sadj <- adjust_shifted_control_points Sshifted V0 Vadj p n dim;;
    P2 <- mat_reversed Tshifted;;
    Tadjrev <- adjust_shifted_control_points P2 Wrev Wadjrev p n dim;;
    Tadj <- mat_reversed Tadjrev;;
    Val (Sadj, Tadj).

  (** merge.rs:543-559 [generate_control_point_vector_of_merged_spline] *)
  Definition merged_points (a b : Curve) (Sadj Tadj : Mat) : M Mat :=
    let p := degree a in
    dim <- dimension a;;
    n1 <- cp_count (cpoints a);;
    n2 <- cp_count (cpoints b);;
    c <- usub (n1 + n2) p;;
    let P := mzeros dim c in
    P <- mset_columns P 0 n1 Sadj;;
    r <- usub (n2 + 1) p;;
    s <- usub (ncols P) r;;
    s2 <- usub (ncols Tadj) r;;
    src <- mcolumns Tadj s2 r;;
    mset_columns P s r src.

  (** merge.rs:103-143 [merge_with_constraints(a, b)] *)
  Definition merge_with_constraints (a b : ConstrainedCurve) : M (result Curve MergeError) :=
    let ca := cc_curve a in
    let cb := cc_curve b in
    let p_a := degree ca in
    let p_b := degree cb in
    if negb (p_a =? p_b) then Val (Err (DegreeMismatch p_a p_b))
    else
      da <- dimension ca;;
      db <- dimension cb;;
      if negb (da =? db) then Val (Err (DimensionMismatch da db))
      else
        cl_a <- is_clamped (cknots ca);;
        unclamped <- (if (cl_a : bool) then x <- is_clamped (cknots cb);; Val (negb x) else Val true);;
        if (unclamped : bool) then Val (Err UnclampedCurve)
        else
          no_a <- is_normed (cknots ca);;
          unnormed <- (if (no_a : bool) then x <- is_normed (cknots cb);; Val (negb x) else Val true);;
          if (unnormed : bool) then Val (Err UnnormedCurve)
          else
            let total := length (cc_params a) + length (cc_params b) in
            if p_a <=? total then Val (Err (TooManyConstraints total p_a))
            else
              shifts <- solve_linear_equation_system a b;;
              let* (Sshifted, Tshifted) := shifted_points ca cb shifts in
              let* (Vadj, Wrev, Wadj) := adjust_knots_of_both_splines ca cb in
              U_merged <- create_merged_knot_vector ca cb Vadj Wadj;;
              let* (Sadj, Tadj) :=
                adjust_shifted_control_points_of_both_splines ca Sshifted Tshifted Vadj Wrev Wadj in
              P_merged <- merged_points ca cb Sadj Tadj;;
              kn <- knots_new p_a U_merged;;
              r <- curve_new kn (cp_new P_merged);;
              Val (match r with Ok c => Ok c | Err e => Err (CurveGenerationFailure e) end).

  (** merge.rs:96-101 [merge(a, b)] *)
  Definition merge (a b : Curve) : M (result Curve MergeError) :=
    merge_with_constraints (mkCC a []) (mkCC b []).
  (** merge.rs:81-86 [merge_from(a, b)] *)
  Definition merge_from (a b : Curve) : M (result Curve MergeError) :=
    merge_with_constraints (mkCC a [n1]) (mkCC b []).
  (** merge.rs:89-94 [merge_to(a, b)] *)
  Definition merge_to (a b : Curve) : M (result Curve MergeError) :=
    merge_with_constraints (mkCC a []) (mkCC b [n0]).

  (** curve/mod.rs:262-267 [append(&mut self, other)] *)
  Definition append (self other : Curve) : M Curve := r <- merge self other;; unwrap r.
  (** curve/mod.rs:205-210 [prepend(&mut self, other)] *)
  Definition prepend (self other : Curve) : M Curve := r <- merge other self;; unwrap r.
  (** curve/mod.rs:270-284 [append_constrained] *)
  Definition append_constrained (self : Curve) (constraints_self : list K)
             (other : Curve) (constraints_other : list K) : M Curve :=
    r <- merge_with_constraints (mkCC self constraints_self) (mkCC other constraints_other);; unwrap r.
  (** curve/mod.rs:213-227 [prepend_constrained]: as in the code, [other] gets
      the constraints of [self] and the other way round *)
  Definition prepend_constrained (self : Curve) (constraints_self : list K)
             (other : Curve) (constraints_other : list K) : M Curve :=
    r <- merge_with_constraints (mkCC other constraints_self) (mkCC self constraints_other);; unwrap r.
End Merge.
Arguments ConstrainedCurve : clear implicits.
Arguments MergeError : clear implicits.
