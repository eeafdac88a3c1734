(** * Model of src/curve/mod.rs (construction, evaluation, derivative curve),
      src/manipulation/{insert,split,reverse}.rs *)

From Coq Require Import ZArith List Bool Arith.
From Verif Require Import Num Vec MKnots MPoints.
Import ListNotations.

Section Curve.
  Context {K : Num}.
  Notation Vec := (list K).
  Notation Mat := (Mat K).
  Notation Knots := (Knots K).
  Notation ControlPoints := (ControlPoints K).

  (** curve/mod.rs:43-48 [struct Curve] *)
  Record Curve : Type := mkCurve { cknots : Knots; cpoints : ControlPoints }.

  (** curve/mod.rs:116-126 [degree()], [segments()], [dimension()] *)
  Definition degree (c : Curve) : nat := kdegree (cknots c).
  Definition segments (c : Curve) : M nat := cp_segments (cpoints c).
  Definition dimension (c : Curve) : M nat := cp_dimension (cpoints c).

  (** curve/mod.rs:315-318 [calculate_derivatives(&mut self)] *)
  Definition calculate_derivatives (c : Curve) : M Curve :=
    kn <- knots_derive (cknots c);;
    cp <- points_derive (cpoints c) kn;;
    Val (mkCurve kn cp).

  (** curve/mod.rs:103-114 [Curve::new(knots, points)] *)
  Definition curve_new (kn : Knots) (cp : ControlPoints) : M (result Curve (CurveError K)) :=
    n <- cp_segments cp;;
    let p := kdegree kn in
    if n <? p then Val (Err (DegreeAndSegmentsMismatch p n))
    else c <- calculate_derivatives (mkCurve kn cp);; Val (Ok c).

  (** curve/mod.rs:133-151 [evaluate_derivative(u, k)] *)
  Definition evaluate_derivative (c : Curve) (u : K) (k : nat) : M (result Vec (CurveError K)) :=
    if negb ((n0 <=? u)%num && (u <=? n1)%num) then Val (Err (ParameterOutOfBounds u n0 n1))
    else
      let p := degree c in
      d <- dimension c;;
      let value := vzeros d in
      if k <=? p then
        n <- segments c;;
        l <- find_idx (cknots c) u k CLeftOrEqual;;
        pk <- usub p k;;
        lo <- usub l pk;;
        hi <- usub n k;;
        value <- foldM (fun value i =>
                          b <- kevaluate (cknots c) k i p u;;
                          P <- matrix_derivative (cpoints c) k;;
                          v <- mcol P i;;
                          vadd value (vscale b v))
                   (rangei lo hi) value;;
        Val (Ok value)
      else Val (Ok value).

  (** curve/mod.rs:129-131 [evaluate(u)] *)
  Definition evaluate (c : Curve) (u : K) : M (result Vec (CurveError K)) := evaluate_derivative c u 0.

  (** curve/mod.rs:153-164 [max_derivative()] *)
  Definition max_derivative (c : Curve) : M nat :=
    let a := kmax_derivative (cknots c) in
    let b := pmax_derivative (cpoints c) in
    _ <- assert (a =? b);; Val a.

  (** curve/mod.rs:324-328 [get_derivative_curve(k)] *)
  Definition get_derivative_curve (c : Curve) (k : nat) : M Curve :=
    d <- usub (degree c) k;;
    v <- vector_derivative (cknots c) k;;
    kn <- knots_new d v;;
    P <- matrix_derivative (cpoints c) k;;
    Val (mkCurve kn (cp_new P)).

  (** curve/mod.rs:167-171 [reverse(&mut self)]; manipulation/reverse.rs:13-24
      [reverse], [reversed] do the same *)
  Definition reverse (c : Curve) : M Curve :=
    kn <- knots_reverse (cknots c);;
    cp <- points_reverse (cpoints c);;
    Val (mkCurve kn cp).

  (** ** manipulation/insert.rs *)

  (** insert.rs:20-31 [enum InsertError] *)
  Inductive InsertError : Type :=
  | IOutOfBounds (u lower_bound upper_bound : K)
  | IMultiplicityError (u : K) (m p : nat).

  (** insert.rs:59-74: the control points after inserting [u] in span [l] *)
  Definition insert_points (U_old : Vec) (P_old : Mat) (dim p l : nat) (u : K) : M Mat :=
    let control_point_count := ncols P_old in
    let P_new := mzeros dim (control_point_count + 1) in
    lp <- usub l p;;
    let top_cols := lp + 1 in
    src <- mcolumns P_old 0 top_cols;;
    P_new <- mset_columns P_new 0 top_cols src;;
    bot_cols <- usub control_point_count l;;
    s1 <- usub (ncols P_new) bot_cols;;
    s2 <- usub (ncols P_old) bot_cols;;
    src <- mcolumns P_old s2 bot_cols;;
    P_new <- mset_columns P_new s1 bot_cols src;;
    foldM (fun P i =>
             x <- vget U_old i;;
             y <- vget U_old (i + p);;
             alpha <- ndiv (u - x)%num (y - x)%num;;
             i1 <- usub i 1;;
             a <- mcol P_old i1;;
             b <- mcol P_old i;;
             r <- vadd (vscale (n1 - alpha)%num a) (vscale alpha b);;
             old <- mcol P i;;
             new <- vadd old r;;
             mset_col P i new)
          (rangei (lp + 1) l) P_new.

  (** insert.rs:35-80 [insert(&mut c, u)]: the curve afterwards and the result *)
  Definition insert (c : Curve) (u : K) : M (Curve * result unit InsertError) :=
    if (u <=? n0)%num || (n1 <=? u)%num then Val (c, Err (IOutOfBounds u n0 n1))
    else
      let p := degree c in
      m <- multiplicity (cknots c) u;;
      if p <? m then Val (c, Err (IMultiplicityError u m p))
      else
        dim <- cp_dimension (cpoints c);;
        U_old <- vector (cknots c);;
        P_old <- cp_matrix (cpoints c);;
        l <- find_idx (cknots c) u 0 CLeftOrEqual;;
        U_new <- insert_row U_old (l + 1) u;;
        P_new <- insert_points U_old P_old dim p l u;;
        uk <- vset (Uk (cknots c)) 0 U_new;;
        pk <- vset (Pk (cpoints c)) 0 P_new;;
        c' <- calculate_derivatives
                (mkCurve (mkKnots uk (kp (cknots c)) (kk_max (cknots c)))
                         (mkCP pk (pk_max (cpoints c))));;
        Val (c', Ok tt).

  (** curve/mod.rs:308-313 [insert_times(&mut self, u, x)]: stops at the first
      error, keeping the insertions made so far *)
  Fixpoint insert_times (c : Curve) (u : K) (x : nat) : M (Curve * result unit InsertError) :=
    match x with
    | O => Val (c, Ok tt)
    | S x' =>
        let* (c', r) := insert c u in
        match r with
        | Err e => Val (c', Err e)
        | Ok _ => insert_times c' u x'
        end
    end.

  (** curve/mod.rs:298-301 [Curve::insert] *)
  Definition curve_insert (c : Curve) (u : K) : M (Curve * result unit InsertError) := insert_times c u 1.

  (** ** manipulation/split.rs *)

  (** split.rs:26-35 [enum SplitError] *)
  Inductive SplitError : Type :=
  | MultiplicityTooHigh (u : K) (p multiplicity : nat)
  | SOutOfBounds (u lower_bound upper_bound : K)
  | SCurveError (e : CurveError K).

  (** [iter().take_while(|x| x == u).count()] *)
  Fixpoint take_while_count (u : K) (v : Vec) : nat :=
    match v with
    | [] => 0
    | x :: r => if (x ==? u)%num then S (take_while_count u r) else 0
    end.

  (** [Curve::new(Knots::new(p, U), ControlPoints::new(P))?] *)
  Definition make_part (p : nat) (U : Vec) (P : Mat) : M (result Curve SplitError) :=
    kn <- knots_new p U;;
    r <- curve_new kn (cp_new P);;
    Val (match r with Ok c => Ok c | Err e => Err (SCurveError e) end).

  (** split.rs:78, 92: [len - (p + 2) + 1] when [at_knot], split.rs:108, 122:
      [len + 1 - (p + 2)] otherwise *)
  Definition part_cols (len p : nat) (at_knot : bool) : M nat :=
    if at_knot then a <- usub len (p + 2);; Val (a + 1) else usub (len + 1) (p + 2).

  (** split.rs:69-82 (at_knot) / 99-112, the left part; [h] is [l + p] resp. [l + p + 1] *)
  Definition split_left (U : Vec) (P : Mat) (p h : nat) (u : K) (at_knot norm : bool) : M (result Curve SplitError) :=
    let U_left := vzeros (h + 1) in
    src <- head U h;;
    U_left <- head_set U_left h src;;
    U_left <- vset U_left h u;;
    U_left <- (if norm then vec_normalize U_left else Val U_left);;
    cols <- part_cols (length U_left) p at_knot;;
    P_left <- mcolumns P 0 cols;;
    make_part p U_left P_left.

  (** split.rs:84-96 (at_knot) / 114-126, the right part; [h] is [l] resp. [l + 1] *)
  Definition split_right (U : Vec) (P : Mat) (p h : nat) (u : K) (at_knot norm : bool) : M (result Curve SplitError) :=
    t <- usub (length U) h;;
    let U_right := vzeros (t + 1) in
    U_right <- vset U_right 0 u;;
    src <- tail U t;;
    U_right <- tail_set U_right t src;;
    U_right <- (if norm then vec_normalize U_right else Val U_right);;
    cols <- part_cols (length U_right) p at_knot;;
    s <- usub (ncols P) cols;;
    P_right <- mcolumns P s cols;;
    make_part p U_right P_right.

  (** split.rs:41-129 [split_and_normalize(c, u, flags)] *)
  Definition split_and_normalize (c : Curve) (u : K) (flags : bool * bool)
    : M (result (Curve * Curve) SplitError) :=
    if (u <=? n0)%num || (n1 <=? u)%num then Val (Err (SOutOfBounds u n0 n1))
    else
      let p := degree c in
      l <- find_idx (cknots c) u 0 CLeftOrEqual;;
      U0 <- vector (cknots c);;
      let mult := take_while_count u (skipn l U0) in
      if p <? mult then Val (Err (MultiplicityTooHigh u p mult))
      else
        reps <- usub p mult;;
        ins <- foldM (fun b _ => let* (b', r) := insert b u in _ <- unwrap r;; Val b') (seq 0 reps) c;;
        U <- vector (cknots ins);;
        P <- cp_matrix (cpoints ins);;
        let at_knot := 0 <? mult in
        let h := if at_knot then l else l + 1 in
        lp <- split_left U P p (h + p) u at_knot (fst flags);;
        match lp with
        | Err e => Val (Err e)
        | Ok lp =>
            rp <- split_right U P p h u at_knot (snd flags);;
            match rp with
            | Err e => Val (Err e)
            | Ok rp => Val (Ok (lp, rp))
            end
        end.

  (** split.rs:37-39, curve/mod.rs:290-292 [split(c, u)] *)
  Definition split (c : Curve) (u : K) : M (result (Curve * Curve) SplitError) :=
    split_and_normalize c u (true, true).
End Curve.
Arguments Curve : clear implicits.
Arguments InsertError : clear implicits.
Arguments SplitError : clear implicits.
