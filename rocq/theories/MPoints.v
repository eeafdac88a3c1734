(** * Model of src/curve/points/mod.rs and src/curve/parameters/{mod,methods}.rs *)

From Coq Require Import ZArith List Bool Arith.
From Verif Require Import Num Vec MKnots.
Import ListNotations.

Section Points.
  Context {K : Num}.
  Notation Vec := (list K).
  Notation Mat := (Mat K).

  (** points/mod.rs:23-27 [struct ControlPoints] *)
  Record ControlPoints : Type := mkCP { Pk : list Mat; pk_max : nat }.

  (** points/mod.rs:94-103 [ControlPoints::new], [new_with_capacity] *)
  Definition cp_new (points : Mat) : ControlPoints := mkCP [points] 0.

  (** points/mod.rs:84-86 [matrix()] *)
  Definition cp_matrix (cp : ControlPoints) : M Mat := vget (Pk cp) 0.
  (** points/mod.rs:109-112 [matrix_derivative(k)] *)
  Definition matrix_derivative (cp : ControlPoints) (k : nat) : M Mat :=
    _ <- assert (k <=? pk_max cp);; vget (Pk cp) k.
  (** points/mod.rs:122-124 [count_derivative(k)] *)
  Definition count_derivative (cp : ControlPoints) (k : nat) : M nat :=
    m <- vget (Pk cp) k;; Val (ncols m).
  (** points/mod.rs:119-121 [count()] *)
  Definition cp_count (cp : ControlPoints) : M nat := count_derivative cp 0.
  (** points/mod.rs:105-107 [segments()] *)
  Definition cp_segments (cp : ControlPoints) : M nat := c <- cp_count cp;; usub c 1.
  (** points/mod.rs:46-48 [dimension()] *)
  Definition cp_dimension (cp : ControlPoints) : M nat := m <- cp_matrix cp;; Val (nrows m).
  (** points/mod.rs:126-128 [max_derivative()] *)
  Definition pmax_derivative (cp : ControlPoints) : nat := pk_max cp.

  (** points/mod.rs:146-160 [derive_single_point(i, k_max, knots)] *)
  Fixpoint derive_single_point (cp : ControlPoints) (kn : Knots K) (k_max i : nat) {struct k_max} : M Vec :=
    let p := kdegree kn in
    match k_max with
    | O => m <- vget (Pk cp) 0;; mcol m i
    | S k' =>
        U0 <- vector kn;;
        a <- vget U0 (i + p + 1);;
        b <- vget U0 (i + S k');;
        if (a ==? b)%num then d <- cp_dimension cp;; Val (vzeros d)
        else
          pk <- usub p (S k');;
          s <- ndiv (nofnat (pk + 1)) (a - b)%num;;
          hi <- derive_single_point cp kn k' (i + 1);;
          lo <- derive_single_point cp kn k' i;;
          d <- vsub hi lo;;
          Val (vscale s d)
    end.

  (** points/mod.rs:130-144 [derive(&mut self, knots)] *)
  Definition points_derive (cp : ControlPoints) (kn : Knots K) : M ControlPoints :=
    let p := kdegree kn in
    n <- cp_segments cp;;
    let cp0 := mkCP (firstn 1 (Pk cp)) (pk_max cp) in
    cp1 <- foldM (fun cp k =>
                    nk <- usub n k;;
                    d <- cp_dimension cp;;
                    Pnew <- foldM (fun P i => v <- derive_single_point cp kn k i;; mset_col P i v)
                              (range 0 (nk + 1)) (mzeros d (nk + 1));;
                    Val (mkCP (Pk cp ++ [Pnew]) (pk_max cp)))
                 (rangei 1 p) cp0;;
    Val (mkCP (Pk cp1) p).

  (** points/mod.rs:176-183 [reverse(points: &mut MatD)] *)
  Definition mat_reverse (m : Mat) : M Mat :=
    let nc := ncols m in
    c <- foldM (fun c i => a <- usub nc 1;; j <- usub a i;; swap c i j) (range 0 (nc / 2)) (mcols m);;
    Val (mkMat (nrows m) c).
  (** points/mod.rs:185-189 [reversed] *)
  Definition mat_reversed (m : Mat) : M Mat := mat_reverse m.

  (** points/mod.rs:162-173 [ControlPoints::reverse] *)
  Definition points_reverse (cp : ControlPoints) : M ControlPoints :=
    pk <- foldM (fun pk k =>
                   _ <- assert (k <=? pk_max cp);;
                   m <- vget pk k;;
                   m <- mat_reverse m;;
                   let m := if k mod 2 =? 1 then mscale (nofZ (-1)) m else m in
                   vset pk k m)
                (rangei 0 (pk_max cp)) (Pk cp);;
    Val (mkCP pk (pk_max cp)).

  (** points/mod.rs:29-32, 69-81 [struct DataPoints] is its matrix;
      [segments()] is [count() - 1] *)
  Definition dp_segments (points : Mat) : M nat := usub (ncols points) 1.

  (** points/mod.rs:74-77 [DataPoints::reverse] *)
  Definition dp_reverse (points : Mat) : M Mat := mat_reverse points.

  (** ** Parameters computed from data points *)

  (** the length of the [g]-th chord, [(points.get(g) - points.get(g - 1)).norm()] *)
  Definition chord (points : Mat) (g : nat) : M K :=
    a <- mcol points g;;
    g1 <- usub g 1;;
    b <- mcol points g1;;
    d <- vsub a b;;
    Val (vnorm d).

  (** parameters/methods.rs:49-68 [chord_length(points)] *)
  Definition chord_length (points : Mat) : M (Parameters K) :=
    m <- dp_segments points;;
    sum <- foldM (fun s g => c <- chord points g;; Val (s + c)%num) (rangei 1 m) n0;;
    u_bar <- foldM (fun w g =>
                      c <- chord points g;;
                      g1 <- usub g 1;;
                      prev <- vget w g1;;
                      x <- ndiv c sum;;
                      vset w g (prev + x)%num)
               (range 1 m) (vzeros (m + 1));;
    u_bar <- vset u_bar m n1;;
    Val (mkParams u_bar m).

  (** parameters/methods.rs:25-47 [centripetal(points)].  In a release build: the
      [debug_assert!] on line 35 (absent from release builds) is in [centripetal_debug] (MDebug.v). *)
  Definition centripetal (points : Mat) : M (Parameters K) :=
    m <- dp_segments points;;
    sum <- foldM (fun s g => c <- chord points g;; Val (s + nsqrt c)%num) (rangei 1 m) n0;;
    u_bar <- foldM (fun w g =>
                      c <- chord points g;;
                      g1 <- usub g 1;;
                      prev <- vget w g1;;
                      x <- ndiv (nsqrt c) sum;;
                      vset w g (prev + x)%num)
               (range 1 m) (vzeros (m + 1));;
    u_bar <- vset u_bar m n1;;
    Val (mkParams u_bar m).

  (** parameters/mod.rs:31-35 [enum Method] *)
  Inductive ParamMethod := EquallySpaced | Centripetal | ChordLength.

  (** parameters/mod.rs:37-43 [generate(points, method)] *)
  Definition params_generate (points : Mat) (m : ParamMethod) : M (Parameters K) :=
    match m with
    | EquallySpaced => s <- dp_segments points;; equally_spaced s
    | ChordLength => chord_length points
    | Centripetal => centripetal points
    end.
End Points.
Arguments ControlPoints : clear implicits.
