(** * The fragment of nalgebra used by the crate

    [VecD] (a dynamically sized column vector) is a [list]; [MatD] (a dynamic,
    column-major matrix) is its row count and the list of its columns.  Every
    bounds or dimension check that nalgebra performs is a [Panic] here. *)

From Coq Require Import ZArith List Bool Arith.
From Verif Require Import Num.
Import ListNotations.

Section Lists.
  Context {A : Type}.

  (** [v[i]] *)
  Definition vget (v : list A) (i : nat) : M A :=
    match nth_error v i with Some x => Val x | None => Panic end.

  (** replace element [i] (identity when out of range; guarded by callers) *)
  Fixpoint upd (v : list A) (i : nat) (x : A) : list A :=
    match v, i with
    | [], _ => []
    | _ :: v', O => x :: v'
    | y :: v', S i' => y :: upd v' i' x
    end.

  (** [v[i] = x] *)
  Definition vset (v : list A) (i : nat) (x : A) : M (list A) :=
    if i <? length v then Val (upd v i x) else Panic.

  (** types.rs:36-38 [segment(start, n)]: a bounds-checked view *)
  Definition segment (v : list A) (start n : nat) : M (list A) :=
    if start + n <=? length v then Val (firstn n (skipn start v)) else Panic.

  (** types.rs:28-30 [head(n)] *)
  Definition head (v : list A) (n : nat) : M (list A) := segment v 0 n.

  (** types.rs:44-46 [tail(n)] *)
  Definition tail (v : list A) (n : nat) : M (list A) :=
    start <- usub (length v) n;; segment v start n.

  (** types.rs:40-42 [segment_mut(start, n).copy_from(src)] *)
  Definition segment_set (v : list A) (start n : nat) (src : list A) : M (list A) :=
    if start + n <=? length v then
      if length src =? n then Val (firstn start v ++ src ++ skipn (start + n) v) else Panic
    else Panic.

  (** types.rs:32-34 [head_mut(n).copy_from(src)] *)
  Definition head_set (v : list A) (n : nat) (src : list A) : M (list A) := segment_set v 0 n src.

  (** types.rs:48-50 [tail_mut(n).copy_from(src)] *)
  Definition tail_set (v : list A) (n : nat) (src : list A) : M (list A) :=
    start <- usub (length v) n;; segment_set v start n src.

  (** nalgebra [insert_row(i, x)] on a column vector *)
  Definition insert_row (v : list A) (i : nat) (x : A) : M (list A) :=
    if i <=? length v then Val (firstn i v ++ x :: skipn i v) else Panic.

  (** nalgebra [swap_rows(i, j)] on a column vector, [swap_columns(i, j)] on a
      matrix (the list of its columns) *)
  Definition swap (v : list A) (i j : nat) : M (list A) :=
    a <- vget v i;; b <- vget v j;; v' <- vset v i b;; vset v' j a.
End Lists.

Section Vectors.
  Context {K : Num}.
  Notation Vec := (list K).

  Local Open Scope num_scope.

  (** [VecD::zeros(n)] *)
  Definition vzeros (n : nat) : Vec := repeat n0 n.

  (** componentwise binary operation; nalgebra panics on a length mismatch *)
  Fixpoint zipM (f : K -> K -> K) (a b : Vec) : M Vec :=
    match a, b with
    | [], [] => Val []
    | x :: a', y :: b' => r <- zipM f a' b';; Val (f x y :: r)
    | _, _ => Panic
    end.
  Definition vadd (a b : Vec) : M Vec := zipM nadd a b.
  Definition vsub (a b : Vec) : M Vec := zipM nsub a b.
  (** scalar times vector *)
  Definition vscale (s : K) (a : Vec) : Vec := map (fun x => s * x) a.
  (** [add_scalar] *)
  Definition vadd_scalar (a : Vec) (s : K) : Vec := map (fun x => x + s) a.
  (** [mul_assign(scalar)] *)
  Definition vmul_scalar (a : Vec) (s : K) : Vec := map (fun x => x * s) a.
  (** [div_assign(scalar)] *)
  Definition vdiv_scalar (a : Vec) (s : K) : M Vec := mapM (fun x => ndiv x s) a.

  (** [norm()]: square root of the sum of squares *)
  Definition vnorm (a : Vec) : K := nsqrt (fold_left (fun s x => s + x * x) a n0).

  (** f64::min / f64::max: a NaN operand is ignored *)
  Definition nmin (a b : K) : K := if a ==? a then (if b <? a then b else a) else b.
  Definition nmax (a b : K) : K := if a ==? a then (if a <? b then b else a) else b.
  (** nalgebra [min()]/[max()] over all components; zero for an empty vector *)
  Definition vmin (a : Vec) : K := match a with [] => n0 | x :: r => fold_left nmin r x end.
  Definition vmax (a : Vec) : K := match a with [] => n0 | x :: r => fold_left nmax r x end.

  (** ** Matrices *)
  Record Mat : Type := mkMat { nrows : nat; mcols : list Vec }.

  Definition ncols (m : Mat) : nat := length (mcols m).
  (** [MatD::zeros(r, c)] *)
  Definition mzeros (r c : nat) : Mat := mkMat r (repeat (vzeros r) c).
  (** [is_empty()] *)
  Definition mis_empty (m : Mat) : bool := (nrows m =? 0)%nat || (ncols m =? 0)%nat.
  (** [m.column(i)] *)
  Definition mcol (m : Mat) (i : nat) : M Vec := vget (mcols m) i.
  (** [m.column_mut(i).copy_from(v)] / [m.set_column(i, v)] *)
  Definition mset_col (m : Mat) (i : nat) (v : Vec) : M Mat :=
    if (length v =? nrows m)%nat then c <- vset (mcols m) i v;; Val (mkMat (nrows m) c) else Panic.
  (** [m[(r, c)]] *)
  Definition mget (m : Mat) (r c : nat) : M K := v <- mcol m c;; vget v r.
  (** [m[(r, c)] = x] *)
  Definition mset (m : Mat) (r c : nat) (x : K) : M Mat :=
    v <- mcol m c;; v' <- vset v r x;; mset_col m c v'.
  (** [m.columns(start, n)] *)
  Definition mcolumns (m : Mat) (start n : nat) : M Mat :=
    c <- segment (mcols m) start n;; Val (mkMat (nrows m) c).
  (** [m.columns_mut(start, n).copy_from(src)] *)
  Definition mset_columns (m : Mat) (start n : nat) (src : Mat) : M Mat :=
    if (nrows src =? nrows m)%nat then
      c <- segment_set (mcols m) start n (mcols src);; Val (mkMat (nrows m) c)
    else Panic.
  (** [m.columns_mut(start, n).add_assign(src)] *)
  Definition madd_columns (m : Mat) (start n : nat) (src : Mat) : M Mat :=
    old <- mcolumns m start n;;
    if (ncols src =? n)%nat then
      new <- mapM (fun i => a <- mcol old i;; b <- mcol src i;; vadd a b) (seq 0 n);;
      mset_columns m start n (mkMat (nrows m) new)
    else Panic.
  (** [m.view_mut((r0, c0), (h, w)).copy_from(src)] *)
  Definition mset_view (m : Mat) (r0 c0 h w : nat) (src : Mat) : M Mat :=
    if ((r0 + h <=? nrows m) && (c0 + w <=? ncols m) && (nrows src =? h) && (ncols src =? w))%nat%bool then
      foldM (fun m c =>
               s <- mcol src c;; old <- mcol m (c0 + c);;
               new <- segment_set old r0 h s;;
               mset_col m (c0 + c) new) (seq 0 w) m
    else Panic.
  (** [m.transpose()] *)
  Definition mtranspose (m : Mat) : Mat :=
    mkMat (ncols m) (map (fun r => map (fun c => nth r c n0) (mcols m)) (seq 0 (nrows m))).
  (** inner product, accumulated left to right; simplification: nalgebra's
      matrix product may associate the sum differently (irrelevant for exact
      arithmetic, never used in a binary64 theorem) *)
  Definition dot (a b : Vec) : K :=
    fold_left (fun s xy => s + fst xy * snd xy) (combine a b) n0.
  (** [a * b] *)
  Definition mmul (a b : Mat) : M Mat :=
    if (ncols a =? nrows b)%nat then
      let at_ := mtranspose a in
      Val (mkMat (nrows a) (map (fun c => map (fun r => dot r c) (mcols at_)) (mcols b)))
    else Panic.
  (** [a + b] *)
  Definition madd (a b : Mat) : M Mat :=
    if ((nrows a =? nrows b) && (ncols a =? ncols b))%nat%bool then
      c <- mapM (fun i => x <- mcol a i;; y <- mcol b i;; vadd x y) (seq 0 (ncols a));;
      Val (mkMat (nrows a) c)
    else Panic.
  (** [m *= s] / [s * m] *)
  Definition mscale (s : K) (m : Mat) : Mat := mkMat (nrows m) (map (fun c => vmul_scalar c s) (mcols m)).
  (** [MatD::identity(r, r)] *)
  Definition midentity (r : nat) : Mat :=
    mkMat r (map (fun c => map (fun i => if (i =? c)%nat then n1 else n0) (seq 0 r)) (seq 0 r)).
End Vectors.
Arguments Mat : clear implicits.
