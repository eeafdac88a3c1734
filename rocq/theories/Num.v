(** * Outcomes and number systems

    The model of the crate is written once, over an abstract record of number
    operations [Num] that carries NO laws, and is then run on three number
    systems: the exact reals ([RNum.v]), canonical rationals ([QNum.v], for
    computing) and IEEE-754 binary64 ([F64.v]). *)

From Coq Require Import ZArith List Bool Arith.
Import ListNotations.

(** ** Outcomes of running a piece of the Rust code.
    - [Val a]   the call returned [a];
    - [Panic]   the call panicked: slice/matrix index out of bounds, [usize]
                subtraction underflow (as with overflow checks on), failed
                [assert!], [unwrap] of an error, nalgebra dimension mismatch;
    - [Undef]   exact arithmetic only: a division by zero was executed, so the
                f64 program would go on with an infinity or a NaN;
    - [Diverge] a loop ran out of the fuel the model gave it. *)
Inductive M (A : Type) : Type :=
| Val (a : A)
| Panic
| Undef
| Diverge.
Arguments Val {A} a.
Arguments Panic {A}.
Arguments Undef {A}.
Arguments Diverge {A}.

Definition bind {A B} (x : M A) (f : A -> M B) : M B :=
  match x with
  | Val a => f a
  | Panic => Panic
  | Undef => Undef
  | Diverge => Diverge
  end.

Declare Scope rs_scope.
Delimit Scope rs_scope with rs.
Notation "x <- e ;; f" := (bind e (fun x => f))
  (at level 100, e at next level, right associativity) : rs_scope.
Notation "'let*' p := e 'in' f" := (bind e (fun p => f))
  (at level 200, p pattern, e at level 200, f at level 200, right associativity) : rs_scope.
Open Scope rs_scope.

(** Rust's [Result<A, E>] stays data. *)
Inductive result (A E : Type) : Type :=
| Ok (a : A)
| Err (e : E).
Arguments Ok {A E} a.
Arguments Err {A E} e.

(** [r.unwrap()] *)
Definition unwrap {A E} (r : result A E) : M A :=
  match r with Ok a => Val a | Err _ => Panic end.

(** [usize] subtraction; simplification: underflow panics, as in builds with
    overflow checks.  [usize] addition/multiplication is unbounded. *)
Definition usub (a b : nat) : M nat := if b <=? a then Val (a - b) else Panic.

(** [assert!(b)] *)
Definition assert (b : bool) : M unit := if b then Val tt else Panic.

(** A Rust [for] loop over a list of indices, with loop state [s]. *)
Fixpoint foldM {S X} (f : S -> X -> M S) (l : list X) (s : S) : M S :=
  match l with
  | [] => Val s
  | x :: l' => bind (f s x) (fun s' => foldM f l' s')
  end.

(** Collecting a list of computed values ([iter().map(..).collect()]). *)
Fixpoint mapM {X A} (f : X -> M A) (l : list X) : M (list A) :=
  match l with
  | [] => Val []
  | x :: l' => bind (f x) (fun a => bind (mapM f l') (fun r => Val (a :: r)))
  end.

(** Index ranges [a..b] and [a..=b]. *)
Definition range (a b : nat) : list nat := seq a (b - a).
Definition rangei (a b : nat) : list nat := seq a (b + 1 - a).

(** A Rust [while] loop: [cond] is the loop condition, [body] returns the new
    state and whether the loop was left by [break]. *)
Fixpoint while_ {S} (fuel : nat) (cond : S -> M bool) (body : S -> M (S * bool)) (s : S) : M S :=
  match fuel with
  | O => Diverge
  | S fuel' =>
      b <- cond s;;
      if (b : bool) then
        let* (s', brk) := body s in
        if (brk : bool) then Val s' else while_ fuel' cond body s'
      else Val s
  end.

(** ** Number systems: operations only, no laws.
    [ndiv] may be [Undef] (exact reals, zero divisor) and is always [Val] for
    binary64.  [nofZ] is Rust's [usize as f64]/[isize as f64]; [ntrunc] is
    [f64 as usize] (before saturation to 64 bits). *)
Record Num : Type := mkNum {
  T :> Type;
  n0 : T;
  n1 : T;
  nhalf : T;                     (* 0.5 *)
  nmhalf : T;                    (* -0.5 *)
  nadd : T -> T -> T;
  nsub : T -> T -> T;
  nmul : T -> T -> T;
  ndiv : T -> T -> M T;
  nleb : T -> T -> bool;         (* <= ; false on NaN *)
  nltb : T -> T -> bool;         (* <  ; false on NaN *)
  neqb : T -> T -> bool;         (* == ; false on NaN *)
  nsqrt : T -> T;
  nofZ : Z -> T;
  ntrunc : T -> Z
}.
Arguments n0 {_}.
Arguments n1 {_}.
Arguments nhalf {_}.
Arguments nmhalf {_}.
Arguments nadd {_}.
Arguments nsub {_}.
Arguments nmul {_}.
Arguments ndiv {_}.
Arguments nleb {_}.
Arguments nltb {_}.
Arguments neqb {_}.
Arguments nsqrt {_}.
Arguments nofZ {_}.
Arguments ntrunc {_}.

Declare Scope num_scope.
Delimit Scope num_scope with num.
Infix "+" := nadd : num_scope.
Infix "-" := nsub : num_scope.
Infix "*" := nmul : num_scope.
Infix "<=?" := nleb : num_scope.
Infix "<?" := nltb : num_scope.
Infix "==?" := neqb (at level 70) : num_scope.

(** [n as f64] for a [usize]. *)
Definition nofnat {K : Num} (n : nat) : K := nofZ (Z.of_nat n).
