(** * The exact real numbers as a number system

    Division by zero is [Undef], so a theorem concluding [.. = Val v] says in
    particular that no division by zero was executed. *)

From Coq Require Import ZArith Reals.
From Verif Require Import Num.
Local Open Scope R_scope.

Definition Rleb (x y : R) : bool := if Rle_dec x y then true else false.
Definition Rltb (x y : R) : bool := if Rlt_dec x y then true else false.
Definition Reqb (x y : R) : bool := if Req_EM_T x y then true else false.
Definition Rdivm (x y : R) : M R := if Req_EM_T y 0 then Undef else Val (x / y).

(** [ntrunc] is the integer part; [Z.to_nat] of it is Rust's saturating
    [as usize] on every real. *)
Definition RNum : Num :=
  mkNum R 0 1 (/ 2) (- / 2) Rplus Rminus Rmult Rdivm Rleb Rltb Reqb sqrt IZR Int_part.
Canonical RNum.
