(** * IEEE-754 binary64 with round-to-nearest-even, Rust's [f64]

    The numbers are Flocq's [binary_float 53 1024] with a single NaN. *)

From Coq Require Import ZArith.
From Flocq Require Import Core.Core IEEE754.BinarySingleNaN.
From Verif Require Import Num.

Definition f64 : Type := binary_float 53 1024.

Lemma prec53 : FLX.Prec_gt_0 53. Proof. reflexivity. Qed.
Lemma emax1024 : Prec_lt_emax 53 1024. Proof. reflexivity. Qed.
#[global] Existing Instance prec53.
#[global] Existing Instance emax1024.

(** [mant * 2^exp], rounded to nearest even *)
Definition fmk (m e : Z) : f64 := binary_normalize 53 1024 prec53 emax1024 mode_NE m e false.

Definition F64 : Num :=
  mkNum f64 (fmk 0 0) (fmk 1 0) (fmk 1 (-1)) (fmk (-1) (-1))
        (Bplus mode_NE) (Bminus mode_NE) (Bmult mode_NE)
        (fun x y => Val (Bdiv mode_NE x y))
        Bleb Bltb Beqb (Bsqrt mode_NE) (fun z => fmk z 0) Btrunc.
Canonical F64.
