(** Model of the conversion of quadratic numbers to floating point,
    /repo/src/quadratic_numbers.rs:454-462.  f64 is Flocq's binary64 with a single
    NaN; the machine rounds to nearest, ties to even. *)
From Coq Require Import ZArith.
From Flocq Require Import Core BinarySingleNaN.
From Verif Require Import M_Base M_Quad.

Definition f64 := binary_float 53 1024.
Definition prec_pos : Prec_gt_0 53 := eq_refl.
Definition prec_emax : Prec_lt_emax 53 1024 := eq_refl.

(** num_bigint 0.4.3 BigInt::to_f64, always Some: rounded to nearest (an infinity for
    integers of more than 1024 bits).  The library keeps the top 64 bits, with the
    lowest set if any dropped bit is, and rounds those; that is the same as rounding
    once.  The theorems about coefficients below 2^53 use exact integers only. *)
Definition bigint_to_f64 (n : Z) : f64 := binary_normalize 53 1024 prec_pos prec_emax mode_NE n 0 false.

Definition fadd : f64 -> f64 -> f64 := @Bplus 53 1024 prec_pos prec_emax mode_NE.
Definition fmul : f64 -> f64 -> f64 := @Bmult 53 1024 prec_pos prec_emax mode_NE.
Definition fdiv : f64 -> f64 -> f64 := @Bdiv 53 1024 prec_pos prec_emax mode_NE.
Definition fsqrt : f64 -> f64 := @Bsqrt 53 1024 prec_pos prec_emax mode_NE.
Definition fneg : f64 -> f64 := @Bopp 53 1024.

(** 454-462 to_f64 *)
Definition quad_to_f64 (x : quad) : f64 :=
  if is_ratio x then fdiv (fneg (bigint_to_f64 (qc x))) (bigint_to_f64 (qb x))
  else
    let sqrt_discriminant := fsqrt (bigint_to_f64 (discriminant x)) in
    fdiv (fadd (fneg (bigint_to_f64 (qb x))) sqrt_discriminant)
         (fmul (bigint_to_f64 2) (bigint_to_f64 (qa x))).
