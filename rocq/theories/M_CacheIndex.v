(** Model of the index into the cache of constants, interval_arithmetic.rs:52-56.
    f64 is Flocq's binary64 (M_QuadF64.v).  The mathematical library's [log2] on f64 is
    a parameter: its results are not specified to the last bit.  usize has 64 bits. *)
From Coq Require Import ZArith NArith.
From Flocq Require Import Core BinarySingleNaN.
From Verif Require Import M_QuadF64.

(** usize as f64: rounded to nearest *)
Definition usize_to_f64 (n : N) : f64 := bigint_to_f64 (Z.of_N n).

(** [x.floor() as usize]: rounded down, then clamped to the range of usize; NaN gives 0 *)
Definition floor_to_usize (x : f64) : N :=
  match x with
  | B754_finite false m e _ =>
      N.min (2 ^ 64 - 1)
        (Z.to_N (match e with Zneg p => Z.pos m / 2 ^ Z.pos p | _ => Z.pos m * 2 ^ e end))
  | B754_infinity false => 2 ^ 64 - 1
  | _ => 0
  end%N.

Section Index.
Variable flog2 : f64 -> f64.             (* f64::log2 *)

(** interval_arithmetic.rs:53 the closure f *)
Definition scaled_log (n : N) : N :=
  floor_to_usize (fmul (flog2 (fadd (usize_to_f64 n) (bigint_to_f64 1))) (bigint_to_f64 3)).

(** interval_arithmetic.rs:52-56 log2_denom_to_cache_index; None is the overflow of the
    subtraction.  The argument is a usize: larger numbers stand for the largest one. *)
Definition cache_index (log2_denom : N) : option nat :=
  let n := N.min log2_denom (2 ^ 64 - 1) in
  let a := scaled_log (N.max n 32) in
  let b := scaled_log 32 in
  if (b <=? a)%N then Some (N.to_nat (a - b)) else None.
End Index.
