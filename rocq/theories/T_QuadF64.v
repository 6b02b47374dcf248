(** Property C84: quadratic numbers as floating-point numbers. *)
From Coq Require Import ZArith Reals Lia.
From Flocq Require Import Core BinarySingleNaN.
From Verif Require Import M_Base M_Quad M_QuadF64 S_Quad S_QuadF64 P_QuadF64 P_QuadF64B.
Local Open Scope R_scope.

(** C84: a rational number whose numerator and denominator are below 2^53 is
    rounded once, to the nearest floating-point number. *)
Theorem C84_ratio : forall x, made_quad x -> qa x = 0%Z ->
  (Z.abs (qb x) < 2 ^ 53)%Z -> (Z.abs (qc x) < 2 ^ 53)%Z ->
  is_finite (quad_to_f64 x) = true /\
  B2R (quad_to_f64 x) = round radix2 (FLT_exp (-1074) 53) ZnearestE (qvalue x).
Proof. exact ratio_to_f64. Qed.
Print Assumptions C84_ratio.

(** C84: an irrational number whose coefficients are at most 2^24 is off by at
    most 2^-51 of the larger root of its polynomial. *)
Theorem C84_roots_partial : forall x, made_quad x -> qa x <> 0%Z ->
  (Z.abs (qa x) <= 2 ^ 24)%Z -> (Z.abs (qb x) <= 2 ^ 24)%Z -> (Z.abs (qc x) <= 2 ^ 24)%Z ->
  is_finite (quad_to_f64 x) = true /\
  Rabs (B2R (quad_to_f64 x) - qvalue x) <= bpow radix2 (-51) * Rmax (Rabs (qvalue x)) (Rabs (other_root x)).
Proof. exact root_to_f64. Qed.
Print Assumptions C84_roots_partial.

(** C84: if the linear term is not positive the number itself is the larger
    root, and the relative error is at most 2^-51. *)
Theorem C84_relative_partial : forall x, made_quad x -> qa x <> 0%Z -> (qb x <= 0)%Z ->
  (Z.abs (qa x) <= 2 ^ 24)%Z -> (Z.abs (qb x) <= 2 ^ 24)%Z -> (Z.abs (qc x) <= 2 ^ 24)%Z ->
  Rabs (B2R (quad_to_f64 x) - qvalue x) <= bpow radix2 (-51) * Rabs (qvalue x).
Proof. exact root_to_f64_rel. Qed.
Print Assumptions C84_relative_partial.

(** C84: numbers with larger coefficients, which are themselves rounded. *)
Theorem C84_ratio_large : forall x, made_quad x -> qa x = 0%Z ->
  (Z.abs (qb x) <= 2 ^ 400)%Z -> (Z.abs (qc x) <= 2 ^ 400)%Z ->
  is_finite (quad_to_f64 x) = true /\
  Rabs (B2R (quad_to_f64 x) - qvalue x) <= bpow radix2 (-51) * Rabs (qvalue x).
Proof. exact ratio_large_made. Qed.
Print Assumptions C84_ratio_large.

Theorem C84_roots_large_partial : forall x, made_quad x -> qa x <> 0%Z ->
  (Z.abs (qa x) <= 2 ^ 400)%Z -> (Z.abs (qb x) <= 2 ^ 400)%Z -> (Z.abs (qc x) <= 2 ^ 400)%Z ->
  is_finite (quad_to_f64 x) = true /\
  Rabs (B2R (quad_to_f64 x) - qvalue x) <= bpow radix2 (-50) * Rmax (Rabs (qvalue x)) (Rabs (other_root x)).
Proof. exact root_large_made. Qed.
Print Assumptions C84_roots_large_partial.

Theorem C84_relative_large_partial : forall x, made_quad x -> qa x <> 0%Z -> (qb x <= 0)%Z ->
  (Z.abs (qa x) <= 2 ^ 400)%Z -> (Z.abs (qb x) <= 2 ^ 400)%Z -> (Z.abs (qc x) <= 2 ^ 400)%Z ->
  Rabs (B2R (quad_to_f64 x) - qvalue x) <= bpow radix2 (-50) * Rabs (qvalue x).
Proof. exact root_large_rel. Qed.
Print Assumptions C84_relative_large_partial.

(** C84 fails: a number that is not zero is converted to zero. *)
Theorem C84_refuted : exists x, made_quad x /\ B2R (quad_to_f64 x) = 0 /\ qvalue x <> 0.
Proof. exact (ex_intro _ steep steep_zero). Qed.
Print Assumptions C84_refuted.

(** C84 fails: a number between 1 and 2 is converted to no number at all. *)
Theorem C84_huge_refuted : exists x, made_quad x /\ is_finite (quad_to_f64 x) = false /\ 1 < qvalue x < 2.
Proof. exact (ex_intro _ huge huge_nan). Qed.
Print Assumptions C84_huge_refuted.

(** -1/8 + sqrt(577)/8 and 1/120 - sqrt(481)/120 of the tests,
    quadratic_numbers.rs:942 and 944: 2.8776030373660784 and
    -0.1744309349955109 *)
Example C84_example_1 : B2SF (quad_to_f64 (Quad (-36) 1 4)) = SpecFloat.S754_finite false 6479785983401039 (-51).
Proof. vm_compute. reflexivity. Qed.
Example C84_example_2 : B2SF (quad_to_f64 (Quad 2 1 (-60))) = SpecFloat.S754_finite true 6284536750781361 (-55).
Proof. vm_compute. reflexivity. Qed.
(** a number near the golden ratio times 10^30, whose coefficients do not fit *)
Example C84_example_3 : made_quad (Quad (- 10 ^ 60 - 1) (- 10 ^ 30) 1) /\
  B2SF (quad_to_f64 (Quad (- 10 ^ 60 - 1) (- 10 ^ 30) 1)) = SpecFloat.S754_finite false 5748411484595887 48.
Proof. split; [apply (mq_new (Quad (- 10 ^ 60 - 1) (- 10 ^ 30) 1)); vm_compute; reflexivity|vm_compute; reflexivity]. Qed.
