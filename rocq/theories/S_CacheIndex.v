(** What is assumed of the mathematical library's log2: it is monotone, and maps the
    finite numbers from 1 on to finite numbers from 0 to 1024. *)
From Coq Require Import ZArith Reals.
From Flocq Require Import BinarySingleNaN.
From Verif Require Import M_QuadF64.
Local Open Scope R_scope.

Definition monotone_log2 (flog2 : f64 -> f64) : Prop := forall x y : f64,
  is_finite x = true -> is_finite y = true -> 1 <= B2R x <= B2R y ->
  is_finite (flog2 x) = true /\ is_finite (flog2 y) = true /\
  0 <= B2R (flog2 x) <= B2R (flog2 y) /\ B2R (flog2 y) <= 1024.

(** C85 also assumes that log2 is right up to 2^-40. *)
Definition accurate_log2 (flog2 : f64 -> f64) : Prop := forall x : f64,
  is_finite x = true -> 1 <= B2R x -> Rabs (B2R (flog2 x) - ln (B2R x) / ln 2) <= / 1099511627776.

(** [m] binary digits are at least [n], and at most 26 % more (or 40, if [n] is small). *)
Definition not_excessive (n m : nat) : Prop :=
  (n <= m)%nat /\ (100 * (Z.of_nat m + 1) <= 126 * (Z.max (Z.of_nat n) 32 + 1))%Z.
