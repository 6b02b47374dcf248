(** Specification of the operations on two real algebraic numbers. *)
From Coq Require Import ZArith QArith Qreals Reals.
Set Warnings "-notation-overridden,-ambiguous-paths".
From mathcomp Require Import all_ssreflect all_algebra.
From Verif Require Import M_Base M_Util M_Poly P_PolyInst M_Interval M_Factor M_Alg S_Poly S_Factor S_Interval P_Rstruct S_Alg.
Set Implicit Arguments.
Unset Strict Implicit.
Unset Printing Implicit Defensive.
Delimit Scope Z_scope with ZZ.
Local Open Scope R_scope.

(** The computation [f], which takes fuel, returns a value that denotes [v] once
    the fuel suffices, never panics and never returns anything else; if [C]
    holds, its polynomial is the canonical one. *)
Definition computes (f : nat -> res ralg) (v : R) (C : Prop) : Prop :=
  exists z, [/\ eventually f z, denotes z v & C -> canonical z].

(** The resultant [r] is factored successfully, ... *)
Definition factoring_returns (rng : nat -> Z) (ffuel : nat) (r : res (poly int_coef)) : Prop :=
  forall p, r = Ret p -> exists cfs, factor_with_rng rng ffuel p = Ret cfs.
(** ... and its factor that vanishes at [v] is irreducible. *)
Definition factoring_ok (rng : nat -> Z) (ffuel : nat) (r : res (poly int_coef)) (v : R) : Prop :=
  forall p, r = Ret p -> factored rng ffuel p v.

Definition is_rat (x : R) : Prop := exists q, x = Q2R q.
(** The polynomial factored when [b] is subtracted from [a]. *)
Definition sub_resultant (a b : ralg) : res (poly int_coef) :=
  (n <- ra_neg b ;; add_resultant (mp a) (mp n))%res.

(** No conjugate of the second operand other than [y] itself gives a rational
    sum inside the sum of the intervals; likewise for differences, and for
    products and the conjugates of the first operand. *)
Definition sum_clear (a b : ralg) (x y : R) : Prop :=
  forall (y' : R) q, root (real_poly (mp b)) y' -> x + y' = Q2R q ->
    lo (itv a) + lo (itv b) <= Q2R q <= hi (itv a) + hi (itv b) -> y' = y.
Definition diff_clear (a b : ralg) (x y : R) : Prop :=
  forall (y' : R) q, root (real_poly (mp b)) y' -> x - y' = Q2R q ->
    lo (itv a) - hi (itv b) <= Q2R q <= hi (itv a) - lo (itv b) -> y' = y.
Definition prod_clear (a b : ralg) (x y : R) : Prop :=
  forall (x' : R) q, root (real_poly (mp a)) x' -> x' * y = Q2R q ->
    inI (Q2R q) (dfi_mul (itv a) (itv b)) -> x' = x.
(** [c] is the order of [x] and [y]. *)
Definition order_of (x y : R) (c : comparison) : Prop :=
  match c with Eq => x = y | Lt => x < y | Gt => y < x end.

(** [v] is the real number [x] to the power [e] (a fraction in lowest terms), ... *)
Definition is_pow (x : R) (e : Q) (v : R) : Prop :=
  [/\ 0 < x -> v = Rpower x (Q2R e),
      x < 0 -> Qden e = 1%positive -> v = powerRZ x (Qnum e)
    & x = 0 -> v = 0].
(** ... and here there is no such real number. *)
Definition pow_undefined (x : R) (e : Q) : Prop :=
  (x = 0 /\ (Qnum e <= 0)%ZZ) \/ (x < 0 /\ Qden e <> 1%positive).
(** Each of the intervals obtained from the first [fuel] refinements of [a],
    which denotes [x], through logarithm and exponential contains |x|^e. *)
Definition pow_encloses (ln2 : nat -> res dfi) (fuel : nat) (a : ralg) (x : R) (e : Q) : Prop :=
  forall n s i, (n < fuel)%N -> refine_steps n a = Ret s -> pow_interval ln2 e Positive s = Ret i ->
    inI (Rpower (Rabs x) (Q2R e)) i.
(** The number whose powers with a positive exponent are computed. *)
Definition pow_base (fuel : nat) (a : ralg) (e : Q) : res ralg :=
  if (Qnum e <? 0)%ZZ then ra_recip fuel a else Ret a.
(** Numerator and denominator of the exponent as machine integers *)
Definition pow_fits (e : Q) : Prop :=
  (Z.abs (Qnum e) < 2 ^ 64)%ZZ /\ (Zpos (Qden e) < 2 ^ 64)%ZZ.
(** ... which denotes this number. *)
Definition pow_arg (x : R) (e : Q) : R := if (Qnum e <? 0)%ZZ then / x else x.
