(** Specification of the search for a power. *)
From Coq Require Import ZArith QArith Qreals Reals.
Set Warnings "-notation-overridden,-ambiguous-paths".
From mathcomp Require Import all_ssreflect all_algebra.
From Verif Require Import M_Base M_Traits M_Util M_Interval M_Alg S_Poly S_Interval P_Rstruct S_Alg.
Set Implicit Arguments.
Unset Strict Implicit.
Unset Printing Implicit Defensive.
Delimit Scope Z_scope with ZZ.
Local Open Scope R_scope.

(** The first [N] refinements of [a], which denotes [x], have at most 2^60 binary
    digits after the point, logarithm and exponential return for them, and the
    intervals obtained contain |x|^e. *)
Definition pow_steps (ln2 : nat -> res dfi) (N : nat) (a : ralg) (x : R) (e : Q) : Prop :=
  forall n s, (n <= N)%N -> refine_steps n a = Ret s -> (Z.of_nat (dlog (sh_itv s)) <= 2 ^ 60)%ZZ /\
    exists i, pow_interval ln2 e Positive s = Ret i /\ inI (Rpower (Rabs x) (Q2R e)) i.

(** How far the logarithm of the power may be off, for a base within [l, u] with
    [d] binary digits, in the binade 3/2 * 2^s <= l, u < 3 * 2^s ... *)
Definition log_slack (e : Q) (s : Z) (d : nat) (l u : R) : R :=
  Q2R e * ((u - l) / l + (2 + 3 * Rabs (IZR s) / 2 ^ 16) / 2 ^ d) + / 2 ^ d.
(** ... and the power [v] itself. *)
Definition pow_slack (e : Q) (s : Z) (d : nat) (l u v : R) : R :=
  4 * v * log_slack e s d l u + 18 / 2 ^ d.

(** The interval obtained from the [N]th refinement of [b] contains the absolute
    value of no real root of the polynomial that is factored, except that of the
    power [v]. *)
Definition pow_isolates (ln2 : nat -> res dfi) (N : nat) (b : ralg) (e : Q) (v : R) : Prop :=
  forall r s i (w : R), pow_resultant (mp b) (Z.to_nat (Qnum e)) (Pos.to_nat (Qden e)) = Ret r ->
    refine_steps N b = Ret s -> pow_interval ln2 e Positive s = Ret i ->
    root (real_poly r) w -> inI (Rabs w) i -> Rabs w = Rabs v.
