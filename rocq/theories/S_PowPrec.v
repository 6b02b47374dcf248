(** Specification of the precision of integer powers of intervals. *)
From Coq Require Import Reals.
From Verif Require Import M_Interval S_Interval.
Local Open Scope R_scope.

(** What rounding at [n] binary digits may do to the power [x ^ e]: each of the
    [e] factors costs one unit in the last place, relative to the power if [x]
    is above one in magnitude and absolutely otherwise. *)
Definition pow_err (n : nat) (e : nat) (x : R) : R := ((1 + / 2 ^ n) ^ e - 1) * Rmax 1 (Rabs x) ^ e.

(** [x] is a member of the interval with the least, or the greatest, power. *)
Definition least_power (i : dfi) (e : nat) (x : R) : Prop := inI x i /\ forall y, inI y i -> x ^ e <= y ^ e.
Definition greatest_power (i : dfi) (e : nat) (x : R) : Prop := inI x i /\ forall y, inI y i -> y ^ e <= x ^ e.
