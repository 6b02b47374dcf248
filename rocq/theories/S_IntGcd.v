(** Specification vocabulary for greatest common divisors of integer polynomials. *)
Set Warnings "-notation-overridden,-ambiguous-paths".
From mathcomp Require Import all_ssreflect all_algebra.
Import GRing.Theory.
Local Open Scope ring_scope.

(** [a] divides [b] with an integer polynomial as the quotient. *)
Definition divides (a b : {poly int}) : Prop := exists c, b = c * a.

(** The greatest common divisor in Z[X]. *)
Definition zgcd (g p q : {poly int}) : Prop :=
  [/\ divides g p, divides g q & forall h, divides h p -> divides h q -> divides h g].

(** The integers that divide all coefficients of [p] are 1 and -1. *)
Definition content_free (p : {poly int}) : Prop :=
  forall (d : int) (q : {poly int}), p = d *: q -> d = 1 \/ d = -1.

(** [p] and [q] have no common integer divisor other than 1 and -1. *)
Definition coprime_contents (p q : {poly int}) : Prop :=
  forall (d : int) (p' q' : {poly int}), p = d *: p' -> q = d *: q' -> d = 1 \/ d = -1.
