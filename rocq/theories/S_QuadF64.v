(** Specification vocabulary for conversions of quadratic numbers. *)
From Coq Require Import ZArith Reals.
From Verif Require Import M_Quad.

(** The root with a minus sign in the quadratic formula, beside [qvalue]. *)
Definition other_root (p : quad) : R :=
  ((- IZR (qb p) - sqrt (IZR (qb p * qb p - 4 * qa p * qc p))) / (2 * IZR (qa p)))%R.
