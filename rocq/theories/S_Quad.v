(** Quadratic numbers as real numbers. *)
From Coq Require Import ZArith Reals.
From Verif Require Import M_Base M_Quad.

(** The real root a polynomial stands for, following the documentation of
    RealQuadraticNumber: the root of a linear polynomial, or the one with a plus
    sign in the quadratic formula. *)
Definition qvalue (p : quad) : R :=
  if (qa p =? 0)%Z then (- IZR (qc p) / IZR (qb p))%R
  else ((- IZR (qb p) + sqrt (IZR (qb p * qb p - 4 * qa p * qc p))) / (2 * IZR (qa p)))%R.

(** It is a real number: a non-constant polynomial with real roots. *)
Definition has_root (p : quad) : Prop :=
  (qa p <> 0 \/ qb p <> 0)%Z /\ (0 <= qb p * qb p - 4 * qa p * qc p)%Z.

(** The numbers a user can build. *)
Inductive made_quad : quad -> Prop :=
| mq_new p x : quad_new p = Ret (Some x) -> made_quad x
| mq_int v : made_quad (from_integer v)
| mq_ratio n d x : from_ratio n d = Ret x -> made_quad x
| mq_neg x : made_quad x -> made_quad (quad_neg x)
| mq_abs x : made_quad x -> made_quad (quad_abs x)
| mq_signum x : made_quad x -> made_quad (quad_signum x)
| mq_add x y z : made_quad x -> made_quad y -> quad_checked_add x y = Ret (Some z) -> made_quad z
| mq_sub x y z : made_quad x -> made_quad y -> quad_checked_sub x y = Ret (Some z) -> made_quad z.

(** What a comparison of two real numbers should answer. *)
Definition ordered (c : comparison) (x y : R) : Prop :=
  match c with Lt => x < y | Eq => x = y | Gt => x > y end%R.

(** The numbers that are roots of a polynomial of degree one or two. *)
Definition quadratic (x : R) : Prop :=
  exists a b c : Z, (a <> 0 \/ b <> 0)%Z /\ (IZR a * x * x + IZR b * x + IZR c = 0)%R.
