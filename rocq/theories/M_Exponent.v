(** Model of the exponents of powers of algebraic numbers:
    /repo/src/algebraic_numbers.rs:25-40, 114-118, 136-141 (IntoRationalExponent)
    and the entry points that take one.  Integers of every width are [Z]; a
    Ratio is a [Q], in lowest terms or not, with a positive denominator. *)
From Coq Require Import ZArith QArith.
From Verif Require Import M_Base M_Traits M_Interval M_Poly M_PolyCoef M_Factor M_Alg.

(** The types with an implementation: 114-118 an integer, 35-40 a pair of a
    numerator and a denominator, 136-141 a Ratio, 29-33 a reference. *)
Inductive exponent :=
| EInt (v : Z)
| EPair (numer denom : Z)
| ERatio (q : Q)
| ERef (e : exponent).

(** into_rational_exponent.  115-117: Ratio::from(integer); 36-39: Ratio::new
    reduces and panics on a zero denominator; 137-140: Ratio::new_raw of the parts;
    30-32: of the clone. *)
Fixpoint into_rational_exponent (e : exponent) : res Q :=
  match e with
  | EInt v => Ret (inject_Z v)
  | EPair n d => ratio_new n d
  | ERatio q => Ret (Qnum q # Qden q)
  | ERef e => into_rational_exponent e
  end.

Section Pow.
Variables (rng : nat -> Z) (ffuel fuel : nat) (ln2 : nat -> res dfi).
(** algebraic_numbers.rs:791-796 checked_into_pow and checked_pow *)
Definition checked_pow (base : ralg) (e : exponent) : res (option ralg) :=
  (q <- into_rational_exponent e ;; ra_checked_pow rng ffuel fuel ln2 base q)%res.
(** algebraic_numbers.rs:1493-1507 Pow *)
Definition pow (base : ralg) (e : exponent) : res ralg :=
  (r <- checked_pow base e ;; unwrap r)%res.
End Pow.
