(** Model of hashing: what a value feeds to the hasher.

    - #[derive(Hash)] feeds the fields in order (Polynomial, polynomial.rs:828-832;
      ModularInteger, mod_int.rs:637-641; QuadraticPolynomial and RealQuadraticNumber,
      quadratic_numbers.rs:24-29, 98-101; DyadicFractionInterval,
      interval_arithmetic.rs:124-129); DivisorIsOne (polynomial.rs:465-466) has no fields.
    - std: a vector feeds its length, then its elements; a usize feeds itself.
    - num_bigint: a BigInt feeds its sign and its digits, which determine it; here it is
      one token. *)
From Coq Require Import ZArith QArith Qcanon List.
Set Warnings "-notation-overridden".
From mathcomp Require Import ssreflect ssrfun ssrbool eqtype ssrnat seq.
From Verif Require Import M_Base M_Interval M_Poly M_PolyCoef M_Quad M_Alg.
Set Implicit Arguments.
Unset Strict Implicit.
Unset Printing Implicit Defensive.

Inductive token := TInt (z : Z) | TWord (n : nat).

(** BigInt *)
Definition hash_int (z : Z) : seq token := [:: TInt z].
(** polynomial.rs:465-466 DivisorIsOne *)
Definition hash_unit (_ : unit) : seq token := [::].
(** the divisor of rational polynomials *)
Definition hash_positive (d : positive) : seq token := [:: TInt (Zpos d)].
(** mod_int.rs:637-641 ModularInteger with modulus [m] *)
Definition hash_residue (m : Z) (x : residue m) : seq token := [:: TInt (rv x); TInt m].

(** polynomial.rs:828-832 Polynomial: elements, divisor *)
Definition hash_poly (K : pcoef) (he : elt K -> seq token) (hd : dvr K -> seq token) (p : poly K) : seq token :=
  TWord (size (els p)) :: flatten [seq he e | e <- els p] ++ hd (dv p).

(** quadratic_numbers.rs:98-101 RealQuadraticNumber *)
Definition hash_quad (x : quad) : seq token := hash_int (qc x) ++ hash_int (qb x) ++ hash_int (qa x).

(** interval_arithmetic.rs:124-129 DyadicFractionInterval *)
Definition hash_dfi (i : dfi) : seq token := hash_int (dlo i) ++ hash_int (dhi i) ++ [:: TWord (dlog i)].

(** algebraic_numbers.rs:48-57 RealAlgebraicNumberData *)
Definition hash_data (a : ralg) : seq token :=
  @hash_poly int_coef hash_int hash_unit (mp a) ++ hash_dfi (itv a).
(** algebraic_numbers.rs:59-67 PartialEq for RealAlgebraicNumberData *)
Definition data_eqb (a b : ralg) : bool := zpoly_eqb (mp a) (mp b) && dfi_is_same (itv a) (itv b).
