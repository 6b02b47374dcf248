(** Property theorems C60: minimal polynomials.

    [minimal_polynomial_of x l] (S_AlgMin.v): [l] are the coefficients of the
    primitive integer polynomial of least degree with a positive leading
    coefficient that vanishes at [x]. *)
From Coq Require Import ZArith QArith Qreals Reals Lra.
Set Warnings "-notation-overridden,-ambiguous-paths".
From mathcomp Require Import ssreflect ssrfun ssrbool eqtype ssrnat seq.
From Verif Require Import M_Base M_Util M_Interval M_Poly M_PolyCoef P_PolyInst M_Factor M_Alg S_Poly S_Interval S_Alg S_AlgOps S_AlgMin
  P_AlgBasic P_AlgNeg P_AlgRef P_AlgOpsRef P_AlgMin P_AlgMade.
Set Implicit Arguments.
Unset Strict Implicit.
Unset Printing Implicit Defensive.
Local Open Scope R_scope.

(** A number has only one minimal polynomial. *)
Theorem C60_unique : forall x l l', minimal_polynomial_of x l -> minimal_polynomial_of x l' -> l = l'.
Proof. exact minimal_unique. Qed.
Print Assumptions C60_unique.
(** The polynomial of a value is the minimal polynomial exactly when it is in
    canonical form. *)
Theorem C60_minimal : forall a x, denotes a x ->
  (canonical a <-> minimal_polynomial_of x (coefficients (mp a))).
Proof. exact minimal_iff. Qed.
Print Assumptions C60_minimal.
(** Its degree is what degree() returns. *)
Theorem C60_degree : forall a x, denotes a x -> ra_degree a = Ret (List.length (coefficients (mp a)) - 1)%N.
Proof. exact degree_coefs. Qed.
Print Assumptions C60_degree.
(** Every value computed by the operations of [made] reports the minimal
    polynomial.  What is missing: sums, products and powers that do not meet the
    conditions of C54, C55 and C57, and reciprocals and quotients of irrational
    numbers ([C60_recip_refuted] in T_Alg.v). *)
Theorem C60_made_partial : forall a x, made a x -> denotes a x /\ minimal_polynomial_of x (coefficients (mp a)).
Proof. exact made_minimal. Qed.
Print Assumptions C60_made_partial.
Example C60_example : made five_root2 (5 + sqrt 2) /\ minimal_polynomial_of (5 + sqrt 2) [:: 23; -10; 1]%Z /\
  ra_degree five_root2 = Ret 2%N.
Proof.
have M := made_unchecked _ _ five_root2_denotes five_canonical.
exact (conj M (conj (proj2 (C60_made_partial M)) (erefl _))).
Qed.
(** -(5 + sqrt 2) is made by negation. *)
Example C60_example_neg : exists b, ra_neg five_root2 = Ret b /\ made b (- (5 + sqrt 2)) /\
  coefficients (mp b) = [:: 23; 10; 1]%Z.
Proof.
eexists; split; first reflexivity; split; last reflexivity.
exact (made_neg _ _ _ (made_unchecked _ _ five_root2_denotes five_canonical) (erefl _)).
Qed.
