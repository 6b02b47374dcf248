(** C86: hashing agrees with equality. *)
From Coq Require Import ZArith QArith Qcanon Reals.
Set Warnings "-notation-overridden,-ambiguous-paths".
From mathcomp Require Import all_ssreflect all_algebra.
From mathcomp.zify Require Import ssrZ.
From Verif Require Import M_Base M_Interval M_Poly M_PolyCoef M_Quad M_Alg M_Hash.
From Verif Require Import S_Poly S_Quad S_Hash P_PolyInst P_Hash.
Set Implicit Arguments.
Unset Strict Implicit.
Unset Printing Implicit Defensive.

(** C86: polynomials feed the same to a hasher, followed by the same, exactly if they are
    the same mathematical polynomial ... *)
Theorem C86_polynomials : forall (K : pcoef) (R : comUnitRingType) (S : coef_sem K R) he hd,
  prefix_free he -> prefix_free hd -> forall p q s t, wf S p -> wf S q ->
  (hash_poly he hd p ++ s = hash_poly he hd q ++ t <-> pval S p = pval S q /\ s = t).
Proof. exact hash_poly_value. Qed.
Print Assumptions C86_polynomials.

(** ... for integers, rationals, modular integers and polynomials as coefficients. *)
Theorem C86_coefficients : prefix_free hash_int /\ prefix_free hash_unit /\ prefix_free hash_positive /\
  (forall m, prefix_free (@hash_residue m)) /\
  prefix_free (fun x : npoly int_poly_ok => @hash_poly int_coef hash_int hash_unit (nv x)).
Proof.
exact (conj pf_int (conj pf_unit (conj pf_positive (conj pf_residue
  (pf_npoly (pf_poly (K := int_coef) pf_int pf_unit)))))).
Qed.
Print Assumptions C86_coefficients.

(** C86: quadratic numbers, by their real values. *)
Theorem C86_quadratic : forall x y s t, made_quad x -> made_quad y ->
  (hash_quad x ++ s = hash_quad y ++ t <-> qvalue x = qvalue y /\ s = t).
Proof. exact hash_quad_value. Qed.
Print Assumptions C86_quadratic.

(** C86: the data of algebraic numbers, by its own equality. *)
Theorem C86_data : forall a b, data_eqb a b = true <-> hash_data a = hash_data b.
Proof. exact data_eqb_iff. Qed.
Print Assumptions C86_data.

Theorem C86_data_prefix_free : prefix_free hash_data.
Proof. exact pf_data. Qed.
Print Assumptions C86_data_prefix_free.

(** 1 + 2x without its zeros, and 1/2 + x/3 over its common denominator *)
Example C86_example_1 :
  hash_poly (K := int_coef) hash_int hash_unit (from_coefs (K := int_coef) [:: 1; 2; 0; 0]%ZZ) = [:: TWord 2; TInt 1%ZZ; TInt 2%ZZ] /\
  hash_poly (K := ratio_coef) hash_int hash_positive
    (from_coefs (K := ratio_coef) [:: Q2Qc (1 # 2); Q2Qc (1 # 3)]) = [:: TWord 2; TInt 3%ZZ; TInt 2%ZZ; TInt 6%ZZ].
Proof. by []. Qed.
Example C86_example_2 : hash_data (RA (from_coefs (K := int_coef) [:: -2; 0; 1]%ZZ) (DFI 1%ZZ 2%ZZ 0)) =
  [:: TWord 3; TInt (-2)%ZZ; TInt 0%ZZ; TInt 1%ZZ; TInt 1%ZZ; TInt 2%ZZ; TWord 0] /\
  data_eqb (RA (from_coefs (K := int_coef) [:: -2; 0; 1]%ZZ) (DFI 1%ZZ 2%ZZ 0))
           (RA (from_coefs (K := int_coef) [:: -2; 0; 1]%ZZ) (DFI 2%ZZ 4%ZZ 1)) = false.
Proof. by []. Qed.
