(** Property theorems C87: greatest common divisors of integer polynomials,
    computed as [p.to_reduced().subresultant_gcd(q.to_reduced()).into_reduced()].
    The traits GCD and ExtendedGCD need AlwaysExactDivAssign for the
    coefficients (gcd.rs:188-191, polynomial.rs:804-812), which integers do
    not implement, so that [p.gcd(&q)] does not exist for them.
    [pval int_sem p] is the polynomial in Z[X] denoted by [p] and [wf] its
    representation invariant (T_Poly.v); [divides], [zgcd],
    [content_free] and [coprime_contents] are in S_IntGcd.v. *)
From Coq Require Import ZArith.
Set Warnings "-notation-overridden,-ambiguous-paths".
From mathcomp Require Import all_ssreflect all_algebra.
From mathcomp.zify Require Import ssrZ.
From Verif Require Import M_Base M_Traits M_Poly M_PolyCoef M_PolyAlg S_Poly S_PolyAlg S_IntGcd P_Poly P_PolyInst P_IntGcd.
Import GRing.Theory Num.Theory.
Local Open Scope ring_scope.

(** Reducing divides by the reducing factor and leaves a polynomial without
    content whose leading coefficient is positive; the zero polynomial has no
    reducing factor and is left alone. *)
Theorem C87_reduced : forall p, wf int_sem p ->
  exists r, [/\ to_reduced int_exact int_reduce p = Ret r, wf int_sem r &
    match nonzero_reducing_factor int_reduce p with
    | Some c => [/\ pval int_sem p = vc int_sem c *: pval int_sem r, vc int_sem c != 0,
                    content_free (pval int_sem r) & 0 < lead_coef (pval int_sem r)]
    | None => pval int_sem p = 0 /\ r = p
    end].
Proof. exact reduced_int_spec. Qed.
Print Assumptions C87_reduced.

(** The result divides both polynomials in Z[X], has no content and a positive
    leading coefficient, and every common divisor without content divides it. *)
Theorem C87_primitive_gcd : forall p q, wf int_sem p -> wf int_sem q ->
  exists g, [/\ (p' <- to_reduced int_exact int_reduce p ;; q' <- to_reduced int_exact int_reduce q ;;
   d <- subresultant_gcd int_exact p' q' ;; to_reduced int_exact int_reduce d)%res = Ret g, wf int_sem g,
    divides (pval int_sem g) (pval int_sem p) /\ divides (pval int_sem g) (pval int_sem q),
    forall h, content_free h -> divides h (pval int_sem p) -> divides h (pval int_sem q) -> divides h (pval int_sem g) &
    pval int_sem g = 0 /\ pval int_sem p = 0 /\ pval int_sem q = 0 \/
    content_free (pval int_sem g) /\ 0 < lead_coef (pval int_sem g)].
Proof. exact gcd_int_spec. Qed.
Print Assumptions C87_primitive_gcd.

(** It is the greatest common divisor in Z[X] exactly when the two polynomials
    have no common integer factor. *)
Theorem C87_greatest : forall p q g, wf int_sem p -> wf int_sem q ->
  pval int_sem p != 0 \/ pval int_sem q != 0 -> (p' <- to_reduced int_exact int_reduce p ;; q' <- to_reduced int_exact int_reduce q ;;
   d <- subresultant_gcd int_exact p' q' ;; to_reduced int_exact int_reduce d)%res = Ret g ->
  (zgcd (pval int_sem g) (pval int_sem p) (pval int_sem q) <-> coprime_contents (pval int_sem p) (pval int_sem q)).
Proof. exact zgcd_iff. Qed.
Print Assumptions C87_greatest.

(** [6 X^2 - 6] and [-4 X - 4]; the first is [6 (X^2 - 1)]. *)
Example C87_example :
  let p := from_coefs (K := int_coef) [:: -6; 0; 6]%ZZ in
  let q := from_coefs (K := int_coef) [:: -4; -4]%ZZ in
  [/\ wf int_sem p, wf int_sem q, pval int_sem p != 0,
      to_reduced int_exact int_reduce p = Ret (from_coefs (K := int_coef) [:: -1; 0; 1]%ZZ) &
      (p' <- to_reduced int_exact int_reduce p ;; q' <- to_reduced int_exact int_reduce q ;;
   d <- subresultant_gcd int_exact p' q' ;; to_reduced int_exact int_reduce d)%res = Ret (from_coefs (K := int_coef) [:: 1; 1]%ZZ)].
Proof.
split; [exact: wf_from_coefs|exact: wf_from_coefs| |by vm_compute|by vm_compute].
rewrite -(is_zeroP (wf_from_coefs int_sem _)); exact: isT.
Qed.
