(** Property theorems C15, continued: rational polynomials with integer
    coefficients.  [pval] and [wf] are as in T_Poly.v. *)
From Coq Require Import ZArith QArith Qcanon.
Set Warnings "-notation-overridden,-ambiguous-paths".
From mathcomp Require Import all_ssreflect all_algebra.
From mathcomp.zify Require Import ssrZ.
From Verif Require Import M_Base M_Traits M_Poly M_PolyCoef S_Poly P_Poly P_PolyInst P_PolySingle.
Import GRing.Theory.
Local Open Scope ring_scope.

(** Adding an integer to, and subtracting it from, a polynomial whose
    coefficients are integers is right also if the coefficient type is rational. *)
Theorem C15_integral_partial : forall (p : poly ratio_coef) (c : Qc), wf ratio_sem p ->
  (forall i, exists z : int, (pval ratio_sem p)`_i = z%:~R) -> (exists z : int, vc ratio_sem c = z%:~R) ->
  pval ratio_sem (poly_add_single p c) = pval ratio_sem p + (vc ratio_sem c)%:P /\
  pval ratio_sem (poly_sub_single p c) = pval ratio_sem p - (vc ratio_sem c)%:P.
Proof. exact add_single_integral. Qed.
Print Assumptions C15_integral_partial.

Example C15_integral_example :
  let p := from_coefs (K := ratio_coef) [:: Q2Qc 3; Q2Qc 5] in
  [/\ wf ratio_sem p, forall i, exists z : int, (pval ratio_sem p)`_i = z%:~R,
      exists z : int, vc ratio_sem (Q2Qc 7) = z%:~R &
      poly_add_single p (Q2Qc 7) = from_coefs (K := ratio_coef) [:: Q2Qc 10; Q2Qc 5]].
Proof.
split; [exact: wf_from_coefs| |by exists 7%:Z; rewrite [LHS]q2r_Q2Qc /q2r /= divr1|by vm_compute].
move=> i; rewrite pval_from_coefs coef_Poly; case: i => [|[|i]]; [exists 3%:Z|exists 5%:Z|exists 0];
  by rewrite /= ?nth_nil // [LHS]q2r_Q2Qc /q2r /= divr1.
Qed.
