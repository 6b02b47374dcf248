(** Property theorems C24-C29, C34 and C66: algorithms on polynomials.

    As in T_Poly.v, [pval S p] is the mathematical polynomial denoted by [p].
    The theorems on greatest common divisors hold for every coefficient type that
    reads as a field ([exact_sem]: division of coefficients is right;
    [reduce_sem]: the reducing factor is the leading coefficient);
    [C24_coefficients_*] establish this for rationals and integers modulo a prime. *)
From Coq Require Import ZArith QArith Qcanon Lia String.
Set Warnings "-notation-overridden,-ambiguous-paths".
From mathcomp Require Import all_ssreflect all_algebra.
From mathcomp.zify Require Import ssrZ.
From Verif Require Import M_Base M_Traits M_Poly M_PolyCoef M_PolyAlg S_Poly S_PolyAlg
  P_PolyInst P_PolyGcd P_PolyRes P_PolyField P_PolyContent P_PolyAlgInst P_PolyAlgRef P_Yun.
Set Implicit Arguments.
Unset Strict Implicit.
Unset Printing Implicit Defensive.
Import GRing.Theory Num.Theory.
Local Open Scope ring_scope.
Delimit Scope Z_scope with ZZ.
Delimit Scope Q_scope with QQ.

Notation zp l := (from_coefs (K := int_coef) l%ZZ).
Notation qp l := (from_coefs (K := ratio_coef) (map (fun q => Q2Qc q) l%QQ)).

(** ** C24 greatest common divisors and least common multiples *)
Theorem C24_coefficients_rational :
  @exact_sem _ [idomainType of rat] ratio_sem ratio_exact /\ @reduce_sem _ [fieldType of rat] ratio_sem ratio_reduce.
Proof. exact (conj ratio_exact_sem ratio_reduce_sem). Qed.
Print Assumptions C24_coefficients_rational.

Theorem C24_coefficients_mod_prime : forall m p (m_pos : (0 <? m)%ZZ) (mp : m = Z.of_nat p) (p_pr : prime.prime p),
  @exact_sem _ [idomainType of 'F_p] (modp_sem m_pos mp p_pr) (mod_exact m_pos) /\
  @reduce_sem _ [fieldType of 'F_p] (modp_sem m_pos mp p_pr) (mod_reduce m_pos).
Proof. exact (fun m p m_pos mp p_pr => conj (modp_exact_sem m_pos mp p_pr) (@modp_reduce_sem m p m_pos mp p_pr)). Qed.
Print Assumptions C24_coefficients_mod_prime.

Theorem C24_gcd_lcm : forall K (F : fieldType) (S : coef_sem K F) (X : pexact K), exact_sem S X ->
  forall Rd : preduce K, reduce_sem S Rd -> forall p q, wf S p -> wf S q ->
  exists g l, [/\ poly_gcd X Rd p q = Ret g /\ poly_gcd_lcm X Rd p q = Ret (g, l), wf S g /\ wf S l,
    is_gcd (pval S g) (pval S p) (pval S q) /\ monic_or_zero (pval S g),
    is_lcm (pval S l) (pval S p) (pval S q) &
    pval S g * pval S l = pval S p * pval S q].
Proof. exact poly_gcd_lcm_spec. Qed.
Print Assumptions C24_gcd_lcm.

Theorem C24_monic : forall K (F : fieldType) (S : coef_sem K F) (X : pexact K), exact_sem S X ->
  forall p, wf S p ->
  exists r, [/\ monic X p = Ret r, wf S r & pval S r = (lead_coef (pval S p))^-1 *: pval S p].
Proof. exact monic_spec. Qed.
Print Assumptions C24_monic.

(** Over any coefficient domain the subresultant chain ends in a polynomial
    associated to the greatest common divisor. *)
Theorem C24_subresultant_gcd : forall K (R : idomainType) (S : coef_sem K R) (X : pexact K), exact_sem S X ->
  forall p q, wf S p -> wf S q ->
  exists r, [/\ subresultant_gcd X p q = Ret r, wf S r & pval S r %= gcdp (pval S p) (pval S q)].
Proof. exact subresultant_gcd_spec. Qed.
Print Assumptions C24_subresultant_gcd.

Example C24_example :
  poly_gcd ratio_exact ratio_reduce (qp [:: -(2#1); 0; 2#1]) (qp [:: 3#1; 3#1]) = Ret (qp [:: 1; 1]) /\
  poly_gcd ratio_exact ratio_reduce (qp [::]) (qp [::]) = Ret (qp [::]).
Proof. by vm_compute. Qed.

(** ** C25 extended greatest common divisors *)
Theorem C25_extended_gcd : forall K (F : fieldType) (S : coef_sem K F) (X : pexact K), exact_sem S X ->
  forall Rd : preduce K, reduce_sem S Rd -> forall p q, wf S p -> wf S q ->
  exists g x y l, [/\ poly_extended_gcd X Rd p q = Ret (g, x, y) /\
      poly_extended_gcd_lcm X Rd p q = Ret (g, l, x, y),
    [/\ wf S g, wf S x, wf S y & wf S l],
    pval S x * pval S p + pval S y * pval S q = pval S g,
    is_gcd (pval S g) (pval S p) (pval S q) /\ monic_or_zero (pval S g) &
    is_lcm (pval S l) (pval S p) (pval S q) /\ pval S g * pval S l = pval S p * pval S q].
Proof. exact extended_gcd_spec. Qed.
Print Assumptions C25_extended_gcd.

Example C25_example :
  poly_extended_gcd ratio_exact ratio_reduce (qp [:: 1; 0; 1]) (qp [:: 0; 2#1])
    = Ret (qp [:: 1], qp [:: 1], qp [:: 0; -(1#2)]).
Proof. by vm_compute. Qed.

(** ** C26 resultants *)
Theorem C26_resultant : forall K (R : idomainType) (S : coef_sem K R) (X : pexact K), exact_sem S X ->
  forall p q, wf S p -> wf S q ->
  (pval S p != 0 -> pval S q != 0 ->
    exists r, [/\ M_PolyAlg.resultant X p q = Ret r,
      vc S r = \det (sylvester (pval S p) (pval S q)),
      nonzero_resultant X p q = Ret (if vc S r == 0 then None else Some r) &
      vc S r = 0 <-> exists h : {poly R}, [/\ (1 < size h)%N, h %| pval S p & h %| pval S q]]) /\
  (pval S p = 0 \/ pval S q = 0 ->
    nonzero_resultant X p q = Ret None /\
    exists2 r, M_PolyAlg.resultant X p q = Ret r & vc S r = 0).
Proof. exact resultant_spec. Qed.
Print Assumptions C26_resultant.

Example C26_example :
  M_PolyAlg.resultant int_exact (zp [:: -2; 0; 1]) (zp [:: -3; 0; 1]) = Ret 1%ZZ /\
  M_PolyAlg.resultant int_exact (zp [:: -1; 0; 2]) (zp [:: 1; 3]) = Ret (-7)%ZZ /\
  nonzero_resultant int_exact (zp [:: -1; 0; 1]) (zp [:: 1; 1]) = Ret None.
Proof. by vm_compute. Qed.

(** The resultant in [y] of [y^2 - 2] and [(x-y)^2 - 3]: coefficients are
    integer polynomials. *)
Example C26_nested_example :
  let c l := mk_npoly int_poly_okN (zp l) in
  rmap (fun r : cf int2_coef => nv r) (M_PolyAlg.resultant int2_exact
    (from_coefs (K := int2_coef) [:: c [:: -2]; c [::]; c [:: 1]]%ZZ)
    (from_coefs (K := int2_coef) [:: c [:: -3; 0; 1]; c [:: 0; -2]; c [:: 1]]%ZZ))
  = Ret (zp [:: 1; 0; -10; 0; 1]).
Proof. by vm_compute. Qed.

(** ** C27 content and primitive part *)
Theorem C27_integer : forall p, wf int_sem p ->
  exists c r, [/\ content int_content p = Ret c, primitive_part int_exact int_content p = Ret r, wf int_sem r,
    nonzero_content int_content p = Ret (if pval int_sem p == 0 then None else Some c) &
    [/\ vc int_sem c = zcontents (pval int_sem p), pval int_sem r = zprimitive (pval int_sem p)
      & pval int_sem p = vc int_sem c *: pval int_sem r]].
Proof. exact content_int. Qed.
Print Assumptions C27_integer.

(** [zcontents W = 1] says that the coefficients of [W] have greatest common
    divisor 1 and that its leading coefficient is positive. *)
Theorem C27_rational : forall p, wf ratio_sem p -> pval ratio_sem p != 0 ->
  exists c r (W : {poly int}),
    [/\ content ratio_content p = Ret c /\ nonzero_content ratio_content p = Ret (Some c),
      primitive_part ratio_exact ratio_content p = Ret r, wf ratio_sem r,
      pval ratio_sem r = map_poly intr W /\ zcontents W = 1 & pval ratio_sem p = vc ratio_sem c *: pval ratio_sem r].
Proof. exact content_ratio. Qed.
Print Assumptions C27_rational.

Theorem C27_zero : forall K (R : realDomainType) (S : coef_sem K R) (X : pexact K) (C : pcontent K) p,
  wf S p -> pval S p = 0 ->
  [/\ nonzero_content C p = Ret None, content C p = Ret (c_zero K) & primitive_part X C p = Ret p].
Proof. exact content_zero. Qed.
Print Assumptions C27_zero.

Example C27_example :
  content int_content (zp [:: 6; 4; -10]) = Ret (-2)%ZZ /\
  primitive_part int_exact int_content (zp [:: 6; 4; -10]) = Ret (zp [:: -3; -2; 5]) /\
  content ratio_content (qp [:: 1#2; 2#3]) = Ret (Q2Qc (1#6)).
Proof. by vm_compute. Qed.

(** ** C28 Sturm sequences count real roots, in any real closed field *)
Theorem C28_primitive_sturm_integer : forall (RR : rcfType) p, wf int_sem p -> pval int_sem p != 0 ->
  exists l, primitive_sturm_sequence int_exact int_content p = Ret (p :: l) /\
  forall a b : RR, a < b ->
  (~~ root (map_poly intr (pval int_sem p)) a /\ ~~ root (map_poly intr (pval int_sem p)) b) \/
    coprimep (map_poly (intr : int -> RR) (pval int_sem p)) (map_poly intr (pval int_sem p))^`() ->
  exists2 s, roots_listed (map_poly intr (pval int_sem p)) a b s &
    sign_variations (map (fun u => (map_poly intr (pval int_sem u)).[a]) (p :: l)) =
    (sign_variations (map (fun u => (map_poly intr (pval int_sem u)).[b]) (p :: l)) + size s)%N.
Proof. exact primitive_sturm_int. Qed.
Print Assumptions C28_primitive_sturm_integer.

Theorem C28_primitive_sturm_rational : forall (RR : rcfType) p, wf ratio_sem p -> pval ratio_sem p != 0 ->
  exists l, primitive_sturm_sequence ratio_exact ratio_content p = Ret (p :: l) /\
  forall a b : RR, a < b ->
  (~~ root (map_poly ratr (pval ratio_sem p)) a /\ ~~ root (map_poly ratr (pval ratio_sem p)) b) \/
    coprimep (map_poly (ratr : rat -> RR) (pval ratio_sem p)) (map_poly ratr (pval ratio_sem p))^`() ->
  exists2 s, roots_listed (map_poly ratr (pval ratio_sem p)) a b s &
    sign_variations (map (fun u => (map_poly ratr (pval ratio_sem u)).[a]) (p :: l)) =
    (sign_variations (map (fun u => (map_poly ratr (pval ratio_sem u)).[b]) (p :: l)) + size s)%N.
Proof. exact primitive_sturm_ratio. Qed.
Print Assumptions C28_primitive_sturm_rational.

Theorem C28_sturm_rational : forall (RR : rcfType) p, wf ratio_sem p -> pval ratio_sem p != 0 ->
  exists l, sturm_sequence ratio_exact p = Ret (p :: l) /\
  forall a b : RR, a < b ->
  (~~ root (map_poly ratr (pval ratio_sem p)) a /\ ~~ root (map_poly ratr (pval ratio_sem p)) b) \/
    coprimep (map_poly (ratr : rat -> RR) (pval ratio_sem p)) (map_poly ratr (pval ratio_sem p))^`() ->
  exists2 s, roots_listed (map_poly ratr (pval ratio_sem p)) a b s &
    sign_variations (map (fun u => (map_poly ratr (pval ratio_sem u)).[a]) (p :: l)) =
    (sign_variations (map (fun u => (map_poly ratr (pval ratio_sem u)).[b]) (p :: l)) + size s)%N.
Proof. exact sturm_ratio. Qed.
Print Assumptions C28_sturm_rational.

Example C28_example :
  primitive_sturm_sequence int_exact int_content (zp [:: -2; 0; 1])
    = Ret [:: zp [:: -2; 0; 1]; zp [:: 0; 1]; zp [:: 1]] /\
  sturm_sequence ratio_exact (qp [:: -(2#1); 0; 1])
    = Ret [:: qp [:: -(2#1); 0; 1]; qp [:: 0; 2#1]; qp [:: 2#1]].
Proof. by vm_compute. Qed.

(** ** C29 square-free factorisation *)
Theorem C29_square_free_factorization : forall p, wf ratio_sem p ->
  exists c l, [/\ yun ratio_exact ratio_content ratio_reduce p = Ret (c, l), List.Forall (wf ratio_sem) l,
    pval ratio_sem p = @power_product [fieldType of rat] (vc ratio_sem c) (map (pval ratio_sem) l),
    (forall q, List.In q l -> @square_free [fieldType of rat] (pval ratio_sem q) /\
      exists2 W : {poly int}, pval ratio_sem q = map_poly intr W & zcontents W = 1) &
    forall i j, (i < j < size l)%N ->
      coprimep (pval ratio_sem (nth (poly_zero ratio_coef) l i)) (pval ratio_sem (nth (poly_zero ratio_coef) l j))].
Proof. exact yun_spec. Qed.
Print Assumptions C29_square_free_factorization.

Theorem C29_is_square_free_rational : forall p, wf ratio_sem p -> pval ratio_sem p != 0 ->
  exists b, is_square_free ratio_exact ratio_reduce p = Ret b /\
    (b <-> @square_free [fieldType of rat] (pval ratio_sem p)).
Proof. exact ratio_square_free. Qed.
Print Assumptions C29_is_square_free_rational.

Theorem C29_is_square_free_mod_prime : forall m p (m_pos : (0 <? m)%ZZ) (mp : m = Z.of_nat p) (p_pr : prime.prime p) q,
  wf (modp_sem m_pos mp p_pr) q -> pval (modp_sem m_pos mp p_pr) q != 0 ->
  exists b, is_square_free (mod_exact m_pos) (mod_reduce m_pos) q = Ret b /\
    (b <-> @square_free [fieldType of 'F_p] (pval (modp_sem m_pos mp p_pr) q)).
Proof. exact modp_square_free. Qed.
Print Assumptions C29_is_square_free_mod_prime.

(** [12 (x-1) (x+2)^3]: the second factor is 1. *)
Example C29_example :
  yun ratio_exact ratio_content ratio_reduce (qp [:: -(96#1); -(48#1); 72#1; 60#1; 12#1])
  = Ret (Q2Qc (12#1), [:: qp [:: -(1#1); 1]; qp [:: 1]; qp [:: 2#1; 1]]).
Proof. by vm_compute. Qed.

(** ** C34 norms *)
Theorem C34_max_norm_integer : forall p, wf int_sem p ->
  (forall i, `|(pval int_sem p)`_i| <= vc int_sem (max_norm int_abs p)) /\
  (exists i, `|(pval int_sem p)`_i| = vc int_sem (max_norm int_abs p)) /\
  nonzero_max_norm int_abs p = if pval int_sem p == 0 then None else Some (max_norm int_abs p).
Proof. exact max_norm_int. Qed.
Print Assumptions C34_max_norm_integer.

Theorem C34_max_norm_rational : forall p, wf ratio_sem p ->
  (forall i, `|(pval ratio_sem p)`_i| <= vc ratio_sem (max_norm ratio_abs p)) /\
  (exists i, `|(pval ratio_sem p)`_i| = vc ratio_sem (max_norm ratio_abs p)) /\
  nonzero_max_norm ratio_abs p = if pval ratio_sem p == 0 then None else Some (max_norm ratio_abs p).
Proof. exact max_norm_ratio. Qed.
Print Assumptions C34_max_norm_rational.

Theorem C34_manhattan_norm_integer : forall p, wf int_sem p ->
  vc int_sem (manhattan_norm int_abs p) = \sum_(i < size (pval int_sem p)) `|(pval int_sem p)`_i| /\
  nonzero_manhattan_norm int_abs p = if pval int_sem p == 0 then None else Some (manhattan_norm int_abs p).
Proof. exact manhattan_norm_int. Qed.
Print Assumptions C34_manhattan_norm_integer.

Theorem C34_manhattan_norm_rational : forall p, wf ratio_sem p ->
  vc ratio_sem (manhattan_norm ratio_abs p) = \sum_(i < size (pval ratio_sem p)) `|(pval ratio_sem p)`_i| /\
  nonzero_manhattan_norm ratio_abs p = if pval ratio_sem p == 0 then None else Some (manhattan_norm ratio_abs p).
Proof. exact manhattan_norm_ratio. Qed.
Print Assumptions C34_manhattan_norm_rational.

Example C34_example :
  max_norm int_abs (zp [:: 3; -7; 5]) = 7%ZZ /\ manhattan_norm int_abs (zp [:: 3; -7; 5]) = 15%ZZ.
Proof. by []. Qed.

(** ** C66 variable names *)
Theorem C66_variable_names : (forall n, exists s, get_variable_name n = Ret s) /\
  (forall n n' s, get_variable_name n = Ret s -> get_variable_name n' = Ret s -> n = n').
Proof. exact variable_names. Qed.
Print Assumptions C66_variable_names.

Example C66_example :
  get_variable_name 0 = Ret "X"%string /\ get_variable_name 25 = Ret "W"%string /\ get_variable_name 26 = Ret "YX"%string.
Proof. by vm_compute. Qed.
