(** Property theorems C13-C23: polynomials.

    [coef_sem K R] (S_Poly.v) reads a coefficient type [K] in a ring [R];
    [pval S p] is the mathematical polynomial in [{poly R}] denoted by the value
    [p], [wf S p] its representation invariant.  The theorems hold for every
    coefficient type that can be read this way; [C13_coefficients_*] give the
    reading for integers, rationals, integers modulo n and polynomials, and the
    [Example]s apply the theorems there. *)
From Coq Require Import ZArith QArith Qcanon Lia.
Set Warnings "-notation-overridden,-ambiguous-paths".
From mathcomp Require Import all_ssreflect all_algebra.
From mathcomp.zify Require Import ssrZ.
From Verif Require Import M_Base M_Traits M_Poly M_PolyCoef S_Poly
  P_Poly P_PolyDiv P_PolyInst P_PolyRef.
Set Implicit Arguments.
Unset Strict Implicit.
Unset Printing Implicit Defensive.
Import GRing.Theory.
Local Open Scope ring_scope.

(** ** The coefficient types *)
Theorem C13_coefficients_int : exists S : coef_sem int_coef [idomainType of int],
  (forall z, vc S z = int_of_Z z) /\ exact_sem S int_exact.
Proof. exact int_coef_ok. Qed.
Print Assumptions C13_coefficients_int.

Theorem C13_coefficients_rational : exists S : coef_sem ratio_coef [fieldType of rat],
  (forall c : Qc, vc S c = (int_of_Z (Qnum c))%:~R / (int_of_Z (Z.pos (Qden c)))%:~R) /\
  @exact_sem _ [idomainType of rat] S ratio_exact.
Proof. exact ratio_coef_ok. Qed.
Print Assumptions C13_coefficients_rational.

Theorem C13_coefficients_mod_prime (p : nat) (H : (0 <? Z.of_nat p)%ZZ) : prime.prime p ->
  exists S : coef_sem (mod_coef H) [fieldType of 'F_p],
  (forall c : residue (Z.of_nat p), vc S c = (int_of_Z (rv c))%:~R) /\
  @exact_sem _ [idomainType of 'F_p] S (mod_exact H).
Proof. exact (@modp_coef_ok p H). Qed.
Print Assumptions C13_coefficients_mod_prime.

Theorem C13_coefficients_mod (n : nat) (H : (0 <? Z.of_nat n)%ZZ) : (1 < n)%N ->
  exists S : coef_sem (mod_coef H) [comUnitRingType of 'Z_n],
  (forall c : residue (Z.of_nat n), vc S c = (int_of_Z (rv c))%:~R).
Proof. exact (@modn_coef_ok n H). Qed.
Print Assumptions C13_coefficients_mod.

Theorem C13_coefficients_nested : exists S : coef_sem int2_coef [idomainType of {poly int}],
  (forall c : npoly int_poly_ok, vc S c = pval int_sem (nv c)) /\ exact_sem S int2_exact.
Proof. exact int2_coef_ok. Qed.
Print Assumptions C13_coefficients_nested.

(** ** C13 normal form *)
Theorem C13_constructors : forall K (R : comUnitRingType) (S : coef_sem K R),
  (forall cs, wf S (from_coefs cs) /\ pval S (from_coefs cs) = Poly (map (vc S) cs)) /\
  (forall cs, wf S (from_iterator cs) /\ pval S (from_iterator cs) = Poly (map (vc S) cs)) /\
  (forall c, wf S (from_coef c) /\ pval S (from_coef c) = (vc S c)%:P) /\
  (forall es d, wf S (from_parts es d) /\
     pval S (from_parts es d) = (vd S d)^-1 *: Poly (map (ve S) es)) /\
  (forall c n, wf S (make_monomial c n) /\ pval S (make_monomial c n) = vc S c *: 'X^n) /\
  (wf S (poly_zero K) /\ pval S (poly_zero K) = 0) /\
  (wf S (poly_one K) /\ pval S (poly_one K) = 1).
Proof. exact constructors_spec. Qed.
Print Assumptions C13_constructors.

(** [==] on polynomials in normal form is equality of the polynomials denoted. *)
Theorem C13_equality : forall K (R : comUnitRingType) (S : coef_sem K R) p q,
  wf S p -> wf S q -> p = q <-> pval S p = pval S q.
Proof. exact poly_eq_iff. Qed.
Print Assumptions C13_equality.

Theorem C13_accessors : forall K (R : comUnitRingType) (S : coef_sem K R) p, wf S p ->
  (forall i, vc S (coefficient p i) = (pval S p)`_i) /\
  (forall i, nonzero_coefficient p i =
     if (i < size (pval S p))%N then Some (coefficient p i) else None) /\
  poly_len p = size (pval S p) /\
  poly_is_zero p = (pval S p == 0) /\
  poly_is_one p = (pval S p == 1) /\
  degree p = (if pval S p == 0 then None else Some (size (pval S p)).-1) /\
  nonzero_lead p = (if pval S p == 0 then None else Some (lead p)) /\
  vc S (lead p) = lead_coef (pval S p) /\
  map (vc S) (coefficients p) = pval S p /\
  from_coefs (coefficients p) = p.
Proof. exact access_spec. Qed.
Print Assumptions C13_accessors.

(** Every mathematical polynomial is denoted by some value. *)
Theorem C13_complete : forall K (R : comUnitRingType) (S : coef_sem K R) (P : {poly R}),
  exists2 p, wf S p & pval S p = P.
Proof. exact pval_surj. Qed.
Print Assumptions C13_complete.

Example C13_example :
  from_coefs (K := int_coef) [:: 3; 0; 5; 0; 0]%ZZ = MkPoly (K := int_coef) [:: 3; 0; 5]%ZZ tt /\
  from_coefs (K := ratio_coef) [:: Q2Qc (1 # 2); Q2Qc (1 # 3); Q2Qc 0]
    = MkPoly (K := ratio_coef) [:: 3; 2]%ZZ 6%positive /\
  wf ratio_sem (from_coefs (K := ratio_coef) [:: Q2Qc (1 # 2); Q2Qc (1 # 3)]).
Proof. by split; [|split; [|exact: wf_from_coefs]]. Qed.

(** ** C14 addition, subtraction, negation *)
Theorem C14_add_sub_neg : forall K (R : comUnitRingType) (S : coef_sem K R) p q, wf S p ->
  (wf S (poly_add p q) /\ pval S (poly_add p q) = pval S p + pval S q) /\
  (wf S (poly_sub p q) /\ pval S (poly_sub p q) = pval S p - pval S q) /\
  (wf S (poly_neg p) /\ pval S (poly_neg p) = - pval S p) /\
  (wf S (negate p) /\ pval S (negate p) = - pval S p).
Proof.
exact (fun K R S p q H => conj (add_spec q H) (conj (sub_spec q H)
        (conj (neg_spec S p) (negate_spec H)))).
Qed.
Print Assumptions C14_add_sub_neg.

Example C14_example :
  let p := from_coefs (K := int_coef) [:: 1; 2; 3]%ZZ in
  let q := from_coefs (K := int_coef) [:: 4; 5; -3]%ZZ in
  wf int_sem p /\ poly_add p q = from_coefs (K := int_coef) [:: 5; 7]%ZZ.
Proof. by split; [exact: wf_from_coefs|]. Qed.

(** ** C15 polynomial plus or minus a single coefficient *)
(** When the coefficient type has no denominators (integers, modular integers,
    polynomials over them) the operations are right. *)
Theorem C15_single_no_divisor_partial : forall K (R : comUnitRingType) (S : coef_sem K R) p c,
  (forall d, vd S d = 1) ->
  (wf S (poly_add_single p c) /\ pval S (poly_add_single p c) = pval S p + (vc S c)%:P) /\
  (wf S (poly_sub_single p c) /\ pval S (poly_sub_single p c) = pval S p - (vc S c)%:P).
Proof.
exact (fun K R S p c H => conj (add_single_spec p c H) (sub_single_spec p c H)).
Qed.
Print Assumptions C15_single_no_divisor_partial.

Example C15_example : (forall d, vd int_sem d = 1) /\ (forall d, vd int2_sem d = 1) /\
  poly_add_single (from_coefs (K := int_coef) [:: 1; 2]%ZZ) 7%ZZ = from_coefs (K := int_coef) [:: 8; 2]%ZZ.
Proof. by []. Qed.

(** For rationals they are not. *)
Theorem C15_rational_refuted : exists (p : poly ratio_coef) (c : Qc),
  wf ratio_sem p /\
  pval ratio_sem (poly_add_single p c) <> pval ratio_sem p + (vc ratio_sem c)%:P /\
  pval ratio_sem (poly_sub_single p c) <> pval ratio_sem p - (vc ratio_sem c)%:P.
Proof. exact add_single_ratio_refuted. Qed.
Print Assumptions C15_rational_refuted.

(** ** C16 multiplication *)
Theorem C16_mul : forall K (R : comUnitRingType) (S : coef_sem K R) p q,
  wf S (poly_mul p q) /\ pval S (poly_mul p q) = pval S p * pval S q.
Proof. exact mul_spec. Qed.
Print Assumptions C16_mul.

Theorem C16_mul_single : forall K (R : comUnitRingType) (S : coef_sem K R) p c,
  wf S (poly_mul_single p c) /\ pval S (poly_mul_single p c) = vc S c *: pval S p.
Proof. exact mul_single_spec. Qed.
Print Assumptions C16_mul_single.

Example C16_example :
  poly_mul (from_coefs (K := int_coef) [:: 1; 1]%ZZ) (from_coefs (K := int_coef) [:: -1; 1]%ZZ)
  = from_coefs (K := int_coef) [:: -1; 0; 1]%ZZ /\
  poly_mul_single (from_coefs (K := ratio_coef) [:: Q2Qc (1 # 2); Q2Qc 3]) (Q2Qc (2 # 3))
  = from_coefs (K := ratio_coef) [:: Q2Qc (1 # 3); Q2Qc 2].
Proof. by []. Qed.

(** ** C17 powers *)
Theorem C17_pow : forall K (R : comUnitRingType) (S : coef_sem K R) p (e : Z), wf S p ->
  match poly_checked_pow p e with
  | Some r => (0 <= e)%ZZ /\ wf S r /\ pval S r = pval S p ^+ Z.to_nat e /\ poly_pow p e = Ret r
  | None => ((e < 0)%ZZ \/ (e = 0%ZZ /\ pval S p = 0)) /\ poly_pow p e = Panic
  end.
Proof. exact pow_spec. Qed.
Print Assumptions C17_pow.

(** [None] is returned in exactly these cases. *)
Theorem C17_pow_defined : forall K (R : comUnitRingType) (S : coef_sem K R) p (e : Z), wf S p ->
  ((e < 0)%ZZ \/ (e = 0%ZZ /\ pval S p = 0) -> poly_checked_pow p e = None) /\
  ((0 <= e)%ZZ -> ~ (e = 0%ZZ /\ pval S p = 0) ->
   exists r, poly_checked_pow p e = Some r /\ wf S r /\ pval S r = pval S p ^+ Z.to_nat e).
Proof. exact checked_pow_spec. Qed.
Print Assumptions C17_pow_defined.

Example C17_example :
  poly_checked_pow (from_coefs (K := int_coef) [:: 1; 1]%ZZ) 3 = Some (from_coefs (K := int_coef) [:: 1; 3; 3; 1]%ZZ).
Proof. by []. Qed.

(** ** C18 evaluation and derivative *)
Theorem C18_eval : forall K (R : comUnitRingType) (S : coef_sem K R) p x,
  vc S (eval p x) = (pval S p).[vc S x].
Proof. exact eval_spec. Qed.
Print Assumptions C18_eval.

(** Evaluation at a value of another type [V], read in a ring [T] over [R]. *)
Theorem C18_eval_generic : forall K (R : comUnitRingType) (S : coef_sem K R)
    (T : comRingType) V (vv : V -> T) (f : {rmorphism R -> T}) vmul vadd,
  (forall v x, vv (vmul v x) = vv v * vv x) ->
  (forall v c, vv (vadd v c) = vv v + f (vc S c)) ->
  forall p x zero, vv zero = 0 ->
  vv (eval_generic vmul vadd p x zero) = (map_poly f (pval S p)).[vv x].
Proof.
exact (fun K R S T V vv f vm va H1 H2 p x z => @eval_generic_spec K R S T V vv f vm va p x z H1 H2).
Qed.
Print Assumptions C18_eval_generic.

Theorem C18_derivative : forall K (R : comUnitRingType) (S : coef_sem K R) p, wf S p ->
  wf S (derivative p) /\ pval S (derivative p) = (pval S p)^`().
Proof. exact derivative_spec. Qed.
Print Assumptions C18_derivative.

Example C18_example :
  derivative (from_coefs (K := int_coef) [:: 1; 2; 3]%ZZ) = from_coefs (K := int_coef) [:: 2; 6]%ZZ /\
  eval (from_coefs (K := int_coef) [:: 1; 2; 3]%ZZ) 10%ZZ = 321%ZZ.
Proof. by []. Qed.

(** ** C19 pseudo-division *)
Theorem C19_pseudo_div : forall K (R : comUnitRingType) (S : coef_sem K R) p q, wf S p -> wf S q ->
  match checked_pseudo_div_rem p q with
  | None => pval S q = 0 /\ pseudo_div_rem p q = Panic
  | Some (PDR a b f) =>
      [/\ pval S q != 0, pseudo_div_rem p q = Ret (PDR a b f), wf S a /\ wf S b,
          vc S f *: pval S p = pval S q * pval S a + pval S b
        & (size (pval S b) < size (pval S q))%N /\
          vc S f = lead_coef (pval S q) ^+ ((size (pval S p)).+1 - size (pval S q))]
  end.
Proof. exact pseudo_div_rem_spec. Qed.
Print Assumptions C19_pseudo_div.

Example C19_example :
  checked_pseudo_div_rem (from_coefs (K := int_coef) [:: 1; 0; 1]%ZZ) (from_coefs (K := int_coef) [:: 1; 2]%ZZ)
  = Some (PDR (from_coefs (K := int_coef) [:: -1; 2]%ZZ) (from_coefs (K := int_coef) [:: 5]%ZZ) (4%ZZ : cf int_coef)).
Proof. by []. Qed.

(** ** C20 division with remainder *)
Theorem C20_field_division : forall K (F : fieldType) (S : coef_sem K F) (X : pexact K),
  exact_sem S X -> forall p q, wf S p -> wf S q ->
  if pval S q == 0 then
    [/\ div_rem X p q = Panic, poly_div X p q = Panic, poly_rem X p q = Panic,
        checked_div_rem X p q = Ret None
      & checked_div X p q = Ret None /\ checked_rem X p q = Ret None]
  else exists a b,
    [/\ div_rem X p q = Ret (a, b), poly_div X p q = Ret a, poly_rem X p q = Ret b,
        checked_div_rem X p q = Ret (Some (a, b)) /\
        checked_div X p q = Ret (Some a) /\ checked_rem X p q = Ret (Some b)
      & [/\ wf S a, wf S b, pval S p = pval S a * pval S q + pval S b
          & (size (pval S b) < size (pval S q))%N]].
Proof. exact field_division. Qed.
Print Assumptions C20_field_division.

(** Over a domain such as the integers division with remainder may be
    impossible; then it fails, and only then. *)
Theorem C20_domain_division : forall K (R : idomainType) (S : coef_sem K R) (X : pexact K),
  exact_sem S X -> forall p q, wf S p -> wf S q ->
  match checked_div_rem X p q with
  | Ret (Some (a, b)) =>
      [/\ wf S a /\ wf S b, pval S p = pval S a * pval S q + pval S b,
          (size (pval S b) < size (pval S q))%N,
          div_rem X p q = Ret (a, b)
        & [/\ poly_div X p q = Ret a, poly_rem X p q = Ret b,
              checked_div X p q = Ret (Some a) & checked_rem X p q = Ret (Some b)]]
  | Ret None =>
      [/\ pval S q = 0 \/ (forall A B : {poly R}, (size B < size (pval S q))%N ->
                             A * pval S q + B != pval S p),
          div_rem X p q = Panic, poly_div X p q = Panic & checked_div X p q = Ret None]
  | _ => False
  end.
Proof. exact div_rem_spec. Qed.
Print Assumptions C20_domain_division.

Example C20_example :
  let p := from_coefs (K := ratio_coef) [:: Q2Qc 1; Q2Qc 0; Q2Qc 1] in
  let q := from_coefs (K := ratio_coef) [:: Q2Qc 1; Q2Qc 2] in
  checked_div_rem ratio_exact p q =
    Ret (Some (from_coefs (K := ratio_coef) [:: Q2Qc (-1 # 4); Q2Qc (1 # 2)],
               from_coefs (K := ratio_coef) [:: Q2Qc (5 # 4)])).
Proof. by vm_compute. Qed.

(** ** C21 exact division *)
Theorem C21_exact_div : forall K (R : idomainType) (S : coef_sem K R) (X : pexact K),
  exact_sem S X -> forall p q, wf S p -> wf S q ->
  match checked_exact_div X p q with
  | Ret (Some s) => [/\ wf S s, pval S q != 0, pval S s * pval S q = pval S p & exact_div X p q = Ret s]
  | Ret None => (pval S q = 0 \/ forall Q, Q * pval S q != pval S p) /\ exact_div X p q = Panic
  | _ => False
  end.
Proof. exact exact_div_spec. Qed.
Print Assumptions C21_exact_div.

Theorem C21_div_single : forall K (R : idomainType) (S : coef_sem K R) (X : pexact K),
  exact_sem S X -> forall p c, wf S p ->
  match checked_div_single X p c with
  | Ret (Some s) => [/\ wf S s, vc S c *: pval S s = pval S p & div_single X p c = Ret s]
  | Ret None => ((vc S c = 0 /\ pval S p != 0) \/ forall Q, vc S c *: Q != pval S p) /\
                div_single X p c = Panic
  | _ => False
  end.
Proof. exact div_single_spec. Qed.
Print Assumptions C21_div_single.

Example C21_example :
  checked_exact_div int_exact (from_coefs (K := int_coef) [:: -2; 0; 2]%ZZ) (from_coefs (K := int_coef) [:: 1; 1]%ZZ)
    = Ret (Some (from_coefs (K := int_coef) [:: -2; 2]%ZZ)) /\
  checked_exact_div int_exact (from_coefs (K := int_coef) [:: -1; 0; 1]%ZZ) (from_coefs (K := int_coef) [:: 2; 2]%ZZ)
    = Ret None.
Proof. by []. Qed.

(** ** C22 failed in-place division *)
Theorem C22_div_assign_poly_partial : forall K (R : idomainType) (S : coef_sem K R) (X : pexact K),
  exact_sem S X -> forall p q, wf S p -> wf S q ->
  exists r b, checked_exact_div_assign X p q = Ret (r, b) /\
    (if b then pval S r * pval S q = pval S p else r = p).
Proof. exact div_assign_spec. Qed.
Print Assumptions C22_div_assign_poly_partial.

Theorem C22_div_assign_single_partial : forall K (R : idomainType) (S : coef_sem K R) (X : pexact K),
  exact_sem S X -> forall p c, wf S p ->
  exists r b, checked_div_assign_single X p c = Ret (r, b) /\
    (if b then vc S c *: pval S r = pval S p else r = poly_zero K).
Proof. exact div_assign_single_spec. Qed.
Print Assumptions C22_div_assign_single_partial.

(** Dividing in place by a coefficient destroys the operand on failure. *)
Theorem C22_div_assign_single_refuted : exists (p r : poly int_coef) (c : Z),
  wf int_sem p /\ checked_div_assign_single int_exact p c = Ret (r, false) /\ r <> p.
Proof. exact div_assign_single_refuted. Qed.
Print Assumptions C22_div_assign_single_refuted.

Example C22_example :
  checked_exact_div_assign int_exact (from_coefs (K := int_coef) [:: -1; 0; 1]%ZZ) (from_coefs (K := int_coef) [:: 2; 2]%ZZ)
  = Ret (from_coefs (K := int_coef) [:: -1; 0; 1]%ZZ, false).
Proof. by []. Qed.

(** ** C23 modular powers *)
Theorem C23_powmod : forall K (F : fieldType) (S : coef_sem K F) (X : pexact K),
  exact_sem S X -> forall p (e : Z) m, wf S p -> wf S m ->
  match checked_powmod X p e m with
  | Ret (Some r) =>
      [/\ powmod X p e m = Ret r, wf S r, (0 <= e)%ZZ,
          pval S r %% pval S m = (pval S p ^+ Z.to_nat e) %% pval S m
        & (1 < size (pval S m))%N || ((0 <? e)%ZZ && (pval S m != 0)) ->
            (size (pval S r) < size (pval S m))%N]
  | Ret None => powmod X p e m = Panic /\
      ((e < 0)%ZZ \/ (e = 0%ZZ /\ pval S p = 0) \/ ((0 < e)%ZZ /\ pval S m = 0))
  | _ => False
  end.
Proof. exact powmod_all. Qed.
Print Assumptions C23_powmod.

Example C23_example :
  let c z := mk_residue (m := 5%ZZ) (erefl true) z in
  let p := from_coefs (K := mod_coef (m := 5%ZZ) (erefl true)) [:: c 1%ZZ; c 1%ZZ] in
  let m := from_coefs (K := mod_coef (m := 5%ZZ) (erefl true)) [:: c 2%ZZ; c 0%ZZ; c 1%ZZ] in
  rmap (omap (fun r : poly (mod_coef (m := 5%ZZ) (erefl true)) => map (@rv 5%ZZ) (els r))) (checked_powmod (mod_exact (m := 5%ZZ) (erefl true)) p 7 m)
  = Ret (Some [:: 3; 3]%ZZ).
Proof. by vm_compute. Qed.
