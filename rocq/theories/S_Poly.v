(** What the polynomial operations should mean: a coefficient type is read in
    a commutative ring [R] of the Mathematical Components library, and a
    polynomial value as the element of [{poly R}] whose coefficients are the
    coefficients the API shows. *)
From Coq Require Import ZArith.
Set Warnings "-notation-overridden,-ambiguous-paths".
From mathcomp Require Import all_ssreflect ssralg poly.
From Verif Require Import M_Base M_Poly.
Set Implicit Arguments.
Unset Strict Implicit.
Unset Printing Implicit Defensive.
Import GRing.Theory.
Local Open Scope ring_scope.

(** A reading of the coefficient type [K] in the ring [R], with the facts about
    the coefficient type that the polynomial code relies on.  [P_PolyInst.v]
    provides it for integers, rationals, integers modulo a prime and
    polynomials. *)
Record coef_sem (K : pcoef) (R : comUnitRingType) := CoefSem {
  ve : elt K -> R;
  vd : dvr K -> R;
  vc : cf K -> R;
  reduced : seq (elt K) -> dvr K -> bool;
  ve_inj : injective ve;
  vc_inj : injective vc;
  vc_surj : forall r, exists c, vc c = r;
  ve0 : ve (e_zero K) = 0;
  ve1 : ve (e_one K) = 1;
  veD : forall x y, ve (e_add x y) = ve x + ve y;
  veB : forall x y, ve (e_sub x y) = ve x - ve y;
  veM : forall x y, ve (e_mul x y) = ve x * ve y;
  veN : forall x, ve (e_neg x) = - ve x;
  veMn : forall x n, ve (e_mul_usize x n) = ve x *+ n;
  ve_is_zero : forall x, e_is_zero x = (ve x == 0);
  ve_is_one : forall x, e_is_one x = (ve x == 1);
  vd_unit : forall d, vd d \is a GRing.unit;
  vd1 : vd (d_one K) = 1;
  vd_is_one : forall d, d_is_one d = (vd d == 1);
  vdM : forall a b, vd (d_mul a b) = vd a * vd b;
  vd_gcdl : forall a b, vd (d_exact_div a (d_gcd a b)) * vd (d_gcd a b) = vd a;
  vd_gcdr : forall a b, vd (d_exact_div b (d_gcd a b)) * vd (d_gcd a b) = vd b;
  vd_lcm : forall a b, vd (d_lcm a b) * vd (d_gcd a b) = vd a * vd b;
  ve_dvr : forall d, ve (d_to_elt d) = vd d;
  vc0 : vc (c_zero K) = 0;
  vc1 : vc (c_one K) = 1;
  vcD : forall x y, vc (c_add x y) = vc x + vc y;
  vcM : forall x y, vc (c_mul x y) = vc x * vc y;
  vcN : forall x, vc (c_neg x) = - vc x;
  vc_is_zero : forall x, c_is_zero x = (vc x == 0);
  vc_pow : forall x n, (0 < n)%N || (vc x != 0) ->
    exists2 r, c_pow_usize x n = Ret r & vc r = vc x ^+ n;
  vc_make : forall e d, vc (make_coef e d) = ve e / vd d;
  vc_to_elt : forall c, vc c = ve (coef_to_elt c).1 / vd (coef_to_elt c).2;
  vc_to_elt_red : forall c, reduced [:: (coef_to_elt c).1] (coef_to_elt c).2;
  vc_to_elts : forall cs,
    [seq ve e / vd (coefs_to_elts cs).2 | e <- (coefs_to_elts cs).1] = map vc cs;
  vc_to_elts_red : forall cs, reduced (coefs_to_elts cs).1 (coefs_to_elts cs).2;
  red_val : forall es d,
    [seq ve e / vd (reduce_divisor es d).2 | e <- (reduce_divisor es d).1]
    = [seq ve e / vd d | e <- es];
  red_red : forall es d, reduced (reduce_divisor es d).1 (reduce_divisor es d).2;
  red_neg : forall es d, reduced es d -> reduced (map (@e_neg K) es) d;
  red_pad : forall es d, reduced es d -> forall n, reduced (nseq n (e_zero K) ++ es) d;
  red_nil : reduced [::] (d_one K);
  red_one : reduced [:: e_one K] (d_one K);
  red_uniq : forall es d es' d', reduced es d -> reduced es' d' ->
    [seq ve e / vd d | e <- es] = [seq ve e / vd d' | e <- es'] ->
    es = es' /\ d = d'
}.

(** The last element, if any, is not zero. *)
Definition last_ok A (isz : A -> bool) (l : seq A) : bool :=
  match rev l with [::] => true | e :: _ => ~~ isz e end.

Section Val.
Variables (K : pcoef) (R : comUnitRingType) (S : coef_sem K R).

(** The value of a polynomial: sum over i of the i-th API coefficient times X^i. *)
Definition pval (p : poly K) : {poly R} := Poly (map (vc S) (coefficients p)).

(** The representation invariant (polynomial.rs:825-827, and elements and
    divisor without common factor): what makes derived equality ([PartialEq],
    [Eq], [Hash]) agree with mathematical equality. *)
Definition wf (p : poly K) : Prop :=
  last_ok (@e_is_zero K) (els p) /\ reduced S (els p) (dv p).

End Val.

(** Exact division of coefficients in an integral domain: it succeeds exactly
    when a quotient exists, and never runs forever. *)
Record exact_sem (K : pcoef) (R : idomainType) (S : coef_sem K R) (X : pexact K) := ExactSem {
  ex_divP : forall a b q, vc S b != 0 -> vc S a = vc S q * vc S b -> ex_div X a b = Ret q;
  ex_divN : forall a b, (vc S b = 0 \/ forall q, vc S a != vc S q * vc S b) -> ex_div X a b = Panic;
  ex_chkP : forall a b q, vc S b != 0 -> vc S a = vc S q * vc S b -> ex_checked X a b = Ret (Some q);
  ex_chkN : forall a b, (vc S b = 0 \/ forall q, vc S a != vc S q * vc S b) ->
    ex_checked X a b = Ret None
}.
