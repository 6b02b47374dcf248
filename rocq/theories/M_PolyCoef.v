(** Model of the remaining coefficient types of /repo/src/polynomial.rs:
    modular integers (mod_int.rs:1137-1252) and polynomials themselves
    (polynomial.rs:703-798).  The invariants of these types (value reduced
    modulo the modulus; no trailing zero coefficient) are kept in sigma types
    over decidable predicates. *)
From Coq Require Import ZArith Lia.
Set Warnings "-notation-overridden".
From mathcomp Require Import ssreflect ssrfun ssrbool eqtype ssrnat seq.
From Verif Require Import M_Base M_Traits M_ModInt M_Poly.
Set Implicit Arguments.
Unset Strict Implicit.
Unset Printing Implicit Defensive.

(** * Modular integers *)
Section ModCoef.
Variable m : Z.
Hypothesis m_pos : (0 <? m)%Z.

(** Values of ModularInteger with modulus [m] (mod_int.rs:637-641). *)
Definition residue := {z : Z | ((0 <=? z) && (z <? m))%Z}.
Lemma residue_proof (z : Z) : ((0 <=? z mod m) && (z mod m <? m))%Z.
Proof.
have H := Z.mod_pos_bound z m (proj1 (Z.ltb_lt _ _) m_pos).
apply/andP; split; [apply/Z.leb_le|apply/Z.ltb_lt]; apply H.
Qed.
(** mod_int.rs:675-678 new *)
Definition mk_residue (z : Z) : residue := exist _ (z mod m)%Z (residue_proof z).
Definition rv (x : residue) : Z := proj1_sig x.

(** mod_int.rs:1137-1234: element = coefficient, Divisor = DivisorIsOne.  The
    arithmetic is that of M_ModInt.v with equal moduli (P_PolyInst.v,
    [mod_coef_agrees]). *)
Definition mod_coef : pcoef := {|
  elt := residue; dvr := unit; cf := residue;
  e_zero := mk_residue 0; e_one := mk_residue 1;
  e_is_zero := fun x => (rv x =? 0)%Z; e_is_one := fun x => (rv x =? 1)%Z;
  e_add := fun x y => mk_residue (rv x + rv y);
  e_sub := fun x y => mk_residue (rv x - rv y);
  e_mul := fun x y => mk_residue (rv x * rv y);
  e_neg := fun x => mk_residue (- rv x);
  e_mul_usize := fun x n => mk_residue (rv x * Z.of_nat n);
  d_one := tt; d_is_one := fun _ => true; d_mul := fun _ _ => tt;
  d_exact_div := fun _ _ => tt; d_gcd := fun _ _ => tt; d_lcm := fun _ _ => tt;
  d_to_elt := fun _ => mk_residue 1;
  c_zero := mk_residue 0; c_one := mk_residue 1; c_is_zero := fun x => (rv x =? 0)%Z;
  c_add := fun x y => mk_residue (rv x + rv y);
  c_mul := fun x y => mk_residue (rv x * rv y);
  c_neg := fun x => mk_residue (- rv x);
  c_pow_usize := fun x n => rmap (fun r => mk_residue (mi_value r)) (mi_pow IBig (MI (rv x) m) n);
  coefs_to_elts := fun cs => (cs, tt);
  make_coef := fun e _ => e;
  coef_to_elt := fun c => (c, tt);
  reduce_divisor := fun es d => (es, d)
|}.
(** mod_int.rs:1079-1135 ExactDiv *)
Definition mod_exact : pexact mod_coef :=
  @PExact mod_coef
    (fun a b => rmap (fun r => mk_residue (mi_value r)) (mi_div IBig (MI (rv a) m) (MI (rv b) m)))
    (fun a b => rmap (omap (fun r => mk_residue (mi_value r)))
                     (mi_checked_div IBig (MI (rv a) m) (MI (rv b) m))).
End ModCoef.

(** * Polynomials as coefficients *)
Section PolyCoef.
Variables (K : pcoef) (X : pexact K) (ok : poly K -> bool).
Hypothesis okN : forall p : poly K, ok (normalize p).

(** Normal-form polynomials; [mk_npoly] re-normalizes, which does nothing to
    the results of the operations below (they end in [normalize]). *)
Definition npoly := {p : poly K | ok p}.
Definition mk_npoly (p : poly K) : npoly := exist _ (normalize p) (okN p).
Definition nv (x : npoly) : poly K := proj1_sig x.

(** polynomial.rs:703-798, for coefficient types with Divisor = DivisorIsOne.
    mul_assign_element_by_usize (765-769) multiplies every sub-element and
    does not renormalize; over the integers a nonzero multiplier (the only
    use, in [derivative]) leaves nothing to renormalize. *)
Definition poly_coef : pcoef := {|
  elt := npoly; dvr := unit; cf := npoly;
  e_zero := mk_npoly (poly_zero K); e_one := mk_npoly (poly_one K);
  e_is_zero := fun x => poly_is_zero (nv x); e_is_one := fun x => poly_is_one (nv x);
  e_add := fun x y => mk_npoly (poly_add (nv x) (nv y));
  e_sub := fun x y => mk_npoly (poly_sub (nv x) (nv y));
  e_mul := fun x y => mk_npoly (poly_mul (nv x) (nv y));
  e_neg := fun x => mk_npoly (poly_neg (nv x));
  e_mul_usize := fun x n =>
    mk_npoly (MkPoly [seq e_mul_usize e n | e <- els (nv x)] (dv (nv x)));
  d_one := tt; d_is_one := fun _ => true; d_mul := fun _ _ => tt;
  d_exact_div := fun _ _ => tt; d_gcd := fun _ _ => tt; d_lcm := fun _ _ => tt;
  d_to_elt := fun _ => mk_npoly (poly_one K);
  c_zero := mk_npoly (poly_zero K); c_one := mk_npoly (poly_one K);
  c_is_zero := fun x => poly_is_zero (nv x);
  c_add := fun x y => mk_npoly (poly_add (nv x) (nv y));
  c_mul := fun x y => mk_npoly (poly_mul (nv x) (nv y));
  c_neg := fun x => mk_npoly (poly_neg (nv x));
  c_pow_usize := fun x n => rmap mk_npoly (poly_pow (nv x) (Z.of_nat n));
  coefs_to_elts := fun cs => (cs, tt);
  make_coef := fun e _ => e;
  coef_to_elt := fun c => (c, tt);
  reduce_divisor := fun es d => (es, d)
|}.
(** div_rem.rs:203-213, 246-253 *)
Definition poly_exact : pexact poly_coef :=
  @PExact poly_coef
    (fun a b => rmap mk_npoly (exact_div X (nv a) (nv b)))
    (fun a b => rmap (omap mk_npoly) (checked_exact_div X (nv a) (nv b))).
End PolyCoef.

(** Polynomial<Polynomial<BigInt>> *)
Definition int_poly_ok (p : poly int_coef) : bool :=
  match rev (els p) with [::] => true | e :: _ => ~~ (0 =? e)%Z end.
