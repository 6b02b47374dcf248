(** Property theorems C10-C12: modular integers. *)
From Coq Require Import ZArith.
From Verif Require Import M_Base M_ModInt S_ModInt P_ModInt P_Extras.
Local Open Scope Z_scope.

(** C10: for every integer type and every positive modulus of that type, the
    residue classes of any two integers are built, combined and compared
    exactly as in Z/mZ; no step overflows (all results are [Ret]). *)
Theorem C10_modular_arithmetic : forall t x y m, 0 < m -> fits t m = true ->
  exists a b, mi_from_bigint t x m = Ret a /\ mi_from_bigint t y m = Ret b /\
    mi_add t a b = mi_from_bigint t (x + y) m /\
    mi_sub t a b = mi_from_bigint t (x - y) m /\
    mi_mul t a b = mi_from_bigint t (x * y) m /\
    mi_neg t a = mi_from_bigint t (- x) m /\
    mi_checked_add t a b = rmap Some (mi_from_bigint t (x + y) m) /\
    mi_checked_sub t a b = rmap Some (mi_from_bigint t (x - y) m) /\
    mi_checked_mul t a b = rmap Some (mi_from_bigint t (x * y) m) /\
    mi_value a = x mod m /\ mi_modulus a = m /\
    (mi_eqb a b = true <-> (m | x - y)).
Proof. exact mi_arith_ok. Qed.
Print Assumptions C10_modular_arithmetic.

Theorem C10_new_reduces : forall t v m, 0 < m -> mi_new t v m = Ret (MI (v mod m) m).
Proof. exact mi_new_ok. Qed.
Print Assumptions C10_new_reduces.

Theorem C10_results_canonical : forall t a b,
  fits t (mi_modulus a) = true -> mi_canonical a -> mi_canonical b ->
  (forall c, mi_add t a b = Ret c \/ mi_sub t a b = Ret c \/ mi_mul t a b = Ret c \/ mi_neg t a = Ret c ->
     mi_canonical c /\ mi_modulus c = mi_modulus a) /\
  mi_neg t a <> Panic /\
  (mi_modulus a = mi_modulus b ->
     is_ret (mi_add t a b) = true /\ is_ret (mi_sub t a b) = true /\ is_ret (mi_mul t a b) = true).
Proof. exact mi_canonical_ops. Qed.
Print Assumptions C10_results_canonical.

Theorem C10_mul_by_usize : forall t a k m, 0 < m -> fits t m = true -> 0 <= a < m ->
  mi_mul_usize t (MI a m) k = Ret (MI ((a * Z.of_nat k) mod m) m).
Proof. exact mi_mul_usize_ok. Qed.
Print Assumptions C10_mul_by_usize.

(** The zero and the one with the modulus of an element are neutral. *)
Theorem C10_zero_one : forall t a, fits t (mi_modulus a) = true -> mi_canonical a ->
  exists z o, mi_zero_like t a = Ret z /\ mi_one_like t a = Ret o /\
    mi_add t a z = Ret a /\ mi_add t z a = Ret a /\
    mi_mul t a o = Ret a /\ mi_mul t o a = Ret a.
Proof. exact mi_neutral. Qed.
Print Assumptions C10_zero_one.

Example C10_example :
  mi_add (IUnsigned 8) (MI 250 255) (MI 251 255) = Ret (MI 246 255) /\
  mi_mul (ISigned 8) (MI 126 127) (MI 126 127) = Ret (MI 1 127) /\
  fits (IUnsigned 8) 255 = true /\ fits (ISigned 8) 127 = true.
Proof. repeat split. Qed.

(** Outside positive moduli the type accepts values its own arithmetic cannot
    handle: a zero modulus makes addition panic, a negative modulus makes
    congruent values compare unequal. *)
Theorem C10_zero_modulus_refuted : exists t a b,
  mi_new t 3 0 = Ret a /\ mi_new t 4 0 = Ret b /\ mi_add t a b = Panic.
Proof. exact zero_modulus_refuted. Qed.
Print Assumptions C10_zero_modulus_refuted.

Theorem C10_negative_modulus_refuted : exists t a b c d,
  mi_new t (-2) (-5) = Ret a /\ mi_new t (-3) (-5) = Ret b /\ mi_mul t a b = Ret c /\
  mi_new t 6 (-5) = Ret d /\ mi_eqb c d = false.
Proof. exact negative_modulus_refuted. Qed.
Print Assumptions C10_negative_modulus_refuted.

(** C11: inverses and division, for every modulus above 1 (including all
    intermediate values of the extended Euclid loop staying in range). *)
Theorem C11_checked_inverse_partial : forall t a,
  signed_ty t = true -> fits t (mi_modulus a) = true -> mi_canonical a -> 1 < mi_modulus a ->
  exists o, mi_checked_inverse t a = Ret o /\
   match o with
   | Some i => mi_canonical i /\ mi_modulus i = mi_modulus a /\
               (mi_value a * mi_value i) mod mi_modulus a = 1
   | None => forall k, (mi_value a * k) mod mi_modulus a <> 1
   end.
Proof. exact mi_checked_inverse_ok. Qed.
Print Assumptions C11_checked_inverse_partial.

Theorem C11_division_partial : forall t a b,
  signed_ty t = true -> fits t (mi_modulus a) = true ->
  mi_canonical a -> mi_canonical b -> mi_modulus a = mi_modulus b -> 1 < mi_modulus a ->
  (exists q, mi_checked_div t a b = Ret (Some q) /\ mi_div t a b = Ret q /\
     mi_checked_exact_div_assign t a b = Ret (q, true) /\
     mi_canonical q /\ mi_modulus q = mi_modulus a /\
     mi_mul t q b = Ret a /\ exists k, (mi_value b * k) mod mi_modulus a = 1)
  \/ (mi_checked_div t a b = Ret None /\ mi_div t a b = Panic /\
     mi_checked_exact_div_assign t a b = Ret (a, false) /\
      forall k, (mi_value b * k) mod mi_modulus a <> 1).
Proof. exact mi_div_ok. Qed.
Print Assumptions C11_division_partial.

Theorem C11_mismatched_moduli_fail : forall t a b, mi_modulus a <> mi_modulus b ->
  mi_add t a b = Panic /\ mi_sub t a b = Panic /\ mi_mul t a b = Panic /\
  mi_checked_add t a b = Ret None /\ mi_checked_sub t a b = Ret None /\ mi_checked_mul t a b = Ret None.
Proof. exact mi_mismatch. Qed.
Print Assumptions C11_mismatched_moduli_fail.

Theorem C11_mismatched_division_fails : forall t a b,
  signed_ty t = true -> fits t (mi_modulus b) = true -> mi_canonical b -> 1 < mi_modulus b ->
  mi_modulus a <> mi_modulus b ->
  mi_div t a b = Panic /\ mi_checked_div t a b = Ret None.
Proof. exact mi_div_mismatch. Qed.
Print Assumptions C11_mismatched_division_fails.

(** In the zero ring Z/1Z every element is invertible, but the code reports
    that 0 has no inverse. *)
Theorem C11_modulus_one_refuted : exists t a,
  mi_canonical a /\ mi_modulus a = 1 /\ mi_checked_inverse t a = Ret None /\
  exists k, (mi_value a * k - 1) mod mi_modulus a = 0.
Proof. exact inverse_mod1_refuted. Qed.
Print Assumptions C11_modulus_one_refuted.

Example C11_example :
  mi_checked_inverse (ISigned 8) (MI 50 127) = Ret (Some (MI 94 127)) /\
  mi_checked_inverse IBig (MI 6 9) = Ret None /\
  mi_checked_div (ISigned 32) (MI 3 7) (MI 5 7) = Ret (Some (MI 2 7)).
Proof. repeat split. Qed.

(** C12: modular exponentiation. *)
Theorem C12_pow_partial : forall t b e m, 0 < m -> fits t m = true -> 0 <= e -> (e = 0 -> 1 < m) ->
  pow_modular_reduce t b e m = Ret (b ^ e mod m).
Proof. exact pow_modular_reduce_ok. Qed.
Print Assumptions C12_pow_partial.

Theorem C12_pow_modular_integer_partial : forall t a e,
  fits t (mi_modulus a) = true -> mi_canonical a -> (e = 0%nat -> 1 < mi_modulus a) ->
  mi_pow t a e = Ret (MI (mi_value a ^ Z.of_nat e mod mi_modulus a) (mi_modulus a)).
Proof. exact mi_pow_ok. Qed.
Print Assumptions C12_pow_modular_integer_partial.

(** Exponent 0 with modulus 1 returns 1, which is not a residue mod 1. *)
Theorem C12_modulus_one_refuted : exists t b,
  fits t 1 = true /\ pow_modular_reduce t b 0 1 = Ret 1 /\ b ^ 0 mod 1 = 0.
Proof. exact pow_mod1_refuted. Qed.
Print Assumptions C12_modulus_one_refuted.

Example C12_example : pow_modular_reduce (IUnsigned 32) 3 200 1000003 = Ret 333986
  /\ fits (IUnsigned 32) 1000003 = true.
Proof. split; vm_compute; reflexivity. Qed.
