(** Property theorems C01, C03, C11 and C12, continued: for exactly which inputs
    the cases refuted in T_Int.v and T_ModInt.v occur. *)
From Coq Require Import ZArith QArith.
From Verif Require Import M_Base M_Traits M_ModInt S_ModInt P_IntExact.
Local Open Scope Z_scope.

(** gcd times lcm is the product exactly when the product is not negative. *)
Theorem C01_documented_product : forall a b, int_gcd a b * int_lcm a b = a * b <-> 0 <= a * b.
Proof. exact product_iff. Qed.
Print Assumptions C01_documented_product.

(** The gcd of two fractions is negative exactly when one of them is zero and the
    other negative. *)
Theorem C03_negative : forall a b g l, ratio_gcd_lcm a b = Ret (g, l) ->
  ((g < 0)%Q <-> ((a == 0 /\ b < 0) \/ (b == 0 /\ a < 0))%Q).
Proof. exact negative_iff. Qed.
Print Assumptions C03_negative.

(** In the zero ring no inverse is found, for any type. *)
Theorem C11_modulus_one : forall t a, mi_canonical a -> mi_modulus a = 1 ->
  mi_value a = 0 /\ mi_checked_inverse t a = Ret None /\ mi_inverse t a = Panic.
Proof. exact inverse_one. Qed.
Print Assumptions C11_modulus_one.

(** A modular power is wrong exactly for exponent 0 and modulus 1 in the machine
    integer types. *)
Theorem C12_pow : forall t b e m, 0 < m -> fits t m = true -> 0 <= e ->
  (pow_modular_reduce t b e m = Ret (b ^ e mod m) <-> ~ (t <> IBig /\ t <> IBigU /\ e = 0 /\ m = 1)).
Proof. exact pow_iff. Qed.
Print Assumptions C12_pow.

(** Negative exponents are refused by the big integer types; in the machine
    integer types the sign of the exponent is ignored. *)
Theorem C12_negative_exponent : forall t b e m, 0 < m -> fits t m = true -> e < 0 ->
  pow_modular_reduce t b e m = match t with IBig | IBigU => Panic | _ => Ret (b ^ (- e) mod m) end.
Proof. exact pow_negative. Qed.
Print Assumptions C12_negative_exponent.

Example C12_exact_example :
  pow_modular_reduce IBig 5 0 1 = Ret 0 /\ pow_modular_reduce (IUnsigned 32) 5 0 1 = Ret 1 /\ fits (IUnsigned 32) 1 = true /\
  pow_modular_reduce (ISigned 32) 3 (-2) 7 = Ret 2 /\ pow_modular_reduce IBig 3 (-2) 7 = Panic /\
  mi_canonical (MI 0 1) /\ ratio_gcd_lcm 0 (-1 # 2) = Ret ((-1 # 2), 0)%Q /\
  int_gcd 4 (-6) * int_lcm 4 (-6) = 24.
Proof. repeat split; discriminate. Qed.
