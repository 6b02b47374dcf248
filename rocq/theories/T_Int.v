(** Property theorems C01-C09, C65: integer helpers, primes, subsets, signs. *)
From Coq Require Import ZArith QArith Qabs List Znumtheory Sorted.
From Verif Require Import M_Base M_Traits M_PrimeTable M_Util S_Int P_Traits P_TraitsB P_Util.
Import ListNotations.
Local Open Scope Z_scope.

(** C01: gcd and lcm of integers. *)
Theorem C01_gcd_is_greatest_common_divisor : forall a b,
  0 <= int_gcd a b /\ (int_gcd a b | a) /\ (int_gcd a b | b) /\
  (forall d, (d | a) -> (d | b) -> (d | int_gcd a b)).
Proof. exact int_gcd_spec. Qed.
Print Assumptions C01_gcd_is_greatest_common_divisor.

Theorem C01_lcm_is_least_common_multiple : forall a b,
  0 <= int_lcm a b /\ (a | int_lcm a b) /\ (b | int_lcm a b) /\
  (forall m, (a | m) -> (b | m) -> (int_lcm a b | m)).
Proof. exact int_lcm_spec. Qed.
Print Assumptions C01_lcm_is_least_common_multiple.

Theorem C01_gcd_times_lcm_partial : forall a b,
  int_gcd_lcm a b = (int_gcd a b, int_lcm a b) /\
  int_gcd a b * int_lcm a b = Z.abs (a * b).
Proof. exact (fun a b => conj eq_refl (int_gcd_lcm_abs a b)). Qed.
Print Assumptions C01_gcd_times_lcm_partial.

(** The documented identity gcd*lcm = a*b fails when the signs differ. *)
Theorem C01_documented_product_refuted : exists a b,
  int_gcd a b * int_lcm a b <> a * b.
Proof. exact gcd_lcm_product_refuted. Qed.
Print Assumptions C01_documented_product_refuted.

Example C01_example : int_gcd 12 (-18) = 6 /\ int_lcm 12 (-18) = 36.
Proof. split; reflexivity. Qed.

(** C02: Bezout coefficients; the model's loop never runs out of fuel. *)
Theorem C02_extended_gcd_bezout : forall a b,
  exists g x y, int_extended_gcd a b = Some (g, x, y) /\
    a * x + b * y = g /\ g = Z.gcd a b.
Proof. exact int_extended_gcd_spec. Qed.
Print Assumptions C02_extended_gcd_bezout.

Theorem C02_extended_gcd_lcm : forall a b,
  exists g x y, int_extended_gcd_lcm a b = Some (g, x, y, Z.lcm a b) /\
    a * x + b * y = g /\ g = Z.gcd a b.
Proof. exact int_extended_gcd_lcm_spec. Qed.
Print Assumptions C02_extended_gcd_lcm.

Example C02_example : int_extended_gcd 240 (-46) = Some (2, -9, -47).
Proof. vm_compute. reflexivity. Qed.

(** C03: rational gcd and lcm. *)
Theorem C03_ratio_gcd_lcm_partial : forall a b,
  exists g l, ratio_gcd_lcm a b = Ret (g, l) /\
    Qdivides g a /\ Qdivides g b /\
    (forall e, Qdivides e a -> Qdivides e b -> Qdivides e g) /\
    Qdivides a l /\ Qdivides b l /\ (0 <= l)%Q /\
    (forall m, Qdivides a m -> Qdivides b m -> Qdivides l m) /\
    (Qabs (g * l) == Qabs (a * b))%Q /\
    ((~ a == 0 -> ~ b == 0 -> 0 < g)%Q) /\
    ((a == 0 -> g == b)%Q) /\ ((b == 0 -> g == a)%Q).
Proof. exact ratio_gcd_lcm_spec. Qed.
Print Assumptions C03_ratio_gcd_lcm_partial.

Theorem C03_ratio_extended_gcd : forall a b,
  exists g s t l, ratio_extended_gcd_lcm a b = Ret (g, s, t, l) /\
    (a * s + b * t == g)%Q /\ (0 <= g)%Q /\ Qdivides g a /\ Qdivides g b /\
    (exists s' t' : Z, s = inject_Z s' /\ t = inject_Z t').
Proof. exact ratio_extended_gcd_lcm_spec. Qed.
Print Assumptions C03_ratio_extended_gcd.

(** The gcd is not always non-negative: a zero operand returns the other one
    unchanged, while the extended gcd returns its absolute value. *)
Theorem C03_nonnegative_refuted : exists a b g l,
  ratio_gcd_lcm a b = Ret (g, l) /\ (g < 0)%Q.
Proof. exact ratio_gcd_negative. Qed.
Print Assumptions C03_nonnegative_refuted.

Example C03_example : ratio_gcd_lcm (6 # 310967) (24 # 6467) = Ret (6 # 69345641, 24 # 29)%Q.
Proof. vm_compute. reflexivity. Qed.

(** C04: nearest division.  BigInt: the result is right exactly in the stated
    cases. *)
Theorem C04_bigint_nearest_exactly_when : forall a b q r,
  bigint_checked_div_rem_nearest a b = Some (q, r) ->
  (nearest_div_rem a b q r <->
   (b < 0 /\ 2 * Z.abs (Z.rem a b) <= Z.abs b /\ 2 * Z.abs (Z.rem a b - Z.abs b) <= Z.abs b
    \/ 2 * Z.abs (Z.rem a b) = Z.abs b)).
Proof. exact bigint_nearest_iff. Qed.
Print Assumptions C04_bigint_nearest_exactly_when.

Theorem C04_bigint_none_iff_zero : forall a b,
  bigint_checked_div_rem_nearest a b = None <-> b = 0.
Proof. exact bigint_nearest_none. Qed.
Print Assumptions C04_bigint_none_iff_zero.

(** BigInt: 7/3 is answered (3,4), neither the division identity nor the bound
    holds. *)
Theorem C04_bigint_nearest_refuted : exists a b q r,
  bigint_checked_div_rem_nearest a b = Some (q, r) /\ a <> q * b + r.
Proof. exact bigint_nearest_refuted. Qed.
Print Assumptions C04_bigint_nearest_refuted.

(** Fixed width: right for non-negative dividends and divisors above MIN. *)
Theorem C04_int_nearest_partial : forall w a b,
  1 < w -> imin w <= a <= imax w -> imin w < b <= imax w -> 0 <= a -> b <> 0 ->
  exists q r, int_checked_div_rem_nearest w a b = Some (q, r) /\ nearest_div_rem a b q r /\
    imin w <= q <= imax w /\ imin w <= r <= imax w.
Proof. exact int_nearest_nonneg. Qed.
Print Assumptions C04_int_nearest_partial.

Theorem C04_int_identity : forall w a b q r,
  int_checked_div_rem_nearest w a b = Some (q, r) -> a = q * b + r.
Proof. exact int_nearest_identity. Qed.
Print Assumptions C04_int_identity.

(** Fixed width: -6/10 at 32 bits is answered (1,-16). *)
Theorem C04_int_nearest_refuted : exists a b q r,
  int_checked_div_rem_nearest 32 a b = Some (q, r) /\ ~ 2 * Z.abs r <= Z.abs b.
Proof. exact int_nearest_refuted. Qed.
Print Assumptions C04_int_nearest_refuted.

(** ... and -100/101 at 8 bits is reported as a failure although the divisor
    is non-zero and the nearest quotient -1 (remainder 1) is representable. *)
Theorem C04_int_spurious_none_refuted : exists a b,
  int_checked_div_rem_nearest 8 a b = None /\ b <> 0 /\ nearest_div_rem a b (-1) 1.
Proof. exact int_nearest_spurious_none. Qed.
Print Assumptions C04_int_spurious_none_refuted.

(** Fixed width in full: which answers are right, and when there is none. *)
Theorem C04_int_nearest_exactly_when : forall w a b, imin w <= b <= imax w -> forall q r,
  int_checked_div_rem_nearest w a b = Some (q, r) ->
  (nearest_div_rem a b q r <-> 2 * Z.abs (Z.rem a b) <= Z.abs b \/ 0 <= a /\ imin w < b).
Proof. exact int_nearest_iff. Qed.
Print Assumptions C04_int_nearest_exactly_when.

Theorem C04_int_none_exactly_when : forall w a b, 1 < w -> imin w <= a <= imax w -> imin w <= b <= imax w ->
  (int_checked_div_rem_nearest w a b = None <->
   b = 0 \/ (a = imin w /\ b = -1) \/
   (a < 0 /\ imin w < b /\ Z.abs b < 2 * Z.abs (Z.rem a b) /\ Z.rem a b - Z.abs b < imin w)).
Proof. exact int_nearest_none_iff. Qed.
Print Assumptions C04_int_none_exactly_when.

(** Unsigned numbers round down, fractions divide exactly, as documented. *)
Theorem C04_uint_rounds_down : forall a b, 0 <= a -> 0 <= b ->
  match uint_checked_div_rem_nearest a b with
  | None => b = 0
  | Some (q, r) => b <> 0 /\ a = q * b + r /\ 0 <= r < b
  end.
Proof. exact uint_nearest. Qed.
Print Assumptions C04_uint_rounds_down.

Theorem C04_ratio_exact : forall a b,
  match ratio_checked_div_rem_nearest a b with
  | None => (b == 0)%Q
  | Some (q, r) => (~ b == 0)%Q /\ (a == q * b + r)%Q /\ (r == 0)%Q
  end.
Proof. exact ratio_nearest. Qed.
Print Assumptions C04_ratio_exact.

Example C04_example : int_checked_div_rem_nearest 32 5 9 = Some (1, -4) /\
  int_checked_div_rem_nearest 32 (-15) 10 = Some (-1, -5) /\ int_checked_div_rem_nearest 8 127 (-128) = Some (0, 127) /\
  int_checked_div_rem_nearest 8 (-100) 101 = None /\ uint_checked_div_rem_nearest 8 5 = Some (1, 3).
Proof. repeat split. Qed.

(** C05: logarithms and trailing zeros (big integers and [w]-bit words). *)
Theorem C05_floor_log2 : forall a,
  match bigint_floor_log2 a with
  | None => a <= 0
  | Some k => 0 < a /\ 0 <= k /\ 2 ^ k <= a < 2 ^ (k + 1)
  end.
Proof. exact bigint_floor_log2_spec. Qed.
Print Assumptions C05_floor_log2.

Theorem C05_ceil_log2 : forall a,
  match bigint_ceil_log2 a with
  | None => a <= 0
  | Some k => 0 < a /\ 0 <= k /\ a <= 2 ^ k /\ (forall j, 0 <= j < k -> 2 ^ j < a)
  end.
Proof. exact bigint_ceil_log2_spec. Qed.
Print Assumptions C05_ceil_log2.

Theorem C05_prim_logs_agree : forall w a,
  prim_floor_log2 w a = bigint_floor_log2 a /\ prim_ceil_log2 w a = bigint_ceil_log2 a.
Proof. exact (fun w a => conj (prim_floor_log2_eq w a) (prim_ceil_log2_eq w a)). Qed.
Print Assumptions C05_prim_logs_agree.

Theorem C05_trailing_zeros : forall a,
  match bigint_trailing_zeros a with
  | None => a = 0
  | Some k => is_two_valuation a k
  end.
Proof. exact bigint_trailing_zeros_spec. Qed.
Print Assumptions C05_trailing_zeros.

Theorem C05_prim_trailing_zeros : forall a,
  match prim_trailing_zeros a with
  | None => a = 0
  | Some k => is_two_valuation a k
  end.
Proof. exact prim_trailing_zeros_spec. Qed.
Print Assumptions C05_prim_trailing_zeros.

Example C05_example :
  bigint_trailing_zeros (- (3 * 2 ^ 100)) = Some 100 /\
  bigint_floor_log2 (2 ^ 70 - 1) = Some 69 /\ bigint_ceil_log2 (2 ^ 70 + 1) = Some 71.
Proof. vm_compute. auto. Qed.

(** C06: exact division. *)
Theorem C06_bigint_checked_exact_div : forall a b q,
  bigint_checked_exact_div a b = Some q <-> b <> 0 /\ a = q * b.
Proof. exact bigint_checked_exact_div_spec. Qed.
Print Assumptions C06_bigint_checked_exact_div.

Theorem C06_bigint_exact_div : forall a b,
  match bigint_exact_div a b with
  | Ret q => b <> 0 /\ a = q * b
  | Panic => b = 0 \/ ~ (b | a)
  | NoFuel => False
  end.
Proof. exact bigint_exact_div_spec. Qed.
Print Assumptions C06_bigint_exact_div.

(** The in-place form stores the quotient, and leaves the operand alone when it fails. *)
Theorem C06_bigint_checked_exact_div_assign : forall a b,
  match bigint_checked_exact_div_assign a b with
  | (q, true) => b <> 0 /\ a = q * b
  | (a', false) => a' = a /\ (b = 0 \/ ~ (b | a))
  end.
Proof. exact bigint_checked_exact_div_assign_spec. Qed.
Print Assumptions C06_bigint_checked_exact_div_assign.

Theorem C06_int_checked_exact_div : forall w a b q, 0 < w ->
  imin w <= a <= imax w -> imin w <= b <= imax w ->
  (int_checked_exact_div w a b = Some q <-> b <> 0 /\ a = q * b /\ imin w <= q <= imax w).
Proof. exact int_checked_exact_div_spec. Qed.
Print Assumptions C06_int_checked_exact_div.

Theorem C06_int_exact_div : forall w a b, 0 < w -> imin w <= a <= imax w -> imin w <= b <= imax w ->
  match int_exact_div w a b with
  | Ret q => b <> 0 /\ a = q * b /\ imin w <= q <= imax w
  | Panic => forall q, ~ (b <> 0 /\ a = q * b /\ imin w <= q <= imax w)
  | NoFuel => False
  end.
Proof. exact int_exact_div_spec. Qed.
Print Assumptions C06_int_exact_div.

Theorem C06_ratio_checked_exact_div : forall a b,
  match ratio_checked_exact_div a b with
  | None => (b == 0)%Q
  | Some q => (~ b == 0)%Q /\ (q * b == a)%Q
  end.
Proof. exact ratio_checked_exact_div_spec. Qed.
Print Assumptions C06_ratio_checked_exact_div.

Example C06_example : int_checked_exact_div 8 (-128) (-1) = None
  /\ int_checked_exact_div 8 (-126) (-3) = Some 42
  /\ bigint_checked_exact_div_assign 42 (-7) = (-6, true)
  /\ bigint_checked_exact_div_assign 42 5 = (42, false).
Proof. vm_compute. auto. Qed.

(** C07: primality of every u32. *)
Theorem C07_is_prime_u32 : forall v, 0 <= v < 2 ^ 32 -> (is_prime_u32 v = true <-> prime v).
Proof. exact is_prime_u32_spec. Qed.
Print Assumptions C07_is_prime_u32.

Theorem C07_table_is_the_primes_below_2_16 :
  (forall p, In p primes_u16 <-> prime p /\ p < 65536) /\ StronglySorted Z.lt primes_u16.
Proof. exact (conj table_spec table_sorted). Qed.
Print Assumptions C07_table_is_the_primes_below_2_16.

Theorem C07_small_divisors_sound : forall v b,
  0 <= v -> is_prime_check_small_divisors v = Some b -> (b = true <-> prime v).
Proof. exact small_divisors_sound. Qed.
Print Assumptions C07_small_divisors_sound.

Example C07_example : is_prime_u32 4294967291 = true /\ is_prime_u32 (65521 * 65521) = false.
Proof. vm_compute. auto. Qed.

(** C08: neighbouring primes.  [fuel] bounds the search loop: any fuel of at
    least [v] suffices, and the answer never depends on it. *)
Theorem C08_prev_prime_u32 : forall fuel v, 0 <= v < 2 ^ 32 ->
  match prev_prime_u32 fuel v with
  | Ret r => is_prev_prime v r
  | Panic => False
  | NoFuel => Z.of_nat fuel < v
  end.
Proof. exact prev_prime_u32_spec. Qed.
Print Assumptions C08_prev_prime_u32.

Theorem C08_prev_prime_i32 : forall fuel v, - 2 ^ 31 <= v < 2 ^ 31 ->
  match prev_prime_i32 fuel v with
  | Ret r => is_prev_prime v r
  | Panic => False
  | NoFuel => Z.of_nat fuel < v
  end.
Proof. exact prev_prime_i32_spec. Qed.
Print Assumptions C08_prev_prime_i32.

(** The guard [2 <= v] is needed: see the refutation below. *)
Theorem C08_next_prime_u32_partial : forall fuel v, 2 <= v < 2 ^ 32 ->
  match next_prime_u32 fuel v with
  | Ret r => is_next_prime (2 ^ 32) v r
  | Panic => False
  | NoFuel => Z.of_nat fuel < 2 ^ 32 - v
  end.
Proof. exact next_prime_u32_spec. Qed.
Print Assumptions C08_next_prime_u32_partial.

Theorem C08_next_prime_i32_partial : forall fuel v, 2 <= v < 2 ^ 31 ->
  match next_prime_i32 fuel v with
  | Ret r => is_next_prime (2 ^ 31) v r
  | Panic => False
  | NoFuel => Z.of_nat fuel < 2 ^ 32
  end.
Proof. exact next_prime_i32_spec. Qed.
Print Assumptions C08_next_prime_i32_partial.

(** next_prime_u32(0) skips the prime 2. *)
Theorem C08_next_prime_refuted :
  next_prime_u32 0 0 = Ret (Some 3) /\ prime 2 /\ 0 < 2 < 3.
Proof. exact (conj eq_refl (conj prime_2 (conj eq_refl eq_refl))). Qed.
Print Assumptions C08_next_prime_refuted.

Example C08_example : prev_prime_u32 200 4294967295 = Ret (Some 4294967291)
  /\ next_prime_u32 200 4294967279 = Ret (Some 4294967291)
  /\ next_prime_u32 200 4294967291 = Ret None.
Proof. vm_compute. auto. Qed.

(** C09: for every range that is not empty, the callback is run on exactly the
    k-subsets in lexicographic order, stopping at the first break. *)
Theorem C09_subsets_partial : forall k start stop, (start < stop)%nat ->
  exists L,
    (forall s, In s L <-> length s = k /\ increasing_in start stop s) /\
    StronglySorted lex_lt L /\
    (forall St T (cb : St -> list nat -> St * option T) st,
       for_subsets_of_size cb k start stop st = run_until_break cb L st).
Proof. exact subsets_list. Qed.
Print Assumptions C09_subsets_partial.

(** For an empty range nothing is called ... *)
Theorem C09_empty_range : forall St T (cb : St -> list nat -> St * option T) k start stop st,
  (stop <= start)%nat -> for_subsets_of_size cb k start stop st = (st, None).
Proof. exact (fun St T cb => for_subsets_empty cb). Qed.
Print Assumptions C09_empty_range.

(** ... even for the one subset of size 0 of the empty range. *)
Theorem C09_empty_range_refuted :
  increasing_in 0 0 [] /\
  for_subsets_of_size (fun n (_ : list nat) => (S n, @None unit)) 0 0 0 0%nat = (0%nat, None).
Proof. exact (conj I eq_refl). Qed.
Print Assumptions C09_empty_range_refuted.

Example C09_example :
  for_subsets_of_size (fun st s => (st ++ [s], if Nat.eqb (length st) 3 then Some tt else None)) 2 1 5 []
  = ([[1;2];[1;3];[1;4];[2;3]]%nat, Some tt).
Proof. vm_compute. reflexivity. Qed.

(** C65: signs. *)
Theorem C65_sign_of_number : forall v,
  match sign_new v with Some s => v <> 0 /\ Z.sgn v = sval s | None => v = 0 end.
Proof. exact sign_new_spec. Qed.
Print Assumptions C65_sign_of_number.

Theorem C65_sign_algebra : forall a b,
  sval (sign_xor a b) = sval a * sval b /\ sval (sign_neg a) = - sval a /\
  sign_cmp a b = (sval a ?= sval b).
Proof. exact (fun a b => conj (sign_xor_spec a b) (conj (sign_neg_spec a) (sign_cmp_spec a b))). Qed.
Print Assumptions C65_sign_algebra.

Theorem C65_sign_bits : forall a b,
  sval (sign_and a b) = Z.max (sval a) (sval b) /\ sval (sign_or a b) = Z.min (sval a) (sval b).
Proof. exact sign_and_or_spec. Qed.
Print Assumptions C65_sign_bits.

Theorem C65_sign_bool : forall a b,
  sign_of_bool (bool_of_sign a) = a /\ bool_of_sign (sign_of_bool b) = b.
Proof. exact sign_bool_spec. Qed.
Print Assumptions C65_sign_bool.
