(** Property theorems: the public pseudo-prime tests ([prime] is Coq's). *)
From Coq Require Import ZArith Znumtheory List.
From Verif Require Import M_Base M_PrimeTable M_PseudoPrime P_PseudoPrime P_PrimePowerB.
Local Open Scope Z_scope.

(** C69: a number reported prime is prime. *)
Theorem C69_true_is_prime : forall n, is_pseudo_prime n = Ret true -> prime n.
Proof. exact is_pseudo_prime_true. Qed.
Print Assumptions C69_true_is_prime.
(** Below 541^2 the test returns and is exact.  Missing: everything above. *)
Theorem C69_small_partial : forall n, n < 541 * 541 ->
  exists b, is_pseudo_prime n = Ret b /\ (b = true <-> prime n).
Proof. exact is_pseudo_prime_small. Qed.
Print Assumptions C69_small_partial.
(** Primes can be reported composite ... *)
Theorem C69_false_refuted : exists n, prime n /\ is_pseudo_prime n = Ret false.
Proof. exact is_pseudo_prime_false_negative. Qed.
Print Assumptions C69_false_refuted.
(** ... and no prime above 541^2 is reported prime. *)
Theorem C69_large_never_prime : forall n, 541 * 541 <= n -> is_pseudo_prime n <> Ret true.
Proof. exact is_pseudo_prime_large. Qed.
Print Assumptions C69_large_never_prime.
Example C69_example :
  is_pseudo_prime (523 * 557) = Ret false /\ is_pseudo_prime 292679 = Ret true /\
  is_pseudo_prime 292717 = Panic.
Proof. vm_compute. auto. Qed.

(** C70: a reported base is prime and the number is a power of it. *)
Theorem C70_base_partial : forall n b e, is_pseudo_prime_power n = Ret (Some (b, e)) ->
  prime b /\ exists k, 1 <= k /\ n = b ^ k.
Proof. exact prime_power_sound. Qed.
Print Assumptions C70_base_partial.
(** The error is returned exactly for the numbers up to 1. *)
Theorem C70_error : forall n, is_pseudo_prime_power n = Ret None <-> n <= 1.
Proof. exact prime_power_err. Qed.
Print Assumptions C70_error.
(** The powers p^(2^j) of the first hundred primes are recognised.  Missing:
    other exponents (see below) and other primes ([unimplemented!]). *)
Theorem C70_complete_partial : forall p j, prime p -> p <= 541 -> 0 <= j ->
  is_pseudo_prime_power (p ^ 2 ^ j) = Ret (Some (p, 2 ^ j)).
Proof. exact prime_power_complete_541. Qed.
Print Assumptions C70_complete_partial.
(** Exactly these prime powers are reported correctly. *)
Theorem C70_exactly_when_partial : forall p k, prime p -> 1 <= k ->
  (is_pseudo_prime_power (p ^ k) = Ret (Some (p, k)) <-> p <= 541 /\ exists j, 0 <= j /\ k = 2 ^ j).
Proof. exact prime_power_exact. Qed.
Print Assumptions C70_exactly_when_partial.
(** Every number above 1 that is no power of a prime up to 541 panics, also the
    powers of larger primes. *)
Theorem C70_other_partial : forall n, 1 < n ->
  (forall p k, prime p -> p <= 541 -> 1 <= k -> n <> p ^ k) -> is_pseudo_prime_power n = Panic.
Proof. exact prime_power_other. Qed.
Print Assumptions C70_other_partial.
(** The exponent can be wrong: 27 is reported as 3^5. *)
Theorem C70_exponent_refuted : exists n b e,
  is_pseudo_prime_power n = Ret (Some (b, e)) /\ b ^ e <> n.
Proof. exact prime_power_wrong_exponent. Qed.
Print Assumptions C70_exponent_refuted.
(** An assertion fails on the prime power 8. *)
Theorem C70_returns_refuted : exists p k, prime p /\ 1 <= k /\ is_pseudo_prime_power (p ^ k) = Panic.
Proof. exact prime_power_panics. Qed.
Print Assumptions C70_returns_refuted.
Example C70_example :
  is_pseudo_prime_power (7 ^ 16) = Ret (Some (7, 16)) /\ is_pseudo_prime_power 15 = Panic /\
  is_pseudo_prime_power (-4) = Ret None.
Proof. vm_compute. auto. Qed.
