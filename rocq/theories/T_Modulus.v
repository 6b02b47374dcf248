(** Property theorems C79: moduli and what is known about them.

    [prime_power_of v b e] and [promised t m] are in S_Modulus.v; a trait is a
    boolean that says whether the modulus implements it. *)
From Coq Require Import ZArith Znumtheory List.
From Verif Require Import M_Base M_Traits M_ModInt M_Modulus S_Modulus P_Modulus.
Import ListNotations.
Local Open Scope Z_scope.

(** The built-in moduli: for each integer type, ModN is the number N, and it
    implements the trait for odd, prime or prime-power moduli exactly if N is odd, a
    prime or a power of a prime, with the right prime and exponent. *)
Theorem C79_static : forall v opts t, In (v, opts) static_moduli -> In t modulus_types ->
  to_modulus t (MStatic v opts) = Ret v /\ printed (MStatic v opts) = v /\
  (is_odd_modulus (MStatic v opts) = true <-> Z.odd v = true) /\
  (is_prime_modulus (MStatic v opts) = true <-> prime v) /\
  (forall b e, base_and_exponent t (MStatic v opts) = Some (Ret (b, e)) <-> prime_power_of v b e) /\
  (base_and_exponent t (MStatic v opts) = None <-> ~ exists b e, prime_power_of v b e).
Proof. exact static_modulus. Qed.
Print Assumptions C79_static.
Example C79_static_ex : In (9, [OOdd; OPrimePower 3 2]) static_moduli /\ In (IUnsigned 8) modulus_types /\
  map fst static_moduli = [1; 2; 3; 4; 5; 6; 7; 8; 9; 10; 11; 12; 13; 14; 15; 16] /\
  base_and_exponent (IUnsigned 8) (MStatic 9 [OOdd; OPrimePower 3 2]) = Some (Ret (3, 2%nat)).
Proof. repeat split; simpl; tauto. Qed.
(** Every modulus, however often it is wrapped: if the promises made to the unsafe
    constructors are kept, it has a value of the type, and what its traits say about
    this value is true. *)
Theorem C79_sound : forall t m, In t modulus_types -> promised t m ->
  exists v, to_modulus t m = Ret v /\ printed m = v /\ fits t v = true /\
    (is_odd_modulus m = true -> Z.odd v = true) /\
    (is_prime_modulus m = true -> prime v /\ base_and_exponent t m = Some (Ret (v, 1%nat))) /\
    (forall r, base_and_exponent t m = Some r -> exists b e, r = Ret (b, e) /\ fits t b = true /\ prime_power_of v b e).
Proof. exact modulus_sound. Qed.
Print Assumptions C79_sound.
Example C79_sound_ex : promised (ISigned 32) (MKnownOdd (MKnownPrime (MInt 13))) /\
  is_odd_modulus (MKnownOdd (MKnownPrime (MInt 13))) = true /\
  is_prime_modulus (MKnownOdd (MKnownPrime (MInt 13))) = true.
Proof.
  split; [| now split]. cbn [promised to_modulus].
  split; [split; [reflexivity |] |]; intros v E; injection E as <-; [| reflexivity].
  apply prime_small. simpl. tauto.
Qed.
(** The wrappers do not change the value, add their trait and keep the others. *)
Theorem C79_known_prime : forall t m, to_modulus t (MKnownPrime m) = to_modulus t m /\ is_prime_modulus (MKnownPrime m) = true /\
  is_odd_modulus (MKnownPrime m) = is_odd_modulus m.
Proof. exact known_prime. Qed.
Print Assumptions C79_known_prime.
Theorem C79_known_odd : forall t m, to_modulus t (MKnownOdd m) = to_modulus t m /\ is_odd_modulus (MKnownOdd m) = true /\
  is_prime_modulus (MKnownOdd m) = is_prime_modulus m /\ base_and_exponent t (MKnownOdd m) = base_and_exponent t m.
Proof. exact known_odd. Qed.
Print Assumptions C79_known_odd.
