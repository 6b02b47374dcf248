(** What the traits of a modulus promise. *)
From Coq Require Import ZArith Znumtheory List.
From Verif Require Import M_Base M_ModInt M_Modulus.
Local Open Scope Z_scope.

(** The number [v] is the power [b]^[e] of a prime. *)
Definition prime_power_of (v b : Z) (e : nat) : Prop :=
  prime b /\ (1 <= e)%nat /\ v = b ^ Z.of_nat e.

(** The wrappers' constructors are called new_unsafe: the caller promises that the
    number wrapped is prime or odd.  [promised t m]: these promises are kept, and a
    plain integer is one of the type [t]. *)
Fixpoint promised (t : ity) (m : modulus) : Prop :=
  match m with
  | MInt v => fits t v = true
  | MRef m => promised t m
  | MStatic v opts => In (v, opts) static_moduli
  | MKnownPrime m => promised t m /\ forall v, to_modulus t m = Ret v -> prime v
  | MKnownOdd m => promised t m /\ forall v, to_modulus t m = Ret v -> Z.odd v = true
  end.
