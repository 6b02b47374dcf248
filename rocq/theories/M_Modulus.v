(** Model of the moduli of /repo/src/mod_int.rs: plain integers, the sixteen
    built-in moduli Mod1 ... Mod16 and the wrappers KnownPrime and KnownOdd; and of
    the traits that say what a modulus is: OddModulus, PrimePowerModulus, PrimeModulus
    (189-221).  A trait is a boolean: whether the type implements it. *)
From Coq Require Import ZArith List Bool.
From Verif Require Import M_Base M_Traits M_ModInt.
Import ListNotations.
Local Open Scope Z_scope.

(** The options of impl_static_modulus! (mod_int.rs:505-569): [odd],
    [prime_power(base, exponent)], [prime]. *)
Inductive opt := OOdd | OPrimePower (base : Z) (exponent : nat) | OPrime.

(** mod_int.rs:571-586: the value and the options of each built-in modulus *)
Definition static_moduli : list (Z * list opt) :=
  [ (1, [OOdd]);
    (2, [OPrime]);
    (3, [OOdd; OPrime]);
    (4, [OPrimePower 2 2]);
    (5, [OOdd; OPrime]);
    (6, []);
    (7, [OOdd; OPrime]);
    (8, [OPrimePower 2 3]);
    (9, [OOdd; OPrimePower 3 2]);
    (10, []);
    (11, [OOdd; OPrime]);
    (12, []);
    (13, [OOdd; OPrime]);
    (14, []);
    (15, [OOdd]);
    (16, [OPrimePower 2 4]) ].

(** mod_int.rs:567: the types the built-in moduli are implemented for; usize and
    isize have 64 bits *)
Definition modulus_types : list ity :=
  [ISigned 8; IUnsigned 8; ISigned 16; IUnsigned 16; ISigned 32; IUnsigned 32; ISigned 64; IUnsigned 64;
   ISigned 128; IUnsigned 128; ISigned 64; IUnsigned 64; IBig; IBigU].

(** What implements Modulus: an integer (mod_int.rs:352-361), a reference (181-186), a
    built-in modulus, KnownPrime (242-251) and KnownOdd (313-322). *)
Inductive modulus :=
| MInt (v : Z)
| MRef (m : modulus)
| MStatic (v : Z) (opts : list opt)
| MKnownPrime (m : modulus)
| MKnownOdd (m : modulus).

(** to_modulus and into_modulus at the type [t]: mod_int.rs:517-526 is
    from_u128(..).expect(..), the others hand on. *)
Fixpoint to_modulus (t : ity) (m : modulus) : res Z :=
  match m with
  | MInt v => Ret v
  | MRef m => to_modulus t m
  | MStatic v _ => in_ty t v
  | MKnownPrime m => to_modulus t m
  | MKnownOdd m => to_modulus t m
  end.

(** Display of a built-in modulus (mod_int.rs:510-514) prints the value; the
    wrappers (277-281, 343-347) print what they wrap.  The number printed: *)
Fixpoint printed (m : modulus) : Z :=
  match m with
  | MInt v => v
  | MRef m => printed m
  | MStatic v _ => v
  | MKnownPrime m => printed m
  | MKnownOdd m => printed m
  end.

(** OddModulus: the option [odd] (mod_int.rs:551-565), KnownOdd (332), KnownPrime of an
    odd modulus (268).  References do not implement it. *)
Fixpoint is_odd_modulus (m : modulus) : bool :=
  match m with
  | MInt _ | MRef _ => false
  | MStatic _ opts => existsb (fun o => match o with OOdd => true | _ => false end) opts
  | MKnownPrime m => is_odd_modulus m
  | MKnownOdd _ => true
  end.
(** PrimeModulus: the option [prime] (mod_int.rs:544-550), KnownPrime (266), KnownOdd of
    a prime modulus (330) *)
Fixpoint is_prime_modulus (m : modulus) : bool :=
  match m with
  | MInt _ | MRef _ => false
  | MStatic _ opts => existsb (fun o => match o with OPrime => true | _ => false end) opts
  | MKnownPrime _ => true
  | MKnownOdd m => is_prime_modulus m
  end.

(** PrimePowerModulus::base_and_exponent at the type [t]; [None] if the trait is not
    implemented.  mod_int.rs:529-543 for [prime_power(base, exponent)]; [prime] is
    [prime_power(value, 1)] (545); KnownPrime: 256-264; KnownOdd: 323-328. *)
Fixpoint static_base (t : ity) (v : Z) (opts : list opt) : option (res (Z * nat)) :=
  match opts with
  | [] => None
  | OOdd :: opts => static_base t v opts
  | OPrimePower b e :: _ => Some (rmap (fun b => (b, e)) (in_ty t b))
  | OPrime :: _ => Some (rmap (fun b => (b, 1%nat)) (in_ty t v))
  end.
Fixpoint base_and_exponent (t : ity) (m : modulus) : option (res (Z * nat)) :=
  match m with
  | MInt _ | MRef _ => None
  | MStatic v opts => static_base t v opts
  | MKnownPrime m => Some (rmap (fun b => (b, 1%nat)) (to_modulus t m))
  | MKnownOdd m => base_and_exponent t m
  end.
