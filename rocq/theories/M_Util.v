(** Model of /repo/src/util.rs: primes below 2^32, signs, subsets. *)
From Coq Require Import ZArith List Bool.
From Verif Require Import M_Base M_Traits M_PrimeTable.
Import ListNotations.
Local Open Scope Z_scope.

(** * Primes *)

(** util.rs:510-522: the trial-division loop over the table. *)
Fixpoint is_prime_loop (tbl : list Z) (v : Z) : bool :=
  match tbl with
  | [] => true
  | p :: tbl' =>
      if v =? p then true
      else if v mod p =? 0 then false
      else if v <? p * p then true
      else is_prime_loop tbl' v
  end.

(** util.rs:506-523 [is_prime_u32]. *)
Definition is_prime_u32 (v : Z) : bool :=
  if v <=? 1 then false else is_prime_loop primes_u16 v.

(** util.rs:534-536: [while !is_prime_u32(v) { v -= 2 }]; an underflowing
    subtraction panics. *)
Fixpoint prev_prime_loop (fuel : nat) (v : Z) : res Z :=
  if is_prime_u32 v then Ret v
  else match fuel with
       | O => NoFuel
       | S f => if v <? 2 then Panic else prev_prime_loop f (v - 2)
       end.

(** util.rs:525-538 [prev_prime_u32]. *)
Definition prev_prime_u32 (fuel : nat) (v : Z) : res (option Z) :=
  if v <=? 2 then Ret None
  else if v =? 3 then Ret (Some 2)
  else rmap (@Some Z) (prev_prime_loop fuel (Z.lor v 1 - 2)).

(** util.rs:540-546 [prev_prime_i32]. *)
Definition prev_prime_i32 (fuel : nat) (v : Z) : res (option Z) :=
  if v <? 0 then Ret None else prev_prime_u32 fuel v.

(** util.rs:560-562: [while !is_prime_u32(v) { v += 2 }]; overflow of u32
    panics. *)
Fixpoint next_prime_loop (fuel : nat) (v : Z) : res Z :=
  if is_prime_u32 v then Ret v
  else match fuel with
       | O => NoFuel
       | S f => if 2 ^ 32 <=? v + 2 then Panic else next_prime_loop f (v + 2)
       end.

(** util.rs:548-564 [next_prime_u32]. *)
Definition next_prime_u32 (fuel : nat) (v : Z) : res (option Z) :=
  if v <? 3 then Ret (Some 3)
  else if 4294967291 <=? v then Ret None
  else
    let v' := if v mod 2 =? 0 then v + 1 else v + 2 in
    rmap (@Some Z) (next_prime_loop fuel v').

(** util.rs:566-574 [next_prime_i32]. *)
Definition next_prime_i32 (fuel : nat) (v : Z) : res (option Z) :=
  if 2147483647 <=? v then Ret None else next_prime_u32 fuel (Z.max v 0).

(** util.rs:576-594 [is_prime_check_small_divisors]: loop over the first 100
    primes; [None] = undecided. *)
Fixpoint small_divisors_loop (tbl : list Z) (v : Z) : option bool :=
  match tbl with
  | [] => None
  | p :: tbl' =>
      if v =? p then Some true
      else if v mod p =? 0 then Some false
      else if v <? p * p then Some true
      else small_divisors_loop tbl' v
  end.
Definition is_prime_check_small_divisors (v : Z) : option bool :=
  if v <=? 1 then Some false else small_divisors_loop (firstn 100 primes_u16) v.

(** * Signs *)

(** util.rs:772-776 *)
Inductive Sign := Negative | Positive.
(** util.rs:778-786 [Sign::new] (at an integer). *)
Definition sign_new (v : Z) : option Sign :=
  match v ?= 0 with Lt => Some Negative | Gt => Some Positive | Eq => None end.
(** util.rs:794-802 *)
Definition sign_neg (s : Sign) : Sign :=
  match s with Negative => Positive | Positive => Negative end.
(** util.rs:825-833 *)
Definition sign_of_bool (b : bool) : Sign := if b then Negative else Positive.
(** util.rs:835-842 *)
Definition bool_of_sign (s : Sign) : bool :=
  match s with Negative => true | Positive => false end.
(** util.rs:844-902: bit operations go through [bool]. *)
Definition sign_and (a b : Sign) : Sign := sign_of_bool (andb (bool_of_sign a) (bool_of_sign b)).
Definition sign_or (a b : Sign) : Sign := sign_of_bool (orb (bool_of_sign a) (bool_of_sign b)).
Definition sign_xor (a b : Sign) : Sign := sign_of_bool (xorb (bool_of_sign a) (bool_of_sign b)).
(** util.rs:910-918 *)
Definition sign_cmp (a b : Sign) : comparison :=
  match a, b with
  | Positive, Negative => Gt
  | Negative, Positive => Lt
  | _, _ => Eq
  end.

(** * Subsets *)

Section Subsets.
  (** The callback is an [FnMut]: a state transformer which may break. *)
  Context {St T : Type}.
  Variable callback : St -> list nat -> St * option T.

  (** [subset_indexes[i] = x] *)
  Fixpoint set_nth (i : nat) (x : nat) (l : list nat) : list nat :=
    match l, i with
    | [], _ => []
    | _ :: l', O => x :: l'
    | y :: l', S i' => y :: set_nth i' x l'
    end.

  (** util.rs:1044-1072 [helper]; [rem] = subset_indexes.len() -
      subset_indexes_index, [idx] = subset_indexes_index, the range is
      [start..stop].  Returns the callback state, the break value and the
      (mutated) buffer. *)
  Fixpoint subsets_helper (rem idx start stop : nat) (buf : list nat) (st : St)
    : St * option T * list nat :=
    match rem with
    | O => let '(st', r) := callback st buf in (st', r, buf)
    | S rem' =>
        if Nat.leb (S rem') stop then
          let last_index := (stop - S rem')%nat in
          (fix go (l : list nat) (buf : list nat) (st : St) : St * option T * list nat :=
             match l with
             | [] => (st, None, buf)
             | index :: l' =>
                 let buf1 := set_nth idx index buf in
                 match subsets_helper rem' (S idx) (S index) stop buf1 st with
                 | (st', None, buf') => go l' buf' st'
                 | r => r
                 end
             end) (seq start (S last_index - start)) buf st
        else (st, None, buf)
    end.

  (** util.rs:1036-1074 [for_subsets_of_size]: final callback state and break
      value. *)
  Definition for_subsets_of_size (subset_size start stop : nat) (st : St)
    : St * option T :=
    if Nat.leb stop start || Nat.ltb (stop - start) subset_size then (st, None)
    else fst (subsets_helper subset_size 0 start stop (repeat 0%nat subset_size) st).
End Subsets.
