(** Model of /repo/src/util.rs, lines 596-770: the default methods of the traits
    IsPseudoPrime and IsPseudoPrimePower, at unbounded integers.  The code has
    no implementation of its own for these public traits; a fixed-width
    integer adds overflow panics, which are not modelled. *)
From Coq Require Import ZArith List Bool.
From Verif Require Import M_Base M_Traits M_ModInt M_PrimeTable M_Util.
Import ListNotations.
Local Open Scope Z_scope.

(** util.rs:596-611 is_pseudo_prime_miller_rabin_test_for_base: whatever the
    squarings of line 607-609 compute, line 610 is [unimplemented!()]. *)
Definition miller_rabin_base (n d base : Z) : res bool :=
  (x <- bigint_modpow base d n ;;
   if (x =? 1) || (n - x =? 1) then Ret false else Panic)%res.

(** util.rs:655-664: the loop over the first primes. *)
Fixpoint miller_rabin_loop (bases : list Z) (n d : Z) : res bool :=
  match bases with
  | [] => Ret true
  | base :: bases' =>
      (b <- miller_rabin_base n d base ;;
       if negb b then Ret false else miller_rabin_loop bases' n d)%res
  end.

(** util.rs:634-645: the quick decisions; [None] = undecided. *)
Definition pseudo_prime_quick (n : Z) : option bool :=
  if n <? 2 ^ 128 then is_prime_check_small_divisors n
  else if existsb (fun p => n mod p =? 0) primes_u16 then Some false
  else None.

(** util.rs:626-676 is_pseudo_prime *)
Definition is_pseudo_prime (n : Z) : res bool :=
  if n <=? 1 then Ret false
  else if Z.sqrt n * Z.sqrt n =? n then Ret false
  else
    match pseudo_prime_quick n with
    | Some b => Ret b
    | None =>
        (r <- unwrap (bigint_trailing_zeros (n - 1)) ;;
         let d := Z.shiftr (n - 1) r in
         b <- miller_rabin_loop (firstn 13 primes_u16) n d ;;
         if negb b then Ret false
         else if n <? 2 ^ 64 then Ret true
         else if n <? 3317044064679887385961981 then Ret true
         else Panic (* unimplemented! *))%res
    end.

(** util.rs:724-744: [left] iterations remain; [powers] is the vector, last
    element first.  [inl e]: returned with exponent [e]; [inr]: the vector and
    the exponent after the loop. *)
Fixpoint power_up (left : nat) (n : Z) (powers : list Z) (exponent : Z) : res (Z + list Z * Z) :=
  match left with
  | O => Ret (inr (powers, exponent))
  | S left' =>
      match powers with
      | [] => Panic
      | last :: _ =>
          let power := last * last in
          let exponent := Z.shiftl exponent 1 in
          match n ?= power with
          | Lt => Ret (inr (powers, exponent))
          | Eq => Ret (inl exponent)
          | Gt => assert_then (0 <? Z.of_nat left') (power_up left' n (power :: powers) exponent)
          end
      end
  end.
(** util.rs:746-762: the remaining powers in reverse order; the index of the
    first one is the length of the rest. *)
Fixpoint power_down (n : Z) (powers : list Z) (power exponent : Z) : res Z :=
  match powers with
  | [] => Panic (* unreachable! *)
  | c :: rest =>
      let current_power := c * power in
      let current_exponent := Z.lor exponent (Z.shiftl 1 (Z.of_nat (length rest))) in
      match n ?= current_power with
      | Lt => power_down n rest current_power current_exponent
      | Eq => Ret current_exponent
      | Gt => power_down n rest power exponent
      end
  end.
(** util.rs:704-763: the body of the loop for a prime dividing [n];
    [max_power] is floor_log2(n). *)
Definition power_of_prime (n prime max_power : Z) : res (option (Z * Z)) :=
  (l <- unwrap (bigint_floor_log2 max_power) ;;
   match n ?= prime with
   | Lt => Panic
   | Eq => Ret (Some (prime, 1))
   | Gt =>
       o <- power_up (Z.to_nat l) n [prime] 1 ;;
       match o with
       | inl e => Ret (Some (prime, e))
       | inr ([], _) => Panic
       | inr (power :: powers, exponent) =>
           e <- power_down n powers power exponent ;; Ret (Some (prime, e))
       end
   end)%res.
(** util.rs:702-769: the loop over the first 100 primes, then [unimplemented!]. *)
Fixpoint prime_power_loop (tbl : list Z) (n max_power : Z) : res (option (Z * Z)) :=
  match tbl with
  | [] => Panic
  | p :: tbl' => if n mod p =? 0 then power_of_prime n p max_power else prime_power_loop tbl' n max_power
  end.
(** util.rs:695-770 is_pseudo_prime_power: [None] is Err(NotAPseudoPrimePower),
    [Some (base, exponent)] is Ok. *)
Definition is_pseudo_prime_power (n : Z) : res (option (Z * Z)) :=
  match bigint_floor_log2 n with
  | None => Ret None
  | Some max_power =>
      if max_power =? 0 then Ret None
      else prime_power_loop (firstn 100 primes_u16) n max_power
  end.
