(** Model of /repo/src/mod_int.rs: modular integers.  Values and moduli are
    unbounded [Z]; the Rust integer type is given by its range, and every
    conversion or subtraction that can leave that range is checked explicitly
    and panics.  [Cow], references and the assign/by-value/by-reference
    variants of one operation are not distinguished. *)
From Coq Require Import ZArith List Bool.
From Verif Require Import M_Base M_Traits.
Local Open Scope Z_scope.

(** The integer types of mod_int.rs:489-502: i8..i128, isize ([ISigned] w),
    u8..u128, usize ([IUnsigned] w), BigInt ([IBig]), BigUint ([IBigU]). *)
Inductive ity := ISigned (w : Z) | IUnsigned (w : Z) | IBig | IBigU.

Definition fits (t : ity) (v : Z) : bool :=
  match t with
  | ISigned w => in_irange w v
  | IUnsigned w => (0 <=? v) && (v <? 2 ^ w)
  | IBig => true
  | IBigU => 0 <=? v
  end.

(** Range-checked conversion or arithmetic: out of range panics (overflow
    checks on; [convert_to]'s unwrap, mod_int.rs:462-478). *)
Definition in_ty (t : ity) (v : Z) : res Z := if fits t v then Ret v else Panic.

(** num_integer's [mod_floor]; for a fixed-width signed type the remainder
    MIN % -1 overflows.  A zero modulus panics. *)
Definition mod_floor (t : ity) (v m : Z) : res Z :=
  if m =? 0 then Panic
  else match t with
       | ISigned w => if (v =? imin w) && (m =? -1) then Panic else Ret (v mod m)
       | _ => Ret (v mod m)
       end.

(** mod_int.rs:361-377 modular_reduce(_assign) *)
Definition modular_reduce (t : ity) (v m : Z) : res Z :=
  if m =? 0 then Ret v else mod_floor t v m.

(** mod_int.rs:378-384 modular_add_ref_assign: widen, add, [%], narrow.  The
    wide type holds every sum of two narrow values. *)
Definition modular_add (t : ity) (a b m : Z) : res Z :=
  if m =? 0 then Panic else in_ty t (Z.rem (a + b) m).

(** mod_int.rs:385-392 modular_neg_assign: narrow subtraction. *)
Definition modular_neg (t : ity) (a m : Z) : res Z :=
  (r <- in_ty t (m - a) ;; Ret (if r =? m then 0 else r))%res.

(** mod_int.rs:72-74 modular_sub_ref_assign: add the negation. *)
Definition modular_sub (t : ity) (a b m : Z) : res Z :=
  (nb <- modular_neg t b m ;; modular_add t a nb m)%res.

(** mod_int.rs:393-399 modular_mul_ref_assign *)
Definition modular_mul (t : ity) (a b m : Z) : res Z :=
  if m =? 0 then Panic else in_ty t (Z.rem (a * b) m).

(** mod_int.rs:400-405 modular_reduce_from_bigint, to which all
    modular_reduce_from_* functions (mod_int.rs:116-166) delegate. *)
Definition modular_reduce_from_bigint (t : ity) (v m : Z) : res Z :=
  if m =? 0 then Panic else in_ty t (v mod m).

(** mod_int.rs:415-444 pow_modular_reduce for primitive types: the loop.
    [None] = retval still None.  Exponents are halved with truncation. *)
Fixpoint pow_loop (fuel : nat) (t : ity) (retval : option Z) (base e m : Z) : res Z :=
  match fuel with
  | O => NoFuel
  | S fuel' =>
      (retval' <- (if Z.odd e then
                     match retval with
                     | None => Ret (Some base)
                     | Some r => rmap Some (modular_mul t r base m)
                     end
                   else Ret retval) ;;
       let e' := Z.quot e 2 in
       if e' =? 0 then unwrap retval'
       else
         (base' <- modular_mul t base base m ;;
          pow_loop fuel' t retval' base' e' m))%res
  end.

Definition pow_modular_reduce_prim (t : ity) (b e m : Z) : res Z :=
  if e =? 0 then Ret 1
  else
    (base <- modular_reduce t b m ;;
     if e =? 1 then Ret base
     else pow_loop (Z.to_nat (Z.log2 (Z.abs e) + 1)) t None base e m)%res.

(** num_bigint's [modpow] (dependency; used at mod_int.rs:449-460):
    documented result base^exponent rounded like mod_floor; panics on a zero
    modulus and on a negative exponent. *)
Definition bigint_modpow (b e m : Z) : res Z :=
  if (m =? 0) || (e <? 0) then Panic else Ret ((b ^ e) mod m).

(** ModularReducePow::pow_modular_reduce for every type. *)
Definition pow_modular_reduce (t : ity) (b e m : Z) : res Z :=
  match t with
  | IBig | IBigU => bigint_modpow b e m
  | _ => pow_modular_reduce_prim t b e m
  end.

(** mod_int.rs:637-641 ModularInteger; the modulus is its integer value
    (KnownPrime/KnownOdd/static moduli, mod_int.rs:223-347, 505-587, are
    transparent wrappers).  Derived equality compares both fields. *)
Record modint := MI { mi_value : Z; mi_modulus : Z }.

Definition mi_eqb (a b : modint) : bool :=
  (mi_value a =? mi_value b) && (mi_modulus a =? mi_modulus b).

(** mod_int.rs:658-665 *)
Definition has_matching_moduli (a b : modint) : bool := mi_modulus a =? mi_modulus b.

(** mod_int.rs:675-678 new *)
Definition mi_new (t : ity) (v m : Z) : res modint :=
  rmap (fun r => MI r m) (modular_reduce t v m).

(** mod_int.rs:683-738 from_bigint, from_u8, ..., from_isize *)
Definition mi_from_bigint (t : ity) (v m : Z) : res modint :=
  rmap (fun r => MI r m) (modular_reduce_from_bigint t v m).

(** mod_int.rs:746-808 Add/AddAssign: panics unless moduli match. *)
Definition mi_add (t : ity) (a b : modint) : res modint :=
  assert_then (has_matching_moduli a b)
    (rmap (fun r => MI r (mi_modulus a)) (modular_add t (mi_value a) (mi_value b) (mi_modulus a))).

(** mod_int.rs:810-820 CheckedAdd *)
Definition mi_checked_add (t : ity) (a b : modint) : res (option modint) :=
  if has_matching_moduli a b then
    rmap (fun r => Some (MI r (mi_modulus a))) (modular_add t (mi_value a) (mi_value b) (mi_modulus a))
  else Ret None.

(** mod_int.rs:679-682, 822-839 neg_assign, Neg *)
Definition mi_neg (t : ity) (a : modint) : res modint :=
  rmap (fun r => MI r (mi_modulus a)) (modular_neg t (mi_value a) (mi_modulus a)).

(** mod_int.rs:841-906 Sub/SubAssign *)
Definition mi_sub (t : ity) (a b : modint) : res modint :=
  assert_then (has_matching_moduli a b)
    (rmap (fun r => MI r (mi_modulus a)) (modular_sub t (mi_value a) (mi_value b) (mi_modulus a))).

(** mod_int.rs:908-918 CheckedSub *)
Definition mi_checked_sub (t : ity) (a b : modint) : res (option modint) :=
  if has_matching_moduli a b then
    rmap (fun r => Some (MI r (mi_modulus a))) (modular_sub t (mi_value a) (mi_value b) (mi_modulus a))
  else Ret None.

(** mod_int.rs:920-986 Mul/MulAssign *)
Definition mi_mul (t : ity) (a b : modint) : res modint :=
  assert_then (has_matching_moduli a b)
    (rmap (fun r => MI r (mi_modulus a)) (modular_mul t (mi_value a) (mi_value b) (mi_modulus a))).

(** mod_int.rs:988-998 CheckedMul *)
Definition mi_checked_mul (t : ity) (a b : modint) : res (option modint) :=
  if has_matching_moduli a b then
    rmap (fun r => Some (MI r (mi_modulus a))) (modular_mul t (mi_value a) (mi_value b) (mi_modulus a))
  else Ret None.

(** num_integer's extended Euclid loop with every subtraction and
    multiplication checked against the range of the type. *)
Fixpoint ext_gcd_loop_ty (fuel : nat) (t : ity) (s0 s1 t0 t1 r0 r1 : Z) : res (Z * Z * Z) :=
  if r0 =? 0 then
    if 0 <=? r1 then Ret (r1, s1, t1)
    else (g <- in_ty t (0 - r1) ;; x <- in_ty t (0 - s1) ;; y <- in_ty t (0 - t1) ;;
          Ret (g, x, y))%res
  else
    match fuel with
    | O => NoFuel
    | S fuel' =>
        let q := Z.quot r1 r0 in
        (qr <- in_ty t (q * r0) ;; r' <- in_ty t (r1 - qr) ;;
         qs <- in_ty t (q * s0) ;; s' <- in_ty t (s1 - qs) ;;
         qt <- in_ty t (q * t0) ;; t' <- in_ty t (t1 - qt) ;;
         ext_gcd_loop_ty fuel' t s' s0 t' t0 r' r0)%res
    end.

(** mod_int.rs:1001-1014 checked_inverse.  Only signed types and BigInt
    implement ExtendedGCD (traits.rs:96-127). *)
Definition mi_checked_inverse (t : ity) (a : modint) : res (option modint) :=
  if mi_value a =? 0 then Ret None
  else
    ('(g, x, _) <- ext_gcd_loop_ty (ext_gcd_fuel (mi_modulus a)) t 0 1 1 0 (mi_modulus a) (mi_value a) ;;
     if g =? 1 then rmap Some (mi_new t x (mi_modulus a)) else Ret None)%res.

(** mod_int.rs:1015-1018 inverse *)
Definition mi_inverse (t : ity) (a : modint) : res modint :=
  (o <- mi_checked_inverse t a ;; unwrap o)%res.

(** mod_int.rs:1021-1069 Div/DivAssign, 1085-1087 exact_div *)
Definition mi_div (t : ity) (a b : modint) : res modint :=
  (i <- mi_inverse t b ;; mi_mul t a i)%res.

(** mod_int.rs:1071-1077 checked_div, 1088-1090 checked_exact_div *)
Definition mi_checked_div (t : ity) (a b : modint) : res (option modint) :=
  (o <- mi_checked_inverse t b ;;
   match o with None => Ret None | Some i => mi_checked_mul t a i end)%res.

(** mod_int.rs:1115-1123 checked_exact_div_assign: new value of the left
    operand and whether the division succeeded. *)
Definition mi_checked_exact_div_assign (t : ity) (a b : modint) : res (modint * bool) :=
  (o <- mi_checked_div t a b ;;
   match o with None => Ret (a, false) | Some q => Ret (q, true) end)%res.

(** mod_int.rs:1228-1232 element_pow_usize *)
Definition mi_pow (t : ity) (a : modint) (e : nat) : res modint :=
  rmap (fun r => MI r (mi_modulus a)) (pow_modular_reduce t (mi_value a) (Z.of_nat e) (mi_modulus a)).

(** mod_int.rs:1190-1198 mul_assign_element_by_usize *)
Definition mi_mul_usize (t : ity) (a : modint) (k : nat) : res modint :=
  (r <- modular_reduce_from_bigint t (Z.of_nat k) (mi_modulus a) ;;
   rmap (fun r => MI r (mi_modulus a)) (modular_mul t (mi_value a) r (mi_modulus a)))%res.

(** mod_int.rs:1155-1160, 1164-1178 zero and one with the modulus of a given
    element. *)
Definition mi_zero_like (t : ity) (a : modint) : res modint := mi_new t 0 (mi_modulus a).
Definition mi_one_like (t : ity) (a : modint) : res modint := mi_new t 1 (mi_modulus a).
