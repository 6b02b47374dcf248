(** Model of /repo/src/traits.rs. *)
From Coq Require Import ZArith QArith List Bool.
From Verif Require Import M_Base.
Local Open Scope Z_scope.

(** * GCD and LCM of integers *)

(** traits.rs:54-66, 78-94 (impl_gcd_for_int): [gcd] delegates to
    num_integer's [Integer::gcd] (non-negative gcd). *)
Definition int_gcd (a b : Z) : Z := Z.gcd a b.
(** traits.rs:85-87: [lcm] delegates to [Integer::lcm] (non-negative). *)
Definition int_lcm (a b : Z) : Z := Z.lcm a b.
(** traits.rs:88-91 *)
Definition int_gcd_lcm (a b : Z) : Z * Z := (Z.gcd a b, Z.lcm a b).

(** num_integer's [Integer::extended_gcd] loop (the dependency used at
    traits.rs:101-109); state (s0,s1),(t0,t1),(r0,r1).  Truncating division.
    [fuel] bounds the number of iterations. *)
Fixpoint ext_gcd_loop (fuel : nat) (s0 s1 t0 t1 r0 r1 : Z) : option (Z * Z * Z) :=
  if r0 =? 0 then
    if 0 <=? r1 then Some (r1, s1, t1) else Some (0 - r1, 0 - s1, 0 - t1)
  else
    match fuel with
    | O => None
    | S fuel' =>
        let q := Z.quot r1 r0 in
        ext_gcd_loop fuel' (s1 - q * s0) s0 (t1 - q * t0) t0 (r1 - q * r0) r0
    end.

Definition ext_gcd_fuel (b : Z) : nat := Z.to_nat (2 * Z.log2 (Z.abs b) + 3).

(** traits.rs:68-76, 96-113: returns (gcd, x, y).  [None] (loop fuel
    exhausted) is proved unreachable. *)
Definition int_extended_gcd (a b : Z) : option (Z * Z * Z) :=
  ext_gcd_loop (ext_gcd_fuel b) 0 1 1 0 b a.

(** traits.rs:105-109 [extended_gcd_lcm]: (gcd, x, y, lcm). *)
Definition int_extended_gcd_lcm (a b : Z) : option (Z * Z * Z * Z) :=
  match int_extended_gcd a b with
  | Some (g, x, y) => Some (g, x, y, Z.lcm a b)
  | None => None
  end.

(** * Rationals *)

(** num_rational's [Ratio::new]: panics on a zero denominator, reduces and
    makes the denominator positive. *)
Definition ratio_new (n d : Z) : res Q :=
  match d with
  | Z0 => Panic
  | Zpos p => Ret (Qred (n # p))
  | Zneg p => Ret (Qred ((- n) # p))
  end.

(** traits.rs:129-152 GCD for Ratio<T>; returns (gcd, lcm). *)
Definition ratio_gcd_lcm (a b : Q) : res (Q * Q) :=
  if Qnum a =? 0 then Ret (b, 0%Q)
  else if Qnum b =? 0 then Ret (a, 0%Q)
  else
    let x := Qnum a * Zpos (Qden b) in
    let y := Qnum b * Zpos (Qden a) in
    let '(g, l) := int_gcd_lcm x y in
    let d := Zpos (Qden a) * Zpos (Qden b) in
    (gq <- ratio_new g d ;;
     lq <- ratio_new l d ;;
     Ret (gq, lq))%res.

(** traits.rs:154-166 ExtendedGCD for Ratio<T>: (gcd, x, y, lcm). *)
Definition ratio_extended_gcd_lcm (a b : Q) : res (Q * Q * Q * Q) :=
  let x := Qnum a * Zpos (Qden b) in
  let y := Qnum b * Zpos (Qden a) in
  match int_extended_gcd_lcm x y with
  | None => NoFuel
  | Some (g, s, t, l) =>
      let d := Zpos (Qden a) * Zpos (Qden b) in
      (gq <- ratio_new g d ;;
       lq <- ratio_new l d ;;
       Ret (gq, inject_Z s, inject_Z t, lq))%res
  end.

(** * Nearest division *)

(** traits.rs:283-304 [checked_div_rem_nearest] for BigInt. *)
Definition bigint_checked_div_rem_nearest (a b : Z) : option (Z * Z) :=
  if b =? 0 then None
  else
    let q := Z.quot a b in
    let r := Z.rem a b in
    let bm := Z.abs b in
    let rm := Z.abs r in
    if rm <? bm - rm then
      if b <? 0 then Some (q - 1, r - bm) else Some (q + 1, r + bm)
    else Some (q, r).

(** Range of a signed [w]-bit integer. *)
Definition imin (w : Z) : Z := - 2 ^ (w - 1).
Definition imax (w : Z) : Z := 2 ^ (w - 1) - 1.
Definition in_irange (w x : Z) : bool := (imin w <=? x) && (x <=? imax w).
(** [checked_add] of a signed [w]-bit integer. *)
Definition iadd_checked (w x y : Z) : option Z :=
  if in_irange w (x + y) then Some (x + y) else None.

(** traits.rs:225-253 [checked_div_rem_nearest] for signed [w]-bit integers.
    The unsigned magnitudes (wrapping_abs as $u) are exact absolute values. *)
Definition int_checked_div_rem_nearest (w a b : Z) : option (Z * Z) :=
  if b =? 0 then None
  else if (b =? -1) && (a =? imin w) then None
  else
    let q := Z.quot a b in
    let r := Z.rem a b in
    let bm := Z.abs b in
    let rm := Z.abs r in
    if negb (b =? imin w) && (bm / 2 <? rm) then
      let '(qo, ro) := if b <? 0 then (-1, b) else (1, - b) in
      match iadd_checked w q qo, iadd_checked w r ro with
      | Some q', Some r' => Some (q', r')
      | _, _ => None
      end
    else Some (q, r).

(** traits.rs:255-268, 306-315: unsigned integers and BigUint. *)
Definition uint_checked_div_rem_nearest (a b : Z) : option (Z * Z) :=
  if b =? 0 then None else Some (a / b, a mod b).

(** traits.rs:217-223: rationals. *)
Definition ratio_checked_div_rem_nearest (a b : Q) : option (Q * Q) :=
  if Qnum b =? 0 then None else Some (Qred (a / b)%Q, 0%Q).

(** * Logarithms and trailing zeros *)

(** num-bigint's [bits]: number of bits of the magnitude (0 for 0). *)
Definition bigint_bits (a : Z) : Z := if a =? 0 then 0 else Z.log2 (Z.abs a) + 1.

(** traits.rs:446-454 (BigInt), 400-408 (BigUint). *)
Definition bigint_ceil_log2 (a : Z) : option Z :=
  if 0 <? a then Some (bigint_bits (a - 1)) else None.
(** traits.rs:456-464, 410-418. *)
Definition bigint_floor_log2 (a : Z) : option Z :=
  if 0 <? a then Some (bigint_bits a - 1) else None.

(** primitive [leading_zeros] of the [w]-bit two's complement word of [a>=0]. *)
Definition prim_leading_zeros (w a : Z) : Z := w - bigint_bits a.
(** traits.rs:357-365, [w]-bit primitive integers. *)
Definition prim_floor_log2 (w a : Z) : option Z :=
  if a <=? 0 then None else Some (w - prim_leading_zeros w a - 1).
(** traits.rs:366-374 *)
Definition prim_ceil_log2 (w a : Z) : option Z :=
  if a <=? 0 then None else Some (w - prim_leading_zeros w (a - 1)).

(** primitive [trailing_zeros] of a positive word. *)
Fixpoint pos_ctz (p : positive) : Z :=
  match p with xO p' => 1 + pos_ctz p' | _ => 0 end.
(** primitive [trailing_zeros]; two's complement negation does not change the
    trailing zeros. *)
Definition prim_ctz (a : Z) : Z :=
  match a with Z0 => 0 | Zpos p => pos_ctz p | Zneg p => pos_ctz p end.
(** traits.rs:375-383 *)
Definition prim_trailing_zeros (a : Z) : option Z :=
  if a =? 0 then None else Some (prim_ctz a).

(** traits.rs:428-431: [while bit < ceil_log2 { bit <<= 1 }], bit = 2^k; returns k. *)
Fixpoint tz_start (fuel : nat) (k c : Z) : Z :=
  if 2 ^ k <? c then
    match fuel with O => k | S f => tz_start f (k + 1) c end
  else k.
(** traits.rs:432-441: descending over bits 2^k, ..., 2, 1. [n] = k+1. *)
Fixpoint tz_loop (n : nat) (value ret : Z) : Z :=
  match n with
  | O => ret
  | S k =>
      let bit := 2 ^ Z.of_nat k in
      let shifted := Z.shiftr value bit in
      if Z.shiftl shifted bit =? value
      then tz_loop k shifted (Z.lor ret bit)
      else tz_loop k value ret
  end.
(** traits.rs:420-444 BigUint.  The fuel of [tz_start] (log2 of the bound) is
    shown to be sufficient. *)
Definition biguint_trailing_zeros (a : Z) : option Z :=
  match bigint_ceil_log2 a with
  | None => None
  | Some c =>
      if a <? 2 ^ 32 then Some (prim_ctz a)
      else
        let k := tz_start (Z.to_nat (Z.log2_up c)) 0 c in
        Some (tz_loop (S (Z.to_nat k)) a 0)
  end.
(** traits.rs:466-475 BigInt. *)
Definition bigint_trailing_zeros (a : Z) : option Z := biguint_trailing_zeros (Z.abs a).

(** * Exact division *)

(** traits.rs:645-651 [bigint_checked_div_rem]. *)
Definition bigint_checked_div_rem (a b : Z) : option (Z * Z) :=
  if b =? 0 then None else Some (Z.quot a b, Z.rem a b).
(** traits.rs:641-643 [checked_div_rem] at a signed [w]-bit type:
    checked_div/checked_rem fail for zero and MIN/-1. *)
Definition int_checked_div_rem (w a b : Z) : option (Z * Z) :=
  if b =? 0 then None
  else if (b =? -1) && (a =? imin w) then None
  else Some (Z.quot a b, Z.rem a b).

(** traits.rs:662-669 [checked_exact_div], for either [checked_div_rem]. *)
Definition checked_exact_div_by (dr : Z -> Z -> option (Z * Z)) (a b : Z) : option Z :=
  match dr a b with
  | None => None
  | Some (q, r) => if r =? 0 then Some q else None
  end.
Definition bigint_checked_exact_div := checked_exact_div_by bigint_checked_div_rem.
Definition int_checked_exact_div (w : Z) := checked_exact_div_by (int_checked_div_rem w).
(** traits.rs:657-661 [exact_div] (BigInt): panics on zero divisor and on a
    non-zero remainder. *)
Definition bigint_exact_div (a b : Z) : res Z :=
  if b =? 0 then Panic
  else if Z.rem a b =? 0 then Ret (Z.quot a b) else Panic.
(** traits.rs:657-661 at a signed [w]-bit type: MIN / -1 panics (overflow). *)
Definition int_exact_div (w a b : Z) : res Z :=
  if b =? 0 then Panic
  else if (b =? -1) && (a =? imin w) then Panic
  else if Z.rem a b =? 0 then Ret (Z.quot a b) else Panic.
(** traits.rs:706-713 [checked_exact_div_assign]: (new self, Ok?). *)
Definition bigint_checked_exact_div_assign (a b : Z) : Z * bool :=
  match bigint_checked_exact_div a b with Some q => (q, true) | None => (a, false) end.
(** traits.rs:578-594 rationals. *)
Definition ratio_checked_exact_div (a b : Q) : option Q :=
  if Qnum b =? 0 then None else Some (Qred (a / b)%Q).
