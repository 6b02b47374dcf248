(** Model of /repo/src/polynomial.rs:1052-1132 (iterators over the coefficients
    of a polynomial) and 1680-1732 (conversions from and to primitive numbers).
    std's slice and vector iterators are the list of the items left. *)
From Coq Require Import ZArith List.
Set Warnings "-notation-overridden,-ambiguous-paths".
From mathcomp Require Import ssreflect ssrfun ssrbool eqtype ssrnat seq.
From Verif Require Import M_Base M_Poly.
Set Implicit Arguments.
Unset Strict Implicit.
Unset Printing Implicit Defensive.

(** std: next and next_back of slice::Iter and vec::IntoIter *)
Definition std_next A (l : seq A) : option A * seq A :=
  match l with [::] => (None, [::]) | x :: l' => (Some x, l') end.
Definition std_next_back A (l : seq A) : option A * seq A :=
  match rev l with [::] => (None, [::]) | x :: l' => (Some x, rev l') end.

(** A step as [iter_run] (M_Array2D.v) takes it *)
Definition ret_of S A (f : S -> option A * S) : S -> res (option A * S) := fun s => Ret (f s).

Section Iter.
Variable K : pcoef.
(** polynomial.rs:1052-1056 Iter, 1193-1198 iter *)
Record piter := PIter { pi_els : seq (elt K); pi_dv : dvr K }.
Definition piter_new (p : poly K) : piter := PIter (els p) (dv p).
(** 1058-1066 next *)
Definition piter_next (i : piter) : option (cf K) * piter :=
  let r := std_next (pi_els i) in (omap (fun e => make_coef e (pi_dv i)) r.1, PIter r.2 (pi_dv i)).
(** 1071-1079 next_back *)
Definition piter_next_back (i : piter) : option (cf K) * piter :=
  let r := std_next_back (pi_els i) in (omap (fun e => make_coef e (pi_dv i)) r.1, PIter r.2 (pi_dv i)).
(** 1067-1069 size_hint, and len of ExactSizeIterator (1081), which is its
    lower bound *)
Definition piter_len (i : piter) : nat := size (pi_els i).

(** 1083-1087 IntoIter, 1121-1130 into_iter *)
Record pinto := PInto { pn_els : seq (elt K); pn_dv : option (dvr K) }.
Definition pinto_new (p : poly K) : pinto := PInto (els p) (Some (dv p)).
(** 1091-1095, 1108-1112: the divisor, which is taken out of the iterator with
    its last element; what is left in the iterator *)
Definition pinto_divisor (i : pinto) : option (dvr K) * option (dvr K) :=
  if size (pn_els i) == 1 then (pn_dv i, None) else (pn_dv i, pn_dv i).
(** 1089-1100 next, 1106-1117 next_back ([step] is that of the vector) *)
Definition pinto_step (step : seq (elt K) -> option (elt K) * seq (elt K)) (i : pinto) : option (cf K) * pinto :=
  match pinto_divisor i with
  | (None, rest) => (None, PInto (pn_els i) rest)
  | (Some d, rest) => let r := step (pn_els i) in (omap (fun e => make_coef e d) r.1, PInto r.2 rest)
  end.
Definition pinto_next : pinto -> option (cf K) * pinto := pinto_step (@std_next _).
Definition pinto_next_back : pinto -> option (cf K) * pinto := pinto_step (@std_next_back _).
(** 1101-1103 size_hint *)
Definition pinto_len (i : pinto) : nat := size (pn_els i).
End Iter.

(** 1680-1702 FromPrimitive: [conv] is the conversion of the coefficient type *)
Definition from_primitive (K : pcoef) A (conv : A -> option (cf K)) (v : A) : option (poly K) :=
  omap (@from_coef K) (conv v).
(** 1704-1732 ToPrimitive: [conv] is the conversion of the coefficient type and
    [zero] the zero of the primitive type *)
Definition to_primitive (K : pcoef) A (conv : cf K -> option A) (zero : A) (p : poly K) : option A :=
  if 1 < size (els p) then None
  else match nonzero_coefficient p 0 with
       | Some c => conv c
       | None => Some zero
       end.
(** ToPrimitive and FromPrimitive of BigInt for an integer type of the range
    [lo, hi] *)
Definition bigint_to (lo hi : Z) (c : Z) : option Z := if (Z.leb lo c && Z.leb c hi)%bool then Some c else None.
Definition bigint_from (v : Z) : option Z := Some v.
