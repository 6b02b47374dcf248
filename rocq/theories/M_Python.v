(** Model of src/python.rs: the Python class RealAlgebraicNumber.

    A Python object is a number of the class, an integer, None or anything else.
    What pyo3 0.16 and the interpreter do around the methods is modelled from
    their documentation: an operand that cannot be converted makes a method
    answer NotImplemented; the operator then tries the reflected method of the
    other operand and finally raises TypeError (for == and != it compares
    identities).  Objects of other types are taken to have no methods of their
    own for these operators.  A Rust panic stays [Panic].  The global
    interpreter lock (py.allow_threads) and reference counts (Arc) have no
    effect on results: numbers are immutable.  __repr__ is in M_DisplayAlg.v. *)
From Coq Require Import ZArith QArith.
Set Warnings "-notation-overridden,-ambiguous-paths".
From mathcomp Require Import ssreflect ssrfun ssrbool eqtype ssrnat seq.
From Verif Require Import M_Base M_Util M_Interval M_Poly M_PolyCoef M_Alg.
Set Implicit Arguments.
Unset Strict Implicit.
Unset Printing Implicit Defensive.

Inductive pyexn := ZeroDivisionError | ValueError | TypeError.
Inductive pyobj := PNum (a : ralg) | PInt (z : Z) | PNone | POther.
(** PyResult *)
Inductive pyres (T : Type) := PVal (v : T) | PExn (e : pyexn).
Arguments PExn {T} e.
(** What a method answers, before the interpreter has looked at it. *)
Inductive slot (T : Type) := Answer (r : res (pyres T)) | NotImplemented.
Arguments NotImplemented {T}.

(** python.rs:47-55 extract; BigInt's extract accepts integers only. *)
Definition py_extract (o : pyobj) : option ralg :=
  match o with
  | PNum a => Some a
  | PInt z => Some (ra_from_int z)
  | _ => None
  end.
(** python.rs:62-66: the receiver of a method *)
Definition py_self (o : pyobj) : option ralg := if o is PNum a then Some a else None.

(** Option::ok_or_else *)
Definition py_ok_or (T : Type) (e : pyexn) (r : res (option T)) : res (pyres T) :=
  rmap (fun o => if o is Some v then PVal v else PExn e) r.

(** python.rs:70-74 pynew; Option<SharedNumber> is None for a missing argument
    and for Python's None. *)
Definition py_new (value : option pyobj) : pyres ralg :=
  match value with
  | None | Some PNone => PVal ra_zero
  | Some o => if py_extract o is Some a then PVal a else PExn TypeError
  end.

Section Methods.
Variables (rng : nat -> Z) (ffuel fuel : nat) (ln2 : nat -> res dfi).

(** python.rs:75-83 *)
Definition py_trunc (a : ralg) : res Z := ra_integer_trunc fuel a.
Definition py_floor (a : ralg) : res Z := ra_integer_floor fuel a.
Definition py_ceil (a : ralg) : res Z := ra_integer_ceil fuel a.
(** python.rs:84-89 *)
Definition py_to_integer (a : ralg) : res (option Z) := ra_to_integer a.
Definition py_to_rational (a : ralg) : res (option (Z * Z)) :=
  rmap (omap (fun q => (Qnum q, Zpos (Qden q)))) (ra_to_rational a).
(** python.rs:90-103 *)
Definition py_minimal_polynomial (a : ralg) : seq Z := coefficients (mp a).
Definition py_degree (a : ralg) : res nat := ra_degree a.
Definition py_is_rational (a : ralg) : res bool := ra_is_rational a.
Definition py_is_integer (a : ralg) : res bool := ra_is_integer a.
(** python.rs:104-117 *)
Definition py_recip (a : ralg) : res (pyres ralg) := py_ok_or ZeroDivisionError (ra_checked_recip fuel a).
Definition py_floor_log2 (a : ralg) : res (pyres Z) := py_ok_or ValueError (ra_floor_log2 fuel a).
Definition py_ceil_log2 (a : ralg) : res (pyres Z) := py_ok_or ValueError (ra_ceil_log2 fuel a).

(** python.rs:123-132 __richcmp__; <, <=, >, >= go through partial_cmp, which
    returns Some(cmp) (algebraic_numbers.rs:1249-1267). *)
Inductive cmp_op := OpLt | OpLe | OpEq | OpNe | OpGt | OpGe.
Definition py_richcmp (a b : ralg) (op : cmp_op) : res (pyres bool) :=
  match op with
  | OpLt => rmap (fun c => PVal (if c is Lt then true else false)) (ra_cmp rng ffuel fuel a b)
  | OpLe => rmap (fun c => PVal (if c is Gt then false else true)) (ra_cmp rng ffuel fuel a b)
  | OpEq => rmap (fun e => PVal e) (ra_eqb rng ffuel fuel a b)
  | OpNe => rmap (fun e => PVal (negb e)) (ra_eqb rng ffuel fuel a b)
  | OpGt => rmap (fun c => PVal (if c is Gt then true else false)) (ra_cmp rng ffuel fuel a b)
  | OpGe => rmap (fun c => PVal (if c is Lt then false else true)) (ra_cmp rng ffuel fuel a b)
  end.

(** python.rs:219-250 try_arithmetic_helper, arithmetic_helper *)
Definition py_arith (r : res ralg) : res (pyres ralg) := rmap (fun v => PVal v) r.
(** python.rs:135-152 *)
Definition py_m_add (lhs rhs : ralg) := py_arith (ra_add rng ffuel fuel lhs rhs).
Definition py_m_radd (rhs lhs : ralg) := py_m_add lhs rhs.
Definition py_m_sub (lhs rhs : ralg) := py_arith (ra_sub rng ffuel fuel lhs rhs).
Definition py_m_rsub (rhs lhs : ralg) := py_m_sub lhs rhs.
Definition py_m_mul (lhs rhs : ralg) := py_arith (ra_mul rng ffuel fuel lhs rhs).
Definition py_m_rmul (rhs lhs : ralg) := py_m_mul lhs rhs.
(** python.rs:153-164 *)
Definition py_m_truediv (lhs rhs : ralg) := py_ok_or ZeroDivisionError (ra_checked_div rng ffuel fuel lhs rhs).
Definition py_m_rtruediv (rhs lhs : ralg) := py_m_truediv lhs rhs.
(** python.rs:165-200; only whether a modulus other than None is given matters. *)
Definition py_m_pow (modulus : pyobj) (lhs rhs : ralg) : res (pyres ralg) :=
  if modulus is PNone then
    (e <- ra_to_rational rhs ;;
     if e is Some e then py_ok_or ValueError (ra_checked_pow rng ffuel fuel ln2 lhs e)
     else Ret (PExn ValueError))%res
  else Ret (PExn TypeError).
Definition py_m_rpow (modulus : pyobj) (rhs lhs : ralg) := py_m_pow modulus lhs rhs.
(** python.rs:203-208 *)
Definition py_neg (a : ralg) : res (pyres ralg) := rmap (fun v => PVal v) (ra_neg a).
Definition py_abs (a : ralg) : res (pyres ralg) := rmap (fun v => PVal v) (ra_abs a).

(** A method called with a receiver and one more argument (pyo3). *)
Definition py_call (T : Type) (m : ralg -> ralg -> res (pyres T)) (self other : pyobj) : slot T :=
  match py_self self, py_extract other with
  | Some a, Some b => Answer (m a b)
  | _, _ => NotImplemented
  end.
(** A binary operator: the method of the left operand, then the reflected one of
    the right operand (pyo3, Python reference 3.3.8). *)
Definition py_binary (T : Type) (m rm : ralg -> ralg -> res (pyres T)) (l r : pyobj) : res (pyres T) :=
  match py_call m l r with
  | Answer v => v
  | NotImplemented => match py_call rm r l with Answer v => v | NotImplemented => Ret (PExn TypeError) end
  end.
Definition py_add := py_binary py_m_add py_m_radd.
Definition py_sub := py_binary py_m_sub py_m_rsub.
Definition py_mul := py_binary py_m_mul py_m_rmul.
Definition py_truediv := py_binary py_m_truediv py_m_rtruediv.
Definition py_pow (modulus l r : pyobj) := py_binary (py_m_pow modulus) (py_m_rpow modulus) l r.
(** Comparisons: < and >, <= and >= are each other's reflection; == and != fall
    back to identity, which differs for objects of different types (Python
    reference 3.3.1). *)
Definition py_swap (op : cmp_op) : cmp_op :=
  match op with OpLt => OpGt | OpLe => OpGe | OpEq => OpEq | OpNe => OpNe | OpGt => OpLt | OpGe => OpLe end.
Definition py_compare (op : cmp_op) (l r : pyobj) : res (pyres bool) :=
  match py_call (fun a b => py_richcmp a b op) l r with
  | Answer v => v
  | NotImplemented =>
      match py_call (fun a b => py_richcmp a b (py_swap op)) r l with
      | Answer v => v
      | NotImplemented =>
          Ret (match op with OpEq => PVal false | OpNe => PVal true | _ => PExn TypeError end)
      end
  end.
End Methods.
