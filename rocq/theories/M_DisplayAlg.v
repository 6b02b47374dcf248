(** Model of the text forms of intervals and algebraic numbers:
    /repo/src/interval_arithmetic.rs:838-862, /repo/src/algebraic_numbers.rs:71-100,
    /repo/src/python.rs:121-123.  What std's debug_struct writes (without the
    alternate flag) is modelled from its documentation. *)
From Coq Require Import ZArith List String.
From Verif Require Import M_Base M_Interval M_Poly M_Alg M_Display.
Import ListNotations.
Local Open Scope string_scope.

(** std::fmt debug_struct(..).field(..)...finish() without the alternate flag *)
Fixpoint debug_fields (l : list (string * string)) : string :=
  match l with
  | [] => ""
  | [f] => fst f ++ ": " ++ snd f
  | f :: l' => fst f ++ ": " ++ snd f ++ ", " ++ debug_fields l'
  end.
Definition debug_struct (name : string) (l : list (string * string)) : string :=
  name ++ " { " ++ debug_fields l ++ " }".

(** interval_arithmetic.rs:838-852 Debug (util.rs:1076-1082 DebugAsDisplay) *)
Definition debug_interval (i : dfi) : string :=
  debug_struct "DyadicFractionInterval"
    [("lower_bound_numer", show_int (dlo i)); ("upper_bound_numer", show_int (dhi i));
     ("log2_denom", show_usize (dlog i))].
(** interval_arithmetic.rs:854-862 Display *)
Definition show_interval (i : dfi) : string :=
  "[" ++ show_int (dlo i) ++ " / 2^" ++ show_usize (dlog i) ++ ", " ++
  show_int (dhi i) ++ " / 2^" ++ show_usize (dlog i) ++ "]".
(** Display of Polynomial<BigInt> *)
Definition show_int_poly (p : poly int_coef) : string := show_nested show_int 1 (coefficients p).
(** algebraic_numbers.rs:71-82 debug_real_algebraic_number, 84-88 and 96-100 *)
Definition debug_number (name : string) (a : ralg) : string :=
  debug_struct name [("minimal_polynomial", show_int_poly (mp a)); ("interval", debug_interval (itv a))].
(** python.rs:121-123 __repr__ *)
Definition py_repr (a : ralg) : string := "<" ++ debug_number "RealAlgebraicNumber" a ++ ">".
