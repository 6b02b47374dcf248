(** Model of the text forms: /repo/src/polynomial.rs:1647-1680 (Display of
    polynomials) and 1551-1555 (Display of factors), /repo/src/mod_int.rs:651-656
    (Display of modular integers); integers and Ratio print as their crates
    document. *)
From Coq Require Import ZArith QArith List String Ascii DecimalString.
From Verif Require Import M_Base M_PolyAlg.
Import ListNotations.
Local Open Scope string_scope.

(** Display of usize and of integers: decimal. *)
Definition show_usize (n : nat) : string := NilEmpty.string_of_uint (Nat.to_uint n).
Definition show_int (z : Z) : string := NilEmpty.string_of_int (Z.to_int z).
(** Display of num_rational's Ratio: the denominator 1 is left out. *)
Definition show_ratio (q : Q) : string :=
  if (Zpos (Qden q) =? 1)%Z then show_int (Qnum q)
  else show_int (Qnum q) ++ "/" ++ show_int (Zpos (Qden q)).
(** mod_int.rs:651-656; the value and the modulus are integers. *)
Definition show_mod_int (vm : Z * Z) : string :=
  "mod_int(" ++ show_int (fst vm) ++ ", " ++ show_int (snd vm) ++ ")".

(** get_variable_name (polynomial.rs:1636-1649); it never fails (C66). *)
Definition variable_name (depth : nat) : string :=
  match get_variable_name depth with Ret s => s | _ => "" end.

Section Show.
Variables (C : Type) (show : C -> string) (depth : nat).
(** polynomial.rs:1656-1657 *)
Definition left_paren : string := if Nat.eqb depth O then "" else "(".
Definition right_paren : string := if Nat.eqb depth O then "" else ")".
(** polynomial.rs:1658-1673: one coefficient *)
Definition show_term (power : nat) (c : C) : string :=
  match power with
  | O => show c
  | S O => " + " ++ left_paren ++ show c ++ right_paren ++ "*" ++ variable_name depth
  | _ => " + " ++ left_paren ++ show c ++ right_paren ++ "*" ++ variable_name depth ++ "^" ++ show_usize power
  end.
(** polynomial.rs:1657-1674: the loop, [power] being the next index *)
Fixpoint show_terms (power : nat) (l : list C) : string :=
  match l with
  | [] => ""
  | c :: l' => show_term power c ++ show_terms (S power) l'
  end.
(** polynomial.rs:1651-1677: Display of the polynomial whose iterator yields
    [l]; [depth] is T::NESTING_DEPTH. *)
Definition show_poly (l : list C) : string :=
  match l with [] => "0" | _ => show_terms O l end.
(** polynomial.rs:1551-1555 Display of PolynomialFactor *)
Definition show_factor (l : list C) (power : nat) : string :=
  "(" ++ show_poly l ++ ")^" ++ show_usize power.
End Show.

(** Polynomials nested [n] times over the coefficient type [B], each given by
    its list of coefficients; NESTING_DEPTH (polynomial.rs:100, 288, 582, 710) counts
    the nesting. *)
Fixpoint nested (B : Type) (n : nat) : Type :=
  match n with O => B | S n' => list (nested B n') end.
Fixpoint show_nested {B} (show : B -> string) (n : nat) : nested B n -> string :=
  match n with
  | O => show
  | S n' => show_poly (nested B n') (show_nested show n') n'
  end.
