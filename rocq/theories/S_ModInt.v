(** Specification vocabulary for modular integers. *)
From Coq Require Import ZArith.
From Verif Require Import M_ModInt.
Local Open Scope Z_scope.

(** Canonical: the stored value is the least non-negative residue. *)
Definition mi_canonical (a : modint) : Prop := 0 <= mi_value a < mi_modulus a.

(** The integer types for which inverses exist in the API (the unsigned types
    do not implement ExtendedGCD). *)
Definition signed_ty (t : ity) : bool :=
  match t with ISigned _ | IBig => true | _ => false end.

