(** Algebraic integers. *)
From Coq Require Import Reals.
Set Warnings "-notation-overridden,-ambiguous-paths".
From mathcomp Require Import all_ssreflect all_algebra.
From Verif Require Import P_Rstruct.
Set Implicit Arguments.
Unset Strict Implicit.
Unset Printing Implicit Defensive.

(** The real number [x] is a root of a monic polynomial with integer
    coefficients. *)
Definition algebraic_integer (x : R) : Prop :=
  exists2 P : {poly int}, P \is mathcomp.algebra.poly.monic & root (map_poly (intr : int -> R) P) x.
