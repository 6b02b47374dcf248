(** What the operators of the Python class mean. *)
From Coq Require Import ZArith QArith Qreals Reals.
Set Warnings "-notation-overridden,-ambiguous-paths".
From mathcomp Require Import ssreflect ssrfun ssrbool eqtype ssrnat seq.
From Verif Require Import M_Base M_Alg M_Python S_Alg S_AlgOps.
Set Implicit Arguments.
Unset Strict Implicit.
Unset Printing Implicit Defensive.
Local Open Scope R_scope.

(** The Python object stands for this Rust number, ... *)
Definition stands_for (o : pyobj) (a : ralg) : Prop := o = PNum a \/ exists z, o = PInt z /\ a = ra_from_int z.
(** ... or for none. *)
Definition no_number (o : pyobj) : Prop := o = PNone \/ o = POther.
(** An operand of the class itself: only then Python asks the class. *)
Definition of_class (o : pyobj) : Prop := exists a, o = PNum a.

(** The operator [py] returns what the Rust operation [rust] returns and raises
    nothing. *)
Definition returns_as (T : Type) (py : res (pyres T)) (rust : res T) : Prop :=
  (forall v, py = Ret (PVal v) <-> rust = Ret v) /\ (forall e, py <> Ret (PExn e)) /\
  (py = Panic <-> rust = Panic).
(** [py] raises [exn] under the condition [bad] and under no other, and otherwise
    returns what [rust] returns; it raises nothing else. *)
Definition raises_iff (T : Type) (py : res (pyres T)) (exn : pyexn) (bad : Prop) (rust : res (option T)) : Prop :=
  (forall e, py = Ret (PExn e) <-> e = exn /\ bad) /\
  (~ bad -> (forall v, py = Ret (PVal v) <-> rust = Ret (Some v)) /\ (py = Panic <-> rust = Panic)).

(** The comparison operators on real numbers *)
Definition holds (op : cmp_op) (x y : R) : Prop :=
  match op with
  | OpLt => x < y | OpLe => x <= y | OpEq => x = y | OpNe => x <> y | OpGt => x > y | OpGe => x >= y
  end.
(** The comparison operators from Rust's cmp and eq *)
Definition rust_compare (op : cmp_op) (order : res comparison) (equal : res bool) : res bool :=
  match op with
  | OpLt => rmap (fun c => match c with Lt => true | _ => false end) order
  | OpLe => rmap (fun c => match c with Gt => false | _ => true end) order
  | OpEq => equal
  | OpNe => rmap negb equal
  | OpGt => rmap (fun c => match c with Gt => true | _ => false end) order
  | OpGe => rmap (fun c => match c with Lt => false | _ => true end) order
  end.
