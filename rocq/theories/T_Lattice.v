(** Theorems on lattice reduction (C62). *)
From Coq Require Import ZArith QArith List.
From Verif Require Import M_Base M_Array2D M_Lattice S_Array2D S_Lattice P_Lattice P_LLL P_LLLTerm.
Import ListNotations.

(** C62: Gram-Schmidt returns the orthogonalisation of every family of integer
    vectors, dependent ones included. *)
Theorem C62_gram_schmidt : forall (a : arr2 Z) n m B, made a -> holds2 a n m B ->
  exists o O, gram_schmidt a = Ret o /\ holds2 o n m O /\ is_gs n m B O.
Proof. exact gram_schmidt_ok. Qed.

(** C62: the orthogonalisation is unique. *)
Theorem C62_gram_schmidt_unique : forall m B n O O', is_gs n m B O -> is_gs n m B O' ->
  forall i, (i < n)%nat -> forall y, (y < m)%nat -> O i y == O' i y.
Proof. exact gs_unique. Qed.

(** C62: whatever the parameter, what the reduction returns spans the lattice it
    was given and is a reduced basis of it. *)
Theorem C62_reduce : forall (a : arr2 Z) n m B delta fuel b,
  made a -> holds2 a n m B -> lll_reduce_with_delta fuel a delta = Ret b ->
  exists B', made b /\ holds2 b n m B' /\
    (forall v, in_lattice n m B v <-> in_lattice n m B' v) /\
    (independent n m B -> independent n m B') /\ lll_reduced delta n m B'.
Proof. exact lll_sound. Qed.

(** C62: on independent vectors it does not panic, and ends when the parameter is
    at most one. *)
Theorem C62_reduce_no_panic : forall (a : arr2 Z) n m B delta fuel,
  made a -> holds2 a n m B -> independent n m B ->
  lll_reduce_with_delta fuel a delta <> Panic.
Proof. exact lll_no_panic. Qed.

Theorem C62_reduce_ends : forall (a : arr2 Z) n m B delta,
  made a -> holds2 a n m B -> independent n m B -> delta <= 1 ->
  exists fuel0, forall fuel, (fuel0 <= fuel)%nat ->
  exists b, lll_reduce_with_delta fuel a delta = Ret b.
Proof. exact lll_ends. Qed.

(** C62: all of it for the default parameter. *)
Theorem C62_reduce_default : forall (a : arr2 Z) n m B,
  made a -> holds2 a n m B -> independent n m B ->
  exists fuel0, forall fuel, (fuel0 <= fuel)%nat ->
  exists b B', lll_reduce fuel a = Ret b /\ holds2 b n m B' /\ independent n m B' /\
    (forall v, in_lattice n m B v <-> in_lattice n m B' v) /\ lll_reduced (3 # 4) n m B'.
Proof. exact lll_default_spec. Qed.

(** The hypotheses hold of a basis of three vectors, and its reduction is
    another one; dependent vectors make the reduction panic. *)
Example C62_example :
  made ex_basis /\ holds2 ex_basis 3 3 ex_fun /\ independent 3 3 ex_fun /\
  (exists fuel, lll_reduce fuel ex_basis = Ret (Arr2 3 3 3 [0; 1; 0; 1; 0; 1; -1; 0; 2]%Z)) /\
  (exists fuel0, forall fuel, (fuel0 <= fuel)%nat -> lll_reduce fuel (Arr2 2 1 1 [1; 1]%Z) = Panic).
Proof.
exact (conj ex_made (conj ex_holds (conj ex_independent (conj ex_result ex_dependent)))).
Qed.

Print Assumptions C62_gram_schmidt.
Print Assumptions C62_gram_schmidt_unique.
Print Assumptions C62_reduce.
Print Assumptions C62_reduce_no_panic.
Print Assumptions C62_reduce_ends.
Print Assumptions C62_reduce_default.
