(** Property theorems: iterators over the coefficients of a polynomial and
    conversions from and to primitive numbers.  [deque_run ops l] are the answers
    of a list consumed from both ends, and what is left (S_Array2D.v);
    [coefficients p] are the coefficients of [p] (C13_accessors). *)
From Coq Require Import ZArith List.
Set Warnings "-notation-overridden,-ambiguous-paths".
From mathcomp Require Import all_ssreflect all_algebra.
From Verif Require Import M_Base M_Poly M_Array2D S_Array2D S_Poly P_PolyInst M_PolyIter P_PolyIter.
Set Implicit Arguments.
Unset Strict Implicit.
Unset Printing Implicit Defensive.
Local Open Scope ring_scope.
Delimit Scope Z_scope with ZZ.

(** C73: whatever the order of calls from the front and from the back, both
    iterators answer with the coefficients, each once, and know how many are
    left. *)
Theorem C73_by_reference : forall K (p : poly K) ops, exists j,
  iter_run (ret_of (@piter_next K)) (ret_of (@piter_next_back K)) ops (piter_new p) =
  Ret (fst (deque_run ops (coefficients p)), j) /\ piter_len j = length (snd (deque_run ops (coefficients p))).
Proof. exact iter_ref. Qed.
Print Assumptions C73_by_reference.
Theorem C73_owned : forall K (p : poly K) ops, exists j,
  iter_run (ret_of (@pinto_next K)) (ret_of (@pinto_next_back K)) ops (pinto_new p) =
  Ret (fst (deque_run ops (coefficients p)), j) /\ pinto_len j = length (snd (deque_run ops (coefficients p))).
Proof. exact iter_owned. Qed.
Print Assumptions C73_owned.
Example C73_example :
  rmap fst (iter_run (ret_of (@pinto_next _)) (ret_of (@pinto_next_back _)) [:: Next; NextBack; Next; Next]
    (pinto_new (from_coefs (K := int_coef) [:: 3; 0; 5]%ZZ))) =
  Ret [:: Some 3%ZZ; Some 5%ZZ; Some 0%ZZ; None].
Proof. by []. Qed.

(** C74: an integer polynomial converts to the number [v] of an integer type
    with the range [lo, hi] exactly if it is the constant [v] and [v] is in the
    range; a number converts to the constant polynomial. *)
Theorem C74_to : forall lo hi p v, (lo <= 0 <= hi)%ZZ -> wf int_sem p ->
  to_primitive (K := int_coef) (bigint_to lo hi) 0%ZZ p = Some v <->
  (lo <= v <= hi)%ZZ /\ pval int_sem p = (vc int_sem v)%:P.
Proof. exact to_primitive_spec. Qed.
Print Assumptions C74_to.
Theorem C74_from : forall v, exists p, from_primitive (K := int_coef) bigint_from v = Some p /\
  wf int_sem p /\ pval int_sem p = (vc int_sem v)%:P.
Proof. exact from_primitive_spec. Qed.
Print Assumptions C74_from.
Example C74_example :
  to_primitive (K := int_coef) (bigint_to (-128) 127) 0%ZZ (from_coefs (K := int_coef) [:: -128]%ZZ) = Some (-128)%ZZ /\
  to_primitive (K := int_coef) (bigint_to (-128) 127) 0%ZZ (from_coefs (K := int_coef) [:: 128]%ZZ) = None /\
  to_primitive (K := int_coef) (bigint_to (-128) 127) 0%ZZ (from_coefs (K := int_coef) [:: 1; 1]%ZZ) = None /\
  to_primitive (K := int_coef) (bigint_to (-128) 127) 0%ZZ (from_coefs (K := int_coef) [::]) = Some 0%ZZ.
Proof. by []. Qed.
