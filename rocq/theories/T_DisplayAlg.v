(** Property theorems: the text forms of intervals and algebraic numbers. *)
From Coq Require Import ZArith Reals String.
Set Warnings "-notation-overridden,-ambiguous-paths".
From mathcomp Require Import ssreflect ssrfun ssrbool eqtype ssrnat seq.
From Verif Require Import M_Base M_Interval M_Poly M_Alg M_DisplayAlg S_Alg P_AlgRef P_AlgOpsRef P_DisplayAlg.

(** C72: the text of an interval determines the interval, in both forms. *)
Theorem C72_interval : forall i j, show_interval i = show_interval j -> i = j.
Proof. exact show_interval_inj. Qed.
Print Assumptions C72_interval.
Theorem C72_interval_debug : forall i j, debug_interval i = debug_interval j -> i = j.
Proof. exact debug_interval_inj. Qed.
Print Assumptions C72_interval_debug.
(** Numbers with the same text are equal, in Rust and in Python. *)
Theorem C72_number : forall name a b x y, denotes a x -> denotes b y ->
  debug_number name a = debug_number name b -> x = y.
Proof. exact debug_number_value. Qed.
Print Assumptions C72_number.
Theorem C72_repr : forall a b x y, denotes a x -> denotes b y -> py_repr a = py_repr b -> x = y.
Proof. exact py_repr_value. Qed.
Print Assumptions C72_repr.
Example C72_example :
  denotes root2 (sqrt 2) /\ py_repr root2 <> py_repr (ra_from_int 7) /\
  show_interval (DFI (-3) 5 2) = "[-3 / 2^2, 5 / 2^2]"%string /\
  py_repr (ra_from_int 7) = "<RealAlgebraicNumber { minimal_polynomial: -7 + 1*X, interval: DyadicFractionInterval { lower_bound_numer: 7, upper_bound_numer: 7, log2_denom: 0 } }>"%string.
Proof. by split; [exact root2_denotes|split; vm_compute]. Qed.
