(** Property theorems C78: exponents of powers.

    [exp_value e q] (S_Exponent.v) says that the exponent [e] (an integer, a pair,
    a fraction or a reference to one) stands for the rational [q]. *)
From Coq Require Import ZArith QArith Reals.
Set Warnings "-notation-overridden,-ambiguous-paths".
From mathcomp Require Import ssreflect ssrfun ssrbool eqtype ssrnat seq.
From Verif Require Import M_Base M_Traits M_Interval M_Poly M_PolyCoef M_Factor M_Alg S_Interval S_Alg S_AlgOps P_AlgBasic
  M_Exponent S_Exponent P_Exponent.
Set Implicit Arguments.
Unset Strict Implicit.
Unset Printing Implicit Defensive.
Local Open Scope Q_scope.

(** Every exponent stands for exactly one number, unless it is a pair with
    denominator zero. *)
Theorem C78_meaning : forall e, ~ exp_zero_denominator e -> exists q, exp_value e q /\ forall p, exp_value e p -> p == q.
Proof. exact exponent_meaning. Qed.
Print Assumptions C78_meaning.
(** It is converted to that number in lowest terms. *)
Theorem C78_value : forall e q, exp_reduced e -> exp_value e q -> into_rational_exponent e = Ret (Qred q).
Proof. exact exponent_value. Qed.
Print Assumptions C78_value.
Example C78_value_ex : into_rational_exponent (EPair (-4) (-6)) = Ret (2 # 3) /\
  into_rational_exponent (ERef (EInt (-5))) = Ret (-5 # 1) /\ exp_value (EPair (-4) (-6)) (2 # 3).
Proof. by []. Qed.
(** A denominator zero panics, in both forms of the power. *)
Theorem C78_zero_denominator : forall e, into_rational_exponent e = Panic <-> exp_zero_denominator e.
Proof. exact exponent_panics. Qed.
Print Assumptions C78_zero_denominator.
Theorem C78_zero_panics : forall rng ffuel fuel ln2 a e, exp_zero_denominator e ->
  checked_pow rng ffuel fuel ln2 a e = Panic /\ pow rng ffuel fuel ln2 a e = Panic.
Proof. exact exponent_zero. Qed.
Print Assumptions C78_zero_panics.
(** The way the exponent is written does not matter. *)
Theorem C78_same_power : forall rng ffuel fuel ln2 a e f q, exp_reduced e -> exp_reduced f -> exp_value e q -> exp_value f q ->
  checked_pow rng ffuel fuel ln2 a e = checked_pow rng ffuel fuel ln2 a f /\
  pow rng ffuel fuel ln2 a e = pow rng ffuel fuel ln2 a f.
Proof. exact exponent_same. Qed.
Print Assumptions C78_same_power.
(** It is the power with that exponent in the sense of C57. *)
Theorem C78_power : forall rng ffuel fuel ln2 a e q, exp_reduced e -> exp_value e q ->
  checked_pow rng ffuel fuel ln2 a e = ra_checked_pow rng ffuel fuel ln2 a (Qred q) /\
  pow rng ffuel fuel ln2 a e = ra_pow rng ffuel fuel ln2 a (Qred q).
Proof. exact exponent_pow. Qed.
Print Assumptions C78_power.
Theorem C78_none : forall ln2 rng ffuel fuel a x e q, denotes a x -> exp_reduced e -> exp_value e q ->
  (checked_pow rng ffuel fuel ln2 a e = Ret None <->
   (x = 0%R /\ q <= 0) \/ ((x < 0)%R /\ ~ exists k : Z, q == inject_Z k)).
Proof. exact exponent_none. Qed.
Print Assumptions C78_none.
Theorem C78_integer : forall ln2 rng ffuel a x e k, denotes a x -> exp_reduced e -> exp_value e (inject_Z k) ->
  is_rat x -> (x <> 0%R \/ (0 < k)%Z) -> (Z.abs k < 2 ^ 64)%Z ->
  exists z, [/\ eventually (fun fuel => checked_pow rng ffuel fuel ln2 a e) (Some z),
    denotes z (powerRZ x k) & canonical a -> canonical z].
Proof. exact exponent_integer. Qed.
Print Assumptions C78_integer.
Example C78_integer_ex : forall ln2 rng,
  checked_pow rng 0 0 ln2 (ra_from_int (-3)) (EPair 6 2) = Ret (Some (ra_from_int (-27))) /\
  checked_pow rng 0 0 ln2 (ra_from_int (-3)) (EPair 6 4) = Ret None /\
  pow rng 0 0 ln2 (ra_from_int 2) (ERatio (5 # 1)) = Ret (ra_from_int 32).
Proof. by move=> ln2 rng; split; [vm_compute|split; vm_compute]. Qed.
(** Fractions made by Ratio::new_raw that are not in lowest terms are taken as they
    are: (-1)^(2/2) is undefined. *)
Example C78_raw_ex : forall ln2 rng,
  checked_pow rng 0 0 ln2 (ra_from_int (-1)) (ERatio (2 # 2)) = Ret None /\
  checked_pow rng 0 0 ln2 (ra_from_int (-1)) (EPair 2 2) = Ret (Some (ra_from_int (-1))).
Proof. by move=> ln2 rng; split; vm_compute. Qed.
