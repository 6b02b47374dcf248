(** Property theorems C54-C57 for algebraic integers.

    [algebraic_integer x] (S_AlgInt.v): the real number [x] is a root of a monic
    polynomial with integer coefficients.  For such operands the hypothesis of
    T_AlgOps.v that the factor found is irreducible is not needed: the
    polynomials factored are multiples of monic ones
    ([C31_irreducible_monic_partial]).  The results are algebraic integers again.
    What is missing: see the refuted statements in T_AlgOps.v. *)
From Coq Require Import ZArith QArith Qreals Reals Lra.
Set Warnings "-notation-overridden,-ambiguous-paths".
From mathcomp Require Import ssreflect ssrfun ssrbool eqtype ssrnat seq.
From Verif Require Import M_Base M_Util M_Interval M_Poly M_PolyCoef P_PolyInst M_Factor M_Alg S_Poly S_Interval S_Alg S_AlgOps S_AlgInt
  P_IntervalLog P_AlgBasic P_AlgNeg P_AlgRef P_AlgOpsRef P_AlgPow P_AlgPowRef P_AlgInt.
Set Implicit Arguments.
Unset Strict Implicit.
Unset Printing Implicit Defensive.
Local Open Scope R_scope.

Theorem C54_sum_integers_partial : forall a b x y, denotes a x -> denotes b y ->
  algebraic_integer x -> algebraic_integer y -> forall rng ffuel,
  factoring_returns rng ffuel (add_resultant (mp a) (mp b)) -> sum_clear a b x y ->
  computes (fun fuel => ra_add rng ffuel fuel a b) (x + y) (canonical a /\ canonical b) /\ algebraic_integer (x + y).
Proof. exact sum_integers. Qed.
Print Assumptions C54_sum_integers_partial.
Theorem C54_difference_integers_partial : forall a b x y, denotes a x -> denotes b y ->
  algebraic_integer x -> algebraic_integer y -> forall rng ffuel,
  factoring_returns rng ffuel (sub_resultant a b) -> diff_clear a b x y ->
  computes (fun fuel => ra_sub rng ffuel fuel a b) (x - y) (canonical a /\ canonical b) /\ algebraic_integer (x - y).
Proof. exact diff_integers. Qed.
Print Assumptions C54_difference_integers_partial.
Theorem C55_product_integers_partial : forall a b x y, denotes a x -> denotes b y ->
  algebraic_integer x -> algebraic_integer y -> forall rng ffuel,
  factoring_returns rng ffuel (mul_resultant (mp a) (mp b)) -> prod_clear a b x y ->
  computes (fun fuel => ra_mul rng ffuel fuel a b) (x * y) (canonical a /\ canonical b) /\ algebraic_integer (x * y).
Proof. exact prod_integers. Qed.
Print Assumptions C55_product_integers_partial.
Theorem C56_equality_integers_partial : forall a b x y, denotes a x -> denotes b y ->
  algebraic_integer x -> algebraic_integer y -> forall rng ffuel,
  factoring_returns rng ffuel (sub_resultant a b) -> diff_clear a b x y \/ x = y ->
  exists e, eventually (fun fuel => ra_eqb rng ffuel fuel a b) e /\ (e = true <-> x = y).
Proof. exact eq_integers. Qed.
Print Assumptions C56_equality_integers_partial.
Theorem C56_order_integers_partial : forall a b x y, denotes a x -> denotes b y ->
  algebraic_integer x -> algebraic_integer y -> forall rng ffuel,
  factoring_returns rng ffuel (sub_resultant a b) -> diff_clear a b x y \/ x = y ->
  exists c, eventually (fun fuel => ra_cmp rng ffuel fuel a b) c /\ order_of x y c.
Proof. exact cmp_integers. Qed.
Print Assumptions C56_order_integers_partial.
(** Powers with a positive exponent. *)
Theorem C57_sound_integers_partial : forall a x e, denotes a x -> algebraic_integer x -> x <> 0 ->
  Qred e = e -> (0 < Qnum e)%Z -> (x < 0 -> Qden e = 1%positive) ->
  forall ln2 rng ffuel fuel v z, (forall n, exists l, ln2 n = Ret l /\ ln2_ok n l) -> is_pow x e v ->
  factoring_returns rng ffuel (pow_resultant (mp a) (Z.to_nat (Qnum e)) (Pos.to_nat (Qden e))) ->
  pow_encloses ln2 fuel a x e ->
  ra_checked_pow rng ffuel fuel ln2 a e = Ret (Some z) ->
  denotes z v /\ algebraic_integer v /\ (canonical a -> canonical z).
Proof. exact pow_integers. Qed.
Print Assumptions C57_sound_integers_partial.

(** The integers, sqrt 2 and 5 + sqrt 2 are algebraic integers. *)
Example C54_integers_example : algebraic_integer 7 /\ algebraic_integer (sqrt 2) /\ algebraic_integer (5 + sqrt 2) /\
  (factoring_returns rng0 50 (add_resultant (mp root2) (mp root2)) /\ sum_clear root2 root2 (sqrt 2) (sqrt 2)) /\
  (factoring_returns rng0 50 (sub_resultant root2 five_root2) /\ diff_clear root2 five_root2 (sqrt 2) (5 + sqrt 2)) /\
  (factoring_returns rng0 50 (mul_resultant (mp root2) (mp root2)) /\ prod_clear root2 root2 (sqrt 2) (sqrt 2)).
Proof.
have s2 : algebraic_integer (sqrt 2).
  apply: (@algebraic_integer_root _ 2) => //; rewrite /= Rmult_1_r sqrt_sqrt; last lra.
  exact: (algebraic_integer_IZR 2).
have ret r v : factoring_ok rng0 50 r v -> factoring_returns rng0 50 r.
  by move=> h p /h [c [fs [e _]]]; exists (c, fs).
have [s1 s1'] := ex_sum; have [p1 p1'] := ex_prod.
exact (conj (algebraic_integer_IZR 7) (conj s2 (conj (algebraic_integer_add (algebraic_integer_IZR 5) s2)
  (conj (conj (ret _ _ s1) s1') (conj (conj (ret _ _ ex_diff) ex_diff_clear) (conj (ret _ _ p1) p1')))))).
Qed.
