(** Property theorems C51, C54-C56, C59, C60: operations on two real algebraic
    numbers.

    [computes f v C] (S_AlgOps.v) says that the computation [f], which takes
    fuel, returns a value that denotes [v] as soon as the fuel suffices, never
    panics and never returns anything else, and that the value is canonical if
    [C] holds.

    Each operation builds a resultant, factors it over the integers with random
    numbers [rng], and looks for the factor and interval of the result.
    Factoring may run out of luck or return a reducible factor (C31), so the
    theorems assume that it does not: [factoring_returns] says that it returns
    at all, [factoring_ok] also that the factor vanishing at the result is
    irreducible.  [sum_clear], [diff_clear] and [prod_clear] exclude the inputs
    on which the operations are wrong (the refuted theorems): those where
    another pair of conjugates has a rational sum or product within reach of
    the intervals.  Neither hypothesis on conjugates nor irreducibility is
    needed when one of the operands is rational. *)
From Coq Require Import ZArith QArith Qreals Reals Lra.
Set Warnings "-notation-overridden,-ambiguous-paths".
From mathcomp Require Import ssreflect ssrfun ssrbool eqtype ssrnat seq.
From Verif Require Import M_Base M_Util M_Interval M_Poly M_PolyCoef P_PolyInst M_Factor M_Alg S_Poly S_Interval S_Alg S_AlgOps
  P_AlgBasic P_AlgRef P_AlgArith P_AlgOpsRef.
Set Implicit Arguments.
Unset Strict Implicit.
Unset Printing Implicit Defensive.
Local Open Scope R_scope.

(** C54.  What is missing: see [C54_add_refuted]. *)
Theorem C54_sum_partial : forall a b x y, denotes a x -> denotes b y -> forall rng ffuel,
  factoring_ok rng ffuel (add_resultant (mp a) (mp b)) (x + y) -> sum_clear a b x y ->
  computes (fun fuel => ra_add rng ffuel fuel a b) (x + y) (canonical a /\ canonical b).
Proof. exact sum_spec. Qed.
Print Assumptions C54_sum_partial.
Theorem C54_sum_rational : forall a b x y, denotes a x -> denotes b y -> forall rng ffuel,
  is_rat x \/ is_rat y -> factoring_returns rng ffuel (add_resultant (mp a) (mp b)) ->
  computes (fun fuel => ra_add rng ffuel fuel a b) (x + y) (canonical a /\ canonical b).
Proof. exact sum_rational. Qed.
Print Assumptions C54_sum_rational.
Theorem C54_difference_partial : forall a b x y, denotes a x -> denotes b y -> forall rng ffuel,
  factoring_ok rng ffuel (sub_resultant a b) (x - y) -> diff_clear a b x y ->
  computes (fun fuel => ra_sub rng ffuel fuel a b) (x - y) (canonical a /\ canonical b).
Proof. exact diff_spec. Qed.
Print Assumptions C54_difference_partial.
Theorem C54_difference_rational : forall a b x y, denotes a x -> denotes b y -> forall rng ffuel,
  is_rat x \/ is_rat y -> factoring_returns rng ffuel (sub_resultant a b) ->
  computes (fun fuel => ra_sub rng ffuel fuel a b) (x - y) (canonical a /\ canonical b).
Proof. exact diff_rational. Qed.
Print Assumptions C54_difference_rational.
(** C54 fails: 2 raised to 1/2, inverted and doubled is 0. *)
Theorem C54_add_refuted : exists r h x z, [/\
  eventually (fun fuel => ra_pow rng0 50 fuel ln2_0 (ra_from_int 2) (1 # 2)) r,
  eventually (fun fuel => ra_recip fuel r) h, denotes h x,
  eventually (fun fuel => ra_add rng0 50 fuel h h) z & denotes z 0 /\ x + x <> 0].
Proof. exact add_refuted. Qed.
Print Assumptions C54_add_refuted.
(** The hypotheses hold for sqrt 2 + sqrt 2 and sqrt 2 - (5 + sqrt 2). *)
Example C54_example : (denotes root2 (sqrt 2) /\ denotes five_root2 (5 + sqrt 2)) /\
  (factoring_ok rng0 50 (add_resultant (mp root2) (mp root2)) (sqrt 2 + sqrt 2) /\ sum_clear root2 root2 (sqrt 2) (sqrt 2)) /\
  (factoring_ok rng0 50 (sub_resultant root2 five_root2) (sqrt 2 - (5 + sqrt 2)) /\
   diff_clear root2 five_root2 (sqrt 2) (5 + sqrt 2)).
Proof. exact (conj (conj root2_denotes five_root2_denotes) (conj ex_sum (conj ex_diff ex_diff_clear))). Qed.
Example C54_run : rmap (fun a => (coefficients (mp a), itv a)) (ra_add rng0 50 9 root2 root2) = Ret ([:: -8; 0; 1]%Z, DFI 2 6 0)
  /\ rmap (fun a => (coefficients (mp a), itv a)) (ra_add rng0 50 9 (ra_from_ratio (3 # 2)) root2) =
     Ret ([:: 1; -12; 4]%Z, DFI 2 5 0).
Proof. by vm_compute. Qed.

(** C55.  What is missing: see [C55_mul_refuted] and [C55_div_refuted].  Division
    multiplies by the reciprocal; it is right whenever the reciprocal is a valid
    value (C53). *)
Theorem C55_product_partial : forall a b x y, denotes a x -> denotes b y -> forall rng ffuel,
  factoring_ok rng ffuel (mul_resultant (mp a) (mp b)) (x * y) -> prod_clear a b x y ->
  computes (fun fuel => ra_mul rng ffuel fuel a b) (x * y) (canonical a /\ canonical b).
Proof. exact prod_spec. Qed.
Print Assumptions C55_product_partial.
Theorem C55_product_rational : forall a b x y, denotes a x -> denotes b y -> forall rng ffuel,
  is_rat x \/ is_rat y -> factoring_returns rng ffuel (mul_resultant (mp a) (mp b)) ->
  computes (fun fuel => ra_mul rng ffuel fuel a b) (x * y) (canonical a /\ canonical b).
Proof. exact prod_rational. Qed.
Print Assumptions C55_product_rational.
Theorem C55_division_by_zero : forall a b x y, denotes a x -> denotes b y -> forall rng ffuel fuel, y = 0 ->
  ra_checked_div rng ffuel fuel a b = Ret None /\ ra_div rng ffuel fuel a b = Panic.
Proof. exact (fun a b x y _ Db => div_by_zero a Db). Qed.
Print Assumptions C55_division_by_zero.
Theorem C55_quotient_partial : forall a b x y, denotes a x -> denotes b y -> forall rng ffuel, y <> 0 ->
  forall ib, eventually (fun fuel => ra_checked_recip fuel b) (Some ib) -> denotes ib (/ y) ->
  factoring_ok rng ffuel (mul_resultant (mp a) (mp ib)) (x / y) -> prod_clear a ib x (/ y) ->
  computes (fun fuel => ra_div rng ffuel fuel a b) (x / y) (canonical a /\ canonical ib).
Proof. exact (fun a b x y Da _ rng ffuel _ ib h Di => div_spec Da h Di). Qed.
Print Assumptions C55_quotient_partial.
Theorem C55_quotient_rational : forall a b x y, denotes a x -> denotes b y -> forall rng ffuel, y <> 0 ->
  forall ib, eventually (fun fuel => ra_checked_recip fuel b) (Some ib) -> denotes ib (/ y) ->
  is_rat x \/ is_rat y -> factoring_returns rng ffuel (mul_resultant (mp a) (mp ib)) ->
  computes (fun fuel => ra_div rng ffuel fuel a b) (x / y) (canonical a /\ canonical ib).
Proof. exact (fun a b x y Da Db rng ffuel y0 ib h Di => div_rational Da y0 h Di). Qed.
Print Assumptions C55_quotient_rational.
(** C55 fails: the square of sqrt 2 / 2, isolated by [-1/2, 1], is -1/2. *)
Theorem C55_mul_refuted : exists a x z, [/\ denotes a x, canonical a,
  eventually (fun fuel => ra_mul rng0 50 fuel a a) z & denotes z (Q2R (-1 # 2)) /\ x * x <> Q2R (-1 # 2)].
Proof. exact mul_refuted. Qed.
Print Assumptions C55_mul_refuted.
(** 1 / (5 + sqrt 2) is not a valid value, and 1 % (5 + sqrt 2) panics (C59). *)
Theorem C55_div_refuted : exists b y, [/\ denotes b y, canonical b, y <> 0,
  (exists z, eventually (fun fuel => ra_div rng0 50 fuel (ra_from_int 1) b) z /\ forall v, ~ denotes z v) &
  forall fuel, (0 < fuel)%N -> ra_rem rng0 50 fuel (ra_from_int 1) b = Panic].
Proof. exact div_rem_refuted. Qed.
Print Assumptions C55_div_refuted.
Example C55_example : denotes root2 (sqrt 2) /\
  factoring_ok rng0 50 (mul_resultant (mp root2) (mp root2)) (sqrt 2 * sqrt 2) /\ prod_clear root2 root2 (sqrt 2) (sqrt 2).
Proof. exact (conj root2_denotes ex_prod). Qed.
(** 7 / sqrt 2: the reciprocal is a valid value here. *)
Example C55_div_example : eventually (fun fuel => ra_checked_recip fuel root2) (Some recip_root2) /\
  denotes recip_root2 (/ sqrt 2) /\ is_rat 7 /\ factoring_returns rng0 50 (mul_resultant (mp (ra_from_int 7)) (mp recip_root2)).
Proof. exact ex_div. Qed.
Example C55_run : rmap (fun a => (coefficients (mp a), itv a)) (ra_mul rng0 50 9 root2 root2) = Ret ([:: -2; 1]%Z, DFI 1 9 0) /\
  rmap (fun a => (coefficients (mp a), itv a)) (ra_div rng0 50 9 (ra_from_int 7) root2) = Ret ([:: -49; 0; 2]%Z, DFI 0 7 0).
Proof. by vm_compute. Qed.

(** C56: equality and order agree with those of the real numbers.  The
    hypothesis on conjugates is not needed for equal numbers, whatever their
    intervals, nor when one number is rational.  What is missing: see
    [C56_eq_refuted]. *)
Theorem C56_equality_partial : forall a b x y, denotes a x -> denotes b y -> forall rng ffuel,
  factoring_ok rng ffuel (sub_resultant a b) (x - y) \/
    ((is_rat x \/ is_rat y) /\ factoring_returns rng ffuel (sub_resultant a b)) ->
  diff_clear a b x y \/ x = y \/ is_rat x \/ is_rat y ->
  exists e, eventually (fun fuel => ra_eqb rng ffuel fuel a b) e /\ (e = true <-> x = y).
Proof. exact eq_spec. Qed.
Print Assumptions C56_equality_partial.
Theorem C56_order_partial : forall a b x y, denotes a x -> denotes b y -> forall rng ffuel,
  factoring_ok rng ffuel (sub_resultant a b) (x - y) \/
    ((is_rat x \/ is_rat y) /\ factoring_returns rng ffuel (sub_resultant a b)) ->
  diff_clear a b x y \/ x = y \/ is_rat x \/ is_rat y ->
  exists c, eventually (fun fuel => ra_cmp rng ffuel fuel a b) c /\ order_of x y c.
Proof. exact cmp_spec. Qed.
Print Assumptions C56_order_partial.
Theorem C56_abs_sub_partial : forall a b x y, denotes a x -> denotes b y -> forall rng ffuel,
  factoring_ok rng ffuel (sub_resultant a b) (x - y) \/
    ((is_rat x \/ is_rat y) /\ factoring_returns rng ffuel (sub_resultant a b)) ->
  diff_clear a b x y \/ x = y \/ is_rat x \/ is_rat y ->
  computes (fun fuel => ra_abs_sub rng ffuel fuel a b) (Rmax (x - y) 0) (canonical a /\ canonical b).
Proof. exact abs_sub_spec. Qed.
Print Assumptions C56_abs_sub_partial.
(** C56 fails: a number compares as equal to its negation. *)
Theorem C56_eq_refuted : exists h n x, [/\ denotes h x, denotes n (- x), x <> - x &
  eventually (fun fuel => ra_eqb rng0 50 fuel h n) true /\ eventually (fun fuel => ra_cmp rng0 50 fuel h n) Eq].
Proof. exact eq_refuted. Qed.
Print Assumptions C56_eq_refuted.
(** Two representations of sqrt 2; sqrt 2 and 5 + sqrt 2. *)
Example C56_example : (denotes root2 (sqrt 2) /\ denotes root2' (sqrt 2)) /\ itv root2 <> itv root2' /\
  factoring_ok rng0 50 (sub_resultant root2 root2') (sqrt 2 - sqrt 2) /\
  (factoring_ok rng0 50 (sub_resultant root2 five_root2) (sqrt 2 - (5 + sqrt 2)) /\
   diff_clear root2 five_root2 (sqrt 2) (5 + sqrt 2)).
Proof.
split; [exact (conj root2_denotes root2'_denotes)|split; [by []|exact (conj ex_same (conj ex_diff ex_diff_clear))]].
Qed.
Example C56_run : ra_eqb rng0 50 9 root2 root2' = Ret true /\ ra_cmp rng0 50 9 root2 five_root2 = Ret Lt /\
  ra_cmp rng0 50 9 root2 (ra_from_ratio (7 # 5)) = Ret Gt.
Proof. by vm_compute. Qed.

(** C51 for irrational numbers; for rational ones the fractional part is
    x - trunc(x), which differs from the property for negative numbers
    (C51_fract_refuted in T_Alg.v). *)
Theorem C51_fract_irrational_partial : forall a x k rng ffuel, denotes a x -> (forall q, x <> Q2R q) -> is_floor x k ->
  factoring_returns rng ffuel (sub_resultant a (ra_from_int k)) ->
  computes (fun fuel => ra_fract rng ffuel fuel a) (x - IZR k) (canonical a).
Proof. exact fract_irrational. Qed.
Print Assumptions C51_fract_irrational_partial.
Theorem C51_fract_rational_partial : forall a x k rng ffuel, denotes a x -> is_rat x -> is_trunc x k ->
  computes (fun fuel => ra_fract rng ffuel fuel a) (x - IZR k) True.
Proof. exact fract_rational. Qed.
Print Assumptions C51_fract_rational_partial.
Example C51_example : denotes root2 (sqrt 2) /\ (forall q, sqrt 2 <> Q2R q) /\ is_floor (sqrt 2) 1 /\
  factoring_returns rng0 50 (sub_resultant root2 (ra_from_int 1)).
Proof. exact ex_fract. Qed.

(** C59 with a rational operand; [k] is the quotient rounded towards zero, [m]
    its product with the divisor.  What is missing: see [C55_div_refuted]. *)
Theorem C59_remainder_partial : forall a b x y, denotes a x -> denotes b y -> forall rng ffuel, y <> 0 ->
  forall ib, eventually (fun fuel => ra_checked_recip fuel b) (Some ib) -> denotes ib (/ y) ->
  forall k m, is_rat x \/ is_rat y -> factoring_returns rng ffuel (mul_resultant (mp a) (mp ib)) ->
  is_trunc (x / y) k -> factoring_returns rng ffuel (mul_resultant (mp (ra_from_int k)) (mp b)) ->
  eventually (fun fuel => ra_mul rng ffuel fuel (ra_from_int k) b) m ->
  factoring_returns rng ffuel (sub_resultant a m) ->
  computes (fun fuel => ra_rem rng ffuel fuel a b) (x - IZR k * y) (canonical a /\ canonical b).
Proof. exact (fun a b x y Da Db rng ffuel y0 ib h Di => rem_rational Da Db y0 h Di). Qed.
Print Assumptions C59_remainder_partial.
Theorem C59_range : forall x y k, y <> 0 -> is_trunc (x / y) k -> Rabs (x - IZR k * y) < Rabs y /\
  (0 <= x -> 0 <= x - IZR k * y) /\ (x <= 0 -> x - IZR k * y <= 0).
Proof. exact (fun x y k y0 => rem_range y0 (k := k)). Qed.
Print Assumptions C59_range.
(** 7 % sqrt 2 = 7 - 4 sqrt 2 *)
Example C59_example : eventually (fun fuel => ra_checked_recip fuel root2) (Some recip_root2) /\
  denotes recip_root2 (/ sqrt 2) /\ is_rat 7 /\ factoring_returns rng0 50 (mul_resultant (mp (ra_from_int 7)) (mp recip_root2)) /\
  is_trunc (7 / sqrt 2) 4 /\ factoring_returns rng0 50 (mul_resultant (mp (ra_from_int 4)) (mp root2)) /\
  exists m, eventually (fun fuel => ra_mul rng0 50 fuel (ra_from_int 4) root2) m /\
    factoring_returns rng0 50 (sub_resultant (ra_from_int 7) m).
Proof. exact ex_rem. Qed.
Example C59_run : rmap (fun a => (coefficients (mp a), itv a)) (ra_rem rng0 50 9 (ra_from_int 7) root2) =
  Ret ([:: 17; -14; 1]%Z, DFI (-5) 3 0).
Proof. by vm_compute. Qed.
