(** Property theorems C47-C50, C52, C53, C58: real algebraic numbers, operations
    on one number.

    [denotes a x] (S_Alg.v) says that the value [a] (a polynomial and an
    isolating interval) represents the real number [x]; [canonical a] that its
    polynomial is primitive with a positive leading coefficient.  [eventually f v]
    says that the computation [f], which takes fuel, returns [v] as soon as the
    fuel suffices, never panics and never returns anything else. *)
From Coq Require Import ZArith QArith Qreals Reals Lra.
Set Warnings "-notation-overridden,-ambiguous-paths".
From mathcomp Require Import ssreflect ssrfun ssrbool eqtype ssrnat seq.
From Verif Require Import M_Base M_Util M_Interval M_Poly M_PolyCoef P_PolyInst M_Alg S_Poly S_Interval S_Alg
  P_AlgBasic P_AlgSign P_AlgNeg P_AlgRecip P_AlgRef.
Set Implicit Arguments.
Unset Strict Implicit.
Unset Printing Implicit Defensive.
Local Open Scope R_scope.

(** A value denotes at most one number. *)
Theorem C47_denotes_one : forall a x y, denotes a x -> denotes a y -> x = y.
Proof. exact denotes_fun. Qed.
Print Assumptions C47_denotes_one.

(** C47 *)
Theorem C47_from_integer : forall v, denotes (ra_from_int v) (IZR v) /\ canonical (ra_from_int v).
Proof. exact from_int_denotes. Qed.
Print Assumptions C47_from_integer.
Theorem C47_from_rational : forall q, Qred q = q -> denotes (ra_from_ratio q) (Q2R q) /\ canonical (ra_from_ratio q).
Proof. exact from_ratio_denotes. Qed.
Print Assumptions C47_from_rational.
Theorem C47_to_rational : forall a x, denotes a x ->
  (exists q, [/\ ra_to_rational a = Ret (Some q), Qred q = q & x = Q2R q]) \/
  (ra_to_rational a = Ret None /\ forall q, x <> Q2R q).
Proof. exact to_rational_spec. Qed.
Print Assumptions C47_to_rational.
Theorem C47_is_rational : forall a x, denotes a x ->
  exists b, ra_is_rational a = Ret b /\ (b = true <-> exists q, x = Q2R q).
Proof. exact is_rational_spec. Qed.
Print Assumptions C47_is_rational.
Theorem C47_to_integer : forall a x, denotes a x ->
  (exists v, ra_to_integer a = Ret (Some v) /\ x = IZR v) \/
  (ra_to_integer a = Ret None /\ forall v, x <> IZR v).
Proof. exact to_integer_spec. Qed.
Print Assumptions C47_to_integer.
Theorem C47_is_integer : forall a x, denotes a x ->
  exists b, ra_is_integer a = Ret b /\ (b = true <-> exists v, x = IZR v).
Proof. exact is_integer_spec. Qed.
Print Assumptions C47_is_integer.
Theorem C47_is_zero : forall a x, denotes a x -> (ra_is_zero a = true <-> x = 0).
Proof. exact is_zero_spec. Qed.
Print Assumptions C47_is_zero.
Theorem C47_is_one : forall a x, denotes a x -> (ra_is_one a = true <-> x = 1).
Proof. exact is_one_spec. Qed.
Print Assumptions C47_is_one.
Theorem C47_is_negative_one : forall a x, denotes a x -> (ra_is_negative_one a = true <-> x = -1).
Proof. exact is_negative_one_spec. Qed.
Print Assumptions C47_is_negative_one.

(** An irrational number: the polynomial x^2 - 2 with the interval [1, 3]. *)
Example root2_example : denotes root2 (sqrt 2) /\ mp root2 = from_coefs (K := int_coef) [:: (-2)%Z; 0%Z; 1%Z]
  /\ itv root2 = DFI 1 3 0.
Proof. exact (conj root2_denotes (conj (erefl _) (erefl _))). Qed.
Example C47_example : ra_to_rational (ra_from_ratio (-7 # 3)) = Ret (Some (-7 # 3)) /\
  ra_to_rational root2 = Ret None /\ ra_to_integer (ra_from_int 5) = Ret (Some 5%Z).
Proof. by vm_compute. Qed.

(** C48: after any number of steps the interval still isolates the number, lies
    in the original one, and has shrunk by 17/32 per step; a step reported as
    exact leaves the single point; steps do not panic. *)
Theorem C48_refine : forall a x, denotes a x -> forall n,
  exists s, [/\ refine_steps n a = Ret s, denotes (RA (mp a) (sh_itv s)) x,
    inside (sh_itv s) (itv a) & width (sh_itv s) <= (17 / 32) ^ n * width (itv a)].
Proof. exact refine_denotes. Qed.
Print Assumptions C48_refine.
Theorem C48_exact : forall a x, denotes a x -> forall n s exact s',
  refine_steps n a = Ret s -> shrink s = Ret (exact, s') -> exact = true ->
  lo (sh_itv s') = x /\ hi (sh_itv s') = x.
Proof. exact refine_exact. Qed.
Print Assumptions C48_exact.
Theorem C48_no_panic : forall a x, denotes a x -> forall n s,
  refine_steps n a = Ret s -> exists exact s', shrink s = Ret (exact, s').
Proof. exact refine_total. Qed.
Print Assumptions C48_no_panic.
Example C48_example : rmap sh_itv (refine_steps 6 root2) = Ret (DFI 90 92 6).
Proof. by vm_compute. Qed.

(** C49 *)
Theorem C49_cmp_with_zero : forall a x, denotes a x -> exists c, ra_cmp_with_zero a = Ret c /\
  match c with Eq => x = 0 | Lt => x < 0 | Gt => 0 < x end.
Proof. exact cmp_with_zero_spec. Qed.
Print Assumptions C49_cmp_with_zero.
Theorem C49_is_positive : forall a x, denotes a x -> exists b, ra_is_positive a = Ret b /\ (b = true <-> 0 < x).
Proof. exact is_positive_spec. Qed.
Print Assumptions C49_is_positive.
Theorem C49_is_negative : forall a x, denotes a x -> exists b, ra_is_negative a = Ret b /\ (b = true <-> x < 0).
Proof. exact is_negative_spec. Qed.
Print Assumptions C49_is_negative.
Theorem C49_signum : forall a x, denotes a x -> exists b, [/\ ra_signum a = Ret b, canonical b &
  (0 < x -> denotes b 1) /\ (x < 0 -> denotes b (-1)) /\ (x = 0 -> denotes b 0)].
Proof. exact signum_spec. Qed.
Print Assumptions C49_signum.
(** An interval that contains zero: the sign comes from counting sign changes. *)
Example C49_example : ra_cmp_with_zero (RA (mp root2) (DFI (-1) 3 0)) = Ret Gt /\
  ra_cmp_with_zero (RA (mp root2) (DFI (-3) 1 0)) = Ret Lt.
Proof. by vm_compute. Qed.

(** C50 *)
Theorem C50_floor : forall a x k, denotes a x -> is_floor x k ->
  eventually (fun fuel => ra_integer_floor fuel a) k /\ eventually (fun fuel => ra_floor fuel a) (ra_from_int k).
Proof. exact (fun a x k D h => conj (integer_floor_spec D h) (floor_spec D h)). Qed.
Print Assumptions C50_floor.
Theorem C50_ceil : forall a x k, denotes a x -> is_ceil x k ->
  eventually (fun fuel => ra_integer_ceil fuel a) k /\ eventually (fun fuel => ra_ceil fuel a) (ra_from_int k).
Proof. exact (fun a x k D h => conj (integer_ceil_spec D h) (ceil_spec D h)). Qed.
Print Assumptions C50_ceil.
Theorem C50_trunc : forall a x k, denotes a x -> is_trunc x k ->
  eventually (fun fuel => ra_integer_trunc fuel a) k /\ eventually (fun fuel => ra_trunc fuel a) (ra_from_int k).
Proof. exact (fun a x k D h => conj (integer_trunc_spec D h) (trunc_spec D h)). Qed.
Print Assumptions C50_trunc.
Example C50_example : ra_integer_floor 9 root2 = Ret 1%Z /\ ra_integer_ceil 9 root2 = Ret 2%Z /\
  (n <- ra_neg root2 ;; ra_integer_trunc 9 n)%res = Ret (-1)%Z.
Proof. by vm_compute. Qed.

(** C51 fails for negative rational numbers, whose fractional part is negative. *)
Theorem C51_fract_refuted : exists a x b y, [/\ denotes a x, canonical a,
  forall rng ffuel fuel, ra_fract rng ffuel fuel a = Ret b, denotes b y & y < 0].
Proof. exact fract_negative. Qed.
Print Assumptions C51_fract_refuted.

(** C52 *)
Theorem C52_neg : forall a x, denotes a x ->
  exists b, [/\ ra_neg a = Ret b, denotes b (- x) & canonical a -> canonical b].
Proof. exact neg_spec. Qed.
Print Assumptions C52_neg.
Theorem C52_abs : forall a x, denotes a x ->
  exists b, [/\ ra_abs a = Ret b, denotes b (Rabs x) & canonical a -> canonical b].
Proof. exact abs_spec. Qed.
Print Assumptions C52_abs.
Example C52_example : rmap (fun a => (coefficients (mp a), itv a)) (ra_neg five_root2) =
  Ret ([:: 23; 10; 1]%Z, DFI (-8) (-6) 0).
Proof. by vm_compute. Qed.

(** C53: the reciprocal has the right polynomial and an interval that contains
    1/x, the smallest one on its grid for the reciprocals of a refined interval;
    for rational numbers it is a valid value.  What is missing: for irrational
    numbers the interval may contain further roots (C53_recip_refuted). *)
Theorem C53_recip_partial : forall a x, denotes a x ->
  (x = 0 /\ forall fuel, ra_checked_recip fuel a = Ret None) \/
  (x <> 0 /\ exists b, [/\ eventually (fun fuel => ra_checked_recip fuel a) (Some b), weakly_denotes b (/ x),
     (exists q, x = Q2R q) -> denotes b (/ x) /\ canonical b
   & (forall q, x <> Q2R q) ->
     exists i, [/\ inI x i, inside i (itv a), ~ inI 0 i & tightest (itv b) (dlog i) (/ hi i) (/ lo i)]]).
Proof. exact checked_recip_spec. Qed.
Print Assumptions C53_recip_partial.
(** If the interval still isolates, the result denotes 1/x. *)
Theorem C53_isolating : forall b y, weakly_denotes b y ->
  (forall z, inI z (itv b) -> mathcomp.algebra.poly.root (real_poly (mp b)) z -> z = y) -> denotes b y.
Proof. exact weakly_strong. Qed.
Print Assumptions C53_isolating.
Theorem C53_recip_of_zero_panics : forall a fuel, denotes a 0 -> ra_recip fuel a = Panic.
Proof. exact recip_zero. Qed.
Print Assumptions C53_recip_of_zero_panics.
(** C53 fails: the reciprocal of 5 + sqrt 2, isolated by [6, 8], is given the
    interval [0, 1], which contains both roots; the next refinement panics. *)
Theorem C53_recip_refuted : exists a x b, [/\ denotes a x, canonical a, x <> 0,
  eventually (fun fuel => ra_checked_recip fuel a) (Some b) &
  (forall z, ~ denotes b z) /\ forall fuel, (0 < fuel)%N -> ra_integer_floor fuel b = Panic].
Proof. exact recip_not_isolating. Qed.
Print Assumptions C53_recip_refuted.
Example C53_example : rmap (omap (fun a => (coefficients (mp a), itv a))) (ra_checked_recip 9 root2) =
  Ret (Some ([:: 1; 0; -2]%Z, DFI 0 1 0)).
Proof. by vm_compute. Qed.

(** C60 fails for reciprocals: that of sqrt 2 has the polynomial 1 - 2 x^2. *)
Theorem C60_recip_refuted : exists a x b, [/\ denotes a x, canonical a,
  eventually (fun fuel => ra_checked_recip fuel a) (Some b) & ~ canonical b].
Proof. exact recip_not_canonical. Qed.
Print Assumptions C60_recip_refuted.

(** C58 *)
Theorem C58_floor_log2 : forall a x k, denotes a x -> 0 < x -> is_floor_log2 x k ->
  eventually (fun fuel => ra_floor_log2 fuel a) (Some k).
Proof. exact floor_log2_spec. Qed.
Print Assumptions C58_floor_log2.
Theorem C58_ceil_log2 : forall a x k, denotes a x -> 0 < x -> is_ceil_log2 x k ->
  eventually (fun fuel => ra_ceil_log2 fuel a) (Some k).
Proof. exact ceil_log2_spec. Qed.
Print Assumptions C58_ceil_log2.
Theorem C58_none : forall a x fuel, denotes a x -> x <= 0 ->
  ra_floor_log2 fuel a = Ret None /\ ra_ceil_log2 fuel a = Ret None.
Proof. exact (fun a x f D h => conj (log2_none dfi_floor_log2 f D h) (log2_none dfi_ceil_log2 f D h)). Qed.
Print Assumptions C58_none.
Example C58_example : ra_floor_log2 9 five_root2 = Ret (Some 2%Z) /\ ra_ceil_log2 9 five_root2 = Ret (Some 3%Z) /\
  ra_floor_log2 9 (ra_from_ratio (1 # 8)) = Ret (Some (-3)%Z).
Proof. by vm_compute. Qed.
