(** Minimal polynomials, in elementary terms: a list of integer coefficients,
    constant term first. *)
From Coq Require Import ZArith QArith Qabs Qreals List Reals.
From Verif Require Import M_Base M_Interval M_Alg S_Interval S_Alg S_AlgOps.
Local Open Scope R_scope.

Definition eval_at (l : list Z) (x : R) : R := fold_right (fun c acc => IZR c + x * acc) 0 l.
Definition list_gcd (l : list Z) : Z := fold_right Z.gcd 0%Z l.
(** [l] vanishes at [x], its leading coefficient is positive, the coefficients
    have no common factor, and no shorter list vanishes at [x] except zeros. *)
Definition minimal_polynomial_of (x : R) (l : list Z) : Prop :=
  eval_at l x = 0 /\ (0 < last l 0)%Z /\ list_gcd l = 1%Z /\
  forall l', (length l' < length l)%nat -> eval_at l' x = 0 -> forall c, In c l' -> c = 0%Z.

(** Values that a program computes without leaving the conditions of C47-C58,
    with the number they stand for.  [made_unchecked] is new_unchecked with
    arguments as its documentation requires. *)
Definition sum_good rng ffuel (a b : ralg) (x y : R) : Prop :=
  (factoring_ok rng ffuel (add_resultant (mp a) (mp b)) (x + y) /\ sum_clear a b x y) \/
  ((is_rat x \/ is_rat y) /\ factoring_returns rng ffuel (add_resultant (mp a) (mp b))).
Definition diff_good rng ffuel (a b : ralg) (x y : R) : Prop :=
  (factoring_ok rng ffuel (sub_resultant a b) (x - y) /\ diff_clear a b x y) \/
  ((is_rat x \/ is_rat y) /\ factoring_returns rng ffuel (sub_resultant a b)).
Definition prod_good rng ffuel (a b : ralg) (x y : R) : Prop :=
  (factoring_ok rng ffuel (mul_resultant (mp a) (mp b)) (x * y) /\ prod_clear a b x y) \/
  ((is_rat x \/ is_rat y) /\ factoring_returns rng ffuel (mul_resultant (mp a) (mp b))).
Inductive made : ralg -> R -> Prop :=
| made_int v : made (ra_from_int v) (IZR v)
| made_ratio q : Qred q = q -> made (ra_from_ratio q) (Q2R q)
| made_unchecked a x : denotes a x -> canonical a -> made a x
| made_neg a x b : made a x -> ra_neg a = Ret b -> made b (- x)
| made_abs a x b : made a x -> ra_abs a = Ret b -> made b (Rabs x)
| made_floor fuel a x k b : made a x -> is_floor x k -> ra_floor fuel a = Ret b -> made b (IZR k)
| made_ceil fuel a x k b : made a x -> is_ceil x k -> ra_ceil fuel a = Ret b -> made b (IZR k)
| made_trunc fuel a x k b : made a x -> is_trunc x k -> ra_trunc fuel a = Ret b -> made b (IZR k)
| made_add rng ffuel fuel a b x y c : made a x -> made b y -> sum_good rng ffuel a b x y ->
    ra_add rng ffuel fuel a b = Ret c -> made c (x + y)
| made_sub rng ffuel fuel a b x y c : made a x -> made b y -> diff_good rng ffuel a b x y ->
    ra_sub rng ffuel fuel a b = Ret c -> made c (x - y)
| made_mul rng ffuel fuel a b x y c : made a x -> made b y -> prod_good rng ffuel a b x y ->
    ra_mul rng ffuel fuel a b = Ret c -> made c (x * y)
| made_recip fuel a x b : made a x -> is_rat x -> ra_recip fuel a = Ret b -> made b (/ x)
| made_pow ln2 rng ffuel fuel a x e v z : made a x -> Qred e = e -> ~ pow_undefined x e -> is_pow x e v ->
    (forall n, exists l, ln2 n = Ret l /\ ln2_ok n l) ->
    (forall b, pow_base fuel a e = Ret b -> denotes b (pow_arg x e) /\
       factoring_ok rng ffuel (pow_resultant (mp b) (Z.to_nat (Z.abs (Qnum e))) (Pos.to_nat (Qden e))) v /\
       pow_encloses ln2 fuel b (pow_arg x e) (Qabs e)) ->
    Qnum e <> (-1)%Z \/ is_rat x ->
    ra_pow rng ffuel fuel ln2 a e = Ret z -> made z v.
