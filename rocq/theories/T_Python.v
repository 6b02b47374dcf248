(** Property theorems C63: the Python class.

    [stands_for o a]: the Python object [o] is the number [a] or an integer equal
    to it.  [returns_as py rust]: the operator returns exactly what the Rust
    operation returns and raises nothing.  [raises_iff py exn bad rust]: it raises
    [exn], and nothing else, exactly under the condition [bad], and otherwise
    returns what the Rust operation returns (S_Python.v).  The values of the Rust
    operations are the subject of C47-C60. *)
From Coq Require Import ZArith QArith Qreals Reals Lra.
Set Warnings "-notation-overridden,-ambiguous-paths".
From mathcomp Require Import ssreflect ssrfun ssrbool eqtype ssrnat seq.
From Verif Require Import M_Base M_Util M_Interval M_Poly M_PolyCoef P_PolyInst M_Factor M_Alg M_Python S_Poly S_Interval S_Alg S_AlgOps S_AlgMin S_Python
  P_AlgBasic P_AlgRef P_AlgOpsRef P_AlgMin P_AlgMade P_Python.
Set Implicit Arguments.
Unset Strict Implicit.
Unset Printing Implicit Defensive.
Local Open Scope R_scope.

(** Operators with two operands, at least one of the class; reflected methods
    included. *)
Theorem C63_add : forall rng ffuel fuel l r a b, stands_for l a -> stands_for r b -> of_class l \/ of_class r ->
  returns_as (py_add rng ffuel fuel l r) (ra_add rng ffuel fuel a b).
Proof. exact py_add_returns. Qed.
Print Assumptions C63_add.
Theorem C63_sub : forall rng ffuel fuel l r a b, stands_for l a -> stands_for r b -> of_class l \/ of_class r ->
  returns_as (py_sub rng ffuel fuel l r) (ra_sub rng ffuel fuel a b).
Proof. exact py_sub_returns. Qed.
Print Assumptions C63_sub.
Theorem C63_mul : forall rng ffuel fuel l r a b, stands_for l a -> stands_for r b -> of_class l \/ of_class r ->
  returns_as (py_mul rng ffuel fuel l r) (ra_mul rng ffuel fuel a b).
Proof. exact py_mul_returns. Qed.
Print Assumptions C63_mul.
(** ZeroDivisionError exactly for a zero divisor *)
Theorem C63_truediv : forall rng ffuel fuel l r a b y, stands_for l a -> stands_for r b -> of_class l \/ of_class r ->
  denotes b y ->
  raises_iff (py_truediv rng ffuel fuel l r) ZeroDivisionError (y = 0) (ra_checked_div rng ffuel fuel a b).
Proof. exact py_truediv_raises. Qed.
Print Assumptions C63_truediv.
Theorem C63_recip : forall fuel a x, denotes a x ->
  raises_iff (py_recip fuel a) ZeroDivisionError (x = 0) (ra_checked_recip fuel a).
Proof. exact py_recip_raises. Qed.
Print Assumptions C63_recip.
(** pow: ValueError for an irrational exponent and exactly where the power is
    undefined; TypeError exactly for a modulus. *)
Theorem C63_pow : forall rng ffuel fuel ln2 l r a b x y e, stands_for l a -> stands_for r b -> of_class l \/ of_class r ->
  denotes a x -> denotes b y -> Qred e = e -> y = Q2R e ->
  raises_iff (py_pow rng ffuel fuel ln2 PNone l r) ValueError (pow_undefined x e) (ra_checked_pow rng ffuel fuel ln2 a e).
Proof. exact (fun rng ffuel fuel ln2 l r a b x y e sl sr c => py_pow_raises rng ffuel fuel ln2 sl sr c (e := e)). Qed.
Print Assumptions C63_pow.
Theorem C63_pow_irrational : forall rng ffuel fuel ln2 l r a b y, stands_for l a -> stands_for r b -> of_class l \/ of_class r ->
  denotes b y -> (forall q, y <> Q2R q) -> py_pow rng ffuel fuel ln2 PNone l r = Ret (PExn ValueError).
Proof. exact py_pow_irrational. Qed.
Print Assumptions C63_pow_irrational.
Theorem C63_pow_modulus : forall rng ffuel fuel ln2 l r a b, stands_for l a -> stands_for r b -> of_class l \/ of_class r ->
  forall m, m <> PNone -> py_pow rng ffuel fuel ln2 m l r = Ret (PExn TypeError).
Proof. exact py_pow_modulus. Qed.
Print Assumptions C63_pow_modulus.
(** Logarithms: ValueError exactly for numbers that are not positive *)
Theorem C63_log2 : forall fuel a x, denotes a x ->
  raises_iff (py_floor_log2 fuel a) ValueError (x <= 0) (ra_floor_log2 fuel a) /\
  raises_iff (py_ceil_log2 fuel a) ValueError (x <= 0) (ra_ceil_log2 fuel a).
Proof. exact py_log2_raises. Qed.
Print Assumptions C63_log2.
(** The six comparisons are those of the real numbers, under the conditions of
    C56; with an integer on the left Python uses the reflected comparison. *)
Theorem C63_compare : forall rng ffuel a r b x y op, stands_for r b -> denotes a x -> denotes b y ->
  factoring_ok rng ffuel (sub_resultant a b) (x - y) \/
    ((is_rat x \/ is_rat y) /\ factoring_returns rng ffuel (sub_resultant a b)) ->
  diff_clear a b x y \/ x = y \/ is_rat x \/ is_rat y ->
  exists t, eventually (fun fuel => py_compare rng ffuel fuel op (PNum a) r) (PVal t) /\ (t = true <-> holds op x y).
Proof. exact py_compare_left. Qed.
Print Assumptions C63_compare.
Theorem C63_compare_reflected : forall rng ffuel z b y op, denotes b y ->
  factoring_returns rng ffuel (sub_resultant b (ra_from_int z)) ->
  exists t, eventually (fun fuel => py_compare rng ffuel fuel op (PInt z) (PNum b)) (PVal t) /\ (t = true <-> holds op (IZR z) y).
Proof. exact py_compare_right. Qed.
Print Assumptions C63_compare_reflected.
(** Without any condition: the comparisons are those of the Rust order. *)
Theorem C63_compare_rust : forall rng ffuel fuel a r b op, stands_for r b ->
  returns_as (py_compare rng ffuel fuel op (PNum a) r) (rust_compare op (ra_cmp rng ffuel fuel a b) (ra_eqb rng ffuel fuel a b)).
Proof. exact py_compare_returns. Qed.
Print Assumptions C63_compare_rust.
(** Other operands: TypeError; == is False and != is True. *)
Theorem C63_not_a_number : forall rng ffuel fuel ln2 m op l r, no_number l \/ no_number r ->
  py_add rng ffuel fuel l r = Ret (PExn TypeError) /\ py_sub rng ffuel fuel l r = Ret (PExn TypeError) /\
  py_mul rng ffuel fuel l r = Ret (PExn TypeError) /\ py_truediv rng ffuel fuel l r = Ret (PExn TypeError) /\
  py_pow rng ffuel fuel ln2 m l r = Ret (PExn TypeError) /\
  py_compare rng ffuel fuel op l r = Ret (match op with OpEq => PVal false | OpNe => PVal true | _ => PExn TypeError end).
Proof. exact py_not_a_number. Qed.
Print Assumptions C63_not_a_number.
(** Construction, negation, absolute value *)
Theorem C63_new : forall v,
  (v = None \/ v = Some PNone -> exists a, py_new v = PVal a /\ denotes a 0) /\
  (forall o a, v = Some o -> stands_for o a -> py_new v = PVal a) /\
  (v = Some POther -> py_new v = PExn TypeError).
Proof. exact py_new_spec. Qed.
Print Assumptions C63_new.
Theorem C63_neg_abs : forall a x, denotes a x ->
  (exists b, py_neg a = Ret (PVal b) /\ denotes b (- x)) /\ (exists b, py_abs a = Ret (PVal b) /\ denotes b (Rabs x)).
Proof. exact (fun a x D => conj (py_neg_returns D) (py_abs_returns D)). Qed.
Print Assumptions C63_neg_abs.
(** Roundings and conversions *)
Theorem C63_rounding : forall a x k, denotes a x ->
  (is_floor x k -> eventually (fun fuel => py_floor fuel a) k) /\
  (is_ceil x k -> eventually (fun fuel => py_ceil fuel a) k) /\
  (is_trunc x k -> eventually (fun fuel => py_trunc fuel a) k).
Proof. exact py_rounding. Qed.
Print Assumptions C63_rounding.
Theorem C63_to_rational : forall a x, denotes a x ->
  (exists n d, [/\ py_to_rational a = Ret (Some (n, d)), (0 < d)%Z, Z.gcd n d = 1%Z & x * IZR d = IZR n]) \/
  (py_to_rational a = Ret None /\ forall q, x <> Q2R q).
Proof. exact py_to_rational_spec. Qed.
Print Assumptions C63_to_rational.
Theorem C63_to_integer : forall a x, denotes a x ->
  (exists v, py_to_integer a = Ret (Some v) /\ x = IZR v) \/ (py_to_integer a = Ret None /\ forall v, x <> IZR v).
Proof. exact to_integer_spec. Qed.
Print Assumptions C63_to_integer.
Theorem C63_tests : forall a x, denotes a x ->
  (exists t, py_is_rational a = Ret t /\ (t = true <-> exists q, x = Q2R q)) /\
  (exists t, py_is_integer a = Ret t /\ (t = true <-> exists v, x = IZR v)).
Proof. exact (fun a x D => conj (is_rational_spec D) (is_integer_spec D)). Qed.
Print Assumptions C63_tests.
Theorem C63_minimal_polynomial : forall a x, denotes a x -> canonical a -> minimal_polynomial_of x (py_minimal_polynomial a).
Proof. exact (fun a x D => proj1 (minimal_iff D)). Qed.
Print Assumptions C63_minimal_polynomial.
Theorem C63_degree : forall a x, denotes a x -> py_degree a = Ret (List.length (py_minimal_polynomial a) - 1)%N.
Proof. exact degree_coefs. Qed.
Print Assumptions C63_degree.

(** 3 - (5 + sqrt 2) through the reflected method, 1 / 0, 0 ** 0, 2 ** sqrt 2,
    1 < 5 + sqrt 2 *)
Example C63_example :
  rmap (fun v => if v is PVal a then coefficients (mp a) else [::]) (py_sub rng0 50 9 (PInt 3) (PNum five_root2)) =
    Ret [:: 2; 4; 1]%Z /\
  py_truediv rng0 50 9 (PInt 1) (PNum ra_zero) = Ret (PExn ZeroDivisionError) /\
  py_pow rng0 50 9 ln2_0 PNone (PNum ra_zero) (PInt 0) = Ret (PExn ValueError) /\
  py_pow rng0 50 9 ln2_0 PNone (PInt 2) (PNum root2) = Ret (PExn ValueError) /\
  py_compare rng0 50 9 OpLt (PInt 1) (PNum five_root2) = Ret (PVal true).
Proof. by vm_compute. Qed.
Example C63_hypotheses : stands_for (PInt 3) (ra_from_int 3) /\ of_class (PNum five_root2) /\ denotes five_root2 (5 + sqrt 2).
Proof. exact (conj (or_intror (ex_intro _ 3%Z (conj (erefl _) (erefl _)))) (conj (ex_intro _ _ (erefl _)) five_root2_denotes)). Qed.
