(** Theorems on quadratic numbers (C64, C68). *)
From Coq Require Import ZArith Reals.
From Verif Require Import M_Base M_Quad S_Quad P_Quad P_Extras.
Local Open Scope R_scope.

(** C64: comparison of any two numbers is the order of the reals. *)
Theorem C64_cmp_partial : forall x y, made_quad x -> made_quad y ->
  exists c, quad_cmp x y = Ret c /\ ordered c (qvalue x) (qvalue y).
Proof. exact cmp_made. Qed.

(** C64: so is comparison with a fraction, from either side. *)
Theorem C64_cmp_ratio_partial : forall x n d, made_quad x -> (0 < d)%Z ->
  (exists c, quad_cmp_ratio x n d = Ret c /\ ordered c (qvalue x) (IZR n / IZR d)) /\
  (exists c, ratio_cmp_quad n d x = Ret c /\ ordered c (IZR n / IZR d) (qvalue x)) /\
  (exists t, quad_lt_ratio x n d = Ret t /\ (t = true <-> qvalue x < IZR n / IZR d)).
Proof. exact cmp_ratio_made. Qed.

(** C64: equality is equality of the reals. *)
Theorem C64_eq_partial : forall x y, made_quad x -> made_quad y ->
  (quad_eqb x y = true <-> qvalue x = qvalue y).
Proof. exact eq_value. Qed.

Theorem C64_eq_ratio_partial : forall x n d, made_quad x -> (0 < d)%Z -> Z.gcd n d = 1%Z ->
  (quad_eq_ratio x n d = true <-> qvalue x = IZR n / IZR d).
Proof. exact eq_ratio_made. Qed.

(** C64 fails for reciprocals of positive fractions: comparing an irrational
    number with one panics (in release builds, where the failing debug assertion
    is off, the answer is wrong). *)
Theorem C64_recip_refuted : exists x y z, made_quad x /\ made_quad y /\
  quad_checked_recip y = Ret (Some z) /\ quad_cmp x z = Panic.
Proof. exact recip_cmp_panics. Qed.

(** C68: a polynomial is accepted exactly if it has a real root, and then the
    number is that root. *)
Theorem C68_new : forall p,
  (has_root p -> exists x, quad_new p = Ret (Some x) /\ qvalue x = qvalue p) /\
  (~ has_root p -> quad_new p = Ret None).
Proof. exact new_made. Qed.

(** C68: the constants zero and one, and the default, which is zero. *)
Theorem C68_constants :
  made_quad quad_default /\ made_quad quad_zero /\ made_quad quad_one /\
  qvalue quad_default = 0 /\ qvalue quad_zero = 0 /\ qvalue quad_one = 1.
Proof. exact quad_constants. Qed.
Print Assumptions C68_constants.

(** C68: conversions from and to integers and fractions. *)
Theorem C68_from :
  (forall v, qvalue (from_integer v) = IZR v) /\
  (forall n d, (d <> 0)%Z -> exists x, from_ratio n d = Ret x /\
     from_ratio_checked n d = Ret (Some x) /\ qvalue x = IZR n / IZR d) /\
  (forall n, from_ratio n 0 = Panic /\ from_ratio_checked n 0 = Ret None).
Proof. exact from_made. Qed.

Theorem C68_to_integer : forall x v, made_quad x ->
  (quad_to_integer x = Some v <-> qvalue x = IZR v).
Proof. exact to_integer_made. Qed.

Theorem C68_to_ratio : forall x, made_quad x ->
  match to_tuple_ratio x with
  | Some (n, d) => (0 < d)%Z /\ Z.gcd n d = 1%Z /\ qvalue x = IZR n / IZR d
  | None => forall n d : Z, (d <> 0)%Z -> qvalue x <> IZR n / IZR d
  end.
Proof. exact to_ratio_made. Qed.

(** C68: signs, negation, absolute value. *)
Theorem C68_sign : forall x, made_quad x ->
  (quad_is_zero x = true <-> qvalue x = 0) /\ (quad_is_one x = true <-> qvalue x = 1) /\
  (quad_is_positive x = true <-> 0 < qvalue x) /\ (quad_is_negative x = true <-> qvalue x < 0) /\
  qvalue (quad_neg x) = - qvalue x /\ qvalue (quad_abs x) = Rabs (qvalue x) /\
  (0 < qvalue x -> qvalue (quad_signum x) = 1) /\
  (qvalue x = 0 -> qvalue (quad_signum x) = 0) /\
  (qvalue x < 0 -> qvalue (quad_signum x) = -1).
Proof. exact sign_made. Qed.

(** C68: a sum or difference that is returned is right, and it is returned when
    one operand is rational.  Missing: two irrational operands, which always
    panic or report an error. *)
Theorem C68_add_partial : forall x y, made_quad x -> made_quad y ->
  (forall z, quad_checked_add x y = Ret (Some z) -> qvalue z = qvalue x + qvalue y) /\
  (forall z, quad_checked_sub x y = Ret (Some z) -> qvalue z = qvalue x - qvalue y) /\
  (forall n d : Z, (d <> 0)%Z -> qvalue x = IZR n / IZR d \/ qvalue y = IZR n / IZR d ->
     (exists z, quad_checked_add x y = Ret (Some z)) /\
     (exists z, quad_checked_sub x y = Ret (Some z))).
Proof. exact add_made. Qed.

(** C68 fails: adding two irrational numbers panics. *)
Theorem C68_add_refuted : exists x, made_quad x /\ quad_checked_add x x = Panic.
Proof. exact (ex_intro _ sqrt2 add_panics). Qed.

(** C68 fails: a sum that is a quadratic number is reported not to be one. *)
Theorem C68_add_error_refuted : exists x y, made_quad x /\ made_quad y /\
  quad_checked_add x y = Ret None /\ quadratic (qvalue x + qvalue y).
Proof. exact (ex_intro _ sqrt2 (ex_intro _ near2 add_wrong_error)). Qed.

(** C68: reciprocals of rational numbers have the right value.  Missing:
    irrational numbers, for which the code panics. *)
Theorem C68_recip_partial : forall x, made_quad x ->
  forall n d : Z, (d <> 0)%Z -> qvalue x = IZR n / IZR d ->
  (n <> 0%Z -> exists z, quad_checked_recip x = Ret (Some z) /\ qvalue z = / qvalue x) /\
  (n = 0%Z -> quad_checked_recip x = Ret None).
Proof. exact recip_made. Qed.

(** C68 fails: the reciprocal of a positive fraction is not equal to the same
    number built otherwise; that of an irrational number panics. *)
Theorem C68_recip_refuted : exists x z, made_quad x /\ quad_checked_recip x = Ret (Some z) /\
  qvalue z = IZR 2 /\ quad_eqb z (from_integer 2) = false.
Proof. exact recip_not_equal. Qed.

Theorem C68_recip_panic_refuted : exists x, made_quad x /\ quad_checked_recip x = Panic.
Proof. exact (ex_intro _ sqrt2 recip_panics). Qed.

Example C64_example :
  made_quad sqrt2 /\ made_quad near2 /\
  quad_cmp sqrt2 near2 = Ret Lt /\ quad_cmp near2 sqrt2 = Ret Gt /\
  quad_cmp_ratio sqrt2 3 2 = Ret Lt /\ quad_cmp_ratio sqrt2 7 5 = Ret Gt /\
  quad_new (Quad 6 (-30) 36) = Ret (Some (Quad (-1) 2 0)) /\
  quad_checked_add (from_integer 1) sqrt2 = Ret (Some (Quad (-1) (-2) 1)).
Proof. repeat split; first [exact sqrt2_made | exact near2_made | reflexivity]. Qed.

Print Assumptions C64_cmp_partial.
Print Assumptions C64_cmp_ratio_partial.
Print Assumptions C64_eq_partial.
Print Assumptions C64_eq_ratio_partial.
Print Assumptions C64_recip_refuted.
Print Assumptions C68_new.
Print Assumptions C68_from.
Print Assumptions C68_to_integer.
Print Assumptions C68_to_ratio.
Print Assumptions C68_sign.
Print Assumptions C68_add_partial.
Print Assumptions C68_add_refuted.
Print Assumptions C68_add_error_refuted.
Print Assumptions C68_recip_partial.
Print Assumptions C68_recip_refuted.
Print Assumptions C68_recip_panic_refuted.
