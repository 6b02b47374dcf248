(** What the algebraic algorithms on polynomials should compute. *)
From Coq Require Import ZArith.
Set Warnings "-notation-overridden,-ambiguous-paths".
From mathcomp Require Import all_ssreflect all_algebra.
From Verif Require Import M_Base M_Poly M_PolyAlg S_Poly.
Set Implicit Arguments.
Unset Strict Implicit.
Unset Printing Implicit Defensive.
Import GRing.Theory Num.Theory.
Local Open Scope ring_scope.

(** The Sylvester matrix of [f] of degree [m] and [g] of degree [n]: [n] rows
    with the coefficients of [f] from the leading one down, each shifted one
    column to the right, and then [m] rows with those of [g]. *)
Definition sylvester (R : ringType) (f g : {poly R}) :
    'M[R]_((size f).-1 + (size g).-1) :=
  let m := (size f).-1 in let n := (size g).-1 in
  \matrix_(i, j)
    if (i < n)%N
    then (if (i <= j <= i + m)%N then f`_(m - (j - i)) else 0)
    else (if (i - n <= j <= i - n + n)%N then g`_(n - (j - (i - n))) else 0).

(** [g] is a greatest common divisor of [p] and [q]; over a field the monic one
    (or zero). *)
Definition is_gcd (F : fieldType) (g p q : {poly F}) : Prop :=
  [/\ (exists a, p = a * g), (exists b, q = b * g) &
      forall d a b, p = a * d -> q = b * d -> exists c, g = c * d].
Definition monic_or_zero (F : fieldType) (g : {poly F}) : Prop := g = 0 \/ lead_coef g = 1.
(** [l] is a least common multiple. *)
Definition is_lcm (F : fieldType) (l p q : {poly F}) : Prop :=
  [/\ (exists a, l = a * p), (exists b, l = b * q) &
      forall m a b, m = a * p -> m = b * q -> exists c, m = c * l].
(** No square of a non-constant polynomial divides [p]. *)
Definition square_free (F : fieldType) (p : {poly F}) : Prop :=
  forall h a, p = a * (h * h) -> (size h <= 1)%N.

(** The reducing factor of a polynomial over a field is its leading coefficient. *)
Definition reduce_sem (K : pcoef) (F : fieldType) (S : coef_sem K F) (Rd : preduce K) : Prop :=
  forall p, wf S p ->
    (pval S p = 0 -> nonzero_reducing_factor Rd p = None) /\
    (pval S p != 0 -> exists2 c, nonzero_reducing_factor Rd p = Some c & vc S c = lead_coef (pval S p)).

(** [b] is an integer multiple of [e]. *)
Definition zdvd (R : ringType) (e b : R) : Prop := exists z : int, b = e *~ z.

(** The coefficient operations behind content and primitive part. *)
Definition content_sem (K : pcoef) (R : realDomainType) (S : coef_sem K R) (C : pcontent K) : Prop :=
  (forall a b, exists g, [/\ c_gcd C a b = Ret g, zdvd (vc S g) (vc S a), zdvd (vc S g) (vc S b) &
     forall e, zdvd e (vc S a) -> zdvd e (vc S b) -> zdvd e (vc S g)]) /\
  (forall a b, c_ltb C a b = (vc S a < vc S b)%R).

(** The coefficient operations behind the norms. *)
Definition abs_sem (K : pcoef) (R : realDomainType) (S : coef_sem K R) (A : pabs K) : Prop :=
  (forall a, vc S (c_abs A a) = `|vc S a|) /\
  (forall a b, c_leb A a b = (vc S a <= vc S b)%R).

(** The number of sign changes in a list of values, zeros being skipped. *)
Fixpoint adjacent_changes (R : numDomainType) (s : seq R) : nat :=
  match s with
  | x :: ((y :: _) as t) => (x * y < 0)%R + adjacent_changes t
  | _ => 0
  end.
Definition sign_variations (R : numDomainType) (s : seq R) : nat :=
  adjacent_changes (filter (fun x => x != 0%R) s).
(** [s] lists the roots of [P] in the half-open interval from [a] (excluded) to
    [b] (included), each once. *)
Definition roots_listed (R : numDomainType) (P : {poly R}) (a b : R) (s : seq R) : Prop :=
  uniq s /\ forall x, (x \in s) = [&& a < x, x <= b & root P x].

(** [c] times the product of [l_i^(i+1)]. *)
Definition power_product (F : fieldType) (c : F) (l : seq {poly F}) : {poly F} :=
  c *: \prod_(i < size l) (nth 0 l i) ^+ i.+1.
