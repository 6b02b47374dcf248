(** What factorisation over prime fields and over the integers should mean. *)
From Coq Require Import ZArith.
Set Warnings "-notation-overridden,-ambiguous-paths".
From mathcomp Require Import all_ssreflect all_algebra.
From Verif Require Import M_Poly M_PolyCoef M_Factor S_Poly S_PolyAlg P_PolyInst.
Set Implicit Arguments.
Unset Strict Implicit.
Unset Printing Implicit Defensive.
Import GRing.Theory.
Local Open Scope ring_scope.

Section Field.
Variable F : fieldType.
Implicit Types (P q : {poly F}) (l : seq {poly F}).

(** [l] = [c; g_1; g_2; ...]: the product is [P], [c] is constant, and [g_i] is
    the monic polynomial whose irreducible divisors are those of [P] that have
    degree i (g_i = 1 beyond the end of the list).  For a square-free [P] this
    makes g_i the product of the monic irreducible divisors of degree i. *)
Definition distinct_degree_parts P l : Prop :=
  [/\ P = \prod_(g <- l) g, size (nth 1 l 0) = 1%N,
      (forall i, (0 < i)%N -> nth 1 l i \is monic) &
      forall i q, (0 < i)%N -> irreducible_poly q ->
        (q %| nth 1 l i <-> (q %| P /\ size q = i.+1))].

(** Every irreducible divisor of [P] has degree [d]. *)
Definition all_factors_degree P (d : nat) : Prop :=
  forall q, irreducible_poly q -> q %| P -> size q = d.+1.

(** [l] lists the monic irreducible factors of [P]. *)
Definition irreducible_factors P l : Prop :=
  [/\ P = \prod_(g <- l) g,
      (forall g, g \in l -> irreducible_poly g /\ g \is monic) &
      forall q, irreducible_poly q -> q \is monic -> (q \in l) = (q %| P)].
End Field.

(** Congruence of integer polynomials modulo [m]. *)
Definition poly_eqmod (m : int) (P Q : {poly int}) : Prop := exists H, P = Q + m *: H.

(** Irreducible over the rationals. *)
Definition irreducible_over_Q (P : {poly int}) : Prop :=
  irreducible_poly (map_poly (intr : int -> rat) P).

(** Primitive with a positive leading coefficient (zcontents carries the sign
    of the leading coefficient). *)
Definition positive_primitive (P : {poly int}) : Prop := zcontents P = 1.

(** [q] divides the leading coefficient of [P], or [P] modulo [q] is not
    square-free: [q] cannot be used as the modulus of the factorisation. *)
Definition bad_prime (P : {poly int}) (q : nat) : Prop :=
  (lead_coef P)%:~R = 0 :> 'F_q \/ ~ @square_free [fieldType of 'F_q] (map_poly intr P).
(** No odd prime that fits an i32 can be used. *)
Definition no_usable_prime (P : {poly int}) : Prop :=
  forall q : nat, prime.prime q -> (2 < q)%N -> (Z.of_nat q < 2 ^ 31)%ZZ -> bad_prime P q.

(** A constant and polynomials with multiplicities that multiply to [P]. *)
Definition factor_list (P : {poly int}) (c : int) (l : seq ({poly int} * nat)) : Prop :=
  [/\ P = c *: \prod_(fn <- l) fn.1 ^+ fn.2,
      (forall f n, (f, n) \in l -> (0 < n)%N) &
      forall f n, (f, n) \in l -> positive_primitive f /\ (1 < size f)%N].

(** * Factor trees modulo [q] *)
(** The integer polynomial of the stored values (all in [0, q)). *)
Definition ival (q : positive) (f : mpoly q) : {poly int} := Poly (map zi (mod_values f)).
(** No leading zero is stored. *)
Definition normal (q : positive) (f : mpoly q) : Prop := last 1 (map zi (mod_values f)) != 0.
(** The tree describes a factorisation modulo [q]: every product is the product
    of the two sides, the sides come with Bezout coefficients, the leading
    coefficients of the right sides are invertible, no leaf vanishes. *)
Fixpoint consistent (q : positive) (t : ftree q) : Prop :=
  match t with
  | Leaf f => normal f /\ ~ poly_eqmod (zi (Zpos q)) (ival f) 0
  | Node l r _ f lb rb =>
      [/\ consistent l /\ consistent r, [/\ normal f, normal lb & normal rb],
          poly_eqmod (zi (Zpos q)) (ival f) (ival (product l) * ival (product r)),
          poly_eqmod (zi (Zpos q)) (ival lb * ival (product l) + ival rb * ival (product r)) 1
        & coprimez (lead_coef (ival (product r))) (zi (Zpos q))]
  end.
(** [l'] lists residues modulo [q'] that agree modulo [m] with those of [l]. *)
Definition agree_mod (m : Z) (q q' : positive) (l : seq (mpoly q)) (l' : seq (mpoly q')) : Prop :=
  size l' = size l /\
  forall i, (i < size l)%N ->
    poly_eqmod (zi m) (nth 0 (map (@ival q') l') i) (nth 0 (map (@ival q) l) i).
