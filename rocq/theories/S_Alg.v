(** What a real algebraic number value means. *)
From Coq Require Import ZArith Reals.
Set Warnings "-notation-overridden,-ambiguous-paths".
From mathcomp Require Import all_ssreflect all_algebra.
From Verif Require Import M_Base M_Poly P_PolyInst M_Interval M_Factor M_Alg S_Poly S_Factor S_Interval P_Rstruct.
Set Implicit Arguments.
Unset Strict Implicit.
Unset Printing Implicit Defensive.
Import GRing.Theory.
Local Open Scope ring_scope.
Delimit Scope R_scope with RR.

(** An integer polynomial read as a polynomial with real coefficients. *)
Definition real_poly (p : poly int_coef) : {poly R} := map_poly intr (pval int_sem p).

(** The value [a] represents the real number [x]: its polynomial is irreducible
    over the rationals and vanishes at [x], and [x] is the only root of it in
    the interval.  For a rational number the polynomial is moreover the
    primitive one with positive leading coefficient: the code reads numerator
    and denominator off its coefficients. *)
Definition denotes (a : ralg) (x : R) : Prop :=
  [/\ wf int_sem (mp a), irreducible_over_Q (pval int_sem (mp a)),
      inI x (itv a) /\ root (real_poly (mp a)) x,
      (forall y, inI y (itv a) -> root (real_poly (mp a)) y -> y = x)
    & size (pval int_sem (mp a)) = 2%N -> positive_primitive (pval int_sem (mp a))].

(** The polynomial is the canonical minimal polynomial. *)
Definition canonical (a : ralg) : Prop := positive_primitive (pval int_sem (mp a)).

(** Everything [denotes] asks, except that [x] is the only root in the interval. *)
Definition weakly_denotes (a : ralg) (x : R) : Prop :=
  [/\ wf int_sem (mp a), irreducible_over_Q (pval int_sem (mp a)),
      inI x (itv a) /\ root (real_poly (mp a)) x
    & size (pval int_sem (mp a)) = 2%N -> positive_primitive (pval int_sem (mp a))].

(** A computation that takes fuel returns [v] once the fuel suffices, and only
    reports lack of fuel before. *)
Definition eventually (T : Type) (f : nat -> res T) (v : T) : Prop :=
  exists N, forall fuel, f fuel = if (N <= fuel)%N then Ret v else NoFuel.

(** Factoring [r] succeeds, and the factor that vanishes at [v] is irreducible. *)
Definition factored (rng : nat -> Z) (ffuel : nat) (r : poly int_coef) (v : R) : Prop :=
  exists c fs, factor_with_rng rng ffuel r = Ret (c, fs) /\
    forall f n, List.In (f, n) fs -> root (real_poly f) v -> irreducible_over_Q (pval int_sem f).

Local Open Scope R_scope.
(** Bounds and width of an interval. *)
Definition lo (i : dfi) : R := dyadic (dlo i) (dlog i).
Definition hi (i : dfi) : R := dyadic (dhi i) (dlog i).
Definition width (i : dfi) : R := hi i - lo i.
(** [i] lies in [j]. *)
Definition inside (i j : dfi) : Prop := lo j <= lo i /\ hi i <= hi j.

(** The values of [n] refinement steps. *)
Fixpoint refine_steps (n : nat) (a : ralg) : res shrinker :=
  match n with
  | O => ra_shrinker a
  | S n' => rbind (refine_steps n' a) (fun s => rmap snd (shrink s))
  end.

(** Rounding *)
Definition is_floor (x : R) (k : Z) : Prop := IZR k <= x < IZR k + 1.
Definition is_ceil (x : R) (k : Z) : Prop := IZR k - 1 < x <= IZR k.
Definition is_trunc (x : R) (k : Z) : Prop := (0 <= x -> is_floor x k) /\ (x <= 0 -> is_ceil x k).
(** Integer logarithms to base 2 *)
Definition is_floor_log2 (x : R) (k : Z) : Prop := powerRZ 2 k <= x < powerRZ 2 (k + 1).
Definition is_ceil_log2 (x : R) (k : Z) : Prop := powerRZ 2 (k - 1) < x <= powerRZ 2 k.
