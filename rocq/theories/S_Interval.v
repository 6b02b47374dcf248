(** Specification vocabulary for dyadic intervals: real numbers they contain. *)
From Coq Require Import ZArith QArith Qreals Reals.
From Verif Require Import M_Interval.
Local Open Scope R_scope.

(** The dyadic fraction n / 2^k. *)
Definition dyadic (n : Z) (k : nat) : R := IZR n / 2 ^ k.

(** The real [x] lies in the closed interval [lower/2^k, upper/2^k]. *)
Definition inI (x : R) (i : dfi) : Prop :=
  dyadic (dlo i) (dlog i) <= x <= dyadic (dhi i) (dlog i).

(** Well-formed: lower bound not above upper bound. *)
Definition dfi_ok (i : dfi) : Prop := (dlo i <= dhi i)%Z.

(** [i] is the smallest interval with denominator 2^k that contains [a,b]. *)
Definition tightest (i : dfi) (k : nat) (a b : R) : Prop :=
  dlog i = k /\ dyadic (dlo i) k <= a /\ b <= dyadic (dhi i) k /\
  (forall m, dyadic m k <= a -> (m <= dlo i)%Z) /\
  (forall m, b <= dyadic m k -> (dhi i <= m)%Z).

(** Gauss's arithmetic-geometric iteration started at (x, y), and its limit. *)
Fixpoint agm_seq (x y : R) (n : nat) : R * R :=
  match n with
  | O => (x, y)
  | S n' => let '(a, g) := agm_seq x y n' in ((a + g) / 2, R_sqrt.sqrt (a * g))
  end.
Definition is_agm (x y l : R) : Prop :=
  Un_cv (fun n => fst (agm_seq x y n)) l /\ Un_cv (fun n => snd (agm_seq x y n)) l.

(** What natural_log_of_2(n) may return: an enclosure of ln 2 with denominator
    2^n that is one to three units wide (it depends on the cache which one). *)
Definition ln2_ok (n : nat) (i : dfi) : Prop :=
  dlog i = n /\ inI (ln 2) i /\ (0 < dhi i - dlo i <= 3)%Z.
