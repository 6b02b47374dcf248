(** Specifications for the integer layer, independent of the model. *)
From Coq Require Import ZArith QArith List Znumtheory.
From Verif Require Import M_Util.
Import ListNotations.
Local Open Scope Z_scope.

(** [d] divides the rational [x] with an integer quotient. *)
Definition Qdivides (d x : Q) : Prop := exists k : Z, (x == inject_Z k * d)%Q.

(** Division with the remainder of least absolute value. *)
Definition nearest_div_rem (a b q r : Z) : Prop := a = q * b + r /\ 2 * Z.abs r <= Z.abs b.

(** [k] is the exponent of the largest power of two dividing [a]. *)
Definition is_two_valuation (a k : Z) : Prop :=
  0 <= k /\ (2 ^ k | a) /\ ~ (2 ^ (k + 1) | a).

(** [r] is the greatest prime below [v], if any. *)
Definition is_prev_prime (v : Z) (r : option Z) : Prop :=
  match r with
  | Some p => prime p /\ p < v /\ (forall q, prime q -> q < v -> q <= p)
  | None => forall q, prime q -> ~ q < v
  end.

(** [r] is the least prime above [v], if it is below [bound]. *)
Definition is_next_prime (bound v : Z) (r : option Z) : Prop :=
  match r with
  | Some p => prime p /\ v < p < bound /\ (forall q, prime q -> v < q -> p <= q)
  | None => forall q, prime q -> v < q -> bound <= q
  end.

(** Feeding a list of subsets to a callback, stopping at the first break. *)
Fixpoint run_until_break {St T} (cb : St -> list nat -> St * option T) (L : list (list nat)) (st : St)
  : St * option T :=
  match L with
  | [] => (st, None)
  | s :: L' => match cb st s with
               | (st', None) => run_until_break cb L' st'
               | r => r
               end
  end.

(** A strictly increasing list of indices in [start, stop). *)
Fixpoint increasing_in (start stop : nat) (s : list nat) : Prop :=
  match s with
  | [] => True
  | x :: s' => (start <= x < stop)%nat /\ increasing_in (S x) stop s'
  end.

(** Strict lexicographic order on index lists. *)
Fixpoint lex_lt (s t : list nat) : Prop :=
  match s, t with
  | x :: s', y :: t' => (x < y)%nat \/ (x = y /\ lex_lt s' t')
  | [], _ :: _ => True
  | _, _ => False
  end.

(** A sign as the factor +1 or -1. *)
Definition sval (s : Sign) : Z := match s with Positive => 1 | Negative => -1 end.
