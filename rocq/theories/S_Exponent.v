(** What an exponent means. *)
From Coq Require Import ZArith QArith.
From Verif Require Import M_Exponent.
Local Open Scope Q_scope.

(** [e] stands for the rational number [q]. *)
Fixpoint exp_value (e : exponent) (q : Q) : Prop :=
  match e with
  | EInt v => q == inject_Z v
  | EPair n d => d <> 0%Z /\ q * inject_Z d == inject_Z n
  | ERatio r => q == r
  | ERef e => exp_value e q
  end.
(** [e] is a pair with denominator zero. *)
Fixpoint exp_zero_denominator (e : exponent) : Prop :=
  match e with
  | EPair _ d => d = 0%Z
  | ERef e => exp_zero_denominator e
  | _ => False
  end.
(** If [e] is a Ratio, it is in lowest terms, as every Ratio is that was not made
    by Ratio::new_raw. *)
Fixpoint exp_reduced (e : exponent) : Prop :=
  match e with
  | ERatio r => Z.gcd (Qnum r) (Zpos (Qden r)) = 1%Z
  | ERef e => exp_reduced e
  | _ => True
  end.
