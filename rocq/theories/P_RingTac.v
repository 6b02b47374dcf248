(** The standard [ring] tactic on Mathematical Components rings, used through
    small abstract identities. *)
From Coq Require Import Ring_theory Ring.
Set Warnings "-notation-overridden,-ambiguous-paths".
From mathcomp Require Import all_ssreflect ssralg.
Import GRing.Theory.
Local Open Scope ring_scope.

Definition rsub (T : comRingType) (x y : T) : T := x + - y.

Lemma comring_theory (T : comRingType) :
  @ring_theory (GRing.Ring.sort T) 0 1 +%R *%R (rsub T) -%R eq.
Proof.
split=> *; rewrite ?add0r ?mul1r ?mulrDl ?addrA ?mulrA ?subrr //.
- exact: addrC.
- exact: mulrC.
Qed.
