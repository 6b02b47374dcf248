(** Outcomes of model functions.  [Ret] is a normal return, [Panic] models a
    Rust panic (assert!, unwrap, expect, unreachable!, index out of bounds,
    division by zero), [NoFuel] means that the fuel given to the model of an
    unbounded loop was exhausted: it is never a normal result. *)
From Coq Require Import ZArith QArith List.

Inductive res (A : Type) : Type :=
| Ret (a : A)
| Panic
| NoFuel.
Arguments Ret {A} a.
Arguments Panic {A}.
Arguments NoFuel {A}.

Definition rbind {A B} (x : res A) (f : A -> res B) : res B :=
  match x with Ret a => f a | Panic => Panic | NoFuel => NoFuel end.

Definition rmap {A B} (f : A -> B) (x : res A) : res B :=
  rbind x (fun a => Ret (f a)).

(** [unwrap]/[expect] of an [Option]. *)
Definition unwrap {A} (x : option A) : res A :=
  match x with Some a => Ret a | None => Panic end.

(** [assert!] *)
Definition assert_then {A} (b : bool) (k : res A) : res A :=
  if b then k else Panic.

Definition obind {A B} (x : option A) (f : A -> option B) : option B :=
  match x with Some a => f a | None => None end.

Declare Scope res_scope.
Delimit Scope res_scope with res.
Notation "x <- e ;; k" := (rbind e (fun x => k))
  (at level 61, e at next level, right associativity) : res_scope.
Notation "' p <- e ;; k" := (rbind e (fun x => match x with p => k end))
  (at level 61, p pattern, e at next level, right associativity) : res_scope.

Definition is_ret {A} (x : res A) : bool :=
  match x with Ret _ => true | _ => false end.
