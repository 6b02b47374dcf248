(** A hash function tells values apart if what it feeds cannot be mistaken for what
    another value feeds, even when more follows (keys made of several values). *)
From mathcomp Require Import ssreflect seq.
From Verif Require Import M_Hash.


Definition prefix_free {T : Type} (h : T -> seq token) : Prop :=
  forall x y s t, h x ++ s = h y ++ t -> x = y /\ s = t.
