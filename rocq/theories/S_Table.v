(** Specification vocabulary for printed tables. *)
From Coq Require Import Ascii List Arith.
From Verif Require Import M_Table.
Import ListNotations.

(** Lines with a newline between any two. *)
Fixpoint joined (ls : list text) : text :=
  match ls with
  | [] => []
  | [l] => l
  | l :: ls' => l ++ newline :: joined ls'
  end.

(** [out] shows the cells, given as lists of lines, as a table: it is a
    rectangle of characters in which every line of a cell stands in full, blanks
    after it, in the columns [left x .. left x + width x) of its own printed
    line, and the areas of different columns and rows do not meet. *)
Definition shows_table (out : text) (xs ys : nat) (cell : nat -> nat -> list text) : Prop :=
  exists (pic : list text) (total : nat) (left width top : nat -> nat),
    out = joined pic /\
    (forall l, In l pic -> length l = total /\ ~ In newline l) /\
    (forall x y r line, x < xs -> y < ys -> nth_error (cell x y) r = Some line ->
       length line <= width x /\
       exists l, nth_error pic (top y + r) = Some l /\
         firstn (width x) (skipn (left x) l) = line ++ repeat blank (width x - length line)) /\
    (forall x, x < xs -> 0 < left x /\ left x + width x < left (S x) /\ left x + width x < total) /\
    (forall x y, x < xs -> y < ys -> top y + length (cell x y) <= top (S y) /\ top y + length (cell x y) <= length pic).
