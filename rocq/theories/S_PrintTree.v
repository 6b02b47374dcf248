(** Specification vocabulary for printed trees. *)
From Coq Require Import Ascii String List Arith.
From Verif Require Import M_Base M_Table M_PrintTree.
Import ListNotations.

(** The lines printed when no write fails. *)
Definition printed (t : tree) : list text :=
  fst (write_or_print_tree (fun st l => (st ++ [l], @None unit)) t []).

(** Writing lines one after another until one fails. *)
Fixpoint feed {St E} (write_ln : St -> text -> St * option E) (ls : list text) (st : St) : St * option E :=
  match ls with
  | [] => (st, None)
  | l :: ls' => match write_ln st l with
                | (st', None) => feed write_ln ls' st'
                | failed => failed
                end
  end.

(** What a printed tree is to show: the lines of every text.  A leaf without
    lines is shown as one empty line. *)
Inductive shown : Type :=
| ShownLeaf (ls : list text)
| ShownNode (l : shown) (ls : list text) (r : shown).
Fixpoint content (t : tree) : shown :=
  match t with
  | Leaf s => ShownLeaf (match lines s with [] => [[]] | ls => ls end)
  | NodePair l s r => ShownNode (content l) (lines s) (content r)
  end.

(** The lines from left to right, each with its indentation: four for every
    level, one for the mark of a leaf, three for that of a node. *)
Fixpoint inorder (d : nat) (c : shown) : list (nat * text) :=
  match c with
  | ShownLeaf ls => map (pair (4 * d + 1)) ls
  | ShownNode l ls r =>
      inorder (S d) l ++ map (pair (4 * d + 3)) ([[]] ++ ls ++ [[]]) ++ inorder (S d) r
  end.
