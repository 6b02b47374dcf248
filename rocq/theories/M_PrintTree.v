(** Model of the tree printer, /repo/src/util.rs:920-1022. *)
From Coq Require Import Ascii String List Arith.
From Verif Require Import M_Base M_Table.
Import ListNotations.

(** util.rs:920-924, 931-942: what repeated calls of to_leaf_or_node_pair show of
    a tree; leaves and nodes carry their printed text *)
Inductive tree : Type :=
| Leaf (leaf : text)
| NodePair (node1 : tree) (node_data : text) (node2 : tree).

Definition str (s : string) : text := list_ascii_of_string s.

Section Writer.
(** the closure write_ln_fn: it changes a state and succeeds (None) or fails *)
Variables St E : Type.
Variable write_ln : St -> text -> St * option E.

(** util.rs:958-970 and 998-1006: the loop over the lines with their index, left
    by the operator ? at the first failure *)
Fixpoint write_lines (above center below : text) (half index : nat) (ls : list text) (st : St) : St * option E :=
  match ls with
  | [] => (st, None)
  | line :: ls' =>
      let prefix := match Nat.compare index half with Lt => above | Eq => center | Gt => below end in
      match write_ln st (prefix ++ line) with
      | (st', None) => write_lines above center below half (S index) ls' st'
      | failed => failed
      end
  end.

(** util.rs:946-1011 helper *)
Fixpoint helper (t : tree) (above center below : text) (st : St) : St * option E :=
  match t with
  | Leaf leaf =>
      let ls := match lines leaf with [] => [[]] | ls => ls end in
      write_lines (above ++ str " ") (center ++ str ":") (below ++ str " ") (length ls / 2) 0 ls st
  | NodePair node1 node_data node2 =>
      match helper node1 (above ++ str "    ") (above ++ str " +--") (above ++ str " |  ") st with
      | (st, None) =>
          let ls := [] :: lines node_data ++ [[]] in
          match write_lines (above ++ str " | ") (center ++ str "-+:") (below ++ str " | ") (length ls / 2) 0 ls st with
          | (st, None) => helper node2 (below ++ str " |  ") (below ++ str " +--") (below ++ str "    ") st
          | failed => failed
          end
      | failed => failed
      end
  end.

(** util.rs:943-1013 write_or_print_tree *)
Definition write_or_print_tree (t : tree) (st : St) : St * option E := helper t [] [] [] st.
End Writer.
Arguments write_or_print_tree {St E}.
Arguments write_lines {St E}.
Arguments helper {St E}.
