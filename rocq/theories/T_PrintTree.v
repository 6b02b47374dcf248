(** Property C83: printed trees. *)
From Coq Require Import Ascii String List Arith.
From Verif Require Import M_Base M_Table M_PrintTree S_PrintTree P_PrintTree.
Import ListNotations.

(** C83: two trees are printed alike only if they have the same shape and the
    same lines in every leaf and node. *)
Theorem C83_readable : forall t1 t2, printed t1 = printed t2 -> content t1 = content t2.
Proof. exact printed_inj. Qed.
Print Assumptions C83_readable.

(** C83: the lines come from left to right, every one in full and indented by
    its depth. *)
Theorem C83_inorder : forall t,
  Forall2 (fun l p => fst p <= length l /\ skipn (fst p) l = snd p) (printed t) (inorder 0 (content t)).
Proof. exact printed_inorder. Qed.
Print Assumptions C83_inorder.

(** C83: the lines do not depend on where they go; the first write that fails
    ends the output, and its error is returned. *)
Theorem C83_writer : forall St E (write_ln : St -> text -> St * option E) t st,
  write_or_print_tree write_ln t st = feed write_ln (printed t) st.
Proof. exact @write_tree_feed. Qed.
Print Assumptions C83_writer.

Definition sample_tree : tree :=
  NodePair (NodePair (Leaf (str "1")) (str "a") (Leaf (str "2"))) (str "top" ++ newline :: str "level") (Leaf (str "")).
Example C83_example : map string_of_list_ascii (printed sample_tree) =
  ["     +--:1";
   "     | ";
   " +---+:a";
   " |   | ";
   " |   +--:2";
   " | ";
   " | top";
   "-+:level";
   " | ";
   " +--:"]%string.
Proof. vm_compute. reflexivity. Qed.

(** a writer with room for two lines *)
Example C83_example_fails :
  write_or_print_tree (fun st l => if length st <? 2 then (st ++ [l], None) else (st, Some "full"%string)) sample_tree []
  = (firstn 2 (printed sample_tree), Some "full"%string).
Proof. vm_compute. reflexivity. Qed.
