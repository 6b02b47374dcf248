(** Property C82: printed arrays. *)
From Coq Require Import Ascii String List Arith.
From Verif Require Import M_Base M_Display M_Table S_Table P_Table.
Import ListNotations.

(** C82: an array with at least one row and one column is printed as a
    rectangle in which every line of every element can be read off, in the plain
    and in the alternate form. *)
Theorem C82_readable : forall alt xs ys (cell : nat -> nat -> text), 0 < xs -> 0 < ys ->
  shows_table (table_fmt alt xs ys cell) xs ys (fun x y => lines (cell x y)).
Proof. exact table_shows. Qed.
Print Assumptions C82_readable.

(** C82: the lines of an element are its text, up to one final newline. *)
Theorem C82_lines : forall s : text, ~ In carriage_return s ->
  s = joined (lines s) \/ s = joined (lines s) ++ [newline].
Proof. exact lines_text. Qed.
Print Assumptions C82_lines.

Theorem C82_line : forall (s : text) l, In l (lines s) -> ~ In newline l.
Proof. exact lines_no_newline. Qed.
Print Assumptions C82_line.

(** An array without elements is printed as its sizes. *)
Theorem C82_empty : forall alt xs ys (cell : nat -> nat -> text), xs = 0 \/ ys = 0 ->
  table_fmt alt xs ys cell =
  list_ascii_of_string ("[x_size=" ++ show_usize xs ++ ", y_size=" ++ show_usize ys ++ "]")%string ++ [newline].
Proof. exact table_empty. Qed.
Print Assumptions C82_empty.

Definition sample (x y : nat) : text :=
  list_ascii_of_string (match x, y with
  | 0, 0 => "10" | 1, 0 => "-3" | 0, _ => "7" ++ String newline "x" | _, _ => "" end)%string.
Example C82_example :
  string_of_list_ascii (table_fmt false 2 2 sample) =
"[ 10  -3 ]
[        ]
[ 7      ]
[ x      ]"%string.
Proof. vm_compute. reflexivity. Qed.
Example C82_example_alternate :
  string_of_list_ascii (table_fmt true 2 2 sample) =
"+----+----+
| 10 | -3 |
+----+----+
| 7  |    |
| x  |    |
+----+----+"%string.
Proof. vm_compute. reflexivity. Qed.
