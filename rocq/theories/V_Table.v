(** The documented examples of printed arrays, /repo/src/array2d.rs:105-151. *)
From Coq Require Import Ascii String List Arith.
From Verif Require Import M_Table.
Import ListNotations.

Definition doc (last : string) (x y : nat) : text :=
  list_ascii_of_string
    (nth (3 * x + y) ["0"; "1"; last; "10"; "11"; "12"; "20"; "21"; "22"] "")%string.
Definition multi : string := ("line 1" ++ String newline "line 2")%string.

Example doc_plain : string_of_list_ascii (table_fmt false 3 3 (doc "2")) =
"[ 0  10  20 ]
[ 1  11  21 ]
[ 2  12  22 ]"%string.
Proof. vm_compute. reflexivity. Qed.

Example doc_alternate : string_of_list_ascii (table_fmt true 3 3 (doc "2")) =
"+---+----+----+
| 0 | 10 | 20 |
+---+----+----+
| 1 | 11 | 21 |
+---+----+----+
| 2 | 12 | 22 |
+---+----+----+"%string.
Proof. vm_compute. reflexivity. Qed.

Example doc_multi : string_of_list_ascii (table_fmt false 3 3 (doc multi)) =
"[ 0       10  20 ]
[                ]
[ 1       11  21 ]
[                ]
[ line 1  12  22 ]
[ line 2         ]"%string.
Proof. vm_compute. reflexivity. Qed.

Example doc_multi_alternate : string_of_list_ascii (table_fmt true 3 3 (doc multi)) =
"+--------+----+----+
| 0      | 10 | 20 |
+--------+----+----+
| 1      | 11 | 21 |
+--------+----+----+
| line 1 | 12 | 22 |
| line 2 |    |    |
+--------+----+----+"%string.
Proof. vm_compute. reflexivity. Qed.
