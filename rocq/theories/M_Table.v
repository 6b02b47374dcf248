(** Model of the Display implementation of two-dimensional arrays,
    /repo/src/array2d.rs:408-491.  Text is a list of characters; the code
    measures lines in bytes and pads them in characters, which is the same for
    ASCII text, the only one modelled. *)
From Coq Require Import Ascii String List Arith ZArith.
From Verif Require Import M_Base M_Display.
Import ListNotations.

Definition text := list ascii.
Definition newline : ascii := "010".
Definition carriage_return : ascii := "013".
Definition blank : ascii := " ".

(** std str::lines: the pieces ended by a newline or by the end of the text,
    without a final empty one, each without a final carriage return (recent
    versions keep one at the very end of the text; older ones drop it) *)
Fixpoint pieces (s : text) : list text :=
  match s with
  | [] => [[]]
  | c :: s' =>
      if Ascii.eqb c newline then [] :: pieces s'
      else match pieces s' with [] => [[c]] | l :: ls => (c :: l) :: ls end
  end.
Definition drop_last_empty (ls : list text) : list text :=
  match rev ls with [] :: r => rev r | _ => ls end.
Definition strip_cr (l : text) : text :=
  match rev l with c :: r => if Ascii.eqb c carriage_return then rev r else l | [] => l end.
Definition lines (s : text) : list text := map strip_cr (drop_last_empty (pieces s)).

(** array2d.rs:421-427: width and height of a cell *)
Definition cell_width (s : text) : nat := fold_left (fun w l => Nat.max w (length l)) (lines s) 1.
Definition cell_height (s : text) : nat := Nat.max (length (lines s)) 1.

(** array2d.rs:414-435: the entries of the vectors row_heights and col_widths
    after the loop over all cells, and any_multiline_cells *)
Definition row_height (xs : nat) (cell : nat -> nat -> text) (y : nat) : nat :=
  fold_left (fun h x => Nat.max h (cell_height (cell x y))) (seq 0 xs) 0.
Definition col_width (ys : nat) (cell : nat -> nat -> text) (x : nat) : nat :=
  fold_left (fun w y => Nat.max w (cell_width (cell x y))) (seq 0 ys) 0.
Definition any_multiline (xs ys : nat) (cell : nat -> nat -> text) : bool :=
  existsb (fun y => existsb (fun x => 1 <? cell_height (cell x y)) (seq 0 xs)) (seq 0 ys).

(** array2d.rs:436-445 write_separator_line *)
Definition separator (xs ys : nat) (cell : nat -> nat -> text) : text :=
  flat_map (fun x => list_ascii_of_string "+-" ++ repeat "-"%char (col_width ys cell x) ++ ["-"%char]) (seq 0 xs)
  ++ ["+"%char].

(** the format " {:width$} " of 466-471: a string is padded at its end, never cut *)
Definition padded (w : nat) (l : text) : text := blank :: l ++ repeat blank (w - length l) ++ [blank].

(** array2d.rs:457-479: line [r] of row [y].  The r-th call of next on the lines
    of a cell gives its r-th line, or nothing, replaced by "". *)
Definition row_line (alt : bool) (xs ys : nat) (cell : nat -> nat -> text) (y r : nat) : text :=
  (if alt then [] else ["["%char]) ++
  flat_map (fun x => (if alt then ["|"%char] else []) ++ padded (col_width ys cell x) (nth r (lines (cell x y)) [])) (seq 0 xs) ++
  (if alt then ["|"%char] else ["]"%char]).

(** array2d.rs:451-455 *)
Definition printed_height (alt : bool) (xs ys : nat) (cell : nat -> nat -> text) (y : nat) : nat :=
  row_height xs cell y +
  (if (negb alt && any_multiline xs ys cell && negb (y =? ys - 1))%bool then 1 else 0).

(** array2d.rs:456-481: the lines of a row; all but the last are followed by a
    newline *)
Definition write_rows (alt : bool) (xs ys : nat) (cell : nat -> nat -> text) (y : nat) : text :=
  let height := printed_height alt xs ys cell y in
  flat_map (fun r => row_line alt xs ys cell y r ++ (if r =? height - 1 then [] else [newline])) (seq 0 height).

(** array2d.rs:409-491 fmt.  [alt] is the flag "#"; [cell x y] is the text of
    the element at (x, y). *)
Definition table_fmt (alt : bool) (xs ys : nat) (cell : nat -> nat -> text) : text :=
  if ((xs =? 0) || (ys =? 0))%bool then
    list_ascii_of_string ("[x_size=" ++ show_usize xs ++ ", y_size=" ++ show_usize ys ++ "]")%string ++ [newline]
  else
    (if alt then separator xs ys cell ++ [newline] else []) ++
    flat_map (fun y =>
      write_rows alt xs ys cell y ++
      (if alt then newline :: separator xs ys cell else []) ++
      (if y =? ys - 1 then [] else [newline])) (seq 0 ys).
