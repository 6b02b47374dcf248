(** What a two-dimensional array is expected to do, independently of how it is
    stored and iterated. *)
From Coq Require Import List Arith.
From Verif Require Import M_Base M_Array2D.
Import ListNotations.

(** All positions of a grid, column after column. *)
Definition grid (xs ys : nat) : list (nat * nat) :=
  flat_map (fun x => map (fun y => (x, y)) (seq 0 ys)) (seq 0 xs).

(** The ideal double ended iterator: a list consumed from both ends.  The
    answers to a sequence of calls, and what is left. *)
Fixpoint deque_run {A} (ops : list iop) (l : list A)
  : list (option A) * list A :=
  match ops with
  | [] => ([], l)
  | Next :: ops' =>
      match l with
      | [] => let r := deque_run ops' [] in (None :: fst r, snd r)
      | a :: l' => let r := deque_run ops' l' in (Some a :: fst r, snd r)
      end
  | NextBack :: ops' =>
      match rev l with
      | [] => let r := deque_run ops' [] in (None :: fst r, snd r)
      | a :: l' => let r := deque_run ops' (rev l') in (Some a :: fst r, snd r)
      end
  end.

(** A bound pair selects the indices from [lo] (included) to [hi] (excluded)
    of [0 .. size). *)
Definition selects (b : bnd * bnd) (size lo hi : nat) : Prop :=
  (lo = match fst b with Unb => 0 | Inc v => v | Exc v => v + 1 end) /\
  (hi = match snd b with Unb => size | Inc v => v + 1 | Exc v => v end) /\
  lo <= hi <= size.

(** The array has this size and these elements, and nothing else can be
    read. *)
Definition holds2 {T} (a : arr2 T) (xs ys : nat) (c : nat -> nat -> T) : Prop :=
  ax a = xs /\ ay a = ys /\
  (forall x y, x < xs -> y < ys -> index2 a x y = Ret (c x y)) /\
  (forall x y, ~ (x < xs /\ y < ys) -> index2 a x y = Panic).

(** The function [c] with the value at one position replaced. *)
Definition upd2 {T} (c : nat -> nat -> T) (x0 y0 : nat) (v : T)
  : nat -> nat -> T :=
  fun x y => if andb (Nat.eqb x x0) (Nat.eqb y y0) then v else c x y.

(** The arrays a program can get hold of: made from a vector, by slicing, by
    assignment through an index, by exchanging two elements, and by assignment
    through a mutable slice. *)
Inductive made {T} : arr2 T -> Prop :=
| made_from xs ys d a : from_array xs ys d = Ret a -> made a
| made_slice a xb yb s : made a -> slice a xb yb = Ret s -> made s
| made_set a x y v a' : made a -> set2 a x y v = Ret a' -> made a'
| made_swap a x1 y1 x2 y2 a' :
    made a -> swap_elements a x1 y1 x2 y2 = Ret a' -> made a'
| made_slice_mut a xb yb x y v a' :
    made a -> slice_mut a xb yb (fun s => set2 s x y v) = Ret a' -> made a'.
