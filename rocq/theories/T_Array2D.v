(** Theorems on two-dimensional arrays (C61, C67). *)
From Coq Require Import List Arith Lia.
From Verif Require Import M_Base M_Array2D S_Array2D P_Array2D P_Extras.
Import ListNotations.

(** C61: the positions of a grid are all of its positions, each once. *)
Theorem C61_grid : forall xs ys,
  NoDup (grid xs ys) /\
  forall x y, In (x, y) (grid xs ys) <-> x < xs /\ y < ys.
Proof. exact (fun xs ys => conj (grid_NoDup xs ys) (grid_In xs ys)). Qed.

(** C61: whatever the order of calls from the front and from the back, position
    iteration hands out the grid like a list consumed at both ends; the reported
    length and the last position are those of what is left. *)
Theorem C61_positions : forall xs ys ops,
  exists p, iter_run pos_next pos_next_back ops (pos_new xs ys) =
            Ret (fst (deque_run ops (grid xs ys)), p) /\
            pos_len p = Ret (length (snd (deque_run ops (grid xs ys)))) /\
            pos_last p = Ret (hd_error (rev (snd (deque_run ops (grid xs ys))))).
Proof. exact positions_run. Qed.

(** C61: the same of the elements, for iteration by reference and for owning or
    mutable iteration. *)
Theorem C61_elements : forall T (a : arr2 T) c ops,
  made a -> holds2 a (ax a) (ay a) c ->
  let items := map (fun p => (p, c (fst p) (snd p))) (grid (ax a) (ay a)) in
  (exists i, iter_run iter_next iter_next_back ops (iter_new a) =
             Ret (fst (deque_run ops items), i) /\
             pos_len (itp i) = Ret (length (snd (deque_run ops items)))) /\
  (exists i, iter_run oiter_next oiter_next_back ops (oiter_new a) =
             Ret (fst (deque_run ops items), i) /\
             pos_len (oip i) = Ret (length (snd (deque_run ops items)))).
Proof. exact (fun T => @iter_elements T). Qed.

(** C61: an index inside gives an element, an index outside is rejected. *)
Theorem C61_index : forall T (a : arr2 T) x y, made a ->
  (x < ax a /\ y < ay a -> exists v, index2 a x y = Ret v) /\
  (~ (x < ax a /\ y < ay a) -> index2 a x y = Panic).
Proof. exact (fun T => @index_rejects T). Qed.

(** C61: a vector of the right length becomes the array that lists it column
    after column, any other is rejected. *)
Theorem C61_from_array : forall T xs ys (d : list T),
  (forall c, length d = xs * ys ->
     (forall x y, x < xs -> y < ys -> nth_error d (x * ys + y) = Some (c x y)) ->
     exists a, from_array xs ys d = Ret a /\ holds2 a xs ys c) /\
  (length d <> xs * ys -> from_array xs ys d = Panic).
Proof.
exact (fun T xs ys d => conj (@from_array_holds T xs ys d) (from_array_panics xs ys d)).
Qed.

(** C61: the kinds of ranges select what they do for Rust slices. *)
Theorem C61_ranges : forall size a b lo hi,
  (selects (bound_range a b) size lo hi <-> lo = a /\ hi = b /\ a <= b <= size) /\
  (selects (bound_range_inc a b) size lo hi <-> lo = a /\ hi = b + 1 /\ a <= b + 1 <= size) /\
  (selects (bound_from a) size lo hi <-> lo = a /\ hi = size /\ a <= size) /\
  (selects (bound_to b) size lo hi <-> lo = 0 /\ hi = b /\ b <= size) /\
  (selects (bound_to_inc b) size lo hi <-> lo = 0 /\ hi = b + 1 /\ b < size) /\
  (selects (bound_at a) size lo hi <-> lo = a /\ hi = a + 1 /\ a < size) /\
  (selects bound_full size lo hi <-> lo = 0 /\ hi = size).
Proof. exact range_kinds. Qed.

(** C61: bounds outside the array are rejected. *)
Theorem C61_slice_rejects : forall T (a : arr2 T) xb yb,
  (forall x0 x1, ~ selects xb (ax a) x0 x1) \/
  (forall y0 y1, ~ selects yb (ay a) y0 y1) ->
  slice a xb yb = Panic /\ (forall f, slice_mut a xb yb f = Panic).
Proof. exact (fun T => @slice_panics T). Qed.

(** C61: bounds inside the array, starting at one of its columns or at its
    origin, give the selected part. *)
Theorem C61_slice_partial : forall T (a : arr2 T) c xb yb x0 x1 y0 y1, made a ->
  holds2 a (ax a) (ay a) c ->
  selects xb (ax a) x0 x1 -> selects yb (ay a) y0 y1 ->
  x0 < ax a \/ (x0 = 0 /\ y0 = 0) ->
  exists s, slice a xb yb = Ret s /\
    holds2 s (x1 - x0) (y1 - y0) (fun x y => c (x0 + x) (y0 + y)).
Proof. exact (fun T => @slice_holds T). Qed.

(** C61: for owned arrays this settles every selection inside the array. *)
Theorem C61_slice_owned_partial : forall T xs ys (d : list T) a c xb yb x0 x1 y0 y1,
  from_array xs ys d = Ret a -> holds2 a xs ys c ->
  selects xb xs x0 x1 -> selects yb ys y0 y1 ->
  (x0 < xs \/ y0 = 0 -> exists s, slice a xb yb = Ret s /\
     holds2 s (x1 - x0) (y1 - y0) (fun x y => c (x0 + x) (y0 + y))) /\
  (~ (x0 < xs \/ y0 = 0) -> slice a xb yb = Panic).
Proof. exact (fun T => @slice_owned T). Qed.

(** C61: bounds inside the array that select an empty part are not always
    accepted. *)
Theorem C61_slice_refuted :
  exists (a : arr2 nat) xb yb x0 x1 y0 y1, made a /\
    selects xb (ax a) x0 x1 /\ selects yb (ay a) y0 y1 /\
    slice a xb yb = Panic.
Proof. exact slice_empty_panics. Qed.

(** C61: an assignment changes the element at its index and no other. *)
Theorem C61_set : forall T (a : arr2 T) c x y v,
  made a -> holds2 a (ax a) (ay a) c ->
  (x < ax a /\ y < ay a -> exists a', set2 a x y v = Ret a' /\
     holds2 a' (ax a) (ay a) (upd2 c x y v)) /\
  (~ (x < ax a /\ y < ay a) -> set2 a x y v = Panic).
Proof. exact (fun T => @set2_holds T). Qed.

(** C61: an assignment through a mutable slice is an assignment to the
    corresponding element of the array, and cannot reach outside the slice. *)
Theorem C61_slice_mut : forall T (a : arr2 T) xb yb x0 x1 y0 y1 x y v, made a ->
  selects xb (ax a) x0 x1 -> selects yb (ay a) y0 y1 ->
  x0 < ax a \/ (x0 = 0 /\ y0 = 0) ->
  slice_mut a xb yb (fun s => set2 s x y v) =
  if andb (Nat.ltb x (x1 - x0)) (Nat.ltb y (y1 - y0))
  then set2 a (x0 + x) (y0 + y) v else Panic.
Proof. exact (fun T => @slice_mut_set T). Qed.

(** C61: swapping exchanges two elements and leaves the others. *)
Theorem C61_swap : forall T (a : arr2 T) c x1 y1 x2 y2, made a ->
  holds2 a (ax a) (ay a) c ->
  (x1 < ax a /\ y1 < ay a -> x2 < ax a /\ y2 < ay a ->
   exists a', swap_elements a x1 y1 x2 y2 = Ret a' /\
     holds2 a' (ax a) (ay a) (upd2 (upd2 c x1 y1 (c x2 y2)) x2 y2 (c x1 y1))) /\
  (~ ((x1 < ax a /\ y1 < ay a) /\ (x2 < ax a /\ y2 < ay a)) ->
   swap_elements a x1 y1 x2 y2 = Panic).
Proof. exact (fun T => @swap_holds T). Qed.

(** C61: the constructors fill every position; the closure of
    new_with_positions is called once per position, in column order. *)
Theorem C61_new : forall T xs ys,
  (forall v : T, exists a, new2 xs ys v = Ret a /\ holds2 a xs ys (fun _ _ => v)) /\
  (forall f : nat -> T, exists a, new_with xs ys f = Ret a /\
     holds2 a xs ys (fun x y => f (x * ys + y))) /\
  (forall f : nat -> nat -> nat -> T, exists a, new_with_positions xs ys f = Ret a /\
     holds2 a xs ys (fun x y => f (x * ys + y) x y)).
Proof.
exact (fun T xs ys => conj (@new2_ok T xs ys)
         (conj (@new_with_ok T xs ys) (@new_with_positions_ok T xs ys))).
Qed.

(** C61: an owned copy has the same elements, and exactly those. *)
Theorem C61_to_owned : forall T (a : arr2 T) c, made a -> holds2 a (ax a) (ay a) c ->
  exists o, to_owned a = Ret o /\ holds2 o (ax a) (ay a) c /\ ast o = ay o /\
    length (adata o) = ax o * ay o.
Proof. exact (fun T => @to_owned_ok T). Qed.

(** C67: owned arrays are equal exactly when they have the same size and the
    same elements. *)
Theorem C67_owned_partial : forall T (eqb : T -> T -> bool) xs ys d xs' ys' d' a b,
  (forall u v, eqb u v = true <-> u = v) ->
  from_array xs ys d = Ret a -> from_array xs' ys' d' = Ret b ->
  arr2_eqb eqb a b = true <->
  (xs = xs' /\ ys = ys' /\
   forall x y, x < xs -> y < ys -> index2 a x y = index2 b x y).
Proof. exact (fun T => @owned_eq T). Qed.

(** C67: any two arrays or slices that compare equal have the same size and the
    same elements. *)
Theorem C67_sound_partial : forall T (eqb : T -> T -> bool) (a b : arr2 T),
  (forall u v, eqb u v = true <-> u = v) -> arr2_eqb eqb a b = true ->
  ax a = ax b /\ ay a = ay b /\ forall x y, index2 a x y = index2 b x y.
Proof. exact (fun T => @eqb_same T). Qed.

(** C67: slices with the same size and elements need not be equal. *)
Theorem C67_slices_refuted :
  exists a b : arr2 nat, made a /\ made b /\
    (exists c, holds2 a 1 1 c /\ holds2 b 1 1 c) /\ arr2_eqb Nat.eqb a b = false.
Proof. exact slice_eq_differs. Qed.

(** A 2x3 array, its middle row as a slice, and that slice iterated from both
    ends. *)
Example C61_example :
  let a := Arr2 2 3 3 [10; 11; 12; 20; 21; 22] in
  from_array 2 3 [10; 11; 12; 20; 21; 22] = Ret a /\ made a /\
  holds2 a 2 3 (fun x y => 10 * (x + 1) + y) /\
  selects (bound_at 1) 3 1 2 /\ selects bound_full 2 0 2 /\
  slice a bound_full (bound_at 1) = Ret (Arr2 2 1 3 [11; 12; 20; 21; 22]) /\
  rmap fst (iter_run oiter_next oiter_next_back [NextBack; Next; Next]
              (oiter_new (Arr2 2 1 3 [11; 12; 20; 21; 22]))) =
  Ret [Some ((1, 0), 21); Some ((0, 0), 11); None].
Proof.
intros a. split; [reflexivity|]. split; [exact (made_from 2 3 [10; 11; 12; 20; 21; 22] a eq_refl)|].
split.
- split; [reflexivity|]. split; [reflexivity|]. split.
  + intros [|[|x]] [|[|[|y]]] Hx Hy; (reflexivity || lia).
  + intros x y H. exact (index2_out a x y H).
- split; [|split; [|split; reflexivity]]; unfold selects; cbn; repeat split; auto with arith.
Qed.

Print Assumptions C61_grid.
Print Assumptions C61_positions.
Print Assumptions C61_elements.
Print Assumptions C61_index.
Print Assumptions C61_from_array.
Print Assumptions C61_ranges.
Print Assumptions C61_slice_rejects.
Print Assumptions C61_slice_partial.
Print Assumptions C61_slice_owned_partial.
Print Assumptions C61_slice_refuted.
Print Assumptions C61_set.
Print Assumptions C61_slice_mut.
Print Assumptions C61_swap.
Print Assumptions C61_new.
Print Assumptions C61_to_owned.
Print Assumptions C67_owned_partial.
Print Assumptions C67_sound_partial.
Print Assumptions C67_slices_refuted.
