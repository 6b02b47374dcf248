(** Model of src/array2d.rs.

    usize is [nat]: additions and multiplications of sizes are taken not to
    overflow, a subtraction that would go below zero is a panic ([usub]).
    The three instances of Array2DBase (Vec<T>, &[T], &mut [T]) are one record;
    the stride, which Vec does not store, is a field in all of them and equals
    the column height for a Vec.  A mutable borrow is modelled by a function
    applied to the borrowed part, whose result is put back. *)
From Coq Require Import List Arith Bool.
From Verif Require Import M_Base.
Import ListNotations.
Open Scope res_scope.

Definition usub (a b : nat) : res nat :=
  if (b <=? a)%nat then Ret (a - b)%nat else Panic.

(** array2d.rs:153-158 Array2DBase *)
Record arr2 (T : Type) := Arr2 {
  ax : nat;          (* x_size *)
  ay : nat;          (* y_size *)
  ast : nat;         (* stride() *)
  adata : list T     (* data *)
}.
Arguments Arr2 {T}.
Arguments ax {T}.
Arguments ay {T}.
Arguments ast {T}.
Arguments adata {T}.

(** array2d.rs:166-168 get_index_unchecked *)
Definition get_index_unchecked (stride x y : nat) : nat := (x * stride + y)%nat.

(** std::ops::Bound<usize> *)
Inductive bnd := Unb | Exc (v : nat) | Inc (v : nat).

(** array2d.rs:170-213 Array2DSliceBound: usize, and the range types through
    start_bound/end_bound *)
Definition bound_at (v : nat) : bnd * bnd := (Inc v, Inc v).
Definition bound_full : bnd * bnd := (Unb, Unb).
Definition bound_range (a b : nat) : bnd * bnd := (Inc a, Exc b).
Definition bound_from (a : nat) : bnd * bnd := (Inc a, Unb).
Definition bound_to (b : nat) : bnd * bnd := (Unb, Exc b).
Definition bound_range_inc (a b : nat) : bnd * bnd := (Inc a, Inc b).
Definition bound_to_inc (b : nat) : bnd * bnd := (Unb, Inc b).

(** array2d.rs:217-225 from_array *)
Definition from_array {T} (xs ys : nat) (data : list T) : res (arr2 T) :=
  assert_then (Nat.eqb (xs * ys) (length data)) (Ret (Arr2 xs ys ys data)).

(** array2d.rs:238-242 get_index *)
Definition get_index {T} (a : arr2 T) (x y : nat) : res nat :=
  assert_then (x <? ax a)%nat
    (assert_then (y <? ay a)%nat
      (Ret (get_index_unchecked (ast a) x y))).

(** array2d.rs:248-267 start_and_end *)
Definition start_and_end (b : bnd * bnd) (size : nat) : res (nat * nat) :=
  let start := match fst b with Unb => 0 | Exc v => S v | Inc v => v end in
  let e := match snd b with Unb => size | Exc v => v | Inc v => S v end in
  assert_then (start <=? e)%nat
    (assert_then (e <=? size)%nat (Ret (start, e))).

(** array2d.rs:243-275 do_slice: (x_size, y_size, data_offset) *)
Definition do_slice {T} (a : arr2 T) (xb yb : bnd * bnd)
  : res (nat * nat * nat) :=
  xr <- start_and_end xb (ax a) ;;
  yr <- start_and_end yb (ay a) ;;
  w <- usub (snd xr) (fst xr) ;;
  h <- usub (snd yr) (fst yr) ;;
  Ret (w, h, get_index_unchecked (ast a) (fst xr) (fst yr)).

(** array2d.rs:276-292 slice; indexing a slice with offset.. panics when the
    offset exceeds the length *)
Definition slice {T} (a : arr2 T) (xb yb : bnd * bnd) : res (arr2 T) :=
  s <- do_slice a xb yb ;;
  let '(w, h, off) := s in
  assert_then (off <=? length (adata a))%nat
    (Ret (Arr2 w h (ast a) (skipn off (adata a)))).

(** array2d.rs:293-311 slice_mut: [f] is what the caller does to the mutable
    slice; it can change elements but not the number of them. *)
Definition slice_mut {T} (a : arr2 T) (xb yb : bnd * bnd)
    (f : arr2 T -> res (arr2 T)) : res (arr2 T) :=
  s <- do_slice a xb yb ;;
  let '(w, h, off) := s in
  assert_then (off <=? length (adata a))%nat
    (s' <- f (Arr2 w h (ast a) (skipn off (adata a))) ;;
     Ret (Arr2 (ax a) (ay a) (ast a) (firstn off (adata a) ++ adata s'))).

(** slice indexing &data[i] *)
Definition slice_get {T} (l : list T) (i : nat) : res T := unwrap (nth_error l i).

(** data[i] = v *)
Fixpoint list_set {T} (l : list T) (i : nat) (v : T) : list T :=
  match l, i with
  | [], _ => []
  | _ :: l', 0 => v :: l'
  | a :: l', S i' => a :: list_set l' i' v
  end.

Definition slice_set {T} (l : list T) (i : nat) (v : T) : res (list T) :=
  assert_then (i <? length l)%nat (Ret (list_set l i v)).

(** array2d.rs:390-396 Index *)
Definition index2 {T} (a : arr2 T) (x y : nat) : res T :=
  i <- get_index a x y ;;
  slice_get (adata a) i.

(** array2d.rs:398-405 IndexMut, used as a[(x, y)] = v *)
Definition set2 {T} (a : arr2 T) (x y : nat) (v : T) : res (arr2 T) :=
  i <- get_index a x y ;;
  d <- slice_set (adata a) i v ;;
  Ret (Arr2 (ax a) (ay a) (ast a) d).

(** array2d.rs:342-349 swap_elements; slice::swap(i, j) panics when an index
    is out of range *)
Definition swap_elements {T} (a : arr2 T) (x1 y1 x2 y2 : nat) : res (arr2 T) :=
  i1 <- get_index a x1 y1 ;;
  i2 <- get_index a x2 y2 ;;
  v1 <- slice_get (adata a) i1 ;;
  v2 <- slice_get (adata a) i2 ;;
  Ret (Arr2 (ax a) (ay a) (ast a) (list_set (list_set (adata a) i1 v2) i2 v1)).

(** * Iteration *)

(** array2d.rs:500-507 Positions *)
Record positions := Pos {
  px : nat; py : nat; pys : nat; prx : nat; pary : nat
}.

(** array2d.rs:509-519 Default for Positions *)
Definition pos_default : positions := Pos 0 0 0 0 0.

(** array2d.rs:522-534 Positions::new *)
Definition pos_new (xs ys : nat) : positions :=
  if (xs =? 0)%nat || (ys =? 0)%nat then pos_default
  else Pos 0 0 ys (xs - 1) ys.

(** array2d.rs:535-537 is_finished *)
Definition pos_finished (p : positions) : bool :=
  (px p =? prx p)%nat && (py p =? pary p)%nat.

(** array2d.rs:538-543 pos *)
Definition pos_pos (p : positions) : option (nat * nat) :=
  if pos_finished p then None else Some (px p, py p).

(** array2d.rs:544-549 rev_pos *)
Definition pos_rev_pos (p : positions) : res (option (nat * nat)) :=
  if pos_finished p then Ret None
  else y <- usub (pary p) 1 ;; Ret (Some (prx p, y)).

(** array2d.rs:554-562 next: the item and the new state *)
Definition pos_next (p : positions)
  : res (option (nat * nat) * positions) :=
  match pos_pos p with
  | None => Ret (None, p)
  | Some xy =>
      let y := S (py p) in
      if (y =? pys p)%nat && negb (prx p =? px p)%nat
      then Ret (Some xy, Pos (S (px p)) 0 (pys p) (prx p) (pary p))
      else Ret (Some xy, Pos (px p) y (pys p) (prx p) (pary p))
  end.

(** array2d.rs:576-586 next_back *)
Definition pos_next_back (p : positions)
  : res (option (nat * nat) * positions) :=
  o <- pos_rev_pos p ;;
  match o with
  | None => Ret (None, p)
  | Some xy =>
      y <- usub (pary p) 1 ;;
      if (y =? 0)%nat && negb (prx p =? px p)%nat
      then rx <- usub (prx p) 1 ;;
           Ret (Some xy, Pos (px p) (py p) (pys p) rx (pys p))
      else Ret (Some xy, Pos (px p) (py p) (pys p) (prx p) y)
  end.

(** array2d.rs:588-592 len; also size_hint (563-566) and count (567-569) *)
Definition pos_len (p : positions) : res nat :=
  w <- usub (prx p) (px p) ;;
  usub (pys p * w + pary p) (py p).

(** array2d.rs:570-572 last *)
Definition pos_last (p : positions) : res (option (nat * nat)) :=
  rmap fst (pos_next_back p).

(** A call on a double ended iterator. *)
Inductive iop := Next | NextBack.

(** A sequence of calls on an iterator with the given next and next_back: the
    items returned, in call order, and the final state. *)
Fixpoint iter_run {S A} (nx nb : S -> res (option A * S)) (ops : list iop)
    (s : S) : res (list (option A) * S) :=
  match ops with
  | [] => Ret ([], s)
  | o :: ops' =>
      r <- (match o with Next => nx s | NextBack => nb s end) ;;
      rs <- iter_run nx nb ops' (snd r) ;;
      Ret (fst r :: fst rs, snd rs)
  end.

(** Iterator::collect on an iterator: next until None. *)
Fixpoint iter_collect {S A} (nx : S -> res (option A * S)) (fuel : nat) (s : S)
  : res (list A) :=
  match fuel with
  | 0 => NoFuel
  | Datatypes.S fuel' =>
      r <- nx s ;;
      match fst r with
      | None => Ret []
      | Some a => rmap (cons a) (iter_collect nx fuel' (snd r))
      end
  end.

(** array2d.rs:687-692 Iter *)
Record iter2 (T : Type) := Iter2 {
  itp : positions; its : nat; itd : list T
}.
Arguments Iter2 {T}.
Arguments itp {T}.
Arguments its {T}.
Arguments itd {T}.

(** array2d.rs:315-321 iter; also into_iter of &[T] (68-74) *)
Definition iter_new {T} (a : arr2 T) : iter2 T :=
  Iter2 (pos_new (ax a) (ay a)) (ast a) (adata a).

(** array2d.rs:710-715 get_unchecked, get_unchecked_back of Iter; the same of
    IterWithPositions (652-657) with the position beside the element *)
Definition iter_get {T} (i : iter2 T) (x y : nat) : res T :=
  slice_get (itd i) (get_index_unchecked (its i) x y).

(** array2d.rs:598-601 (impl_positions_wrapper) next of Iter; [k] is what the
    wrapper pairs with the element: nothing in Iter, the position in
    IterWithPositions *)
Definition iter_next {T} (i : iter2 T)
  : res (option ((nat * nat) * T) * iter2 T) :=
  r <- pos_next (itp i) ;;
  match fst r with
  | None => Ret (None, i)
  | Some (x, y) =>
      v <- iter_get i x y ;;
      Ret (Some ((x, y), v), Iter2 (snd r) (its i) (itd i))
  end.

(** array2d.rs:613-618 next_back of Iter *)
Definition iter_next_back {T} (i : iter2 T)
  : res (option ((nat * nat) * T) * iter2 T) :=
  r <- pos_next_back (itp i) ;;
  match fst r with
  | None => Ret (None, i)
  | Some (x, y) =>
      v <- iter_get i x y ;;
      Ret (Some ((x, y), v), Iter2 (snd r) (its i) (itd i))
  end.

(** array2d.rs:719-725 IterOwnedData, together with the positions of IterMut
    (741-745) and IntoIter (797-801).  The inner slice::IterMut or
    vec::IntoIter is the list of items it has not yet given out. *)
Record oiter (T : Type) := OIter {
  oip : positions; ois : nat; oio : nat; oil : list T
}.
Arguments OIter {T}.
Arguments oip {T}.
Arguments ois {T}.
Arguments oio {T}.
Arguments oil {T}.

(** array2d.rs:322-334 iter_mut; also into_iter of Vec (46-55) and of &mut [T]
    (88-97) *)
Definition oiter_new {T} (a : arr2 T) : oiter T :=
  OIter (pos_new (ax a) (ay a)) (ast a) 0 (adata a).

(** Iterator::nth(n): drops n items and gives out the next. *)
Definition list_nth {T} (l : list T) (n : nat) : option (T * list T) :=
  match skipn n l with [] => None | v :: r => Some (v, r) end.

(** DoubleEndedIterator::nth_back(n) *)
Definition list_nth_back {T} (l : list T) (n : nat) : option (T * list T) :=
  match skipn n (rev l) with [] => None | v :: r => Some (v, rev r) end.

(** array2d.rs:728-732 IterOwnedData::get_unchecked *)
Definition oiter_get {T} (i : oiter T) (x y : nat)
  : res (T * nat * list T) :=
  index <- usub (get_index_unchecked (ois i) x y) (oio i) ;;
  r <- unwrap (list_nth (oil i) index) ;;
  Ret (fst r, oio i + (index + 1), snd r)%nat.

(** array2d.rs:733-738 IterOwnedData::get_unchecked_back (dbg! only prints) *)
Definition oiter_get_back {T} (i : oiter T) (x y : nat) : res (T * list T) :=
  index <- usub (get_index_unchecked (ois i) x y) (oio i) ;;
  n <- usub (length (oil i)) index ;;
  n <- usub n 1 ;;
  unwrap (list_nth_back (oil i) n).

(** array2d.rs:598-601 next of IterMut and IntoIter *)
Definition oiter_next {T} (i : oiter T)
  : res (option ((nat * nat) * T) * oiter T) :=
  r <- pos_next (oip i) ;;
  match fst r with
  | None => Ret (None, i)
  | Some (x, y) =>
      v <- oiter_get i x y ;;
      let '(v, off, rest) := v in
      Ret (Some ((x, y), v), OIter (snd r) (ois i) off rest)
  end.

(** array2d.rs:613-618 next_back of IterMut and IntoIter *)
Definition oiter_next_back {T} (i : oiter T)
  : res (option ((nat * nat) * T) * oiter T) :=
  r <- pos_next_back (oip i) ;;
  match fst r with
  | None => Ret (None, i)
  | Some (x, y) =>
      v <- oiter_get_back i x y ;;
      Ret (Some ((x, y), fst v), OIter (snd r) (ois i) (oio i) (snd v))
  end.

(** * Construction *)

(** array2d.rs:335-340 to_owned *)
Definition to_owned {T} (a : arr2 T) : res (arr2 T) :=
  l <- iter_collect iter_next (S (ax a * ay a)) (iter_new a) ;;
  from_array (ax a) (ay a) (map snd l).

(** array2d.rs:353-366 new_with_positions: [f k x y] is what the closure
    returns on its [k]-th call (counted from 0) with these arguments. *)
Definition new_with_positions {T} (xs ys : nat) (f : nat -> nat -> nat -> T)
  : res (arr2 T) :=
  l <- iter_collect pos_next (S (xs * ys)) (pos_new xs ys) ;;
  from_array xs ys
    (map (fun kp => f (fst kp) (fst (snd kp)) (snd (snd kp)))
         (combine (seq 0 (length l)) l)).

(** array2d.rs:367-372 new_with *)
Definition new_with {T} (xs ys : nat) (f : nat -> T) : res (arr2 T) :=
  from_array xs ys (map f (seq 0 (xs * ys))).

(** array2d.rs:373-381 new *)
Definition new2 {T} (xs ys : nat) (v : T) : res (arr2 T) :=
  from_array xs ys (repeat v (xs * ys)).

(** array2d.rs:152 derived PartialEq: the fields in turn *)
Fixpoint list_eqb {T} (eqb : T -> T -> bool) (l1 l2 : list T) : bool :=
  match l1, l2 with
  | [], [] => true
  | a :: l1', b :: l2' => eqb a b && list_eqb eqb l1' l2'
  | _, _ => false
  end.

Definition arr2_eqb {T} (eqb : T -> T -> bool) (a b : arr2 T) : bool :=
  (ax a =? ax b)%nat && (ay a =? ay b)%nat && (ast a =? ast b)%nat &&
  list_eqb eqb (adata a) (adata b).
