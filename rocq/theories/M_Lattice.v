(** Model of src/lattice.rs with T = BigInt.

    Ratio<BigInt> is [Q] kept in lowest terms.  Loops over a range of indices
    are folds; the main loop of the reduction takes fuel. *)
From Coq Require Import ZArith QArith Qround Qabs List Bool Arith.
From Verif Require Import M_Base M_Traits M_IntervalExp M_Array2D.
Import ListNotations.
Open Scope res_scope.

(** num_rational arithmetic: results in lowest terms *)
Definition r_add (a b : Q) : Q := Qred (a + b).
Definition r_sub (a b : Q) : Q := Qred (a - b).
Definition r_mul (a b : Q) : Q := Qred (a * b).
Definition r_mul_int (a : Q) (b : Z) : Q := Qred (a * inject_Z b).

(** lattice.rs:16-32 inner_product.  The two iterators are zipped: their items
    are collected here first, which does not change the items. *)
Definition inner_product {L R T} (add : T -> T -> T) (mul : L -> R -> T) (zero : T)
    (a : arr2 L) (b : arr2 R) : res T :=
  assert_then (Nat.eqb (ax a) (ax b) && Nat.eqb (ay a) (ay b))
   (la <- iter_collect iter_next (S (ax a * ay a)) (iter_new a) ;;
    lb <- iter_collect iter_next (S (ax b * ay b)) (iter_new b) ;;
    match fold_left (fun retval ab =>
            let product := mul (snd (fst ab)) (snd (snd ab)) in
            match retval with
            | None => Some product
            | Some v => Some (add v product)
            end) (combine la lb) None with
    | Some v => Ret v
    | None => Ret zero
    end).

(** the two instances used: rationals with rationals, rationals with integers *)
Definition inner_qq : arr2 Q -> arr2 Q -> res Q := inner_product r_add r_mul 0%Q.
Definition inner_qz : arr2 Q -> arr2 Z -> res Q := inner_product r_add r_mul_int 0%Q.

Definition r_is_zero (q : Q) : bool := Z.eqb (Qnum q) 0.

(** lattice.rs:40-43 *)
Definition copy_column (input : arr2 Z) (column : nat) (basis : arr2 Q)
  : res (arr2 Q) :=
  rfold (fun basis y =>
    v <- index2 input column y ;;
    set2 basis column y (inject_Z v)) (seq 0 (ay basis)) basis.

(** lattice.rs:52-55 *)
Definition sub_column (column j : nat) (factor : Q) (basis : arr2 Q)
  : res (arr2 Q) :=
  rfold (fun basis y =>
    b <- index2 basis j y ;;
    let v := r_mul b factor in
    c <- index2 basis column y ;;
    set2 basis column y (r_sub c v)) (seq 0 (ay basis)) basis.

(** lattice.rs:34-57 gram_schmidt_calculate_column *)
Definition gram_schmidt_calculate_column (input : arr2 Z) (basis : arr2 Q)
    (column : nat) : res (arr2 Q) :=
  assert_then (Nat.eqb (ax input) (ax basis) && Nat.eqb (ay input) (ay basis))
  (assert_then (Nat.ltb column (ax basis))
    (basis <- copy_column input column basis ;;
     rfold (fun basis j =>
       bc <- slice basis (bound_at column) bound_full ;;
       ij <- slice input (bound_at j) bound_full ;;
       n <- inner_qz bc ij ;;
       bj <- slice basis (bound_at j) bound_full ;;
       d <- inner_qq bj bj ;;
       if r_is_zero d then
         assert_then (r_is_zero n) (Ret basis)
       else
         factor <- ratio_div n d ;;
         sub_column column j factor basis) (seq 0 column) basis)).

(** lattice.rs:59-68 gram_schmidt *)
Definition gram_schmidt (input : arr2 Z) : res (arr2 Q) :=
  basis <- new_with (ax input) (ay input) (fun _ => 0%Q) ;;
  rfold (gram_schmidt_calculate_column input) (seq 0 (ax basis)) basis.

(** lattice.rs:70-74 LLLState *)
Record lll := LLL { lb : arr2 Z; lo : arr2 Q; lv : nat }.

(** lattice.rs:80-86 new *)
Definition lll_new (basis : arr2 Z) : res lll :=
  o <- new_with (ax basis) (ay basis) (fun _ => 0%Q) ;;
  Ret (LLL basis o 0).

(** lattice.rs:87-90 invalidate_column *)
Definition invalidate_column (s : lll) (column : nat) : lll :=
  LLL (lb s) (lo s) (Nat.min (lv s) column).

(** lattice.rs:91-100 calculate_column: the loop runs until the valid range,
    which grows by one each time, contains the column *)
Definition calculate_column (s : lll) (column : nat) : res lll :=
  rfold (fun s _ =>
    b <- slice (lb s) bound_full bound_full ;;
    o <- gram_schmidt_calculate_column b (lo s) (lv s) ;;
    Ret (LLL (lb s) o (lv s + 1))) (seq 0 (S column - lv s)) s.

(** lattice.rs:101-108 mu *)
Definition lll_mu (s : lll) (i j : nat) : res (Q * lll) :=
  s <- calculate_column s j ;;
  oj <- slice (lo s) (bound_at j) bound_full ;;
  bi <- slice (lb s) (bound_at i) bound_full ;;
  n <- inner_qz oj bi ;;
  d <- inner_qq oj oj ;;
  m <- ratio_div n d ;;
  Ret (m, s).

(** lattice.rs:124-133 the nearest integer, ties to even *)
Definition lll_round (m : Q) : Z :=
  let r := Qfloor m in
  match Qcompare (r_sub m (inject_Z r)) (1 # 2) with
  | Eq => if Z.odd r then (r + 1)%Z else r
  | Gt => (r + 1)%Z
  | Lt => r
  end.

(** lattice.rs:135-138 *)
Definition sub_basis_column (k j : nat) (r : Z) (b : arr2 Z) : res (arr2 Z) :=
  rfold (fun b y =>
    bj <- index2 b j y ;;
    let v := (bj * r)%Z in
    bk <- index2 b k y ;;
    set2 b k y (bk - v)%Z) (seq 0 (ay b)) b.

(** lattice.rs:121-140 one round of the size reduction of column k *)
Definition size_reduce_step (k : nat) (s : lll) (j : nat) : res lll :=
  ms <- lll_mu s k j ;;
  let '(m, s) := ms in
  if negb (Qle_bool (Qabs m) (1 # 2)) then
    let r := lll_round m in
    let s := invalidate_column s k in
    b <- sub_basis_column k j r (lb s) ;;
    Ret (LLL b (lo s) (lv s))
  else Ret s.

(** lattice.rs:158-160 *)
Definition swap_columns (k k' : nat) (b : arr2 Z) : res (arr2 Z) :=
  rfold (fun b y => swap_elements b k y k' y) (seq 0 (ay b)) b.

(** lattice.rs:120-163 one pass of the main loop: the new state and the new k *)
Definition lll_step (delta : Q) (s : lll) (k : nat) : res (lll * nat) :=
  s <- rfold (size_reduce_step k) (rev (seq 0 k)) s ;;
  ms <- lll_mu s k (k - 1) ;;
  let '(m, s) := ms in
  s <- calculate_column s (k - 1) ;;
  o1 <- slice (lo s) (bound_at (k - 1)) bound_full ;;
  km1 <- inner_qq o1 o1 ;;
  s <- calculate_column s k ;;
  o2 <- slice (lo s) (bound_at k) bound_full ;;
  kk <- inner_qq o2 o2 ;;
  if Qle_bool (r_mul (r_sub delta (r_mul m m)) km1) kk then Ret (s, k + 1)%nat
  else
    let s := invalidate_column s k in
    let s := invalidate_column s (k - 1) in
    b <- swap_columns k (k - 1) (lb s) ;;
    Ret (LLL b (lo s) (lv s), Nat.max 1 (k - 1)).

(** lattice.rs:118-163 the main loop *)
Fixpoint lll_loop (fuel : nat) (delta : Q) (s : lll) (k : nat) : res lll :=
  match fuel with
  | O => NoFuel
  | S fuel' =>
      if Nat.ltb k (ax (lb s)) then
        sk <- lll_step delta s k ;;
        lll_loop fuel' delta (fst sk) (snd sk)
      else Ret s
  end.

(** lattice.rs:111-165 lll_reduce_with_delta *)
Definition lll_reduce_with_delta (fuel : nat) (basis : arr2 Z) (delta : Q)
  : res (arr2 Z) :=
  s <- lll_new basis ;;
  s <- lll_loop fuel delta s 1 ;;
  Ret (lb s).

(** lattice.rs:167-178 lll_reduce *)
Definition lll_reduce (fuel : nat) (basis : arr2 Z) : res (arr2 Z) :=
  d <- ratio_new 3 4 ;;
  lll_reduce_with_delta fuel basis d.
