(** Model of the shared constant cache (interval_arithmetic.rs:42-121), as an
    interleaving semantics of any number of threads.

    Simplifications:
    - [log2_denom_to_cache_index] (52-56) goes through f64 arithmetic; it is a
      parameter [idx] here, and the theorems assume it to be monotone.
    - a critical section (the body of read_cache, of write_cache) is one atomic
      step, which is what the RwLock provides; everything between two critical
      sections is local to the thread and is one further step.
    - [Arc] sharing is not modelled: the contents are immutable. *)
From Coq Require Import ZArith NArith List.
From Verif Require Import M_Base M_Interval.
Import ListNotations.

Section Cache.
Variable idx : N -> nat.                 (* log2_denom_to_cache_index *)
Variable compute : nat -> res dfi.       (* compute_fn *)

(** interval_arithmetic.rs:57-67 get_required_log2_denom_for_cache_index:
    [bits] iterations remain, the current bit is 2^(bits-1). *)
Fixpoint required_loop (bits : nat) (cache_index : nat) (retval : N) : N :=
  match bits with
  | O => retval
  | S b =>
      let bit := (2 ^ N.of_nat b)%N in
      required_loop b cache_index
        (if Nat.leb (idx (N.lor retval bit)) cache_index then N.lor retval bit else retval)
  end.
Definition required (cache_index : nat) : nat := N.to_nat (required_loop 64 cache_index 0).

(** interval_arithmetic.rs:94-107 fill_cache up to the write: the new vector
    and the value to return. *)
Definition fill (old_cache : list dfi) (cache_index : nat) : res (list dfi * dfi) :=
  (computed <- compute (required cache_index) ;;
   let new_cache := old_cache ++
     map (fun i => dfi_convert computed (required i))
         (seq (length old_cache) (cache_index - length old_cache)) in
   assert_then (Nat.leb (required cache_index) (dlog computed))
   (let retval := dfi_convert computed (required cache_index) in
    Ret (new_cache ++ [retval], retval)))%res.

(** Where a thread is inside [get] (109-120). *)
Inductive pc :=
| Idle
| Asked (n : nat)                                       (* get(n) called *)
| Missed (n : nat) (snapshot : list dfi)                (* read_cache returned Err *)
| Writing (n : nat) (new_cache : list dfi) (retval : dfi)  (* before write_cache *)
| Panicked.

(** The cache, the threads, and all results returned so far. *)
Record state := St { cache : list dfi; threads : list pc; results : list (nat * dfi) }.

Fixpoint set_nth {A} (l : list A) (t : nat) (x : A) : list A :=
  match l, t with
  | [], _ => []
  | _ :: l', O => x :: l'
  | y :: l', S t' => y :: set_nth l' t' x
  end.

(** One scheduler choice: thread [t] receives a new request, or makes its next step. *)
Inductive step (s : state) : state -> Prop :=
| step_call t n : nth_error (threads s) t = Some Idle -> (N.of_nat n < 2 ^ 64)%N ->
    step s (St (cache s) (set_nth (threads s) t (Asked n)) (results s))
| step_read_hit t n e : nth_error (threads s) t = Some (Asked n) ->
    nth_error (cache s) (idx (N.of_nat n)) = Some e ->
    step s (St (cache s) (set_nth (threads s) t Idle) ((n, dfi_convert e n) :: results s))
| step_read_miss t n : nth_error (threads s) t = Some (Asked n) ->
    nth_error (cache s) (idx (N.of_nat n)) = None ->
    step s (St (cache s) (set_nth (threads s) t (Missed n (cache s))) (results s))
| step_fill t n old new r : nth_error (threads s) t = Some (Missed n old) ->
    fill old (idx (N.of_nat n)) = Ret (new, r) ->
    step s (St (cache s) (set_nth (threads s) t (Writing n new r)) (results s))
| step_fill_panic t n old : nth_error (threads s) t = Some (Missed n old) ->
    is_ret (fill old (idx (N.of_nat n))) = false ->
    step s (St (cache s) (set_nth (threads s) t Panicked) (results s))
| step_write t n new r : nth_error (threads s) t = Some (Writing n new r) ->
    step s (St (if Nat.ltb (length (cache s)) (length new) then new else cache s)
               (set_nth (threads s) t Idle) ((n, dfi_convert r n) :: results s)).

Inductive reach (s0 : state) : state -> Prop :=
| reach_refl : reach s0 s0
| reach_step s s' : reach s0 s -> step s s' -> reach s0 s'.

(** ConstantCache::new and any number of idle threads. *)
Definition initial (k : nat) : state := St [] (repeat Idle k) [].
End Cache.
