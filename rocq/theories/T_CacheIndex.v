(** C46, C85: the index into the cache of constants, computed with floating point. *)
From Coq Require Import ZArith NArith Reals List.
From Flocq Require Import Core BinarySingleNaN.
From Verif Require Import M_Base M_Interval M_IntervalExp M_Cache M_QuadF64 M_CacheIndex S_Interval S_CacheIndex.
From Verif Require Import P_Cache P_CacheIndex P_CacheLog.

(** C46: with a monotone log2 the index is always computed, without overflow, and is monotone. *)
Theorem C46_index_defined : forall flog2, monotone_log2 flog2 -> forall n, exists i, cache_index flog2 n = Some i.
Proof. exact index_some. Qed.
Print Assumptions C46_index_defined.

Theorem C46_index_monotone : forall flog2, monotone_log2 flog2 -> forall a b i j,
  (a <= b)%N -> cache_index flog2 a = Some i -> cache_index flog2 b = Some j -> (i <= j)%nat.
Proof. exact index_mono. Qed.
Print Assumptions C46_index_monotone.

(** C46: the schedules of the cache with this index. *)
Theorem C46_ln2_floating : forall flog2 idx, monotone_log2 flog2 -> (forall n, cache_index flog2 n = Some (idx n)) ->
  forall k s, reach idx ln2_compute (initial k) s ->
  (forall t, nth_error (threads s) t <> Some Panicked) /\
  (forall n r, In (n, r) (results s) -> ln2_ok n r).
Proof. exact (fun flog2 idx M I k s => cached_ln2_ok idx k s (idx_mono flog2 M idx I)). Qed.
Print Assumptions C46_ln2_floating.

Theorem C46_sqrt2_floating : forall flog2 idx, monotone_log2 flog2 -> (forall n, cache_index flog2 n = Some (idx n)) ->
  forall k s, reach idx sqrt_2_compute (initial k) s ->
  (forall t, nth_error (threads s) t <> Some Panicked) /\
  (forall n r, In (n, r) (results s) -> tightest r n (R_sqrt.sqrt 2) (R_sqrt.sqrt 2)).
Proof. exact (fun flog2 idx M I k s => cached_sqrt2_ok idx k s (idx_mono flog2 M idx I)). Qed.
Print Assumptions C46_sqrt2_floating.

(** C85: the precision at which a constant is computed, and the precision of every entry. *)
Theorem C85_computed : forall flog2 idx, monotone_log2 flog2 -> accurate_log2 flog2 ->
  (forall n, cache_index flog2 n = Some (idx n)) ->
  forall n, (N.of_nat n < 2 ^ 64)%N -> not_excessive n (required idx (idx (N.of_nat n))).
Proof. exact (fun flog2 idx M A I => required_ok flog2 M A idx I). Qed.
Print Assumptions C85_computed.

Theorem C85_stored : forall flog2 idx, monotone_log2 flog2 -> accurate_log2 flog2 ->
  (forall n, cache_index flog2 n = Some (idx n)) ->
  forall compute k s n e, (forall n, exists i, compute n = Ret i /\ (n <= dlog i)%nat) ->
  reach idx compute (initial k) s -> (N.of_nat n < 2 ^ 64)%N ->
  nth_error (cache s) (idx (N.of_nat n)) = Some e -> not_excessive n (dlog e).
Proof. exact (fun flog2 idx M A I => entries_ok flog2 M A idx I). Qed.
Print Assumptions C85_stored.

(** The logarithm rounded down to 42 binary places meets both assumptions. *)
Example C85_example_1 : monotone_log2 down_log2 /\ accurate_log2 down_log2.
Proof. exact (conj down_monotone down_accurate). Qed.
(** With the whole part of the logarithm: 3 * 9 - 3 * 5. *)
Example C85_example_2 : cache_index whole_log2 1000 = Some 12%nat /\ cache_index whole_log2 5 = Some 0%nat.
Proof. split; vm_compute; reflexivity. Qed.
Example C85_example_3 : not_excessive 1000 1023 /\ ~ not_excessive 1000 1290.
Proof. unfold not_excessive. Lia.lia. Qed.
