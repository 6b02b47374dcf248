(** Property theorems C36-C46: dyadic interval arithmetic.  [inI x i] says the
    real x lies in interval i; [tightest i k a b] that i is the smallest interval
    with denominator 2^k containing [a,b] (see S_Interval). *)
From Coq Require Import ZArith NArith QArith Qreals Reals Lra Lia List.
From Verif Require Import M_Base M_Traits M_Interval M_IntervalExp M_Cache S_Interval.
From Verif Require Import P_Interval P_IntervalTight P_IntervalPow P_IntervalAgm P_IntervalLog P_IntervalExp P_Cache P_IntervalMore P_ExpRef P_Extras P_IntervalDiv.
Local Open Scope R_scope.

(** ** C36 constructors *)
Theorem C36_from_ratio : forall q n, tightest (dfi_from_ratio q n) n (Q2R q) (Q2R q).
Proof. exact dfi_from_ratio_ok. Qed.
Print Assumptions C36_from_ratio.

Theorem C36_from_ratio_range : forall l u n,
  if Qle_bool l u then exists i, dfi_from_ratio_range l u n = Ret i /\ tightest i n (Q2R l) (Q2R u)
  else dfi_from_ratio_range l u n = Panic.
Proof. exact dfi_from_ratio_range_ok. Qed.
Print Assumptions C36_from_ratio_range.

Theorem C36_from_int : forall v n, dlog (dfi_from_int v n) = n /\ forall x, inI x (dfi_from_int v n) <-> x = IZR v.
Proof. exact dfi_from_int_exact. Qed.
Print Assumptions C36_from_int.

Theorem C36_from_int_range : forall l u n,
  if (l <=? u)%Z then exists i, dfi_from_int_range l u n = Ret i /\ dlog i = n /\
     dyadic (dlo i) n = IZR l /\ dyadic (dhi i) n = IZR u
  else dfi_from_int_range l u n = Panic.
Proof. exact dfi_from_int_range_ok. Qed.
Print Assumptions C36_from_int_range.

Theorem C36_convert : forall i n,
  tightest (dfi_convert i n) n (dyadic (dlo i) (dlog i)) (dyadic (dhi i) (dlog i)).
Proof. exact dfi_convert_ok. Qed.
Print Assumptions C36_convert.

Theorem C36_convert_up_exact : forall i n, (dlog i <= n)%nat ->
  dyadic (dlo (dfi_convert i n)) n = dyadic (dlo i) (dlog i) /\
  dyadic (dhi (dfi_convert i n)) n = dyadic (dhi i) (dlog i).
Proof. exact dfi_convert_up_exact. Qed.
Print Assumptions C36_convert_up_exact.

Theorem C36_constants : forall n i x,
  (inI x (dfi_zero n) <-> x = 0) /\ (inI x (dfi_one n) <-> x = 1) /\
  (inI x (dfi_negative_one n) <-> x = -1) /\
  (inI x (dfi_set_zero i) <-> x = 0) /\ (inI x (dfi_set_one i) <-> x = 1) /\
  (inI x (dfi_set_negative_one i) <-> x = -1).
Proof. exact dfi_constants_ok. Qed.
Print Assumptions C36_constants.

Theorem C36_bounds : forall i,
  Q2R (dfi_lower_bound i) = dyadic (dlo i) (dlog i) /\ Q2R (dfi_upper_bound i) = dyadic (dhi i) (dlog i).
Proof. exact dfi_bounds_ok. Qed.
Print Assumptions C36_bounds.

Theorem C36_new : forall l u n,
  (exists i, dfi_new l u n = Ret i /\ dfi_ok i /\ dlo i = l /\ dhi i = u /\ dlog i = n) \/
  (dfi_new l u n = Panic /\ (u < l)%Z).
Proof. exact dfi_new_ok. Qed.
Print Assumptions C36_new.

Example C36_example : dfi_from_ratio (-1 # 3) 2 = DFI (-2) (-1) 2 /\ dfi_convert (DFI (-5) 5 2) 0 = DFI (-2) 2 0 /\
  dfi_from_ratio_range (1 # 3) (1 # 5) 4 = Panic.
Proof. repeat split. Qed.

(** ** C37 addition, subtraction, negation *)
Theorem C37_add_sub : forall a b,
  (dlog (dfi_add a b) = Nat.max (dlog a) (dlog b) /\
   dyadic (dlo (dfi_add a b)) (dlog (dfi_add a b)) = dyadic (dlo a) (dlog a) + dyadic (dlo b) (dlog b) /\
   dyadic (dhi (dfi_add a b)) (dlog (dfi_add a b)) = dyadic (dhi a) (dlog a) + dyadic (dhi b) (dlog b)) /\
  (dlog (dfi_sub a b) = Nat.max (dlog a) (dlog b) /\
   dyadic (dlo (dfi_sub a b)) (dlog (dfi_sub a b)) = dyadic (dlo a) (dlog a) - dyadic (dhi b) (dlog b) /\
   dyadic (dhi (dfi_sub a b)) (dlog (dfi_sub a b)) = dyadic (dhi a) (dlog a) - dyadic (dlo b) (dlog b)).
Proof. exact dfi_add_sub_exact. Qed.
Print Assumptions C37_add_sub.

Theorem C37_enclosure : forall a b x y, inI x a -> inI y b ->
  inI (x + y) (dfi_add a b) /\ inI (x - y) (dfi_sub a b) /\ inI (- x) (dfi_neg a).
Proof. exact dfi_add_sub_neg_in. Qed.
Print Assumptions C37_enclosure.

Theorem C37_neg_exact : forall a x, inI x a <-> inI (- x) (dfi_neg a).
Proof. exact dfi_neg_in. Qed.
Print Assumptions C37_neg_exact.

Theorem C37_int_scalars_exact : forall a r x,
  (inI x a <-> inI (x + IZR r) (dfi_add_int a r)) /\ (inI x a <-> inI (x - IZR r) (dfi_sub_int a r)).
Proof. exact dfi_add_sub_int_in. Qed.
Print Assumptions C37_int_scalars_exact.

Theorem C37_ratio_scalars : forall a r x, inI x a ->
  inI (x + Q2R r) (dfi_add_ratio a r) /\ inI (x - Q2R r) (dfi_sub_ratio a r).
Proof. exact dfi_add_sub_ratio_in. Qed.
Print Assumptions C37_ratio_scalars.

(** Rational scalars cost at most one unit on either side. *)
Theorem C37_ratio_scalars_tight : forall a r,
  tightest (dfi_add_ratio a r) (dlog a) (dyadic (dlo a) (dlog a) + Q2R r) (dyadic (dhi a) (dlog a) + Q2R r) /\
  tightest (dfi_sub_ratio a r) (dlog a) (dyadic (dlo a) (dlog a) - Q2R r) (dyadic (dhi a) (dlog a) - Q2R r).
Proof. exact dfi_add_sub_ratio_tight. Qed.
Print Assumptions C37_ratio_scalars_tight.

Example C37_example : dfi_sub (DFI 1 3 1) (DFI (-1) 2 2) = DFI 0 7 2 /\ dfi_add_ratio (DFI 1 3 1) (1 # 3) = DFI 1 4 1.
Proof. repeat split. Qed.

(** ** C38 multiplication and square *)
Theorem C38_mul : forall a b x y, inI x a -> inI y b -> inI (x * y) (dfi_mul a b).
Proof. exact dfi_mul_in. Qed.
Print Assumptions C38_mul.

Theorem C38_mul_tight : forall a b,
  let al := dyadic (dlo a) (dlog a) in let ah := dyadic (dhi a) (dlog a) in
  let bl := dyadic (dlo b) (dlog b) in let bh := dyadic (dhi b) (dlog b) in
  tightest (dfi_mul a b) (Nat.max (dlog a) (dlog b))
    (Rmin4 (al * bl) (al * bh) (ah * bl) (ah * bh)) (Rmax4 (al * bl) (al * bh) (ah * bl) (ah * bh)).
Proof. exact dfi_mul_tight. Qed.
Print Assumptions C38_mul_tight.

Theorem C38_square : forall a x, inI x a -> inI (x * x) (dfi_square a).
Proof. exact dfi_square_in. Qed.
Print Assumptions C38_square.

Theorem C38_square_tight : forall i, dfi_ok i ->
  let l := dyadic (dlo i) (dlog i) in let h := dyadic (dhi i) (dlog i) in
  tightest (dfi_square i) (dlog i) (if dfi_contains_zero i then 0 else Rmin (l * l) (h * h)) (Rmax (l * l) (h * h)).
Proof. exact dfi_square_tight. Qed.
Print Assumptions C38_square_tight.

Theorem C38_scalars : forall a r q x, inI x a ->
  inI (x * IZR r) (dfi_mul_int a r) /\ inI (x * Q2R q) (dfi_mul_ratio a q).
Proof. exact dfi_mul_scalars_in. Qed.
Print Assumptions C38_scalars.

Theorem C38_ratio_tight : forall a r, dfi_ok a ->
  let al := dyadic (dlo a) (dlog a) in let ah := dyadic (dhi a) (dlog a) in
  tightest (dfi_mul_ratio a r) (dlog a) (Rmin (al * Q2R r) (ah * Q2R r)) (Rmax (al * Q2R r) (ah * Q2R r)).
Proof. exact dfi_mul_ratio_tight. Qed.
Print Assumptions C38_ratio_tight.
Theorem C38_int_exact : forall a r, dfi_ok a ->
  let al := dyadic (dlo a) (dlog a) in let ah := dyadic (dhi a) (dlog a) in
  dlog (dfi_mul_int a r) = dlog a /\
  dyadic (dlo (dfi_mul_int a r)) (dlog a) = Rmin (al * IZR r) (ah * IZR r) /\
  dyadic (dhi (dfi_mul_int a r)) (dlog a) = Rmax (al * IZR r) (ah * IZR r).
Proof. exact dfi_mul_int_exact. Qed.
Print Assumptions C38_int_exact.

Example C38_example : dfi_mul (DFI (-3) 5 2) (DFI (-1) 3 1) = DFI (-5) 8 2 /\ dfi_square (DFI (-3) 1 1) = DFI 0 5 1 /\
  dfi_square (DFI (-3) (-2) 1) = DFI 2 5 1.
Proof. repeat split. Qed.

(** ** C39 reciprocal and division *)
Theorem C39_div : forall a b, dfi_ok b ->
  (inI 0 b -> dfi_checked_recip b = None /\ dfi_recip b = Panic /\
              dfi_checked_div a b = None /\ dfi_div a b = Panic) /\
  (~ inI 0 b -> exists r q, dfi_checked_recip b = Some r /\ dfi_recip b = Ret r /\
       dfi_checked_div a b = Some q /\ dfi_div a b = Ret q /\
       forall x y, inI x a -> inI y b -> inI (/ y) r /\ inI (x / y) q).
Proof. exact dfi_div_ok. Qed.
Print Assumptions C39_div.

Theorem C39_recip_tight : forall i r, dfi_checked_recip i = Some r ->
  tightest r (dlog i) (/ dyadic (dhi i) (dlog i)) (/ dyadic (dlo i) (dlog i)).
Proof. exact dfi_recip_tight. Qed.
Print Assumptions C39_recip_tight.

Theorem C39_scalars : forall a,
  (forall r, (r = 0%Z -> dfi_div_int a r = Panic) /\
     (r <> 0%Z -> exists q, dfi_div_int a r = Ret q /\ dlog q = dlog a /\ forall x, inI x a -> inI (x / IZR r) q)) /\
  (forall r, (Q2R r = 0 -> dfi_div_ratio a r = Panic) /\
     (Q2R r <> 0 -> exists q, dfi_div_ratio a r = Ret q /\ forall x, inI x a -> inI (x / Q2R r) q)).
Proof. exact dfi_div_scalars. Qed.
Print Assumptions C39_scalars.
(** Quotients by integers and rationals are the tightest intervals. *)
Theorem C39_int_tight : forall a r q, dfi_ok a -> dfi_div_int a r = Ret q ->
  let al := dyadic (dlo a) (dlog a) in let ah := dyadic (dhi a) (dlog a) in
  tightest q (dlog a) (Rmin (al / IZR r) (ah / IZR r)) (Rmax (al / IZR r) (ah / IZR r)).
Proof. exact dfi_div_int_tight. Qed.
Print Assumptions C39_int_tight.
Theorem C39_ratio_tight : forall a r q, dfi_ok a -> dfi_div_ratio a r = Ret q ->
  let al := dyadic (dlo a) (dlog a) in let ah := dyadic (dhi a) (dlog a) in
  tightest q (dlog a) (Rmin (al / Q2R r) (ah / Q2R r)) (Rmax (al / Q2R r) (ah / Q2R r)).
Proof. exact dfi_div_ratio_tight. Qed.
Print Assumptions C39_ratio_tight.
(** The bounds of a quotient of intervals are near quotients of their members:
    the reciprocal is off by at most one unit of the divisor's precision, the
    product by one unit of the result's. *)
Theorem C39_div_near : forall a b q M, dfi_ok a -> dfi_ok b -> dfi_checked_div a b = Some q ->
  (forall x, inI x a -> Rabs x <= M) ->
  dlog q = Nat.max (dlog a) (dlog b) /\
  (exists x y, inI x a /\ inI y b /\
     x / y - M / 2 ^ dlog b - / 2 ^ dlog q < dyadic (dlo q) (dlog q)) /\
  (exists x y, inI x a /\ inI y b /\
     dyadic (dhi q) (dlog q) < x / y + M / 2 ^ dlog b + / 2 ^ dlog q).
Proof. exact dfi_div_near. Qed.
Print Assumptions C39_div_near.

Example C39_example : dfi_recip (DFI (-4) (-2) 2) = Ret (DFI (-8) (-4) 2) /\ dfi_div (DFI 1 1 2) (DFI (-1) 1 3) = Panic /\
  dfi_div (DFI 1 1 2) (DFI 3 3 2) = Ret (DFI 1 2 2).
Proof. repeat split. Qed.

(** ** C40 square root *)
Theorem C40_sqrt : forall i, dfi_ok i ->
  ((dlo i < 0)%Z -> dfi_sqrt i = Panic) /\
  ((0 <= dlo i)%Z -> exists r, dfi_sqrt i = Ret r /\
     tightest r (dlog i) (R_sqrt.sqrt (dyadic (dlo i) (dlog i))) (R_sqrt.sqrt (dyadic (dhi i) (dlog i)))).
Proof. exact dfi_sqrt_ok. Qed.
Print Assumptions C40_sqrt.

Theorem C40_enclosure : forall i r x, dfi_sqrt i = Ret r -> inI x i -> 0 <= x /\ inI (R_sqrt.sqrt x) r.
Proof. exact dfi_sqrt_in. Qed.
Print Assumptions C40_enclosure.

Example C40_example : dfi_sqrt (DFI 8 9 2) = Ret (DFI 5 6 2).
Proof. reflexivity. Qed.

(** ** C41 absolute value, union, floor, ceiling, zero test *)
Theorem C41_abs : forall i, dfi_ok i -> forall y, inI y (dfi_abs i) <-> exists x, inI x i /\ y = Rabs x.
Proof. exact dfi_abs_ok. Qed.
Print Assumptions C41_abs.

Theorem C41_union : forall a b,
  (forall x, inI x a \/ inI x b -> inI x (dfi_union a b)) /\
  dlog (dfi_union a b) = Nat.max (dlog a) (dlog b) /\
  dyadic (dlo (dfi_union a b)) (dlog (dfi_union a b)) = Rmin (dyadic (dlo a) (dlog a)) (dyadic (dlo b) (dlog b)) /\
  dyadic (dhi (dfi_union a b)) (dlog (dfi_union a b)) = Rmax (dyadic (dhi a) (dlog a)) (dyadic (dhi b) (dlog b)).
Proof. exact dfi_union_ok. Qed.
Print Assumptions C41_union.

Theorem C41_floor_ceil : forall i n x (k : Z), inI x i ->
  (IZR k <= x < IZR k + 1 -> inI (IZR k) (dfi_floor i n)) /\
  (IZR k - 1 < x <= IZR k -> inI (IZR k) (dfi_ceil i n)).
Proof. exact dfi_floor_ceil_in. Qed.
Print Assumptions C41_floor_ceil.

(** The bounds of floor/ceil are exactly the floors/ceilings of the bounds. *)
Theorem C41_floor_ceil_exact : forall i n, exists fl fu cl cu : Z,
  dlog (dfi_floor i n) = n /\ dyadic (dlo (dfi_floor i n)) n = IZR fl /\ dyadic (dhi (dfi_floor i n)) n = IZR fu /\
  dlog (dfi_ceil i n) = n /\ dyadic (dlo (dfi_ceil i n)) n = IZR cl /\ dyadic (dhi (dfi_ceil i n)) n = IZR cu /\
  IZR fl <= dyadic (dlo i) (dlog i) < IZR fl + 1 /\ IZR fu <= dyadic (dhi i) (dlog i) < IZR fu + 1 /\
  IZR cl - 1 < dyadic (dlo i) (dlog i) <= IZR cl /\ IZR cu - 1 < dyadic (dhi i) (dlog i) <= IZR cu.
Proof. exact dfi_floor_ceil_exact. Qed.
Print Assumptions C41_floor_ceil_exact.

Theorem C41_contains_zero : forall i, dfi_contains_zero i = true <-> inI 0 i.
Proof. exact contains_zero_spec. Qed.
Print Assumptions C41_contains_zero.

(** Setting an interval to one of its bounds leaves that point only. *)
Theorem C41_set_to_bounds : forall i x,
  (inI x (dfi_set_to_lower_bound i) <-> x = dyadic (dlo i) (dlog i)) /\
  (inI x (dfi_set_to_upper_bound i) <-> x = dyadic (dhi i) (dlog i)).
Proof. exact set_to_bounds. Qed.
Print Assumptions C41_set_to_bounds.

(** Two intervals are the same exactly when their bounds and their precision are. *)
Theorem C41_is_same : forall a b, dfi_is_same a b = true <-> a = b.
Proof. exact is_same_iff. Qed.
Print Assumptions C41_is_same.

Example C41_example : dfi_abs (DFI (-3) 2 1) = DFI 0 3 1 /\ dfi_abs (DFI (-3) (-1) 1) = DFI 1 3 1 /\
  dfi_floor (DFI (-3) 3 1) 0 = DFI (-2) 1 0 /\ dfi_ceil (DFI (-3) 3 1) 1 = DFI (-2) 4 1.
Proof. repeat split. Qed.

(** ** C42 integer powers.  Enclosure holds except for odd exponents of
    intervals that reach below zero and are either a single point or straddle
    zero; those are refuted. *)
Theorem C42_pow_partial : forall i e, dfi_ok i ->
  ((e < 0)%Z -> inI 0 i -> dfi_pow i e = Panic) /\
  ((0 <= e)%Z \/ ~ inI 0 i -> exists r, dfi_pow i e = Ret r /\ dlog r = dlog i /\
     ((-1 <= e <= 1)%Z \/ (0 <= dlo i)%Z \/ (dlo i < dhi i /\ dhi i <= 0)%Z \/ Z.even e = true ->
      forall x, inI x i -> inI (powerRZ x e) r)).
Proof. exact dfi_pow_ok. Qed.
Print Assumptions C42_pow_partial.

Theorem C42_straddling_refuted : exists i e r x, dfi_ok i /\ (0 <= e)%Z /\ dfi_pow i e = Ret r /\
  inI x i /\ ~ inI (powerRZ x e) r.
Proof. exact dfi_pow_straddle_refuted. Qed.
Print Assumptions C42_straddling_refuted.

Theorem C42_negative_point_refuted : exists i e r x, dfi_ok i /\ (0 <= e)%Z /\ dfi_pow i e = Ret r /\
  dlo i = dhi i /\ inI x i /\ ~ inI (powerRZ x e) r /\ ~ dfi_ok r.
Proof. exact dfi_pow_point_refuted. Qed.
Print Assumptions C42_negative_point_refuted.

Example C42_example : dfi_pow (DFI 3 5 1) 3 = Ret (DFI 6 33 1) /\ dfi_pow (DFI 2 4 1) (-2) = Ret (DFI 0 2 1).
Proof. repeat split. Qed.

(** ** C43 logarithm.  [ln2 n] stands for what natural_log_of_2(n) returns to
    this call; C46 shows that every possible answer satisfies [ln2_ok]. *)
Theorem C43_log : forall ln2 i, (forall n, exists l, ln2 n = Ret l /\ ln2_ok n l) ->
  ((dlo i <= 0)%Z -> dfi_log ln2 i = Panic) /\
  ((0 < dlo i)%Z -> dfi_ok i -> exists r, dfi_log ln2 i = Ret r /\ dlog r = dlog i /\
     forall x, inI x i -> inI (ln x) r).
Proof. exact dfi_log_ok. Qed.
Print Assumptions C43_log.

(** The hypothesis on [ln2] is met by an uncontended call on an empty cache. *)
Theorem C43_ln2_available : forall n, exists l,
  (fun n => rmap (fun i => dfi_convert i n) (ln2_compute n)) n = Ret l /\ ln2_ok n l.
Proof. exact ln2_oracle_exists. Qed.
Print Assumptions C43_ln2_available.

Example C43_example : dfi_log (fun n => rmap (fun i => dfi_convert i n) (ln2_compute n)) (DFI 3 3 0) = Ret (DFI 1 2 0).
Proof. vm_compute. reflexivity. Qed.

(** ** C44 exponential.  When it returns, the enclosure holds up to 2^-26 of the
    last place, and exactly for the lower bound of non-negative intervals.
    Missing: exact enclosure and totality, which are refuted. *)
Theorem C44_exp_partial : forall ln2 i r, (forall n, exists l, ln2 n = Ret l /\ ln2_ok n l) -> dfi_ok i ->
  dfi_exp ln2 i = Ret r -> dlog r = dlog i /\
  (forall x, inI x i ->
    dyadic (dlo r) (dlog r) - / 2 ^ (dlog i + 26) <= exp x <= dyadic (dhi r) (dlog r) + / 2 ^ (dlog i + 26)) /\
  ((0 <= dlo i)%Z -> forall x, inI x i -> dyadic (dlo r) (dlog r) <= exp x).
Proof. exact dfi_exp_ok. Qed.
Print Assumptions C44_exp_partial.

Theorem C44_total_refuted : exists i, dfi_ok i /\
  forall ln2, (forall n, exists l, ln2 n = Ret l /\ ln2_ok n l) -> dfi_exp ln2 i = Panic.
Proof. exact dfi_exp_total_refuted. Qed.
Print Assumptions C44_total_refuted.
(** Exact enclosure fails for negative intervals, whatever acceptable value of
    ln 2 is used: a lower bound above, and an upper bound below, the exponential
    of an end point.  (Precisions 84 and 92, near -4 ln 2.) *)
Theorem C44_enclosure_refuted : exists i j r s, dfi_ok i /\ dfi_ok j /\
  forall ln2, (forall n, exists l, ln2 n = Ret l /\ ln2_ok n l) ->
    (dfi_exp ln2 i = Ret r /\ exists x, inI x i /\ exp x < dyadic (dlo r) (dlog r)) /\
    (dfi_exp ln2 j = Ret s /\ exists x, inI x j /\ dyadic (dhi s) (dlog s) < exp x).
Proof. exact exp_enclosure_refuted. Qed.
Print Assumptions C44_enclosure_refuted.

Example C44_example : dfi_exp (fun n => rmap (fun i => dfi_convert i n) (ln2_compute n)) (DFI (-1) 1 0) = Ret (DFI 0 3 0).
Proof. vm_compute. reflexivity. Qed.

(** ** C45 arithmetic-geometric mean *)
Theorem C45_agm : forall a b, dfi_ok a -> dfi_ok b ->
  ((dlo a < 0 \/ dlo b < 0)%Z -> dfi_agm a b = Panic) /\
  ((0 <= dlo a)%Z -> (0 <= dlo b)%Z -> exists r, dfi_agm a b = Ret r /\
     dfi_ok r /\ dlog r = Nat.max (dlog a) (dlog b) /\
     (forall x y l, inI x a -> inI y b -> is_agm x y l -> inI l r)).
Proof. exact dfi_agm_ok. Qed.
Print Assumptions C45_agm.

Theorem C45_agm_limit_exists : forall x y, 0 <= x -> 0 <= y -> exists l, is_agm x y l.
Proof. exact is_agm_exists. Qed.
Print Assumptions C45_agm_limit_exists.

Example C45_example : dfi_agm (DFI 256 256 8) (DFI 512 512 8) = Ret (DFI 372 374 8).
Proof. vm_compute. reflexivity. Qed.

(** ** C46 the shared cache, for every number of threads and every schedule.
    [idx] is the precision-to-index function (computed with floating point by
    the code), assumed monotone only. *)
Theorem C46_ln2_every_schedule : forall idx k s, (forall a b, (a <= b)%N -> (idx a <= idx b)%nat) ->
  reach idx ln2_compute (initial k) s ->
  (forall t, nth_error (threads s) t <> Some Panicked) /\
  (forall n r, In (n, r) (results s) -> ln2_ok n r).
Proof. exact cached_ln2_ok. Qed.
Print Assumptions C46_ln2_every_schedule.

Theorem C46_sqrt2_every_schedule : forall idx k s, (forall a b, (a <= b)%N -> (idx a <= idx b)%nat) ->
  reach idx sqrt_2_compute (initial k) s ->
  (forall t, nth_error (threads s) t <> Some Panicked) /\
  (forall n r, In (n, r) (results s) -> tightest r n (R_sqrt.sqrt 2) (R_sqrt.sqrt 2)).
Proof. exact cached_sqrt2_ok. Qed.
Print Assumptions C46_sqrt2_every_schedule.

Theorem C46_cache_never_shrinks : forall idx compute k s s',
  reach idx compute (initial k) s -> reach idx compute s s' -> (length (cache s) <= length (cache s'))%nat.
Proof. exact reach_cache_grows. Qed.
Print Assumptions C46_cache_never_shrinks.

Theorem C46_cache_entries_precise : forall idx compute, (forall a b, (a <= b)%N -> (idx a <= idx b)%nat) ->
  (forall n, exists i, compute n = Ret i /\ (n <= dlog i)%nat) ->
  forall k s n e, reach idx compute (initial k) s -> (N.of_nat n < 2 ^ 64)%N ->
  nth_error (cache s) (idx (N.of_nat n)) = Some e -> (n <= dlog e)%nat.
Proof. exact cache_entries_precise. Qed.
Print Assumptions C46_cache_entries_precise.

Theorem C46_no_deadlock : forall idx compute, (forall a b, (a <= b)%N -> (idx a <= idx b)%nat) ->
  (forall n, exists i, compute n = Ret i /\ (n <= dlog i)%nat) ->
  forall k s t p, reach idx compute (initial k) s -> nth_error (threads s) t = Some p -> p <> Idle ->
  exists s', step idx compute s s' /\ nth_error (threads s') t <> Some p.
Proof. exact cache_no_deadlock. Qed.
Print Assumptions C46_no_deadlock.

(** A reachable run in which two threads miss, both fill, and the second write
    is discarded; both get an answer. *)
Example C46_example : exists s, reach (fun _ => 0%nat) sqrt_2_compute (initial 2) s /\
  length (results s) = 2%nat /\ length (cache s) = 1%nat.
Proof. exact cache_race_example. Qed.
