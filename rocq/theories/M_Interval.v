(** Model of /repo/src/interval_arithmetic.rs, lines 22-40, 123-546, 764-1302:
    dyadic fraction intervals.  [BigInt] is [Z], [log2_denom] is a [nat] (the
    overflow of the [usize] holding a number of bits is not modelled),
    [Ratio<BigInt>] is [Q].  By-value/by-reference/assign variants of one
    operation are one function. *)
From Coq Require Import ZArith QArith Qround List Bool.
From Verif Require Import M_Base M_Traits.
Local Open Scope Z_scope.

Definition shl (a : Z) (n : nat) : Z := Z.shiftl a (Z.of_nat n).
(** BigInt's [>>] rounds towards minus infinity. *)
Definition shr (a : Z) (n : nat) : Z := Z.shiftr a (Z.of_nat n).
(** The idiom -((-a) >> n): shift rounding towards plus infinity. *)
Definition shr_up (a : Z) (n : nat) : Z := - shr (- a) n.

(** interval_arithmetic.rs:22-28 *)
Definition convert_log2_denom_floor (numer : Z) (old new : nat) : Z :=
  if Nat.leb old new then shl numer (new - old) else shr numer (old - new).
(** interval_arithmetic.rs:30-40 *)
Definition convert_log2_denom_ceil (numer : Z) (old new : nat) : Z :=
  if Nat.leb old new then shl numer (new - old) else shr_up numer (old - new).

(** interval_arithmetic.rs:123-129 *)
Record dfi := DFI { dlo : Z; dhi : Z; dlog : nat }.

(** interval_arithmetic.rs:132-139 new *)
Definition dfi_new (l u : Z) (n : nat) : res dfi := assert_then (l <=? u) (Ret (DFI l u n)).

(** [Ratio * BigInt] *)
Definition Qscale (q : Q) (z : Z) : Q := (Qnum q * z # Qden q)%Q.

(** interval_arithmetic.rs:140-154 from_ratio_range *)
Definition dfi_from_ratio_range (l u : Q) (n : nat) : res dfi :=
  assert_then (Qle_bool l u)
    (Ret (DFI (Qfloor (Qscale l (shl 1 n))) (Qceiling (Qscale u (shl 1 n))) n)).

(** interval_arithmetic.rs:155-166 from_ratio *)
Definition dfi_from_ratio (q : Q) (n : nat) : dfi :=
  let r := (shl (Qnum q) n # Qden q)%Q in DFI (Qfloor r) (Qceiling r) n.

(** interval_arithmetic.rs:173-179 from_dyadic_fraction *)
Definition dfi_from_dyadic_fraction (numer : Z) (n : nat) : dfi := DFI numer numer n.
(** interval_arithmetic.rs:167-169 from_int *)
Definition dfi_from_int (v : Z) (n : nat) : dfi := dfi_from_dyadic_fraction (shl v n) n.

(** interval_arithmetic.rs:275-286 convert_log2_denom *)
Definition dfi_convert (i : dfi) (n : nat) : dfi :=
  DFI (convert_log2_denom_floor (dlo i) (dlog i) n) (convert_log2_denom_ceil (dhi i) (dlog i) n) n.

(** interval_arithmetic.rs:170-172 from_int_range *)
Definition dfi_from_int_range (l u : Z) (n : nat) : res dfi :=
  rmap (fun i => dfi_convert i n) (dfi_new l u 0).

(** interval_arithmetic.rs:180-207 zero, one, negative_one, set_zero, set_one,
    set_negative_one *)
Definition dfi_zero (n : nat) : dfi := DFI 0 0 n.
Definition dfi_one (n : nat) : dfi := dfi_from_int 1 n.
Definition dfi_negative_one (n : nat) : dfi := dfi_from_int (-1) n.
Definition dfi_set_zero (i : dfi) : dfi := DFI 0 0 (dlog i).
Definition dfi_set_one (i : dfi) : dfi := DFI (shl 1 (dlog i)) (shl 1 (dlog i)) (dlog i).
Definition dfi_set_negative_one (i : dfi) : dfi := DFI (- shl 1 (dlog i)) (- shl 1 (dlog i)) (dlog i).

(** interval_arithmetic.rs:208-235 bounds as rationals.  [Ratio::new] with the
    positive denominator 2^n. *)
Definition two_pow (n : nat) : positive := Z.to_pos (shl 1 n).
Definition dfi_lower_bound (i : dfi) : Q := Qred (dlo i # two_pow (dlog i)).
Definition dfi_upper_bound (i : dfi) : Q := Qred (dhi i # two_pow (dlog i)).

(** interval_arithmetic.rs:253-274 setters *)
Definition dfi_set_to_lower_bound (i : dfi) : dfi := DFI (dlo i) (dlo i) (dlog i).
Definition dfi_set_to_upper_bound (i : dfi) : dfi := DFI (dhi i) (dhi i) (dlog i).
Definition dfi_set_lower_bound_numer (i : dfi) (v : Z) : res dfi :=
  assert_then (v <=? dhi i) (Ret (DFI v (dhi i) (dlog i))).
Definition dfi_set_upper_bound_numer (i : dfi) (v : Z) : res dfi :=
  assert_then (dlo i <=? v) (Ret (DFI (dlo i) v (dlog i))).
Definition dfi_set_lower_bound_to_zero (i : dfi) : res dfi :=
  assert_then (negb (dhi i <? 0)) (Ret (DFI 0 (dhi i) (dlog i))).
Definition dfi_set_upper_bound_to_zero (i : dfi) : res dfi :=
  assert_then (negb (0 <? dlo i)) (Ret (DFI (dlo i) 0 (dlog i))).

(** interval_arithmetic.rs:287-326 do_op_assign: bring both operands to the
    larger denominator, then apply [op] to the numerators. *)
Definition do_op (op : Z -> Z -> Z -> Z -> nat -> Z * Z) (a b : dfi) : dfi :=
  if Nat.leb (dlog a) (dlog b) then
    let s := (dlog b - dlog a)%nat in
    let '(l, u) := op (shl (dlo a) s) (shl (dhi a) s) (dlo b) (dhi b) (dlog b) in
    DFI l u (dlog b)
  else
    let s := (dlog a - dlog b)%nat in
    let '(l, u) := op (dlo a) (dhi a) (shl (dlo b) s) (shl (dhi b) s) (dlog a) in
    DFI l u (dlog a).

(** interval_arithmetic.rs:327-339 do_add_assign *)
Definition dfi_add : dfi -> dfi -> dfi :=
  do_op (fun ll lu rl ru _ => (ll + rl, lu + ru)).
(** interval_arithmetic.rs:340-353 do_sub_assign *)
Definition dfi_sub : dfi -> dfi -> dfi :=
  do_op (fun ll lu rl ru _ => (ll - ru, lu - rl)).
(** interval_arithmetic.rs:354-360 do_mul_assign_int *)
Definition dfi_mul_int (a : dfi) (r : Z) : dfi :=
  let '(l, u) := if r <? 0 then (dhi a, dlo a) else (dlo a, dhi a) in
  DFI (l * r) (u * r) (dlog a).
(** interval_arithmetic.rs:361-367 do_mul_assign_ratio *)
Definition dfi_mul_ratio (a : dfi) (r : Q) : dfi :=
  let '(l, u) := if Qnum r <? 0 then (dhi a, dlo a) else (dlo a, dhi a) in
  DFI (Qfloor (Qscale r l)) (Qceiling (Qscale r u)) (dlog a).

(** interval_arithmetic.rs:382-405: selection of the least and greatest of
    the four products; an entry is replaced by the displaced candidate. *)
Fixpoint take_min (cur : Z) (bounds : list Z) : Z * list Z :=
  match bounds with
  | nil => (cur, nil)
  | b :: bs =>
      let '(cur', b') := if b <? cur then (b, cur) else (cur, b) in
      let '(m, bs') := take_min cur' bs in (m, b' :: bs')
  end.
Fixpoint take_max (cur : Z) (bounds : list Z) : Z :=
  match bounds with
  | nil => cur
  | b :: bs => take_max (if cur <? b then b else cur) bs
  end.

(** interval_arithmetic.rs:368-410 do_mul_assign.  The first product starts as
    the candidate minimum; the first of the remaining three starts as the
    candidate maximum. *)
Definition dfi_mul : dfi -> dfi -> dfi :=
  do_op (fun ll lu rl ru n =>
    let '(lower, rest) := take_min (ll * rl) (ll * ru :: lu * rl :: lu * ru :: nil) in
    let upper := match rest with nil => lower | b :: bs => take_max b bs end in
    (shr lower n, shr_up upper n)).

(** interval_arithmetic.rs:504-506 contains_zero *)
Definition dfi_contains_zero (i : dfi) : bool := negb (0 <? dlo i) && negb (dhi i <? 0).

(** num_integer's div_floor, div_ceil on BigInt (non-zero divisor). *)
Definition div_floor (a b : Z) : Z := a / b.
Definition div_ceil (a b : Z) : Z := - ((- a) / b).

(** interval_arithmetic.rs:422-438 checked_recip, recip *)
Definition dfi_checked_recip (i : dfi) : option dfi :=
  if dfi_contains_zero i then None
  else
    let dividend := shl 1 (2 * dlog i) in
    Some (DFI (div_floor dividend (dhi i)) (div_ceil dividend (dlo i)) (dlog i)).
Definition dfi_recip (i : dfi) : res dfi := unwrap (dfi_checked_recip i).

(** interval_arithmetic.rs:411-421, 1125-1180 division of intervals *)
Definition dfi_checked_div (a b : dfi) : option dfi :=
  match dfi_checked_recip b with Some r => Some (dfi_mul a r) | None => None end.
Definition dfi_div (a b : dfi) : res dfi := rmap (dfi_mul a) (dfi_recip b).

(** interval_arithmetic.rs:439-469 into_square *)
Definition dfi_square (i : dfi) : dfi :=
  let cz := dfi_contains_zero i in
  let mn := if dlo i <? 0 then - dlo i else dlo i in
  let mx := if dhi i <? 0 then - dhi i else dhi i in
  let '(mn, mx) := if mx <? mn then (mx, mn) else (mn, mx) in
  DFI (if cz then 0 else shr (mn * mn) (dlog i)) (shr_up (mx * mx) (dlog i)) (dlog i).

(** BigInt::sqrt: floor square root, panics on negative input. *)
Definition bigint_sqrt (a : Z) : res Z := if a <? 0 then Panic else Ret (Z.sqrt a).

(** interval_arithmetic.rs:470-503 do_sqrt *)
Definition dfi_sqrt (i : dfi) : res dfi :=
  let sl := shl (dlo i) (dlog i) in
  let su := shl (dhi i) (dlog i) in
  (l <- bigint_sqrt sl ;;
   s <- bigint_sqrt su ;;
   Ret (DFI l (if s * s =? su then s else s + 1) (dlog i)))%res.

(** interval_arithmetic.rs:507-523 interval_union *)
Definition dfi_union : dfi -> dfi -> dfi :=
  do_op (fun ll lu rl ru _ => (if rl <? ll then rl else ll, if lu <? ru then ru else lu)).

(** interval_arithmetic.rs:764-773 is_same *)
Definition dfi_is_same (a b : dfi) : bool :=
  (dlo a =? dlo b) && (dhi a =? dhi b) && Nat.eqb (dlog a) (dlog b).

(** interval_arithmetic.rs:774-795 abs *)
Definition dfi_abs (i : dfi) : dfi :=
  let cz := dfi_contains_zero i in
  let l := if dlo i <? 0 then - dlo i else dlo i in
  let u := if dhi i <? 0 then - dhi i else dhi i in
  let '(l, u) := if u <? l then (u, l) else (l, u) in
  DFI (if cz then 0 else l) u (dlog i).

(** interval_arithmetic.rs:796-808 floor *)
Definition dfi_floor (i : dfi) (n : nat) : dfi :=
  dfi_convert (DFI (shr (dlo i) (dlog i)) (shr (dhi i) (dlog i)) 0) n.
(** interval_arithmetic.rs:809-825 ceil *)
Definition dfi_ceil (i : dfi) (n : nat) : dfi :=
  dfi_convert (DFI (shr_up (dlo i) (dlog i)) (shr_up (dhi i) (dlog i)) 0) n.

(** interval_arithmetic.rs:826-835 floor_log2, ceil_log2 *)
Definition dfi_floor_log2 (i : dfi) : option (Z * Z) :=
  obind (bigint_floor_log2 (dlo i)) (fun l =>
  obind (bigint_floor_log2 (dhi i)) (fun u => Some (l - Z.of_nat (dlog i), u - Z.of_nat (dlog i)))).
Definition dfi_ceil_log2 (i : dfi) : option (Z * Z) :=
  obind (bigint_ceil_log2 (dlo i)) (fun l =>
  obind (bigint_ceil_log2 (dhi i)) (fun u => Some (l - Z.of_nat (dlog i), u - Z.of_nat (dlog i)))).

(** interval_arithmetic.rs:864-885 Neg *)
Definition dfi_neg (i : dfi) : dfi := DFI (- dhi i) (- dlo i) (dlog i).

(** interval_arithmetic.rs:1004-1082 addition and subtraction of scalars *)
Definition dfi_add_int (i : dfi) (r : Z) : dfi :=
  DFI (dlo i + shl r (dlog i)) (dhi i + shl r (dlog i)) (dlog i).
Definition dfi_sub_int (i : dfi) (r : Z) : dfi :=
  DFI (dlo i - shl r (dlog i)) (dhi i - shl r (dlog i)) (dlog i).
Definition dfi_add_ratio (i : dfi) (r : Q) : dfi := dfi_add i (dfi_from_ratio r (dlog i)).
Definition dfi_sub_ratio (i : dfi) (r : Q) : dfi := dfi_sub i (dfi_from_ratio r (dlog i)).

(** interval_arithmetic.rs:1185-1195 division by an integer: Ratio::new(1, rhs)
    panics for zero. *)
Definition dfi_div_int (i : dfi) (r : Z) : res dfi :=
  rmap (dfi_mul_ratio i) (ratio_new 1 r).
(** Ratio::recip panics on zero. *)
Definition ratio_recip (r : Q) : res Q := ratio_new (Zpos (Qden r)) (Qnum r).
(** interval_arithmetic.rs:1197-1207 division by a ratio *)
Definition dfi_div_ratio (i : dfi) (r : Q) : res dfi :=
  rmap (dfi_mul_ratio i) (ratio_recip r).

(** interval_arithmetic.rs:1260-1277: the loop of [pow].  State: result lower
    bound, negated result upper bound, base bounds (all magnitudes). *)
Fixpoint dfi_pow_loop (fuel : nat) (n : nat) (rl nru bl bu e : Z) : res (Z * Z) :=
  match fuel with
  | O => NoFuel
  | S fuel' =>
      let '(rl, nru) := if Z.odd e then (shr (rl * bl) n, shr (nru * bu) n) else (rl, nru) in
      let e' := Z.quot e 2 in
      if e' =? 0 then Ret (rl, nru)
      else dfi_pow_loop fuel' n rl nru (shr (bl * bl) n) (- shr (- bu * bu) n) e'
  end.

(** interval_arithmetic.rs:1231-1293: exponent at least 2. *)
Definition dfi_pow_core (i : dfi) (e : Z) : res dfi :=
  let cz := dfi_contains_zero i in
  let n := dlog i in
  let ln := dlo i <? 0 in
  let un := dhi i <? 0 in
  let bl := if ln then - dlo i else dlo i in
  let bu := if un then - dhi i else dhi i in
  let sw := bu <? bl in
  let '(bl, bu) := if sw then (bu, bl) else (bl, bu) in
  let '(ln, un, sw, bl) :=
    if Z.even e then (false, false, false, if cz then 0 else bl) else (ln, un, sw, bl) in
  let one := shl 1 n in
  ('(rl, nru) <- dfi_pow_loop (Z.to_nat (Z.log2 e + 1)) n one (- one) bl bu e ;;
   let ru := - nru in
   let '(rl, ru) := if sw then (ru, rl) else (rl, ru) in
   Ret (DFI (if ln then - rl else rl) (if un then - ru else ru) n))%res.

(** interval_arithmetic.rs:1214-1295 Pow (the exponent type is unbounded) *)
Definition dfi_pow (i : dfi) (e : Z) : res dfi :=
  if e =? 0 then Ret (dfi_set_one i)
  else if e =? 1 then Ret i
  else if e <? 0 then
    (i' <- dfi_recip i ;;
     if - e =? 1 then Ret i' else dfi_pow_core i' (- e))%res
  else dfi_pow_core i e.

(** interval_arithmetic.rs:533-541: the loop of
    into_arithmetic_geometric_mean.  [fuel] bounds the iterations. *)
Fixpoint agm_loop (fuel : nat) (result am gm next : dfi) : res dfi :=
  if (dhi next - dlo next) <? (dhi result - dlo result) then
    match fuel with
    | O => NoFuel
    | S fuel' =>
        (am' <- dfi_div_int (dfi_add am gm) 2 ;;
         gm' <- dfi_sqrt (dfi_mul am gm) ;;
         agm_loop fuel' next am' gm' (dfi_union am' gm'))%res
    end
  else Ret result.

(** interval_arithmetic.rs:524-546 arithmetic_geometric_mean *)
Definition dfi_agm (a b : dfi) : res dfi :=
  assert_then (negb (dlo a <? 0))
  (assert_then (negb (dlo b <? 0))
   (let result := dfi_union a b in
    am <- dfi_div_int (dfi_add a b) 2 ;;
    gm <- dfi_sqrt (dfi_mul a b) ;;
    agm_loop (Z.to_nat (dhi result - dlo result)) result am gm (dfi_union am gm)))%res.
