(** Model of /repo/src/algebraic_numbers.rs: real algebraic numbers.

    Ratio<BigInt> is [Q] in lowest terms.  Unbounded loops take fuel: [fuel]
    bounds the number of interval refinements, [ffuel] and [rng] are passed to
    the factorisation ([M_Factor.factor_with_rng]; the code uses a generator
    seeded by 0, here it is an arbitrary stream).  The by-reference, by-value
    and assigning variants of an operation share one definition. *)
From Coq Require Import ZArith QArith Qround.
Set Warnings "-notation-overridden".
From mathcomp Require Import ssreflect ssrfun ssrbool eqtype ssrnat seq.
From Verif Require Import M_Base M_Traits M_Util M_Interval M_IntervalExp M_Poly M_PolyCoef P_PolyInst
  M_PolyAlg M_Factor.
Set Implicit Arguments.
Unset Strict Implicit.
Unset Printing Implicit Defensive.
Local Open Scope nat_scope.

(** algebraic_numbers.rs:38-51, 87-90: RealAlgebraicNumber(Data) *)
Record ralg := RA { mp : zpoly; itv : dfi }.

(** algebraic_numbers.rs:100-109 From<integer> *)
Definition ra_from_int (v : Z) : ralg :=
  RA (from_coefs (K := int_coef) [:: (- v)%Z; 1%Z]) (dfi_from_int v 0).
(** algebraic_numbers.rs:117-132 From<Ratio> *)
Definition ra_from_ratio (q : Q) : ralg :=
  if (Zpos (Qden q) =? 1)%Z then ra_from_int (Qnum q)
  else RA (from_coefs (K := int_coef) [:: (- Qnum q)%Z; Zpos (Qden q)]) (dfi_from_ratio q 0).

(** * Sign changes *)
(** algebraic_numbers.rs:161-169 ValueOrInfinity *)
Inductive point := PosInf | At (q : Q) | AtZero | NegInf.
(** algebraic_numbers.rs:183-187 *)
Record sign_changes := SC { sc_count : nat; sc_root : bool }.

(** polynomial.eval_generic(at, Ratio::zero()): Horner in Ratio<BigInt>, whose
    operations reduce. *)
Definition ratio_eval (p : zpoly) (at_ : Q) : Q :=
  eval_generic (K := int_coef) (fun a b => Qred (a * b)) (fun a c => Qred (a + inject_Z c)) p at_ 0%Q.
(** algebraic_numbers.rs:197-211.  Line 205 reads [s.map(|| -s)]; the branches
    for the infinities are never used and are modelled by their evident
    intention. *)
Definition sign_at (p : zpoly) (at_ : point) : option Sign :=
  match at_ with
  | PosInf => sign_new (lead p)
  | At q => sign_new (Qnum (ratio_eval p q))
  | AtZero => sign_new (coefficient p 0)
  | NegInf => let s := sign_new (lead p) in
              if odd (degree_or_0 p) then omap sign_neg s else s
  end.
Definition sign_eqb (a b : Sign) : bool :=
  match a, b with Negative, Negative | Positive, Positive => true | _, _ => false end.
(** algebraic_numbers.rs:189-224 sign_changes_at: the body of the loop over
    the sequence, with its three mutable variables. *)
Fixpoint sign_changes_loop (l : seq zpoly) (at_ : point) (count : nat) (last : option Sign) (is_root : bool) :
    sign_changes :=
  match l with
  | [::] => SC count is_root
  | p :: l' =>
      match sign_at p at_ with
      | Some s =>
          let same := match last with Some t => sign_eqb t s | None => false end in
          sign_changes_loop l' at_ (if same then count else count.+1) (Some s) is_root
      | None =>
          sign_changes_loop l' at_ count last (if last is None then true else is_root)
      end
  end.
Definition sign_changes_at (l : seq zpoly) (at_ : point) : sign_changes :=
  sign_changes_loop l at_ 0 None false.

(** algebraic_numbers.rs:314-320 distance *)
Definition distance (a b : nat) : nat := if a < b then b - a else a - b.

(** * Interval refinement *)
(** algebraic_numbers.rs:226-231, 322-327: IntervalShrinker with its
    IntervalAndSignChanges (the interval and the cached sign changes at its
    bounds). *)
Record shrinker := Shr {
  sh_seq : seq zpoly; sh_itv : dfi; sh_lo : option sign_changes; sh_hi : option sign_changes
}.
(** algebraic_numbers.rs:335-353, 233-241 *)
Definition shrinker_with (l : seq zpoly) (i : dfi) : shrinker := Shr l i None None.
Definition to_primitive_sturm (p : zpoly) : res (seq zpoly) := primitive_sturm_sequence int_exact int_content p.
Definition shrinker_new (p : zpoly) (i : dfi) : res shrinker :=
  rmap (fun l => shrinker_with l i) (to_primitive_sturm p).
(** algebraic_numbers.rs:242-277: read a cached value, or compute and store it. *)
Definition get_lower (s : shrinker) : sign_changes * shrinker :=
  match sh_lo s with
  | Some c => (c, s)
  | None => let c := sign_changes_at (sh_seq s) (At (dfi_lower_bound (sh_itv s))) in
            (c, Shr (sh_seq s) (sh_itv s) (Some c) (sh_hi s))
  end.
Definition get_upper (s : shrinker) : sign_changes * shrinker :=
  match sh_hi s with
  | Some c => (c, s)
  | None => let c := sign_changes_at (sh_seq s) (At (dfi_upper_bound (sh_itv s))) in
            (c, Shr (sh_seq s) (sh_itv s) (sh_lo s) (Some c))
  end.
(** algebraic_numbers.rs:278-291 *)
Definition set_to_dyadic (s : shrinker) (numer : Z) (c : sign_changes) : shrinker :=
  Shr (sh_seq s) (dfi_from_dyadic_fraction numer (dlog (sh_itv s))) (Some c) (Some c).
Definition set_lower (s : shrinker) (numer : Z) (c : sign_changes) : res shrinker :=
  rmap (fun i => Shr (sh_seq s) i (Some c) (sh_hi s)) (dfi_set_lower_bound_numer (sh_itv s) numer).
Definition set_upper (s : shrinker) (numer : Z) (c : sign_changes) : res shrinker :=
  rmap (fun i => Shr (sh_seq s) i (sh_lo s) (Some c)) (dfi_set_upper_bound_numer (sh_itv s) numer).

(** algebraic_numbers.rs:354-424 shrink: [true] for IntervalShrinkResult::Exact. *)
Definition shrink (s : shrinker) : res (bool * shrinker) :=
  let range := (dhi (sh_itv s) - dlo (sh_itv s))%Z in
  assert_then (0 <=? range)%Z
  (if (range =? 0)%Z then Ret (true, s)
   else
     let s := if (range <? 16)%Z
              then Shr (sh_seq s) (dfi_convert (sh_itv s) (dlog (sh_itv s)).+1) (sh_lo s) (sh_hi s)
              else s in
     let '(cl, s) := get_lower s in
     if sc_root cl then rmap (pair true) (set_upper s (dlo (sh_itv s)) cl)
     else
       let '(cu, s) := get_upper s in
       if sc_root cu then rmap (pair true) (set_lower s (dhi (sh_itv s)) cu)
       else
         assert_then (distance (sc_count cl) (sc_count cu) == 1)
         (let m := Z.quot (dlo (sh_itv s) + dhi (sh_itv s)) 2 in
          (middle <- ratio_new m (shl 1 (dlog (sh_itv s))) ;;
           let cm := sign_changes_at (sh_seq s) (At middle) in
           if sc_root cm then Ret (true, set_to_dyadic s m cm)
           else if sc_count cm == sc_count cl then rmap (pair false) (set_lower s m cm)
           else assert_then (sc_count cm == sc_count cu) (rmap (pair false) (set_upper s m cm)))%res)).

(** * Basic queries *)
(** algebraic_numbers.rs:446-450 degree *)
Definition ra_degree (a : ralg) : res nat := unwrap (degree (mp a)).
(** algebraic_numbers.rs:451-454 is_rational *)
Definition ra_is_rational (a : ralg) : res bool := rmap (fun d => d <= 1) (ra_degree a).
(** algebraic_numbers.rs:455-457 is_integer *)
Definition ra_is_integer (a : ralg) : res bool :=
  rmap (fun r => r && (coefficient (mp a) 1 =? 1)%Z) (ra_is_rational a).
(** Ratio::new_raw(numer, denom) with denom > 0; the representation of a ratio
    with another denominator (it cannot arise from a minimal polynomial of
    degree 1 with positive leading coefficient) is not modelled and reads as a
    panic. *)
Definition ratio_raw (n d : Z) : res Q := if d is Zpos p then Ret (n # p) else Panic.
(** algebraic_numbers.rs:458-467 to_rational *)
Definition ra_to_rational (a : ralg) : res (option Q) :=
  (r <- ra_is_rational a ;;
   if r then rmap Some (ratio_raw (- coefficient (mp a) 0) (coefficient (mp a) 1)) else Ret None)%res.
(** algebraic_numbers.rs:468-474 to_integer *)
Definition ra_to_integer (a : ralg) : res (option Z) :=
  rmap (fun r : bool => if r then Some (- coefficient (mp a) 0)%Z else None) (ra_is_integer a).

(** Equality of integer polynomials (derived PartialEq). *)
Definition zpoly_eqb (p q : zpoly) : bool := eqb_seq (els p) (els q).
(** algebraic_numbers.rs:1119-1144, 661-669: ZERO, ONE, NEGATIVE_ONE and tests *)
Definition ra_zero : ralg := ra_from_int 0.
Definition ra_one : ralg := ra_from_int 1.
Definition ra_negative_one : ralg := ra_from_int (-1).
Definition ra_is_zero (a : ralg) : bool := zpoly_eqb (mp a) (mp ra_zero).
Definition ra_is_one (a : ralg) : bool := zpoly_eqb (mp a) (mp ra_one).
Definition ra_is_negative_one (a : ralg) : bool := zpoly_eqb (mp a) (mp ra_negative_one).

(** algebraic_numbers.rs:479-486 interval_shrinker *)
Definition ra_shrinker (a : ralg) : res shrinker := shrinker_new (mp a) (itv a).

(** * Floor, ceiling, sign *)
(** algebraic_numbers.rs:492-502, 523-533: the loop of into_integer_floor and
    into_fract; the refined shrinker is returned too (into_fract goes on with
    the refined number). *)
Fixpoint floor_loop (fuel : nat) (s : shrinker) : res (Z * shrinker) :=
  match fuel with
  | 0 => NoFuel
  | fuel'.+1 =>
      let f := dfi_floor (sh_itv s) 0 in
      if (dlo f =? dhi f)%Z then Ret (dlo f, s)
      else ('(_, s') <- shrink s ;; floor_loop fuel' s')%res
  end.
(** algebraic_numbers.rs:487-512 into_integer_floor, to_integer_floor *)
Definition ra_integer_floor (fuel : nat) (a : ralg) : res Z :=
  (r <- ra_to_rational a ;;
   match r with
   | Some q => Ret (Qfloor q)
   | None => s <- ra_shrinker a ;; rmap fst (floor_loop fuel s)
   end)%res.
(** algebraic_numbers.rs:513-518 into_floor, floor *)
Definition ra_floor (fuel : nat) (a : ralg) : res ralg := rmap ra_from_int (ra_integer_floor fuel a).

(** algebraic_numbers.rs:858-905 neg *)
Fixpoint neg_coefs (i : nat) (degree_is_odd : bool) (l : seq Z) : seq Z :=
  match l with
  | [::] => [::]
  | c :: l' => (if odd i == degree_is_odd then c else (- c)%Z) :: neg_coefs i.+1 degree_is_odd l'
  end.
Definition ra_neg (a : ralg) : res ralg :=
  rmap (fun d => RA (from_iterator (K := int_coef) (neg_coefs 0 (odd d) (coefficients (mp a)))) (dfi_neg (itv a)))
       (ra_degree a).

(** algebraic_numbers.rs:543-554 into_integer_ceil, to_integer_ceil, into_ceil, ceil *)
Definition ra_integer_ceil (fuel : nat) (a : ralg) : res Z :=
  (n <- ra_neg a ;; rmap Z.opp (ra_integer_floor fuel n))%res.
Definition ra_ceil (fuel : nat) (a : ralg) : res ralg :=
  (n <- ra_neg a ;; f <- ra_floor fuel n ;; ra_neg f)%res.

(** algebraic_numbers.rs:555-589 cmp_with_zero *)
Definition ra_cmp_with_zero (a : ralg) : res comparison :=
  if ra_is_zero a then Ret Eq
  else if (0 <? dlo (itv a))%Z then Ret Gt
  else if (dhi (itv a) <? 0)%Z then Ret Lt
  else
    (r <- ra_to_rational a ;;
     match r with
     | Some q => Ret (q ?= 0)%Q
     | None =>
         l <- to_primitive_sturm (mp a) ;;
         let cl := sign_changes_at l (At (dfi_lower_bound (itv a))) in
         assert_then (~~ sc_root cl)
         (let cu := sign_changes_at l (At (dfi_upper_bound (itv a))) in
          assert_then (~~ sc_root cu)
          (let cz := sign_changes_at l AtZero in
           assert_then (~~ sc_root cz)
           (if sc_count cl == sc_count cz then Ret Gt
            else assert_then (sc_count cu == sc_count cz) (Ret Lt))))
     end)%res.
(** algebraic_numbers.rs:590-609 into_integer_trunc, to_integer_trunc, into_trunc, trunc *)
Definition ra_integer_trunc (fuel : nat) (a : ralg) : res Z :=
  (c <- ra_cmp_with_zero a ;;
   match c with
   | Eq => Ret 0%Z
   | Gt => ra_integer_floor fuel a
   | Lt => ra_integer_ceil fuel a
   end)%res.
Definition ra_trunc (fuel : nat) (a : ralg) : res ralg := rmap ra_from_int (ra_integer_trunc fuel a).

(** algebraic_numbers.rs:1209-1216, 1227-1247: abs, signum, is_positive, is_negative *)
Definition ra_is_positive (a : ralg) : res bool :=
  rmap (fun c => if c is Gt then true else false) (ra_cmp_with_zero a).
Definition ra_is_negative (a : ralg) : res bool :=
  rmap (fun c => if c is Lt then true else false) (ra_cmp_with_zero a).
Definition ra_abs (a : ralg) : res ralg :=
  (n <- ra_is_negative a ;; if n then ra_neg a else Ret a)%res.
Definition ra_signum (a : ralg) : res ralg :=
  (c <- ra_cmp_with_zero a ;;
   match c with Eq => Ret ra_zero | Gt => Ret ra_one | Lt => ra_neg ra_one end)%res.

(** * Reciprocal and logarithms *)
(** algebraic_numbers.rs:631-634: shrink until the interval does not contain zero *)
Fixpoint away_loop (fuel : nat) (s : shrinker) : res shrinker :=
  match fuel with
  | 0 => NoFuel
  | fuel'.+1 =>
      if dfi_contains_zero (sh_itv s) then ('(_, s') <- shrink s ;; away_loop fuel' s')%res
      else Ret s
  end.
(** algebraic_numbers.rs:610-635 remove_zero_from_interval *)
Definition remove_zero (fuel : nat) (a : ralg) : res (option (Sign * shrinker)) :=
  (c <- ra_cmp_with_zero a ;;
   match c with
   | Eq => Ret None
   | Lt =>
       i <- (if (0 <? dhi (itv a))%Z then dfi_set_upper_bound_to_zero (itv a) else Ret (itv a)) ;;
       s <- shrinker_new (mp a) i ;;
       s' <- away_loop fuel s ;; Ret (Some (Negative, s'))
   | Gt =>
       i <- (if (dlo (itv a) <? 0)%Z then dfi_set_lower_bound_to_zero (itv a) else Ret (itv a)) ;;
       s <- shrinker_new (mp a) i ;;
       s' <- away_loop fuel s ;; Ret (Some (Positive, s'))
   end)%res.
(** algebraic_numbers.rs:636-656 checked_recip *)
Definition ra_checked_recip (fuel : nat) (a : ralg) : res (option ralg) :=
  (r <- ra_to_rational a ;;
   match r with
   | Some q =>
       if (Qnum q =? 0)%Z then Ret None
       else rmap (fun q' => Some (ra_from_ratio q')) (ratio_recip q)
   | None =>
       z <- remove_zero fuel a ;;
       s <- unwrap z ;;
       i <- dfi_recip (sh_itv s.2) ;;
       Ret (Some (RA (from_iterator (K := int_coef) (rev (coefficients (mp a)))) i))
   end)%res.
(** algebraic_numbers.rs:657-660 recip *)
Definition ra_recip (fuel : nat) (a : ralg) : res ralg :=
  (r <- ra_checked_recip fuel a ;; unwrap r)%res.

(** algebraic_numbers.rs:797-812 to_integer_log2.  The conversion to i64 is
    not modelled: a logarithm beyond i64 needs a number of 2^63 bits. *)
Definition ra_to_integer_log2 (a : ralg) : res (option Z) :=
  (r <- ra_to_rational a ;;
   match r with
   | None => Ret None
   | Some q =>
       if (Zpos (Qden q) =? 1)%Z then
         match bigint_floor_log2 (Qnum q) with
         | None => Ret None
         | Some f => c <- unwrap (bigint_ceil_log2 (Qnum q)) ;; Ret (if (f =? c)%Z then Some f else None)
         end
       else if (Qnum q =? 1)%Z then
         f <- unwrap (bigint_floor_log2 (Zpos (Qden q))) ;;
         c <- unwrap (bigint_ceil_log2 (Zpos (Qden q))) ;;
         Ret (if (f =? c)%Z then Some (- f)%Z else None)
       else Ret None
   end)%res.
(** algebraic_numbers.rs:831-838 *)
Fixpoint log2_loop (fuel : nat) (floor_ceil : dfi -> option (Z * Z)) (s : shrinker) : res Z :=
  match fuel with
  | 0 => NoFuel
  | fuel'.+1 =>
      ('(l, u) <- unwrap (floor_ceil (sh_itv s)) ;;
       if (l =? u)%Z then Ret l
       else '(_, s') <- shrink s ;; log2_loop fuel' floor_ceil s')%res
  end.
(** algebraic_numbers.rs:813-841 do_checked_floor_ceil_log2 *)
Definition ra_log2 (fuel : nat) (floor_ceil : dfi -> option (Z * Z)) (a : ralg) : res (option Z) :=
  (p <- ra_is_positive a ;;
   if ~~ p then Ret None
   else
     e <- ra_to_integer_log2 a ;;
     match e with
     | Some k => Ret (Some k)
     | None =>
         z <- remove_zero fuel a ;;
         s <- unwrap z ;;
         rmap Some (log2_loop fuel floor_ceil s.2)
     end)%res.
(** algebraic_numbers.rs:842-856 *)
Definition ra_floor_log2 (fuel : nat) (a : ralg) : res (option Z) := ra_log2 fuel dfi_floor_log2 a.
Definition ra_ceil_log2 (fuel : nat) (a : ralg) : res (option Z) := ra_log2 fuel dfi_ceil_log2 a.

(** * Selecting a root of a resultant *)
(** algebraic_numbers.rs:996-1020: one pass over the factors (each given by its
    Sturm sequence) with the bounds of the current interval.  [inl q]: a bound
    is a root and is returned; [inr]: the factors kept and the number of roots
    left. *)
Fixpoint select_pass (lo hi : Q) (l : seq (seq zpoly)) (kept : seq (seq zpoly)) (nleft : nat) :
    Q + (seq (seq zpoly) * nat) :=
  match l with
  | [::] => inr (rev kept, nleft)
  | f :: l' =>
      let cl := sign_changes_at f (At lo) in
      if sc_root cl then inl lo
      else
        let cu := sign_changes_at f (At hi) in
        if sc_root cu then inl hi
        else if sc_count cl != sc_count cu
        then select_pass lo hi l' (f :: kept) (nleft + distance (sc_count cl) (sc_count cu))
        else select_pass lo hi l' kept nleft
  end.
(** algebraic_numbers.rs:955-960: the first polynomial of the sequence *)
Definition into_factor (l : seq zpoly) : zpoly := head (poly_zero int_coef) l.

Section Select.
Variables (St : Type) (get_interval : St -> res dfi) (shrink_interval : St -> res St).
(** algebraic_numbers.rs:991-1031: the loop of select_root; factors.remove(0)
    panics on an empty vector. *)
Fixpoint select_loop (fuel : nat) (st : St) (factors : seq (seq zpoly)) : res ralg :=
  match fuel with
  | 0 => NoFuel
  | fuel'.+1 =>
      (i <- get_interval st ;;
       match select_pass (dfi_lower_bound i) (dfi_upper_bound i) factors [::] 0 with
       | inl q => Ret (ra_from_ratio q)
       | inr (kept, nleft) =>
           if nleft <= 1 then
             match kept with [::] => Panic | f :: _ => Ret (RA (into_factor f) i) end
           else st' <- shrink_interval st ;; select_loop fuel' st' kept
       end)%res
  end.
(** algebraic_numbers.rs:979-1033 select_root *)
Definition select_root (rng : nat -> Z) (ffuel fuel : nat) (st : St) (polynomial : zpoly) : res ralg :=
  ('(_, fs) <- factor_with_rng rng ffuel polynomial ;;
   l <- map_res (fun f : zpoly * nat => to_primitive_sturm f.1) fs ;;
   select_loop fuel st l)%res.
End Select.

(** * Addition and multiplication *)
(** Polynomial::from over the coefficients, collected: the polynomial with
    constant coefficients (algebraic_numbers.rs:725-729, 1050-1054, 1298-1302). *)
Definition const_poly (c : Z) : npoly int_poly_ok := mk_npoly int_poly_okN (from_coef (K := int_coef) c).
Definition lift_poly (p : zpoly) : poly int2_coef :=
  from_iterator (K := int2_coef) [seq const_poly c | c <- coefficients p].
(** algebraic_numbers.rs:923-934 add_eval_point: x - y *)
Definition add_eval_point : poly int2_coef :=
  from_coefs (K := int2_coef)
    [:: mk_npoly int_poly_okN (from_coefs (K := int_coef) [:: 0%Z; 1%Z]);
        mk_npoly int_poly_okN (from_coefs (K := int_coef) [:: (-1)%Z])].
(** algebraic_numbers.rs:937-950: Add<BigInt> and Mul for EvalPoint *)
Definition eval_at_sub (p : zpoly) : poly int2_coef :=
  eval_generic (K := int_coef) (@poly_mul int2_coef)
    (fun (v : poly int2_coef) (c : Z) => poly_add_single (K := int2_coef) v (const_poly c))
    p add_eval_point (poly_zero int2_coef).

(** algebraic_numbers.rs:1050-1060: the polynomial whose roots are the sums *)
Definition add_resultant (p q : zpoly) : res zpoly :=
  rmap (fun r : cf int2_coef => nv r)
    (resultant int2_exact (lift_poly p) (eval_at_sub q)).
(** algebraic_numbers.rs:1289-1303: the polynomial whose roots are the products *)
Definition scaled_poly (p : zpoly) : poly int2_coef :=
  from_iterator (K := int2_coef)
    (rev [seq mk_npoly int_poly_okN (make_monomial (K := int_coef) ci.1 ci.2)
         | ci <- zip (coefficients p) (iota 0 (size (coefficients p)))]).
Definition mul_resultant (p q : zpoly) : res zpoly :=
  rmap (fun r : cf int2_coef => nv r)
    (resultant int2_exact (scaled_poly p) (lift_poly q)).

(** algebraic_numbers.rs:1062-1073, 1304-1315: both operands are shrunk *)
Definition shrink_both (st : shrinker * shrinker) : res (shrinker * shrinker) :=
  ('(_, a) <- shrink st.1 ;; '(_, b) <- shrink st.2 ;; Ret (a, b))%res.

(** Ratio<BigInt> addition and multiplication *)
Definition ratio_add (a b : Q) : Q := Qred (a + b).
Definition ratio_mul (a b : Q) : Q := Qred (a * b).

Section Ops.
Variables (rng : nat -> Z) (ffuel fuel : nat).

(** algebraic_numbers.rs:1035-1083 add_assign *)
Definition ra_add (a b : ralg) : res ralg :=
  (ra <- ra_is_rational a ;;
   rb <- (if ra then ra_is_rational b else Ret false) ;;
   if rb then
     qa <- ra_to_rational a ;; qa <- unwrap qa ;;
     qb <- ra_to_rational b ;; qb <- unwrap qb ;;
     Ret (ra_from_ratio (ratio_add qa qb))
   else if ra_is_zero b then Ret a
   else if ra_is_zero a then Ret b
   else
     r <- add_resultant (mp a) (mp b) ;;
     sa <- ra_shrinker a ;;
     sb <- ra_shrinker b ;;
     select_root (fun st => Ret (dfi_add (sh_itv st.1) (sh_itv st.2))) shrink_both rng ffuel fuel (sa, sb) r)%res.
(** algebraic_numbers.rs:1146-1156 sub_assign *)
Definition ra_sub (a b : ralg) : res ralg := (n <- ra_neg b ;; ra_add a n)%res.

(** algebraic_numbers.rs:1269-1323 mul_assign *)
Definition ra_mul (a b : ralg) : res ralg :=
  (ra <- ra_is_rational a ;;
   rb <- (if ra then ra_is_rational b else Ret false) ;;
   if rb then
     qa <- ra_to_rational a ;; qa <- unwrap qa ;;
     qb <- ra_to_rational b ;; qb <- unwrap qb ;;
     Ret (ra_from_ratio (ratio_mul qa qb))
   else if ra_is_zero a || ra_is_zero b then Ret ra_zero
   else if ra_is_one b then Ret a
   else if ra_is_one a then Ret b
   else
     r <- mul_resultant (mp a) (mp b) ;;
     sa <- ra_shrinker a ;;
     sb <- ra_shrinker b ;;
     select_root (fun st => Ret (dfi_mul (sh_itv st.1) (sh_itv st.2))) shrink_both rng ffuel fuel (sa, sb) r)%res.

(** algebraic_numbers.rs:1359-1370, 1380-1412: checked_exact_div *)
Definition ra_checked_div (a b : ralg) : res (option ralg) :=
  (r <- ra_checked_recip fuel b ;;
   match r with None => Ret None | Some ib => rmap Some (ra_mul a ib) end)%res.
(** algebraic_numbers.rs:1414-1452 Div, through exact_div (traits.rs) *)
Definition ra_div (a b : ralg) : res ralg := (r <- ra_checked_div a b ;; unwrap r)%res.
(** algebraic_numbers.rs:1460-1464 rem_assign *)
Definition ra_rem (a b : ralg) : res ralg :=
  (d <- ra_div a b ;; t <- ra_trunc fuel d ;; m <- ra_mul t b ;; ra_sub a m)%res.

(** algebraic_numbers.rs:519-542 into_fract, fract; Ratio::fract truncates
    towards zero. *)
Definition ratio_fract (q : Q) : Q := Qred (Z.rem (Qnum q) (Zpos (Qden q)) # Qden q).
Definition ra_fract (a : ralg) : res ralg :=
  (r <- ra_to_rational a ;;
   match r with
   | Some q => Ret (ra_from_ratio (ratio_fract q))
   | None =>
       s <- ra_shrinker a ;;
       fs <- floor_loop fuel s ;;
       ra_sub (RA (mp a) (sh_itv fs.2)) (ra_from_int fs.1)
   end)%res.

(** algebraic_numbers.rs:1249-1267 PartialEq, PartialOrd, Ord *)
Definition ra_eqb (a b : ralg) : res bool := rmap ra_is_zero (ra_sub a b).
Definition ra_cmp (a b : ralg) : res comparison := (d <- ra_sub a b ;; ra_cmp_with_zero d)%res.
(** algebraic_numbers.rs:1218-1225 abs_sub *)
Definition ra_abs_sub (a b : ralg) : res ralg :=
  (d <- ra_sub a b ;; n <- ra_is_negative d ;; Ret (if n then ra_zero else d))%res.

(** * Powers *)
(** algebraic_numbers.rs:731-734: x^d - y^n, as a polynomial in y *)
Definition pow_rhs (n d : nat) : poly int2_coef :=
  poly_add_single (K := int2_coef)
    (make_monomial (K := int2_coef) (mk_npoly int_poly_okN (poly_neg (poly_one int_coef))) n)
    (mk_npoly int_poly_okN (make_monomial (K := int_coef) 1%Z d)).
Definition pow_resultant (p : zpoly) (n d : nat) : res zpoly :=
  rmap (fun r : cf int2_coef => nv r) (resultant int2_exact (lift_poly p) (pow_rhs n d)).
(** algebraic_numbers.rs:742-763 PowRootSelector::get_interval; [ln2 k] is what
    natural_log_of_2(k) returns (M_Cache). *)
Definition pow_interval (ln2 : nat -> res dfi) (e : Q) (sign : Sign) (s : shrinker) : res dfi :=
  let i := dfi_abs (sh_itv s) in
  let lz := (dlo i =? 0)%Z in
  if (dhi i =? 0)%Z then assert_then lz (Ret i)
  else
    let i := if lz then dfi_set_to_upper_bound i else i in
    (i <- dfi_log ln2 i ;;
     let i := dfi_mul_ratio i e in
     i <- dfi_exp ln2 i ;;
     i <- (if lz then dfi_set_lower_bound_to_zero i else Ret i) ;;
     Ret (if sign is Positive then i else dfi_neg i))%res.
Definition ratio_is_integer (q : Q) : bool := (Zpos (Qden q) =? 1)%Z.
(** algebraic_numbers.rs:670-790 checked_pow_impl *)
Definition ra_checked_pow (ln2 : nat -> res dfi) (base : ralg) (e : Q) : res (option ralg) :=
  if (Qnum e =? 0)%Z then Ret (if ra_is_zero base then None else Some ra_one)
  else if (Qnum e =? 1)%Z && ratio_is_integer e then Ret (Some base)
  else if (Qnum e =? -1)%Z && ratio_is_integer e then ra_checked_recip fuel base
  else if ra_is_zero base then Ret (if (Qnum e <? 0)%Z then None else Some ra_zero)
  else if ra_is_one base then Ret (Some ra_one)
  else if ra_is_negative_one base then
    Ret (if ratio_is_integer e then Some (if Z.odd (Qnum e) then ra_negative_one else ra_one) else None)
  else
    (neg <- ra_is_negative base ;;
     if neg && ~~ ratio_is_integer e then Ret None
     else
       let sign := if neg && Z.odd (Qnum e) then Negative else Positive in
       n <- unwrap (to_usize (Z.abs (Qnum e))) ;;
       d <- unwrap (to_usize (Zpos (Qden e))) ;;
       br <- (if d == 1 then ra_to_rational base else Ret None) ;;
       match br with
       | Some q =>
           let '(nu, de) := if (Qnum e <? 0)%Z then (Zpos (Qden q), Qnum q) else (Qnum q, Zpos (Qden q)) in
           rmap (fun q' => Some (ra_from_ratio q')) (ratio_new (nu ^ Z.of_nat n) (de ^ Z.of_nat n))
       | None =>
           base <- (if (Qnum e <? 0)%Z then ra_recip fuel base else Ret base) ;;
           r <- pow_resultant (mp base) n d ;;
           s <- ra_shrinker base ;;
           e' <- ratio_new (Z.of_nat n) (Z.of_nat d) ;;
           rmap Some (select_root (pow_interval ln2 e' sign) (fun s => rmap snd (shrink s)) rng ffuel fuel s r)
       end)%res.
(** algebraic_numbers.rs:1494-1507 Pow *)
Definition ra_pow (ln2 : nat -> res dfi) (base : ralg) (e : Q) : res ralg :=
  (r <- ra_checked_pow ln2 base e ;; unwrap r)%res.
End Ops.
