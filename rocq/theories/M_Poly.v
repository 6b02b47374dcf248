(** Model of /repo/src/polynomial.rs, add_sub.rs, mul.rs, div_rem.rs (in
    /repo/src/polynomial): single-variable polynomials over a coefficient type.

    [Cow], references and the by-value/by-reference/assigning variants of one
    operation are not distinguished.  [usize] is [nat]. *)
From Coq Require Import ZArith QArith Qcanon List.
Set Warnings "-notation-overridden".
From mathcomp Require Import ssreflect ssrfun ssrbool eqtype ssrnat seq.
From Verif Require Import M_Base M_Traits.
Set Implicit Arguments.
Unset Strict Implicit.
Unset Printing Implicit Defensive.
Local Open Scope nat_scope.

(** * Coefficient types *)

(** polynomial.rs:66-227 trait PolynomialCoefficient.  [elt] = Element, [dvr] =
    Divisor, [cf] = Self.  The make_zero/one functions take a sample element in
    the code because a modular integer needs its modulus; here a coefficient
    type has one zero and one one (all elements of one polynomial share one
    modulus).  Arithmetic on elements and coefficients is total: it is exact
    for BigInt and rationals, and for modular integers it is total when the
    moduli agree (T_ModInt.v). *)
Record pcoef := PCoef {
  elt : Type;
  dvr : Type;
  cf : Type;
  e_zero : elt;
  e_one : elt;
  e_is_zero : elt -> bool;
  e_is_one : elt -> bool;
  e_add : elt -> elt -> elt;
  e_sub : elt -> elt -> elt;
  e_mul : elt -> elt -> elt;
  e_neg : elt -> elt;
  e_mul_usize : elt -> nat -> elt;
  d_one : dvr;
  d_is_one : dvr -> bool;
  d_mul : dvr -> dvr -> dvr;
  d_exact_div : dvr -> dvr -> dvr;
  d_gcd : dvr -> dvr -> dvr;
  d_lcm : dvr -> dvr -> dvr;
  d_to_elt : dvr -> elt;
  c_zero : cf;
  c_one : cf;
  c_is_zero : cf -> bool;
  c_add : cf -> cf -> cf;
  c_mul : cf -> cf -> cf;
  c_neg : cf -> cf;
  c_pow_usize : cf -> nat -> res cf;
  coefs_to_elts : seq cf -> seq elt * dvr;
  make_coef : elt -> dvr -> cf;
  coef_to_elt : cf -> elt * dvr;
  reduce_divisor : seq elt -> dvr -> seq elt * dvr
}.

(** The loop shared by polynomial.rs:164-223 and mul.rs:199-213: exponent
    halving with an optional accumulator.  [positive] is the binary exponent,
    so "% 2" and "/= 2" are its constructors. *)
Definition pow_acc {A} (mul : A -> A -> A) (retval : option A) (base : A) : A :=
  match retval with None => base | Some r => mul r base end.
Fixpoint pow_pos_loop {A} (mul : A -> A -> A) (retval : option A) (base : A)
    (e : positive) : A :=
  match e with
  | xH => pow_acc mul retval base
  | xO e' => pow_pos_loop mul retval (mul base base) e'
  | xI e' => pow_pos_loop mul (Some (pow_acc mul retval base)) (mul base base) e'
  end.
(** polynomial.rs:164-223 divisor/element/coefficient_pow_usize *)
Definition pow_usize {A} (one : A) (mul : A -> A -> A) (base : A) (n : nat) : A :=
  match N.of_nat n with
  | N0 => one
  | Npos e => pow_pos_loop mul None base e
  end.

(** traits ExactDiv for coefficients: [ex_div] panics, [ex_checked] is the
    checked variant. *)
Record pexact (K : pcoef) := PExact {
  ex_div : cf K -> cf K -> res (cf K);
  ex_checked : cf K -> cf K -> res (option (cf K))
}.

(** * Polynomials *)
Section Poly.
Variable K : pcoef.

(** polynomial.rs:828-832 *)
Record poly := MkPoly { els : seq (elt K); dv : dvr K }.

(** The trailing-zero popping loop of polynomial.rs:1209-1214, 861-866 on the
    reversed vector. *)
Fixpoint pop_zeros {A} (isz : A -> bool) (l : seq A) : seq A :=
  match l with
  | [::] => [::]
  | x :: l' => if isz x then pop_zeros isz l' else l
  end.
Definition strip {A} (isz : A -> bool) (l : seq A) : seq A :=
  rev (pop_zeros isz (rev l)).

(** polynomial.rs:1208-1220 normalize *)
Definition normalize (p : poly) : poly :=
  let '(es, d) := reduce_divisor (strip (@e_is_zero K) (els p)) (dv p) in
  MkPoly es d.

(** polynomial.rs:840-847 default, add_sub.rs:177-188 *)
Definition poly_zero : poly := MkPoly [::] (d_one K).
Definition poly_is_zero (p : poly) : bool := nilp (els p).
(** mul.rs:158-167 one *)
Definition poly_one : poly := MkPoly [:: e_one K] (d_one K).
(** mul.rs:151-156, 178-183 is_one *)
Definition poly_is_one (p : poly) : bool :=
  match els p with [:: e] => e_is_one e && d_is_one (dv p) | _ => false end.

(** polynomial.rs:849-878, 1018-1022 From<Cow<[T]>>, From<Vec<T>>, arrays *)
Definition from_coefs (cs : seq (cf K)) : poly :=
  let '(es, d) := coefs_to_elts (strip (@c_is_zero K) cs) in MkPoly es d.
(** polynomial.rs:1024-1050 From<T> *)
Definition from_coef (c : cf K) : poly :=
  let '(e, d) := coef_to_elt c in
  if e_is_zero e then poly_zero else MkPoly [:: e] d.
(** polynomial.rs:1133-1137 From<(Vec<Element>, Divisor)> *)
Definition from_parts (es : seq (elt K)) (d : dvr K) : poly := normalize (MkPoly es d).
(** polynomial.rs:224-226, 834-838 FromIterator *)
Definition from_iterator (cs : seq (cf K)) : poly :=
  let '(es, d) := coefs_to_elts cs in from_parts es d.
(** polynomial.rs:1146-1156 make_monomial *)
Definition make_monomial (c : cf K) (n : nat) : poly :=
  if c_is_zero c then poly_zero
  else let '(e, d) := coef_to_elt c in MkPoly (nseq n (e_zero K) ++ [:: e]) d.

(** polynomial.rs:1157-1162 nonzero_coefficient *)
Definition nonzero_coefficient (p : poly) (i : nat) : option (cf K) :=
  match drop i (els p) with [::] => None | e :: _ => Some (make_coef e (dv p)) end.
(** polynomial.rs:1163-1168 coefficient *)
Definition coefficient (p : poly) (i : nat) : cf K :=
  match nonzero_coefficient p i with Some c => c | None => c_zero K end.
(** polynomial.rs:1199-1207 len, degree *)
Definition poly_len (p : poly) : nat := size (els p).
Definition degree (p : poly) : option nat :=
  match size (els p) with O => None | S n => Some n end.
Definition degree_or_0 (p : poly) : nat := match degree p with Some n => n | None => 0 end.
(** polynomial.rs:1169-1182 *)
Definition nonzero_lead (p : poly) : option (cf K) :=
  match degree p with None => None | Some n => nonzero_coefficient p n end.
Definition lead (p : poly) : cf K :=
  match nonzero_lead p with Some c => c | None => c_zero K end.
(** polynomial.rs:1183-1189, 1193-1198, 1122-1131 into_coefficients, iter, into_iter *)
Definition coefficients (p : poly) : seq (cf K) :=
  [seq make_coef e (dv p) | e <- els p].

(** polynomial.rs:1221-1223 negate *)
Definition negate (p : poly) : poly := MkPoly [seq e_neg e | e <- els p] (dv p).
(** add_sub.rs:292-304 Neg *)
Definition poly_neg (p : poly) : poly :=
  from_coefs [seq c_neg c | c <- coefficients p].

(** add_sub.rs:39-44, the element loop; [l] already extended. *)
Fixpoint add_sub_loop (op : elt K -> elt K -> elt K) (lm rm : elt K)
    (l r : seq (elt K)) : seq (elt K) :=
  match l with
  | [::] => [::]
  | x :: l' =>
      let x' := e_mul x lm in
      match r with
      | [::] => x' :: add_sub_loop op lm rm l' [::]
      | y :: r' => op x' (e_mul y rm) :: add_sub_loop op lm rm l' r'
      end
  end.
(** add_sub.rs:16-46 add_sub_assign *)
Definition add_sub_assign (op : elt K -> elt K -> elt K) (p q : poly) : poly :=
  if nilp (els p) && nilp (els q) then p
  else
    let g := d_gcd (dv p) (dv q) in
    let lm := d_to_elt (d_exact_div (dv q) g) in
    let rm := d_to_elt (d_exact_div (dv p) g) in
    let l := els p ++ nseq (size (els q) - size (els p)) (e_zero K) in
    normalize (MkPoly (add_sub_loop op lm rm l (els q)) (d_lcm (dv p) (dv q))).
Definition poly_add := add_sub_assign (@e_add K).
Definition poly_sub := add_sub_assign (@e_sub K).
(** add_sub.rs:48-74 add_sub_assign_single: note the multipliers (divisor * gcd). *)
Definition add_sub_assign_single (op : elt K -> elt K -> elt K) (p : poly) (c : cf K) : poly :=
  let '(rn, rd) := coef_to_elt c in
  let g := d_gcd (dv p) rd in
  let lm := d_to_elt (d_mul (dv p) g) in
  let rm := d_to_elt (d_mul g rd) in
  let '(x, l) := match els p with [::] => (e_zero K, [::]) | x :: l => (x, l) end in
  normalize (MkPoly (op (e_mul x lm) (e_mul rn rm) :: l) (d_lcm (dv p) rd)).
Definition poly_add_single := add_sub_assign_single (@e_add K).
Definition poly_sub_single := add_sub_assign_single (@e_sub K).

(** mul.rs:23-32: one step of the inner loop; [acc] is the growing vector. *)
Definition mul_step (acc : seq (elt K)) (i : nat) (v : elt K) : seq (elt K) :=
  if i == size acc then rcons acc v
  else set_nth (e_zero K) acc i (e_add (nth (e_zero K) acc i) v).
(** mul.rs:22-33 inner loop over r_index, [i] = l_index + r_index *)
Fixpoint mul_inner (acc : seq (elt K)) (i : nat) (x : elt K) (r : seq (elt K)) : seq (elt K) :=
  match r with
  | [::] => acc
  | y :: r' => mul_inner (mul_step acc i (e_mul x y)) i.+1 x r'
  end.
(** mul.rs:21-33 outer loop over l_index *)
Fixpoint mul_outer (acc : seq (elt K)) (i : nat) (l r : seq (elt K)) : seq (elt K) :=
  match l with
  | [::] => acc
  | x :: l' => mul_outer (mul_inner acc i x r) i.+1 l' r
  end.
(** mul.rs:12-36 Mul *)
Definition poly_mul (p q : poly) : poly :=
  if poly_is_zero p || poly_is_zero q then poly_zero
  else normalize (MkPoly (mul_outer [::] 0 (els p) (els q)) (d_mul (dv p) (dv q))).
(** mul.rs:77-109 mul_single *)
Definition poly_mul_single (p : poly) (c : cf K) : poly :=
  let '(rn, rd) := coef_to_elt c in
  normalize (MkPoly [seq e_mul e rn | e <- els p] (d_mul rd (dv p))).

(** polynomial.rs:1506-1512 to_one_if_nonzero *)
Definition to_one_if_nonzero (p : poly) : option poly :=
  match els p with [::] => None | _ :: _ => Some poly_one end.

(** mul.rs:187-215 checked_pow; the exponent is any integer. *)
Definition poly_checked_pow (p : poly) (e : Z) : option poly :=
  match e with
  | Zneg _ => None
  | Z0 => to_one_if_nonzero p
  | Zpos xH => Some p
  | Zpos e' => Some (pow_pos_loop poly_mul None p e')
  end.
(** mul.rs:217-229 pow *)
Definition poly_pow (p : poly) (e : Z) : res poly := unwrap (poly_checked_pow p e).

(** polynomial.rs:1417-1447 derivative: (index + 1) * element over the tail. *)
Fixpoint derivative_loop (i : nat) (l : seq (elt K)) : seq (elt K) :=
  match l with
  | [::] => [::]
  | x :: l' => e_mul_usize x i.+1 :: derivative_loop i.+1 l'
  end.
Definition derivative (p : poly) : poly :=
  match els p with
  | [::] => p
  | _ :: l => normalize (MkPoly (derivative_loop 0 l) (dv p))
  end.

(** polynomial.rs:1448-1476 eval_generic: the result type [V] has [Mul<V>] and
    [Add<T>]. *)
Definition eval_generic {V} (vmul : V -> V -> V) (vadd : V -> cf K -> V)
    (p : poly) (at_ zero : V) : V :=
  foldl (fun acc c => vadd (vmul acc at_) c) zero (rev (coefficients p)).
(** polynomial.rs:1477-1488 eval *)
Definition eval (p : poly) (at_ : cf K) : cf K :=
  eval_generic (@c_mul K) (@c_add K) p at_ (c_zero K).

(** * Division *)

(** div_rem.rs:50-55: subtract qc * denominator (without its last element) from
    [rem] starting at index [i]; [rem] is the slice from that index on. *)
Fixpoint sub_scaled (qc : elt K) (rem den : seq (elt K)) : seq (elt K) :=
  match rem, den with
  | x :: rem', y :: den' => e_sub x (e_mul qc y) :: sub_scaled qc rem' den'
  | _, _ => rem
  end.
(** div_rem.rs:44-57: [n] iterations remain, quotient_index = n - 1; [den] is
    the denominator without its last element [dl].  Returns the quotient
    coefficients (lowest first, [reverse] at line 58 included) and the
    remainder.  [last]/[belast] model [pop]; an empty remainder panics in the
    code and cannot happen when the lengths match. *)
Fixpoint pdr_loop (n : nat) (rem den : seq (elt K)) (dl : elt K) (q : seq (elt K)) :
    seq (elt K) * seq (elt K) :=
  match n with
  | O => (q, rem)
  | S n' =>
      let qc := last (e_zero K) rem in
      let rem1 := [seq e_mul e dl | e <- take (size rem).-1 rem] in
      let rem2 := take n' rem1 ++ sub_scaled qc (drop n' rem1) den in
      pdr_loop n' rem2 den dl (qc :: q)
  end.
(** div_rem.rs:60-64: scale the quotient; returns it with the final factor. *)
Fixpoint scale_quotient (factor dl : elt K) (q : seq (elt K)) : seq (elt K) * elt K :=
  match q with
  | [::] => ([::], factor)
  | x :: q' =>
      let '(r, f) := scale_quotient (e_mul factor dl) dl q' in
      (e_mul x factor :: r, f)
  end.
(** div_rem.rs:36-70 element_pseudo_div_rem: (quotient, remainder, factor) *)
Definition element_pseudo_div_rem (num den : seq (elt K)) (qlen : nat) :
    seq (elt K) * seq (elt K) * elt K :=
  let dl := last (e_zero K) den in
  let '(q, rem) := pdr_loop qlen num (take (size den).-1 den) dl [::] in
  match q with
  | [::] => ([::], rem, dl)
  | q0 :: q' => let '(r, f) := scale_quotient dl dl q' in (q0 :: r, rem, f)
  end.

(** polynomial.rs:814-819 *)
Record pdr := PDR { pd_quo : poly; pd_rem : poly; pd_fac : cf K }.

(** div_rem.rs:72-113 checked_pseudo_div_rem; quotient_len (20-27) inlined. *)
Definition checked_pseudo_div_rem (p q : poly) : option pdr :=
  if poly_is_zero q then None
  else if size (els p) < size (els q) then
    Some (PDR poly_zero p (make_coef (e_one K) (d_one K)))
  else
    let qlen := (size (els p)).+1 - size (els q) in
    let '(qn, rn, fn) := element_pseudo_div_rem (els p) (els q) qlen in
    let dp1 := pow_usize (d_one K) (@d_mul K) (dv q) qlen.-1 in
    let dp := d_mul dp1 (dv q) in
    Some (PDR (from_parts qn (d_mul dp1 (dv p)))
              (from_parts rn (d_mul dp (dv p)))
              (make_coef fn dp)).
(** div_rem.rs:114-117 *)
Definition pseudo_div_rem (p q : poly) : res pdr := unwrap (checked_pseudo_div_rem p q).
(** div_rem.rs:118-126 *)
Definition exact_pseudo_div (p q : poly) : res (poly * cf K) :=
  (r <- pseudo_div_rem p q ;;
   assert_then (poly_is_zero (pd_rem r)) (Ret (pd_quo r, pd_fac r)))%res.
(** div_rem.rs:127-138 *)
Definition checked_exact_pseudo_div (p q : poly) : option (poly * cf K) :=
  match checked_pseudo_div_rem p q with
  | None => None
  | Some r => if poly_is_zero (pd_rem r) then Some (pd_quo r, pd_fac r) else None
  end.

Section Div.
Variable X : pexact K.

(** Iterator [map] followed by [collect], the function may panic. *)
Fixpoint map_res {A B} (f : A -> res B) (l : seq A) : res (seq B) :=
  match l with
  | [::] => Ret [::]
  | x :: l' => (y <- f x ;; ys <- map_res f l' ;; Ret (y :: ys))%res
  end.
(** [collect::<Option<Vec<_>>>]: stops at the first None. *)
Fixpoint map_res_opt {A B} (f : A -> res (option B)) (l : seq A) : res (option (seq B)) :=
  match l with
  | [::] => Ret (Some [::])
  | x :: l' =>
      (y <- f x ;;
       match y with
       | None => Ret None
       | Some y => (ys <- map_res_opt f l' ;; Ret (omap (cons y) ys))%res
       end)%res
  end.

(** div_rem.rs:294-321, 353-409, 415-421, 427-433, 439-443 division of a
    polynomial by a coefficient ([Div<T>] and [exact_div]) *)
Definition div_single (p : poly) (c : cf K) : res poly :=
  rmap from_coefs (map_res (fun x => ex_div X x c) (coefficients p)).
(** div_rem.rs:323-343 checked_exact_div by a coefficient *)
Definition checked_div_single (p : poly) (c : cf K) : res (option poly) :=
  rmap (omap from_coefs) (map_res_opt (fun x => ex_checked X x c) (coefficients p)).
(** div_rem.rs:345-351 checked_exact_div_assign by a coefficient: the new value
    of the left operand and success.  The operand was moved out. *)
Definition checked_div_assign_single (p : poly) (c : cf K) : res (poly * bool) :=
  (o <- checked_div_single p c ;;
   Ret (match o with Some v => (v, true) | None => (poly_zero, false) end))%res.

(** div_rem.rs:142-152 checked_div_rem *)
Definition checked_div_rem (p q : poly) : res (option (poly * poly)) :=
  match checked_pseudo_div_rem p q with
  | None => Ret None
  | Some r =>
      (a <- checked_div_single (pd_quo r) (pd_fac r) ;;
       match a with
       | None => Ret None
       | Some a =>
           (b <- checked_div_single (pd_rem r) (pd_fac r) ;;
            Ret (omap (fun b => (a, b)) b))%res
       end)%res
  end.
(** div_rem.rs:153-160 div_rem *)
Definition div_rem (p q : poly) : res (poly * poly) :=
  (r <- pseudo_div_rem p q ;;
   a <- div_single (pd_quo r) (pd_fac r) ;;
   b <- div_single (pd_rem r) (pd_fac r) ;;
   Ret (a, b))%res.
(** div_rem.rs:163-170 CheckedDiv *)
Definition checked_div (p q : poly) : res (option poly) :=
  match checked_pseudo_div_rem p q with
  | None => Ret None
  | Some r => checked_div_single (pd_quo r) (pd_fac r)
  end.
(** div_rem.rs:172-179 CheckedRem *)
Definition checked_rem (p q : poly) : res (option poly) :=
  match checked_pseudo_div_rem p q with
  | None => Ret None
  | Some r => checked_div_single (pd_rem r) (pd_fac r)
  end.
(** div_rem.rs:183-191, 222-230 Div *)
Definition poly_div (p q : poly) : res poly :=
  (r <- pseudo_div_rem p q ;; div_single (pd_quo r) (pd_fac r))%res.
(** div_rem.rs:193-201, 232-240 Rem *)
Definition poly_rem (p q : poly) : res poly :=
  (r <- pseudo_div_rem p q ;; div_single (pd_rem r) (pd_fac r))%res.
(** div_rem.rs:203-208, 246-249 exact_div *)
Definition exact_div (p q : poly) : res poly :=
  ('(a, f) <- exact_pseudo_div p q ;; div_single a f)%res.
(** div_rem.rs:209-213, 250-253 checked_exact_div *)
Definition checked_exact_div (p q : poly) : res (option poly) :=
  match checked_exact_pseudo_div p q with
  | None => Ret None
  | Some (a, f) => checked_div_single a f
  end.
(** div_rem.rs:279-286 checked_exact_div_assign by a polynomial *)
Definition checked_exact_div_assign (p q : poly) : res (poly * bool) :=
  (o <- checked_exact_div p q ;;
   Ret (match o with Some v => (v, true) | None => (p, false) end))%res.

(** div_rem.rs:487-502: the powmod loop *)
Definition powmod_acc (m : poly) (retval : option poly) (base : poly) : res (option poly) :=
  match retval with
  | None => Ret (Some base)
  | Some r => checked_rem (poly_mul r base) m
  end.
Fixpoint powmod_loop (m : poly) (retval : option poly) (base : poly) (e : positive) :
    res (option poly) :=
  match e with
  | xH => powmod_acc m retval base
  | xO e' =>
      (b <- checked_rem (poly_mul base base) m ;;
       match b with None => Ret None | Some b => powmod_loop m retval b e' end)%res
  | xI e' =>
      (r <- powmod_acc m retval base ;;
       match r with
       | None => Ret None
       | Some r =>
           (b <- checked_rem (poly_mul base base) m ;;
            match b with None => Ret None | Some b => powmod_loop m (Some r) b e' end)%res
       end)%res
  end.
(** div_rem.rs:472-503 checked_powmod *)
Definition checked_powmod (p : poly) (e : Z) (m : poly) : res (option poly) :=
  match e with
  | Zneg _ => Ret None
  | Z0 => Ret (to_one_if_nonzero p)
  | Zpos xH => checked_rem p m
  | Zpos e' =>
      (b <- checked_rem p m ;;
       match b with None => Ret None | Some b => powmod_loop m None b e' end)%res
  end.
(** div_rem.rs:504-507 *)
Definition powmod (p : poly) (e : Z) (m : poly) : res poly :=
  (o <- checked_powmod p e m ;; unwrap o)%res.

End Div.
End Poly.

(** * Coefficient type instances *)

(** polynomial.rs:577-701 BigInt: Element = BigInt, Divisor = DivisorIsOne. *)
Definition int_coef : pcoef := {|
  elt := Z; dvr := unit; cf := Z;
  e_zero := 0%Z; e_one := 1%Z;
  e_is_zero := Z.eqb 0; e_is_one := Z.eqb 1;
  e_add := Z.add; e_sub := Z.sub; e_mul := Z.mul; e_neg := Z.opp;
  e_mul_usize := fun e n => Z.mul e (Z.of_nat n);
  d_one := tt; d_is_one := fun _ => true; d_mul := fun _ _ => tt;
  d_exact_div := fun _ _ => tt; d_gcd := fun _ _ => tt; d_lcm := fun _ _ => tt;
  d_to_elt := fun _ => 1%Z;
  c_zero := 0%Z; c_one := 1%Z; c_is_zero := Z.eqb 0;
  c_add := Z.add; c_mul := Z.mul; c_neg := Z.opp;
  c_pow_usize := fun c n => Ret (pow_usize 1%Z Z.mul c n);
  coefs_to_elts := fun cs => (cs, tt);
  make_coef := fun e _ => e;
  coef_to_elt := fun c => (c, tt);
  reduce_divisor := fun es d => (es, d)
|}.
(** traits.rs:641-669 ExactDiv for BigInt *)
Definition int_exact : pexact int_coef :=
  @PExact int_coef bigint_exact_div (fun a b => Ret (bigint_checked_exact_div a b)).

(** polynomial.rs:418-437 reduce_divisor for Ratio: gcd of all elements and the
    divisor; the divisions are exact.  [positive]: divisors are products,
    quotients and least common multiples of (positive) denominators. *)
Definition ratio_reduce_divisor (es : seq Z) (d : positive) : seq Z * positive :=
  match es with
  | [::] => ([::], 1%positive)
  | e :: es' =>
      let g := foldl Z.gcd (Z.gcd e (Zpos d)) es' in
      if (g =? 1)%Z then (es, d)
      else ([seq Z.quot x g | x <- es], Z.to_pos (Z.quot (Zpos d) g))
  end.
(** polynomial.rs:384-414 coefficients_to_elements for Ratio *)
Definition pos_lcm (a b : positive) : positive := Z.to_pos (Z.lcm (Zpos a) (Zpos b)).
Definition pos_gcd (a b : positive) : positive := Z.to_pos (Z.gcd (Zpos a) (Zpos b)).
Definition pos_quot (a b : positive) : positive := Z.to_pos (Z.quot (Zpos a) (Zpos b)).
Definition ratio_coefs_to_elts (cs : seq Qc) : seq Z * positive :=
  match cs with
  | [::] => ([::], 1%positive)
  | [:: c] => ([:: Qnum c], Qden c)
  | c :: cs' =>
      let d := foldl (fun d (v : Qc) => pos_lcm d (Qden v)) (Qden c) cs' in
      ([seq Z.mul (Qnum (this v)) (Z.quot (Zpos d) (Zpos (Qden v))) | v <- cs], d)
  end.
(** polynomial.rs:276-463 Ratio<BigInt>: Element = Divisor = BigInt. *)
Definition ratio_coef : pcoef := {|
  elt := Z; dvr := positive; cf := Qc;
  e_zero := 0%Z; e_one := 1%Z;
  e_is_zero := Z.eqb 0; e_is_one := Z.eqb 1;
  e_add := Z.add; e_sub := Z.sub; e_mul := Z.mul; e_neg := Z.opp;
  e_mul_usize := fun e n => Z.mul e (Z.of_nat n);
  d_one := 1%positive; d_is_one := Pos.eqb 1; d_mul := Pos.mul;
  d_exact_div := pos_quot; d_gcd := pos_gcd; d_lcm := pos_lcm;
  d_to_elt := Zpos;
  c_zero := 0%Qc; c_one := 1%Qc; c_is_zero := fun c => (Qnum (this c) =? 0)%Z;
  c_add := Qcplus; c_mul := Qcmult; c_neg := Qcopp;
  c_pow_usize := fun c n => Ret (pow_usize 1%Qc Qcmult c n);
  coefs_to_elts := ratio_coefs_to_elts;
  make_coef := fun e d => Q2Qc (e # d);
  coef_to_elt := fun c => (Qnum (this c), Qden (this c));
  reduce_divisor := ratio_reduce_divisor
|}.
(** traits.rs:578-594 ExactDiv for Ratio: only a zero divisor fails. *)
Definition ratio_exact : pexact ratio_coef :=
  @PExact ratio_coef
    (fun a b => if (Qnum (this b) =? 0)%Z then Panic else Ret (Qcdiv a b))
    (fun a b => Ret (if (Qnum (this b) =? 0)%Z then None else Some (Qcdiv a b))).
