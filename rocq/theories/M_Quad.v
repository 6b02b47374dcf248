(** Model of /repo/src/quadratic_numbers.rs: roots of quadratic polynomials with
    big-integer coefficients ([to_f64] is in M_QuadF64).  Not modelled: the conversions between
    fixed-width integers and BigInt, and the operations whose bodies are
    [unimplemented!()] (checked_rem, checked_mul, checked_div, abs_sub,
    from_str_radix), which always panic.  [debug_assert!] is modelled as
    [assert!]. *)
From Coq Require Import ZArith List Bool.
From Verif Require Import M_Base M_Traits M_Interval.
Local Open Scope Z_scope.

(** quadratic_numbers.rs:24-29 QuadraticPolynomial and 97-100
    RealQuadraticNumber: constant, linear and quadratic term *)
Record quad := Quad { qc : Z; qb : Z; qa : Z }.

(** 36-46 Neg for QuadraticPolynomial, also 73-84 swapped_roots *)
Definition poly_neg (p : quad) : quad := Quad (- qc p) (- qb p) (- qa p).

(** 64-72 discriminant *)
Definition discriminant (p : quad) : Z := qb p * qb p - qa p * qc p * 4.

(** 88 (derive PartialEq) *)
Definition quad_eqb (x y : quad) : bool :=
  (qc x =? qc y) && (qb x =? qb y) && (qa x =? qa y).

(** 301-309 from_negated_integer, 310-312 from_integer *)
Definition from_integer (v : Z) : quad := Quad (- v) 1 0.

(** 102-112 Default, 120-123 zero, 132-135 one *)
Definition quad_default : quad := Quad 0 1 0.
Definition quad_zero : quad := from_integer 0.
Definition quad_one : quad := from_integer 1.

(** 124-128 is_zero, 136-140 is_one *)
Definition quad_is_zero (x : quad) : bool := (qc x =? 0) && (qb x =? 1) && (qa x =? 0).
Definition quad_is_one (x : quad) : bool := (qc x =? -1) && (qb x =? 1) && (qa x =? 0).

(** 342-349 from_ratio_non_inf; [/] on BigInt truncates and panics on zero *)
Definition zdiv (a b : Z) : res Z := if b =? 0 then Panic else Ret (Z.quot a b).
Definition from_ratio_non_inf (n d : Z) : res quad :=
  let gcd := int_gcd n d in
  let neg_gcd := - gcd in
  let '(gcd, neg_gcd) := if d <? 0 then (neg_gcd, gcd) else (gcd, neg_gcd) in
  (c <- zdiv n neg_gcd ;; b <- zdiv d gcd ;; Ret (Quad c b 0))%res.

(** 350-358 from_ratio_checked: [None] models the error *)
Definition from_ratio_checked (n d : Z) : res (option quad) :=
  if d =? 0 then Ret None else rmap Some (from_ratio_non_inf n d).

(** 359-362 from_ratio *)
Definition from_ratio (n d : Z) : res quad :=
  assert_then (negb (d =? 0)) (from_ratio_non_inf n d).

(** 363-365 is_ratio, 366-368 is_integer, 369-375 to_integer,
    376-382 to_tuple_ratio; 383-386 to_ratio builds a Ratio with exactly these
    fields *)
Definition is_ratio (x : quad) : bool := qa x =? 0.
Definition quad_is_integer (x : quad) : bool := is_ratio x && (qb x =? 1).
Definition quad_to_integer (x : quad) : option Z :=
  if quad_is_integer x then Some (- qc x) else None.
Definition to_tuple_ratio (x : quad) : option (Z * Z) :=
  if is_ratio x then Some (- qc x, qb x) else None.

(** 387-413 into_reduced *)
Definition into_reduced (x : quad) : res quad :=
  if qa x =? 0 then from_ratio (- qc x) (qb x)
  else
    let gcd := int_gcd (int_gcd (qc x) (qb x)) (qa x) in
    assert_then (0 <? gcd)
      (c <- zdiv (qc x) gcd ;;
       b <- zdiv (qb x) gcd ;;
       a <- zdiv (qa x) gcd ;;
       let x := Quad c b a in
       let d := discriminant x in
       assert_then (negb (d <? 0))
         (s <- bigint_sqrt d ;;
          if s * s =? d then from_ratio (- qb x + s) (2 * qa x)
          else Ret x))%res.

(** 276-284 new *)
Definition quad_new (p : quad) : res (option quad) :=
  if ((qa p =? 0) && (qb p =? 0)) || (discriminant p <? 0) then Ret None
  else rmap Some (into_reduced p).

(** 459-466 Neg *)
Definition quad_neg (x : quad) : quad := Quad (- qc x) (qb x) (- qa x).

(** 256-273 add_rational_with_real_quadratic_number *)
Definition add_rational (n d : Z) (p : quad) : res quad :=
  let dd := d * d in
  let dn := d * n in
  let nn := n * n in
  into_reduced (Quad (qc p * dd - qb p * dn + qa p * nn)
                     (qb p * dd - 2 * qa p * dn)
                     (qa p * dd)).

(** 210-227 add_sub_sqrts_a_is_perfect_square *)
Definition add_sub_perfect (a b sa : Z) : quad * quad :=
  (Quad (a - b) (2 * sa) 1, Quad (a - b) (- (2 * sa)) 1).

(** 229-254 add_sub_sqrts; the second test (line 240) compares with [a] *)
Definition add_sub_sqrts (a b : Z) : res (option (quad * quad)) :=
  assert_then (negb (a <? 0)) (assert_then (negb (b <? 0))
    (sa <- bigint_sqrt a ;;
     if sa * sa =? a then Ret (Some (add_sub_perfect a b sa))
     else
       sb <- bigint_sqrt b ;;
       if sb * sb =? a then Ret (Some (add_sub_perfect b a sb))
       else
         let ab := a * b in
         sab <- bigint_sqrt ab ;;
         if sab * sab =? ab then
           Ret (Some (Quad (2 * sab - (a + b)) 0 1, Quad (- (2 * sab) - (a + b)) 0 1))
         else Ret None))%res.

(** 414-433 checked_add: [None] models the error, [Panic] the final
    [unimplemented!()] *)
Definition quad_checked_add (x y : quad) : res (option quad) :=
  match to_tuple_ratio x with
  | Some (n, d) => rmap Some (add_rational n d y)
  | None =>
      match to_tuple_ratio y with
      | Some (n, d) => rmap Some (add_rational n d x)
      | None =>
          (r <- add_sub_sqrts (discriminant x * Z.abs (qa y) * 2)
                              (discriminant y * Z.abs (qa x) * 2) ;;
           match r with None => Ret None | Some _ => Panic end)%res
      end
  end.

(** 434-436 checked_sub *)
Definition quad_checked_sub (x y : quad) : res (option quad) := quad_checked_add x (quad_neg y).

(** 437-445 checked_recip (with 327-338 from_negated_reduced_ratio_checked) *)
Definition quad_checked_recip (x : quad) : res (option quad) :=
  if is_ratio x then
    if qc x =? 0 then Ret None else Ret (Some (Quad (qb x) (qc x) 0))
  else Panic.

(** 509-524 is_positive *)
Definition quad_is_positive (x : quad) : bool :=
  match qa x with
  | Z0 => qc x <? 0
  | Zneg _ => if qb x <? 0 then negb true else qc x <? 0
  | Zpos _ => if qb x <? 0 then negb false else qc x <? 0
  end.

(** 525-531 is_negative *)
Definition quad_is_negative (x : quad) : bool :=
  if quad_is_zero x then false else negb (quad_is_positive x).

(** 488-494 abs, 498-507 signum *)
Definition quad_abs (x : quad) : quad := if quad_is_negative x then quad_neg x else x.
Definition quad_signum (x : quad) : quad :=
  from_integer (if quad_is_zero x then 0 else if quad_is_positive x then 1 else -1).

(** num_rational's comparison of two ratios given by their fields, negative
    denominators included: the order of their values *)
Definition ratio_cmp (n1 d1 n2 d2 : Z) : comparison :=
  if 0 <? d1 * d2 then Z.compare (n1 * d2) (n2 * d1) else Z.compare (n2 * d1) (n1 * d2).

(** 540-546 PartialEq<BigRational>; 548-552 is the same with operands exchanged *)
Definition quad_eq_ratio (x : quad) (n d : Z) : bool :=
  is_ratio x && (qb x =? d) && (- qc x =? n).

(** 571-595 lt for BigRational *)
Definition quad_lt_ratio (x : quad) (n d : Z) : res bool :=
  assert_then (0 <? d) (assert_then (negb (discriminant x <? 0))
    (let aq := Z.abs (qa x) in
     match to_tuple_ratio x with
     | Some (n1, d1) => Ret match ratio_cmp n1 d1 n d with Lt => true | _ => false end
     | None =>
         if qa x <? 0 then
           if qb x * d <? 2 * aq * n then Ret true
           else Ret (- n * (qa x * n + qb x * d) <? qc x * d * d)
         else if -2 * aq * n <? qb x * d then
           Ret (- n * (qa x * n + qb x * d) <? qc x * d * d)
         else Ret false
     end)).

(** 561-570 partial_cmp with BigRational; 554-559 reverses it *)
Definition quad_cmp_ratio (x : quad) (n d : Z) : res comparison :=
  match to_tuple_ratio x with
  | Some (n1, d1) => Ret (ratio_cmp n1 d1 n d)
  | None => (l <- quad_lt_ratio x n d ;; Ret (if l : bool then Lt else Gt))%res
  end.
Definition ratio_cmp_quad (n d : Z) (x : quad) : res comparison :=
  rmap CompOpp (quad_cmp_ratio x n d).

(** 599-610 the closure: (p + sqrt r) / q < 0 *)
Definition psrq (p r q : Z) : res bool :=
  assert_then (negb (q =? 0))
    (Ret (if 0 <? q then (r <? p * p) && negb (r <? 0) && negb (0 <? p)
          else if 0 <? p then negb (r <? 0)
          else p * p <? r)).

(** 598-688 quadratic_less_than, but for its last branch *)
Definition less_core (x y : quad) : res bool :=
  let a1 := qa x in let b1 := qb x in let c1 := qc x in
  let a2 := qa y in let b2 := qb y in let c2 := qc y in
  if negb (a1 <? 0) then
    if negb (a2 <? 0) then
      let p := b2 * a1 - b1 * a2 in
      let r := (b1 * b1 - 4 * a1 * c1) * (a2 * a2) in
      (t <- psrq p r a1 ;;
       if t : bool then Ret true
       else
         let r2n := (b2 * b2 - 4 * a2 * c2) * (a1 * a1) - r - p * p in
         let r2d := 2 * p in
         if p <? 0 then
           if 0 <? r2n then Ret true else Ret (r2n * r2n <? r * (r2d * r2d))
         else
           if r2n <? 0 then Ret false else Ret (r * (r2d * r2d) <? r2n * r2n))%res
    else
      let d1 := b1 * b1 - 4 * a1 * c1 in
      let p := b1 * a2 - b2 * a1 in
      let r := (b2 * b2 - 4 * a2 * c2) * (a1 * a1) in
      (t <- psrq p r a2 ;;
       if t : bool then Ret false
       else
         let r2n := d1 * (a2 * a2) - p * p - r in
         let r2d := 2 * p in
         if 0 <? p then
           if r2n <? 0 then Ret true else Ret (r2n * r2n <? r * r2d * r2d)
         else
           if 0 <? r2n then Ret false else Ret (r * r2d * r2d <? r2n * r2n))%res
  else
    let d1 := b1 * b1 - 4 * a1 * c1 in
    let d2 := b2 * b2 - 4 * a2 * c2 in
    let p := b2 * a1 - b1 * a2 in
    let r := d2 * (a1 * a1) in
    (t <- psrq p r (- a2) ;;
     if t : bool then Ret true
     else
       let r2n := d1 * (a2 * a2) - p * p - r in
       let r2d := 2 * p in
       if 0 <? p then
         if r2n <? 0 then Ret false else Ret (r * r2d * r2d <? r2n * r2n)
       else
         if 0 <? r2n then Ret true else Ret (r2n * r2n <? r * r2d * r2d))%res.

(** 598-689 quadratic_less_than: two numbers with negative quadratic terms
    recurse (once, as the terms become positive) *)
Definition less_than (x y : quad) : res bool :=
  assert_then (negb (qa x =? 0)) (assert_then (negb (qa y =? 0))
  (assert_then (negb (discriminant x <? 0)) (assert_then (negb (discriminant y <? 0))
    (if (qa x <? 0) && (qa y <? 0) then
       let x' := quad_neg y in
       let y' := quad_neg x in
       assert_then (negb (qa x' =? 0)) (assert_then (negb (qa y' =? 0))
       (assert_then (negb (discriminant x' <? 0)) (assert_then (negb (discriminant y' <? 0))
         (less_core x' y'))))
     else less_core x y)))).

(** 691-706 cmp *)
Definition quad_cmp (x y : quad) : res comparison :=
  match to_tuple_ratio y with
  | Some (n, d) => quad_cmp_ratio x n d
  | None =>
      match to_tuple_ratio x with
      | Some (n, d) => ratio_cmp_quad n d y
      | None =>
          if quad_eqb x y then Ret Eq
          else (l <- less_than x y ;; Ret (if l : bool then Lt else Gt))%res
      end
  end.
