(** Model of the algebraic algorithms on polynomials: /repo/src/polynomial/gcd.rs
    and the content, norm, Sturm, square-free and variable-name parts of
    /repo/src/polynomial.rs. *)
From Coq Require Import ZArith QArith Qcanon String Ascii.
Set Warnings "-notation-overridden".
From mathcomp Require Import ssreflect ssrfun ssrbool eqtype ssrnat seq div.
From Verif Require Import M_Base M_Traits M_Poly M_PolyCoef.
Set Implicit Arguments.
Unset Strict Implicit.
Unset Printing Implicit Defensive.
Local Open Scope nat_scope.

(** Extra coefficient traits.
    [GCD<Output = T> + PartialOrd] (traits.rs:40-60): content. *)
Record pcontent (K : pcoef) := PContent {
  c_gcd : cf K -> cf K -> res (cf K);
  c_ltb : cf K -> cf K -> bool
}.
(** PolynomialReducingFactorSupported (polynomial.rs:250-256). *)
Record preduce (K : pcoef) := PReduce {
  red_factor : seq (elt K) -> dvr K -> option (cf K)
}.
(** PolynomialCoefficientAbsSupported + Ord (polynomial.rs:229-231). *)
Record pabs (K : pcoef) := PAbs {
  c_abs : cf K -> cf K;
  c_leb : cf K -> cf K -> bool
}.

Section Alg.
Variables (K : pcoef) (X : pexact K).
Notation poly := (poly K).

(** * gcd.rs *)

(** gcd.rs:17-31 *)
Definition exact_mul_by_signed_power (factor base : cf K) (pp np : nat) : res (cf K) :=
  if np <= pp then (t <- c_pow_usize base (pp - np) ;; Ret (c_mul factor t))%res
  else (t <- c_pow_usize base (np - pp) ;; ex_div X factor t)%res.

(** gcd.rs:65-94: the loop; [usize] subtractions cannot underflow because the
    degrees decrease. *)
Fixpoint subresultant_loop (fuel : nat) (f2 : poly) (n2 : nat) (a2 c2 : cf K)
    (f1 : poly) (n1 : nat) : res poly :=
  match fuel with
  | 0 => NoFuel
  | fuel'.+1 =>
      (r <- pseudo_div_rem f2 f1 ;;
       t <- c_pow_usize (c_neg c2) (n2 - n1) ;;
       f <- div_single X (pd_rem r) (c_mul (c_neg a2) t) ;;
       match degree f with
       | None => Ret f1
       | Some n =>
           (a1 <- unwrap (nonzero_lead f1) ;;
            t <- c_pow_usize a1 (n2 - n1) ;;
            c1 <- exact_mul_by_signed_power t c2 (n1 + 1) n2 ;;
            subresultant_loop fuel' f1 n1 a1 c1 f n)%res
       end)%res
  end.
(** gcd.rs:37-100 *)
Definition subresultant_gcd (p q : poly) : res poly :=
  let swap := poly_len p < poly_len q in
  let '(p, q) := if swap then (q, p) else (p, q) in
  let need_negate := swap && odd (degree_or_0 p) && odd (degree_or_0 q) in
  if poly_is_zero q then Ret p
  else
    (n2 <- unwrap (degree p) ;;
     n1 <- unwrap (degree q) ;;
     f <- subresultant_loop (poly_len q).+1 p n2 (c_one K) (c_one K) q n1 ;;
     Ret (if need_negate then poly_neg f else f))%res.

(** gcd.rs:106-172 recursive_resultant; [i1] says i = 1. *)
Fixpoint recursive_resultant (fuel : nat) (u v : poly) (i1 : bool) (delta_p : nat) (psi_p : cf K) :
    res (option (cf K)) :=
  match fuel with
  | 0 => NoFuel
  | fuel'.+1 =>
      (m <- unwrap (degree u) ;;
       n <- unwrap (degree v) ;;
       if m < n then
         (o <- recursive_resultant fuel' v u i1 delta_p psi_p ;;
          Ret (omap (fun r => if odd m && odd n then c_neg r else r) o))%res
       else if n == 0 then
         (t <- c_pow_usize (coefficient v 0) m ;; Ret (Some t))%res
       else
         (pr <- pseudo_div_rem u v ;;
          if poly_is_zero (pd_rem pr) then Ret None
          else
            let delta := m + 1 - n in
            ('(psi, beta) <-
               (if i1 then Ret (c_neg (c_one K), if odd delta then c_neg (c_one K) else c_one K)
                else
                  (f <- unwrap (nonzero_lead u) ;;
                   psi <- match delta_p with
                          | 0 => Panic
                          | 1 => Ret psi_p
                          | _ => (t <- c_pow_usize (c_neg f) (delta_p - 1) ;;
                                  t' <- c_pow_usize psi_p (delta_p - 2) ;;
                                  ex_div X t t')%res
                          end ;;
                   t <- c_pow_usize psi (delta - 1) ;;
                   Ret (psi, c_mul (c_neg f) t))%res) ;;
             r <- div_single X (pd_rem pr) beta ;;
             l <- unwrap (nonzero_lead v) ;;
             s <- unwrap (degree r) ;;
             w <- c_pow_usize beta n ;;
             o <- recursive_resultant fuel' v r false delta psi ;;
             match o with
             | None => Ret None
             | Some t =>
                 (f <- c_pow_usize l (n * delta + s - m) ;;
                  q <- ex_div X (c_mul (if odd m && odd n then c_neg w else w) t) f ;;
                  Ret (Some q))%res
             end)%res)%res)%res
  end.
(** gcd.rs:101-179 *)
Definition nonzero_resultant (p q : poly) : res (option (cf K)) :=
  if poly_is_zero p || poly_is_zero q then Ret None
  else recursive_resultant (poly_len p + poly_len q).+1 p q true 0 (c_zero K).
(** gcd.rs:180-185 *)
Definition resultant (p q : poly) : res (cf K) :=
  (o <- nonzero_resultant p q ;; Ret (odflt (c_zero K) o))%res.

Section Reduce.
Variable Rd : preduce K.
(** polynomial.rs:1293-1298 *)
Definition nonzero_reducing_factor (p : poly) : option (cf K) := red_factor Rd (els p) (dv p).
(** polynomial.rs:1310-1331 reduce_assign, into_reduced, to_reduced *)
Definition to_reduced (p : poly) : res poly :=
  match nonzero_reducing_factor p with
  | Some d => div_single X p d
  | None => Ret p
  end.
(** gcd.rs:193-197 *)
Definition poly_gcd (p q : poly) : res poly :=
  (p' <- to_reduced p ;;
   q' <- to_reduced q ;;
   g <- subresultant_gcd p' q' ;;
   to_reduced g)%res.
(** gcd.rs:198-207; `Zero::zero()` is the zero polynomial. *)
Definition lcm_of (g p q : poly) : res poly :=
  if poly_is_zero g then Ret (poly_zero K)
  else (t <- exact_div X q g ;; Ret (poly_mul p t))%res.
Definition poly_gcd_lcm (p q : poly) : res (poly * poly) :=
  (g <- poly_gcd p q ;; l <- lcm_of g p q ;; Ret (g, l))%res.

(** gcd.rs:231-235 StateSet *)
Record state := St { st_v : poly; st_x : poly; st_y : poly }.
(** gcd.rs:262-277 *)
Fixpoint ext_loop (fuel : nat) (l r : state) : res state :=
  match fuel with
  | 0 => NoFuel
  | fuel'.+1 =>
      if poly_is_zero (st_v r) then Ret l
      else
        ('(q, rem) <- div_rem X (st_v l) (st_v r) ;;
         let x := poly_sub (st_x l) (poly_mul (st_x r) q) in
         let y := poly_sub (st_y l) (poly_mul (st_y r) q) in
         n <- match nonzero_reducing_factor rem with
              | Some d =>
                  (v' <- div_single X rem d ;;
                   x' <- div_single X x d ;;
                   y' <- div_single X y d ;;
                   Ret (St v' x' y'))%res
              | None => Ret (St rem x y)
              end ;;
         ext_loop fuel' r n)%res
  end.
(** gcd.rs:213-283 *)
Definition poly_extended_gcd (p q : poly) : res (poly * poly * poly) :=
  match nonzero_reducing_factor p with
  | None =>
      match nonzero_reducing_factor q with
      | Some d =>
          (g <- div_single X q d ;;
           o <- unwrap (to_one_if_nonzero q) ;;
           y <- div_single X o d ;;
           Ret (g, poly_zero K, y))%res
      | None => Ret (poly_zero K, poly_zero K, poly_zero K)
      end
  | Some d =>
      (v <- div_single X p d ;;
       o <- unwrap (to_one_if_nonzero p) ;;
       x <- div_single X o d ;;
       match nonzero_reducing_factor q with
       | None => Ret (v, x, poly_zero K)
       | Some e =>
           (w <- div_single X q e ;;
            o <- unwrap (to_one_if_nonzero q) ;;
            y <- div_single X o e ;;
            s <- ext_loop (poly_len q).+2 (St v x (poly_zero K)) (St w (poly_zero K) y) ;;
            Ret (st_v s, st_x s, st_y s))%res
       end)%res
  end.
(** gcd.rs:285-294 *)
Definition poly_extended_gcd_lcm (p q : poly) : res (poly * poly * poly * poly) :=
  ('(g, x, y) <- poly_extended_gcd p q ;;
   l <- lcm_of g p q ;;
   Ret (g, l, x, y))%res.
(** polynomial.rs:1621-1625 *)
Definition is_square_free (p : poly) : res bool :=
  (g <- poly_gcd p (derivative p) ;; Ret (degree_or_0 g == 0))%res.
End Reduce.

(** polynomial.rs:1279-1292 monic_assign *)
Definition monic (p : poly) : res poly :=
  match nonzero_lead p with
  | Some c => div_single X p c
  | None => Ret p
  end.

(** * Sturm sequences *)

(** polynomial.rs:1333-1361; the loop runs [n] more times on the last two
    entries [a], [b] and returns what it appends. *)
Fixpoint sturm_loop (remainder : poly -> poly -> res poly) (n : nat) (a b : poly) :
    res (seq poly) :=
  match n with
  | 0 => Ret [::]
  | n'.+1 =>
      if poly_is_zero b then Ret [::]
      else
        (r <- remainder a b ;;
         rest <- sturm_loop remainder n' b (poly_neg r) ;;
         Ret (poly_neg r :: rest))%res
  end.
Definition generic_sturm (deriv : poly -> res poly) (remainder : poly -> poly -> res poly)
    (p : poly) : res (seq poly) :=
  match poly_len p with
  | 0 => Ret [::]
  | 1 => Ret [:: p]
  | n => (d <- deriv p ;;
          rest <- sturm_loop remainder (n - 2) p d ;;
          Ret (p :: d :: rest))%res
  end.
(** polynomial.rs:1368-1373 *)
Definition sturm_sequence (p : poly) : res (seq poly) :=
  generic_sturm (fun p => Ret (derivative p)) (poly_rem X) p.

Section Content.
Variable C : pcontent K.
(** polynomial.rs:1225-1244 *)
Fixpoint gcd_fold (acc : cf K) (l : seq (cf K)) : res (cf K) :=
  match l with
  | [::] => Ret acc
  | c :: l' => (g <- c_gcd C acc c ;; gcd_fold g l')%res
  end.
Definition nonzero_content (p : poly) : res (option (cf K)) :=
  match coefficients p with
  | [::] => Ret None
  | c0 :: cs =>
      (g <- gcd_fold c0 cs ;;
       c <- unwrap (nonzero_lead p) ;;
       Ret (Some (if c_ltb C c (c_zero K) != c_ltb C g (c_zero K)
                  then c_add (c_zero K) (c_neg g) else g)))%res
  end.
(** polynomial.rs:1246-1251 *)
Definition content (p : poly) : res (cf K) :=
  (o <- nonzero_content p ;; Ret (odflt (c_zero K) o))%res.
(** polynomial.rs:1252-1278; the debug_assert is checked. *)
Definition primitive_part (p : poly) : res poly :=
  (o <- nonzero_content p ;;
   match o with
   | None => Ret p
   | Some c =>
       (r <- div_single X p c ;;
        assert_then (match nonzero_lead r with
                     | Some v => ~~ c_ltb C v (c_zero K)
                     | None => true
                     end) (Ret r))%res
   end)%res.

(** polynomial.rs:1380-1416 *)
Definition prim_deriv (p : poly) : res poly :=
  let d := derivative p in
  (o <- nonzero_content d ;;
   match o with
   | None => Ret d
   | Some c => if c_ltb C c (c_zero K) then div_single X d (c_neg c) else div_single X d c
   end)%res.
Definition prim_rem (a b : poly) : res poly :=
  (r <- pseudo_div_rem a b ;;
   o <- nonzero_content (pd_rem r) ;;
   match o with
   | None => Ret (pd_rem r)
   | Some c =>
       (t <- div_single X (pd_rem r) c ;;
        Ret (if c_ltb C (pd_fac r) (c_zero K) != c_ltb C c (c_zero K) then poly_neg t else t))%res
   end)%res.
Definition primitive_sturm_sequence (p : poly) : res (seq poly) :=
  generic_sturm prim_deriv prim_rem p.

(** * Yun's algorithm, polynomial.rs:1583-1618 *)
Variable Rd : preduce K.
(** polynomial.rs:1600-1612; [fuel]: the number of iterations is the largest
    multiplicity. *)
Fixpoint yun_loop (fuel : nat) (b d : poly) : res (seq poly) :=
  match fuel with
  | 0 => NoFuel
  | fuel'.+1 =>
      (g <- poly_gcd Rd b d ;;
       a <- primitive_part g ;;
       b' <- poly_div X b a ;;
       c <- poly_div X d a ;;
       let d' := poly_sub c (derivative b') in
       if poly_is_zero b' then Panic (* debug_assert *)
       else if poly_len b' == 1 then Ret [:: a]
       else (rest <- yun_loop fuel' b' d' ;; Ret (a :: rest))%res)%res
  end.
(** Result: constant_factor and polynomial_factors. *)
Definition yun (p : poly) : res (cf K * seq poly) :=
  if degree_or_0 p == 0 then Ret (odflt (c_zero K) (nonzero_lead p), [::])
  else
    (ct <- content p ;;
     f <- div_single X p ct ;;
     let f' := derivative f in
     g <- poly_gcd Rd f f' ;;
     a0 <- primitive_part g ;;
     b <- poly_div X f a0 ;;
     c <- poly_div X f' a0 ;;
     l <- yun_loop (poly_len p) b (poly_sub c (derivative b)) ;;
     Ret (ct, l))%res.
End Content.

(** * Norms, polynomial.rs:1514-1543 *)
Section Norm.
Variable Ab : pabs K.
(** Iterator::max: later elements win ties. *)
Definition c_max (a b : cf K) : cf K := if c_leb Ab a b then b else a.
Definition nonzero_max_norm (p : poly) : option (cf K) :=
  match [seq c_abs Ab c | c <- coefficients p] with
  | [::] => None
  | c :: cs => Some (foldl c_max c cs)
  end.
Definition max_norm (p : poly) : cf K := odflt (c_zero K) (nonzero_max_norm p).
Definition nonzero_manhattan_norm (p : poly) : option (cf K) :=
  foldl (fun sum c => match sum with
                      | None => Some (c_abs Ab c)
                      | Some s => Some (c_add s (c_abs Ab c))
                      end) None (coefficients p).
Definition manhattan_norm (p : poly) : cf K := odflt (c_zero K) (nonzero_manhattan_norm p).
End Norm.

End Alg.

(** * Instances *)
(** traits.rs:62-128 *)
Definition int_content : pcontent int_coef :=
  @PContent int_coef (fun a b => Ret (Z.gcd a b)) Z.ltb.
(** traits.rs:129-152 *)
Definition ratio_content : pcontent ratio_coef :=
  @PContent ratio_coef (fun a b => rmap (fun gl => Q2Qc gl.1) (ratio_gcd_lcm (this a) (this b)))
    (fun a b : Qc => ~~ Qle_bool (this b) (this a)).
(** polynomial.rs:660-678 *)
Definition int_red_factor (es : seq Z) : option Z :=
  match es with
  | [::] => None
  | e :: es' =>
      let g := foldl Z.gcd e es' in
      let c := last e es' in
      Some (if (c <? 0)%Z != (g <? 0)%Z then (0 - g)%Z else g)
  end.
Definition int_reduce : preduce int_coef :=
  @PReduce int_coef (fun es _ => int_red_factor es).
(** polynomial.rs:258-274; the divisor is positive. *)
Definition ratio_reduce : preduce ratio_coef :=
  @PReduce ratio_coef (fun es d => match es with
                                   | [::] => None
                                   | e :: es' => Some (Q2Qc (last e es' # d))
                                   end).
(** mod_int.rs:1236-1252 *)
Definition mod_reduce (m : Z) (m_pos : (0 <? m)%Z) : preduce (mod_coef m_pos) :=
  @PReduce (mod_coef m_pos) (fun es _ => match es with
                                         | [::] => None
                                         | e :: es' => Some (last e es')
                                         end).
(** polynomial.rs:680-684 *)
Definition int_abs : pabs int_coef := @PAbs int_coef Z.abs Z.leb.
(** polynomial.rs:236-248 *)
Definition ratio_abs : pabs ratio_coef :=
  @PAbs ratio_coef (fun c : Qc => Q2Qc (Z.abs (Qnum (this c)) # Qden (this c)))
    (fun a b : Qc => Qle_bool (this a) (this b)).

(** * Variable names, polynomial.rs:1635-1648 *)
Local Open Scope string_scope.
Definition variable_chars : seq string :=
  [:: "X"; "Y"; "Z"; "A"; "B"; "C"; "D"; "E"; "F"; "G"; "H"; "I"; "J"; "K"; "L"; "M"; "N"; "O";
      "P"; "Q"; "R"; "S"; "T"; "U"; "V"; "W"].
Fixpoint variable_name_fuel (fuel n : nat) : res string :=
  match fuel with
  | 0 => NoFuel
  | fuel'.+1 =>
      if n < 26 then Ret (nth "" variable_chars n)
      else (s <- variable_name_fuel fuel' (n %/ 26) ;;
            Ret (s ++ nth "" variable_chars (n %% 26)))%res
  end.
Definition get_variable_name (nesting_depth : nat) : res string :=
  variable_name_fuel nesting_depth.+1 nesting_depth.
