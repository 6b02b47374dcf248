(** The test cases of greatest common divisors, resultants and factorisations
    in /repo/src/polynomial run through the model.  These are checks of the
    model against values the authors of the code expect from it, not
    properties.  Every literal is copied from the cited test.  Tests of
    randomised functions compare sets, as the source does; the stream of
    random numbers is not the one of the source. *)
From Coq Require Import ZArith QArith Qcanon.
From mathcomp Require Import ssreflect ssrfun ssrbool eqtype ssrnat seq.
From Verif Require Import M_Base M_Traits M_Poly M_PolyCoef M_PolyAlg M_Factor M_Alg P_PolyInst.
Local Open Scope Z_scope.

(** Polynomials with integer coefficients and with rational coefficients, and
    what they store. *)
Definition zp (l : seq Z) : poly int_coef := @from_coefs int_coef l.
Definition qp (l : seq (Z * positive)) : poly ratio_coef :=
  @from_coefs ratio_coef [seq Q2Qc (x.1 # x.2) | x <- l].
Definition zv (p : poly int_coef) : seq Z := els p.
Definition pv (p : poly ratio_coef) : seq Z * positive := (els p, dv p).
(** A stream of numbers, and equality of lists up to order. *)
Definition rng (n : nat) : Z :=
  let x := (Z.of_nat n * 2654435761 + 12345) mod 2 ^ 32 in Z.shiftr (x * x) 17.
Definition mem_seq_Z (l : seq Z) (ls : seq (seq Z)) : bool := has (eqb_seq l) ls.
Definition same_sets (r : res (seq (seq Z))) (e : seq (seq Z)) : bool :=
  match r with
  | Ret l => all (fun x => mem_seq_Z x e) l && all (fun x => mem_seq_Z x l) e && (size l == size e)
  | _ => false
  end.

(** polynomial/gcd.rs:303-643 test_gcd: operands, greatest common divisor, least common multiple *)
Definition gcd_cases : seq (poly ratio_coef * poly ratio_coef * poly ratio_coef * poly ratio_coef) := [::
  ((qp [:: (2, 1%positive); (0, 1%positive); (0, 1%positive); (2, 1%positive)]), (qp [:: (0, 1%positive); (1, 3%positive); (1, 3%positive); (1, 3%positive)]), (qp [:: (1, 1%positive)]), (qp [:: (0, 1%positive); (2, 3%positive); (2, 3%positive); (2, 3%positive); (2, 3%positive); (2, 3%positive); (2, 3%positive)]));
  ((qp [:: (1, 3%positive)]), (qp [:: (1, 3%positive); (0, 1%positive); (1, 3%positive)]), (qp [:: (1, 1%positive)]), (qp [:: (1, 9%positive); (0, 1%positive); (1, 9%positive)]));
  ((qp [:: (0, 1%positive); (0, 1%positive); (1, 1%positive); (1, 1%positive)]), (qp [:: (0, 1%positive); (0, 1%positive); (1, 3%positive); (1, 3%positive)]), (qp [:: (0, 1%positive); (0, 1%positive); (1, 1%positive); (1, 1%positive)]), (qp [:: (0, 1%positive); (0, 1%positive); (1, 3%positive); (1, 3%positive)]));
  ((qp [:: (0, 1%positive); (1, 1%positive); (2, 1%positive)]), (qp [:: (0, 1%positive); (1, 2%positive); (0, 1%positive); (1, 1%positive)]), (qp [:: (0, 1%positive); (1, 1%positive)]), (qp [:: (0, 1%positive); (1, 2%positive); (1, 1%positive); (1, 1%positive); (2, 1%positive)]));
  ((qp [::]), (qp [:: (0, 1%positive); (0, 1%positive); (2, 1%positive); (2, 1%positive)]), (qp [:: (0, 1%positive); (0, 1%positive); (1, 1%positive); (1, 1%positive)]), (qp [::]));
  ((qp [:: (1, 2%positive); (1, 1%positive); (1, 1%positive)]), (qp [:: (1, 1%positive); (0, 1%positive); (1, 1%positive); (1, 1%positive)]), (qp [:: (1, 1%positive)]), (qp [:: (1, 2%positive); (1, 1%positive); (3, 2%positive); (3, 2%positive); (2, 1%positive); (1, 1%positive)]));
  ((qp [:: (1, 1%positive); (0, 1%positive); (1, 1%positive); (1, 1%positive)]), (qp [:: (0, 1%positive); (0, 1%positive); (1, 1%positive)]), (qp [:: (1, 1%positive)]), (qp [:: (0, 1%positive); (0, 1%positive); (1, 1%positive); (0, 1%positive); (1, 1%positive); (1, 1%positive)]));
  ((qp [:: (0, 1%positive); (1, 3%positive); (2, 3%positive)]), (qp [:: (0, 1%positive); (1, 1%positive); (1, 1%positive)]), (qp [:: (0, 1%positive); (1, 1%positive)]), (qp [:: (0, 1%positive); (1, 3%positive); (1, 1%positive); (2, 3%positive)]));
  ((qp [:: (2, 3%positive); (0, 1%positive); (2, 3%positive); (2, 3%positive)]), (qp [:: (1, 2%positive); (0, 1%positive); (1, 2%positive); (1, 2%positive)]), (qp [:: (1, 1%positive); (0, 1%positive); (1, 1%positive); (1, 1%positive)]), (qp [:: (1, 3%positive); (0, 1%positive); (1, 3%positive); (1, 3%positive)]));
  ((qp [:: (2, 3%positive); (2, 3%positive); (2, 3%positive)]), (qp [:: (2, 3%positive); (2, 3%positive); (2, 3%positive)]), (qp [:: (1, 1%positive); (1, 1%positive); (1, 1%positive)]), (qp [:: (4, 9%positive); (4, 9%positive); (4, 9%positive)]));
  ((qp [:: (1, 1%positive); (1, 1%positive); (1, 2%positive); (1, 1%positive)]), (qp [:: (1, 3%positive)]), (qp [:: (1, 1%positive)]), (qp [:: (1, 3%positive); (1, 3%positive); (1, 6%positive); (1, 3%positive)]));
  ((qp [:: (0, 1%positive); (1, 1%positive); (1, 1%positive)]), (qp [:: (0, 1%positive); (2, 1%positive); (0, 1%positive); (1, 1%positive)]), (qp [:: (0, 1%positive); (1, 1%positive)]), (qp [:: (0, 1%positive); (2, 1%positive); (2, 1%positive); (1, 1%positive); (1, 1%positive)]));
  ((qp [:: (0, 1%positive); (1, 1%positive); (1, 1%positive); (2, 1%positive)]), (qp [:: (0, 1%positive); (2, 3%positive)]), (qp [:: (0, 1%positive); (1, 1%positive)]), (qp [:: (0, 1%positive); (2, 3%positive); (2, 3%positive); (4, 3%positive)]));
  ((qp [:: (0, 1%positive); (0, 1%positive); (2, 1%positive)]), (qp [:: (0, 1%positive); (2, 1%positive)]), (qp [:: (0, 1%positive); (1, 1%positive)]), (qp [:: (0, 1%positive); (0, 1%positive); (4, 1%positive)]));
  ((qp [:: (0, 1%positive); (1, 3%positive); (1, 3%positive)]), (qp [:: (1, 1%positive); (1, 1%positive); (1, 1%positive); (1, 1%positive)]), (qp [:: (1, 1%positive); (1, 1%positive)]), (qp [:: (0, 1%positive); (1, 3%positive); (1, 3%positive); (1, 3%positive); (1, 3%positive)]));
  ((qp [:: (0, 1%positive); (0, 1%positive); (0, 1%positive); (1, 1%positive)]), (qp [:: (0, 1%positive); (2, 1%positive); (2, 1%positive); (1, 1%positive)]), (qp [:: (0, 1%positive); (1, 1%positive)]), (qp [:: (0, 1%positive); (0, 1%positive); (0, 1%positive); (2, 1%positive); (2, 1%positive); (1, 1%positive)]));
  ((qp [:: (0, 1%positive); (0, 1%positive); (2, 1%positive); (1, 1%positive)]), (qp [:: (1, 1%positive); (2, 1%positive)]), (qp [:: (1, 1%positive)]), (qp [:: (0, 1%positive); (0, 1%positive); (2, 1%positive); (5, 1%positive); (2, 1%positive)]));
  ((qp [:: (0, 1%positive); (1, 1%positive); (0, 1%positive); (2, 1%positive)]), (qp [:: (1, 1%positive); (0, 1%positive); (0, 1%positive); (2, 1%positive)]), (qp [:: (1, 1%positive)]), (qp [:: (0, 1%positive); (1, 1%positive); (0, 1%positive); (2, 1%positive); (2, 1%positive); (0, 1%positive); (4, 1%positive)]));
  ((qp [::]), (qp [:: (1, 1%positive); (0, 1%positive); (1, 1%positive); (1, 2%positive)]), (qp [:: (2, 1%positive); (0, 1%positive); (2, 1%positive); (1, 1%positive)]), (qp [::]));
  ((qp [:: (1, 1%positive); (0, 1%positive); (0, 1%positive); (1, 1%positive)]), (qp [:: (1, 1%positive); (0, 1%positive); (1, 1%positive)]), (qp [:: (1, 1%positive)]), (qp [:: (1, 1%positive); (0, 1%positive); (1, 1%positive); (1, 1%positive); (0, 1%positive); (1, 1%positive)]));
  ((qp [:: (1, 2%positive); (0, 1%positive); (0, 1%positive); (1, 1%positive)]), (qp [:: (0, 1%positive); (1, 3%positive); (2, 3%positive); (2, 3%positive)]), (qp [:: (1, 1%positive)]), (qp [:: (0, 1%positive); (1, 6%positive); (1, 3%positive); (1, 3%positive); (1, 3%positive); (2, 3%positive); (2, 3%positive)]));
  ((qp [::]), (qp [:: (0, 1%positive); (0, 1%positive); (2, 1%positive)]), (qp [:: (0, 1%positive); (0, 1%positive); (1, 1%positive)]), (qp [::]));
  ((qp [:: (1, 2%positive); (1, 1%positive); (1, 1%positive); (1, 1%positive)]), (qp [:: (2, 1%positive); (1, 1%positive); (1, 1%positive); (2, 1%positive)]), (qp [:: (1, 1%positive)]), (qp [:: (1, 1%positive); (5, 2%positive); (7, 2%positive); (5, 1%positive); (4, 1%positive); (3, 1%positive); (2, 1%positive)]));
  ((qp [:: (2, 1%positive); (1, 1%positive); (1, 1%positive); (1, 1%positive)]), (qp [:: (0, 1%positive); (1, 2%positive); (0, 1%positive); (1, 1%positive)]), (qp [:: (1, 1%positive)]), (qp [:: (0, 1%positive); (1, 1%positive); (1, 2%positive); (5, 2%positive); (3, 2%positive); (1, 1%positive); (1, 1%positive)]));
  ((qp [:: (2, 3%positive); (0, 1%positive); (0, 1%positive); (2, 3%positive)]), (qp [:: (1, 3%positive); (0, 1%positive); (1, 3%positive); (2, 3%positive)]), (qp [:: (1, 1%positive); (1, 1%positive)]), (qp [:: (2, 9%positive); (-2, 9%positive); (4, 9%positive); (2, 9%positive); (-2, 9%positive); (4, 9%positive)]));
  ((qp [:: (1, 1%positive); (1, 1%positive); (1, 1%positive); (1, 1%positive)]), (qp [:: (0, 1%positive); (1, 2%positive); (1, 1%positive); (1, 2%positive)]), (qp [:: (1, 1%positive); (1, 1%positive)]), (qp [:: (0, 1%positive); (1, 2%positive); (1, 1%positive); (1, 1%positive); (1, 1%positive); (1, 2%positive)]));
  ((qp [:: (0, 1%positive); (1, 2%positive); (1, 2%positive); (1, 1%positive)]), (qp [:: (0, 1%positive); (2, 1%positive)]), (qp [:: (0, 1%positive); (1, 1%positive)]), (qp [:: (0, 1%positive); (1, 1%positive); (1, 1%positive); (2, 1%positive)]));
  ((qp [:: (0, 1%positive); (1, 1%positive); (0, 1%positive); (1, 1%positive)]), (qp [:: (0, 1%positive); (2, 1%positive); (0, 1%positive); (2, 1%positive)]), (qp [:: (0, 1%positive); (1, 1%positive); (0, 1%positive); (1, 1%positive)]), (qp [:: (0, 1%positive); (2, 1%positive); (0, 1%positive); (2, 1%positive)]));
  ((qp [:: (0, 1%positive); (1, 1%positive); (1, 1%positive); (2, 1%positive)]), (qp [:: (1, 1%positive); (1, 2%positive); (1, 2%positive); (1, 2%positive)]), (qp [:: (1, 1%positive)]), (qp [:: (0, 1%positive); (1, 1%positive); (3, 2%positive); (3, 1%positive); (2, 1%positive); (3, 2%positive); (1, 1%positive)]));
  ((qp [::]), (qp [:: (0, 1%positive); (0, 1%positive); (2, 3%positive); (2, 3%positive)]), (qp [:: (0, 1%positive); (0, 1%positive); (1, 1%positive); (1, 1%positive)]), (qp [::]));
  ((qp [::]), (qp [:: (2, 1%positive); (1, 1%positive); (0, 1%positive); (1, 1%positive)]), (qp [:: (2, 1%positive); (1, 1%positive); (0, 1%positive); (1, 1%positive)]), (qp [::]));
  ((qp [:: (0, 1%positive); (0, 1%positive); (2, 1%positive)]), (qp [:: (0, 1%positive); (1, 1%positive); (1, 1%positive); (2, 1%positive)]), (qp [:: (0, 1%positive); (1, 1%positive)]), (qp [:: (0, 1%positive); (0, 1%positive); (2, 1%positive); (2, 1%positive); (4, 1%positive)]));
  ((qp [:: (2, 3%positive); (0, 1%positive); (0, 1%positive); (2, 3%positive)]), (qp [:: (1, 3%positive); (0, 1%positive); (1, 3%positive); (2, 3%positive)]), (qp [:: (1, 1%positive); (1, 1%positive)]), (qp [:: (2, 9%positive); (-2, 9%positive); (4, 9%positive); (2, 9%positive); (-2, 9%positive); (4, 9%positive)]));
  ((qp [:: (1, 3%positive); (1, 3%positive); (1, 3%positive)]), (qp [::]), (qp [:: (1, 1%positive); (1, 1%positive); (1, 1%positive)]), (qp [::]));
  ((qp [:: (0, 1%positive); (2, 3%positive); (2, 3%positive); (1, 3%positive)]), (qp [:: (0, 1%positive); (1, 3%positive); (1, 3%positive); (1, 3%positive)]), (qp [:: (0, 1%positive); (1, 1%positive)]), (qp [:: (0, 1%positive); (2, 9%positive); (4, 9%positive); (5, 9%positive); (1, 3%positive); (1, 9%positive)]));
  ((qp [:: (1, 3%positive); (2, 3%positive); (1, 3%positive); (2, 3%positive)]), (qp [:: (1, 1%positive); (1, 1%positive); (1, 1%positive); (1, 1%positive)]), (qp [:: (1, 1%positive); (0, 1%positive); (1, 1%positive)]), (qp [:: (1, 3%positive); (1, 1%positive); (1, 1%positive); (1, 1%positive); (2, 3%positive)]));
  ((qp [:: (1, 1%positive); (2, 1%positive); (2, 1%positive); (1, 1%positive)]), (qp [:: (1, 3%positive); (1, 3%positive); (1, 3%positive)]), (qp [:: (1, 1%positive); (1, 1%positive); (1, 1%positive)]), (qp [:: (1, 3%positive); (2, 3%positive); (2, 3%positive); (1, 3%positive)]));
  ((qp [:: (0, 1%positive); (1, 1%positive); (1, 1%positive); (1, 1%positive)]), (qp [:: (0, 1%positive); (2, 1%positive); (1, 1%positive)]), (qp [:: (0, 1%positive); (1, 1%positive)]), (qp [:: (0, 1%positive); (2, 1%positive); (3, 1%positive); (3, 1%positive); (1, 1%positive)]));
  ((qp [:: (1, 1%positive); (1, 2%positive); (0, 1%positive); (1, 2%positive)]), (qp [:: (0, 1%positive); (1, 1%positive); (1, 1%positive)]), (qp [:: (1, 1%positive); (1, 1%positive)]), (qp [:: (0, 1%positive); (1, 1%positive); (1, 2%positive); (0, 1%positive); (1, 2%positive)]));
  ((qp [:: (2, 3%positive); (2, 3%positive); (1, 3%positive); (1, 3%positive)]), (qp [:: (1, 3%positive)]), (qp [:: (1, 1%positive)]), (qp [:: (2, 9%positive); (2, 9%positive); (1, 9%positive); (1, 9%positive)]));
  ((qp [:: (0, 1%positive); (0, 1%positive); (2, 1%positive)]), (qp [:: (0, 1%positive); (1, 1%positive); (1, 2%positive); (1, 1%positive)]), (qp [:: (0, 1%positive); (1, 1%positive)]), (qp [:: (0, 1%positive); (0, 1%positive); (2, 1%positive); (1, 1%positive); (2, 1%positive)]));
  ((qp [:: (0, 1%positive); (1, 3%positive); (1, 3%positive); (1, 3%positive)]), (qp [::]), (qp [:: (0, 1%positive); (1, 1%positive); (1, 1%positive); (1, 1%positive)]), (qp [::]));
  ((qp [:: (0, 1%positive); (0, 1%positive); (1, 2%positive)]), (qp [:: (0, 1%positive); (1, 3%positive); (2, 3%positive); (2, 3%positive)]), (qp [:: (0, 1%positive); (1, 1%positive)]), (qp [:: (0, 1%positive); (0, 1%positive); (1, 6%positive); (1, 3%positive); (1, 3%positive)]));
  ((qp [:: (0, 1%positive); (0, 1%positive); (1, 1%positive)]), (qp [:: (0, 1%positive); (1, 1%positive); (1, 1%positive); (1, 1%positive)]), (qp [:: (0, 1%positive); (1, 1%positive)]), (qp [:: (0, 1%positive); (0, 1%positive); (1, 1%positive); (1, 1%positive); (1, 1%positive)]));
  ((qp [:: (1, 1%positive); (1, 1%positive); (2, 1%positive); (1, 1%positive)]), (qp [:: (1, 1%positive); (1, 1%positive); (2, 1%positive); (1, 1%positive)]), (qp [:: (1, 1%positive); (1, 1%positive); (2, 1%positive); (1, 1%positive)]), (qp [:: (1, 1%positive); (1, 1%positive); (2, 1%positive); (1, 1%positive)]));
  ((qp [:: (0, 1%positive); (0, 1%positive); (0, 1%positive); (1, 2%positive)]), (qp [:: (2, 3%positive); (1, 3%positive); (2, 3%positive); (2, 3%positive)]), (qp [:: (1, 1%positive)]), (qp [:: (0, 1%positive); (0, 1%positive); (0, 1%positive); (1, 3%positive); (1, 6%positive); (1, 3%positive); (1, 3%positive)]));
  ((qp [:: (2, 1%positive); (2, 1%positive)]), (qp [:: (2, 3%positive); (0, 1%positive); (0, 1%positive); (2, 3%positive)]), (qp [:: (1, 1%positive); (1, 1%positive)]), (qp [:: (4, 3%positive); (0, 1%positive); (0, 1%positive); (4, 3%positive)]));
  ((qp [::]), (qp [:: (2, 1%positive); (0, 1%positive); (0, 1%positive); (1, 1%positive)]), (qp [:: (2, 1%positive); (0, 1%positive); (0, 1%positive); (1, 1%positive)]), (qp [::]));
  ((qp [:: (0, 1%positive); (1, 1%positive); (2, 1%positive); (2, 1%positive)]), (qp [:: (0, 1%positive); (1, 2%positive); (0, 1%positive); (1, 1%positive)]), (qp [:: (0, 1%positive); (1, 1%positive)]), (qp [:: (0, 1%positive); (1, 2%positive); (1, 1%positive); (2, 1%positive); (2, 1%positive); (2, 1%positive)]));
  ((qp [:: (0, 1%positive); (1, 1%positive); (2, 1%positive); (2, 1%positive)]), (qp [:: (0, 1%positive); (1, 3%positive); (2, 3%positive); (2, 3%positive)]), (qp [:: (0, 1%positive); (1, 2%positive); (1, 1%positive); (1, 1%positive)]), (qp [:: (0, 1%positive); (2, 3%positive); (4, 3%positive); (4, 3%positive)]));
  ((qp [:: (0, 1%positive); (1, 2%positive); (1, 2%positive); (1, 1%positive)]), (qp [:: (0, 1%positive); (1, 3%positive); (1, 3%positive); (2, 3%positive)]), (qp [:: (0, 1%positive); (1, 2%positive); (1, 2%positive); (1, 1%positive)]), (qp [:: (0, 1%positive); (1, 3%positive); (1, 3%positive); (2, 3%positive)]));
  ((qp [::]), (qp [::]), (qp [::]), (qp [::]))].
Example repo_test_gcd :
  map (fun '(a, b, _, _) => rmap (fun r => (pv r.1, pv r.2)) (poly_gcd_lcm ratio_exact ratio_reduce a b)) gcd_cases
    = map (fun '(_, _, g, l) => Ret (pv g, pv l)) gcd_cases /\
  map (fun '(a, b, _, _) => rmap (fun r => match r with (g, l, x, y) => (pv g, pv l, pv (poly_add (poly_mul x a) (poly_mul y b))) end)
       (poly_extended_gcd_lcm ratio_exact ratio_reduce a b)) gcd_cases
    = map (fun '(_, _, g, l) => Ret (pv g, pv l, pv g)) gcd_cases.
Proof. split; vm_compute; reflexivity. Qed.

(** polynomial/gcd.rs:646-1387 test_resultant *)
Definition resultant_cases : seq (seq Z * seq Z * Z) := [::
  ([::], [::], 0);
  ([::], [:: 0; 0; 1], 0);
  ([::], [:: 0; 0; 2], 0);
  ([::], [:: 0; 1], 0);
  ([::], [:: 0; 1; 1], 0);
  ([::], [:: 0; 1; 2], 0);
  ([::], [:: 0; 2], 0);
  ([::], [:: 0; 2; 1], 0);
  ([::], [:: 0; 2; 2], 0);
  ([::], [:: 1], 0);
  ([::], [:: 1; 0; 1], 0);
  ([::], [:: 1; 0; 2], 0);
  ([::], [:: 1; 1], 0);
  ([::], [:: 1; 1; 1], 0);
  ([::], [:: 1; 1; 2], 0);
  ([::], [:: 1; 2], 0);
  ([::], [:: 1; 2; 1], 0);
  ([::], [:: 1; 2; 2], 0);
  ([::], [:: 2], 0);
  ([::], [:: 2; 0; 1], 0);
  ([::], [:: 2; 0; 2], 0);
  ([::], [:: 2; 1], 0);
  ([::], [:: 2; 1; 1], 0);
  ([::], [:: 2; 1; 2], 0);
  ([::], [:: 2; 2], 0);
  ([::], [:: 2; 2; 1], 0);
  ([::], [:: 2; 2; 2], 0);
  ([:: 0; 0; 1], [::], 0);
  ([:: 0; 0; 1], [:: 0; 0; 1], 0);
  ([:: 0; 0; 1], [:: 0; 0; 2], 0);
  ([:: 0; 0; 1], [:: 0; 1], 0);
  ([:: 0; 0; 1], [:: 0; 1; 1], 0);
  ([:: 0; 0; 1], [:: 0; 1; 2], 0);
  ([:: 0; 0; 1], [:: 0; 2], 0);
  ([:: 0; 0; 1], [:: 0; 2; 1], 0);
  ([:: 0; 0; 1], [:: 0; 2; 2], 0);
  ([:: 0; 0; 1], [:: 1], 1);
  ([:: 0; 0; 1], [:: 1; 0; 1], 1);
  ([:: 0; 0; 1], [:: 1; 0; 2], 1);
  ([:: 0; 0; 1], [:: 1; 1], 1);
  ([:: 0; 0; 1], [:: 1; 1; 1], 1);
  ([:: 0; 0; 1], [:: 1; 1; 2], 1);
  ([:: 0; 0; 1], [:: 1; 2], 1);
  ([:: 0; 0; 1], [:: 1; 2; 1], 1);
  ([:: 0; 0; 1], [:: 1; 2; 2], 1);
  ([:: 0; 0; 1], [:: 2], 4);
  ([:: 0; 0; 1], [:: 2; 0; 1], 4);
  ([:: 0; 0; 1], [:: 2; 0; 2], 4);
  ([:: 0; 0; 1], [:: 2; 1], 4);
  ([:: 0; 0; 1], [:: 2; 1; 1], 4);
  ([:: 0; 0; 1], [:: 2; 1; 2], 4);
  ([:: 0; 0; 1], [:: 2; 2], 4);
  ([:: 0; 0; 1], [:: 2; 2; 1], 4);
  ([:: 0; 0; 1], [:: 2; 2; 2], 4);
  ([:: 0; 0; 2], [::], 0);
  ([:: 0; 0; 2], [:: 0; 0; 1], 0);
  ([:: 0; 0; 2], [:: 0; 0; 2], 0);
  ([:: 0; 0; 2], [:: 0; 1], 0);
  ([:: 0; 0; 2], [:: 0; 1; 1], 0);
  ([:: 0; 0; 2], [:: 0; 1; 2], 0);
  ([:: 0; 0; 2], [:: 0; 2], 0);
  ([:: 0; 0; 2], [:: 0; 2; 1], 0);
  ([:: 0; 0; 2], [:: 0; 2; 2], 0);
  ([:: 0; 0; 2], [:: 1], 1);
  ([:: 0; 0; 2], [:: 1; 0; 1], 4);
  ([:: 0; 0; 2], [:: 1; 0; 2], 4);
  ([:: 0; 0; 2], [:: 1; 1], 2);
  ([:: 0; 0; 2], [:: 1; 1; 1], 4);
  ([:: 0; 0; 2], [:: 1; 1; 2], 4);
  ([:: 0; 0; 2], [:: 1; 2], 2);
  ([:: 0; 0; 2], [:: 1; 2; 1], 4);
  ([:: 0; 0; 2], [:: 1; 2; 2], 4);
  ([:: 0; 0; 2], [:: 2], 4);
  ([:: 0; 0; 2], [:: 2; 0; 1], 16);
  ([:: 0; 0; 2], [:: 2; 0; 2], 16);
  ([:: 0; 0; 2], [:: 2; 1], 8);
  ([:: 0; 0; 2], [:: 2; 1; 1], 16);
  ([:: 0; 0; 2], [:: 2; 1; 2], 16);
  ([:: 0; 0; 2], [:: 2; 2], 8);
  ([:: 0; 0; 2], [:: 2; 2; 1], 16);
  ([:: 0; 0; 2], [:: 2; 2; 2], 16);
  ([:: 0; 1], [::], 0);
  ([:: 0; 1], [:: 0; 0; 1], 0);
  ([:: 0; 1], [:: 0; 0; 2], 0);
  ([:: 0; 1], [:: 0; 1], 0);
  ([:: 0; 1], [:: 0; 1; 1], 0);
  ([:: 0; 1], [:: 0; 1; 2], 0);
  ([:: 0; 1], [:: 0; 2], 0);
  ([:: 0; 1], [:: 0; 2; 1], 0);
  ([:: 0; 1], [:: 0; 2; 2], 0);
  ([:: 0; 1], [:: 1], 1);
  ([:: 0; 1], [:: 1; 0; 1], 1);
  ([:: 0; 1], [:: 1; 0; 2], 1);
  ([:: 0; 1], [:: 1; 1], 1);
  ([:: 0; 1], [:: 1; 1; 1], 1);
  ([:: 0; 1], [:: 1; 1; 2], 1);
  ([:: 0; 1], [:: 1; 2], 1);
  ([:: 0; 1], [:: 1; 2; 1], 1);
  ([:: 0; 1], [:: 1; 2; 2], 1);
  ([:: 0; 1], [:: 2], 2);
  ([:: 0; 1], [:: 2; 0; 1], 2);
  ([:: 0; 1], [:: 2; 0; 2], 2);
  ([:: 0; 1], [:: 2; 1], 2);
  ([:: 0; 1], [:: 2; 1; 1], 2);
  ([:: 0; 1], [:: 2; 1; 2], 2);
  ([:: 0; 1], [:: 2; 2], 2);
  ([:: 0; 1], [:: 2; 2; 1], 2);
  ([:: 0; 1], [:: 2; 2; 2], 2);
  ([:: 0; 1; 1], [::], 0);
  ([:: 0; 1; 1], [:: 0; 0; 1], 0);
  ([:: 0; 1; 1], [:: 0; 0; 2], 0);
  ([:: 0; 1; 1], [:: 0; 1], 0);
  ([:: 0; 1; 1], [:: 0; 1; 1], 0);
  ([:: 0; 1; 1], [:: 0; 1; 2], 0);
  ([:: 0; 1; 1], [:: 0; 2], 0);
  ([:: 0; 1; 1], [:: 0; 2; 1], 0);
  ([:: 0; 1; 1], [:: 0; 2; 2], 0);
  ([:: 0; 1; 1], [:: 1], 1);
  ([:: 0; 1; 1], [:: 1; 0; 1], 2);
  ([:: 0; 1; 1], [:: 1; 0; 2], 3);
  ([:: 0; 1; 1], [:: 1; 1], 0);
  ([:: 0; 1; 1], [:: 1; 1; 1], 1);
  ([:: 0; 1; 1], [:: 1; 1; 2], 2);
  ([:: 0; 1; 1], [:: 1; 2], (-1));
  ([:: 0; 1; 1], [:: 1; 2; 1], 0);
  ([:: 0; 1; 1], [:: 1; 2; 2], 1);
  ([:: 0; 1; 1], [:: 2], 4);
  ([:: 0; 1; 1], [:: 2; 0; 1], 6);
  ([:: 0; 1; 1], [:: 2; 0; 2], 8);
  ([:: 0; 1; 1], [:: 2; 1], 2);
  ([:: 0; 1; 1], [:: 2; 1; 1], 4);
  ([:: 0; 1; 1], [:: 2; 1; 2], 6);
  ([:: 0; 1; 1], [:: 2; 2], 0);
  ([:: 0; 1; 1], [:: 2; 2; 1], 2);
  ([:: 0; 1; 1], [:: 2; 2; 2], 4);
  ([:: 0; 1; 2], [::], 0);
  ([:: 0; 1; 2], [:: 0; 0; 1], 0);
  ([:: 0; 1; 2], [:: 0; 0; 2], 0);
  ([:: 0; 1; 2], [:: 0; 1], 0);
  ([:: 0; 1; 2], [:: 0; 1; 1], 0);
  ([:: 0; 1; 2], [:: 0; 1; 2], 0);
  ([:: 0; 1; 2], [:: 0; 2], 0);
  ([:: 0; 1; 2], [:: 0; 2; 1], 0);
  ([:: 0; 1; 2], [:: 0; 2; 2], 0);
  ([:: 0; 1; 2], [:: 1], 1);
  ([:: 0; 1; 2], [:: 1; 0; 1], 5);
  ([:: 0; 1; 2], [:: 1; 0; 2], 6);
  ([:: 0; 1; 2], [:: 1; 1], 1);
  ([:: 0; 1; 2], [:: 1; 1; 1], 3);
  ([:: 0; 1; 2], [:: 1; 1; 2], 4);
  ([:: 0; 1; 2], [:: 1; 2], 0);
  ([:: 0; 1; 2], [:: 1; 2; 1], 1);
  ([:: 0; 1; 2], [:: 1; 2; 2], 2);
  ([:: 0; 1; 2], [:: 2], 4);
  ([:: 0; 1; 2], [:: 2; 0; 1], 18);
  ([:: 0; 1; 2], [:: 2; 0; 2], 20);
  ([:: 0; 1; 2], [:: 2; 1], 6);
  ([:: 0; 1; 2], [:: 2; 1; 1], 14);
  ([:: 0; 1; 2], [:: 2; 1; 2], 16);
  ([:: 0; 1; 2], [:: 2; 2], 4);
  ([:: 0; 1; 2], [:: 2; 2; 1], 10);
  ([:: 0; 1; 2], [:: 2; 2; 2], 12);
  ([:: 0; 2], [::], 0);
  ([:: 0; 2], [:: 0; 0; 1], 0);
  ([:: 0; 2], [:: 0; 0; 2], 0);
  ([:: 0; 2], [:: 0; 1], 0);
  ([:: 0; 2], [:: 0; 1; 1], 0);
  ([:: 0; 2], [:: 0; 1; 2], 0);
  ([:: 0; 2], [:: 0; 2], 0);
  ([:: 0; 2], [:: 0; 2; 1], 0);
  ([:: 0; 2], [:: 0; 2; 2], 0);
  ([:: 0; 2], [:: 1], 1);
  ([:: 0; 2], [:: 1; 0; 1], 4);
  ([:: 0; 2], [:: 1; 0; 2], 4);
  ([:: 0; 2], [:: 1; 1], 2);
  ([:: 0; 2], [:: 1; 1; 1], 4);
  ([:: 0; 2], [:: 1; 1; 2], 4);
  ([:: 0; 2], [:: 1; 2], 2);
  ([:: 0; 2], [:: 1; 2; 1], 4);
  ([:: 0; 2], [:: 1; 2; 2], 4);
  ([:: 0; 2], [:: 2], 2);
  ([:: 0; 2], [:: 2; 0; 1], 8);
  ([:: 0; 2], [:: 2; 0; 2], 8);
  ([:: 0; 2], [:: 2; 1], 4);
  ([:: 0; 2], [:: 2; 1; 1], 8);
  ([:: 0; 2], [:: 2; 1; 2], 8);
  ([:: 0; 2], [:: 2; 2], 4);
  ([:: 0; 2], [:: 2; 2; 1], 8);
  ([:: 0; 2], [:: 2; 2; 2], 8);
  ([:: 0; 2; 1], [::], 0);
  ([:: 0; 2; 1], [:: 0; 0; 1], 0);
  ([:: 0; 2; 1], [:: 0; 0; 2], 0);
  ([:: 0; 2; 1], [:: 0; 1], 0);
  ([:: 0; 2; 1], [:: 0; 1; 1], 0);
  ([:: 0; 2; 1], [:: 0; 1; 2], 0);
  ([:: 0; 2; 1], [:: 0; 2], 0);
  ([:: 0; 2; 1], [:: 0; 2; 1], 0);
  ([:: 0; 2; 1], [:: 0; 2; 2], 0);
  ([:: 0; 2; 1], [:: 1], 1);
  ([:: 0; 2; 1], [:: 1; 0; 1], 5);
  ([:: 0; 2; 1], [:: 1; 0; 2], 9);
  ([:: 0; 2; 1], [:: 1; 1], (-1));
  ([:: 0; 2; 1], [:: 1; 1; 1], 3);
  ([:: 0; 2; 1], [:: 1; 1; 2], 7);
  ([:: 0; 2; 1], [:: 1; 2], (-3));
  ([:: 0; 2; 1], [:: 1; 2; 1], 1);
  ([:: 0; 2; 1], [:: 1; 2; 2], 5);
  ([:: 0; 2; 1], [:: 2], 4);
  ([:: 0; 2; 1], [:: 2; 0; 1], 12);
  ([:: 0; 2; 1], [:: 2; 0; 2], 20);
  ([:: 0; 2; 1], [:: 2; 1], 0);
  ([:: 0; 2; 1], [:: 2; 1; 1], 8);
  ([:: 0; 2; 1], [:: 2; 1; 2], 16);
  ([:: 0; 2; 1], [:: 2; 2], (-4));
  ([:: 0; 2; 1], [:: 2; 2; 1], 4);
  ([:: 0; 2; 1], [:: 2; 2; 2], 12);
  ([:: 0; 2; 2], [::], 0);
  ([:: 0; 2; 2], [:: 0; 0; 1], 0);
  ([:: 0; 2; 2], [:: 0; 0; 2], 0);
  ([:: 0; 2; 2], [:: 0; 1], 0);
  ([:: 0; 2; 2], [:: 0; 1; 1], 0);
  ([:: 0; 2; 2], [:: 0; 1; 2], 0);
  ([:: 0; 2; 2], [:: 0; 2], 0);
  ([:: 0; 2; 2], [:: 0; 2; 1], 0);
  ([:: 0; 2; 2], [:: 0; 2; 2], 0);
  ([:: 0; 2; 2], [:: 1], 1);
  ([:: 0; 2; 2], [:: 1; 0; 1], 8);
  ([:: 0; 2; 2], [:: 1; 0; 2], 12);
  ([:: 0; 2; 2], [:: 1; 1], 0);
  ([:: 0; 2; 2], [:: 1; 1; 1], 4);
  ([:: 0; 2; 2], [:: 1; 1; 2], 8);
  ([:: 0; 2; 2], [:: 1; 2], (-2));
  ([:: 0; 2; 2], [:: 1; 2; 1], 0);
  ([:: 0; 2; 2], [:: 1; 2; 2], 4);
  ([:: 0; 2; 2], [:: 2], 4);
  ([:: 0; 2; 2], [:: 2; 0; 1], 24);
  ([:: 0; 2; 2], [:: 2; 0; 2], 32);
  ([:: 0; 2; 2], [:: 2; 1], 4);
  ([:: 0; 2; 2], [:: 2; 1; 1], 16);
  ([:: 0; 2; 2], [:: 2; 1; 2], 24);
  ([:: 0; 2; 2], [:: 2; 2], 0);
  ([:: 0; 2; 2], [:: 2; 2; 1], 8);
  ([:: 0; 2; 2], [:: 2; 2; 2], 16);
  ([:: 1], [::], 0);
  ([:: 1], [:: 0; 0; 1], 1);
  ([:: 1], [:: 0; 0; 2], 1);
  ([:: 1], [:: 0; 1], 1);
  ([:: 1], [:: 0; 1; 1], 1);
  ([:: 1], [:: 0; 1; 2], 1);
  ([:: 1], [:: 0; 2], 1);
  ([:: 1], [:: 0; 2; 1], 1);
  ([:: 1], [:: 0; 2; 2], 1);
  ([:: 1], [:: 1], 1);
  ([:: 1], [:: 1; 0; 1], 1);
  ([:: 1], [:: 1; 0; 2], 1);
  ([:: 1], [:: 1; 1], 1);
  ([:: 1], [:: 1; 1; 1], 1);
  ([:: 1], [:: 1; 1; 2], 1);
  ([:: 1], [:: 1; 2], 1);
  ([:: 1], [:: 1; 2; 1], 1);
  ([:: 1], [:: 1; 2; 2], 1);
  ([:: 1], [:: 2], 1);
  ([:: 1], [:: 2; 0; 1], 1);
  ([:: 1], [:: 2; 0; 2], 1);
  ([:: 1], [:: 2; 1], 1);
  ([:: 1], [:: 2; 1; 1], 1);
  ([:: 1], [:: 2; 1; 2], 1);
  ([:: 1], [:: 2; 2], 1);
  ([:: 1], [:: 2; 2; 1], 1);
  ([:: 1], [:: 2; 2; 2], 1);
  ([:: 1; 0; 1], [::], 0);
  ([:: 1; 0; 1], [:: 0; 0; 1], 1);
  ([:: 1; 0; 1], [:: 0; 0; 2], 4);
  ([:: 1; 0; 1], [:: 0; 1], 1);
  ([:: 1; 0; 1], [:: 0; 1; 1], 2);
  ([:: 1; 0; 1], [:: 0; 1; 2], 5);
  ([:: 1; 0; 1], [:: 0; 2], 4);
  ([:: 1; 0; 1], [:: 0; 2; 1], 5);
  ([:: 1; 0; 1], [:: 0; 2; 2], 8);
  ([:: 1; 0; 1], [:: 1], 1);
  ([:: 1; 0; 1], [:: 1; 0; 1], 0);
  ([:: 1; 0; 1], [:: 1; 0; 2], 1);
  ([:: 1; 0; 1], [:: 1; 1], 2);
  ([:: 1; 0; 1], [:: 1; 1; 1], 1);
  ([:: 1; 0; 1], [:: 1; 1; 2], 2);
  ([:: 1; 0; 1], [:: 1; 2], 5);
  ([:: 1; 0; 1], [:: 1; 2; 1], 4);
  ([:: 1; 0; 1], [:: 1; 2; 2], 5);
  ([:: 1; 0; 1], [:: 2], 4);
  ([:: 1; 0; 1], [:: 2; 0; 1], 1);
  ([:: 1; 0; 1], [:: 2; 0; 2], 0);
  ([:: 1; 0; 1], [:: 2; 1], 5);
  ([:: 1; 0; 1], [:: 2; 1; 1], 2);
  ([:: 1; 0; 1], [:: 2; 1; 2], 1);
  ([:: 1; 0; 1], [:: 2; 2], 8);
  ([:: 1; 0; 1], [:: 2; 2; 1], 5);
  ([:: 1; 0; 1], [:: 2; 2; 2], 4);
  ([:: 1; 0; 2], [::], 0);
  ([:: 1; 0; 2], [:: 0; 0; 1], 1);
  ([:: 1; 0; 2], [:: 0; 0; 2], 4);
  ([:: 1; 0; 2], [:: 0; 1], 1);
  ([:: 1; 0; 2], [:: 0; 1; 1], 3);
  ([:: 1; 0; 2], [:: 0; 1; 2], 6);
  ([:: 1; 0; 2], [:: 0; 2], 4);
  ([:: 1; 0; 2], [:: 0; 2; 1], 9);
  ([:: 1; 0; 2], [:: 0; 2; 2], 12);
  ([:: 1; 0; 2], [:: 1], 1);
  ([:: 1; 0; 2], [:: 1; 0; 1], 1);
  ([:: 1; 0; 2], [:: 1; 0; 2], 0);
  ([:: 1; 0; 2], [:: 1; 1], 3);
  ([:: 1; 0; 2], [:: 1; 1; 1], 3);
  ([:: 1; 0; 2], [:: 1; 1; 2], 2);
  ([:: 1; 0; 2], [:: 1; 2], 6);
  ([:: 1; 0; 2], [:: 1; 2; 1], 9);
  ([:: 1; 0; 2], [:: 1; 2; 2], 8);
  ([:: 1; 0; 2], [:: 2], 4);
  ([:: 1; 0; 2], [:: 2; 0; 1], 9);
  ([:: 1; 0; 2], [:: 2; 0; 2], 4);
  ([:: 1; 0; 2], [:: 2; 1], 9);
  ([:: 1; 0; 2], [:: 2; 1; 1], 11);
  ([:: 1; 0; 2], [:: 2; 1; 2], 6);
  ([:: 1; 0; 2], [:: 2; 2], 12);
  ([:: 1; 0; 2], [:: 2; 2; 1], 17);
  ([:: 1; 0; 2], [:: 2; 2; 2], 12);
  ([:: 1; 1], [::], 0);
  ([:: 1; 1], [:: 0; 0; 1], 1);
  ([:: 1; 1], [:: 0; 0; 2], 2);
  ([:: 1; 1], [:: 0; 1], (-1));
  ([:: 1; 1], [:: 0; 1; 1], 0);
  ([:: 1; 1], [:: 0; 1; 2], 1);
  ([:: 1; 1], [:: 0; 2], (-2));
  ([:: 1; 1], [:: 0; 2; 1], (-1));
  ([:: 1; 1], [:: 0; 2; 2], 0);
  ([:: 1; 1], [:: 1], 1);
  ([:: 1; 1], [:: 1; 0; 1], 2);
  ([:: 1; 1], [:: 1; 0; 2], 3);
  ([:: 1; 1], [:: 1; 1], 0);
  ([:: 1; 1], [:: 1; 1; 1], 1);
  ([:: 1; 1], [:: 1; 1; 2], 2);
  ([:: 1; 1], [:: 1; 2], (-1));
  ([:: 1; 1], [:: 1; 2; 1], 0);
  ([:: 1; 1], [:: 1; 2; 2], 1);
  ([:: 1; 1], [:: 2], 2);
  ([:: 1; 1], [:: 2; 0; 1], 3);
  ([:: 1; 1], [:: 2; 0; 2], 4);
  ([:: 1; 1], [:: 2; 1], 1);
  ([:: 1; 1], [:: 2; 1; 1], 2);
  ([:: 1; 1], [:: 2; 1; 2], 3);
  ([:: 1; 1], [:: 2; 2], 0);
  ([:: 1; 1], [:: 2; 2; 1], 1);
  ([:: 1; 1], [:: 2; 2; 2], 2);
  ([:: 1; 1; 1], [::], 0);
  ([:: 1; 1; 1], [:: 0; 0; 1], 1);
  ([:: 1; 1; 1], [:: 0; 0; 2], 4);
  ([:: 1; 1; 1], [:: 0; 1], 1);
  ([:: 1; 1; 1], [:: 0; 1; 1], 1);
  ([:: 1; 1; 1], [:: 0; 1; 2], 3);
  ([:: 1; 1; 1], [:: 0; 2], 4);
  ([:: 1; 1; 1], [:: 0; 2; 1], 3);
  ([:: 1; 1; 1], [:: 0; 2; 2], 4);
  ([:: 1; 1; 1], [:: 1], 1);
  ([:: 1; 1; 1], [:: 1; 0; 1], 1);
  ([:: 1; 1; 1], [:: 1; 0; 2], 3);
  ([:: 1; 1; 1], [:: 1; 1], 1);
  ([:: 1; 1; 1], [:: 1; 1; 1], 0);
  ([:: 1; 1; 1], [:: 1; 1; 2], 1);
  ([:: 1; 1; 1], [:: 1; 2], 3);
  ([:: 1; 1; 1], [:: 1; 2; 1], 1);
  ([:: 1; 1; 1], [:: 1; 2; 2], 1);
  ([:: 1; 1; 1], [:: 2], 4);
  ([:: 1; 1; 1], [:: 2; 0; 1], 3);
  ([:: 1; 1; 1], [:: 2; 0; 2], 4);
  ([:: 1; 1; 1], [:: 2; 1], 3);
  ([:: 1; 1; 1], [:: 2; 1; 1], 1);
  ([:: 1; 1; 1], [:: 2; 1; 2], 1);
  ([:: 1; 1; 1], [:: 2; 2], 4);
  ([:: 1; 1; 1], [:: 2; 2; 1], 1);
  ([:: 1; 1; 1], [:: 2; 2; 2], 0);
  ([:: 1; 1; 2], [::], 0);
  ([:: 1; 1; 2], [:: 0; 0; 1], 1);
  ([:: 1; 1; 2], [:: 0; 0; 2], 4);
  ([:: 1; 1; 2], [:: 0; 1], 1);
  ([:: 1; 1; 2], [:: 0; 1; 1], 2);
  ([:: 1; 1; 2], [:: 0; 1; 2], 4);
  ([:: 1; 1; 2], [:: 0; 2], 4);
  ([:: 1; 1; 2], [:: 0; 2; 1], 7);
  ([:: 1; 1; 2], [:: 0; 2; 2], 8);
  ([:: 1; 1; 2], [:: 1], 1);
  ([:: 1; 1; 2], [:: 1; 0; 1], 2);
  ([:: 1; 1; 2], [:: 1; 0; 2], 2);
  ([:: 1; 1; 2], [:: 1; 1], 2);
  ([:: 1; 1; 2], [:: 1; 1; 1], 1);
  ([:: 1; 1; 2], [:: 1; 1; 2], 0);
  ([:: 1; 1; 2], [:: 1; 2], 4);
  ([:: 1; 1; 2], [:: 1; 2; 1], 4);
  ([:: 1; 1; 2], [:: 1; 2; 2], 2);
  ([:: 1; 1; 2], [:: 2], 4);
  ([:: 1; 1; 2], [:: 2; 0; 1], 11);
  ([:: 1; 1; 2], [:: 2; 0; 2], 8);
  ([:: 1; 1; 2], [:: 2; 1], 7);
  ([:: 1; 1; 2], [:: 2; 1; 1], 8);
  ([:: 1; 1; 2], [:: 2; 1; 2], 4);
  ([:: 1; 1; 2], [:: 2; 2], 8);
  ([:: 1; 1; 2], [:: 2; 2; 1], 9);
  ([:: 1; 1; 2], [:: 2; 2; 2], 4);
  ([:: 1; 2], [::], 0);
  ([:: 1; 2], [:: 0; 0; 1], 1);
  ([:: 1; 2], [:: 0; 0; 2], 2);
  ([:: 1; 2], [:: 0; 1], (-1));
  ([:: 1; 2], [:: 0; 1; 1], (-1));
  ([:: 1; 2], [:: 0; 1; 2], 0);
  ([:: 1; 2], [:: 0; 2], (-2));
  ([:: 1; 2], [:: 0; 2; 1], (-3));
  ([:: 1; 2], [:: 0; 2; 2], (-2));
  ([:: 1; 2], [:: 1], 1);
  ([:: 1; 2], [:: 1; 0; 1], 5);
  ([:: 1; 2], [:: 1; 0; 2], 6);
  ([:: 1; 2], [:: 1; 1], 1);
  ([:: 1; 2], [:: 1; 1; 1], 3);
  ([:: 1; 2], [:: 1; 1; 2], 4);
  ([:: 1; 2], [:: 1; 2], 0);
  ([:: 1; 2], [:: 1; 2; 1], 1);
  ([:: 1; 2], [:: 1; 2; 2], 2);
  ([:: 1; 2], [:: 2], 2);
  ([:: 1; 2], [:: 2; 0; 1], 9);
  ([:: 1; 2], [:: 2; 0; 2], 10);
  ([:: 1; 2], [:: 2; 1], 3);
  ([:: 1; 2], [:: 2; 1; 1], 7);
  ([:: 1; 2], [:: 2; 1; 2], 8);
  ([:: 1; 2], [:: 2; 2], 2);
  ([:: 1; 2], [:: 2; 2; 1], 5);
  ([:: 1; 2], [:: 2; 2; 2], 6);
  ([:: 1; 2; 1], [::], 0);
  ([:: 1; 2; 1], [:: 0; 0; 1], 1);
  ([:: 1; 2; 1], [:: 0; 0; 2], 4);
  ([:: 1; 2; 1], [:: 0; 1], 1);
  ([:: 1; 2; 1], [:: 0; 1; 1], 0);
  ([:: 1; 2; 1], [:: 0; 1; 2], 1);
  ([:: 1; 2; 1], [:: 0; 2], 4);
  ([:: 1; 2; 1], [:: 0; 2; 1], 1);
  ([:: 1; 2; 1], [:: 0; 2; 2], 0);
  ([:: 1; 2; 1], [:: 1], 1);
  ([:: 1; 2; 1], [:: 1; 0; 1], 4);
  ([:: 1; 2; 1], [:: 1; 0; 2], 9);
  ([:: 1; 2; 1], [:: 1; 1], 0);
  ([:: 1; 2; 1], [:: 1; 1; 1], 1);
  ([:: 1; 2; 1], [:: 1; 1; 2], 4);
  ([:: 1; 2; 1], [:: 1; 2], 1);
  ([:: 1; 2; 1], [:: 1; 2; 1], 0);
  ([:: 1; 2; 1], [:: 1; 2; 2], 1);
  ([:: 1; 2; 1], [:: 2], 4);
  ([:: 1; 2; 1], [:: 2; 0; 1], 9);
  ([:: 1; 2; 1], [:: 2; 0; 2], 16);
  ([:: 1; 2; 1], [:: 2; 1], 1);
  ([:: 1; 2; 1], [:: 2; 1; 1], 4);
  ([:: 1; 2; 1], [:: 2; 1; 2], 9);
  ([:: 1; 2; 1], [:: 2; 2], 0);
  ([:: 1; 2; 1], [:: 2; 2; 1], 1);
  ([:: 1; 2; 1], [:: 2; 2; 2], 4);
  ([:: 1; 2; 2], [::], 0);
  ([:: 1; 2; 2], [:: 0; 0; 1], 1);
  ([:: 1; 2; 2], [:: 0; 0; 2], 4);
  ([:: 1; 2; 2], [:: 0; 1], 1);
  ([:: 1; 2; 2], [:: 0; 1; 1], 1);
  ([:: 1; 2; 2], [:: 0; 1; 2], 2);
  ([:: 1; 2; 2], [:: 0; 2], 4);
  ([:: 1; 2; 2], [:: 0; 2; 1], 5);
  ([:: 1; 2; 2], [:: 0; 2; 2], 4);
  ([:: 1; 2; 2], [:: 1], 1);
  ([:: 1; 2; 2], [:: 1; 0; 1], 5);
  ([:: 1; 2; 2], [:: 1; 0; 2], 8);
  ([:: 1; 2; 2], [:: 1; 1], 1);
  ([:: 1; 2; 2], [:: 1; 1; 1], 1);
  ([:: 1; 2; 2], [:: 1; 1; 2], 2);
  ([:: 1; 2; 2], [:: 1; 2], 2);
  ([:: 1; 2; 2], [:: 1; 2; 1], 1);
  ([:: 1; 2; 2], [:: 1; 2; 2], 0);
  ([:: 1; 2; 2], [:: 2], 4);
  ([:: 1; 2; 2], [:: 2; 0; 1], 17);
  ([:: 1; 2; 2], [:: 2; 0; 2], 20);
  ([:: 1; 2; 2], [:: 2; 1], 5);
  ([:: 1; 2; 2], [:: 2; 1; 1], 9);
  ([:: 1; 2; 2], [:: 2; 1; 2], 10);
  ([:: 1; 2; 2], [:: 2; 2], 4);
  ([:: 1; 2; 2], [:: 2; 2; 1], 5);
  ([:: 1; 2; 2], [:: 2; 2; 2], 4);
  ([:: 2], [::], 0);
  ([:: 2], [:: 0; 0; 1], 4);
  ([:: 2], [:: 0; 0; 2], 4);
  ([:: 2], [:: 0; 1], 2);
  ([:: 2], [:: 0; 1; 1], 4);
  ([:: 2], [:: 0; 1; 2], 4);
  ([:: 2], [:: 0; 2], 2);
  ([:: 2], [:: 0; 2; 1], 4);
  ([:: 2], [:: 0; 2; 2], 4);
  ([:: 2], [:: 1], 1);
  ([:: 2], [:: 1; 0; 1], 4);
  ([:: 2], [:: 1; 0; 2], 4);
  ([:: 2], [:: 1; 1], 2);
  ([:: 2], [:: 1; 1; 1], 4);
  ([:: 2], [:: 1; 1; 2], 4);
  ([:: 2], [:: 1; 2], 2);
  ([:: 2], [:: 1; 2; 1], 4);
  ([:: 2], [:: 1; 2; 2], 4);
  ([:: 2], [:: 2], 1);
  ([:: 2], [:: 2; 0; 1], 4);
  ([:: 2], [:: 2; 0; 2], 4);
  ([:: 2], [:: 2; 1], 2);
  ([:: 2], [:: 2; 1; 1], 4);
  ([:: 2], [:: 2; 1; 2], 4);
  ([:: 2], [:: 2; 2], 2);
  ([:: 2], [:: 2; 2; 1], 4);
  ([:: 2], [:: 2; 2; 2], 4);
  ([:: 2; 0; 1], [::], 0);
  ([:: 2; 0; 1], [:: 0; 0; 1], 4);
  ([:: 2; 0; 1], [:: 0; 0; 2], 16);
  ([:: 2; 0; 1], [:: 0; 1], 2);
  ([:: 2; 0; 1], [:: 0; 1; 1], 6);
  ([:: 2; 0; 1], [:: 0; 1; 2], 18);
  ([:: 2; 0; 1], [:: 0; 2], 8);
  ([:: 2; 0; 1], [:: 0; 2; 1], 12);
  ([:: 2; 0; 1], [:: 0; 2; 2], 24);
  ([:: 2; 0; 1], [:: 1], 1);
  ([:: 2; 0; 1], [:: 1; 0; 1], 1);
  ([:: 2; 0; 1], [:: 1; 0; 2], 9);
  ([:: 2; 0; 1], [:: 1; 1], 3);
  ([:: 2; 0; 1], [:: 1; 1; 1], 3);
  ([:: 2; 0; 1], [:: 1; 1; 2], 11);
  ([:: 2; 0; 1], [:: 1; 2], 9);
  ([:: 2; 0; 1], [:: 1; 2; 1], 9);
  ([:: 2; 0; 1], [:: 1; 2; 2], 17);
  ([:: 2; 0; 1], [:: 2], 4);
  ([:: 2; 0; 1], [:: 2; 0; 1], 0);
  ([:: 2; 0; 1], [:: 2; 0; 2], 4);
  ([:: 2; 0; 1], [:: 2; 1], 6);
  ([:: 2; 0; 1], [:: 2; 1; 1], 2);
  ([:: 2; 0; 1], [:: 2; 1; 2], 6);
  ([:: 2; 0; 1], [:: 2; 2], 12);
  ([:: 2; 0; 1], [:: 2; 2; 1], 8);
  ([:: 2; 0; 1], [:: 2; 2; 2], 12);
  ([:: 2; 0; 2], [::], 0);
  ([:: 2; 0; 2], [:: 0; 0; 1], 4);
  ([:: 2; 0; 2], [:: 0; 0; 2], 16);
  ([:: 2; 0; 2], [:: 0; 1], 2);
  ([:: 2; 0; 2], [:: 0; 1; 1], 8);
  ([:: 2; 0; 2], [:: 0; 1; 2], 20);
  ([:: 2; 0; 2], [:: 0; 2], 8);
  ([:: 2; 0; 2], [:: 0; 2; 1], 20);
  ([:: 2; 0; 2], [:: 0; 2; 2], 32);
  ([:: 2; 0; 2], [:: 1], 1);
  ([:: 2; 0; 2], [:: 1; 0; 1], 0);
  ([:: 2; 0; 2], [:: 1; 0; 2], 4);
  ([:: 2; 0; 2], [:: 1; 1], 4);
  ([:: 2; 0; 2], [:: 1; 1; 1], 4);
  ([:: 2; 0; 2], [:: 1; 1; 2], 8);
  ([:: 2; 0; 2], [:: 1; 2], 10);
  ([:: 2; 0; 2], [:: 1; 2; 1], 16);
  ([:: 2; 0; 2], [:: 1; 2; 2], 20);
  ([:: 2; 0; 2], [:: 2], 4);
  ([:: 2; 0; 2], [:: 2; 0; 1], 4);
  ([:: 2; 0; 2], [:: 2; 0; 2], 0);
  ([:: 2; 0; 2], [:: 2; 1], 10);
  ([:: 2; 0; 2], [:: 2; 1; 1], 8);
  ([:: 2; 0; 2], [:: 2; 1; 2], 4);
  ([:: 2; 0; 2], [:: 2; 2], 16);
  ([:: 2; 0; 2], [:: 2; 2; 1], 20);
  ([:: 2; 0; 2], [:: 2; 2; 2], 16);
  ([:: 2; 1], [::], 0);
  ([:: 2; 1], [:: 0; 0; 1], 4);
  ([:: 2; 1], [:: 0; 0; 2], 8);
  ([:: 2; 1], [:: 0; 1], (-2));
  ([:: 2; 1], [:: 0; 1; 1], 2);
  ([:: 2; 1], [:: 0; 1; 2], 6);
  ([:: 2; 1], [:: 0; 2], (-4));
  ([:: 2; 1], [:: 0; 2; 1], 0);
  ([:: 2; 1], [:: 0; 2; 2], 4);
  ([:: 2; 1], [:: 1], 1);
  ([:: 2; 1], [:: 1; 0; 1], 5);
  ([:: 2; 1], [:: 1; 0; 2], 9);
  ([:: 2; 1], [:: 1; 1], (-1));
  ([:: 2; 1], [:: 1; 1; 1], 3);
  ([:: 2; 1], [:: 1; 1; 2], 7);
  ([:: 2; 1], [:: 1; 2], (-3));
  ([:: 2; 1], [:: 1; 2; 1], 1);
  ([:: 2; 1], [:: 1; 2; 2], 5);
  ([:: 2; 1], [:: 2], 2);
  ([:: 2; 1], [:: 2; 0; 1], 6);
  ([:: 2; 1], [:: 2; 0; 2], 10);
  ([:: 2; 1], [:: 2; 1], 0);
  ([:: 2; 1], [:: 2; 1; 1], 4);
  ([:: 2; 1], [:: 2; 1; 2], 8);
  ([:: 2; 1], [:: 2; 2], (-2));
  ([:: 2; 1], [:: 2; 2; 1], 2);
  ([:: 2; 1], [:: 2; 2; 2], 6);
  ([:: 2; 1; 1], [::], 0);
  ([:: 2; 1; 1], [:: 0; 0; 1], 4);
  ([:: 2; 1; 1], [:: 0; 0; 2], 16);
  ([:: 2; 1; 1], [:: 0; 1], 2);
  ([:: 2; 1; 1], [:: 0; 1; 1], 4);
  ([:: 2; 1; 1], [:: 0; 1; 2], 14);
  ([:: 2; 1; 1], [:: 0; 2], 8);
  ([:: 2; 1; 1], [:: 0; 2; 1], 8);
  ([:: 2; 1; 1], [:: 0; 2; 2], 16);
  ([:: 2; 1; 1], [:: 1], 1);
  ([:: 2; 1; 1], [:: 1; 0; 1], 2);
  ([:: 2; 1; 1], [:: 1; 0; 2], 11);
  ([:: 2; 1; 1], [:: 1; 1], 2);
  ([:: 2; 1; 1], [:: 1; 1; 1], 1);
  ([:: 2; 1; 1], [:: 1; 1; 2], 8);
  ([:: 2; 1; 1], [:: 1; 2], 7);
  ([:: 2; 1; 1], [:: 1; 2; 1], 4);
  ([:: 2; 1; 1], [:: 1; 2; 2], 9);
  ([:: 2; 1; 1], [:: 2], 4);
  ([:: 2; 1; 1], [:: 2; 0; 1], 2);
  ([:: 2; 1; 1], [:: 2; 0; 2], 8);
  ([:: 2; 1; 1], [:: 2; 1], 4);
  ([:: 2; 1; 1], [:: 2; 1; 1], 0);
  ([:: 2; 1; 1], [:: 2; 1; 2], 4);
  ([:: 2; 1; 1], [:: 2; 2], 8);
  ([:: 2; 1; 1], [:: 2; 2; 1], 2);
  ([:: 2; 1; 1], [:: 2; 2; 2], 4);
  ([:: 2; 1; 2], [::], 0);
  ([:: 2; 1; 2], [:: 0; 0; 1], 4);
  ([:: 2; 1; 2], [:: 0; 0; 2], 16);
  ([:: 2; 1; 2], [:: 0; 1], 2);
  ([:: 2; 1; 2], [:: 0; 1; 1], 6);
  ([:: 2; 1; 2], [:: 0; 1; 2], 16);
  ([:: 2; 1; 2], [:: 0; 2], 8);
  ([:: 2; 1; 2], [:: 0; 2; 1], 16);
  ([:: 2; 1; 2], [:: 0; 2; 2], 24);
  ([:: 2; 1; 2], [:: 1], 1);
  ([:: 2; 1; 2], [:: 1; 0; 1], 1);
  ([:: 2; 1; 2], [:: 1; 0; 2], 6);
  ([:: 2; 1; 2], [:: 1; 1], 3);
  ([:: 2; 1; 2], [:: 1; 1; 1], 1);
  ([:: 2; 1; 2], [:: 1; 1; 2], 4);
  ([:: 2; 1; 2], [:: 1; 2], 8);
  ([:: 2; 1; 2], [:: 1; 2; 1], 9);
  ([:: 2; 1; 2], [:: 1; 2; 2], 10);
  ([:: 2; 1; 2], [:: 2], 4);
  ([:: 2; 1; 2], [:: 2; 0; 1], 6);
  ([:: 2; 1; 2], [:: 2; 0; 2], 4);
  ([:: 2; 1; 2], [:: 2; 1], 8);
  ([:: 2; 1; 2], [:: 2; 1; 1], 4);
  ([:: 2; 1; 2], [:: 2; 1; 2], 0);
  ([:: 2; 1; 2], [:: 2; 2], 12);
  ([:: 2; 1; 2], [:: 2; 2; 1], 10);
  ([:: 2; 1; 2], [:: 2; 2; 2], 4);
  ([:: 2; 2], [::], 0);
  ([:: 2; 2], [:: 0; 0; 1], 4);
  ([:: 2; 2], [:: 0; 0; 2], 8);
  ([:: 2; 2], [:: 0; 1], (-2));
  ([:: 2; 2], [:: 0; 1; 1], 0);
  ([:: 2; 2], [:: 0; 1; 2], 4);
  ([:: 2; 2], [:: 0; 2], (-4));
  ([:: 2; 2], [:: 0; 2; 1], (-4));
  ([:: 2; 2], [:: 0; 2; 2], 0);
  ([:: 2; 2], [:: 1], 1);
  ([:: 2; 2], [:: 1; 0; 1], 8);
  ([:: 2; 2], [:: 1; 0; 2], 12);
  ([:: 2; 2], [:: 1; 1], 0);
  ([:: 2; 2], [:: 1; 1; 1], 4);
  ([:: 2; 2], [:: 1; 1; 2], 8);
  ([:: 2; 2], [:: 1; 2], (-2));
  ([:: 2; 2], [:: 1; 2; 1], 0);
  ([:: 2; 2], [:: 1; 2; 2], 4);
  ([:: 2; 2], [:: 2], 2);
  ([:: 2; 2], [:: 2; 0; 1], 12);
  ([:: 2; 2], [:: 2; 0; 2], 16);
  ([:: 2; 2], [:: 2; 1], 2);
  ([:: 2; 2], [:: 2; 1; 1], 8);
  ([:: 2; 2], [:: 2; 1; 2], 12);
  ([:: 2; 2], [:: 2; 2], 0);
  ([:: 2; 2], [:: 2; 2; 1], 4);
  ([:: 2; 2], [:: 2; 2; 2], 8);
  ([:: 2; 2; 1], [::], 0);
  ([:: 2; 2; 1], [:: 0; 0; 1], 4);
  ([:: 2; 2; 1], [:: 0; 0; 2], 16);
  ([:: 2; 2; 1], [:: 0; 1], 2);
  ([:: 2; 2; 1], [:: 0; 1; 1], 2);
  ([:: 2; 2; 1], [:: 0; 1; 2], 10);
  ([:: 2; 2; 1], [:: 0; 2], 8);
  ([:: 2; 2; 1], [:: 0; 2; 1], 4);
  ([:: 2; 2; 1], [:: 0; 2; 2], 8);
  ([:: 2; 2; 1], [:: 1], 1);
  ([:: 2; 2; 1], [:: 1; 0; 1], 5);
  ([:: 2; 2; 1], [:: 1; 0; 2], 17);
  ([:: 2; 2; 1], [:: 1; 1], 1);
  ([:: 2; 2; 1], [:: 1; 1; 1], 1);
  ([:: 2; 2; 1], [:: 1; 1; 2], 9);
  ([:: 2; 2; 1], [:: 1; 2], 5);
  ([:: 2; 2; 1], [:: 1; 2; 1], 1);
  ([:: 2; 2; 1], [:: 1; 2; 2], 5);
  ([:: 2; 2; 1], [:: 2], 4);
  ([:: 2; 2; 1], [:: 2; 0; 1], 8);
  ([:: 2; 2; 1], [:: 2; 0; 2], 20);
  ([:: 2; 2; 1], [:: 2; 1], 2);
  ([:: 2; 2; 1], [:: 2; 1; 1], 2);
  ([:: 2; 2; 1], [:: 2; 1; 2], 10);
  ([:: 2; 2; 1], [:: 2; 2], 4);
  ([:: 2; 2; 1], [:: 2; 2; 1], 0);
  ([:: 2; 2; 1], [:: 2; 2; 2], 4);
  ([:: 2; 2; 2], [::], 0);
  ([:: 2; 2; 2], [:: 0; 0; 1], 4);
  ([:: 2; 2; 2], [:: 0; 0; 2], 16);
  ([:: 2; 2; 2], [:: 0; 1], 2);
  ([:: 2; 2; 2], [:: 0; 1; 1], 4);
  ([:: 2; 2; 2], [:: 0; 1; 2], 12);
  ([:: 2; 2; 2], [:: 0; 2], 8);
  ([:: 2; 2; 2], [:: 0; 2; 1], 12);
  ([:: 2; 2; 2], [:: 0; 2; 2], 16);
  ([:: 2; 2; 2], [:: 1], 1);
  ([:: 2; 2; 2], [:: 1; 0; 1], 4);
  ([:: 2; 2; 2], [:: 1; 0; 2], 12);
  ([:: 2; 2; 2], [:: 1; 1], 2);
  ([:: 2; 2; 2], [:: 1; 1; 1], 0);
  ([:: 2; 2; 2], [:: 1; 1; 2], 4);
  ([:: 2; 2; 2], [:: 1; 2], 6);
  ([:: 2; 2; 2], [:: 1; 2; 1], 4);
  ([:: 2; 2; 2], [:: 1; 2; 2], 4);
  ([:: 2; 2; 2], [:: 2], 4);
  ([:: 2; 2; 2], [:: 2; 0; 1], 12);
  ([:: 2; 2; 2], [:: 2; 0; 2], 16);
  ([:: 2; 2; 2], [:: 2; 1], 6);
  ([:: 2; 2; 2], [:: 2; 1; 1], 4);
  ([:: 2; 2; 2], [:: 2; 1; 2], 4);
  ([:: 2; 2; 2], [:: 2; 2], 8);
  ([:: 2; 2; 2], [:: 2; 2; 1], 4);
  ([:: 2; 2; 2], [:: 2; 2; 2], 0)].
Example repo_test_resultant :
  map (fun '(a, b, _) => resultant int_exact (zp a) (zp b)) resultant_cases = map (fun '(_, _, e) => Ret e) resultant_cases.
Proof. vm_compute. reflexivity. Qed.

(** polynomial/gcd.rs:1390-1407 test_multivariable_resultant *)
Definition zzp (l : seq (seq Z)) := @from_coefs int2_coef [seq mk_npoly int_poly_okN (zp c) | c <- l].
Example repo_test_multivariable_resultant :
  rmap (fun r => zv (nv r)) (resultant int2_exact (zzp [:: [:: -2]; [:: 0]; [:: 1]]) (zzp [:: [:: -2; 0; 1]; [:: 0; -2]; [:: 1]]))
    = Ret [:: 0; 0; -8; 0; 1].
Proof. vm_compute. reflexivity. Qed.

(** polynomial/distinct_degree_factorization.rs:51-108 test_distinct_degree_factorization *)
Example repo_test_distinct_degree_factorization :
  rmap (map (@mod_values 7)) (distinct_degree_factorization (to_mod 7 [:: 5; 0; 6; 6; 0; 0; 6; 0; 4; 0; 5; 6; 3; 3])) = Ret [:: [:: 3]; [:: 6; 4; 6; 1]; [:: 6; 3; 2; 4; 1]; [:: 4; 0; 0; 2; 6; 5; 1]] /\
  rmap (map (@mod_values 7)) (distinct_degree_factorization (to_mod 7 [:: 4; 2; 0; 0; 2; 2; 4; 6; 0; 5; 1; 3; 6; 3])) = Ret [:: [:: 3]; [:: 1]; [:: 1]; [:: 1]; [:: 1]; [:: 1]; [:: 1]; [:: 1]; [:: 1]; [:: 1]; [:: 1]; [:: 1]; [:: 1]; [:: 6; 3; 0; 0; 3; 3; 6; 2; 0; 4; 5; 1; 2; 1]].
Proof. split; vm_compute; reflexivity. Qed.

(** polynomial/same_degree_factorization.rs:101-154 test_same_degree_factorization *)
Example repo_test_same_degree_factorization :
  same_sets (rmap (fun r => map (@mod_values 5) r.1) (same_degree_factorization rng 50 8 (to_mod 5 [:: 2; 0; 3; 1; 2; 2; 4; 3; 0; 1; 2; 4; 1; 2; 0; 0; 1]) 0))
    [:: [:: 2; 3; 3; 4; 0; 0; 4; 4; 1]; [:: 1; 1; 1; 3; 3; 0; 2; 1; 1]] = true /\
  same_sets (rmap (fun r => map (@mod_values 5) r.1) (same_degree_factorization rng 50 1 (to_mod 5 [:: 4; 0; 0; 0; 1]) 0))
    [:: [:: 1; 1]; [:: 2; 1]; [:: 3; 1]; [:: 4; 1]] = true /\
  same_sets (rmap (fun r => map (@mod_values 5) r.1) (same_degree_factorization rng 50 2 (to_mod 5 [:: 2; 2; 3; 1; 1]) 0))
    [:: [:: 1; 1; 1]; [:: 2; 0; 1]] = true.
Proof. repeat apply conj; vm_compute; reflexivity. Qed.

(** polynomial/factorization_over_integers.rs:699-792 test_factor_square_free_polynomial_with_rng_0, 1, 5, 6 and 7
    (2, 3 and 4 are marked slow in the source). *)
Definition factors_of (l : seq (seq Z)) : res (seq (seq Z)) :=
  rmap (fun r => map zv r.1)
    (factor_square_free rng 200 (foldl (fun a b => poly_mul a (zp b)) (zp [:: 1]) l) 0).
Example repo_test_factor_square_free_polynomial :
  same_sets (factors_of [:: [:: 0; 1]; [:: 4; 4; 1; 3]; [:: 2; 0; 3; 3]; [:: 4; 3; 1; 1; 2]; [:: 4; 0; 2; 3; 3]]) [:: [:: 0; 1]; [:: 4; 4; 1; 3]; [:: 2; 0; 3; 3]; [:: 4; 3; 1; 1; 2]; [:: 4; 0; 2; 3; 3]] = true /\
  same_sets (factors_of [:: [:: (-1)]; [:: 0; 1]; [:: (-4); 4; (-1); 3]; [:: (-2); 0; (-3); 3]; [:: 4; (-3); 1; (-1); 2]; [:: 4; 0; 2; (-3); 3]]) [:: [:: (-1)]; [:: 0; 1]; [:: (-4); 4; (-1); 3]; [:: (-2); 0; (-3); 3]; [:: 4; (-3); 1; (-1); 2]; [:: 4; 0; 2; (-3); 3]] = true /\
  same_sets (factors_of [:: [:: (-69); 28; (-25); (-25); 57; (-10); (-65); (-19); 3; (-66); 38]]) [:: [:: (-69); 28; (-25); (-25); 57; (-10); (-65); (-19); 3; (-66); 38]] = true /\
  same_sets (factors_of [:: [:: 1234]]) [:: [:: 1234]] = true /\
  same_sets (factors_of [:: [:: 3; 1234]]) [:: [:: 3; 1234]] = true.
Proof. repeat apply conj; vm_compute; reflexivity. Qed.
