(** The test cases of /repo/src/algebraic_numbers.rs run through the model.
    These are checks of the model against values the authors of the code
    expect from it, not properties.  Every literal is copied from the cited
    test.  Where a test compares two numbers with [==] the model's equality is
    used too.  The stream of random numbers is not the one of the source. *)
From Coq Require Import ZArith QArith String.
From mathcomp Require Import ssreflect ssrfun ssrbool eqtype ssrnat seq.
From Verif Require Import M_Base M_Traits M_Interval M_IntervalExp M_Poly M_PolyCoef M_PolyAlg M_Factor M_Alg M_Display M_DisplayAlg.
Local Open Scope Z_scope.

Definition zp (l : seq Z) : poly int_coef := @from_coefs int_coef l.
(** Intervals and numbers as the tests write them (algebraic_numbers.rs:1526-1534 make_sqrt). *)
Definition ir (l u : Z) (n : nat) : dfi := if dfi_from_int_range l u n is Ret i then i else dfi_zero 0.
Definition rr (l u : Q) (n : nat) : dfi := if dfi_from_ratio_range l u n is Ret i then i else dfi_zero 0.
Definition sqrt_of (v : Z) (i : dfi) : ralg := RA (zp [:: - v; 0; 1]) i.
Definition data (a : ralg) : seq Z * dfi := (els (mp a), itv a).
(** A stream of numbers, and ln 2 from a fresh cache (interval_arithmetic.rs:109-120). *)
Definition rng (n : nat) : Z :=
  let x := (Z.of_nat n * 2654435761 + 12345) mod 2 ^ 32 in Z.shiftr (x * x) 17.
Definition ln2 (n : nat) : res dfi := rmap (fun i => dfi_convert i n) (ln2_compute n).
(** [assert!(result == expected)] *)
Definition gives (e : ralg) (r : res ralg) : Prop :=
  (a <- r ;; ra_eqb rng 50 200 a e)%res = Ret true.
Definition gives_opt (e : option ralg) (r : res (option ralg)) : Prop :=
  (a <- r ;; match a, e with
             | Some a, Some e => ra_eqb rng 50 200 a e
             | None, None => Ret true
             | _, _ => Ret false
             end)%res = Ret true.
Definition logs (a : ralg) :=
  (ra_to_integer_log2 a, ra_floor_log2 200 a, ra_ceil_log2 200 a).

(** algebraic_numbers.rs:1542-1604 test_debug *)
Example repo_test_alg_debug :
  debug_number "RealAlgebraicNumber" (RA (zp [:: 0; 1]) (dfi_from_int 0 0)) =
    "RealAlgebraicNumber { minimal_polynomial: 0 + 1*X, interval: DyadicFractionInterval { lower_bound_numer: 0, upper_bound_numer: 0, log2_denom: 0 } }"%string /\
  debug_number "RealAlgebraicNumber" (RA (zp [:: (-2); 0; 1]) (ir 1 2 0)) =
    "RealAlgebraicNumber { minimal_polynomial: -2 + 0*X + 1*X^2, interval: DyadicFractionInterval { lower_bound_numer: 1, upper_bound_numer: 2, log2_denom: 0 } }"%string /\
  debug_number "RealAlgebraicNumber" (RA (zp [:: 10788246961; 1545510240; (-29925033224); 1820726496; 19259216972; (-6781142688); (-2872989528); 2147919840; (-306405418); (-105773280); 53150088; (-10681440); 1243820; (-89568); 3928; (-96); 1]) (rr (2246827 # 100000)%Q (224683 # 10000)%Q 32)) =
    "RealAlgebraicNumber { minimal_polynomial: 10788246961 + 1545510240*X + -29925033224*X^2 + 1820726496*X^3 + 19259216972*X^4 + -6781142688*X^5 + -2872989528*X^6 + 2147919840*X^7 + -306405418*X^8 + -105773280*X^9 + 53150088*X^10 + -10681440*X^11 + 1243820*X^12 + -89568*X^13 + 3928*X^14 + -96*X^15 + 1*X^16, interval: DyadicFractionInterval { lower_bound_numer: 96500484847, upper_bound_numer: 96500613697, log2_denom: 32 } }"%string.
Proof. repeat apply conj; vm_compute; reflexivity. Qed.

(** algebraic_numbers.rs:1607-1632 test_neg *)
Example repo_test_alg_neg :
  rmap data (ra_neg (RA (zp [:: (-1); (-2); 1]) (ir 2 3 0))) = Ret (data (RA (zp [:: (-1); 2; 1]) (ir (-3) (-2) 0))) /\
  rmap data (ra_neg (ra_from_int 1)) = Ret (data (ra_from_int (-1))) /\
  rmap data (ra_neg (ra_from_ratio (4 # 5)%Q)) = Ret (data (ra_from_ratio (-4 # 5)%Q)).
Proof. repeat apply conj; vm_compute; reflexivity. Qed.

(** algebraic_numbers.rs:1635-1669 test_cmp_with_zero *)
Example repo_test_alg_cmp_with_zero :
  ra_cmp_with_zero (ra_from_int 0) = Ret Eq /\
  ra_cmp_with_zero (ra_from_int 1) = Ret Gt /\
  ra_cmp_with_zero (ra_from_int (-1)) = Ret Lt /\
  ra_cmp_with_zero (ra_from_ratio (-1 # 12)%Q) = Ret Lt /\
  ra_cmp_with_zero (RA (zp [:: 1; 1]) (ir (-1000) 1000 0)) = Ret Lt /\
  ra_cmp_with_zero (RA (zp [:: (-1); 1; 1]) (ir (-1) 1000 0)) = Ret Gt /\
  ra_cmp_with_zero (RA (zp [:: (-3); 1; 1]) (ir (-1000) 1 0)) = Ret Lt.
Proof. repeat apply conj; vm_compute; reflexivity. Qed.

(** algebraic_numbers.rs:1672-1727 test_add *)
Example repo_test_alg_add :
  gives (ra_from_int 3) (ra_add rng 50 200 (ra_from_int 1) (ra_from_int 2)) /\
  gives (sqrt_of 8 (ir 1 3 0)) (ra_add rng 50 200 (sqrt_of 2 (ir 1 2 0)) (sqrt_of 2 (ir 1 2 0))) /\
  gives (RA (zp [:: 1; 0; (-10); 0; 1]) (ir 3 4 0)) (ra_add rng 50 200 (sqrt_of 2 (ir 1 2 0)) (sqrt_of 3 (ir 1 2 0))) /\
  gives (ra_from_ratio (3 # 2)%Q) (ra_add rng 50 200 (RA (zp [:: (-11); 28; (-10); (-4); 1]) (ir 1 2 0)) (RA (zp [:: 1; 248; (-232); (-32); 16]) (ir (-1) 0 0))).
Proof. repeat apply conj; vm_compute; reflexivity. Qed.

(** algebraic_numbers.rs:1730-1772 test_sub *)
Example repo_test_alg_sub :
  gives (ra_from_int (-1)) (ra_sub rng 50 200 (ra_from_int 1) (ra_from_int 2)) /\
  gives (sqrt_of 8 (ir 1 3 0)) (ra_sub rng 50 200 (sqrt_of 2 (ir 1 2 0)) (sqrt_of 2 (ir (-2) (-1) 0))) /\
  gives (RA (zp [:: 1; 0; (-10); 0; 1]) (ir (-1) 0 0)) (ra_sub rng 50 200 (sqrt_of 2 (ir 1 2 0)) (sqrt_of 3 (ir 1 2 0))).
Proof. repeat apply conj; vm_compute; reflexivity. Qed.

(** algebraic_numbers.rs:1838-1888 test_mul *)
Example repo_test_alg_mul :
  gives (ra_from_int 0) (ra_mul rng 50 200 (ra_from_int 1) (ra_from_int 0)) /\
  gives (ra_from_int 0) (ra_mul rng 50 200 (sqrt_of 2 (ir 1 2 0)) (ra_from_int 0)) /\
  gives (ra_from_int 0) (ra_mul rng 50 200 (ra_from_int 0) (sqrt_of 2 (ir 1 2 0))) /\
  gives (ra_from_int 2) (ra_mul rng 50 200 (ra_from_int 1) (ra_from_int 2)) /\
  gives (ra_from_int (-2)) (ra_mul rng 50 200 (sqrt_of 2 (ir 1 2 0)) (sqrt_of 2 (ir (-2) (-1) 0))) /\
  gives (sqrt_of 6 (ir 1 10 0)) (ra_mul rng 50 200 (sqrt_of 2 (ir 1 2 0)) (sqrt_of 3 (ir 1 2 0))).
Proof. repeat apply conj; vm_compute; reflexivity. Qed.

(** algebraic_numbers.rs:1775-1835 test_floor_ceil *)
Example repo_test_alg_floor_ceil :
  (ra_integer_floor 200 (ra_from_int 1), ra_integer_ceil 200 (ra_from_int 1)) = (Ret 1, Ret 1) /\
  (ra_integer_floor 200 (ra_from_ratio (6 # 5)%Q), ra_integer_ceil 200 (ra_from_ratio (6 # 5)%Q)) = (Ret 1, Ret 2) /\
  (ra_integer_floor 200 (ra_from_ratio (4 # 5)%Q), ra_integer_ceil 200 (ra_from_ratio (4 # 5)%Q)) = (Ret 0, Ret 1) /\
  (ra_integer_floor 200 (ra_from_ratio (-1 # 5)%Q), ra_integer_ceil 200 (ra_from_ratio (-1 # 5)%Q)) = (Ret (-1), Ret 0) /\
  (ra_integer_floor 200 (sqrt_of 2 (ir 1 2 0)), ra_integer_ceil 200 (sqrt_of 2 (ir 1 2 0))) = (Ret 1, Ret 2) /\
  (ra_integer_floor 200 (sqrt_of 2000000 (ir 1000 2000 0)), ra_integer_ceil 200 (sqrt_of 2000000 (ir 1000 2000 0))) = (Ret 1414, Ret 1415) /\
  (ra_integer_floor 200 (sqrt_of 50000000000 (ir 100000 300000 0)), ra_integer_ceil 200 (sqrt_of 50000000000 (ir 100000 300000 0))) = (Ret 223606, Ret 223607) /\
  (ra_integer_floor 200 (RA (zp [:: 1; 0; (-10); 0; 1]) (ir (-1) 0 0)), ra_integer_ceil 200 (RA (zp [:: 1; 0; (-10); 0; 1]) (ir (-1) 0 0))) = (Ret (-1), Ret 0) /\
  (ra_integer_floor 200 (RA (zp [:: 1; 3; 2; 1]) (ir (-1000) 1000 0)), ra_integer_ceil 200 (RA (zp [:: 1; 3; 2; 1]) (ir (-1000) 1000 0))) = (Ret (-1), Ret 0).
Proof. repeat apply conj; vm_compute; reflexivity. Qed.

(** algebraic_numbers.rs:1891-1939 test_div *)
Example repo_test_alg_div :
  gives_opt None (ra_checked_div rng 50 200 (ra_from_int 1) (ra_from_int 0)) /\
  gives_opt None (ra_checked_div rng 50 200 (sqrt_of 2 (ir 1 2 0)) (ra_from_int 0)) /\
  gives_opt (Some (ra_from_int 0)) (ra_checked_div rng 50 200 (ra_from_int 0) (sqrt_of 2 (ir 1 2 0))) /\
  gives_opt (Some (ra_from_ratio (1 # 2)%Q)) (ra_checked_div rng 50 200 (ra_from_int 1) (ra_from_int 2)) /\
  gives_opt (Some (ra_from_int (-1))) (ra_checked_div rng 50 200 (sqrt_of 2 (ir 1 2 0)) (sqrt_of 2 (ir (-2) (-1) 0))) /\
  gives_opt (Some (RA (zp [:: (-2); 0; 3]) (ir 0 1 0))) (ra_checked_div rng 50 200 (sqrt_of 2 (ir 1 2 0)) (sqrt_of 3 (ir 1 2 0))).
Proof. repeat apply conj; vm_compute; reflexivity. Qed.

(** algebraic_numbers.rs:1942-2022 test_pow; the cube root of the fifth power of the
    square root of 5 was checked once, and is left out because the independent
    checker needs minutes for it *)
Example repo_test_alg_pow :
  gives_opt None (ra_checked_pow rng 50 200 ln2 (ra_from_int 0) (0 # 1)%Q) /\
  gives_opt (Some (ra_from_int 1)) (ra_checked_pow rng 50 200 ln2 (ra_from_int 1) (0 # 1)%Q) /\
  gives_opt (Some (ra_from_int 1)) (ra_checked_pow rng 50 200 ln2 (sqrt_of 2 (ir 1 2 0)) (0 # 1)%Q) /\
  gives_opt (Some (ra_from_ratio (2 # 3)%Q)) (ra_checked_pow rng 50 200 ln2 (ra_from_ratio (2 # 3)%Q) (1 # 1)%Q) /\
  gives_opt (Some (sqrt_of 2 (ir 1 2 0))) (ra_checked_pow rng 50 200 ln2 (sqrt_of 2 (ir 1 2 0)) (1 # 1)%Q) /\
  gives_opt (Some (ra_from_ratio (3 # 2)%Q)) (ra_checked_pow rng 50 200 ln2 (ra_from_ratio (2 # 3)%Q) (-1 # 1)%Q) /\
  gives_opt (Some (ra_from_ratio (-3 # 2)%Q)) (ra_checked_pow rng 50 200 ln2 (ra_from_ratio (-2 # 3)%Q) (-1 # 1)%Q) /\
  gives_opt None (ra_checked_pow rng 50 200 ln2 (ra_from_int 0) (-1 # 1)%Q) /\
  gives_opt None (ra_checked_pow rng 50 200 ln2 (ra_from_int 0) (-2 # 1)%Q) /\
  gives_opt (Some (ra_from_int 0)) (ra_checked_pow rng 50 200 ln2 (ra_from_int 0) (2 # 1)%Q) /\
  gives_opt (Some (ra_from_int 1)) (ra_checked_pow rng 50 200 ln2 (ra_from_int 1) (2 # 1)%Q) /\
  gives_opt (Some (ra_from_int 1)) (ra_checked_pow rng 50 200 ln2 (ra_from_int 1) (2 # 3)%Q) /\
  gives_opt (Some (ra_from_int (-1))) (ra_checked_pow rng 50 200 ln2 (ra_from_int (-1)) (3 # 1)%Q) /\
  gives_opt (Some (ra_from_int 1)) (ra_checked_pow rng 50 200 ln2 (ra_from_int (-1)) (1234 # 1)%Q) /\
  gives_opt None (ra_checked_pow rng 50 200 ln2 (ra_from_int (-1)) (1 # 2)%Q) /\
  gives_opt None (ra_checked_pow rng 50 200 ln2 (ra_from_int (-2)) (1 # 2)%Q) /\
  gives_opt (Some (ra_from_int 4)) (ra_checked_pow rng 50 200 ln2 (ra_from_int (-2)) (2 # 1)%Q) /\
  gives_opt (Some (ra_from_int (-8))) (ra_checked_pow rng 50 200 ln2 (ra_from_int (-2)) (3 # 1)%Q) /\
  gives_opt (Some (ra_from_ratio (-8 # 27)%Q)) (ra_checked_pow rng 50 200 ln2 (ra_from_ratio (-2 # 3)%Q) (3 # 1)%Q) /\
  gives_opt (Some (ra_from_ratio (-27 # 8)%Q)) (ra_checked_pow rng 50 200 ln2 (ra_from_ratio (-2 # 3)%Q) (-3 # 1)%Q) /\
  gives_opt (Some (ra_from_ratio (1 # 2)%Q)) (ra_checked_pow rng 50 200 ln2 (sqrt_of 8 (ir 2 3 0)) (-2 # 3)%Q) /\
  gives_opt (Some (ra_from_int 2)) (ra_checked_pow rng 50 200 ln2 (sqrt_of 2 (ir 1 2 0)) (2 # 1)%Q) /\
  gives_opt (Some (ra_from_ratio (1 # 2)%Q)) (ra_checked_pow rng 50 200 ln2 (sqrt_of 2 (ir 1 2 0)) (-2 # 1)%Q) /\
  gives_opt (Some (RA (zp [:: 5; 0; (-20); 0; 16]) (rr (1 # 2)%Q (3 # 4)%Q 2))) (ra_checked_pow rng 50 200 ln2 (RA (zp [:: 5; (-20); 16]) (rr (0 # 1)%Q (1 # 2)%Q 1)) (1 # 2)%Q).
Proof. repeat apply conj; vm_compute; reflexivity. Qed.

(** algebraic_numbers.rs:2025-2119 test_integer_floor_ceil_log2 *)
Example repo_test_alg_integer_floor_ceil_log2 :
  logs (ra_from_int 1) = (Ret (Some 0), Ret (Some 0), Ret (Some 0)) /\
  logs (ra_from_int 16) = (Ret (Some 4), Ret (Some 4), Ret (Some 4)) /\
  logs (ra_from_ratio (1 # 16)%Q) = (Ret (Some (-4)), Ret (Some (-4)), Ret (Some (-4))) /\
  logs (ra_from_ratio (6 # 5)%Q) = (Ret None, Ret (Some 0), Ret (Some 1)) /\
  logs (ra_from_ratio (-6 # 5)%Q) = (Ret None, Ret None, Ret None) /\
  logs (ra_from_int 0) = (Ret None, Ret None, Ret None) /\
  logs (ra_from_ratio (4 # 5)%Q) = (Ret None, Ret (Some (-1)), Ret (Some 0)) /\
  logs (ra_from_ratio (-1 # 5)%Q) = (Ret None, Ret None, Ret None) /\
  logs (sqrt_of 2 (ir 1 2 0)) = (Ret None, Ret (Some 0), Ret (Some 1)) /\
  logs (sqrt_of 2000000 (ir 1000 2000 0)) = (Ret None, Ret (Some 10), Ret (Some 11)) /\
  logs (sqrt_of 200000000000000000000000000000 (ir 1000 200000000000000000000 0)) = (Ret None, Ret (Some 48), Ret (Some 49)) /\
  logs (sqrt_of 50000000000 (ir 100000 300000 0)) = (Ret None, Ret (Some 17), Ret (Some 18)) /\
  logs (RA (zp [:: 1; 0; (-10); 0; 1]) (ir (-1) 0 0)) = (Ret None, Ret None, Ret None) /\
  logs (RA (zp [:: 1; 0; (-10); 0; 1]) (ir 0 1 0)) = (Ret None, Ret (Some (-2)), Ret (Some (-1))) /\
  logs (RA (zp [:: (-1); 3; (-2); 1]) (ir (-1000) 1000 0)) = (Ret None, Ret (Some (-2)), Ret (Some (-1))).
Proof. repeat apply conj; vm_compute; reflexivity. Qed.
