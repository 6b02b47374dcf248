(** The test cases of /repo/src/polynomial.rs and of the arithmetic modules
    below /repo/src/polynomial run through the model.  These are checks of the
    model against values the authors of the code expect from it, not
    properties.  Every literal is copied from the cited test; the by-value,
    by-reference and assigning variants that a test exercises are one function
    in the model. *)
From Coq Require Import ZArith QArith Qcanon String.
From mathcomp Require Import ssreflect ssrfun ssrbool ssrnat seq.
From Verif Require Import M_Base M_Traits M_Poly M_PolyCoef M_PolyAlg M_Display.
Local Open Scope Z_scope.

(** Polynomials with integer coefficients and with rational coefficients. *)
Definition zp (l : seq Z) : poly int_coef := @from_coefs int_coef l.
Definition qp (l : seq (Z * positive)) : poly ratio_coef :=
  @from_coefs ratio_coef [seq Q2Qc (x.1 # x.2) | x <- l].
(** What the polynomial stores, without the description of its coefficients. *)
Definition zv (p : poly int_coef) : seq Z := els p.
Definition pv (p : poly ratio_coef) : seq Z * positive := (els p, dv p).
Definition qn (c : Qc) : Z * positive := (Qnum (this c), Qden (this c)).
Definition yun_els (p : poly ratio_coef) : res ((Z * positive) * seq (seq Z * positive)) :=
  rmap (fun r : Qc * seq (poly ratio_coef) => (qn r.1, [seq pv f | f <- r.2])) (yun ratio_exact ratio_content ratio_reduce p).
Definition pdr_els (p q : poly ratio_coef) : res ((seq Z * positive) * (seq Z * positive) * (Z * positive)) :=
  rmap (fun r : pdr ratio_coef => (pv (pd_quo r), pv (pd_rem r), qn (pd_fac r))) (pseudo_div_rem p q).

(** polynomial.rs:1756-1767 test_eval *)
Example repo_test_eval :
  eval (zp [::]) 10 = 0 /\
  eval (zp [:: 1]) 10 = 1 /\
  eval (zp [:: 1; 2]) 10 = 21 /\
  eval (zp [:: 1; 2; 3]) 10 = 321 /\
  eval (zp [:: 1; 2; 3; 4]) 10 = 4321.
Proof. repeat apply conj; vm_compute; reflexivity. Qed.

(** polynomial.rs:1770-1812 test_display *)
Example repo_test_display :
  show_nested show_int 1 [::] = "0"%string /\
  show_nested show_int 1 [:: 1] = "1"%string /\
  show_nested show_int 1 [:: 1; 2] = "1 + 2*X"%string /\
  show_nested show_int 1 [:: 1; 2; 3] = "1 + 2*X + 3*X^2"%string /\
  show_nested show_int 1 [:: 1; 2; 3; 4] = "1 + 2*X + 3*X^2 + 4*X^3"%string /\
  show_nested show_int 2 [:: [:: 1; 2; 3]; [:: 4; 5; 6]] = "1 + 2*X + 3*X^2 + (4 + 5*X + 6*X^2)*Y"%string /\
  show_nested show_int 5 [:: [::]; [::]; [:: [::]; [::]; [::]; [:: [::]; [::]; [::]; [::]; [:: [::]; [::]; [::]; [::]; [::]; [:: 0; 0; 0; 0; 0; 0; 1]]]]] =
    "0 + (0)*B + (0 + (0)*A + (0)*A^2 + (0 + (0)*Z + (0)*Z^2 + (0)*Z^3 + (0 + (0)*Y + (0)*Y^2 + (0)*Y^3 + (0)*Y^4 + (0 + 0*X + 0*X^2 + 0*X^3 + 0*X^4 + 0*X^5 + 1*X^6)*Y^5)*Z^4)*A^3)*B^2"%string.
Proof. repeat apply conj; vm_compute; reflexivity. Qed.

(** polynomial.rs:1815-1827 test_split_out_divisor (split_out_divisor returns the stored elements and divisor) *)
Example repo_test_split_out_divisor :
  els (qp [::]) = [::] /\ dv (qp [::]) = 1%positive /\
  els (qp [:: (46, 205%positive); (43, 410%positive); (71, 410%positive); (62, 615%positive)]) = [:: 276; 129; 213; 124] /\
  dv (qp [:: (46, 205%positive); (43, 410%positive); (71, 410%positive); (62, 615%positive)]) = 1230%positive /\
  els (qp [:: (1, 2%positive)]) = [:: 1] /\ dv (qp [:: (1, 2%positive)]) = 2%positive.
Proof. repeat apply conj; vm_compute; reflexivity. Qed.

(** polynomial.rs:1830-1859 test_sturm_sequence *)
Example repo_test_sturm_sequence :
  rmap (map pv) (sturm_sequence ratio_exact (qp [::])) = Ret (map pv [::]) /\
  rmap (map pv) (sturm_sequence ratio_exact (qp [:: (1, 1%positive)])) = Ret (map pv [:: (qp [:: (1, 1%positive)])]) /\
  rmap (map pv) (sturm_sequence ratio_exact (qp [:: (1, 1%positive); (2, 1%positive)])) = Ret (map pv [:: (qp [:: (1, 1%positive); (2, 1%positive)]); (qp [:: (2, 1%positive)])]) /\
  rmap (map pv) (sturm_sequence ratio_exact (qp [:: (1, 1%positive); (2, 1%positive); (3, 1%positive)])) = Ret (map pv [:: (qp [:: (1, 1%positive); (2, 1%positive); (3, 1%positive)]); (qp [:: (2, 1%positive); (6, 1%positive)]); (qp [:: (-2, 3%positive)])]) /\
  rmap (map pv) (sturm_sequence ratio_exact (qp [:: (1, 1%positive); (2, 1%positive); (3, 1%positive); (4, 1%positive)])) = Ret (map pv [:: (qp [:: (1, 1%positive); (2, 1%positive); (3, 1%positive); (4, 1%positive)]); (qp [:: (2, 1%positive); (6, 1%positive); (12, 1%positive)]); (qp [:: (-5, 6%positive); (-5, 6%positive)]); (qp [:: (-8, 1%positive)])]).
Proof. repeat apply conj; vm_compute; reflexivity. Qed.

(** polynomial.rs:1862-1912 test_primitive_sturm_sequence *)
Example repo_test_primitive_sturm_sequence :
  rmap (map zv) (primitive_sturm_sequence int_exact int_content (zp [::])) = Ret (map zv [::]) /\
  rmap (map zv) (primitive_sturm_sequence int_exact int_content (zp [:: 1])) = Ret (map zv [:: (zp [:: 1])]) /\
  rmap (map zv) (primitive_sturm_sequence int_exact int_content (zp [:: 1; 2])) = Ret (map zv [:: (zp [:: 1; 2]); (zp [:: 1])]) /\
  rmap (map zv) (primitive_sturm_sequence int_exact int_content (zp [:: 1; 2; 3])) = Ret (map zv [:: (zp [:: 1; 2; 3]); (zp [:: 1; 3]); (zp [:: (-1)])]) /\
  rmap (map zv) (primitive_sturm_sequence int_exact int_content (zp [:: 1; 2; 3; 4])) = Ret (map zv [:: (zp [:: 1; 2; 3; 4]); (zp [:: 1; 3; 6]); (zp [:: (-1); (-1)]); (zp [:: (-1)])]) /\
  rmap (map zv) (primitive_sturm_sequence int_exact int_content (zp [:: (-1)])) = Ret (map zv [:: (zp [:: (-1)])]) /\
  rmap (map zv) (primitive_sturm_sequence int_exact int_content (zp [:: (-1); (-2)])) = Ret (map zv [:: (zp [:: (-1); (-2)]); (zp [:: (-1)])]) /\
  rmap (map zv) (primitive_sturm_sequence int_exact int_content (zp [:: (-1); (-2); (-3)])) = Ret (map zv [:: (zp [:: (-1); (-2); (-3)]); (zp [:: (-1); (-3)]); (zp [:: 1])]) /\
  rmap (map zv) (primitive_sturm_sequence int_exact int_content (zp [:: (-1); (-2); (-3); (-4)])) = Ret (map zv [:: (zp [:: (-1); (-2); (-3); (-4)]); (zp [:: (-1); (-3); (-6)]); (zp [:: 1; 1]); (zp [:: 1])]).
Proof. repeat apply conj; vm_compute; reflexivity. Qed.

(** polynomial.rs:1915-1928 test_primitive_part *)
Example repo_test_primitive_part :
  rmap zv (primitive_part int_exact int_content (zp [:: 0; 1; 2; 3; 4])) = Ret (zv (zp [:: 0; 1; 2; 3; 4])) /\
  rmap zv (primitive_part int_exact int_content (zp [:: 2; 4; 6; 8])) = Ret (zv (zp [:: 1; 2; 3; 4])) /\
  rmap zv (primitive_part int_exact int_content (zp [::])) = Ret (zv (zp [::])).
Proof. repeat apply conj; vm_compute; reflexivity. Qed.

(** polynomial.rs:1931-2102 test_square_free_factorization_using_yuns_algorithm *)
Example repo_test_square_free_factorization_using_yuns_algorithm :
  yun_els (qp [:: (34560, 1%positive); (300672, 1%positive); (1195632, 1%positive); (2881136, 1%positive); (4703032, 1%positive); (5506936, 1%positive); (4777591, 1%positive); (3126949, 1%positive); (1556776, 1%positive); (589632, 1%positive); (168542, 1%positive); (35714, 1%positive); (5432, 1%positive); (560, 1%positive); (35, 1%positive); (1, 1%positive)]) = Ret ((1, 1%positive), [:: ([:: 5; 1], 1%positive); ([:: 4; 1], 1%positive); ([:: 3; 1], 1%positive); ([:: 2; 1], 1%positive); ([:: 1; 1], 1%positive)]) /\
  yun_els (qp [::]) = Ret ((0, 1%positive), [::]) /\
  yun_els (qp [:: (123, 1%positive)]) = Ret ((123, 1%positive), [::]) /\
  yun_els (qp [:: (64, 1%positive); (16, 1%positive); (1, 1%positive)]) = Ret ((1, 1%positive), [:: ([:: 1], 1%positive); ([:: 8; 1], 1%positive)]) /\
  yun_els (qp [:: (18, 1%positive); (9, 1%positive); (1, 1%positive)]) = Ret ((1, 1%positive), [:: ([:: 18; 9; 1], 1%positive)]) /\
  yun_els (qp [:: (944784, 1%positive); (2519424, 1%positive); (2991816, 1%positive); (2082024, 1%positive); (939681, 1%positive); (287226, 1%positive); (60183, 1%positive); (8532, 1%positive); (783, 1%positive); (42, 1%positive); (1, 1%positive)]) = Ret ((1, 1%positive), [:: ([:: 1], 1%positive); ([:: 1], 1%positive); ([:: 1], 1%positive); ([:: 6; 1], 1%positive); ([:: 1], 1%positive); ([:: 3; 1], 1%positive)]) /\
  yun_els (qp [:: (10850253750, 1%positive); (124622914500, 1%positive); (629487927900, 1%positive); (1843199313480, 1%positive); (3475162941066, 1%positive); (4436852440860, 1%positive); (3932734882824, 1%positive); (2444066523504, 1%positive); (1063358633322, 1%positive); (319712686524, 1%positive); (64563363036, 1%positive); (8291896776, 1%positive); (606905622, 1%positive); (19131876, 1%positive)]) = Ret ((1458, 1%positive), [:: ([:: 3; 2], 1%positive); ([:: 7; 8; 1], 1%positive); ([:: 1], 1%positive); ([:: 15; 32; 9], 1%positive)]) /\
  yun_els (qp [:: (16, 5%positive); (16, 5%positive); (4, 5%positive)]) = Ret ((4, 5%positive), [:: ([:: 1], 1%positive); ([:: 2; 1], 1%positive)]) /\
  yun_els (qp [:: (-81920, 1%positive); (-1363968, 1%positive); (-9546752, 1%positive); (-36935424, 1%positive); (-87467264, 1%positive); (-132423552, 1%positive); (-129747904, 1%positive); (-81302256, 1%positive); (-31291792, 1%positive); (-6717312, 1%positive); (-614656, 1%positive)]) = Ret ((-16, 1%positive), [:: ([:: 5; 7], 1%positive); ([:: 1; 4], 1%positive); ([:: 4; 7], 1%positive); ([:: 2; 1], 1%positive)]).
Proof. repeat apply conj; vm_compute; reflexivity. Qed.

(** polynomial.rs:2105-2115 test_make_monomial *)
Example repo_test_make_monomial :
  zv (@make_monomial int_coef 123 2) = zv (zp [:: 0; 0; 123]) /\
  zv (@make_monomial int_coef 123 0) = zv (zp [:: 123]) /\
  zv (@make_monomial int_coef 0 5) = zv (zp [::]).
Proof. repeat apply conj; vm_compute; reflexivity. Qed.

(** polynomial/add_sub.rs:312-336 test_add *)
Example repo_test_add :
  zv (poly_add (zp [:: 1; 2; 3; 4]) (zp [:: 5; 6; 7; 8])) = zv (zp [:: 6; 8; 10; 12]) /\
  zv (poly_add (zp [:: 1; 2; 3; 4; (-1)]) (zp [:: 5; 6; 7; 8; 1])) = zv (zp [:: 6; 8; 10; 12]).
Proof. repeat apply conj; vm_compute; reflexivity. Qed.

(** polynomial/add_sub.rs:369-393 test_sub *)
Example repo_test_sub :
  zv (poly_sub (zp [:: 1; 2; 3; 4]) (zp [:: 8; 7; 6; 5])) = zv (zp [:: (-7); (-5); (-3); (-1)]) /\
  zv (poly_sub (zp [:: 1; 2; 3; 4; 10]) (zp [:: 8; 7; 6; 5; 10])) = zv (zp [:: (-7); (-5); (-3); (-1)]).
Proof. repeat apply conj; vm_compute; reflexivity. Qed.

(** polynomial/mul.rs:237-256 test_mul *)
Example repo_test_mul :
  zv (poly_mul (zp [:: 10; 11; 12]) (zp [:: 10; (-11); 3; 2; 1])) = zv (zp [:: 100; 0; 29; (-79); 68; 35; 12]).
Proof. repeat apply conj; vm_compute; reflexivity. Qed.

(** polynomial/add_sub.rs:339-366 test_add_ratio *)
Example repo_test_add_ratio :
  pv (poly_add (qp [:: (1, 3%positive); (2, 3%positive); (1, 1%positive); (4, 3%positive)]) (qp [:: (8, 5%positive); (7, 5%positive); (6, 5%positive); (1, 1%positive)])) = pv (qp [:: (29, 15%positive); (31, 15%positive); (11, 5%positive); (7, 3%positive)]) /\
  pv (poly_add (qp [:: (1, 6%positive); (1, 3%positive); (1, 2%positive); (2, 3%positive); (5, 3%positive)]) (qp [:: (1, 1%positive); (7, 8%positive); (3, 4%positive); (5, 8%positive); (5, 4%positive)])) = pv (qp [:: (7, 6%positive); (29, 24%positive); (5, 4%positive); (31, 24%positive); (35, 12%positive)]).
Proof. repeat apply conj; vm_compute; reflexivity. Qed.

(** polynomial/add_sub.rs:396-423 test_sub_ratio *)
Example repo_test_sub_ratio :
  pv (poly_sub (qp [:: (1, 3%positive); (2, 3%positive); (1, 1%positive); (4, 3%positive)]) (qp [:: (8, 5%positive); (7, 5%positive); (6, 5%positive); (1, 1%positive)])) = pv (qp [:: (-19, 15%positive); (-11, 15%positive); (-1, 5%positive); (1, 3%positive)]) /\
  pv (poly_sub (qp [:: (1, 6%positive); (1, 3%positive); (1, 2%positive); (2, 3%positive); (5, 3%positive)]) (qp [:: (1, 1%positive); (7, 8%positive); (3, 4%positive); (5, 8%positive); (5, 4%positive)])) = pv (qp [:: (-5, 6%positive); (-13, 24%positive); (-1, 4%positive); (1, 24%positive); (5, 12%positive)]).
Proof. repeat apply conj; vm_compute; reflexivity. Qed.

(** polynomial/mul.rs:259-290 test_mul_rational *)
Example repo_test_mul_rational :
  pv (poly_mul (qp [:: (10, 7%positive); (11, 7%positive); (12, 7%positive)]) (qp [:: (10, 29%positive); (-11, 29%positive); (3, 29%positive); (2, 29%positive); (1, 29%positive)])) = pv (qp [:: (100, 203%positive); (0, 1%positive); (1, 7%positive); (-79, 203%positive); (68, 203%positive); (5, 29%positive); (12, 203%positive)]).
Proof. repeat apply conj; vm_compute; reflexivity. Qed.

(** polynomial/div_rem.rs:539-541 test_div_by_zero *)
Example repo_test_div_by_zero :
  poly_div ratio_exact (qp [:: (1, 1%positive)]) (qp [::]) = Panic.
Proof. repeat apply conj; vm_compute; reflexivity. Qed.

(** polynomial/div_rem.rs:544-598 test_pseudo_div_rem *)
Example repo_test_pseudo_div_rem :
  pdr_els (qp [:: (1, 2%positive); (5, 2%positive); (5, 2%positive)]) (qp [:: (1, 3%positive); (5, 3%positive)]) = Ret (pv (qp [:: (10, 3%positive); (25, 6%positive)]), pv (qp [:: (5, 18%positive)]), (25, 9%positive)) /\
  (if checked_exact_pseudo_div (qp [:: (1, 2%positive); (5, 2%positive); (5, 2%positive)]) (qp [:: (1, 3%positive); (5, 3%positive)]) is Some _ then true else false) = false.
Proof. repeat apply conj; vm_compute; reflexivity. Qed.

(** polynomial/div_rem.rs:655-683 test_div with the operands of test_div_rem (600-653) *)
Example repo_test_div :
  rmap pv (poly_div ratio_exact (qp [:: (1, 1%positive)]) (qp [:: (3, 1%positive)])) = Ret (pv (qp [:: (1, 3%positive)])) /\
  rmap pv (poly_div ratio_exact (qp [:: (1, 1%positive); (0, 1%positive)]) (qp [:: (3, 1%positive)])) = Ret (pv (qp [:: (1, 3%positive); (0, 1%positive)])) /\
  rmap pv (poly_div ratio_exact (qp [:: (1, 1%positive); (2, 1%positive); (3, 1%positive)]) (qp [:: (4, 1%positive); (5, 1%positive); (6, 1%positive); (7, 1%positive)])) = Ret (pv (qp [::])) /\
  rmap pv (poly_div ratio_exact (qp [:: (74, 1%positive); (2, 1%positive); (50, 1%positive); (45, 1%positive); (5, 1%positive); (6, 1%positive); (30, 1%positive); (36, 1%positive); (21, 1%positive); (93, 1%positive); (72, 1%positive)]) (qp [:: (51, 1%positive); (1, 1%positive); (45, 1%positive); (31, 1%positive); (53, 1%positive); (65, 1%positive)])) = Ret (pv (qp [:: (-48773611686, 75418890625%positive); (392989032, 1160290625%positive); (954141, 17850625%positive); (-174492, 274625%positive); (2229, 4225%positive); (72, 65%positive)])) /\
  rmap pv (poly_div ratio_exact (qp [:: (1, 2%positive); (5, 2%positive); (5, 2%positive)]) (qp [:: (1, 3%positive); (5, 3%positive)])) = Ret (pv (qp [:: (6, 5%positive); (3, 2%positive)])).
Proof. repeat apply conj; vm_compute; reflexivity. Qed.

(** polynomial/div_rem.rs:686-710 test_rem with the operands of test_div_rem (600-653) *)
Example repo_test_rem :
  rmap pv (poly_rem ratio_exact (qp [:: (1, 1%positive)]) (qp [:: (3, 1%positive)])) = Ret (pv (qp [::])) /\
  rmap pv (poly_rem ratio_exact (qp [:: (1, 1%positive); (0, 1%positive)]) (qp [:: (3, 1%positive)])) = Ret (pv (qp [::])) /\
  rmap pv (poly_rem ratio_exact (qp [:: (1, 1%positive); (2, 1%positive); (3, 1%positive)]) (qp [:: (4, 1%positive); (5, 1%positive); (6, 1%positive); (7, 1%positive)])) = Ret (pv (qp [:: (1, 1%positive); (2, 1%positive); (3, 1%positive)])) /\
  rmap pv (poly_rem ratio_exact (qp [:: (74, 1%positive); (2, 1%positive); (50, 1%positive); (45, 1%positive); (5, 1%positive); (6, 1%positive); (30, 1%positive); (36, 1%positive); (21, 1%positive); (93, 1%positive); (72, 1%positive)]) (qp [:: (51, 1%positive); (1, 1%positive); (45, 1%positive); (31, 1%positive); (53, 1%positive); (65, 1%positive)])) = Ret (pv (qp [:: (8068452102236, 75418890625%positive); (-1103147248144, 75418890625%positive); (1146923847613, 15083778125%positive); (6196221016566, 75418890625%positive); (7495581503, 75418890625%positive)])) /\
  rmap pv (poly_rem ratio_exact (qp [:: (1, 2%positive); (5, 2%positive); (5, 2%positive)]) (qp [:: (1, 3%positive); (5, 3%positive)])) = Ret (pv (qp [:: (1, 10%positive)])).
Proof. repeat apply conj; vm_compute; reflexivity. Qed.

(** polynomial/div_rem.rs:713-1294 test_powmod: all but the fourth
    case, which was checked once and takes long *)
Example repo_test_powmod :
  (if checked_powmod ratio_exact (qp [:: (15, 1%positive); (6, 1%positive); (4, 1%positive); (12, 1%positive); (9, 1%positive); (1, 1%positive)]) 1 (qp [::]) is Ret None then true else false) = true /\
  rmap (omap pv) (checked_powmod ratio_exact (qp [:: (15, 1%positive); (6, 1%positive); (4, 1%positive); (12, 1%positive); (9, 1%positive); (1, 1%positive)]) 0 (qp [:: (3, 1%positive); (18, 1%positive); (3, 1%positive); (8, 1%positive); (7, 1%positive); (15, 1%positive)])) = Ret (omap pv (Some (qp [:: (1, 1%positive)]))) /\
  rmap (omap pv) (checked_powmod ratio_exact (qp [:: (15, 1%positive); (6, 1%positive); (4, 1%positive); (12, 1%positive); (9, 1%positive); (1, 1%positive)]) 11 (qp [:: (3, 1%positive); (18, 1%positive); (3, 1%positive); (8, 1%positive); (7, 1%positive); (15, 1%positive)])) = Ret (omap pv (Some (qp [:: (1585666675291483314365180767318922920620691036140503147761986750761665151, 318810750107024793451703903457428168621845543384552001953125%positive); (156334839226073571425698092108539261126854767672993005422136814276793379, 35423416678558310383522655939714240957982838153839111328125%positive); (-172340775978090405112252064451109288434967387072256759303520205766571544, 318810750107024793451703903457428168621845543384552001953125%positive); (2787107236885882031573490362701892707788973888023206985381071985610466173, 956432250321074380355111710372284505865536630153656005859375%positive); (5852716315396487808074188396490905383295316325141770897943309970559308172, 956432250321074380355111710372284505865536630153656005859375%positive)]))) /\
  rmap (omap pv) (checked_powmod ratio_exact (qp [:: (9, 1%positive); (18, 1%positive); (3, 1%positive); (9, 1%positive); (1, 1%positive); (3, 1%positive)]) 13 (qp [:: (17, 1%positive); (19, 1%positive); (15, 1%positive); (4, 1%positive); (14, 1%positive); (16, 1%positive)])) = Ret (omap pv (Some (qp [:: (-25431449682385724510773146682619326783652986319988726673555468291267902203, 24519928653854221733733552434404946937899825954937634816%positive); (-6709860689123122741008254030118045013490245149715867111869598418203861673, 24519928653854221733733552434404946937899825954937634816%positive); (-16353429435946708587658554579756119643511912932621301026012552334378102637, 24519928653854221733733552434404946937899825954937634816%positive); (2196204622177526641857617935939207831791093298646795611689311194558594603, 6129982163463555433433388108601236734474956488734408704%positive); (-13766147221892664948954842035958965163645541330631755559669629412857744093, 12259964326927110866866776217202473468949912977468817408%positive)]))) /\
  rmap (omap pv) (checked_powmod ratio_exact (qp [:: (16, 1%positive); (3, 1%positive); (12, 1%positive); (4, 1%positive); (17, 1%positive); (5, 1%positive)]) 15 (qp [:: (5, 1%positive); (13, 1%positive); (4, 1%positive); (15, 1%positive); (14, 1%positive); (15, 1%positive)])) = Ret (omap pv (Some (qp [:: (3968223038798449894830372703477665499057589974212620193863307001145273120261780934930597107, 2084295656895530869364340220211569698616216328446171246469020843505859375%positive); (-740973733763261959161886828742042695760278719940079166705887577151999143366754401627466084, 10421478284477654346821701101057848493081081642230856232345104217529296875%positive); (17827373460032228159645265829354599476004974022450878148577265309921154932795892935635544768, 10421478284477654346821701101057848493081081642230856232345104217529296875%positive); (166754643861776199753789120854049262177635820261037151236272698519600752774569100984529239, 138953043793035391290956014680771313241081088563078083097934722900390625%positive); (22569816666522300699970849275022027270383347897978102544747794727037074618254706712550470873, 10421478284477654346821701101057848493081081642230856232345104217529296875%positive)]))) /\
  rmap (omap pv) (checked_powmod ratio_exact (qp [:: (11, 1%positive); (12, 1%positive); (4, 1%positive); (17, 1%positive); (5, 1%positive); (16, 1%positive)]) 10 (qp [:: (4, 1%positive); (12, 1%positive); (7, 1%positive); (14, 1%positive); (13, 1%positive); (18, 1%positive)])) = Ret (omap pv (Some (qp [:: (173349809741634790517629302198255738924771020629186295252256712801, 1349507451082182988631629529595217504269135410620268544%positive); (136649542414109956312150033254209623783071903092005304444675167651, 449835817027394329543876509865072501423045136873422848%positive); (-320573236405438042516576040775102420570832290554265484730594953601, 5398029804328731954526518118380870017076541642481074176%positive); (227616824975837842336884869577831180217241229764404246759090312921, 674753725541091494315814764797608752134567705310134272%positive); (1928326403423473856204629547911072055518300348036879887352005976477, 5398029804328731954526518118380870017076541642481074176%positive)]))) /\
  rmap (omap pv) (checked_powmod ratio_exact (qp [:: (2, 1%positive); (7, 1%positive); (18, 1%positive); (18, 1%positive); (2, 1%positive); (19, 1%positive)]) 14 (qp [:: (10, 1%positive); (11, 1%positive); (1, 1%positive); (0, 1%positive); (2, 1%positive)])) = Ret (omap pv (Some (qp [:: (17116354565656279542765816219704897093314962153, 8589934592%positive); (75378530787471742604887950480532576499934645279, 17179869184%positive); (57152339047803800599955527334898082225786405389, 17179869184%positive); (7141511099204685801116225688161375046284531013, 8589934592%positive)]))) /\
  rmap (omap pv) (checked_powmod ratio_exact (qp [:: (16, 1%positive); (13, 1%positive); (11, 1%positive); (15, 1%positive); (7, 1%positive); (12, 1%positive)]) 11 (qp [:: (9, 1%positive); (2, 1%positive); (15, 1%positive); (17, 1%positive); (13, 1%positive); (14, 1%positive)])) = Ret (omap pv (Some (qp [:: (53786086107227954066084569912816780927426802734233575954044326317725, 13842032585776425728350931699632307649677459403537645568%positive); (-545162994758509133753875690075043207536846677106116608529845598625, 865127036611026608021933231227019228104841212721102848%positive); (-44095009930321773402363556998849059172283208141185864176319532930949, 13842032585776425728350931699632307649677459403537645568%positive); (-59241596534156450909340853798843689834059346960589871532448282085873, 13842032585776425728350931699632307649677459403537645568%positive); (-73038919819282009293066462605880773834796373418091698358848369402861, 13842032585776425728350931699632307649677459403537645568%positive)]))) /\
  rmap (omap pv) (checked_powmod ratio_exact (qp [:: (9, 1%positive); (17, 1%positive); (10, 1%positive); (3, 1%positive); (9, 1%positive); (12, 1%positive)]) 17 (qp [:: (6, 1%positive); (12, 1%positive); (16, 1%positive); (5, 1%positive); (4, 1%positive); (9, 1%positive)])) = Ret (omap pv (Some (qp [:: (107310052774975374976809295936414801346072497888193998909668247798715229856393722822920217445, 507528786056415600719754159741696356908742250191663887263627442114881%positive); (211556575376652462370255539615239423105107017367777525345353133113071717517518174764088606933, 507528786056415600719754159741696356908742250191663887263627442114881%positive); (636111589535705890882422462104016053812793353307599636338686989896335769026552709790515741290, 1522586358169246802159262479225089070726226750574991661790882326344643%positive); (-318508059623322990014292261929772320270934012499577131185807220429064694110685680328950350853, 1522586358169246802159262479225089070726226750574991661790882326344643%positive); (-641880081354023776550830683627107415264750813916352012916892354135862458283395572859600104991, 1522586358169246802159262479225089070726226750574991661790882326344643%positive)]))) /\
  rmap (omap pv) (checked_powmod ratio_exact (qp [:: (19, 1%positive); (3, 1%positive); (1, 1%positive); (8, 1%positive); (1, 1%positive); (15, 1%positive)]) 9 (qp [:: (14, 1%positive); (18, 1%positive); (19, 1%positive); (15, 1%positive); (2, 1%positive)])) = Ret (omap pv (Some (qp [:: (183864245907369396262818683259858562011239970198416224361, 2199023255552%positive); (206578753026939275158675634013269458740854505482604898869, 2199023255552%positive); (432056388746881938212218906859738649474466080817341258057, 4398046511104%positive); (323926184159679212351079102728868384591198813019353589967, 4398046511104%positive)]))) /\
  rmap (omap pv) (checked_powmod ratio_exact (qp [:: (17, 1%positive); (10, 1%positive); (0, 1%positive); (4, 1%positive); (2, 1%positive); (7, 1%positive)]) 3 (qp [:: (19, 1%positive); (6, 1%positive); (16, 1%positive); (12, 1%positive); (4, 1%positive); (17, 1%positive)])) = Ret (omap pv (Some (qp [:: (-29564202049895488, 34271896307633%positive); (48153401378366400, 34271896307633%positive); (-41388846548268584, 34271896307633%positive); (-119630113747428368, 34271896307633%positive); (-12216433291469664, 34271896307633%positive)]))) /\
  rmap (omap pv) (checked_powmod ratio_exact (qp [:: (19, 1%positive); (18, 1%positive); (3, 1%positive); (8, 1%positive); (0, 1%positive); (13, 1%positive)]) 17 (qp [:: (0, 1%positive); (12, 1%positive); (17, 1%positive); (6, 1%positive); (0, 1%positive); (5, 1%positive)])) = Ret (omap pv (Some (qp [:: (5480386857784802185939, 1%positive); (-199181510200419956944406163900186065760784614171896741299325912226, 45474735088646411895751953125%positive); (-360855964928129145144700016411567649299329458811289334205946200526, 45474735088646411895751953125%positive); (-186124086992514304492086605885305421818548544034196320342212070118, 45474735088646411895751953125%positive); (1451253926277767155409934391355886760090559538073136306944189664, 1818989403545856475830078125%positive)]))) /\
  rmap (omap pv) (checked_powmod ratio_exact (qp [:: (18, 1%positive); (3, 1%positive); (13, 1%positive); (10, 1%positive); (0, 1%positive); (4, 1%positive)]) 15 (qp [:: (4, 1%positive); (0, 1%positive); (2, 1%positive); (1, 1%positive); (19, 1%positive); (7, 1%positive)])) = Ret (omap pv (Some (qp [:: (-11659710255519802866695898334575123267771756924089785612612717976528922402404763064886961283834373444, 1004525211269079039999221534496697502180541686174722466474743%positive); (614402871067711768528075324175928718122489404282259319678850825075019438093303934792347388726575772, 143503601609868434285603076356671071740077383739246066639249%positive); (-7416262774732042771074685961115985350350946449633005224197826351671515760808465984259780168851436346, 1004525211269079039999221534496697502180541686174722466474743%positive); (-179352554662556447390522090631607314900395210412908661790731090698982436945926815605787752116611819, 1004525211269079039999221534496697502180541686174722466474743%positive); (-55317467432411742610115409682063081165315593190711374042111985979123390672262689808620918111975012002, 1004525211269079039999221534496697502180541686174722466474743%positive)]))) /\
  rmap (omap pv) (checked_powmod ratio_exact (qp [:: (17, 1%positive); (4, 1%positive); (9, 1%positive); (13, 1%positive); (7, 1%positive)]) 14 (qp [:: (6, 1%positive); (16, 1%positive); (10, 1%positive); (8, 1%positive); (19, 1%positive); (5, 1%positive)])) = Ret (omap pv (Some (qp [:: (1658576216060625927424495888882593070876010790000557338684203198509426341, 2220446049250313080847263336181640625%positive); (3939771150052516678430938047507786350063176888689964917098252965692489456, 2220446049250313080847263336181640625%positive); (323348808826878438489548215154638655320647817371193357502061263063808888, 444089209850062616169452667236328125%positive); (1740520784814171647746739675349429472852425583487004274019072744999843488, 2220446049250313080847263336181640625%positive); (4745191003416840637610402202757026412479924455694027706709720816291990899, 2220446049250313080847263336181640625%positive)]))) /\
  rmap (omap pv) (checked_powmod ratio_exact (qp [:: (14, 1%positive); (13, 1%positive); (1, 1%positive); (4, 1%positive); (5, 1%positive); (6, 1%positive)]) 9 (qp [:: (5, 1%positive); (19, 1%positive); (13, 1%positive); (6, 1%positive); (16, 1%positive); (2, 1%positive)])) = Ret (omap pv (Some (qp [:: (-382920878617857119099260975936511435223809273, 128%positive); (-22485901407013610579957985074637270584445202109, 2048%positive); (-13009231280273529135224470876129436700263261949, 2048%positive); (-5662552763683229700019916839920323118539031529, 2048%positive); (-2358768110430007164332017062130636819640631241, 256%positive)]))) /\
  rmap (omap pv) (checked_powmod ratio_exact (qp [:: (7, 1%positive); (12, 1%positive); (3, 1%positive); (7, 1%positive); (19, 1%positive); (6, 1%positive)]) 11 (qp [:: (13, 1%positive); (15, 1%positive); (16, 1%positive); (3, 1%positive); (11, 1%positive); (5, 1%positive)])) = Ret (omap pv (Some (qp [:: (22752247755277538997707495297327392111003638158183387, 444089209850062616169452667236328125%positive); (-733940325151897434394130395242811794063264377833748, 3552713678800500929355621337890625%positive); (-84810889149159019771112545298336067913002777931249341, 444089209850062616169452667236328125%positive); (-74539559704585890609937306779895161442574758737655248, 444089209850062616169452667236328125%positive); (102789180706884053261700152422811323140853455397603979, 444089209850062616169452667236328125%positive)]))) /\
  rmap (omap pv) (checked_powmod ratio_exact (qp [:: (4, 1%positive); (19, 1%positive); (19, 1%positive); (12, 1%positive); (0, 1%positive); (5, 1%positive)]) 18 (qp [:: (10, 1%positive); (1, 1%positive); (0, 1%positive); (14, 1%positive); (3, 1%positive); (19, 1%positive)])) = Ret (omap pv (Some (qp [:: (-2364027447920040483558170899680841147253334862133661950470294306349500397445060747086071248342845046495819755810577833846890367689045344, 93931159192635254915820471057358992010808400674497210917407177698488916879344705049022303605110796637313140281%positive); (-3812396385964512812050368825254461542621783190875160619418534476927696279683046456030039715558897554572655006572053071773941842915329128, 93931159192635254915820471057358992010808400674497210917407177698488916879344705049022303605110796637313140281%positive); (-147348947733136287828033078051205913542662008515448696098645594136143579474944274069836870085610414452386441898907965014020611318843218, 4943745220665013416622130055650473263726757930236695311442483036762574572597089739422226505532147191437533699%positive); (-2175945530518382417710604352936440137198454349166062523986361078069727263659940243402271841613182099377444542459770717460322951952128629, 93931159192635254915820471057358992010808400674497210917407177698488916879344705049022303605110796637313140281%positive); (569202465047429791858444668180966992188338810890217323018521631507025706006084470204092539538446466846820499263163992839999747784044406, 93931159192635254915820471057358992010808400674497210917407177698488916879344705049022303605110796637313140281%positive)]))) /\
  rmap (omap pv) (checked_powmod ratio_exact (qp [:: (3, 1%positive); (18, 1%positive); (1, 1%positive); (19, 1%positive); (14, 1%positive); (9, 1%positive)]) 15 (qp [:: (5, 1%positive); (17, 1%positive); (10, 1%positive); (18, 1%positive); (16, 1%positive); (13, 1%positive)])) = Ret (omap pv (Some (qp [:: (-9030256198923778738792551656220010998656383359725043968030991677342942958176064317482609363474326, 12302064898724710532827150598154059319480431430194019567533837617701744247540837%positive); (-106017687103287863924627265731596197311263591870778821408379206053143672619946570415310252729476609, 12302064898724710532827150598154059319480431430194019567533837617701744247540837%positive); (-178963907034841735192725016237377022008248269739374463063399062728714683439471100528967752348048013, 12302064898724710532827150598154059319480431430194019567533837617701744247540837%positive); (83556028519886957469372818161824872515285474360419566344932117181957888483899389397289981648870907, 12302064898724710532827150598154059319480431430194019567533837617701744247540837%positive); (-305731948863639689946719702498750428465125646882961775256387643974893832898719369976704423259809104, 12302064898724710532827150598154059319480431430194019567533837617701744247540837%positive)]))) /\
  rmap (omap pv) (checked_powmod ratio_exact (qp [:: (17, 1%positive); (2, 1%positive); (10, 1%positive); (9, 1%positive); (9, 1%positive); (6, 1%positive)]) 3 (qp [:: (18, 1%positive); (12, 1%positive); (9, 1%positive); (0, 1%positive); (12, 1%positive); (15, 1%positive)])) = Ret (omap pv (Some (qp [:: (88051434769, 48828125%positive); (-61852202584, 48828125%positive); (54119428802, 48828125%positive); (-3176831488, 9765625%positive); (-32512922104, 48828125%positive)]))) /\
  rmap (omap pv) (checked_powmod ratio_exact (qp [:: (5, 1%positive); (9, 1%positive); (10, 1%positive); (16, 1%positive); (13, 1%positive); (15, 1%positive)]) 4 (qp [:: (19, 1%positive); (8, 1%positive); (14, 1%positive); (15, 1%positive); (18, 1%positive); (9, 1%positive)])) = Ret (omap pv (Some (qp [:: (318286343720, 6561%positive); (-19744400801, 2187%positive); (270518763892, 6561%positive); (87138110534, 6561%positive); (248477756134, 6561%positive)]))) /\
  rmap (omap pv) (checked_powmod ratio_exact (qp [:: (15, 1%positive); (18, 1%positive); (6, 1%positive); (17, 1%positive); (13, 1%positive); (4, 1%positive)]) 1 (qp [:: (17, 1%positive); (18, 1%positive); (1, 1%positive); (16, 1%positive); (2, 1%positive); (11, 1%positive)])) = Ret (omap pv (Some (qp [:: (97, 11%positive); (126, 11%positive); (62, 11%positive); (123, 11%positive); (135, 11%positive)]))).
Proof. repeat apply conj; vm_compute; reflexivity. Qed.
