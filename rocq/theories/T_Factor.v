(** Property theorems C30-C33, C35 and C75: factorisation of polynomials.

    [pval int_sem p : {poly int}] is the mathematical polynomial denoted by an
    integer polynomial; [modp_sem] reads polynomials modulo a prime [p] as
    polynomials over the field 'F_p.  [rng] is the stream of values drawn from
    the random generator; it is universally quantified.  The specification
    predicates ([distinct_degree_parts], [irreducible_factors], [factor_list],
    [poly_eqmod], [consistent], ...) are those of S_Factor.v. *)
From Coq Require Import ZArith Lia List.
Set Warnings "-notation-overridden,-ambiguous-paths".
From mathcomp Require Import all_ssreflect all_fingroup all_algebra.
From mathcomp.zify Require Import ssrZ.
From Verif Require Import M_Base M_Traits M_Util M_Poly M_PolyCoef M_PolyAlg M_Factor S_Poly S_PolyAlg S_Factor
  P_Poly P_PolyInst P_PolyAlgInst P_FactorP P_Hensel P_HenselTree P_FactorZ P_FactorAll P_FactorSF P_FactorRef P_ZassenhausC P_FactorLive.
Set Implicit Arguments.
Unset Strict Implicit.
Unset Printing Implicit Defensive.
Import GRing.Theory Num.Theory.
Local Open Scope ring_scope.
Delimit Scope Z_scope with ZZ.
Notation zp l := (from_coefs (K := int_coef) l%ZZ).

(** C30: the factors returned multiply back to the input, each non-constant,
    primitive, with a positive leading coefficient and a positive power.  The
    only panic is the documented one: no odd prime below 2^31 can serve as the
    modulus for some square-free part of the input. *)
Theorem C30_factor : forall (rng : nat -> Z) (fuel : nat) (p : poly int_coef),
  wf int_sem p ->
  match factor_with_rng rng fuel p with
  | Ret (c, l) => factor_list (pval int_sem p) (zi c) [seq (pval int_sem fn.1, fn.2) | fn <- l]
  | Panic => exists f, [/\ positive_primitive f, exists h, pval int_sem p = h * f & no_usable_prime f]
  | NoFuel => True
  end.
Proof. exact factor_spec. Qed.
Print Assumptions C30_factor.
(** C75: the loops can always end: whatever the first [N] random values were, the
    stream can go on in such a way that factorisation returns (or panics for
    want of a prime) as soon as the loop bounds are large enough. *)
Theorem C75_factor_can_finish : forall (p : poly int_coef), wf int_sem p ->
  forall (rng : nat -> Z) (N : nat), exists (rng' : nat -> Z) (n : nat) r,
    [/\ forall i, (i < N)%N -> rng' i = rng i,
        forall fuel, (n <= fuel)%N -> factor_with_rng rng' fuel p = r
      & match r with
        | Ret (c, l) => factor_list (pval int_sem p) (zi c) [seq (pval int_sem fn.1, fn.2) | fn <- l]
        | Panic => exists f, [/\ positive_primitive f, exists h, pval int_sem p = h * f & no_usable_prime f]
        | NoFuel => False
        end].
Proof. exact factor_can_finish. Qed.
Print Assumptions C75_factor_can_finish.
(** The product of the factors, each taken once, has no repeated factor: the
    factors are square-free and pairwise coprime, so powers are never split up. *)
Theorem C30_factors_distinct : forall (rng : nat -> Z) (fuel : nat) (p : poly int_coef) c l,
  wf int_sem p -> factor_with_rng rng fuel p = Ret (c, l) ->
  square_free (\prod_(fn <- l) map_poly (intr : int -> rat) (pval int_sem fn.1)).
Proof. exact factor_square_free. Qed.
Print Assumptions C30_factors_distinct.

(** 12 (x-1)^2 (x+1)(x^2+1) *)
Example C30_example :
  rmap (fun '(c, l) => (c, [seq (coefficients fn.1, fn.2) | fn <- l]))
    (factor_with_rng (fun n => Z.of_nat (n %% 7)%N) 50 (zp [:: 12; -12; 0; 0; -12; 12]))
  = Ret (12%ZZ, [:: ([:: 1; 1]%ZZ, 1%N); ([:: 1; 0; 1]%ZZ, 1%N); ([:: -1; 1]%ZZ, 2%N)]).
Proof. vm_compute. reflexivity. Qed.

(** C31 fails: the lifted factors absorb parts of the leading coefficient, the
    search over subsets misses the true factors, and the product
    (x^2+3x+1)(5x^2+x+3) is returned as one factor. *)
Theorem C31_irreducible_refuted : exists (rng : nat -> Z) (fuel : nat) (p : poly int_coef) c l f n,
  [/\ wf int_sem p, factor_with_rng rng fuel p = Ret (c, l), List.In (f, n) l
    & ~ irreducible_over_Q (pval int_sem f)].
Proof. exact factor_not_irreducible. Qed.
Print Assumptions C31_irreducible_refuted.

(** C31 holds when the input is a multiple of a monic polynomial: every factor
    is monic and irreducible over the rationals. *)
Theorem C31_irreducible_monic_partial : forall (rng : nat -> Z) (fuel : nat) (p : poly int_coef)
    (c : int) (F : {poly int}) k l,
  wf int_sem p -> c != 0 -> F \is mathcomp.algebra.poly.monic -> pval int_sem p = c *: F ->
  factor_with_rng rng fuel p = Ret (k, l) ->
  forall f n, List.In (f, n) l ->
    pval int_sem f \is mathcomp.algebra.poly.monic /\ irreducible_over_Q (pval int_sem f).
Proof. exact factor_irreducible_monic. Qed.
Print Assumptions C31_irreducible_monic_partial.
(** 3 (x^4+1)(x^2-x+1): x^4+1 splits modulo every prime. *)
Example C31_example :
  rmap (fun '(c, l) => (c, [seq (coefficients fn.1, fn.2) | fn <- l]))
    (factor_with_rng (fun n => Z.of_nat (n * 7 %% 11)%N) 50 (zp [:: 3; -3; 3; 0; 3; -3; 3]))
  = Ret (3%ZZ, [:: ([:: 1; -1; 1]%ZZ, 1%N); ([:: 1; 0; 0; 0; 1]%ZZ, 1%N)]).
Proof. vm_compute. reflexivity. Qed.

(** C32 *)
Theorem C32_distinct_degree : forall (p : positive) (p_pr : prime (Pos.to_nat p)) (f : mpoly p),
  let S := @modp_sem (Zpos p) _ isT (pnE p) p_pr in
  wf S f -> pval S f != 0 -> @square_free [fieldType of 'F_(Pos.to_nat p)] (pval S f) ->
  exists gs, [/\ distinct_degree_factorization f = Ret gs, List.Forall (wf S) gs &
    @distinct_degree_parts [fieldType of 'F_(Pos.to_nat p)] (pval S f) (map (pval S) gs)].
Proof. exact ddf_spec. Qed.
Print Assumptions C32_distinct_degree.

(** Modulo 5: 3 (x+1)(x+2)(x^2+2). *)
Example C32_example :
  rmap (map (@mod_values 5)) (distinct_degree_factorization (to_mod 5 [:: 12; 18; 12; 9; 3]%ZZ))
  = Ret [:: [:: 3]; [:: 2; 3; 1]; [:: 2; 0; 1]]%ZZ.
Proof. vm_compute. reflexivity. Qed.

(** C33: no panic, and every list returned is the list of the irreducible
    factors, whatever the random stream. *)
Theorem C33_same_degree : forall (p : positive) (p_pr : prime (Pos.to_nat p)) (rng : nat -> Z) (d : nat),
  (2 < Pos.to_nat p)%N -> (0 < d)%N ->
  forall (tries : nat) (f : mpoly p) (pos : nat),
  let S := @modp_sem (Zpos p) _ isT (pnE p) p_pr in
  wf S f -> pval S f \is mathcomp.algebra.poly.monic -> (1 < size (pval S f))%N ->
  @all_factors_degree [fieldType of 'F_(Pos.to_nat p)] (pval S f) d ->
  match same_degree_factorization rng tries d f pos with
  | Ret (l, _) => List.Forall (wf S) l /\
      @irreducible_factors [fieldType of 'F_(Pos.to_nat p)] (pval S f) (map (pval S) l)
  | Panic => False
  | NoFuel => True
  end.
Proof. exact sdf_match. Qed.
Print Assumptions C33_same_degree.
(** C75: a polynomial with distinct factors can always be split: whatever the first
    [N] random values were, the stream can go on so that the list is returned. *)
Theorem C75_same_degree_can_finish : forall (p : positive) (p_pr : prime (Pos.to_nat p)) (d : nat),
  (2 < Pos.to_nat p)%N -> (0 < d)%N -> forall (f : mpoly p) (pos : nat),
  let S := @modp_sem (Zpos p) _ isT (pnE p) p_pr in
  wf S f -> pval S f \is mathcomp.algebra.poly.monic -> (1 < size (pval S f))%N ->
  @all_factors_degree [fieldType of 'F_(Pos.to_nat p)] (pval S f) d ->
  @square_free [fieldType of 'F_(Pos.to_nat p)] (pval S f) ->
  forall (rng : nat -> Z) (N : nat), exists (rng' : nat -> Z) (n : nat) r,
    (forall i, (i < N)%N -> rng' i = rng i) /\
    forall tries, (n <= tries)%N -> same_degree_factorization rng' tries d f pos = Ret r.
Proof. exact sdf_can_finish. Qed.
Print Assumptions C75_same_degree_can_finish.

(** Modulo 5: (x+1)(x+2)(x+4). *)
Example C33_example :
  rmap (fun r => map (@mod_values 5) r.1)
    (same_degree_factorization (fun n => Z.of_nat ((n * n * n + n) %% 7 %% 5)%N) 20 1 (to_mod 5 [:: 8; 14; 7; 1]%ZZ) 0)
  = Ret [:: [:: 2; 1]; [:: 4; 1]; [:: 1; 1]]%ZZ.
Proof. vm_compute. reflexivity. Qed.

(** A constant stream never separates two of these factors; changing one value
    after ten does. *)
Example C75_example :
  same_degree_factorization (fun n => 2%ZZ) 20 1 (to_mod 5 [:: 8; 14; 7; 1]%ZZ) 0 = NoFuel /\
  rmap (fun r => map (@mod_values 5) r.1)
    (same_degree_factorization (fun n => if (n < 10)%N then 2%ZZ else Z.of_nat (n %% 5)) 20 1 (to_mod 5 [:: 8; 14; 7; 1]%ZZ) 0)
  = Ret [:: [:: 2; 1]; [:: 4; 1]; [:: 1; 1]]%ZZ.
Proof. split; vm_compute; reflexivity. Qed.

(** C35: one step takes a factorisation modulo p to one modulo p^2. *)
Theorem C35_lift_step : forall (p : positive) (t : ftree p) (F : mpoly (p * p)),
  (1 < p)%positive -> consistent t -> normal F -> poly_eqmod (zi (Zpos p)) (ival F) (ival (product t)) ->
  exists t', [/\ hensel_lift_step t F = Ret t', consistent t', product t' = F,
    agree_mod (Zpos p) (leaves t) (leaves t')
    & poly_eqmod (zi (Zpos (p * p))) (ival F) (\prod_(f <- map (@ival _) (leaves t')) f)].
Proof. exact hensel_step_ok. Qed.
Print Assumptions C35_lift_step.

(** C35: the loop reaches every target precision. *)
Theorem C35_lift : forall (p : positive) (t : ftree p) (self : poly int_coef) (needed : bool * Z) (fuel : nat),
  (1 < p)%positive -> consistent t ->
  poly_eqmod (zi (Zpos p)) (pval int_sem self) (ival (product t)) ->
  match hensel_loop fuel self needed t with
  | Ret (existT m t') =>
      [/\ consistent t', agree_mod (Zpos p) (leaves t) (leaves t'), Z.divide (Zpos p) (Zpos m),
          (if needed.1 then needed.2 <= Zpos m else needed.2 < Zpos m)%ZZ
        & poly_eqmod (zi (Zpos m)) (pval int_sem self) (\prod_(f <- map (@ival _) (leaves t')) f)]
  | Panic => False
  | NoFuel => (Z.of_nat fuel + Zpos p <= needed.2)%ZZ
  end.
Proof. exact hensel_loop_ok. Qed.
Print Assumptions C35_lift.

(** x^2 + 1 = (x + 2)(x + 3) modulo 5, lifted past 1000: the square roots of -1
    modulo 390625 appear. *)
Example C35_example :
  rmap (fun r => (projT1 r, map (@mod_values _) (leaves (projT2 r))))
    (t <- new_node (Leaf (to_mod 5 [:: 2; 1]%ZZ)) (Leaf (to_mod 5 [:: 3; 1]%ZZ)) ;;
     hensel_loop 20 (zp [:: 1; 0; 1]) (true, 1000%ZZ) t)%res
  = Ret (390625%positive, [:: [:: 280182; 1]; [:: 110443; 1]]%ZZ).
Proof. vm_compute. reflexivity. Qed.
