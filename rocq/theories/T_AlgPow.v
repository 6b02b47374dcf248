(** Property theorems C57: rational powers.

    [is_pow x e v] (S_AlgOps.v) says that [v] is the real number [x] to the power
    [e], [pow_undefined x e] that there is no such number.  Exponents are
    fractions in lowest terms.  [ln2 n] stands for what natural_log_of_2(n)
    returns to this call (C43, C46). *)
From Coq Require Import ZArith QArith Qabs Qreals Reals Lra.
Set Warnings "-notation-overridden,-ambiguous-paths".
From mathcomp Require Import ssreflect ssrfun ssrbool eqtype ssrnat seq.
From Verif Require Import M_Base M_Util M_Interval M_Poly M_PolyCoef P_PolyInst M_Factor M_Alg S_Poly S_Interval S_Alg S_AlgOps
  P_AlgBasic P_AlgRef P_AlgOpsRef P_AlgPow P_AlgPowRef P_Cache S_Pow P_PowEnd P_PowEndRef.
Set Implicit Arguments.
Unset Strict Implicit.
Unset Printing Implicit Defensive.
Local Open Scope R_scope.

(** None is returned exactly where the power is undefined. *)
Theorem C57_none : forall ln2 rng ffuel fuel a x e, denotes a x -> Qred e = e ->
  (ra_checked_pow rng ffuel fuel ln2 a e = Ret None <-> pow_undefined x e).
Proof. exact pow_none. Qed.
Print Assumptions C57_none.
(** The operator form panics there and agrees elsewhere. *)
Theorem C57_operator : forall ln2 rng ffuel fuel a x e, denotes a x -> Qred e = e ->
  (pow_undefined x e -> ra_pow rng ffuel fuel ln2 a e = Panic) /\
  forall z, ra_pow rng ffuel fuel ln2 a e = Ret z <-> ra_checked_pow rng ffuel fuel ln2 a e = Ret (Some z).
Proof. exact pow_unwrap. Qed.
Print Assumptions C57_operator.
(** Bases 0, 1, -1 and exponents 0, 1 *)
Theorem C57_special : forall ln2 rng ffuel a x e v, denotes a x -> Qred e = e -> ~ pow_undefined x e -> is_pow x e v ->
  (x = 0 \/ x = 1 \/ x = -1) \/ Qnum e = 0%Z \/ e = 1%Q ->
  exists z, [/\ eventually (fun fuel => ra_checked_pow rng ffuel fuel ln2 a e) (Some z), denotes z v & canonical a -> canonical z].
Proof. exact pow_unit_top. Qed.
Print Assumptions C57_special.
(** Rational base, integer exponent within the machine integers *)
Theorem C57_rational : forall ln2 rng ffuel a x e, denotes a x -> Qred e = e -> ~ pow_undefined x e ->
  is_rat x -> Qden e = 1%positive -> pow_fits e ->
  exists z, [/\ eventually (fun fuel => ra_checked_pow rng ffuel fuel ln2 a e) (Some z),
    denotes z (powerRZ x (Qnum e)) & canonical a -> canonical z].
Proof. exact pow_rational_top. Qed.
Print Assumptions C57_rational.
(** Exponents beyond the machine integers panic. *)
Theorem C57_too_large : forall ln2 rng ffuel fuel a x e, denotes a x -> Qred e = e -> ~ pow_undefined x e ->
  x <> 0 -> x <> 1 -> x <> -1 -> ~ pow_fits e -> ra_checked_pow rng ffuel fuel ln2 a e = Panic.
Proof. exact pow_big_top. Qed.
Print Assumptions C57_too_large.
(** In general: what is returned denotes the power.  The hypotheses say that the
    reciprocal taken for a negative exponent is a valid number (C53 can fail
    here), that the factor found is irreducible (C31) and that the intervals
    obtained through logarithm and exponential contain the power (C44 is refuted,
    so this can fail).  That the search returns is [C57_returns_partial]. *)
Theorem C57_sound_partial : forall a x e, denotes a x -> Qred e = e -> ~ pow_undefined x e ->
  forall ln2 rng ffuel fuel v z, (forall n, exists l, ln2 n = Ret l /\ ln2_ok n l) -> is_pow x e v ->
  (forall b, pow_base fuel a e = Ret b -> [/\ denotes b (pow_arg x e),
     factoring_ok rng ffuel (pow_resultant (mp b) (Z.to_nat (Z.abs (Qnum e))) (Pos.to_nat (Qden e))) v &
     pow_encloses ln2 fuel b (pow_arg x e) (Qabs e)]) ->
  ra_checked_pow rng ffuel fuel ln2 a e = Ret (Some z) ->
  denotes z v /\ (canonical a -> Qnum e <> (-1)%Z \/ is_rat x -> canonical z).
Proof. exact pow_sound. Qed.
Print Assumptions C57_sound_partial.
(** The search returns, under the same hypotheses, if some refinement separates
    the power from the other candidates ([pow_isolates], S_Pow.v) and logarithm and
    exponential return up to there ([pow_steps]; C77 says when they do). *)
Theorem C57_returns_partial : forall a x e b v, denotes a x -> Qred e = e -> ~ pow_undefined x e -> is_pow x e v -> pow_fits e ->
  eventually (fun fuel => pow_base fuel a e) b -> denotes b (pow_arg x e) ->
  forall ln2 rng ffuel N, (forall n, exists l, ln2 n = Ret l /\ ln2_ok n l) ->
  factoring_ok rng ffuel (pow_resultant (mp b) (Z.to_nat (Z.abs (Qnum e))) (Pos.to_nat (Qden e))) v ->
  pow_steps ln2 N b (pow_arg x e) (Qabs e) -> pow_isolates ln2 N b (Qabs e) v ->
  exists z, [/\ eventually (fun fuel => ra_checked_pow rng ffuel fuel ln2 a e) (Some z), denotes z v &
    canonical a -> Qnum e <> (-1)%Z \/ is_rat x -> canonical z].
Proof. exact pow_returns. Qed.
Print Assumptions C57_returns_partial.
(** Every refinement separates the power, if some power of the base (in
    particular the base itself) is rational: roots of rationals. *)
Theorem C57_rational_isolates : forall ln2 N b y e v, denotes b y -> (0 < Qnum e)%Z ->
  v ^ Pos.to_nat (Qden e) = y ^ Z.to_nat (Qnum e) -> is_rat (y ^ Z.to_nat (Qnum e)) -> pow_isolates ln2 N b e v.
Proof. exact isolates_rational. Qed.
Print Assumptions C57_rational_isolates.
(** The interval for the power of a base known to lie in [lo j, hi j], in the
    binade 3/2 * 2^s, while the logarithm of the power keeps a distance from the
    multiples of ln 2: both bounds are within [pow_slack] of the power. *)
Theorem C57_interval_precision : forall ln2 e y s k t, (forall n, exists l, ln2 n = Ret l /\ ln2_ok n l) -> 0 < Q2R e ->
  let j := dfi_abs (sh_itv t) in
  (dlo j < dhi j)%Z -> inI (Rabs y) j -> 3 / 2 * powerRZ 2 s <= lo j -> hi j < 3 * powerRZ 2 s ->
  (Z.of_nat (dlog j) <= 2 ^ 60)%Z -> (Z.abs k <= 2 ^ 30)%Z ->
  let v := Rpower (Rabs y) (Q2R e) in let m := log_slack e s (dlog j) (lo j) (hi j) in
  m <= 3 / 4 -> IZR k * ln 2 + (m + / 2 ^ dlog j) <= ln v <= (IZR k + 1) * ln 2 - (m + / 2 ^ dlog j) ->
  exists i, [/\ pow_interval ln2 e Positive t = Ret i, Rabs (lo i - v) <= pow_slack e s (dlog j) (lo j) (hi j) v &
    Rabs (hi i - v) <= pow_slack e s (dlog j) (lo j) (hi j) v].
Proof. exact pow_precise. Qed.
Print Assumptions C57_interval_precision.
(** Hence the refinement separates the power once the other candidates are
    farther away than that. *)
Theorem C57_precise_isolates : forall ln2 N b y e v s k t, (forall n, exists l, ln2 n = Ret l /\ ln2_ok n l) -> 0 < Q2R e ->
  refine_steps N b = Ret t -> let j := dfi_abs (sh_itv t) in
  (dlo j < dhi j)%Z -> inI (Rabs y) j -> 3 / 2 * powerRZ 2 s <= lo j -> hi j < 3 * powerRZ 2 s ->
  (Z.of_nat (dlog j) <= 2 ^ 60)%Z -> (Z.abs k <= 2 ^ 30)%Z -> Rabs v = Rpower (Rabs y) (Q2R e) ->
  let m := log_slack e s (dlog j) (lo j) (hi j) in
  m <= 3 / 4 -> IZR k * ln 2 + (m + / 2 ^ dlog j) <= ln (Rabs v) <= (IZR k + 1) * ln 2 - (m + / 2 ^ dlog j) ->
  (forall r w, pow_resultant (mp b) (Z.to_nat (Qnum e)) (Pos.to_nat (Qden e)) = Ret r -> poly.root (real_poly r) w ->
    Rabs w <> Rabs v -> pow_slack e s (dlog j) (lo j) (hi j) (Rabs v) < Rabs (Rabs w - Rabs v)) ->
  pow_isolates ln2 N b e v.
Proof. exact isolates_close. Qed.
Print Assumptions C57_precise_isolates.
(** A power that is not a valid number. *)
Theorem C57_pow_refuted : exists a x z, [/\ denotes a x, canonical a, 0 < x,
  eventually (fun fuel => ra_checked_pow rng0 50 fuel ln2_0 a (-1 # 1)) (Some z) & forall v, ~ denotes z v].
Proof. exact pow_refuted. Qed.
Print Assumptions C57_pow_refuted.

(** (-2)^(-3) = -1/8 *)
Example C57_example_rational :
  rmap (option_map (fun a => (coefficients (mp a), itv a))) (ra_checked_pow rng0 50 0 ln2_0 (ra_from_int (-2)) (-3 # 1)) =
  Ret (Some ([:: 1; 8]%Z, DFI (-1) 0 0)).
Proof. by vm_compute. Qed.
(** 0^0 *)
Example C57_example_none : ra_checked_pow rng0 50 0 ln2_0 ra_zero (0 # 1) = Ret None.
Proof. by vm_compute. Qed.
(** (sqrt 2)^(-3) meets the hypotheses of [C57_sound_partial]. *)
Example C57_example_sound : denotes (RA (zpl [:: -1; 0; 8]%Z) (DFI 0 26 0)) (Rpower (sqrt 2) (Q2R (-3 # 1))).
Proof.
have [s1 s2] := ex_sqrt2.
have nd : ~ pow_undefined (sqrt 2) (-3 # 1) by case=> [[]|[]]; lra.
refine (proj1 (C57_sound_partial root2_denotes _ nd ln2_oracle_exists _ _ ex_pow_run)); first by [].
- by split=> // h; lra.
move=> b; rewrite ex_pow_base => h; rewrite -(ret_inj h); split; [exact: recip_root2_denotes|exact: ex_pow_factoring|exact: ex_pow_encloses].
Qed.
(** The search for (sqrt 2)^(-3) ends. *)
Example C57_example_returns : exists z, [/\ eventually (fun fuel => ra_checked_pow rng0 50 fuel ln2_0 root2 (-3 # 1)) (Some z),
  denotes z (Rpower (sqrt 2) (Q2R (-3 # 1))) & canonical root2 -> Qnum (-3 # 1) <> (-1)%Z \/ is_rat (sqrt 2) -> canonical z].
Proof.
have [s1 s2] := ex_sqrt2.
have nd : ~ pow_undefined (sqrt 2) (-3 # 1) by case=> [[]|[]]; lra.
refine (C57_returns_partial root2_denotes _ nd _ _ ex_pow_base_all recip_root2_denotes ln2_oracle_exists (ex_pow_factoring _) ex_pow_steps (ex_pow_isolates ex_eighth)) => //.
by split=> // h; lra.
Qed.
(** Square roots of rationals. *)
Example C57_example_isolates : forall ln2 N, pow_isolates ln2 N (ra_from_int 2) (1 # 2) (sqrt 2).
Proof.
move=> ln2 N; apply: (@C57_rational_isolates ln2 N (ra_from_int 2) 2 (1 # 2) (sqrt 2)); first exact: (proj1 (from_int_denotes 2)); first by [].
  by rewrite /= !Rmult_1_r; apply: sqrt_sqrt; lra.
by exists (2 # 1)%Q; rewrite /Q2R /=; field.
Qed.
(** sqrt 2 from a base between 2047/1024 and 2049/1024. *)
Example C57_example_precision : exists i, [/\ pow_interval ln2_0 (1 # 2) Positive ex_two = Ret i,
  Rabs (lo i - Rpower (Rabs 2) (Q2R (1 # 2))) <= pow_slack (1 # 2) 0 10 (2047 / 1024) (2049 / 1024) (Rpower (Rabs 2) (Q2R (1 # 2))) &
  Rabs (hi i - Rpower (Rabs 2) (Q2R (1 # 2))) <= pow_slack (1 # 2) 0 10 (2047 / 1024) (2049 / 1024) (Rpower (Rabs 2) (Q2R (1 # 2)))].
Proof. exact ex_two_precise. Qed.
