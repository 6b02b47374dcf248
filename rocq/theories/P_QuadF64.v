(** Errors of the conversion of quadratic numbers to floating point. *)
From Coq Require Import ZArith Reals Lia Lra.
From Flocq Require Import Core BinarySingleNaN Relative.
From Verif Require Import M_Base M_Quad M_QuadF64 S_Quad S_QuadF64 P_Quad.
Local Open Scope R_scope.

Notation fx := (SpecFloat.fexp 53 1024).
Notation rnd := (round radix2 fx (round_mode mode_NE)).

Local Instance prec_pos_i : Prec_gt_0 53 := prec_pos.
Local Instance fx_valid : Valid_exp fx := FLT_exp_valid (-1074) 53.

(** * Rounding *)
Lemma no_overflow x : Rabs x <= bpow radix2 100 -> Rlt_bool (Rabs (rnd x)) (bpow radix2 1024) = true.
Proof.
  intros H. apply Rlt_bool_true. apply Rle_lt_trans with (bpow radix2 100); [|apply bpow_lt; reflexivity].
  apply abs_round_le_generic; [exact fx_valid|apply valid_rnd_round_mode| |exact H].
  apply generic_format_bpow. cbn. lia.
Qed.

Lemma exact_int n : (Z.abs n < 2 ^ 53)%Z -> rnd (IZR n) = IZR n.
Proof.
  intros H. apply round_generic; [apply valid_rnd_round_mode|].
  apply (generic_format_FLT radix2 (-1074) 53). apply (FLT_spec radix2 (-1074) 53 _ (Float radix2 n 0)).
  - unfold F2R. cbn. ring.
  - exact H.
  - cbn. lia.
Qed.

Lemma int_small n : (Z.abs n < 2 ^ 53)%Z -> Rabs (IZR n) <= bpow radix2 53.
Proof. intros H. rewrite <- abs_IZR. change (bpow radix2 53) with (IZR (2 ^ 53)). apply IZR_le. lia. Qed.

Lemma to_f64_exact n : (Z.abs n < 2 ^ 53)%Z ->
  B2R (bigint_to_f64 n) = IZR n /\ is_finite (bigint_to_f64 n) = true /\ (Bsign (bigint_to_f64 n) = (n <? 0)%Z).
Proof.
  intros H. pose proof (binary_normalize_correct 53 1024 prec_pos prec_emax mode_NE n 0 false) as C. cbv zeta in C.
  assert (F : F2R (Float radix2 n 0) = IZR n) by (unfold F2R; cbn; ring). rewrite F in C.
  rewrite no_overflow in C.
  - destruct C as (C1 & C2 & C3). unfold bigint_to_f64. rewrite C1, exact_int by exact H. repeat split; [exact C2|].
    rewrite C3. destruct (Rcompare_spec (IZR n) 0) as [L|E|L]; symmetry.
    + apply Z.ltb_lt. apply lt_IZR. exact L.
    + apply Z.ltb_ge. apply eq_IZR in E. lia.
    + apply Z.ltb_ge. apply lt_IZR in L. lia.
  - apply Rle_trans with (bpow radix2 53); [exact (int_small n H)|apply bpow_le; lia].
Qed.

Definition u : R := bpow radix2 (-53).
Definition h : R := bpow radix2 (-300).

Lemma u_val : u = / 9007199254740992.
Proof. unfold u. cbn. reflexivity. Qed.
Lemma u_pos : 0 < u. Proof. apply bpow_gt_0. Qed.
Lemma h_pos : 0 < h. Proof. apply bpow_gt_0. Qed.

Lemma rnd_err x : exists e k, Rabs e <= u /\ Rabs k <= h /\ rnd x = x * (1 + e) + k.
Proof.
  destruct (relative_error_N_FLT'_ex radix2 (-1074) 53 ltac:(lia) (fun x => negb (Z.even x)) x) as (e & k & He & Hk & _ & E).
  exists e, k. split; [|split; [|exact E]].
  - apply Rle_trans with (1 := He). assert (U : u_ro radix2 53 = u).
    { unfold u_ro, u. change (/ 2) with (bpow radix2 (-1)). rewrite <- bpow_plus. reflexivity. }
    rewrite U. pose proof u_pos. apply Rmult_le_reg_r with (1 + u); [lra|].
    unfold Rdiv. rewrite Rmult_assoc, Rinv_l by lra. nra.
  - apply Rle_trans with (1 := Hk). change (/ 2) with (bpow radix2 (-1)). rewrite <- bpow_plus. apply bpow_le. lia.
Qed.

(** a quotient of integers is rounded once *)
Lemma ratio_f64 c b : (Z.abs c < 2 ^ 53)%Z -> (Z.abs b < 2 ^ 53)%Z -> b <> 0%Z ->
  let f := fdiv (fneg (bigint_to_f64 c)) (bigint_to_f64 b) in
  is_finite f = true /\ B2R f = rnd (- IZR c / IZR b).
Proof.
  intros Hc Hb Nb. destruct (to_f64_exact c Hc) as (C & Fc & _). destruct (to_f64_exact b Hb) as (B & Fb & _).
  cbv zeta. pose proof (Bdiv_correct 53 1024 prec_pos prec_emax mode_NE (fneg (bigint_to_f64 c)) (bigint_to_f64 b)) as D.
  unfold fneg in D. rewrite B2R_Bopp, B, C in D. specialize (D (IZR_neq _ _ Nb)).
  rewrite no_overflow in D.
  - destruct D as (D1 & D2 & _). unfold fdiv, fneg. rewrite D2, is_finite_Bopp. split; [exact Fc|exact D1].
  - unfold Rdiv. rewrite Rabs_mult, Rabs_Ropp, Rabs_inv. rewrite <- !abs_IZR.
    assert (1 <= IZR (Z.abs b)) by (apply IZR_le; lia). assert (0 <= IZR (Z.abs c)) by (apply IZR_le; lia).
    apply Rle_trans with (IZR (Z.abs c)).
    + rewrite <- (Rmult_1_r (IZR (Z.abs c))) at 2. apply Rmult_le_compat_l; [assumption|].
      rewrite <- Rinv_1. apply Rinv_le; lra.
    + rewrite abs_IZR. apply Rle_trans with (bpow radix2 53); [exact (int_small c Hc)|apply bpow_le; lia].
Qed.

(** * The quadratic formula *)
Lemma abs_mul x y X Y : Rabs x <= X -> Rabs y <= Y -> Rabs (x * y) <= X * Y.
Proof. intros Hx Hy. rewrite Rabs_mult. apply Rmult_le_compat; try apply Rabs_pos; assumption. Qed.
Lemma abs_add x y X Y : Rabs x <= X -> Rabs y <= Y -> Rabs (x + y) <= X + Y.
Proof. intros Hx Hy. apply Rle_trans with (1 := Rabs_triang x y). lra. Qed.

Lemma formula_error b r a e1 e2 e3 k1 k2 k3 v w : 0 < v <= / 1000 -> 0 <= w ->
  1 <= r -> a <> 0 -> 8 * w <= v * v -> w * (2 * Rabs a) <= v * v ->
  Rabs e1 <= v -> Rabs e2 <= v -> Rabs e3 <= v -> Rabs k1 <= w -> Rabs k2 <= w -> Rabs k3 <= w ->
  Rabs (((- b + (r * (1 + e1) + k1)) * (1 + e2) + k2) / (2 * a) * (1 + e3) + k3 - (- b + r) / (2 * a))
  <= 4 * v * ((Rabs b + r) / (2 * Rabs a)).
Proof.
  intros Hv Hw Hr Na W1 W2 E1 E2 E3 K1 K2 K3. set (T := Rabs b + r).
  assert (Pb := Rabs_pos b). assert (HT : 1 <= T) by (unfold T; lra).
  assert (Pa : 0 < Rabs a) by (apply Rabs_pos_lt; exact Na).
  set (d1 := r * e1 + k1). set (s := - b + r).
  assert (D1 : Rabs d1 <= T * v + w).
  { apply abs_add; [|exact K1]. apply abs_mul; [rewrite Rabs_pos_eq by lra; unfold T; lra|exact E1]. }
  assert (S : Rabs s <= T).
  { unfold s, T. apply abs_add; [rewrite Rabs_Ropp; lra|rewrite Rabs_pos_eq; lra]. }
  set (d2 := d1 * (1 + e2) + s * e2 + k2).
  assert (One : forall e, Rabs e <= v -> Rabs (1 + e) <= 1 + v).
  { intros e He. apply abs_add; [rewrite Rabs_R1; lra|exact He]. }
  assert (D2 : Rabs d2 <= (T * v + w) * (1 + v) + T * v + w).
  { apply abs_add; [|exact K2]. apply abs_add; [apply abs_mul; [exact D1|apply One; exact E2]|apply abs_mul; assumption]. }
  assert (VV : 0 < v * v) by (apply Rmult_lt_0_compat; lra).
  assert (TV : v * v <= T * (v * v)) by (rewrite <- (Rmult_1_l (v * v)) at 1; apply Rmult_le_compat_r; lra).
  assert (WV : w * v <= w) by (rewrite <- (Rmult_1_r w) at 2; apply Rmult_le_compat_l; lra).
  assert (D2' : Rabs d2 <= T * (2 * v) + 2 * (T * (v * v))).
  { apply Rle_trans with (1 := D2). ring_simplify. simpl. lra. }
  replace (((- b + (r * (1 + e1) + k1)) * (1 + e2) + k2) / (2 * a) * (1 + e3) + k3 - s / (2 * a))
    with ((d2 * (1 + e3) + s * e3) * / (2 * a) + k3) by (unfold d2, d1, s; field; exact Na).
  assert (Q : Rabs (d2 * (1 + e3) + s * e3) <= (T * (2 * v) + 2 * (T * (v * v))) * (1 + v) + T * v).
  { apply abs_add; apply abs_mul; auto. }
  assert (Ia : Rabs (/ (2 * a)) = / (2 * Rabs a)).
  { rewrite Rabs_inv, Rabs_mult, (Rabs_pos_eq 2) by lra. reflexivity. }
  assert (Ip : 0 < / (2 * Rabs a)) by (apply Rinv_0_lt_compat; lra).
  assert (K3' : w <= T * (v * v) * / (2 * Rabs a)).
  { apply Rmult_le_reg_r with (2 * Rabs a); [lra|]. rewrite (Rmult_assoc _ (/ _)), Rinv_l by lra. lra. }
  apply Rle_trans with (((T * (2 * v) + 2 * (T * (v * v))) * (1 + v) + T * v) * / (2 * Rabs a) + T * (v * v) * / (2 * Rabs a)).
  { apply abs_add; [apply abs_mul; [exact Q|rewrite Ia; lra]|lra]. }
  rewrite <- Rmult_plus_distr_r. unfold Rdiv. rewrite <- (Rmult_assoc (4 * v)). apply Rmult_le_compat_r; [lra|].
  assert (V1 : v * v <= v * / 1000) by (apply Rmult_le_compat_l; lra).
  assert (V2 : v * v * v <= v * v * 1) by (apply Rmult_le_compat_l; lra).
  replace (4 * v * T) with (T * (4 * v)) by ring.
  replace ((T * (2 * v) + 2 * (T * (v * v))) * (1 + v) + T * v + T * (v * v)) with (T * (3 * v + 5 * (v * v) + 2 * (v * v * v))) by ring.
  apply Rmult_le_compat_l; lra.
Qed.

Lemma h_small : 8 * h <= u * u.
Proof.
  unfold h, u. rewrite <- bpow_plus. change 8 with (bpow radix2 3). rewrite <- bpow_plus. apply bpow_le. lia.
Qed.

Lemma disc_small x : (Z.abs (qa x) <= 2 ^ 24)%Z -> (Z.abs (qb x) <= 2 ^ 24)%Z -> (Z.abs (qc x) <= 2 ^ 24)%Z ->
  (Z.abs (disc x) < 2 ^ 53)%Z.
Proof.
  intros Ha Hb Hc. unfold disc.
  assert (B : (Z.abs (qb x * qb x) <= 2 ^ 24 * 2 ^ 24)%Z) by (rewrite Z.abs_mul; apply Z.mul_le_mono_nonneg; lia).
  assert (C : (Z.abs (qa x * qc x) <= 2 ^ 24 * 2 ^ 24)%Z) by (rewrite Z.abs_mul; apply Z.mul_le_mono_nonneg; lia).
  lia.
Qed.

Lemma root_f64 x : qa x <> 0%Z -> (0 < disc x)%Z ->
  (Z.abs (qa x) <= 2 ^ 24)%Z -> (Z.abs (qb x) <= 2 ^ 24)%Z -> (Z.abs (qc x) <= 2 ^ 24)%Z ->
  is_finite (quad_to_f64 x) = true /\
  Rabs (B2R (quad_to_f64 x) - qvalue x) <= 4 * u * ((Rabs (IZR (qb x)) + sqrt (IZR (disc x))) / (2 * Rabs (IZR (qa x)))).
Proof.
  intros Na Pd Ha Hb Hc. assert (Hd := disc_small x Ha Hb Hc).
  assert (R1 : 1 <= sqrt (IZR (disc x))).
  { rewrite <- sqrt_1 at 1. apply sqrt_le_1_alt. apply IZR_le. lia. }
  assert (R2 : sqrt (IZR (disc x)) <= bpow radix2 53).
  { apply Rle_trans with (IZR (disc x)).
    - assert (1 <= IZR (disc x)) by (apply IZR_le; lia).
      rewrite <- (sqrt_square (IZR (disc x))) at 2 by lra. apply sqrt_le_1_alt.
      rewrite <- (Rmult_1_r (IZR (disc x))) at 1. apply Rmult_le_compat_l; lra.
    - pose proof (int_small _ Hd). rewrite Rabs_pos_eq in H; [exact H|apply IZR_le; lia]. }
  unfold quad_to_f64, is_ratio. replace (qa x =? 0)%Z with false by (symmetry; apply Z.eqb_neq; exact Na).
  rewrite disc_eq. cbv zeta.
  destruct (to_f64_exact (disc x) Hd) as (D & Fd & Sd). replace (disc x <? 0)%Z with false in Sd by (symmetry; apply Z.ltb_ge; lia).
  destruct (to_f64_exact (qb x)) as (B & Fb & _); [lia|]. destruct (to_f64_exact (qa x)) as (A & Fa & _); [lia|].
  destruct (to_f64_exact 2) as (T & Ft & _); [lia|].
  (* the square root *)
  destruct (Bsqrt_correct 53 1024 prec_pos prec_emax mode_NE (bigint_to_f64 (disc x))) as (Q & Fq & _).
  assert (Fq' : is_finite (fsqrt (bigint_to_f64 (disc x))) = true).
  { unfold fsqrt. rewrite Fq. destruct (bigint_to_f64 (disc x)) as [s|s| |s m e p]; try discriminate Fd; [reflexivity|].
    cbn in Sd. rewrite Sd. reflexivity. }
  fold (fsqrt (bigint_to_f64 (disc x))) in Q. rewrite D in Q. set (q := fsqrt _) in *.
  destruct (rnd_err (sqrt (IZR (disc x)))) as (e1 & k1 & E1 & K1 & Q1). rewrite Q1 in Q.
  assert (Bq : Rabs (B2R q) <= bpow radix2 54).
  { rewrite Q, <- Q1. apply abs_round_le_generic; [exact fx_valid|apply valid_rnd_round_mode|apply generic_format_bpow; cbn; lia|].
    rewrite Rabs_pos_eq by lra. apply Rle_trans with (1 := R2). apply bpow_le. lia. }
  assert (Bb : Rabs (IZR (qb x)) <= bpow radix2 54).
  { apply Rle_trans with (bpow radix2 53); [apply int_small; lia|apply bpow_le; lia]. }
  (* the sum *)
  pose proof (Bplus_correct 53 1024 prec_pos prec_emax mode_NE (fneg (bigint_to_f64 (qb x))) q) as P.
  unfold fneg in P. rewrite B2R_Bopp, is_finite_Bopp, B in P. specialize (P Fb Fq').
  assert (Sm : Rabs (- IZR (qb x) + B2R q) <= bpow radix2 55).
  { replace (bpow radix2 55) with (bpow radix2 54 + bpow radix2 54) by (cbn; lra).
    apply abs_add; [rewrite Rabs_Ropp; exact Bb|exact Bq]. }
  rewrite no_overflow in P by (apply Rle_trans with (1 := Sm); apply bpow_le; lia).
  destruct P as (P & Fp & _). fold fneg in P, Fp. fold (fadd (fneg (bigint_to_f64 (qb x))) q) in P, Fp.
  change (Bplus mode_NE (fneg (bigint_to_f64 (qb x))) q) with (fadd (fneg (bigint_to_f64 (qb x))) q) in P, Fp.
  set (p := fadd _ q) in *.
  assert (Bp : Rabs (B2R p) <= bpow radix2 55).
  { rewrite P. apply abs_round_le_generic; [exact fx_valid|apply valid_rnd_round_mode|apply generic_format_bpow; cbn; lia|exact Sm]. }
  destruct (rnd_err (- IZR (qb x) + B2R q)) as (e2 & k2 & E2 & K2 & P1). rewrite P1 in P.
  (* twice the quadratic term *)
  pose proof (Bmult_correct 53 1024 prec_pos prec_emax mode_NE (bigint_to_f64 2) (bigint_to_f64 (qa x))) as M.
  rewrite T, A, <- mult_IZR in M. rewrite exact_int in M by lia.
  rewrite Rlt_bool_true in M.
  2: { apply Rle_lt_trans with (bpow radix2 53); [apply int_small; lia|apply bpow_lt; reflexivity]. }
  destruct M as (M & Fm & _). rewrite Fa, Ft in Fm. cbn [andb] in Fm.
  change (Bmult mode_NE (bigint_to_f64 2) (bigint_to_f64 (qa x))) with (fmul (bigint_to_f64 2) (bigint_to_f64 (qa x))) in M, Fm.
  set (m := fmul _ _) in *.
  assert (Nm : B2R m <> 0) by (rewrite M; apply IZR_neq; lia).
  (* the quotient *)
  pose proof (Bdiv_correct 53 1024 prec_pos prec_emax mode_NE p m Nm) as V.
  assert (I1 : Rabs (/ B2R m) <= 1).
  { rewrite M, Rabs_inv, <- abs_IZR. rewrite <- Rinv_1. apply Rinv_le; [lra|]. apply IZR_le. lia. }
  rewrite no_overflow in V.
  2: { unfold Rdiv. apply Rle_trans with (bpow radix2 55 * 1); [apply abs_mul; assumption|]. rewrite Rmult_1_r. apply bpow_le. lia. }
  destruct V as (V & Fv & _). change (Bdiv mode_NE p m) with (fdiv p m) in V, Fv.
  split; [rewrite Fv; exact Fp|].
  destruct (rnd_err (B2R p / B2R m)) as (e3 & k3 & E3 & K3 & V1). rewrite V1 in V.
  rewrite V, P, Q, M, mult_IZR. rewrite (qvalue_quad x Na).
  apply formula_error with (w := h); try assumption.
  - rewrite u_val. lra.
  - pose proof h_pos. lra.
  - apply IZR_neq. exact Na.
  - exact h_small.
  - assert (Aa : Rabs (IZR (qa x)) <= bpow radix2 24).
    { rewrite <- abs_IZR. change (bpow radix2 24) with (IZR (2 ^ 24)). apply IZR_le. exact Ha. }
    apply Rle_trans with (h * bpow radix2 25).
    + apply Rmult_le_compat_l; [pose proof h_pos; lra|]. change (bpow radix2 25) with (2 * bpow radix2 24). lra.
    + unfold h, u. rewrite <- !bpow_plus. apply bpow_le. lia.
Qed.

Lemma larger_root b r a : a <> 0 -> 0 <= r ->
  Rmax (Rabs ((- b + r) / (2 * a))) (Rabs ((- b - r) / (2 * a))) = (Rabs b + r) / (2 * Rabs a).
Proof.
  intros Na Hr. assert (Pa : 0 < Rabs a) by (apply Rabs_pos_lt; exact Na).
  assert (Q : forall t, Rabs (t / (2 * a)) = Rabs t / (2 * Rabs a)).
  { intros t. unfold Rdiv. rewrite Rabs_mult, Rabs_inv, Rabs_mult, (Rabs_pos_eq 2) by lra. reflexivity. }
  rewrite !Q. assert (Ip : 0 < / (2 * Rabs a)) by (apply Rinv_0_lt_compat; lra). unfold Rdiv.
  assert (M : Rmax (Rabs (- b + r)) (Rabs (- b - r)) = Rabs b + r).
  { unfold Rmax, Rabs. destruct (Rle_dec _ _); repeat destruct (Rcase_abs _); lra. }
  rewrite <- M. unfold Rmax at 1 2. destruct (Rle_dec (Rabs (- b + r)) (Rabs (- b - r))) as [L|L].
  - destruct (Rle_dec _ _) as [|N]; [reflexivity|]. exfalso. apply N. apply Rmult_le_compat_r; lra.
  - destruct (Rle_dec _ _) as [N|]; [|reflexivity]. exfalso. apply L. apply Rmult_le_reg_r in N; assumption.
Qed.

Lemma made_disc x : made_quad x -> qa x <> 0%Z -> (0 < disc x)%Z.
Proof.
  intros H Na. apply made_canon in H. destruct H as [[H _]|(_ & _ & D & S)]; [contradiction|].
  destruct (Z.eq_dec (disc x) 0) as [E|]; [|lia]. exfalso. apply S. exists 0%Z. rewrite E. reflexivity.
Qed.

Lemma ratio_to_f64 x : made_quad x -> qa x = 0%Z -> (Z.abs (qb x) < 2 ^ 53)%Z -> (Z.abs (qc x) < 2 ^ 53)%Z ->
  is_finite (quad_to_f64 x) = true /\
  B2R (quad_to_f64 x) = round radix2 (FLT_exp (-1074) 53) ZnearestE (qvalue x).
Proof.
  intros H Ea Hb Hc. apply made_canon in H. destruct H as [(_ & B & _)|[N _]]; [|contradiction].
  unfold quad_to_f64, is_ratio. rewrite Ea. cbn [Z.eqb]. rewrite (qvalue_lin x Ea).
  apply ratio_f64; try assumption. lia.
Qed.

Lemma bound_u y : 4 * u * y = bpow radix2 (-51) * y.
Proof. unfold u. change 4 with (bpow radix2 2). rewrite <- bpow_plus. reflexivity. Qed.

Lemma root_to_f64 x : made_quad x -> qa x <> 0%Z ->
  (Z.abs (qa x) <= 2 ^ 24)%Z -> (Z.abs (qb x) <= 2 ^ 24)%Z -> (Z.abs (qc x) <= 2 ^ 24)%Z ->
  is_finite (quad_to_f64 x) = true /\
  Rabs (B2R (quad_to_f64 x) - qvalue x) <= bpow radix2 (-51) * Rmax (Rabs (qvalue x)) (Rabs (other_root x)).
Proof.
  intros H Na Ha Hb Hc. destruct (root_f64 x Na (made_disc x H Na) Ha Hb Hc) as [F E]. split; [exact F|].
  unfold other_root. fold (disc x). rewrite (qvalue_quad x Na) at 2. rewrite larger_root, <- bound_u; [exact E|apply IZR_neq; exact Na|apply sqrt_pos].
Qed.

Lemma root_to_f64_rel x : made_quad x -> qa x <> 0%Z -> (qb x <= 0)%Z ->
  (Z.abs (qa x) <= 2 ^ 24)%Z -> (Z.abs (qb x) <= 2 ^ 24)%Z -> (Z.abs (qc x) <= 2 ^ 24)%Z ->
  Rabs (B2R (quad_to_f64 x) - qvalue x) <= bpow radix2 (-51) * Rabs (qvalue x).
Proof.
  intros H Na Nb Ha Hb Hc. destruct (root_to_f64 x H Na Ha Hb Hc) as [_ E]. rewrite Rmax_left in E; [exact E|].
  rewrite (qvalue_quad x Na). unfold other_root. fold (disc x).
  assert (N : IZR (qb x) <= 0) by (apply IZR_le; exact Nb). assert (P := sqrt_pos (IZR (disc x))).
  unfold Rdiv. rewrite !Rabs_mult. apply Rmult_le_compat_r; [apply Rabs_pos|].
  unfold Rabs. repeat destruct (Rcase_abs _); lra.
Qed.

Definition steep : quad := Quad 1 (2 ^ 28) 1.
Lemma steep_zero : made_quad steep /\ B2R (quad_to_f64 steep) = 0 /\ qvalue steep <> 0.
Proof.
  split; [apply (mq_new steep); vm_compute; reflexivity|]. split.
  - assert (E : B2SF (quad_to_f64 steep) = SpecFloat.S754_zero false) by (vm_compute; reflexivity).
    destruct (quad_to_f64 steep); try discriminate E. reflexivity.
  - intros E. assert (N : qa steep <> 0%Z) by discriminate. rewrite (qvalue_quad steep N) in E.
    change (IZR (qa steep)) with 1 in E. assert (S : sqrt (IZR (disc steep)) = IZR (qb steep)) by lra.
    assert (S2 : IZR (disc steep) = IZR (qb steep * qb steep)).
    { rewrite mult_IZR, <- S. symmetry. apply sqrt_sqrt. apply IZR_le. vm_compute. discriminate. }
    apply eq_IZR in S2. vm_compute in S2. discriminate S2.
Qed.
