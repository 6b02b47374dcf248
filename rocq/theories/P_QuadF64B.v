(** The same for large coefficients, which are rounded when converted. *)
From Coq Require Import ZArith Reals Lia Lra.
From Flocq Require Import Core BinarySingleNaN Relative.
From Verif Require Import M_Base M_Quad M_QuadF64 S_Quad S_QuadF64 P_Quad P_QuadF64.
Local Open Scope R_scope.

Local Existing Instance prec_pos_i.
Local Existing Instance fx_valid.

Lemma no_over x : Rabs x <= bpow radix2 1000 -> Rlt_bool (Rabs (rnd x)) (bpow radix2 1024) = true.
Proof.
  intros H. apply Rlt_bool_true. apply Rle_lt_trans with (bpow radix2 1000); [|apply bpow_lt; reflexivity].
  apply abs_round_le_generic; [exact fx_valid|apply valid_rnd_round_mode| |exact H].
  apply generic_format_bpow. cbn. lia.
Qed.
Lemma rnd_le x e : (-500 <= e <= 1000)%Z -> Rabs x <= bpow radix2 e -> Rabs (rnd x) <= bpow radix2 e.
Proof.
  intros He H. apply abs_round_le_generic; [exact fx_valid|apply valid_rnd_round_mode| |exact H].
  apply generic_format_bpow. unfold SpecFloat.fexp, SpecFloat.emin. lia.
Qed.

Definition k0 : R := bpow radix2 (-1000).
Lemma k0_pos : 0 < k0. Proof. apply bpow_gt_0. Qed.

Lemma rnd_err2 x : exists e k, Rabs e <= u /\ Rabs k <= k0 /\ rnd x = x * (1 + e) + k.
Proof.
  destruct (relative_error_N_FLT'_ex radix2 (-1074) 53 ltac:(lia) (fun x => negb (Z.even x)) x) as (e & k & He & Hk & _ & E).
  exists e, k. split; [|split; [|exact E]].
  - apply Rle_trans with (1 := He). assert (U : u_ro radix2 53 = u).
    { unfold u_ro, u. change (/ 2) with (bpow radix2 (-1)). rewrite <- bpow_plus. reflexivity. }
    rewrite U. pose proof u_pos. apply Rmult_le_reg_r with (1 + u); [lra|].
    unfold Rdiv. rewrite Rmult_assoc, Rinv_l by lra. nra.
  - apply Rle_trans with (1 := Hk). change (/ 2) with (bpow radix2 (-1)). rewrite <- bpow_plus. apply bpow_le. lia.
Qed.
(** no absolute error for numbers that are not tiny *)
Lemma rnd_rel x : bpow radix2 (-1000) <= Rabs x -> exists e, Rabs e <= u /\ rnd x = x * (1 + e).
Proof.
  intros H. destruct (relative_error_N_FLT_ex radix2 (-1074) 53 ltac:(lia) (fun x => negb (Z.even x)) x) as (e & He & E).
  - apply Rle_trans with (2 := H). apply bpow_le. lia.
  - exists e. split; [|exact E]. apply Rle_trans with (1 := He). unfold u. change (/ 2) with (bpow radix2 (-1)).
    rewrite <- bpow_plus. apply bpow_le. lia.
Qed.
Lemma one_big x : 1 <= Rabs x -> bpow radix2 (-1000) <= Rabs x.
Proof. intros H. apply Rle_trans with (2 := H). change 1 with (bpow radix2 0). apply bpow_le. lia. Qed.

Lemma int_le n e : (0 <= e)%Z -> (Z.abs n <= 2 ^ e)%Z -> Rabs (IZR n) <= bpow radix2 e.
Proof.
  intros He H. rewrite <- abs_IZR. rewrite <- (IZR_Zpower radix2 e He). apply IZR_le. exact H.
Qed.

Lemma to_f64_rel n : (Z.abs n <= 2 ^ 900)%Z ->
  exists e, Rabs e <= u /\ B2R (bigint_to_f64 n) = IZR n * (1 + e) /\ is_finite (bigint_to_f64 n) = true /\
    Bsign (bigint_to_f64 n) = (n <? 0)%Z.
Proof.
  intros H. pose proof (binary_normalize_correct 53 1024 prec_pos prec_emax mode_NE n 0 false) as C. cbv zeta in C.
  assert (F : F2R (Float radix2 n 0) = IZR n) by (unfold F2R; cbn; ring). rewrite F in C.
  rewrite no_over in C.
  - destruct C as (C1 & C2 & C3).
    assert (E : exists e, Rabs e <= u /\ rnd (IZR n) = IZR n * (1 + e)).
    { destruct (Z.eq_dec n 0) as [->|N].
      - exists 0. rewrite Rabs_R0, round_0 by apply valid_rnd_round_mode. pose proof u_pos. split; lra.
      - apply rnd_rel, one_big. rewrite <- abs_IZR. apply IZR_le. lia. }
    destruct E as (e & He & E). exists e. unfold bigint_to_f64. rewrite C1. repeat split; [exact He|exact E|exact C2|].
    rewrite C3. destruct (Rcompare_spec (IZR n) 0) as [L|Q|L]; symmetry.
    + apply Z.ltb_lt. apply lt_IZR. exact L.
    + apply Z.ltb_ge. apply eq_IZR in Q. lia.
    + apply Z.ltb_ge. apply lt_IZR in L. lia.
  - apply Rle_trans with (bpow radix2 900); [apply int_le; [lia|exact H]|apply bpow_le; lia].
Qed.

Lemma u_small : 0 < u <= / 1000.
Proof. rewrite u_val. lra. Qed.

(** a factor with a small error *)
Lemma near_one e v : Rabs e <= v -> 1 - v <= 1 + e <= 1 + v.
Proof. intros H. apply Rabs_le_inv in H. lra. Qed.

(** a quotient of rounded numbers *)
Lemma quotient_factor e1 e2 v w1 w2 : 0 < v <= / 1000 -> 0 <= w1 -> 0 <= w2 <= 3 * v -> Rabs e1 <= w1 -> Rabs e2 <= w2 ->
  Rabs ((1 + e1) / (1 + e2) - 1) <= (w1 + w2) * (1 + 4 * v).
Proof.
  intros Hv H1 H2 E1 E2. assert (N := near_one e2 w2 E2). assert (P : 0 < 1 + e2) by lra.
  replace ((1 + e1) / (1 + e2) - 1) with ((e1 - e2) * / (1 + e2)) by (field; lra).
  apply abs_mul.
  - unfold Rminus. apply abs_add; [exact E1|rewrite Rabs_Ropp; exact E2].
  - rewrite Rabs_pos_eq by (left; apply Rinv_0_lt_compat; exact P).
    apply Rmult_le_reg_r with (1 + e2); [exact P|]. rewrite Rinv_l by lra.
    apply Rle_trans with ((1 + 4 * v) * (1 - 3 * v)).
    + assert (v * v <= v * / 1000) by (apply Rmult_le_compat_l; lra). lra.
    + apply Rmult_le_compat_l; lra.
Qed.

Lemma ratio_large c b : (Z.abs c <= 2 ^ 400)%Z -> (Z.abs b <= 2 ^ 400)%Z -> b <> 0%Z ->
  let f := fdiv (fneg (bigint_to_f64 c)) (bigint_to_f64 b) in
  is_finite f = true /\ Rabs (B2R f - - IZR c / IZR b) <= 4 * u * Rabs (- IZR c / IZR b).
Proof.
  intros Hc Hb Nb. destruct (to_f64_rel c) as (ec & Ec & C & Fc & _); [lia|]. destruct (to_f64_rel b) as (eb & Eb & B & Fb & _); [lia|].
  assert (U := u_small). cbv zeta.
  assert (Nb' : IZR b <> 0) by (apply IZR_neq; exact Nb). assert (Pb := near_one eb u Eb). assert (Pc := near_one ec u Ec).
  assert (B1 : 1 <= Rabs (IZR b)) by (rewrite <- abs_IZR; apply IZR_le; lia).
  assert (C2 : Rabs (IZR c) <= bpow radix2 400) by (apply int_le; [lia|exact Hc]).
  assert (B2 : Rabs (IZR b) <= bpow radix2 400) by (apply int_le; [lia|exact Hb]).
  pose proof (Bdiv_correct 53 1024 prec_pos prec_emax mode_NE (fneg (bigint_to_f64 c)) (bigint_to_f64 b)) as D.
  unfold fneg in D. rewrite B2R_Bopp, B, C in D.
  specialize (D ltac:(apply Rmult_integral_contrapositive_currified; [exact Nb'|lra])).
  set (t := - IZR c / IZR b) in *. set (g := (1 + ec) / (1 + eb)).
  assert (G : - (IZR c * (1 + ec)) / (IZR b * (1 + eb)) = t * g) by (unfold t, g; field; split; [lra|exact Nb']).
  rewrite G in D.
  assert (Hg : Rabs (g - 1) <= (u + u) * (1 + 4 * u)) by (apply quotient_factor; lra).
  assert (Hg2 : Rabs g <= 2).
  { replace g with (1 + (g - 1)) by ring. apply Rle_trans with (1 + (u + u) * (1 + 4 * u)).
    - apply abs_add; [rewrite Rabs_R1; lra|exact Hg].
    - assert (u * u <= u * / 1000) by (apply Rmult_le_compat_l; lra). lra. }
  assert (T2 : Rabs t <= bpow radix2 400).
  { unfold t, Rdiv. rewrite Rabs_mult, Rabs_Ropp, Rabs_inv. rewrite <- (Rmult_1_r (bpow radix2 400)).
    apply Rmult_le_compat; [apply Rabs_pos|left; apply Rinv_0_lt_compat; lra|exact C2|]. rewrite <- Rinv_1. apply Rinv_le; lra. }
  rewrite no_over in D.
  2: { apply Rle_trans with (bpow radix2 400 * 2); [apply abs_mul; assumption|].
       change 2 with (bpow radix2 1). rewrite <- bpow_plus. apply bpow_le. lia. }
  destruct D as (D1 & D2 & _). unfold fdiv, fneg. rewrite D2, is_finite_Bopp. split; [exact Fc|]. rewrite D1.
  assert (E : exists e, Rabs e <= u /\ rnd (t * g) = t * g * (1 + e)).
  { destruct (Z.eq_dec c 0) as [->|Nc].
    - exists 0. rewrite Rabs_R0. replace (t * g) with 0 by (unfold t; field; exact Nb').
      rewrite round_0 by apply valid_rnd_round_mode. split; lra.
    - apply rnd_rel. rewrite <- G. unfold Rdiv. rewrite Rabs_mult, Rabs_Ropp, Rabs_inv, !Rabs_mult.
      rewrite (Rabs_pos_eq (1 + ec)), (Rabs_pos_eq (1 + eb)) by lra.
      assert (C1 : 1 <= Rabs (IZR c)) by (rewrite <- abs_IZR; apply IZR_le; lia).
      apply Rle_trans with (bpow radix2 (-1) * bpow radix2 (-401)).
      + rewrite <- bpow_plus. apply bpow_le. lia.
      + apply Rmult_le_compat; [apply bpow_ge_0|apply bpow_ge_0| |].
        * change (bpow radix2 (-1)) with (/ 2). apply Rle_trans with (1 * (1 + ec)); [lra|]. apply Rmult_le_compat_r; lra.
        * rewrite (bpow_opp radix2 401 : bpow radix2 (-401) = / bpow radix2 401).
          apply Rinv_le; [apply Rmult_lt_0_compat; lra|]. replace (bpow radix2 401) with (bpow radix2 400 * bpow radix2 1) by (rewrite <- bpow_plus; reflexivity).
          change (bpow radix2 1) with 2. apply Rmult_le_compat; lra. }
  destruct E as (e & He & ->).
  replace (t * g * (1 + e) - t) with (t * (g * e + (g - 1))) by ring. rewrite Rabs_mult, Rmult_comm.
  apply Rmult_le_compat_r; [apply Rabs_pos|].
  assert (V : u * u <= u * / 1000) by (apply Rmult_le_compat_l; lra).
  assert (Hg3 : Rabs g <= 1 + (u + u) * (1 + 4 * u)).
  { replace g with (1 + (g - 1)) by ring. apply abs_add; [rewrite Rabs_R1; lra|exact Hg]. }
  apply Rle_trans with ((1 + (u + u) * (1 + 4 * u)) * u + (u + u) * (1 + 4 * u)).
  - apply abs_add; [apply abs_mul; assumption|exact Hg].
  - assert (V3 : u * u * u <= u * u * 1) by (apply Rmult_le_compat_l; [apply Rle_0_sqr|lra]). ring_simplify. simpl. lra.
Qed.

Lemma sqrt_near e : Rabs e <= / 2 -> Rabs (sqrt (1 + e) - 1) <= Rabs e.
Proof.
  intros H. apply Rabs_le_inv in H. assert (P := sqrt_pos (1 + e)). assert (S := sqrt_sqrt (1 + e) ltac:(lra)).
  set (q := sqrt (1 + e)) in *. replace e with ((q - 1) * (q + 1)) by lra. rewrite Rabs_mult, (Rabs_pos_eq (q + 1)) by lra.
  rewrite <- (Rmult_1_r (Rabs (q - 1))) at 1. apply Rmult_le_compat_l; [apply Rabs_pos|lra].
Qed.

Lemma formula_error2 b r a e0 f e1 e2 e3 em k1 k2 k3 v w : 0 < v <= / 1000 -> 0 <= w ->
  1 <= r -> a <> 0 -> 8 * w <= v * v -> w * (2 * Rabs a) <= v * v ->
  Rabs e0 <= v -> Rabs f <= v -> Rabs e1 <= v -> Rabs e2 <= v -> Rabs e3 <= v -> Rabs em <= 2 * v + v * v ->
  Rabs k1 <= w -> Rabs k2 <= w -> Rabs k3 <= w ->
  Rabs (((- (b * (1 + e0)) + (r * (1 + f) * (1 + e1) + k1)) * (1 + e2) + k2) / (2 * a * (1 + em)) * (1 + e3) + k3 - (- b + r) / (2 * a))
  <= 8 * v * ((Rabs b + r) / (2 * Rabs a)).
Proof.
  intros Hv Hw Hr Na W1 W2 E0 Ef E1 E2 E3 Em K1 K2 K3. set (T := Rabs b + r).
  assert (Pb := Rabs_pos b). assert (HT : 1 <= T) by (unfold T; lra).
  assert (Pa : 0 < Rabs a) by (apply Rabs_pos_lt; exact Na).
  assert (VV : 0 < v * v) by (apply Rmult_lt_0_compat; lra).
  assert (V1 : v * v <= v * / 1000) by (apply Rmult_le_compat_l; lra).
  assert (V2 : v * v * v <= v * v * / 1000) by (apply Rmult_le_compat_l; lra).
  assert (TV : v * v <= T * (v * v)) by (rewrite <- (Rmult_1_l (v * v)) at 1; apply Rmult_le_compat_r; lra).
  assert (WV : w * v <= w) by (rewrite <- (Rmult_1_r w) at 2; apply Rmult_le_compat_l; lra).
  set (d1 := - (b * e0) + r * (f + e1 + f * e1) + k1). set (s := - b + r).
  assert (D1 : Rabs d1 <= T * (2 * v + v * v) + w).
  { apply abs_add; [|exact K1]. apply Rle_trans with (Rabs b * v + r * (2 * v + v * v)).
    - apply abs_add; [rewrite Rabs_Ropp; apply abs_mul; [lra|exact E0]|].
      apply abs_mul; [rewrite Rabs_pos_eq; lra|]. apply Rle_trans with (v + v + v * v); [|lra].
      apply abs_add; [apply abs_add; assumption|apply abs_mul; assumption].
    - unfold T. assert (Rabs b * v <= Rabs b * (2 * v + v * v)) by (apply Rmult_le_compat_l; lra). lra. }
  assert (S : Rabs s <= T).
  { unfold s, T. apply abs_add; [rewrite Rabs_Ropp; lra|rewrite Rabs_pos_eq; lra]. }
  set (d2 := d1 * (1 + e2) + s * e2 + k2).
  assert (One : forall e y, Rabs e <= y -> Rabs (1 + e) <= 1 + y).
  { intros e y He. apply abs_add; [rewrite Rabs_R1; lra|exact He]. }
  assert (D2 : Rabs d2 <= (T * (2 * v + v * v) + w) * (1 + v) + T * v + w).
  { apply abs_add; [|exact K2]. apply abs_add; [apply abs_mul; [exact D1|apply One; exact E2]|apply abs_mul; assumption]. }
  assert (D2' : Rabs d2 <= T * (3 * v + 5 * (v * v))).
  { apply Rle_trans with (1 := D2). assert (T * (v * v * v) <= T * (v * v * / 1000)) by (apply Rmult_le_compat_l; lra).
    ring_simplify in H. ring_simplify. simpl in *. lra. }
  set (g := (1 + e3) / (1 + em)). assert (Pm := near_one em _ Em).
  assert (G : Rabs (g - 1) <= (v + (2 * v + v * v)) * (1 + 4 * v)) by (apply quotient_factor; lra).
  assert (G1 : Rabs (g - 1) <= 3 * v + 14 * (v * v)).
  { apply Rle_trans with (1 := G). ring_simplify. ring_simplify in V2. simpl in *. lra. }
  assert (G2 : Rabs g <= 2).
  { replace g with (1 + (g - 1)) by ring. apply Rle_trans with (1 + (3 * v + 14 * (v * v))); [apply One; exact G1|lra]. }
  replace (((- (b * (1 + e0)) + (r * (1 + f) * (1 + e1) + k1)) * (1 + e2) + k2) / (2 * a * (1 + em)) * (1 + e3) + k3 - s / (2 * a))
    with ((d2 + d2 * (g - 1) + s * (g - 1)) * / (2 * a) + k3) by (unfold d2, d1, s, g; field; repeat split; first [exact Na|lra]).
  set (B2 := T * (3 * v + 5 * (v * v))) in *. set (Bg := 3 * v + 14 * (v * v)) in *.
  assert (Q : Rabs (d2 + d2 * (g - 1) + s * (g - 1)) <= B2 + B2 * Bg + T * Bg).
  { apply abs_add; [apply abs_add; [exact D2'|]|]; apply abs_mul; assumption. }
  assert (Ia : Rabs (/ (2 * a)) = / (2 * Rabs a)).
  { rewrite Rabs_inv, Rabs_mult, (Rabs_pos_eq 2) by lra. reflexivity. }
  assert (Ip : 0 < / (2 * Rabs a)) by (apply Rinv_0_lt_compat; lra).
  assert (K3' : w <= T * (v * v) * / (2 * Rabs a)).
  { apply Rmult_le_reg_r with (2 * Rabs a); [lra|]. rewrite (Rmult_assoc _ (/ _)), Rinv_l by lra. lra. }
  apply Rle_trans with ((B2 + B2 * Bg + T * Bg) * / (2 * Rabs a) + T * (v * v) * / (2 * Rabs a)).
  { apply abs_add; [apply abs_mul; [exact Q|rewrite Ia; lra]|lra]. }
  rewrite <- Rmult_plus_distr_r. unfold Rdiv. rewrite <- (Rmult_assoc (8 * v)). apply Rmult_le_compat_r; [lra|].
  unfold B2. replace (8 * v * T) with (T * (8 * v)) by ring.
  replace (T * (3 * v + 5 * (v * v)) + T * (3 * v + 5 * (v * v)) * Bg + T * Bg + T * (v * v))
    with (T * ((3 * v + 5 * (v * v)) * (1 + Bg) + Bg + v * v)) by ring.
  apply Rmult_le_compat_l; [lra|].
  assert (Bg1 : 1 + Bg <= 1 + / 100) by (unfold Bg; lra).
  apply Rle_trans with ((3 * v + 5 * (v * v)) * (1 + / 100) + Bg + v * v).
  - do 2 apply Rplus_le_compat_r. apply Rmult_le_compat_l; lra.
  - unfold Bg. lra.
Qed.

Lemma disc_large x : (Z.abs (qa x) <= 2 ^ 400)%Z -> (Z.abs (qb x) <= 2 ^ 400)%Z -> (Z.abs (qc x) <= 2 ^ 400)%Z ->
  (Z.abs (disc x) <= 2 ^ 803)%Z.
Proof.
  intros Ha Hb Hc. unfold disc.
  assert (B : (Z.abs (qb x * qb x) <= 2 ^ 400 * 2 ^ 400)%Z) by (rewrite Z.abs_mul; apply Z.mul_le_mono_nonneg; lia).
  assert (C : (Z.abs (qa x * qc x) <= 2 ^ 400 * 2 ^ 400)%Z) by (rewrite Z.abs_mul; apply Z.mul_le_mono_nonneg; lia).
  lia.
Qed.

Lemma sqrt_le_id x : 0 <= x -> sqrt x <= 1 + x.
Proof.
  intros H. rewrite <- (sqrt_square (1 + x)) by lra. apply sqrt_le_1_alt.
  assert (0 <= x * x) by (apply Rmult_le_pos; lra). lra.
Qed.

Lemma root_large x : qa x <> 0%Z -> (0 < disc x)%Z ->
  (Z.abs (qa x) <= 2 ^ 400)%Z -> (Z.abs (qb x) <= 2 ^ 400)%Z -> (Z.abs (qc x) <= 2 ^ 400)%Z ->
  is_finite (quad_to_f64 x) = true /\
  Rabs (B2R (quad_to_f64 x) - qvalue x) <= 8 * u * ((Rabs (IZR (qb x)) + sqrt (IZR (disc x))) / (2 * Rabs (IZR (qa x)))).
Proof.
  intros Na Pd Ha Hb Hc. assert (Hd := disc_large x Ha Hb Hc). assert (U := u_small).
  assert (D1 : 1 <= IZR (disc x)) by (apply IZR_le; lia).
  assert (R1 : 1 <= sqrt (IZR (disc x))) by (rewrite <- sqrt_1 at 1; apply sqrt_le_1_alt; exact D1).
  unfold quad_to_f64, is_ratio. replace (qa x =? 0)%Z with false by (symmetry; apply Z.eqb_neq; exact Na).
  rewrite disc_eq. cbv zeta.
  destruct (to_f64_rel (disc x)) as (ed & Ed & D & Fd & Sd); [lia|].
  replace (disc x <? 0)%Z with false in Sd by (symmetry; apply Z.ltb_ge; lia).
  destruct (to_f64_rel (qb x)) as (e0 & E0 & B & Fb & _); [lia|].
  destruct (to_f64_rel (qa x)) as (ea & Ea & A & Fa & _); [lia|].
  destruct (to_f64_exact 2) as (T & Ft & _); [lia|].
  assert (Nd := near_one ed u Ed). assert (N0 := near_one e0 u E0). assert (NA := near_one ea u Ea).
  (* the square root *)
  destruct (Bsqrt_correct 53 1024 prec_pos prec_emax mode_NE (bigint_to_f64 (disc x))) as (Q & Fq & _).
  assert (Fq' : is_finite (fsqrt (bigint_to_f64 (disc x))) = true).
  { unfold fsqrt. rewrite Fq. destruct (bigint_to_f64 (disc x)) as [s|s| |s m e p]; try discriminate Fd; [reflexivity|].
    cbn in Sd. rewrite Sd. reflexivity. }
  fold (fsqrt (bigint_to_f64 (disc x))) in Q. rewrite D in Q. set (q := fsqrt _) in *.
  assert (Sp : sqrt (IZR (disc x) * (1 + ed)) = sqrt (IZR (disc x)) * (1 + (sqrt (1 + ed) - 1))).
  { rewrite sqrt_mult by lra. ring. }
  assert (Ef : Rabs (sqrt (1 + ed) - 1) <= u) by (apply Rle_trans with (2 := Ed); apply sqrt_near; lra).
  set (f := sqrt (1 + ed) - 1) in *.
  assert (B803 : IZR (disc x) <= bpow radix2 803).
  { apply Rle_trans with (1 := Rle_abs _). apply int_le; [lia|exact Hd]. }
  assert (Bq : Rabs (B2R q) <= bpow radix2 805).
  { rewrite Q. apply rnd_le; [lia|]. rewrite Rabs_pos_eq by apply sqrt_pos.
    apply Rle_trans with (1 + IZR (disc x) * (1 + ed)).
    - apply sqrt_le_id. apply Rmult_le_pos; lra.
    - assert (M2 : IZR (disc x) * (1 + ed) <= IZR (disc x) * 2) by (apply Rmult_le_compat_l; lra).
      replace (bpow radix2 805) with (4 * bpow radix2 803) by (change 4 with (bpow radix2 2); rewrite <- bpow_plus; reflexivity). lra. }
  rewrite Sp in Q. destruct (rnd_err2 (sqrt (IZR (disc x)) * (1 + f))) as (e1 & k1 & E1 & K1 & Q1). rewrite Q1 in Q.
  assert (Bb : Rabs (IZR (qb x) * (1 + e0)) <= bpow radix2 805).
  { apply Rle_trans with (bpow radix2 400 * 2).
    - apply abs_mul; [apply int_le; [lia|exact Hb]|]. rewrite Rabs_pos_eq; lra.
    - change 2 with (bpow radix2 1). rewrite <- bpow_plus. apply bpow_le. lia. }
  (* the sum *)
  pose proof (Bplus_correct 53 1024 prec_pos prec_emax mode_NE (fneg (bigint_to_f64 (qb x))) q) as P.
  unfold fneg in P. rewrite B2R_Bopp, is_finite_Bopp, B in P. specialize (P Fb Fq').
  assert (Sm : Rabs (- (IZR (qb x) * (1 + e0)) + B2R q) <= bpow radix2 806).
  { replace (bpow radix2 806) with (bpow radix2 805 + bpow radix2 805).
    - apply abs_add; [rewrite Rabs_Ropp; exact Bb|exact Bq].
    - replace (bpow radix2 806) with (2 * bpow radix2 805) by (change 2 with (bpow radix2 1); rewrite <- bpow_plus; reflexivity). lra. }
  rewrite no_over in P by (apply Rle_trans with (1 := Sm); apply bpow_le; lia).
  destruct P as (P & Fp & _).
  change (Bplus mode_NE (Bopp (bigint_to_f64 (qb x))) q) with (fadd (fneg (bigint_to_f64 (qb x))) q) in P, Fp.
  set (p := fadd _ q) in *.
  assert (Bp : Rabs (B2R p) <= bpow radix2 806) by (rewrite P; apply rnd_le; [lia|exact Sm]).
  destruct (rnd_err2 (- (IZR (qb x) * (1 + e0)) + B2R q)) as (e2 & k2 & E2 & K2 & P1). rewrite P1 in P.
  (* twice the quadratic term *)
  assert (A1 : 1 <= Rabs (IZR (qa x))) by (rewrite <- abs_IZR; apply IZR_le; lia).
  assert (A2 : Rabs (IZR (qa x)) <= bpow radix2 400) by (apply int_le; [lia|exact Ha]).
  pose proof (Bmult_correct 53 1024 prec_pos prec_emax mode_NE (bigint_to_f64 2) (bigint_to_f64 (qa x))) as M.
  rewrite T, A in M. rewrite no_over in M.
  2: { apply Rle_trans with (2 * (bpow radix2 400 * 2)).
       - apply abs_mul; [rewrite Rabs_pos_eq; lra|]. apply abs_mul; [exact A2|]. rewrite Rabs_pos_eq; lra.
       - change 2 with (bpow radix2 1). rewrite <- !bpow_plus. apply bpow_le. lia. }
  destruct M as (M & Fm & _). rewrite Fa, Ft in Fm. cbn [andb] in Fm.
  change (Bmult mode_NE (bigint_to_f64 2) (bigint_to_f64 (qa x))) with (fmul (bigint_to_f64 2) (bigint_to_f64 (qa x))) in M, Fm.
  set (m := fmul _ _) in *.
  destruct (rnd_rel (2 * (IZR (qa x) * (1 + ea)))) as (e4 & E4 & M1).
  { apply one_big. rewrite !Rabs_mult, (Rabs_pos_eq 2), (Rabs_pos_eq (1 + ea)) by lra.
    apply Rle_trans with (2 * (1 * (1 - u))); [lra|]. apply Rmult_le_compat_l; [lra|]. apply Rmult_le_compat; lra. }
  rewrite M1 in M. set (em := ea + e4 + ea * e4).
  assert (Em : Rabs em <= 2 * u + u * u).
  { apply Rle_trans with (u + u + u * u); [|lra]. apply abs_add; [apply abs_add; assumption|apply abs_mul; assumption]. }
  assert (M' : B2R m = 2 * IZR (qa x) * (1 + em)) by (rewrite M; unfold em; ring).
  assert (UU : u * u <= u * / 1000) by (apply Rmult_le_compat_l; lra).
  assert (Nem := near_one em _ Em).
  assert (Mb : 1 <= Rabs (B2R m)).
  { rewrite M', !Rabs_mult, (Rabs_pos_eq 2), (Rabs_pos_eq (1 + em)) by lra.
    apply Rle_trans with (2 * 1 * (1 - / 100)); [lra|]. apply Rmult_le_compat; lra. }
  assert (Nm : B2R m <> 0) by (intros Z; rewrite Z, Rabs_R0 in Mb; lra).
  (* the quotient *)
  pose proof (Bdiv_correct 53 1024 prec_pos prec_emax mode_NE p m Nm) as V.
  assert (I1 : Rabs (/ B2R m) <= 1) by (rewrite Rabs_inv, <- Rinv_1; apply Rinv_le; lra).
  rewrite no_over in V.
  2: { unfold Rdiv. apply Rle_trans with (bpow radix2 806 * 1); [apply abs_mul; assumption|]. rewrite Rmult_1_r. apply bpow_le. lia. }
  destruct V as (V & Fv & _). change (Bdiv mode_NE p m) with (fdiv p m) in V, Fv.
  split; [rewrite Fv; exact Fp|].
  destruct (rnd_err2 (B2R p / B2R m)) as (e3 & k3 & E3 & K3 & V1). rewrite V1 in V.
  rewrite V, P, Q, M'. rewrite (qvalue_quad x Na).
  apply formula_error2 with (w := k0); try assumption.
  - pose proof k0_pos. lra.
  - apply IZR_neq. exact Na.
  - unfold k0, u. rewrite <- bpow_plus. change 8 with (bpow radix2 3). rewrite <- bpow_plus. apply bpow_le. lia.
  - apply Rle_trans with (k0 * bpow radix2 401).
    + apply Rmult_le_compat_l; [pose proof k0_pos; lra|].
      replace (bpow radix2 401) with (2 * bpow radix2 400) by (change 2 with (bpow radix2 1); rewrite <- bpow_plus; reflexivity). lra.
    + unfold k0, u. rewrite <- !bpow_plus. apply bpow_le. lia.
Qed.

Lemma ratio_large_made x : made_quad x -> qa x = 0%Z -> (Z.abs (qb x) <= 2 ^ 400)%Z -> (Z.abs (qc x) <= 2 ^ 400)%Z ->
  is_finite (quad_to_f64 x) = true /\
  Rabs (B2R (quad_to_f64 x) - qvalue x) <= bpow radix2 (-51) * Rabs (qvalue x).
Proof.
  intros H Ea Hb Hc. apply made_canon in H. destruct H as [(_ & B & _)|[N _]]; [|contradiction].
  unfold quad_to_f64, is_ratio. rewrite Ea. cbn [Z.eqb]. rewrite (qvalue_lin x Ea).
  destruct (ratio_large (qc x) (qb x) Hc Hb ltac:(lia)) as [F E]. split; [exact F|]. rewrite <- bound_u. exact E.
Qed.

Lemma root_large_made x : made_quad x -> qa x <> 0%Z ->
  (Z.abs (qa x) <= 2 ^ 400)%Z -> (Z.abs (qb x) <= 2 ^ 400)%Z -> (Z.abs (qc x) <= 2 ^ 400)%Z ->
  is_finite (quad_to_f64 x) = true /\
  Rabs (B2R (quad_to_f64 x) - qvalue x) <= bpow radix2 (-50) * Rmax (Rabs (qvalue x)) (Rabs (other_root x)).
Proof.
  intros H Na Ha Hb Hc. destruct (root_large x Na (made_disc x H Na) Ha Hb Hc) as [F E]. split; [exact F|].
  unfold other_root. fold (disc x). rewrite (qvalue_quad x Na) at 2. rewrite larger_root; [|apply IZR_neq; exact Na|apply sqrt_pos].
  replace (bpow radix2 (-50)) with (8 * u); [exact E|].
  unfold u. change 8 with (bpow radix2 3). rewrite <- bpow_plus. reflexivity.
Qed.

Lemma root_large_rel x : made_quad x -> qa x <> 0%Z -> (qb x <= 0)%Z ->
  (Z.abs (qa x) <= 2 ^ 400)%Z -> (Z.abs (qb x) <= 2 ^ 400)%Z -> (Z.abs (qc x) <= 2 ^ 400)%Z ->
  Rabs (B2R (quad_to_f64 x) - qvalue x) <= bpow radix2 (-50) * Rabs (qvalue x).
Proof.
  intros H Na Nb Ha Hb Hc. destruct (root_large_made x H Na Ha Hb Hc) as [_ E]. rewrite Rmax_left in E; [exact E|].
  rewrite (qvalue_quad x Na). unfold other_root. fold (disc x).
  assert (N : IZR (qb x) <= 0) by (apply IZR_le; exact Nb). assert (P := sqrt_pos (IZR (disc x))).
  unfold Rdiv. rewrite !Rabs_mult. apply Rmult_le_compat_r; [apply Rabs_pos|].
  unfold Rabs. repeat destruct (Rcase_abs _); lra.
Qed.

(** huge numerators and denominators become infinities *)
Definition huge : quad := Quad (- (2 ^ 1100 + 1)) (2 ^ 1100) 0.
Lemma huge_nan : made_quad huge /\ is_finite (quad_to_f64 huge) = false /\ 1 < qvalue huge < 2.
Proof.
  split; [apply (mq_ratio (2 ^ 1100 + 1) (2 ^ 1100)); vm_compute; reflexivity|]. split; [vm_compute; reflexivity|].
  rewrite (qvalue_lin huge eq_refl). unfold huge. cbn [qc qb]. rewrite <- opp_IZR, Z.opp_involutive, plus_IZR.
  assert (P : 1 < IZR (2 ^ 1100)) by (apply IZR_lt; reflexivity).
  set (N := IZR (2 ^ 1100)) in *. assert (I : N * / N = 1) by (apply Rinv_r; lra).
  assert (J : / N < 1) by (rewrite <- Rinv_1; apply Rinv_lt_contravar; lra).
  assert (J0 : 0 < / N) by (apply Rinv_0_lt_compat; lra).
  unfold Rdiv. rewrite Rmult_plus_distr_r, I. lra.
Qed.
