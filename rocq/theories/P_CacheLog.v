(** A log2 which meets the assumptions: rounded down to a multiple of 2^-42. *)
From Coq Require Import ZArith NArith Reals Lia Lra.
From Flocq Require Import Core BinarySingleNaN.
From Verif Require Import M_QuadF64 M_CacheIndex S_CacheIndex P_QuadF64 P_QuadF64B P_CacheIndex.
Local Open Scope R_scope.

Local Existing Instance prec_pos_i.
Local Existing Instance fx_valid.

Definition down_log2 (x : f64) : f64 :=
  binary_normalize 53 1024 prec_pos prec_emax mode_NE (Zfloor (ln (B2R x) / ln 2 * IZR (2 ^ 42))) (-42) false.

Lemma scaled_exact z : (0 <= z <= 2 ^ 52)%Z ->
  B2R (binary_normalize 53 1024 prec_pos prec_emax mode_NE z (-42) false) = IZR z * / IZR (2 ^ 42) /\
  is_finite (binary_normalize 53 1024 prec_pos prec_emax mode_NE z (-42) false) = true.
Proof.
  intros H. pose proof (binary_normalize_correct 53 1024 prec_pos prec_emax mode_NE z (-42) false) as C. cbv zeta in C.
  assert (F : F2R (Float radix2 z (-42)) = IZR z * / IZR (2 ^ 42)) by reflexivity. rewrite F in C.
  assert (P : 0 < / IZR (2 ^ 42) <= 1).
  { split; [apply Rinv_0_lt_compat; apply IZR_lt; lia|]. rewrite <- Rinv_1. apply Rinv_le; [lra|apply IZR_le; lia]. }
  assert (Z0 : 0 <= IZR z) by (apply IZR_le; lia).
  rewrite no_over in C.
  - destruct C as (C1 & C2 & _). split; [|exact C2]. rewrite C1. apply round_generic; [apply valid_rnd_round_mode|].
    apply (generic_format_FLT radix2 (-1074) 53). apply (FLT_spec radix2 (-1074) 53 _ (Float radix2 z (-42))); [symmetry; exact F| |cbn; lia].
    cbn [Fnum]. change (Zpower radix2 53) with (2 ^ 53)%Z. lia.
  - rewrite Rabs_mult, (Rabs_pos_eq (/ _)) by lra. apply Rle_trans with (bpow radix2 52); [|apply bpow_le; lia].
    apply Rle_trans with (bpow radix2 52 * 1); [|lra]. apply Rmult_le_compat; [apply Rabs_pos|lra|apply int_le; lia|lra].
Qed.

Lemma ln_mono x y : 0 < x -> x <= y -> ln x <= ln y.
Proof. intros H [L| ->]; [left; apply ln_increasing; assumption|right; reflexivity]. Qed.

Lemma f64_bound (x : f64) : is_finite x = true -> 1 <= B2R x -> 0 <= ln (B2R x) / ln 2 <= 1024.
Proof.
  intros F L. assert (B := ln2_bounds). split.
  - apply Rmult_le_pos; [rewrite <- ln_1; apply ln_mono; lra|left; apply Rinv_0_lt_compat; lra].
  - assert (H := abs_B2R_lt_emax 53 1024 x). rewrite Rabs_pos_eq in H by lra.
    apply Rmult_le_reg_r with (ln 2); [lra|]. unfold Rdiv. rewrite Rmult_assoc, Rinv_l, Rmult_1_r by lra.
    apply Rle_trans with (ln (bpow radix2 1024)); [apply ln_mono; lra|]. rewrite bpow_powerRZ. cbn [radix_val radix2].
    change 1024%Z with (Z.of_nat 1024). rewrite <- pow_powerRZ. rewrite ln_pow by lra. rewrite INR_IZR_INZ. right. reflexivity.
Qed.

Lemma down_ok (x : f64) : is_finite x = true -> 1 <= B2R x ->
  B2R (down_log2 x) = IZR (Zfloor (ln (B2R x) / ln 2 * IZR (2 ^ 42))) * / IZR (2 ^ 42) /\ is_finite (down_log2 x) = true /\
  0 <= B2R (down_log2 x) <= 1024.
Proof.
  intros F L. assert (B := f64_bound x F L). set (y := ln (B2R x) / ln 2) in *.
  assert (P : 0 < IZR (2 ^ 42)) by (apply IZR_lt; lia).
  assert (Hz : (0 <= Zfloor (y * IZR (2 ^ 42)) <= 2 ^ 52)%Z).
  { split; [apply Zfloor_lub; apply Rmult_le_pos; lra|]. rewrite <- (Zfloor_IZR (2 ^ 52)). apply Zfloor_le.
    change (2 ^ 52)%Z with (1024 * 2 ^ 42)%Z. rewrite mult_IZR. apply Rmult_le_compat_r; lra. }
  destruct (scaled_exact _ Hz) as [E G]. unfold down_log2. fold y. rewrite E. split; [reflexivity|]. split; [exact G|].
  assert (0 < / IZR (2 ^ 42)) by (apply Rinv_0_lt_compat; exact P). split.
  - apply Rmult_le_pos; [apply IZR_le; lia|lra].
  - apply Rmult_le_reg_r with (IZR (2 ^ 42)); [exact P|]. rewrite Rmult_assoc, Rinv_l, Rmult_1_r by lra.
    rewrite <- mult_IZR. apply IZR_le. lia.
Qed.

Lemma down_monotone : monotone_log2 down_log2.
Proof.
  intros x y Fx Fy [L Lxy]. destruct (down_ok x Fx L) as (Ex & Gx & Bx). destruct (down_ok y Fy ltac:(lra)) as (Ey & Gy & By).
  split; [exact Gx|]. split; [exact Gy|]. split; [|lra]. split; [lra|]. rewrite Ex, Ey.
  assert (P : 0 < IZR (2 ^ 42)) by (apply IZR_lt; lia). apply Rmult_le_compat_r; [left; apply Rinv_0_lt_compat; exact P|].
  apply IZR_le. apply Zfloor_le. apply Rmult_le_compat_r; [lra|]. assert (B := ln2_bounds).
  apply Rmult_le_compat_r; [left; apply Rinv_0_lt_compat; lra|]. apply ln_mono; lra.
Qed.

Lemma down_accurate : accurate_log2 down_log2.
Proof.
  intros x F L. destruct (down_ok x F L) as (E & _). rewrite E. set (y := ln (B2R x) / ln 2).
  assert (F1 := Zfloor_ub (y * IZR (2 ^ 42))). assert (F2 := Zfloor_lb (y * IZR (2 ^ 42))).
  set (z := IZR (Zfloor (y * IZR (2 ^ 42)))) in *. change (IZR (2 ^ 42)) with 4398046511104 in *.
  apply Rabs_le. lra.
Qed.

(** the whole part only, which can be computed *)
Definition whole_log2 (x : f64) : f64 := bigint_to_f64 (Z.of_N (N.log2 (floor_to_usize x))).
