(** The cache index is monotone if log2 is. *)
From Coq Require Import ZArith NArith Reals Lia Lra List.
From Flocq Require Import Core BinarySingleNaN.
From Verif Require Import M_Base M_Interval M_IntervalExp M_Cache M_QuadF64 M_CacheIndex S_CacheIndex P_QuadF64 P_QuadF64B P_Interval P_Cache.
Local Open Scope R_scope.

Local Existing Instance prec_pos_i.
Local Existing Instance fx_valid.

Lemma rnd_mono x y : x <= y -> rnd x <= rnd y.
Proof. apply round_le; [exact fx_valid|apply valid_rnd_round_mode]. Qed.

Lemma usize_rnd n : (n < 2 ^ 64)%N ->
  B2R (usize_to_f64 n) = rnd (IZR (Z.of_N n)) /\ is_finite (usize_to_f64 n) = true /\ 0 <= B2R (usize_to_f64 n) <= bpow radix2 64.
Proof.
  intros H. unfold usize_to_f64. set (z := Z.of_N n). assert (Hz : (0 <= z <= 2 ^ 64)%Z) by lia.
  assert (A : Rabs (IZR z) <= bpow radix2 64) by (apply int_le; lia).
  pose proof (binary_normalize_correct 53 1024 prec_pos prec_emax mode_NE z 0 false) as C. cbv zeta in C.
  assert (F : F2R (Float radix2 z 0) = IZR z) by (unfold F2R; cbn; ring). rewrite F in C.
  rewrite no_over in C by (apply Rle_trans with (1 := A); apply bpow_le; lia).
  destruct C as (C1 & C2 & _). unfold bigint_to_f64. rewrite C1. repeat split; [exact C2| |].
  - rewrite <- (round_0 radix2 fx (round_mode mode_NE)). apply rnd_mono. apply IZR_le. lia.
  - apply Rle_trans with (Rabs (rnd (IZR z))); [apply Rle_abs|]. apply rnd_le; [lia|exact A].
Qed.

(** log2_denom as f64 + 1.0 *)
Lemma succ_ok n : (n < 2 ^ 64)%N -> let x := fadd (usize_to_f64 n) (bigint_to_f64 1) in
  is_finite x = true /\ B2R x = rnd (rnd (IZR (Z.of_N n)) + 1) /\ 1 <= B2R x.
Proof.
  intros H. destruct (usize_rnd n H) as (E & F & L & U). destruct (to_f64_exact 1 ltac:(lia)) as (E1 & F1 & _).
  cbv zeta. unfold fadd. pose proof (Bplus_correct 53 1024 prec_pos prec_emax mode_NE (usize_to_f64 n) (bigint_to_f64 1) F F1) as C.
  rewrite E1 in C. rewrite no_over in C.
  - destruct C as (C1 & C2 & _). rewrite C1. split; [exact C2|]. rewrite E. split; [reflexivity|].
    rewrite <- E. replace 1 with (rnd 1) at 1; [apply rnd_mono; lra|]. exact (exact_int 1 ltac:(lia)).
  - rewrite Rabs_pos_eq by lra. apply Rle_trans with (bpow radix2 64 + bpow radix2 64).
    + apply Rplus_le_compat; [exact U|]. change 1 with (bpow radix2 0). apply bpow_le. lia.
    + replace (bpow radix2 64 + bpow radix2 64) with (bpow radix2 65); [apply bpow_le; lia|].
      change 65%Z with (1 + 64)%Z. rewrite (bpow_plus radix2 1 64). change (bpow radix2 1) with 2. ring.
Qed.

(** times 3.0 *)
Lemma triple_ok y : is_finite y = true -> 0 <= B2R y <= 1024 -> let x := fmul y (bigint_to_f64 3) in
  is_finite x = true /\ B2R x = rnd (B2R y * 3) /\ 0 <= B2R x <= 4096.
Proof.
  intros F [L U]. destruct (to_f64_exact 3 ltac:(lia)) as (E3 & F3 & _).
  cbv zeta. unfold fmul. pose proof (Bmult_correct 53 1024 prec_pos prec_emax mode_NE y (bigint_to_f64 3)) as C.
  assert (A : Rabs (B2R y * 3) <= bpow radix2 12).
  { rewrite Rabs_pos_eq by lra. change (bpow radix2 12) with 4096. lra. }
  rewrite E3 in C. rewrite no_over in C by (apply Rle_trans with (1 := A); apply bpow_le; lia).
  destruct C as (C1 & C2 & _). rewrite C1, C2, F, F3. split; [reflexivity|]. split; [reflexivity|]. split.
  - rewrite <- (round_0 radix2 fx (round_mode mode_NE)). apply rnd_mono. lra.
  - change 4096 with (bpow radix2 12). apply Rle_trans with (Rabs (rnd (B2R y * 3))); [apply Rle_abs|]. apply rnd_le; [lia|exact A].
Qed.

Lemma floor_ok x : is_finite x = true -> 0 <= B2R x <= 4096 -> floor_to_usize x = Z.to_N (Zfloor (B2R x)).
Proof.
  intros F B. assert (Hf : (0 <= Zfloor (B2R x) <= 4096)%Z).
  { split; [apply Zfloor_lub; apply B|]. rewrite <- (Zfloor_IZR 4096). apply Zfloor_le. apply B. }
  destruct x as [s|s| |s m e Hm]; try discriminate.
  - cbn [B2R] in *. rewrite (Zfloor_IZR 0). destruct s; reflexivity.
  - assert (E : forall v, v = Zfloor (B2R (B754_finite false m e Hm)) -> N.min (2 ^ 64 - 1) (Z.to_N v) = Z.to_N v).
    { intros v ->. destruct s.
      - cbn [B2R] in B. assert (F2R (Float radix2 (cond_Zopp true (Z.pos m)) e) < 0) by (apply F2R_lt_0; reflexivity). lra.
      - apply N.min_r. lia. }
    destruct s.
    + cbn [B2R] in B. assert (F2R (Float radix2 (cond_Zopp true (Z.pos m)) e) < 0) by (apply F2R_lt_0; reflexivity). lra.
    + cbn [floor_to_usize].
      assert (V : (match e with Zneg p => Z.pos m / 2 ^ Z.pos p | _ => Z.pos m * 2 ^ e end)%Z
                  = Zfloor (B2R (B754_finite false m e Hm : f64))).
      { cbn [B2R cond_Zopp]. unfold F2R. cbn [Fnum Fexp]. destruct e as [|p|p].
        - rewrite Z.mul_1_r. cbn. rewrite Rmult_1_r. symmetry. apply Zfloor_IZR.
        - rewrite <- (IZR_Zpower radix2) by lia. rewrite <- mult_IZR. symmetry. apply Zfloor_IZR.
        - change (Z.neg p) with (- Z.pos p)%Z. rewrite bpow_opp. rewrite <- (IZR_Zpower radix2) by lia.
          symmetry. apply (Zfloor_div (Z.pos m) (radix2 ^ Z.pos p)). cbn. lia. }
      rewrite V. apply E. reflexivity.
Qed.

Section Mono.
Variable flog2 : f64 -> f64.
Hypothesis M : monotone_log2 flog2.

Lemma scaled_mono a b : (a <= b)%N -> (b < 2 ^ 64)%N -> (scaled_log flog2 a <= scaled_log flog2 b)%N.
Proof.
  intros L H. assert (Ha : (a < 2 ^ 64)%N) by lia.
  destruct (succ_ok a Ha) as (Fa & Ea & La). destruct (succ_ok b H) as (Fb & Eb & Lb). cbv zeta in *.
  set (xa := fadd (usize_to_f64 a) (bigint_to_f64 1)) in *. set (xb := fadd (usize_to_f64 b) (bigint_to_f64 1)) in *.
  assert (Lab : B2R xa <= B2R xb).
  { rewrite Ea, Eb. apply rnd_mono. apply Rplus_le_compat_r. apply rnd_mono. apply IZR_le. lia. }
  destruct (M xa xb Fa Fb (conj La Lab)) as (Ga & Gb & [Pa Pab] & Pb).
  destruct (triple_ok (flog2 xa) Ga ltac:(lra)) as (Ta & Va & Ba). destruct (triple_ok (flog2 xb) Gb ltac:(lra)) as (Tb & Vb & Bb).
  cbv zeta in *. unfold scaled_log. fold xa xb. rewrite !floor_ok by assumption.
  apply Z2N.inj_le; try (apply Zfloor_lub; lra). apply Zfloor_le. rewrite Va, Vb. apply rnd_mono. lra.
Qed.

Lemma index_some n : exists i, cache_index flog2 n = Some i.
Proof.
  unfold cache_index. rewrite (proj2 (N.leb_le _ _)); [eauto|]. apply scaled_mono; lia.
Qed.
Lemma index_mono a b i j : (a <= b)%N -> cache_index flog2 a = Some i -> cache_index flog2 b = Some j -> (i <= j)%nat.
Proof.
  intros L. unfold cache_index.
  assert (S := scaled_mono (N.max (N.min a (2 ^ 64 - 1)) 32) (N.max (N.min b (2 ^ 64 - 1)) 32) ltac:(lia) ltac:(lia)).
  cbv zeta. set (sa := scaled_log flog2 (N.max (N.min a (2 ^ 64 - 1)) 32)) in *. set (sb := scaled_log flog2 (N.max (N.min b (2 ^ 64 - 1)) 32)) in *.
  set (s0 := scaled_log flog2 32). destruct (s0 <=? sa)%N; [|discriminate]. destruct (s0 <=? sb)%N; [|discriminate].
  intros [= <-] [= <-]. lia.
Qed.

(** * The precision of the entries *)
Hypothesis Acc : accurate_log2 flog2.
Notation d := (/ 1099511627776).

Lemma rnd_close z : 0 <= z <= 4096 -> Rabs (rnd z - z) <= d.
Proof.
  intros Hz. destruct (rnd_err z) as (e & k & He & Hk & ->).
  replace (z * (1 + e) + k - z) with (z * e + k) by ring.
  apply Rle_trans with (4096 * u + h).
  - apply abs_add; [|exact Hk]. apply abs_mul; [rewrite Rabs_pos_eq; lra|exact He].
  - assert (h <= u) by (apply bpow_le; lia). rewrite u_val in *. lra.
Qed.
Lemma succ_close n : (n < 2 ^ 64)%N -> Rabs (rnd (rnd (IZR (Z.of_N n)) + 1) - (IZR (Z.of_N n) + 1)) <= d * (IZR (Z.of_N n) + 1).
Proof.
  intros _. set (x := IZR (Z.of_N n)). assert (Hx : 0 <= x) by (apply IZR_le; lia).
  destruct (rnd_err x) as (e & k & He & Hk & E1). destruct (rnd_err (rnd x + 1)) as (e' & k' & He' & Hk' & ->). rewrite E1.
  replace ((x * (1 + e) + k + 1) * (1 + e') + k' - (x + 1)) with ((x * e + k) * (1 + e') + ((x + 1) * e' + k')) by ring.
  assert (h <= u) by (apply bpow_le; lia). assert (P := u_pos).
  assert (A1 : Rabs (x * e + k) <= (x + 1) * u).
  { replace ((x + 1) * u) with (x * u + u) by ring. apply abs_add; [|lra]. apply abs_mul; [rewrite Rabs_pos_eq; lra|exact He]. }
  assert (A2 : Rabs ((x * e + k) * (1 + e')) <= (x + 1) * u * 2).
  { apply abs_mul; [exact A1|]. apply Rle_trans with (1 + u); [apply abs_add; [rewrite Rabs_R1; lra|exact He']|]. rewrite u_val in *. lra. }
  assert (A3 : Rabs ((x + 1) * e' + k') <= (x + 1) * u + u).
  { apply abs_add; [|lra]. apply abs_mul; [rewrite Rabs_pos_eq; lra|exact He']. }
  apply Rle_trans with ((x + 1) * u * 2 + ((x + 1) * u + u)); [apply abs_add; assumption|]. rewrite u_val in *. nra.
Qed.

Lemma ln2_bounds : 0 < ln 2 <= 1.
Proof.
  split; [rewrite <- ln_1; apply ln_increasing; lra|].
  assert (H := exp_ineq1_le 1). rewrite <- (ln_exp 1). destruct (Req_dec 2 (exp 1)) as [->|N]; [lra|]. left. apply ln_increasing; lra.
Qed.
Lemma ln_lower x : 0 < x -> 1 - / x <= ln x.
Proof.
  intros H. assert (E := exp_ineq1_le (- ln x)). rewrite exp_Ropp, exp_ln in E by exact H. lra.
Qed.
Lemma cube_root_2 : (1 + 9 * d) * ln 2 <= 3 * ln (125995 / 100000).
Proof.
  assert (B := ln2_bounds).
  assert (E : 3 * ln (125995 / 100000) = ln 2 + ln (125995 / 100000 * (125995 / 100000) * (125995 / 100000) / 2)).
  { rewrite <- ln_mult by lra. replace (2 * (125995 / 100000 * (125995 / 100000) * (125995 / 100000) / 2)) with (125995 / 100000 * (125995 / 100000) * (125995 / 100000)) by field.
    rewrite !ln_mult by lra. ring. }
  rewrite E. set (q := 125995 / 100000 * (125995 / 100000) * (125995 / 100000) / 2) in *.
  assert (Q : 100005 / 100000 <= q) by (unfold q; lra). assert (L := ln_lower q ltac:(lra)).
  assert (I : / q <= / (100005 / 100000)) by (apply Rinv_le; lra). lra.
Qed.

Lemma scaled_close n : (n < 2 ^ 64)%N -> exists t,
  scaled_log flog2 n = Z.to_N (Zfloor t) /\ 0 <= t /\
  Rabs (t - 3 * (ln (rnd (rnd (IZR (Z.of_N n)) + 1)) / ln 2)) <= 4 * d /\ 1 <= rnd (rnd (IZR (Z.of_N n)) + 1).
Proof.
  intros H. destruct (succ_ok n H) as (F & E & L). cbv zeta in *.
  set (x := fadd (usize_to_f64 n) (bigint_to_f64 1)) in *.
  destruct (M x x F F ltac:(lra)) as (G & _ & [P _] & U). assert (A := Acc x F L).
  destruct (triple_ok (flog2 x) G ltac:(lra)) as (T & V & B). cbv zeta in *.
  exists (rnd (B2R (flog2 x) * 3)). split; [|split; [|split]].
  - unfold scaled_log. fold x. rewrite floor_ok by assumption. rewrite V. reflexivity.
  - rewrite <- V. lra.
  - rewrite <- E. assert (C := rnd_close (B2R (flog2 x) * 3) ltac:(lra)).
    replace (rnd (B2R (flog2 x) * 3) - 3 * (ln (B2R x) / ln 2))
      with ((rnd (B2R (flog2 x) * 3) - B2R (flog2 x) * 3) + 3 * (B2R (flog2 x) - ln (B2R x) / ln 2)) by ring.
    replace (4 * d) with (d + 3 * d) by ring. apply abs_add; [exact C|]. rewrite Rabs_mult, (Rabs_pos_eq 3) by lra. lra.
  - rewrite <- E. exact L.
Qed.

Lemma scaled_ratio a b : (a < 2 ^ 64)%N -> (b < 2 ^ 64)%N -> (scaled_log flog2 b <= scaled_log flog2 a)%N ->
  (100 * (Z.of_N b + 1) <= 126 * (Z.of_N a + 1))%Z.
Proof.
  intros Ha Hb S. destruct (scaled_close a Ha) as (ta & Ea & Pa & Ca & La). destruct (scaled_close b Hb) as (tb & Eb & Pb & Cb & Lb).
  assert (Ta : tb < ta + 1).
  { rewrite Ea, Eb in S. apply Z2N.inj_le in S; try (apply Zfloor_lub; lra).
    apply IZR_le in S. assert (F1 := Zfloor_ub tb). assert (F2 := Zfloor_lb ta). lra. }
  assert (Da := succ_close a Ha). assert (Db := succ_close b Hb).
  set (xa := rnd (rnd (IZR (Z.of_N a)) + 1)) in *. set (xb := rnd (rnd (IZR (Z.of_N b)) + 1)) in *.
  apply Rabs_le_inv in Ca. apply Rabs_le_inv in Cb. apply Rabs_le_inv in Da. apply Rabs_le_inv in Db.
  assert (B := ln2_bounds). assert (K := cube_root_2).
  assert (L3 : 3 * (ln xb / ln 2) < 3 * (ln xa / ln 2) + (1 + 9 * d)) by lra.
  assert (L4 : 3 * ln xb < 3 * ln xa + (1 + 9 * d) * ln 2).
  { replace (3 * ln xb) with (3 * (ln xb / ln 2) * ln 2) by (field; lra).
    replace (3 * ln xa) with (3 * (ln xa / ln 2) * ln 2) by (field; lra).
    rewrite <- Rmult_plus_distr_r. apply Rmult_lt_compat_r; lra. }
  assert (L5 : ln xb < ln (xa * (125995 / 100000))) by (rewrite ln_mult by lra; lra).
  apply ln_lt_inv in L5; [|lra|lra]. apply le_IZR. rewrite !mult_IZR, !plus_IZR.
  assert (0 <= IZR (Z.of_N a)) by (apply IZR_le; lia). assert (0 <= IZR (Z.of_N b)) by (apply IZR_le; lia). lra.
Qed.

Variable idx : N -> nat.
Hypothesis Idx : forall n, cache_index flog2 n = Some (idx n).

Lemma idx_mono a b : (a <= b)%N -> (idx a <= idx b)%nat.
Proof. intros L. exact (index_mono a b _ _ L (Idx a) (Idx b)). Qed.

Lemma idx_scaled a b : (a < 2 ^ 64)%N -> (b < 2 ^ 64)%N -> (idx a <= idx b)%nat -> (scaled_log flog2 (N.max a 32) <= scaled_log flog2 (N.max b 32))%N.
Proof.
  intros Ha Hb. assert (Ea := Idx a). assert (Eb := Idx b). unfold cache_index in Ea, Eb.
  replace (N.min a (2 ^ 64 - 1)) with a in Ea by lia. replace (N.min b (2 ^ 64 - 1)) with b in Eb by lia. cbv zeta in Ea, Eb.
  destruct (scaled_log flog2 32 <=? scaled_log flog2 (N.max a 32))%N eqn:La; [|discriminate].
  destruct (scaled_log flog2 32 <=? scaled_log flog2 (N.max b 32))%N eqn:Lb; [|discriminate].
  apply N.leb_le in La. apply N.leb_le in Lb. injection Ea as <-. injection Eb as <-. lia.
Qed.

Lemma required_ok n : (N.of_nat n < 2 ^ 64)%N -> not_excessive n (required idx (idx (N.of_nat n))).
Proof.
  intros H. split; [apply required_ge; [exact idx_mono|exact H|lia]|].
  destruct (required_loop_spec idx idx_mono 64 (idx (N.of_nat n)) 0) as (H1 & H2 & _); [apply N.mod_0_l; discriminate|left; reflexivity|].
  cbv zeta in *. unfold required. set (R := required_loop idx 64 (idx (N.of_nat n)) 0) in *. rewrite N.add_0_l in H2.
  assert (H2' : (R < 2 ^ 64)%N) by exact H2. clear H2. rewrite N_nat_Z.
  destruct H1 as [->|H1]; [lia|]. apply (idx_scaled _ _ H2' H) in H1.
  apply scaled_ratio in H1; [|lia|lia]. lia.
Qed.

Lemma entries_ok compute k s n e : (forall n, exists i, compute n = Ret i /\ (n <= dlog i)%nat) ->
  reach idx compute (initial k) s -> (N.of_nat n < 2 ^ 64)%N ->
  nth_error (cache s) (idx (N.of_nat n)) = Some e -> not_excessive n (dlog e).
Proof.
  intros C H Hn He. destruct (cache_transparent idx compute idx_mono C k s H) as (_ & _ & G).
  destruct (G _ _ He) as (m & i & _ & _ & ->). destruct (dfi_convert_ok i (required idx (idx (N.of_nat n)))) as (-> & _).
  apply required_ok. exact Hn.
Qed.
End Mono.
