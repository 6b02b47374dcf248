(** When the exponential of an interval returns, and how much an interval that
    contains a multiple of ln 2 loses. *)
From Coq Require Import ZArith QArith Qround Qreals Reals Lra Lia Bool List.

From Verif Require Import M_Base M_Traits M_Interval M_IntervalExp S_Interval P_Interval P_IntervalTight P_LogSeries P_IntervalLog P_IntervalExp P_LogTight P_ExpTight P_ExpPoint.
Local Open Scope R_scope.

Lemma dyadic_inj a b w : dyadic a w = dyadic b w -> a = b.
Proof.
  intros H. apply eq_IZR. rewrite <- (dyadic_mul a w), <- (dyadic_mul b w), H. reflexivity.
Qed.

Lemma dyadic_lift a d m : dyadic (a * 2 ^ Z.of_nat m) (d + m) = dyadic a d.
Proof.
  pose proof (p2_pos d). pose proof (p2_pos m). pose proof (p2_pos (d + m)).
  apply Rmult_eq_reg_r with (2 ^ (d + m)); [|lra]. rewrite dyadic_mul, pow_add, <- Rmult_assoc, dyadic_mul, mult_IZR, IZR_p2. reflexivity.
Qed.

Lemma dyadic_strict a b w : (a < b)%Z -> dyadic a w < dyadic b w.
Proof.
  intros H. apply Rmult_lt_reg_r with (2 ^ w); [apply p2_pos|]. rewrite !dyadic_mul. apply IZR_lt. exact H.
Qed.

Lemma dyadic_0 w : dyadic 0 w = 0.
Proof. apply Rmult_eq_reg_r with (2 ^ w); [|pose proof (p2_pos w); lra]. rewrite dyadic_mul. ring. Qed.

Section Total.
Variables (ln2 : nat -> res dfi) (i : dfi) (k : Z).
Hypothesis H2 : forall n, exists l, ln2 n = Ret l /\ ln2_ok n l.
Hypothesis Ok : dfi_ok i.
Let d := dlog i.
Let lo := dyadic (dlo i) d.
Let up := dyadic (dhi i) d.
Hypothesis Hd : (Z.of_nat d <= 2 ^ 60)%Z.
Hypothesis Hk : (Z.abs k <= 2 ^ 30)%Z.
Hypothesis Hlo : IZR k * ln 2 + 3 * Rabs (IZR k) / 2 ^ (d + 32) <= lo.
Hypothesis Hup : up < (IZR k + 1) * ln 2 - 3 * Rabs (IZR k + 1) / 2 ^ (d + 32).

Let bad := dlo i = dhi i /\ 0 <= lo /\ lo * lo * 2 ^ (d + 32 + 2 * Nat.log2 (d + 1)) = 2.

Lemma bad_small n : 0 <= lo -> (32 <= n)%nat -> lo * lo * 2 ^ n = 2 -> 0 < lo < / 4.
Proof.
  intros L0 Hn E. assert (P : 2 ^ 32 <= 2 ^ n) by (apply p2_mono; exact Hn).
  assert (P32 : 2 ^ 32 = 4294967296) by (cbn; ring). rewrite P32 in P. clear P32.
  assert (S0 : 0 <= lo * lo) by (apply Rmult_le_pos; exact L0).
  split.
  - destruct L0 as [L0|L0]; [exact L0|]. rewrite <- L0 in E. lra.
  - apply Rnot_le_lt. intros C. assert (/ 4 * / 4 <= lo * lo) by (apply Rmult_le_compat; lra).
    assert (lo * lo * 4294967296 <= lo * lo * 2 ^ n) by (apply Rmult_le_compat_l; assumption). lra.
Qed.

Lemma k_zero : lo = up -> 0 < lo < / 4 -> k = 0%Z.
Proof.
  intros E [L0 L1]. pose proof ln2_lower as L6. pose proof ln2_upper as L7.
  pose proof (Rabs_pos (IZR k)). pose proof (Rabs_pos (IZR k + 1)).
  assert (P : 0 < / 2 ^ (d + 32)) by (apply Rinv_0_lt_compat, p2_pos).
  assert (0 <= 3 * Rabs (IZR k) / 2 ^ (d + 32)) by (apply Rmult_le_pos; lra).
  assert (0 <= 3 * Rabs (IZR k + 1) / 2 ^ (d + 32)) by (apply Rmult_le_pos; lra).
  assert (K1 : (k < 1)%Z).
  { apply lt_IZR. apply Rnot_le_lt. intros C. assert (1 * ln 2 <= IZR k * ln 2) by (apply Rmult_le_compat_r; lra). lra. }
  assert (K2 : (-1 < k)%Z).
  { apply lt_IZR. apply Rnot_le_lt. intros C. assert ((IZR k + 1) * ln 2 <= 0 * ln 2) by (apply Rmult_le_compat_r; lra). lra. }
  lia.
Qed.

Theorem exp_binade_total :
  (dfi_exp ln2 i = Panic /\ bad) \/ (~ bad /\ exists r, dfi_exp ln2 i = Ret r).
Proof.
  destruct (binade_frame ln2 i k H2 Ok Hd ltac:(lia) Hlo Hup) as (e & w & l2 & i2 & Ew & Eu & Ee & Pk & F). cbv zeta in F.
  fold d in Ew, Eu, F. fold lo up in Eu, F.
  destruct F as (Hl2 & Ml0 & Mu0 & I1 & I2 & Qlo & Qup & Ml1 & Mu1 & E).
  set (ml := (dlo i2 mod dhi l2)%Z) in *. set (mu := (dhi i2 mod dlo l2)%Z) in *.
  assert (Fin : forall rv, exp_loop (w - 1) 1 (DFI ml mu w) (dfi_one w) (dfi_one w) = Ret rv -> exists r, dfi_exp ln2 i = Ret r).
  { intros rv Erv. rewrite E, Erv. cbn [rbind].
    destruct (exp_shift_lower_near k (dlo rv) w ltac:(lia)) as (vl & E1 & _). rewrite E1; cbn [rbind].
    destruct (exp_shift_upper_near k (dhi rv) w ltac:(lia)) as (vu & E2 & _). rewrite E2; cbn [rbind].
    eexists; reflexivity. }
  assert (Bad : bad -> k = 0%Z /\ e = 0%nat /\ ml = mu).
  { intros (B1 & B2 & B3). destruct (bad_small (d + 32 + 2 * Nat.log2 (d + 1)) B2 ltac:(lia) B3) as [S1 S2].
    assert (LU : lo = up) by (unfold lo, up; rewrite B1; reflexivity).
    assert (K0 := k_zero LU (conj S1 S2)). split; [exact K0|]. split.
    - assert (X : INR e < INR 1) by (specialize (Eu ltac:(lra)); cbn [INR]; lra). apply INR_lt in X. lia.
    - rewrite K0, Rmult_0_l, Rplus_0_l in Qlo, Qup. apply dyadic_inj with w. rewrite <- Qlo, <- Qup. exact LU. }
  destruct (Z.eq_dec ml mu) as [M|M].
  2:{ right. split; [intros B; destruct (Bad B) as (_ & _ & X); contradiction|].
      set (a := Z.min ml mu). set (b := Z.max ml mu).
      assert (Hb : dyadic b w <= 3 / 4) by (unfold b; destruct (Z.max_spec ml mu) as [[_ ->]|[_ ->]]; assumption).
      destruct (exp_loop_total1 w a b ml mu ltac:(unfold a, b; lia) ltac:(unfold a, b; lia) (w - 1) ltac:(unfold a, b; lia)) as [rv R].
      apply (Fin rv R). }
  (* both residues agree: the interval is a point and no multiple of ln 2 was removed *)
  assert (PT : k = 0%Z /\ dlo i = dhi i).
  { pose proof Hl2 as (_ & _ & Wd). 
    assert (D : up - lo = IZR k * (dyadic (dlo l2) w - dyadic (dhi l2) w)) by (rewrite Qlo, Qup, M; ring).
    assert (LT : dyadic (dlo l2) w < dyadic (dhi l2) w) by (apply dyadic_strict; lia).
    assert (LU : lo <= up) by (apply dyadic_le; exact Ok).
    destruct (Z.lt_trichotomy k 0) as [K|[K|K]].
    - exfalso. destruct (Z.eq_dec (dlo i) (dhi i)) as [Eq|Ne].
      + assert (lo = up) by (unfold lo, up; rewrite Eq; reflexivity). apply IZR_lt in K. nra.
      + assert (Big : / 2 ^ d <= up - lo).
        { pose proof (p2_pos d). apply mul_le_inv with (2 ^ d); [assumption|]. rewrite Rinv_l, Rmult_minus_distr_r by lra.
          unfold lo, up. rewrite !dyadic_mul. rewrite <- minus_IZR. apply (IZR_le 1). unfold dfi_ok in Ok. lia. }
        destruct (ln2_ok_bounds w l2 Hl2) as [[Ll1 Ll2] [Lh1 Lh2]].
        assert (Small : (dyadic (dhi l2) w - dyadic (dlo l2) w) * 2 ^ w <= 3).
        { rewrite Rmult_minus_distr_r, !dyadic_mul, <- minus_IZR. apply IZR_le. lia. }
        assert (KR : - IZR k <= 2 ^ 30).
        { rewrite <- opp_IZR, <- IZR_p2. apply IZR_le. change (Z.of_nat 30) with 30%Z. lia. }
        assert (EW : 2 ^ w = 2 ^ d * (4 * 2 ^ 30) * 2 ^ (2 * Nat.log2 (d + 1) + e)).
        { rewrite Ew. replace (d + 32 + 2 * Nat.log2 (d + 1) + e)%nat with (d + (2 + 30) + (2 * Nat.log2 (d + 1) + e))%nat by lia.
          rewrite !pow_add. change (2 ^ 2) with (2 * (2 * 1)). ring. }
        set (U := 2 ^ (2 * Nat.log2 (d + 1) + e)) in *. assert (U1 : 1 <= U) by apply p2_ge1. set (N := 2 ^ d) in *. assert (N0 : 0 < N) by apply p2_pos.
        set (h := 2 ^ 30) in *. assert (h0 : 0 < h) by apply p2_pos. clearbody U N h.
        set (y := dyadic (dhi l2) w - dyadic (dlo l2) w) in *.
        assert (Y0 : 0 < y) by (unfold y; lra).
        assert (Y1 : h * y <= 3 / 4 * / N).
        { apply mul_le_inv with N; [assumption|]. rewrite Rmult_assoc, (Rmult_assoc (3 / 4)), Rinv_l, Rmult_1_r by lra.
          assert (y * (N * (4 * h)) * 1 <= y * (N * (4 * h)) * U).
          { apply Rmult_le_compat_l; [|exact U1]. apply Rmult_le_pos; [lra|]. apply Rmult_le_pos; lra. }
          rewrite EW in Small. lra. }
        assert (D' : up - lo = - IZR k * y) by (rewrite D; unfold y; ring).
        assert (- IZR k * y <= h * y) by (apply Rmult_le_compat_r; lra).
        assert (0 < / N) by (apply Rinv_0_lt_compat; assumption). lra.
    - split; [exact K|]. rewrite K, Rmult_0_l in D. apply dyadic_inj with d. fold lo up. lra.
    - exfalso. apply IZR_lt in K. nra. }
  destruct PT as [K0 PT].
  assert (LU : lo = up) by (unfold lo, up; rewrite PT; reflexivity).
  rewrite K0, Rmult_0_l, Rplus_0_l in Qlo.
  set (m := (32 + 2 * Nat.log2 (d + 1) + e)%nat).
  assert (Cm : ml = (dlo i * 2 ^ Z.of_nat m)%Z).
  { apply dyadic_inj with w. rewrite <- Qlo. replace w with (d + m)%nat by (unfold m; lia). rewrite dyadic_lift. reflexivity. }
  assert (M4 : (4 <= 2 ^ Z.of_nat m)%Z).
  { change 4%Z with (2 ^ 2)%Z. apply Z.pow_le_mono_r; unfold m; lia. }
  assert (L0 : 0 <= lo). { rewrite Qlo. rewrite <- (dyadic_0 w). apply dyadic_le. exact Ml0. }
  destruct (Z.eq_dec ml 0) as [Z0|Z0].
  { right. split.
    - intros (_ & B2 & B3). destruct (bad_small (d + 32 + 2 * Nat.log2 (d + 1)) B2 ltac:(lia) B3) as [S1 _]. rewrite Qlo, Z0, dyadic_0 in S1. lra.
    - replace (w - 1)%nat with (S (w - 2)) in Fin by lia.
      eapply Fin. rewrite <- M, Z0. rewrite (exp_loop_first w 0 0 0 0) by lia. reflexivity. }
  assert (C2 : (2 <= ml)%Z).
  { assert (dlo i <> 0)%Z by (intros X; rewrite X in Cm; lia). nia. }
  replace (w - 1)%nat with (S (S (w - 3))) in * by lia.
  assert (Eqv : (ml * ml = 2 * 2 ^ Z.of_nat w)%Z <-> bad).
  { assert (Eqr : (ml * ml = 2 * 2 ^ Z.of_nat w)%Z <-> lo * lo * 2 ^ w = 2).
    { pose proof (p2_pos w) as P. split; intros X.
      - apply Rmult_eq_reg_r with (2 ^ w); [|lra]. 
        replace (lo * lo * 2 ^ w * 2 ^ w) with ((lo * 2 ^ w) * (lo * 2 ^ w)) by ring. rewrite Qlo, dyadic_mul, <- IZR_p2, <- !mult_IZR, X. reflexivity.
      - apply eq_IZR. rewrite !mult_IZR, IZR_p2. rewrite <- (dyadic_mul ml w), <- Qlo. 
        replace (lo * 2 ^ w * (lo * 2 ^ w)) with (lo * lo * 2 ^ w * 2 ^ w) by ring. rewrite X. reflexivity. }
    rewrite Eqr. split.
    - intros X. destruct (bad_small w L0 ltac:(lia) X) as [S1 S2].
      assert (e = 0)%nat as E0.
      { assert (Y : INR e < INR 1) by (specialize (Eu ltac:(lra)); cbn [INR]; lra). apply INR_lt in Y. lia. }
      repeat split; try assumption. rewrite E0, Nat.add_0_r in Ew. rewrite <- Ew. exact X.
    - intros B. pose proof (Bad B) as (_ & E0 & _). destruct B as (_ & _ & B3). rewrite E0, Nat.add_0_r in Ew. rewrite Ew. exact B3. }
  destruct (point_exp w ml C2 (w - 3)) as [[P1 P2]|(r & P1 & P2)].
  - left. split; [|apply Eqv; exact P2]. rewrite E, <- M, P1. reflexivity.
  - right. split; [intros B; apply P2, Eqv, B|]. rewrite <- M in Fin. apply (Fin r P1).
Qed.

End Total.

(** ** Any interval: at most a factor of two is lost *)
Lemma exp_up_2 x : 0 <= x <= 3 / 4 -> exp x <= 1 + 4 * x. Proof. apply exp_small_up. Qed.

Lemma k_size k L m v : 6 / 10 - / 100 <= L -> 0 <= m < L -> v = IZR k * L + m -> - 2 ^ 20 <= v <= 2 ^ 20 -> Rabs (IZR k) <= 2 ^ 21.
Proof.
  intros HL Hm E [V1 V2]. replace (2 ^ 21) with (2 * 2 ^ 20) by (cbn; ring).
  assert (H20 : 1048576 = 2 ^ 20) by (cbn; ring). rewrite <- H20 in *.
  apply Rabs_le. split; apply Rnot_lt_le; intros C.
  - assert (IZR k * L <= - (2 * 1048576) * L) by (apply Rmult_le_compat_r; lra). lra.
  - assert (2 * 1048576 * L <= IZR k * L) by (apply Rmult_le_compat_r; lra). lra.
Qed.

Lemma err_any A W g Q : 0 <= A <= 2097153 -> 1 <= g -> 0 <= W <= 4 * g + 32 + 2097152 -> 1 <= Q ->
  (12 * A + 27 + 8 * W) * (2 * Q) + 1 <= 4294967296 * (g * g) * Q.
Proof.
  intros HA Hg HW HQ.
  assert (G2 : g <= g * g) by (rewrite <- (Rmult_1_l g) at 1; apply Rmult_le_compat_r; lra).
  assert (X : (12 * A + 27 + 8 * W) * 2 + 1 <= 4294967296 * (g * g)) by lra.
  assert (Y : ((12 * A + 27 + 8 * W) * 2 + 1) * Q <= 4294967296 * (g * g) * Q) by (apply Rmult_le_compat_r; lra).
  lra.
Qed.

Theorem exp_factor_two ln2 i r : (forall n, exists l, ln2 n = Ret l /\ ln2_ok n l) -> dfi_ok i ->
  let d := dlog i in let lo := dyadic (dlo i) d in let up := dyadic (dhi i) d in
  (Z.of_nat d <= 2 ^ 60)%Z -> - 2 ^ 20 <= lo -> up <= 2 ^ 20 ->
  dfi_exp ln2 i = Ret r -> dlog r = d /\
  exp lo / 2 - 2 / 2 ^ d < dyadic (dlo r) d /\ dyadic (dhi r) d < 2 * exp up + 2 / 2 ^ d.
Proof.
  intros H2 Ok d lo up Hd Hlo Hup Er.
  assert (H20 : 1048576 = 2 ^ 20) by (cbn; ring).
  assert (U60 : up <= 2 ^ 60).
  { apply Rle_trans with (1 := Hup). apply p2_mono. lia. }
  pose proof (exp_frame ln2 i H2 Ok Hd U60) as F. cbv zeta in F. fold d in F. fold lo up in F.
  destruct F as (e & w & l2 & i2 & Ew & Hw & M1 & M2 & M3 & Hl2 & Plo & Phi & B1 & B2 & E).
  rewrite E in Er. clear E U60.
  pose proof ln2_lower as L6. pose proof ln2_upper as L7.
  destruct (ln2_ok_bounds w l2 Hl2) as [[Ll1 Ll2] [Lh1 Lh2]].
  pose proof (p2_pos w) as P. pose proof (p2_pos d) as Pd. pose proof (small_p2 w ltac:(lia)) as Sm. set (T := 2 ^ w) in *.
  assert (P' : 0 < / T) by (apply Rinv_0_lt_compat; assumption).
  destruct (divmod_R (dlo i2) (dhi l2) w Phi) as [Q1 Q2]. destruct (divmod_R (dhi i2) (dlo l2) w Plo) as [Q3 Q4].
  rewrite B1 in Q1. rewrite B2 in Q3.
  set (ml := (dlo i2 mod dhi l2)%Z) in *. set (mu := (dhi i2 mod dlo l2)%Z) in *.
  set (kl := (dlo i2 / dhi l2)%Z) in *. set (ku := (dhi i2 / dlo l2)%Z) in *.
  set (Ll := dyadic (dlo l2) w) in *. set (Lh := dyadic (dhi l2) w) in *.
  assert (LU : lo <= up) by (apply dyadic_le; exact Ok).
  assert (Al : Rabs (IZR kl) <= 2 ^ 21) by (apply (k_size kl Lh (dyadic ml w) lo); unfold Rdiv in *; lra).
  assert (Au : Rabs (IZR ku) <= 2 ^ 21) by (apply (k_size ku Ll (dyadic mu w) up); unfold Rdiv in *; lra).
  assert (H21 : 2 ^ 21 = 2097152) by (cbn; ring).
  assert (KZ : forall k, Rabs (IZR k) <= 2 ^ 21 -> (Z.abs k <= 2 ^ 61)%Z).
  { intros k. rewrite <- abs_IZR. intros X. replace 2097152 with (IZR 2097152) in H21 by reflexivity. rewrite H21 in X. apply le_IZR in X. lia. }
  destruct (exp_loop (w - 1) 1 (DFI ml mu w) (dfi_one w) (dfi_one w)) as [rv| |] eqn:Erv; try discriminate. cbn [rbind] in Er.
  destruct (exp_shift_lower_near kl (dlo rv) w (KZ _ Al)) as (vl & E1 & S1). rewrite E1 in Er; cbn [rbind] in Er.
  destruct (exp_shift_upper_near ku (dhi rv) w (KZ _ Au)) as (vu & E2 & S2). rewrite E2 in Er; cbn [rbind] in Er.
  injection Er as <-. split; [reflexivity|].
  set (a := Z.min ml mu). set (b := Z.max ml mu).
  assert (Ml0 : (0 <= ml)%Z) by (apply Z.mod_pos_bound; assumption). assert (Mu0 : (0 <= mu)%Z) by (apply Z.mod_pos_bound; assumption).
  assert (Hab : (0 <= a <= b)%Z) by (unfold a, b; lia).
  assert (Hxy : ml = a /\ mu = b \/ ml = b /\ mu = a) by (unfold a, b; lia).
  assert (Hb' : dyadic b w <= Lh) by (unfold b; destruct (Z.max_spec ml mu) as [[_ ->]|[_ ->]]; lra).
  assert (Hb : dyadic b w <= 3 / 4) by (unfold Rdiv in *; lra).
  assert (Ha : 0 <= dyadic a w) by (rewrite <- (dyadic_0 w); apply dyadic_le; lia).
  destruct (exp_loop_value w a b ml mu Hab Hxy Hb rv ltac:(lia) Erv) as (Lrv & V1 & V2). fold T in V1, V2, S1, S2.
  set (W := INR w) in *. assert (W0 : 0 <= W) by apply pos_INR.
  set (A := 2 ^ 21 + 1).
  assert (E2' : exp (ln 2) = 2) by (apply exp_ln; lra).
  set (t := A * (3 * / T)).
  assert (Ht : 0 <= t <= 3 / 4).
  { unfold t, A. rewrite H21. split; [apply Rmult_le_pos; lra|].
    assert (X : / T <= / 2 ^ 32) by (apply Rinv_le_contravar; [apply p2_pos|apply p2_mono; lia]).
    assert (X2 : / 2 ^ 32 = / 4294967296) by (f_equal; cbn; ring). rewrite X2 in X. lra. }
  assert (AA : forall k y, Rabs (IZR k) <= 2 ^ 21 -> 0 <= y <= 3 * / T -> - (t - 3 * / T) <= IZR k * y <= t - 3 * / T).
  { intros k y Hk Hy. replace (t - 3 * / T) with (2 ^ 21 * (3 * / T)) by (unfold t, A; ring).
    assert (Z : Rabs (IZR k * y) <= 2 ^ 21 * (3 * / T)).
    { rewrite Rabs_mult, (Rabs_pos_eq y) by lra. apply Rmult_le_compat; try lra. apply Rabs_pos. }
    unfold Rabs in Z at 1. destruct (Rcase_abs (IZR k * y)); lra. }
  assert (X1 := AA kl (Lh - ln 2) Al ltac:(unfold Rdiv in *; lra)). assert (X2 := AA ku (ln 2 - Ll) Au ltac:(unfold Rdiv in *; lra)).
  set (ql := powerRZ 2 kl) in *. set (qu := powerRZ 2 ku) in *.
  assert (Ql0 : 0 < ql) by apply powerRZ_pos2. assert (Qu0 : 0 < qu) by apply powerRZ_pos2.
  (* exp lo <= 2 ql (1 + 4 t) *)
  assert (FL : exp lo / 2 <= ql * (1 + 4 * t)).
  { assert (Y : exp lo <= exp (IZR kl * ln 2 + (ln 2 + t))) by (apply exp_mono; unfold Rdiv in *; lra).
    rewrite !exp_plus, E2', exp_ln2 in Y. fold ql in Y. pose proof (exp_small_up t Ht) as I.
    assert (ql * (2 * exp t) <= ql * (2 * (1 + 4 * t))) by (apply Rmult_le_compat_l; lra). lra. }
  assert (FU : qu <= exp up + qu * t).
  { assert (Y : exp (IZR ku * ln 2 + - t) <= exp up) by (apply exp_mono; unfold Rdiv in *; lra).
    rewrite exp_plus, exp_ln2 in Y. fold qu in Y. pose proof (exp_ineq1_le (- t)) as I.
    assert (qu * (1 + - t) <= qu * exp (- t)) by (apply Rmult_le_compat_l; lra). lra. }
  assert (EA : 1 <= exp (dyadic a w)) by (rewrite <- exp_0; apply exp_mono; assumption).
  assert (EB : exp (dyadic b w) <= 2 + 24 * / T).
  { assert (Y : exp (dyadic b w) <= exp (ln 2 + 3 * / T)) by (apply exp_mono; unfold Rdiv in *; lra).
    rewrite exp_plus, E2' in Y. pose proof (exp_small_up (3 * / T) ltac:(lra)) as I. lra. }
  assert (V1' : 1 - (3 + 8 * W) * / T <= dyadic (dlo rv) w).
  { apply mul_le_inv with T; [assumption|]. unfold T at 3. rewrite dyadic_mul, Rmult_minus_distr_r, Rmult_assoc, Rinv_l by lra.
    assert (1 * T <= exp (dyadic a w) * T) by (apply Rmult_le_compat_r; lra). lra. }
  assert (V2' : dyadic (dhi rv) w <= 2 + (24 + 8 * W) * / T).
  { apply mul_le_inv with T; [assumption|]. unfold T at 1. rewrite dyadic_mul, Rmult_plus_distr_r, Rmult_assoc, Rinv_l by lra.
    assert (exp (dyadic b w) * T <= (2 + 24 * / T) * T) by (apply Rmult_le_compat_r; lra).
    rewrite Rmult_plus_distr_r, Rmult_assoc, Rinv_l in H by lra. lra. }
  assert (S1' : exp lo / 2 - (4 * t + (3 + 8 * W) * / T) * ql - / T <= dyadic vl w).
  { assert ((1 - (3 + 8 * W) * / T) * ql <= dyadic (dlo rv) w * ql) by (apply Rmult_le_compat_r; lra). lra. }
  assert (S2' : dyadic vu w <= 2 * exp up + (2 * t + (24 + 8 * W) * / T) * qu + / T).
  { assert (dyadic (dhi rv) w * qu <= (2 + (24 + 8 * W) * / T) * qu) by (apply Rmult_le_compat_r; lra). lra. }
  (* sizes *)
  assert (Ae : INR e <= 2097152).
  { destruct (Rle_lt_dec up 0) as [C|C]; [rewrite (M1 C); cbn [INR]; lra|]. specialize (M2 ltac:(lra)). lra. }
  assert (KL : (kl <= Z.of_nat e)%Z).
  { destruct (Z.le_gt_cases kl 0) as [C|C]; [lia|]. apply IZR_lt in C.
    assert (IZR kl * ln 2 <= IZR kl * Lh) by (apply Rmult_le_compat_l; lra).
    assert (X : IZR kl < INR e + 1) by (apply Rmult_lt_reg_r with (ln 2); lra).
    rewrite INR_IZR_INZ, <- plus_IZR in X. apply lt_IZR in X. lia. }
  assert (KU : (ku <= Z.of_nat e + 1)%Z).
  { assert (X : IZR ku < INR e + 1 + 1).
    { assert (T32 : 3 * / T <= / 1000000000).
      { assert (X : / T <= / 2 ^ 32) by (apply Rinv_le_contravar; [apply p2_pos|apply p2_mono; lia]).
        assert (X3 : / 2 ^ 32 = / 4294967296) by (f_equal; cbn; ring). rewrite X3 in X. lra. }
      apply Rmult_lt_reg_r with (ln 2); [lra|].
      assert (IZR ku * ln 2 <= up + (t - 3 * / T)) by (unfold Rdiv in *; lra).
      assert (t <= / 100). { unfold t, A. rewrite H21. lra. } lra. }
    rewrite INR_IZR_INZ, <- !plus_IZR in X. apply lt_IZR in X. lia. }
  set (E' := 2 ^ e). assert (E1' : 1 <= E') by apply p2_ge1.
  assert (PW : forall k n, (k <= Z.of_nat n)%Z -> powerRZ 2 k <= 2 ^ n).
  { intros k n Hk. destruct (Z.le_gt_cases 0 k) as [K|K].
    - replace k with (Z.of_nat (Z.to_nat k)) by lia. rewrite powerRZ_nat. apply p2_mono. lia.
    - pose proof (shift_k k) as Sk. replace (k <? 0)%Z with true in Sk by (symmetry; apply Z.ltb_lt; assumption). rewrite Sk.
      pose proof (p2_ge1 (Z.to_nat (Z.abs k))). pose proof (p2_ge1 n).
      apply Rle_trans with 1; [rewrite <- Rinv_1; apply Rinv_le_contravar; lra|assumption]. }
  assert (QL : ql <= 2 * E') by (pose proof (PW kl e KL) as X; fold ql in X; fold E' in X; lra).
  assert (QU : qu <= 2 * E'). { assert (X := PW ku (S e) ltac:(lia)). fold qu in X. cbn [pow] in X. fold E' in X. exact X. }
  set (lg := Nat.log2 (d + 1)) in *.
  set (g := 2 ^ lg). assert (G1 : 1 <= g) by apply p2_ge1.
  set (N := 2 ^ d) in *.
  assert (ET : T = N * (4294967296 * (g * g) * E')).
  { unfold T, g, N, E'. rewrite Ew, !pow_add. replace (2 * lg)%nat with (lg + lg)%nat by lia. rewrite pow_add.
    assert (X : 2 ^ 32 = 4294967296) by (cbn; ring). rewrite X. ring. }
  assert (DW : W <= 4 * g + 32 + 2097152).
  { unfold W. rewrite Ew, !plus_INR, mult_INR. 
    assert (D1 : INR (d + 1) < 2 * g).
    { pose proof (Nat.log2_spec (d + 1) ltac:(lia)) as [_ Z]. apply lt_INR in Z. rewrite pow_INR in Z. cbn [pow] in Z. exact Z. }
    assert (D2 : INR lg <= g).
    { unfold g. clear. induction lg as [|l IH]; [cbn; lra|]. rewrite S_INR. cbn [pow]. pose proof (p2_ge1 l). lra. }
    rewrite plus_INR in D1. change (INR 1) with 1 in D1. replace (INR 32) with 32 by (cbn; ring). change (INR 2) with 2. 
    clear - D1 D2 Ae. lra. }
  assert (HA : 0 <= A <= 2097153) by (unfold A; lra).
  assert (Err : (4 * t + (27 + 8 * W) * / T) * (2 * E') + / T <= / N).
  { apply mul_le_inv with (T * N); [apply Rmult_lt_0_compat; lra|].
    replace (((4 * t + (27 + 8 * W) * / T) * (2 * E') + / T) * (T * N)) with (((12 * A + 27 + 8 * W) * (2 * E') + 1) * N) by (unfold t; field; lra).
    replace (/ N * (T * N)) with T by (field; lra). rewrite ET at 1. rewrite (Rmult_comm N). apply Rmult_le_compat_r; [lra|].
    apply err_any; try assumption. split; assumption. }
  pose proof (dfi_convert_ok (DFI vl vu w) d) as C. apply tightest_near in C. cbn [dlo dhi dlog] in C. destruct C as [[C1 _] [_ C2]].
  fold N in C1, C2. set (r' := dfi_convert (DFI vl vu w) d) in *.
  rewrite <- (dyadic_mul (dlo r') d) in C1. rewrite <- (dyadic_mul (dhi r') d) in C2. fold N in C1, C2.
  assert (P2 : 0 < / N) by (apply Rinv_0_lt_compat; assumption).
  assert (D1 : dyadic vl w - / N < dyadic (dlo r') d).
  { apply Rmult_lt_reg_r with N; [assumption|]. rewrite Rmult_minus_distr_r, Rinv_l; lra. }
  assert (D2 : dyadic (dhi r') d < dyadic vu w + / N).
  { apply Rmult_lt_reg_r with N; [assumption|]. rewrite Rmult_plus_distr_r, Rinv_l; lra. }
  assert (WT : 0 <= W * / T) by (apply Rmult_le_pos; lra).
  assert (M1' : (4 * t + (3 + 8 * W) * / T) * ql <= (4 * t + (27 + 8 * W) * / T) * (2 * E')) by (apply Rmult_le_compat; lra).
  assert (M2' : (2 * t + (24 + 8 * W) * / T) * qu <= (4 * t + (27 + 8 * W) * / T) * (2 * E')) by (apply Rmult_le_compat; lra).
  unfold Rdiv in *. lra.
Qed.

(** ** An interval around 0 keeps losing a constant, at every precision *)
Lemma exp_quarter : exp (1 / 4) <= 64 / 49.
Proof.
  assert (A : exp (1 / 8) <= 8 / 7).
  { pose proof (exp_ineq1_le (- (1 / 8))) as I. rewrite exp_Ropp in I. pose proof (exp_pos (1 / 8)) as Q.
    apply Rmult_le_reg_l with (/ exp (1 / 8)); [apply Rinv_0_lt_compat; assumption|]. rewrite Rinv_l by lra. lra. }
  replace (1 / 4) with (1 / 8 + 1 / 8) by lra. rewrite exp_plus. pose proof (exp_pos (1 / 8)).
  apply Rle_trans with (8 / 7 * (8 / 7)); [apply Rmult_le_compat; lra|lra].
Qed.

Lemma eS_ge n x : (1 <= n)%nat -> 0 <= x -> 1 + x <= eS n x.
Proof.
  intros Hn Hx. induction n as [|n IH]; [lia|]. destruct n as [|n].
  - cbn [eS eterm]. change (INR 1) with 1. lra.
  - specialize (IH ltac:(lia)). change (eS (S (S n)) x) with (eS (S n) x + eterm (S (S n)) x).
    pose proof (eterm_nonneg (S (S n)) x Hx). lra.
Qed.

Theorem exp_straddle ln2 n : (forall n, exists l, ln2 n = Ret l /\ ln2_ok n l) -> (Z.of_nat n + 2 <= 2 ^ 60)%Z ->
  exists r, dfi_exp ln2 (DFI (- 2 ^ Z.of_nat n) (2 ^ Z.of_nat n) (n + 2)) = Ret r /\ dlog r = (n + 2)%nat /\
    dyadic (dlo r) (n + 2) <= exp (- (1 / 4)) - 1 / 25 /\ exp (1 / 4) + 1 / 25 <= dyadic (dhi r) (n + 2).
Proof.
  intros H2 Hn. set (i := DFI _ _ _). 
  assert (Z0 : (0 < 2 ^ Z.of_nat n)%Z) by (apply Z.pow_pos_nonneg; lia).
  assert (Ok : dfi_ok i) by (unfold dfi_ok, i; cbn [dlo dhi]; lia).
  assert (Q : dyadic (2 ^ Z.of_nat n) (n + 2) = 1 / 4).
  { pose proof (p2_pos n). pose proof (p2_pos (n + 2)). apply Rmult_eq_reg_r with (2 ^ (n + 2)); [|lra].
    rewrite dyadic_mul, IZR_p2, pow_add. replace (2 ^ 2) with 4 by ring. field. }
  assert (Qn : dyadic (- 2 ^ Z.of_nat n) (n + 2) = - (1 / 4)) by (rewrite dyadic_opp, Q; reflexivity).
  assert (U60 : dyadic (dhi i) (dlog i) <= 2 ^ 60).
  { cbn [dlog dhi i]. rewrite Q. pose proof (p2_ge1 60). lra. }
  pose proof (exp_frame ln2 i H2 Ok ltac:(cbn [dlog i]; lia) U60) as F. cbv zeta in F. cbn [dlog dlo dhi i] in F. rewrite Q, Qn in F.
  destruct F as (e & w & l2 & i2 & Ew & Hw & _ & _ & _ & Hl2 & Plo & Phi & B1 & B2 & E).
  fold i in E. rewrite E. clear E U60.
  pose proof ln2_lower as L6. pose proof ln2_upper as L7.
  destruct (ln2_ok_bounds w l2 Hl2) as [[Ll1 Ll2] [Lh1 Lh2]]. pose proof (small_p2 w ltac:(lia)) as Sm.
  assert (P' : 0 < / 2 ^ w) by (apply Rinv_0_lt_compat, p2_pos).
  assert (DL : (dlo i2 / dhi l2 = -1)%Z) by (apply div_of_R with w; [assumption|]; rewrite B1; unfold Rdiv in *; split; lra).
  assert (DU : (dhi i2 / dlo l2 = 0)%Z) by (apply div_of_R with w; [assumption|]; rewrite B2; unfold Rdiv in *; split; lra).
  destruct (divmod_R (dlo i2) (dhi l2) w Phi) as [Q1 Q2]. destruct (divmod_R (dhi i2) (dlo l2) w Plo) as [Q3 Q4].
  rewrite DL, B1 in Q1. rewrite DU, B2 in Q3. rewrite DL, DU.
  set (ml := (dlo i2 mod dhi l2)%Z) in *. set (mu := (dhi i2 mod dlo l2)%Z) in *.
  set (Ll := dyadic (dlo l2) w) in *. set (Lh := dyadic (dhi l2) w) in *.
  assert (Hmu : dyadic mu w = 1 / 4) by lra.
  assert (Hml : dyadic ml w = Lh - 1 / 4) by lra.
  assert (LT : (mu < ml)%Z).
  { apply lt_IZR. rewrite <- (dyadic_mul ml w), <- (dyadic_mul mu w). apply Rmult_lt_compat_r; [apply p2_pos|]. lra. }
  assert (Mu0 : (0 <= mu)%Z) by (apply Z.mod_pos_bound; assumption).
  destruct (exp_loop_total1 w mu ml ml mu ltac:(lia) ltac:(lia) (w - 1) LT) as [rv Erv].
  rewrite Erv. cbn [rbind].
  destruct (exp_shift_lower_near (-1) (dlo rv) w ltac:(lia)) as (vl & E1 & S1). rewrite E1; cbn [rbind].
  destruct (exp_shift_upper_near 0 (dhi rv) w ltac:(lia)) as (vu & E2 & S2). rewrite E2; cbn [rbind].
  eexists. split; [reflexivity|]. split; [reflexivity|].
  change (powerRZ 2 0) with 1 in S2. replace (powerRZ 2 (-1)) with (/ 2) in S1 by (simpl; rewrite Rmult_1_r; reflexivity).
  assert (Loop : exists m, dlog rv = w /\ inI (eS m (dyadic ml w)) rv /\ inI (eS m (dyadic mu w)) rv /\ (1 <= m)%nat).
  { assert (In : forall y, inI y (DFI ml mu w) \/ inI y (DFI mu ml w) ->
      forall t z, inI z t -> inI (z * y) (dfi_mul t (DFI ml mu w))).
    { intros y [Hy|Hy] t z Hz; [|rewrite dfi_mul_swap]; apply dfi_mul_in; assumption. }
    assert (A : (inI (dyadic ml w) (DFI ml mu w) \/ inI (dyadic ml w) (DFI mu ml w)) /\ (inI (dyadic mu w) (DFI ml mu w) \/ inI (dyadic mu w) (DFI mu ml w))).
    { unfold inI; cbn [dlo dhi dlog]. lra. }
    assert (One : forall n, inI 1 (dfi_one n)) by (intros m; apply (dfi_constants_ok m (dfi_one m)); reflexivity).
    destruct (exp_loop_ok w (DFI ml mu w) _ _ eq_refl (In _ (proj1 A)) (In _ (proj2 A)) (w - 1) 0 (dfi_one w) (dfi_one w) rv
      eq_refl eq_refl (One w) (One w) (One w) (One w) Erv) as (m & N1 & N2 & N3 & N4).
    exists m. repeat split; try assumption; try apply N2; try apply N3. lia. }
  destruct Loop as (m & Lrv & I1 & I2 & Hm). destruct I1 as [_ I1]. destruct I2 as [I2 _]. rewrite Lrv in I1, I2.
  pose proof (eS_ge m (dyadic ml w) Hm ltac:(lra)) as G1. pose proof (eS_le_exp m (dyadic mu w) ltac:(lra)) as G2. rewrite Hmu in G2. rewrite Hmu in I2.
  pose proof exp_quarter as EQ.
  pose proof (dfi_convert_ok (DFI vl vu w) (n + 2)) as (_ & Cl & Cu & _ & _). cbn [dlo dhi dlog] in Cl, Cu.
  assert (EN : 49 / 64 <= exp (- (1 / 4))).
  { rewrite exp_Ropp. pose proof (exp_pos (1 / 4)). replace (49 / 64) with (/ (64 / 49)) by field. apply Rinv_le_contravar; lra. }
  split.
  - apply Rle_trans with (1 := Cl). lra.
  - apply Rle_trans with (2 := Cu). lra.
Qed.

Theorem exp_binade ln2 i k : (forall n, exists l, ln2 n = Ret l /\ ln2_ok n l) -> dfi_ok i ->
  let d := dlog i in let lo := dyadic (dlo i) d in let up := dyadic (dhi i) d in
  (Z.of_nat d <= 2 ^ 60)%Z -> (Z.abs k <= 2 ^ 30)%Z ->
  IZR k * ln 2 + 3 * Rabs (IZR k) / 2 ^ (d + 32) <= lo ->
  up < (IZR k + 1) * ln 2 - 3 * Rabs (IZR k + 1) / 2 ^ (d + 32) ->
  let bad := dlo i = dhi i /\ 0 <= lo /\ lo * lo * 2 ^ (d + 32 + 2 * Nat.log2 (d + 1)) = 2 in
  (bad -> dfi_exp ln2 i = Panic) /\
  (~ bad -> exists r, dfi_exp ln2 i = Ret r /\ dlog r = d /\
     exp lo - (2 + Rabs (IZR k) / 2 ^ 26) / 2 ^ d < dyadic (dlo r) d /\
     dyadic (dhi r) d < exp up + (2 + Rabs (IZR k) / 2 ^ 26) / 2 ^ d).
Proof.
  intros H2 Ok d lo up Hd Hk Hlo Hup bad.
  destruct (exp_binade_total ln2 i k H2 Ok Hd Hk Hlo Hup) as [[P B]|[NB [r R]]].
  - split; [intros _; exact P|]. intros NB. contradiction (NB B).
  - split; [intros B; contradiction (NB B)|]. intros _. exists r. split; [exact R|].
    apply (binade_precise ln2 i k H2 Ok Hd ltac:(lia) Hlo Hup r R).
Qed.

Lemma exp_straddle_refuted : exists c, 0 < c /\ forall ln2 n, (forall n, exists l, ln2 n = Ret l /\ ln2_ok n l) ->
  (2 <= n)%nat -> (Z.of_nat n <= 2 ^ 60)%Z ->
  exists i r, dlog i = n /\ dfi_ok i /\ -1 <= dyadic (dlo i) n /\ dyadic (dhi i) n <= 1 /\ dfi_exp ln2 i = Ret r /\
    dyadic (dlo r) (dlog r) <= exp (dyadic (dlo i) n) - c /\ exp (dyadic (dhi i) n) + c <= dyadic (dhi r) (dlog r).
Proof.
  exists (1 / 25). split; [lra|]. intros ln2 n H2 N2 Hn. replace n with (n - 2 + 2)%nat by lia. set (m := (n - 2)%nat) in *.
  destruct (exp_straddle ln2 m H2 ltac:(lia)) as (r & R & L & A & B).
  exists (DFI (- 2 ^ Z.of_nat m) (2 ^ Z.of_nat m) (m + 2)), r. cbn [dlo dhi dlog].
  assert (Z0 : (0 < 2 ^ Z.of_nat m)%Z) by (apply Z.pow_pos_nonneg; lia).
  assert (Q : dyadic (2 ^ Z.of_nat m) (m + 2) = 1 / 4).
  { pose proof (p2_pos m). pose proof (p2_pos (m + 2)). apply Rmult_eq_reg_r with (2 ^ (m + 2)); [|lra].
    rewrite dyadic_mul, IZR_p2, pow_add. replace (2 ^ 2) with 4 by ring. field. }
  rewrite dyadic_opp, Q, L. unfold dfi_ok; cbn [dlo dhi].
  repeat split; try assumption; try lra. lia.
Qed.

(** ** Narrow intervals that are not a point: the exponential returns *)
Theorem exp_returns ln2 i : (forall n, exists l, ln2 n = Ret l /\ ln2_ok n l) -> (dlo i < dhi i)%Z ->
  let d := dlog i in let lo := dyadic (dlo i) d in let up := dyadic (dhi i) d in
  (Z.of_nat d <= 2 ^ 60)%Z -> - 2 ^ 20 <= lo -> up <= 2 ^ 20 -> up - lo <= 1 / 2 ->
  exists r, dfi_exp ln2 i = Ret r.
Proof.
  intros H2 Lt d lo up Hd Hlo Hup Hw.
  assert (Ok : dfi_ok i) by (unfold dfi_ok; lia).
  assert (H20 : 1048576 = 2 ^ 20) by (cbn; ring).
  assert (U60 : up <= 2 ^ 60).
  { apply Rle_trans with (1 := Hup). apply p2_mono. lia. }
  pose proof (exp_frame ln2 i H2 Ok Hd U60) as F. cbv zeta in F. fold d in F. fold lo up in F.
  destruct F as (e & w & l2 & i2 & Ew & _ & _ & _ & _ & Hl2 & Plo & Phi & B1 & B2 & E).
  rewrite E. clear E U60.
  pose proof ln2_lower as L6. pose proof ln2_upper as L7.
  pose proof Hl2 as (_ & _ & Wd).
  destruct (ln2_ok_bounds w l2 Hl2) as [[Ll1 Ll2] [Lh1 Lh2]].
  pose proof (p2_pos w) as P. pose proof (p2_pos d) as Pd. pose proof (small_p2 w ltac:(lia)) as Sm.
  assert (LT : dyadic (dlo l2) w < dyadic (dhi l2) w) by (apply dyadic_strict; lia).
  assert (TW : 2 ^ d * 4294967296 <= 2 ^ w).
  { replace 4294967296 with (2 ^ 32) by (cbn; ring). rewrite <- pow_add. apply p2_mono. lia. }
  assert (D1 : 1 <= 2 ^ d) by apply p2_ge1.
  set (T := 2 ^ w) in *.
  assert (P' : 0 < / T) by (apply Rinv_0_lt_compat; assumption).
  destruct (divmod_R (dlo i2) (dhi l2) w Phi) as [Q1 Q2]. destruct (divmod_R (dhi i2) (dlo l2) w Plo) as [Q3 Q4].
  rewrite B1 in Q1. rewrite B2 in Q3.
  set (ml := (dlo i2 mod dhi l2)%Z) in *. set (mu := (dhi i2 mod dlo l2)%Z) in *.
  set (kl := (dlo i2 / dhi l2)%Z) in *. set (ku := (dhi i2 / dlo l2)%Z) in *.
  set (Ll := dyadic (dlo l2) w) in *. set (Lh := dyadic (dhi l2) w) in *.
  assert (LU : / 2 ^ d <= up - lo).
  { apply mul_le_inv with (2 ^ d); [assumption|]. rewrite Rinv_l, Rmult_minus_distr_r by lra.
    unfold lo, up. rewrite !dyadic_mul. rewrite <- minus_IZR. apply (IZR_le 1). lia. }
  assert (D0 : 0 < / 2 ^ d) by (apply Rinv_0_lt_compat; assumption).
  assert (Al : Rabs (IZR kl) <= 2 ^ 21) by (apply (k_size kl Lh (dyadic ml w) lo); unfold Rdiv in *; lra).
  assert (Au : Rabs (IZR ku) <= 2 ^ 21) by (apply (k_size ku Ll (dyadic mu w) up); unfold Rdiv in *; lra).
  assert (H21 : 2 ^ 21 = 2097152) by (cbn; ring).
  assert (KZ : forall k, Rabs (IZR k) <= 2 ^ 21 -> (Z.abs k <= 2 ^ 61)%Z).
  { intros k. rewrite <- abs_IZR. intros X. replace 2097152 with (IZR 2097152) in H21 by reflexivity. rewrite H21 in X. apply le_IZR in X. lia. }
  assert (Ti : / T * 4294967296 <= / 2 ^ d).
  { apply mul_le_inv with (T * 2 ^ d); [apply Rmult_lt_0_compat; lra|].
    replace (/ T * 4294967296 * (T * 2 ^ d)) with (2 ^ d * 4294967296) by (field; lra).
    replace (/ 2 ^ d * (T * 2 ^ d)) with T by (field; lra). exact TW. }
  assert (Di : / 2 ^ d <= 1) by (rewrite <- Rinv_1; apply Rinv_le_contravar; lra).
  assert (AA : forall k y, Rabs (IZR k) <= 2 ^ 21 -> 0 <= y <= 3 * / T -> - (6291456 * / T) <= IZR k * y <= 6291456 * / T).
  { intros k y Hk Hy. assert (Z : Rabs (IZR k * y) <= 2 ^ 21 * (3 * / T)).
    { rewrite Rabs_mult, (Rabs_pos_eq y) by lra. apply Rmult_le_compat; try lra. apply Rabs_pos. }
    rewrite H21 in Z. unfold Rabs in Z at 1. destruct (Rcase_abs (IZR k * y)); lra. }
  assert (X1 := AA kl (Lh - ln 2) Al ltac:(unfold Rdiv in *; lra)). assert (X2 := AA ku (ln 2 - Ll) Au ltac:(unfold Rdiv in *; lra)).
  assert (NE : ml <> mu).
  { intros M. assert (D : up - lo = IZR ku * Ll - IZR kl * Lh) by (rewrite Q1, Q3, M; ring).
    assert (K : ku = kl).
    { assert (Dk : (IZR ku - IZR kl) * ln 2 = up - lo + IZR ku * (ln 2 - Ll) + IZR kl * (Lh - ln 2)) by (rewrite D; ring).
      assert (K1 : (ku - kl < 1)%Z).
      { apply lt_IZR. rewrite minus_IZR. apply Rmult_lt_reg_r with (ln 2); [lra|]. lra. }
      assert (K2 : (-1 < ku - kl)%Z).
      { apply lt_IZR. rewrite minus_IZR. apply Rmult_lt_reg_r with (ln 2); [lra|]. lra. }
      lia. }
    rewrite K in D. assert (D' : up - lo = IZR kl * (Ll - Lh)) by (rewrite D; ring).
    assert (X3 := AA kl (Lh - Ll) Al). 
    assert (W3 : Lh - Ll <= 3 * / T).
    { apply mul_le_inv with T; [assumption|]. unfold Lh, Ll, T. rewrite Rmult_minus_distr_r, !dyadic_mul, <- minus_IZR.
      fold T. rewrite Rmult_assoc, Rinv_l by lra. rewrite Rmult_1_r. apply IZR_le. lia. }
    specialize (X3 ltac:(lra)). lra. }
  assert (Ml0 : (0 <= ml)%Z) by (apply Z.mod_pos_bound; assumption). assert (Mu0 : (0 <= mu)%Z) by (apply Z.mod_pos_bound; assumption).
  set (a := Z.min ml mu). set (b := Z.max ml mu).
  destruct (exp_loop_total1 w a b ml mu ltac:(unfold a, b; lia) ltac:(unfold a, b; lia) (w - 1) ltac:(unfold a, b; lia)) as [rv R].
  rewrite R. cbn [rbind].
  destruct (exp_shift_lower_near kl (dlo rv) w (KZ _ Al)) as (vl & E1 & _). rewrite E1; cbn [rbind].
  destruct (exp_shift_upper_near ku (dhi rv) w (KZ _ Au)) as (vu & E2 & _). rewrite E2; cbn [rbind].
  eexists; reflexivity.
Qed.
