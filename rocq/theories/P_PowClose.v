(** How close the interval obtained through logarithm and exponential is to a
    power of a number that is refined. *)
From Coq Require Import ZArith QArith Qround Qreals Reals Lra Lia Bool List.
From Verif Require Import M_Base M_Traits M_Interval M_IntervalExp S_Interval P_Interval P_IntervalTight P_LogSeries P_IntervalLog P_IntervalExp P_LogTight P_ExpTight P_ExpTotal S_Pow.
Local Open Scope R_scope.

(** The middle part of [pow_interval]. *)
Definition pow_chain (ln2 : nat -> res dfi) (e : Q) (i : dfi) : res dfi :=
  (l <- dfi_log ln2 i ;; dfi_exp ln2 (dfi_mul_ratio l e))%res.

Lemma ln_le_sub a b : 0 < a <= b -> ln b - ln a <= (b - a) / a.
Proof.
  intros [A B]. assert (Ai : 0 < / a) by (apply Rinv_0_lt_compat; assumption).
  replace (ln b - ln a) with (ln (b * / a)) by (rewrite ln_mult, ln_Rinv by lra; ring).
  pose proof (exp_ineq1_le (ln (b * / a))) as H. rewrite exp_ln in H by (apply Rmult_lt_0_compat; lra).
  unfold Rdiv. rewrite Rmult_minus_distr_r, Rinv_r by lra. lra.
Qed.
Lemma quot_le a b c : 0 < a <= b -> b <= c -> (c - b) / b <= (c - a) / a.
Proof.
  intros [A B] C. assert (Ai : 0 < / a) by (apply Rinv_0_lt_compat; assumption).
  assert (Bi : / b <= / a) by (apply Rinv_le_contravar; lra). unfold Rdiv.
  rewrite !Rmult_minus_distr_r, !Rinv_r by lra. assert (c * / b <= c * / a) by (apply Rmult_le_compat_l; lra). lra.
Qed.

Section Close.
Variables (ln2 : nat -> res dfi) (e : Q) (x : R) (s k : Z) (i : dfi).
Hypothesis H2 : forall n, exists l, ln2 n = Ret l /\ ln2_ok n l.
Hypothesis He : 0 < Q2R e.
Let d := dlog i.
Let l := dyadic (dlo i) d.
Let u := dyadic (dhi i) d.
Hypothesis Lt : (dlo i < dhi i)%Z.
Hypothesis Ix : inI x i.
Hypothesis Hl : 3 / 2 * powerRZ 2 s <= l.
Hypothesis Hu : u < 3 * powerRZ 2 s.
Let A := Q2R e * ln x.
Let eta := log_slack e s d l u.
Let N := 2 ^ d.

Lemma N_pos : 0 < N. Proof. apply p2_pos. Qed.
Lemma l_pos : 0 < l. Proof. pose proof (powerRZ_pos2 s). lra. Qed.

(** The logarithm, multiplied *)
Lemma log_close : exists r, dfi_log ln2 i = Ret r /\ let j := dfi_mul_ratio r e in dlog j = d /\ (dlo j < dhi j)%Z /\ inI A j /\
    A - eta < dyadic (dlo j) d /\ dyadic (dhi j) d < A + eta.
Proof.
  pose proof l_pos as L0. pose proof N_pos as N0. pose proof Ix as [I1 I2]. fold d in I1, I2. fold l in I1. fold u in I2.
  set (c := Q2R e) in *. set (C := 2 + 3 * Rabs (IZR s) / 2 ^ 16).
  assert (Ok : dfi_ok i) by (unfold dfi_ok; lia).
  destruct (dfi_log_binade ln2 i s H2 Ok) as (r & Er & Lr & R1 & R2); [exact Hl|exact Hu|].
  fold d in Lr, R1, R2. rewrite Lr in R1, R2. fold l u in R1, R2. fold C in R1, R2. fold N in R1, R2.
  destruct (proj2 (dfi_log_ok ln2 i H2)) as (r' & Er' & _ & In).
  { apply lt_IZR. rewrite <- (dyadic_mul (dlo i) d). fold l. apply Rmult_lt_0_compat; [assumption|apply p2_pos]. } { exact Ok. }
  assert (r' = r) by congruence. subst r'.
  exists r. split; [exact Er|]. cbv zeta. set (j := dfi_mul_ratio r e).
  assert (InJ : forall y, inI y i -> inI (c * ln y) j).
  { intros y Hy. rewrite Rmult_comm. apply dfi_mul_ratio_in, In, Hy. }
  assert (OkR : dfi_ok r).
  { unfold dfi_ok. apply (dyadic_le _ _ (dlog r)). pose proof (In x Ix) as [Q1 Q2]. lra. }
  pose proof (dfi_mul_ratio_tight r e OkR) as T. cbv zeta in T. fold j in T. rewrite Lr in T. fold c in T.
  pose proof T as (Lj & _). apply tightest_near in T.
  set (rl := dyadic (dlo r) d) in *. set (ru := dyadic (dhi r) d) in *.
  assert (RR : rl <= ru) by (apply dyadic_le; exact OkR).
  assert (RR' : rl * c <= ru * c) by (apply Rmult_le_compat_r; lra).
  rewrite Rmin_left, Rmax_right in T by assumption. destruct T as [[T1 _] [_ T2]].
  split; [exact Lj|].
  assert (LU : l < u) by (apply dyadic_strict; exact Lt).
  split.
  { apply lt_IZR. rewrite <- (dyadic_mul (dlo j) d), <- (dyadic_mul (dhi j) d). apply Rmult_lt_compat_r; [apply p2_pos|].
    destruct (InJ l ltac:(split; fold d l u; lra)) as [J1 _]. destruct (InJ u ltac:(split; fold d l u; lra)) as [_ J2]. rewrite Lj in J1, J2.
    assert (ln l < ln u) by (apply ln_increasing; assumption).
    assert (c * ln l < c * ln u) by (apply Rmult_lt_compat_l; assumption). lra. }
  split; [apply InJ; exact Ix|].
  set (rho := (u - l) / l).
  assert (B1 : ln x - rho <= ln l).
  { pose proof (ln_le_sub l x ltac:(lra)). assert ((x - l) / l <= rho); [|lra].
    unfold rho, Rdiv. apply Rmult_le_compat_r; [left; apply Rinv_0_lt_compat; assumption|lra]. }
  assert (B2 : ln u <= ln x + rho).
  { pose proof (ln_le_sub x u ltac:(lra)). pose proof (quot_le l x u ltac:(lra) ltac:(lra)). unfold rho. lra. }
  rewrite <- (dyadic_mul (dlo j) d) in T1. rewrite <- (dyadic_mul (dhi j) d) in T2. fold N in T1, T2.
  assert (P2 : 0 < / N) by (apply Rinv_0_lt_compat; assumption).
  assert (U1 : rl * c - / N < dyadic (dlo j) d).
  { apply Rmult_lt_reg_r with N; [assumption|]. rewrite Rmult_minus_distr_r, Rinv_l; lra. }
  assert (U2 : dyadic (dhi j) d < ru * c + / N).
  { apply Rmult_lt_reg_r with N; [assumption|]. rewrite Rmult_plus_distr_r, Rinv_l; lra. }
  assert (V1 : c * (ln x - rho - C / N) <= c * rl) by (apply Rmult_le_compat_l; lra).
  assert (V2 : c * ru <= c * (ln x + rho + C / N)) by (apply Rmult_le_compat_l; lra).
  unfold eta, log_slack. fold c C N rho. unfold A. fold c. split; lra.
Qed.

Hypothesis Hd : (Z.of_nat d <= 2 ^ 60)%Z.
Hypothesis Bk : (Z.abs k <= 2 ^ 30)%Z.
Hypothesis Hk1 : IZR k * ln 2 + eta + / N <= A.
Hypothesis Hk2 : A + eta + / N <= (IZR k + 1) * ln 2.
Hypothesis Heta : eta <= 3 / 4.

Theorem pow_close : exists r, pow_chain ln2 e i = Ret r /\ dlog r = d /\
    Rabs (dyadic (dlo r) d - exp A) <= pow_slack e s d l u (exp A) /\ Rabs (dyadic (dhi r) d - exp A) <= pow_slack e s d l u (exp A).
Proof.
  pose proof (exp_pos A) as V0. set (v := exp A) in *. unfold pow_slack. fold eta.
  destruct log_close as (r1 & El & J). cbv zeta in J. destruct J as (Lj & Ltj & Ij & J1 & J2).
  set (j := dfi_mul_ratio r1 e) in *.
  unfold pow_chain. rewrite El. cbn [rbind]. fold j.
  pose proof N_pos as N0. assert (P2 : 0 < / N) by (apply Rinv_0_lt_compat; assumption).
  assert (E0 : 0 <= eta). { destruct Ij as [j1 j2]. rewrite Lj in j1, j2. lra. }
  assert (Okj : dfi_ok j) by (unfold dfi_ok; lia).
  assert (H32 : 2 ^ 32 = 4294967296) by (cbn; ring).
  assert (KR : Rabs (IZR k) <= 1073741824).
  { rewrite <- abs_IZR. apply IZR_le. exact Bk. }
  assert (KR1 : Rabs (IZR k + 1) <= 1073741825).
  { apply Rle_trans with (1 := Rabs_triang _ _). rewrite (Rabs_pos_eq 1) by lra. lra. }
  assert (MG : forall y, y <= 1073741825 -> 0 <= y -> 3 * y / 2 ^ (d + 32) <= / N).
  { intros y Hy Hy0. rewrite pow_add. fold N. rewrite H32. unfold Rdiv. rewrite Rinv_mult. 
    assert (X : y * / N <= 1073741825 * / N) by (apply Rmult_le_compat_r; lra). lra. }
  pose proof (MG (Rabs (IZR k)) ltac:(lra) (Rabs_pos (IZR k))) as G1. pose proof (MG _ KR1 (Rabs_pos (IZR k + 1))) as G2.
  pose proof (exp_binade ln2 j k H2 Okj) as B. cbv zeta in B. rewrite Lj in B.
  specialize (B Hd Bk ltac:(lra) ltac:(lra)). destruct B as [_ B].
  destruct B as (r & Er & Lr & R1 & R2). { intros (Eq & _). lia. }
  fold N in R1, R2.
  exists r. split; [exact Er|]. split; [exact Lr|].
  destruct (dfi_exp_ok ln2 j r H2 Okj Er) as (_ & In & _). specialize (In A Ij). rewrite Lr, Lj in In. fold v in In.
  assert (S26 : / 2 ^ (d + 26) <= / N).
  { apply Rinv_le_contravar; [apply p2_pos|]. unfold N. apply p2_mono. lia. }
  assert (Er18 : (2 + Rabs (IZR k) / 2 ^ 26) / N <= 18 * / N).
  { assert (H26 : 2 ^ 26 = 67108864) by (cbn; ring). rewrite H26. unfold Rdiv. apply Rmult_le_compat_r; lra. }
  assert (Ve : 0 <= v * eta) by (apply Rmult_le_pos; lra).
  (* exponentials of the bounds *)
  assert (F1 : v - v * eta <= exp (dyadic (dlo j) d)).
  { assert (X : exp (A + - eta) <= exp (dyadic (dlo j) d)) by (apply exp_mono; lra). rewrite exp_plus in X. fold v in X.
    pose proof (exp_ineq1_le (- eta)). assert (v * (1 + - eta) <= v * exp (- eta)) by (apply Rmult_le_compat_l; lra). lra. }
  assert (F2 : exp (dyadic (dhi j) d) <= v + 4 * (v * eta)).
  { assert (X : exp (dyadic (dhi j) d) <= exp (A + eta)) by (apply exp_mono; lra). rewrite exp_plus in X. fold v in X.
    pose proof (exp_small_up eta ltac:(lra)). assert (v * exp eta <= v * (1 + 4 * eta)) by (apply Rmult_le_compat_l; lra). lra. }
  assert (T18 : 18 / 2 ^ d = 18 * / N) by reflexivity. rewrite T18.
  split; apply Rabs_le; lra.
Qed.
End Close.
