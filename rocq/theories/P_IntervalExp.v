From Coq Require Import ZArith QArith Qround Qreals Reals Lra Lia Bool List.
From Coquelicot Require Import Coquelicot.
From Verif Require Import M_Base M_Traits M_Interval M_IntervalExp S_Interval P_Interval P_LogSeries P_IntervalLog.
Local Open Scope R_scope.

(** * Taylor polynomials of exp *)
Fixpoint eterm (n : nat) (x : R) : R := match n with O => 1 | S n' => eterm n' x * x / INR (S n') end.
Fixpoint eS (n : nat) (x : R) : R := match n with O => 1 | S n' => eS n' x + eterm (S n') x end.

Lemma INR_S_neq n : INR (S n) <> 0. Proof. apply not_0_INR; discriminate. Qed.
Lemma INR_S_pos n : 0 < INR (S n). Proof. apply lt_0_INR; lia. Qed.

Lemma eterm_nonneg n x : 0 <= x -> 0 <= eterm n x.
Proof.
  intros H. induction n as [|n IH]; cbn [eterm]; [lra|]. pose proof (INR_S_pos n).
  apply Rmult_le_pos; [apply Rmult_le_pos; assumption|left; apply Rinv_0_lt_compat; assumption].
Qed.
Lemma eterm_pow n x : eterm n x = x ^ n / INR (fact n).
Proof.
  induction n as [|n IH]; cbn [eterm]; [cbn; field|]. rewrite IH, fact_simpl, mult_INR. cbn [pow].
  pose proof (INR_S_neq n). pose proof (INR_fact_neq_0 n). field. split; assumption.
Qed.
Lemma eterm_derive n x : is_derive (eterm (S n)) x (eterm n x).
Proof.
  apply (is_derive_ext (fun x => x ^ S n / INR (fact (S n)))); [intros t; symmetry; apply eterm_pow|].
  rewrite eterm_pow. pose proof (INR_fact_neq_0 (S n)) as F.
  set (c := INR (fact (S n))) in *. assert (E : c = INR (S n) * INR (fact n)) by (unfold c; rewrite fact_simpl, mult_INR; reflexivity).
  auto_derive; [trivial|].
  change (match n with 0%nat => 1 | S _ => INR n + 1 end) with (INR (S n)). cbn [Init.Nat.pred].
  rewrite E. pose proof (INR_S_neq n). pose proof (INR_fact_neq_0 n). field. split; assumption.
Qed.
Lemma eS_derive n x : is_derive (eS (S n)) x (eS n x).
Proof.
  induction n as [|n IH].
  - cbn [eS]. replace 1 with (0 + 1) at 1 by ring.
    apply (is_derive_plus (fun _ => 1) (eterm 1) x 0 1).
    + apply is_derive_Reals, derivable_pt_lim_const.
    + apply (eterm_derive 0).
  - apply (is_derive_plus (eS (S n)) (eterm (S (S n))) x (eS n x) (eterm (S n) x)); [exact IH|apply eterm_derive].
Qed.
Lemma eterm_0 n : eterm (S n) 0 = 0.
Proof. cbn [eterm]. unfold Rdiv. ring. Qed.
Lemma eS_0 n : eS n 0 = 1.
Proof. induction n as [|n IH]; cbn [eS]; [reflexivity|]. rewrite IH, eterm_0. ring. Qed.

Lemma exp_derive x : is_derive exp x (exp x).
Proof. apply is_derive_Reals, derivable_pt_lim_exp. Qed.

Lemma eS_le_exp n : forall x, 0 <= x -> eS n x <= exp x.
Proof.
  induction n as [|n IH]; intros x Hx.
  - cbn [eS]. rewrite <- exp_0. destruct Hx as [Hx|<-]; [left; apply exp_increasing; assumption|lra].
  - pose proof (nonneg_deriv (fun t => exp t - eS (S n) t) (fun t => exp t - eS n t) x Hx) as H.
    cbn beta in H. rewrite exp_0, eS_0 in H.
    assert (0 <= exp x - eS (S n) x); [|lra]. replace 0 with (1 - 1) by ring. apply H.
    + intros t Ht. apply (is_derive_minus exp (eS (S n))); [apply exp_derive|apply eS_derive].
    + intros t Ht. specialize (IH t). lra.
Qed.

Lemma exp_le_eS n : forall x, 0 <= x <= 1 -> exp x <= eS n x + 3 * eterm (S n) x.
Proof.
  induction n as [|n IH]; intros x Hx.
  - pose proof (nonneg_deriv (fun t => eS 0 t + 3 * eterm 1 t - exp t) (fun t => 0 + 3 * 1 - exp t) x ltac:(lra)) as H.
    cbn beta in H. rewrite exp_0, eS_0, eterm_0 in H.
    assert (0 <= eS 0 x + 3 * eterm 1 x - exp x); [|lra]. replace 0 with (1 + 3 * 0 - 1) by ring. apply H.
    + intros t Ht. apply (is_derive_minus (fun t => eS 0 t + 3 * eterm 1 t) exp); [|apply exp_derive].
      apply (is_derive_plus (eS 0) (fun t => 3 * eterm 1 t)).
      * apply is_derive_Reals, derivable_pt_lim_const.
      * apply (is_derive_scal (eterm 1)). apply (eterm_derive 0).
    + intros t Ht. pose proof exp_le_3. assert (exp t <= exp 1).
      { destruct (Rle_lt_or_eq_dec t 1); [lra|left; apply exp_increasing; assumption|subst; lra]. }
      lra.
  - pose proof (nonneg_deriv (fun t => eS (S n) t + 3 * eterm (S (S n)) t - exp t)
                  (fun t => eS n t + 3 * eterm (S n) t - exp t) x ltac:(lra)) as H.
    cbn beta in H. rewrite exp_0, eS_0, eterm_0 in H.
    assert (0 <= eS (S n) x + 3 * eterm (S (S n)) x - exp x); [|lra]. replace 0 with (1 + 3 * 0 - 1) by ring. apply H.
    + intros t Ht. apply (is_derive_minus (fun t => eS (S n) t + 3 * eterm (S (S n)) t) exp); [|apply exp_derive].
      apply (is_derive_plus (eS (S n)) (fun t => 3 * eterm (S (S n)) t)); [apply eS_derive|].
      apply (is_derive_scal (eterm (S (S n)))). apply eterm_derive.
    + intros t Ht. specialize (IH t). lra.
Qed.

(** Terms become negligible. *)
Lemma eterm_small n x : 0 <= x <= 3 / 4 -> eterm (n + 4) x <= (/ 2) ^ (n + 4).
Proof.
  intros Hx. rewrite eterm_pow.
  assert (P : x ^ (n + 4) <= 1).
  { rewrite <- (pow1 (n + 4)). apply pow_incr. lra. }
  assert (P0 : 0 <= x ^ (n + 4)) by (apply pow_le; lra).
  assert (F : 2 ^ (n + 4) <= INR (fact (n + 4))).
  { clear. induction n as [|n IH]; [cbn; lra|]. cbn [Nat.add]. rewrite fact_simpl, mult_INR. cbn [pow].
    assert (2 <= INR (S (n + 4))) by (replace 2 with (INR 2) by (cbn; ring); apply le_INR; lia).
    pose proof (p2_pos (n + 4)). nra. }
  rewrite inv_p2. pose proof (p2_pos (n + 4)).
  assert (/ INR (fact (n + 4)) <= / 2 ^ (n + 4)) by (apply Rinv_le_contravar; lra).
  assert (0 < / INR (fact (n + 4))) by (apply Rinv_0_lt_compat; lra). unfold Rdiv. nra.
Qed.

(** * The loop *)
Lemma mul_op_swap (ll lu rl ru : Z) :
  (let '(lower, rest) := take_min (ll * rl)%Z (ll * ru :: lu * rl :: lu * ru :: nil)%Z in
   let upper := match rest with nil => lower | b :: bs => take_max b bs end in (lower, upper)) =
  (Z.min (Z.min (ll * rl) (ll * ru)) (Z.min (lu * rl) (lu * ru)),
   Z.max (Z.max (ll * rl) (ll * ru)) (Z.max (lu * rl) (lu * ru)))%Z.
Proof.
  pose proof (mul_select (ll * rl) (ll * ru) (lu * rl) (lu * ru)) as S.
  destruct (take_min (ll * rl) _) as [lower rest]. destruct S as [-> ->]. reflexivity.
Qed.

Lemma dfi_mul_op_swap (ll lu rl ru : Z) n :
  (let '(lower, rest) := take_min (ll * rl)%Z (ll * ru :: lu * rl :: lu * ru :: nil)%Z in
   let upper := match rest with nil => lower | b :: bs => take_max b bs end in (shr lower n, shr_up upper n)) =
  (let '(lower, rest) := take_min (ll * ru)%Z (ll * rl :: lu * ru :: lu * rl :: nil)%Z in
   let upper := match rest with nil => lower | b :: bs => take_max b bs end in (shr lower n, shr_up upper n)).
Proof.
  pose proof (mul_op_swap ll lu rl ru) as S1. pose proof (mul_op_swap ll lu ru rl) as S2.
  destruct (take_min (ll * rl) _) as [l1 r1]. destruct (take_min (ll * ru) _) as [l2 r2]. cbv zeta in *.
  assert (l1 = l2 /\ match r1 with nil => l1 | b :: bs => take_max b bs end = match r2 with nil => l2 | b :: bs => take_max b bs end)%Z.
  { assert (E1 := f_equal fst S1). assert (E2 := f_equal snd S1). assert (E3 := f_equal fst S2). assert (E4 := f_equal snd S2).
    cbn [fst snd] in *. lia. }
  destruct H as [-> ->]. reflexivity.
Qed.

Lemma dfi_mul_swap a l u n : dfi_mul a (DFI l u n) = dfi_mul a (DFI u l n).
Proof.
  unfold dfi_mul, do_op; cbn [dlo dhi dlog].
  repeat match goal with |- context [if ?c then _ else _] => destruct c end; cbn [dlo dhi dlog]; rewrite dfi_mul_op_swap; reflexivity.
Qed.

Lemma dfi_mul_log' a b n : dlog a = n -> dlog b = n -> dlog (dfi_mul a b) = n.
Proof.
  intros Ha Hb. unfold dfi_mul. match goal with |- context [do_op ?op a b] => 
    destruct (do_op_cases op a b) as (a' & b' & m & Hm & _ & _ & _ & _ & _ & _ & ->) end.
  destruct (take_min _ _) as [lower rest]. cbn [dlog]. rewrite Hm, Ha, Hb. apply Nat.max_id.
Qed.

Section Loop.
Variables (w : nat) (self : dfi) (m M : R).
Hypothesis Hlog : dlog self = w.
Hypothesis Hmul : forall t y, inI y t -> inI (y * m) (dfi_mul t self).
Hypothesis HMul : forall t y, inI y t -> inI (y * M) (dfi_mul t self).

Lemma exp_loop_ok left : forall i term retval r,
  dlog term = w -> dlog retval = w ->
  inI (eterm i m) term -> inI (eterm i M) term -> inI (eS i m) retval -> inI (eS i M) retval ->
  exp_loop left (S i) self term retval = Ret r ->
  exists n, dlog r = w /\ inI (eS n m) r /\ inI (eS n M) r /\
    (n = (i + left)%nat \/ (i < n)%nat /\ eterm n M <= / 2 ^ w).
Proof.
  induction left as [|left IH]; intros i term retval r Lt Lr Tm TM Sm SM E.
  - cbn [exp_loop] in E. injection E as <-. exists i. rewrite Nat.add_0_r. auto.
  - cbn [exp_loop] in E.
    destruct (dfi_div_int_in (dfi_mul term self) (Z.of_nat (S i))) as [_ D].
    destruct (D ltac:(lia)) as (t' & Et & Lt' & It). rewrite Et in E; cbn [rbind] in E. clear D Et.
    assert (Lt2 : dlog t' = w) by (rewrite Lt'; apply dfi_mul_log'; assumption).
    assert (Tm' : inI (eterm (S i) m) t').
    { cbn [eterm]. rewrite INR_IZR_INZ. apply It, Hmul, Tm. }
    assert (TM' : inI (eterm (S i) M) t').
    { cbn [eterm]. rewrite INR_IZR_INZ. apply It, HMul, TM. }
    assert (Sm' : inI (eS (S i) m) (dfi_add retval t')) by (apply dfi_add_in; assumption).
    assert (SM' : inI (eS (S i) M) (dfi_add retval t')) by (apply dfi_add_in; assumption).
    assert (Lr' : dlog (dfi_add retval t') = w) by (rewrite dfi_add_log_num by congruence; exact Lt2).
    destruct ((dhi t' =? 1)%Z || (dhi t' =? 0)%Z) eqn:B.
    + destruct (dlo t' =? 0)%Z; [|discriminate]. cbn [assert_then] in E. injection E as <-.
      exists (S i). repeat match goal with |- _ /\ _ => split end; try assumption.
      right. split; [lia|].
      apply inI_num in TM'. rewrite Lt2 in TM'. pose proof (p2_pos w) as P.
      assert (IZR (dhi t') <= 1).
      { apply (IZR_le _ 1). apply orb_true_iff in B. rewrite !Z.eqb_eq in B. lia. }
      apply mul_le_inv with (2 ^ w); [assumption|]. rewrite Rinv_l; lra.
    + destruct (IH (S i) t' (dfi_add retval t') r Lt2 Lr' Tm' TM' Sm' SM' E) as (n & Ln & N1 & N2 & N3).
      exists n. repeat match goal with |- _ /\ _ => split end; try assumption.
      destruct N3 as [N3|[N3 N4]]; [left; lia|right; split; [lia|assumption]].
Qed.
End Loop.

(** * Putting it together *)
Lemma exp_mono a b : a <= b -> exp a <= exp b.
Proof. intros [H|H]; [left; apply exp_increasing; assumption|subst; lra]. Qed.

Lemma exp_ln2 k : exp (IZR k * ln 2) = powerRZ 2 k.
Proof. rewrite powerRZ_Rpower by lra. reflexivity. Qed.

(** Effect of replacing ln 2 by a bound that is off by at most [d]. *)
Lemma exp_neg_shift k L d r : 0 <= k -> 1 / 2 <= L -> 0 <= r <= 1 -> 0 <= d -> 
  exp (r - k * L) - exp (r - k * (L + d)) <= 6 * d.
Proof.
  intros Hk HL Hr Hd.
  replace (r - k * (L + d)) with ((r - k * L) + - (k * d)) by ring. rewrite exp_plus.
  pose proof (exp_ineq1_le (- (k * d))) as I1.
  assert (E0 : 0 < exp (r - k * L)) by apply exp_pos.
  assert (A : exp (r - k * L) - exp (r - k * L) * exp (- (k * d)) <= exp (r - k * L) * (k * d)) by nra.
  apply Rle_trans with (exp (r - k * L) * (k * d)); [assumption|].
  assert (B : exp (r - k * L) * k <= 6).
  { apply Rle_trans with (exp (1 + - (k / 2)) * k).
    - apply Rmult_le_compat_r; [assumption|]. apply exp_mono. nra.
    - rewrite exp_plus, exp_Ropp. pose proof exp_le_3. pose proof (exp_pos (k / 2)) as P.
      pose proof (exp_ineq1_le (k / 2)) as I2.
      assert (/ exp (k / 2) * k <= 2).
      { apply mul_le_inv with (exp (k / 2)); [assumption|].
        replace (/ exp (k / 2) * k * exp (k / 2)) with k by (field; lra). lra. }
      pose proof (exp_pos 1). rewrite Rmult_assoc. 
      assert (0 <= / exp (k / 2) * k) by (apply Rmult_le_pos; [left; apply Rinv_0_lt_compat|]; assumption).
      nra. }
  rewrite <- Rmult_assoc. apply Rmult_le_compat_r; assumption.
Qed.

Lemma ln2_lower : 1 / 2 + 1 / 10 < ln 2.
Proof.
  pose proof (lnS_bounds 3 (1 / 2) ltac:(lra)) as [B _]. 
  replace (1 - 1 / 2) with (/ 2) in B by lra. rewrite ln_Rinv, Ropp_involutive in B by lra.
  cbn [lnS] in B. replace (INR 1) with 1 in B by reflexivity. replace (INR 2) with 2 in B by (cbn; ring).
  replace (INR 3) with 3 in B by (cbn; ring). cbn [pow] in B. lra.
Qed.
Lemma ln2_upper : ln 2 < 7 / 10.
Proof.
  pose proof (lnS_bounds 7 (1 / 2) ltac:(lra)) as [_ B].
  replace (1 - 1 / 2) with (/ 2) in B by lra. rewrite ln_Rinv, Ropp_involutive in B by lra.
  cbn [lnS] in B. rewrite !INR_IZR_INZ in B. cbn [Z.of_nat Pos.of_succ_nat Pos.succ pow] in B. lra.
Qed.

Lemma ln2_ok_bounds n i : ln2_ok n i ->
  ln 2 - 3 / 2 ^ n <= dyadic (dlo i) n <= ln 2 /\ ln 2 <= dyadic (dhi i) n <= ln 2 + 3 / 2 ^ n.
Proof.
  intros (L & I & W). unfold inI in I. rewrite L in I.
  assert (D : dyadic (dhi i) n - dyadic (dlo i) n <= 3 / 2 ^ n).
  { rewrite <- dyadic_sub. unfold dyadic. apply Rmult_le_compat_r; [left; apply Rinv_0_lt_compat, p2_pos|].
    apply IZR_le; apply W. }
  lra.
Qed.

Lemma small_p2 n : (32 <= n)%nat -> / 2 ^ n <= / 1000.
Proof.
  intros H. apply Rinv_le_contravar; [lra|]. apply Rle_trans with (2 ^ 10); [cbn; lra|].
  apply p2_mono. lia.
Qed.

Lemma S_p2 e : INR e + 2 <= 4 * 2 ^ e.
Proof. induction e as [|e IH]; [cbn; lra|]. rewrite S_INR. cbn [pow]. pose proof (p2_ge1 e). lra. Qed.

(** A bound's decomposition k * L + r. *)
Lemma divmod_R v L n : (0 < L)%Z -> dyadic v n = IZR (v / L) * dyadic L n + dyadic (v mod L) n /\
  0 <= dyadic (v mod L) n < dyadic L n.
Proof.
  intros H. pose proof (p2_pos n) as P. split.
  - rewrite (Z.div_mod v L) at 1 by lia. unfold dyadic. rewrite plus_IZR, mult_IZR. field. lra.
  - pose proof (Z.mod_pos_bound v L H) as [B1 B2]. apply IZR_le in B1. apply IZR_lt in B2. unfold dyadic.
    split; [apply Rmult_le_pos; [assumption|left; apply Rinv_0_lt_compat; assumption]|].
    apply Rmult_lt_compat_r; [apply Rinv_0_lt_compat; assumption|assumption].
Qed.

Lemma dyadic_shl_mul v n s : dyadic (shl v s) n = dyadic v n * 2 ^ s.
Proof. unfold dyadic. rewrite shl_R. field. apply Rgt_not_eq, p2_pos. Qed.
Lemma dyadic_shr_le v n s : dyadic (shr v s) n <= dyadic v n / 2 ^ s.
Proof.
  pose proof (p2_pos n). pose proof (p2_pos s). pose proof (shr_R v s) as [S _]. unfold dyadic.
  apply mul_le_inv with (2 ^ n * 2 ^ s); [nra|].
  replace (IZR (shr v s) / 2 ^ n * (2 ^ n * 2 ^ s)) with (IZR (shr v s) * 2 ^ s) by (field; lra).
  replace (IZR v / 2 ^ n / 2 ^ s * (2 ^ n * 2 ^ s)) with (IZR v) by (field; lra). assumption.
Qed.
Lemma dyadic_shr_up_ge v n s : dyadic v n / 2 ^ s <= dyadic (shr_up v s) n.
Proof.
  pose proof (p2_pos n). pose proof (p2_pos s). pose proof (shr_up_R v s) as [_ S]. unfold dyadic.
  apply mul_le_inv with (2 ^ n * 2 ^ s); [nra|].
  replace (IZR (shr_up v s) / 2 ^ n * (2 ^ n * 2 ^ s)) with (IZR (shr_up v s) * 2 ^ s) by (field; lra).
  replace (IZR v / 2 ^ n / 2 ^ s * (2 ^ n * 2 ^ s)) with (IZR v) by (field; lra). assumption.
Qed.

Lemma powerRZ_neg_nat s : powerRZ 2 (- Z.of_nat s) = / 2 ^ s.
Proof. rewrite powerRZ_neg', powerRZ_nat. reflexivity. Qed.

Lemma to_usize_abs k s : to_usize (Z.abs k) = Some s -> (0 <= k -> k = Z.of_nat s)%Z /\ (k < 0 -> k = - Z.of_nat s)%Z.
Proof.
  unfold to_usize. destruct ((0 <=? Z.abs k)%Z && (Z.abs k <=? usize_max)%Z); [|discriminate].
  intros E. injection E as <-. split; intros; lia.
Qed.

(** Lower bound of the result, before the final conversion. *)
Lemma exp_shift_lower_ok k v lo w R : exp_shift_lower k v = Ret lo -> 0 < R -> dyadic v w <= R ->
  dyadic lo w <= R * powerRZ 2 k.
Proof.
  unfold exp_shift_lower. intros E R0 HR. destruct (to_usize (Z.abs k)) as [s|] eqn:U.
  - destruct (to_usize_abs k s U) as [K1 K2]. injection E as <-. destruct (Z.ltb_spec k 0) as [N|N].
    + rewrite (K2 N), powerRZ_neg_nat. pose proof (dyadic_shr_le v w s).
      pose proof (p2_pos s). assert (0 < / 2 ^ s) by (apply Rinv_0_lt_compat; assumption). 
      apply Rle_trans with (dyadic v w / 2 ^ s); [assumption|]. apply Rmult_le_compat_r; lra.
    + rewrite (K1 N), powerRZ_nat, dyadic_shl_mul. pose proof (p2_pos s). apply Rmult_le_compat_r; lra.
  - destruct (k <? 0)%Z; [|discriminate]. cbn [assert_then] in E. injection E as <-.
    replace (dyadic 0 w) with 0 by (unfold dyadic, Rdiv; ring). left. apply Rmult_lt_0_compat; [assumption|apply powerRZ_pos2].
Qed.

Lemma exp_shift_upper_ok k v hi w R : exp_shift_upper k v = Ret hi -> (Z.of_nat w <= usize_max)%Z -> R <= 4 -> R <= dyadic v w ->
  R * powerRZ 2 k <= dyadic hi w + 2 / 2 ^ w.
Proof.
  unfold exp_shift_upper. intros E Hw R4 HR. pose proof (p2_pos w) as P.
  assert (P' : 0 < / 2 ^ w) by (apply Rinv_0_lt_compat; assumption).
  destruct (to_usize (Z.abs k)) as [s|] eqn:U.
  - destruct (to_usize_abs k s U) as [K1 K2]. injection E as <-. destruct (Z.ltb_spec k 0) as [N|N].
    + rewrite (K2 N), powerRZ_neg_nat. pose proof (dyadic_shr_up_ge v w s).
      pose proof (p2_pos s). assert (0 < / 2 ^ s) by (apply Rinv_0_lt_compat; assumption). 
      assert (R * / 2 ^ s <= dyadic v w / 2 ^ s) by (apply Rmult_le_compat_r; lra). lra.
    + rewrite (K1 N), powerRZ_nat, dyadic_shl_mul. pose proof (p2_pos s).
      assert (R * 2 ^ s <= dyadic v w * 2 ^ s) by (apply Rmult_le_compat_r; lra). lra.
  - destruct (Z.ltb_spec k 0) as [N|N]; [|discriminate]. cbn [assert_then] in E. injection E as <-.
    unfold to_usize in U. destruct (Z.leb_spec 0 (Z.abs k)); [|lia].
    destruct (Z.leb_spec (Z.abs k) usize_max) as [|G]; [discriminate|].
    (* k <= - (w + 1) *)
    assert (K : powerRZ 2 k <= / 2 * / 2 ^ w).
    { replace k with (- Z.of_nat (S w + Z.to_nat (- k - Z.of_nat (S w))))%Z by lia.
      rewrite powerRZ_neg_nat, pow_add, Rinv_mult. pose proof (p2_ge1 (Z.to_nat (- k - Z.of_nat (S w)))) as G1.
      cbn [pow]. rewrite Rinv_mult. assert (/ 2 ^ Z.to_nat (- k - Z.of_nat (S w)) <= 1) by (rewrite <- Rinv_1; apply Rinv_le_contravar; lra).
      assert (0 < / 2 * / 2 ^ w) by lra. nra. }
    pose proof (powerRZ_pos2 k). unfold dyadic. unfold Rdiv. nra.
Qed.

Lemma dfi_exp_ok ln2 i r : (forall n, exists l, ln2 n = Ret l /\ ln2_ok n l) -> dfi_ok i ->
  dfi_exp ln2 i = Ret r -> dlog r = dlog i /\
  (forall x, inI x i ->
    dyadic (dlo r) (dlog r) - / 2 ^ (dlog i + 26) <= exp x <= dyadic (dhi r) (dlog r) + / 2 ^ (dlog i + 26)) /\
  ((0 <= dlo i)%Z -> forall x, inI x i -> dyadic (dlo r) (dlog r) <= exp x).
Proof.
  intros H2 Ok E. unfold dfi_exp in E. set (d := dlog i) in *.
  set (i1 := dfi_convert i (d + 10)) in *. change (dlog i1) with (d + 10)%nat in E.
  destruct (H2 (d + 10)%nat) as (short & Es & Hshort). rewrite Es in E; cbn [rbind] in E.
  destruct (exp_extra_bits (dlo short) (dlo i1)) as [e1| |] eqn:Ee1; try discriminate. cbn [rbind] in E.
  destruct (exp_extra_bits (dlo short) (dhi i1)) as [e2| |] eqn:Ee2; try discriminate. cbn [rbind] in E.
  set (w0 := (d + 32 + usize_floor_log2 (d + 1) * 2)%nat) in *.
  set (w := (w0 + Nat.max e1 e2)%nat) in *.
  destruct (Z.leb_spec (Z.of_nat w) usize_max) as [Hw|Hw]; [|discriminate]. cbn [assert_then] in E.
  set (i2 := dfi_convert i1 w) in *.
  destruct (H2 w) as (l2 & El2 & Hl2). rewrite El2 in E; cbn [rbind] in E.
  assert (Dw : (d + 32 + e2 <= w)%nat) by (unfold w, w0; lia).
  pose proof (p2_pos w) as P.
  pose proof (small_p2 w ltac:(lia)) as Sm. assert (Sm0 : 0 < / 2 ^ w) by (apply Rinv_0_lt_compat; assumption).
  destruct (ln2_ok_bounds w l2 Hl2) as [[Ll1 Ll2] [Lh1 Lh2]].
  pose proof ln2_lower as LL. pose proof ln2_upper as LU.
  set (Ll := dyadic (dlo l2) w) in *. set (Lh := dyadic (dhi l2) w) in *.
  assert (Plo : (0 < dlo l2)%Z).
  { apply lt_IZR. rewrite <- (dyadic_mul (dlo l2) w). fold Ll. apply Rmult_lt_0_compat; [|assumption]. unfold Rdiv in *. lra. }
  assert (Phi : (0 < dhi l2)%Z).
  { apply lt_IZR. rewrite <- (dyadic_mul (dhi l2) w). fold Lh. apply Rmult_lt_0_compat; [|assumption]. lra. }
  unfold checked_div_floor, checked_mod_floor in E.
  replace (dlo l2 =? 0)%Z with false in E by (symmetry; apply Z.eqb_neq; lia).
  replace (dhi l2 =? 0)%Z with false in E by (symmetry; apply Z.eqb_neq; lia). cbn [rbind] in E.
  set (kl := (dlo i2 / dhi l2)%Z) in *. set (rl := (dlo i2 mod dhi l2)%Z) in *.
  set (ku := (dhi i2 / dlo l2)%Z) in *. set (ru := (dhi i2 mod dlo l2)%Z) in *.
  destruct (exp_loop (w - 1) 1 (DFI rl ru w) (dfi_one w) (dfi_one w)) as [rv| |] eqn:Erv; try discriminate. cbn [rbind] in E.
  destruct (exp_shift_lower kl (dlo rv)) as [lo| |] eqn:Elo; try discriminate. cbn [rbind] in E.
  destruct (exp_shift_upper ku (dhi rv)) as [hi| |] eqn:Ehi; try discriminate. cbn [rbind] in E.
  assert (Er : r = dfi_convert (DFI lo hi w) d) by congruence. clear E.
  (* the two bounds, exactly *)
  assert (D12 : dyadic (dlo i2) w = dyadic (dlo i) d /\ dyadic (dhi i2) w = dyadic (dhi i) d).
  { destruct (dfi_convert_up_exact i (d + 10) ltac:(fold d; lia)) as [A1 A2].
    destruct (dfi_convert_up_exact i1 w ltac:(change (dlog i1) with (d + 10)%nat; lia)) as [B1 B2].
    change (dlog i1) with (d + 10)%nat in B1, B2. fold i1 in A1, A2. fold i2 in B1, B2. split; etransitivity; eassumption. }
  destruct D12 as [Dlo Dhi].
  destruct (divmod_R (dlo i2) (dhi l2) w Phi) as [Qlo Rlo]. fold kl rl Lh in Qlo, Rlo.
  destruct (divmod_R (dhi i2) (dlo l2) w Plo) as [Qhi Rhi]. fold ku ru Ll in Qhi, Rhi.
  rewrite Dlo in Qlo. rewrite Dhi in Qhi.
  set (ml := dyadic rl w) in *. set (mu := dyadic ru w) in *.
  assert (Ml : 0 <= ml <= 3 / 4) by (unfold Rdiv in *; lra).
  assert (Mu : 0 <= mu <= 3 / 4) by (unfold Rdiv in *; lra).
  (* the Taylor loop *)
  assert (Loop : exists n, dlog rv = w /\ inI (eS n ml) rv /\ inI (eS n mu) rv /\
    (n = (w - 1)%nat \/ (0 < n)%nat /\ eterm n mu <= / 2 ^ w)).
  { assert (In : forall y, inI y (DFI rl ru w) \/ inI y (DFI ru rl w) ->
      forall t z, inI z t -> inI (z * y) (dfi_mul t (DFI rl ru w))).
    { intros y [Hy|Hy] t z Hz; [|rewrite dfi_mul_swap]; apply dfi_mul_in; assumption. }
    assert (A : (inI ml (DFI rl ru w) \/ inI ml (DFI ru rl w)) /\ (inI mu (DFI rl ru w) \/ inI mu (DFI ru rl w))).
    { unfold inI; cbn [dlo dhi dlog]. fold ml mu. destruct (Rle_dec ml mu); lra. }
    assert (One : forall n, inI 1 (dfi_one n)) by (intros n; apply (dfi_constants_ok n (dfi_one n)); reflexivity).
    destruct (exp_loop_ok w (DFI rl ru w) ml mu eq_refl (In _ (proj1 A)) (In _ (proj2 A)) (w - 1) 0 (dfi_one w) (dfi_one w) rv
      eq_refl eq_refl (One w) (One w) (One w) (One w) Erv) as (n & N1 & N2 & N3 & N4).
    exists n. auto. }
  destruct Loop as (n & Lrv & Iml & Imu & Hn).
  assert (RL : dyadic (dlo rv) w <= exp ml).
  { apply Rle_trans with (eS n ml); [|apply eS_le_exp; lra]. destruct Iml as [I _]. rewrite Lrv in I. exact I. }
  assert (RU : exp mu - 3 / 2 ^ w <= dyadic (dhi rv) w).
  { apply Rle_trans with (eS n mu); [|destruct Imu as [_ I]; rewrite Lrv in I; exact I].
    pose proof (exp_le_eS n mu ltac:(lra)) as T.
    assert (T2 : eterm (S n) mu <= / 2 ^ w); [|unfold Rdiv; lra].
    destruct Hn as [Hn|[Hn T1]].
    - replace (S n) with ((w - 4) + 4)%nat by lia. rewrite <- inv_p2.
      replace w with ((w - 4) + 4)%nat at 2 by lia. apply eterm_small. lra.
    - cbn [eterm]. assert (1 <= INR (S n)) by (rewrite S_INR; pose proof (pos_INR n); lra).
      assert (/ INR (S n) <= 1) by (rewrite <- Rinv_1; apply Rinv_le_contravar; lra).
      assert (0 < / INR (S n)) by (apply Rinv_0_lt_compat; lra).
      pose proof (eterm_nonneg n mu ltac:(lra)).
      apply Rle_trans with (eterm n mu * 1); [|lra]. unfold Rdiv. rewrite Rmult_assoc. apply Rmult_le_compat_l; [assumption|].
      nra. }
  assert (Emu : exp mu <= 3). { pose proof exp_le_3. pose proof (exp_mono mu 1 ltac:(lra)). lra. }
  pose proof (exp_shift_lower_ok kl (dlo rv) lo w (exp ml) Elo (exp_pos _) RL) as BL.
  pose proof (exp_shift_upper_ok ku (dhi rv) hi w (exp mu - 3 / 2 ^ w) Ehi Hw ltac:(unfold Rdiv; lra) RU) as BU.
  (* final conversion *)
  pose proof (dfi_convert_ok (DFI lo hi w) d) as T. rewrite <- Er in T. cbn [dlo dhi dlog] in T.
  destruct T as (Lr & Cl & Cu & _ & _). split; [exact Lr|]. rewrite Lr.
  (* lower bound for every k *)
  assert (LK : exp ml * powerRZ 2 kl = exp (ml + IZR kl * ln 2)) by (rewrite exp_plus, exp_ln2; reflexivity).
  assert (UK : exp mu * powerRZ 2 ku = exp (mu + IZR ku * ln 2)) by (rewrite exp_plus, exp_ln2; reflexivity).
  assert (LowNN : (0 <= kl)%Z -> dyadic lo w <= exp (dyadic (dlo i) d)).
  { intros K. rewrite LK in BL. apply Rle_trans with (1 := BL). apply exp_mono. rewrite Qlo.
    apply IZR_le in K. nra. }
  assert (Low : dyadic lo w <= exp (dyadic (dlo i) d) + 18 / 2 ^ w).
  { destruct (Z.le_gt_cases 0 kl) as [K|K]; [specialize (LowNN K); unfold Rdiv; lra|].
    rewrite LK in BL. apply IZR_lt in K.
    pose proof (exp_neg_shift (- IZR kl) (ln 2) (Lh - ln 2) ml ltac:(lra) ltac:(lra) ltac:(lra) ltac:(lra)) as N.
    replace (ml - - IZR kl * ln 2) with (ml + IZR kl * ln 2) in N by ring.
    replace (ml - - IZR kl * (ln 2 + (Lh - ln 2))) with (dyadic (dlo i) d) in N by (rewrite Qlo; ring).
    unfold Rdiv in *; lra. }
  (* upper bound *)
  assert (Ku : (ku <= Z.of_nat e2 + 1)%Z).
  { destruct (Z.le_gt_cases ku (Z.of_nat e2 + 1)) as [|G]; [assumption|exfalso].
    assert (K0 : (0 < ku)%Z) by lia.
    assert (Hp : 0 < dyadic (dhi i) d). { rewrite Qhi. apply IZR_lt in K0. unfold Rdiv in *. nra. }
    assert (D1 : dyadic (dhi i1) (d + 10) = dyadic (dhi i) d).
    { destruct (dfi_convert_up_exact i (d + 10) ltac:(fold d; lia)) as [A1 A2]. exact A2. }
    destruct (ln2_ok_bounds _ _ Hshort) as [[S1 S2] _].
    unfold exp_extra_bits in Ee2.
    assert (Hi1 : (0 < dhi i1)%Z).
    { apply lt_IZR. rewrite <- (dyadic_mul (dhi i1) (d + 10)), D1. apply Rmult_lt_0_compat; [assumption|apply p2_pos]. }
    replace (0 <? dhi i1)%Z with true in Ee2 by (symmetry; apply Z.ltb_lt; assumption).
    unfold checked_div_floor in Ee2. destruct (Z.eqb_spec (dlo short) 0) as [|Sz]; [discriminate|]. cbn [rbind] in Ee2.
    assert (Ss : (0 < dlo short)%Z).
    { assert (0 <= dlo short)%Z; [|lia]. apply Z.lt_succ_r. apply lt_IZR. rewrite succ_IZR.
      rewrite <- (dyadic_mul (dlo short) (d + 10)). pose proof (p2_ge1 (d + 10)) as G1. pose proof (p2_pos (d + 10)).
      assert (- 3 <= (dyadic (dlo short) (d + 10) - ln 2) * 2 ^ (d + 10)).
      { assert (Q : (- (3 / 2 ^ (d + 10))) * 2 ^ (d + 10) = -3) by (field; lra). rewrite <- Q.
        apply Rmult_le_compat_r; lra. }
      assert (H4 : 2 ^ 10 <= 2 ^ (d + 10)) by (apply p2_mono; lia). replace (2 ^ 10) with 1024 in H4 by (cbn; ring). nra. }
    destruct (to_usize (dhi i1 / dlo short)) as [e|] eqn:Ue; [|discriminate]. cbn [unwrap] in Ee2. injection Ee2 as <-.
    assert (Ev : Z.of_nat e = (dhi i1 / dlo short)%Z).
    { unfold to_usize in Ue. destruct ((0 <=? dhi i1 / dlo short)%Z && _)%bool; [|discriminate]. injection Ue as <-.
      apply Z2Nat.id. apply Z.div_pos; lia. }
    destruct (divmod_R (dhi i1) (dlo short) (d + 10) Ss) as [Q1 Q2]. rewrite D1, <- Ev, <- INR_IZR_INZ in Q1.
    assert (U1 : dyadic (dhi i) d < (INR e + 1) * ln 2). { pose proof (pos_INR e). rewrite Q1. nra. }
    assert (G' : INR e + 2 <= IZR ku).
    { rewrite INR_IZR_INZ, <- plus_IZR. apply IZR_le. lia. }
    assert (U2 : (INR e + 2) * Ll <= dyadic (dhi i) d). { rewrite Qhi. unfold Rdiv in *. nra. }
    assert (U3 : (INR e + 2) * (3 * / 2 ^ w) <= 1 / 2).
    { pose proof (S_p2 e) as Se. assert (H9 : 2 ^ (e + 32) <= 2 ^ w) by (apply p2_mono; lia).
      rewrite pow_add in H9. assert (1000 <= 2 ^ 32) by (apply Rle_trans with (2 ^ 10); [cbn; lra|apply p2_mono; lia]).
      pose proof (p2_pos e). assert (24 * 2 ^ e <= 2 ^ w) by nra.
      apply mul_le_inv with (2 ^ w); [assumption|]. rewrite Rmult_assoc, Rmult_assoc, Rinv_l by lra. lra. }
    unfold Rdiv in *. pose proof (pos_INR e). nra. }
  assert (Up : exp (dyadic (dhi i) d) <= dyadic hi w + 23 / 2 ^ w + 3 / 2 ^ w * powerRZ 2 ku).
  { assert (BU' : exp mu * powerRZ 2 ku <= dyadic hi w + 2 / 2 ^ w + 3 / 2 ^ w * powerRZ 2 ku) by lra.
    pose proof (powerRZ_pos2 ku) as Pk. 
    destruct (Z.le_gt_cases 0 ku) as [K|K].
    - apply Rle_trans with (exp mu * powerRZ 2 ku).
      + rewrite UK. apply exp_mono. rewrite Qhi. apply IZR_le in K. nra.
      + unfold Rdiv in *; lra.
    - apply IZR_lt in K. rewrite UK in BU'.
      pose proof (exp_neg_shift (- IZR ku) Ll (ln 2 - Ll) mu ltac:(lra) ltac:(unfold Rdiv in *; lra) ltac:(lra) ltac:(lra)) as N.
      replace (mu - - IZR ku * (Ll + (ln 2 - Ll))) with (mu + IZR ku * ln 2) in N by ring.
      replace (mu - - IZR ku * Ll) with (dyadic (dhi i) d) in N by (rewrite Qhi; ring).
      unfold Rdiv in *; lra. }
  assert (Eps1 : powerRZ 2 ku * / 2 ^ w <= 2 * / 2 ^ (d + 32)).
  { assert (Kp : powerRZ 2 ku <= 2 * 2 ^ e2).
    { destruct (Z.le_gt_cases 0 ku) as [K|K].
      - replace ku with (Z.of_nat (Z.to_nat ku)) by lia. rewrite powerRZ_nat.
        change (2 * 2 ^ e2) with (2 ^ S e2). apply p2_mono. lia.
      - replace ku with (- Z.of_nat (Z.to_nat (- ku)))%Z by lia. rewrite powerRZ_neg_nat.
        pose proof (p2_ge1 (Z.to_nat (- ku))). pose proof (p2_ge1 e2).
        assert (/ 2 ^ Z.to_nat (- ku) <= 1) by (rewrite <- Rinv_1; apply Rinv_le_contravar; lra). lra. }
    assert (W2 : 2 ^ e2 * 2 ^ (d + 32) <= 2 ^ w) by (rewrite <- pow_add; apply p2_mono; lia).
    pose proof (p2_pos e2). pose proof (p2_pos (d + 32)) as Pd. pose proof (powerRZ_pos2 ku).
    apply mul_le_inv with (2 ^ w * 2 ^ (d + 32)); [apply Rmult_lt_0_compat; assumption|].
    replace (powerRZ 2 ku * / 2 ^ w * (2 ^ w * 2 ^ (d + 32))) with (powerRZ 2 ku * 2 ^ (d + 32)) by (field; lra).
    replace (2 * / 2 ^ (d + 32) * (2 ^ w * 2 ^ (d + 32))) with (2 * 2 ^ w) by (field; lra). nra. }
  assert (Eps2 : / 2 ^ w <= / 2 ^ (d + 32)) by (apply Rinv_le_contravar; [apply p2_pos|apply p2_mono; lia]).
  assert (Eps3 : 64 * / 2 ^ (d + 32) = / 2 ^ (d + 26)).
  { replace (d + 32)%nat with ((d + 26) + 6)%nat by lia. rewrite pow_add. replace (2 ^ 6) with 64 by (cbn; ring).
    pose proof (p2_pos (d + 26)). field. lra. }
  assert (Pe : 0 < / 2 ^ (d + 32)) by (apply Rinv_0_lt_compat, p2_pos).
  split.
  - intros x [X1 X2]. fold d in X1, X2. apply exp_mono in X1. apply exp_mono in X2. unfold Rdiv in *. lra.
  - intros Hl x [X1 X2]. fold d in X1. apply exp_mono in X1.
    assert (K : (0 <= kl)%Z).
    { unfold kl. apply Z.div_pos; [|assumption]. apply le_IZR.
      rewrite <- (dyadic_mul (dlo i2) w), Dlo. apply Rmult_le_pos; [|lra].
      apply dyadic_ge_iff. rewrite Rmult_0_l. apply (IZR_le 0); assumption. }
    specialize (LowNN K). lra.
Qed.

(** The Taylor loop's assertion can fail: exp of the single point 1/2^41. *)
Lemma dfi_exp_panic_witness ln2 : (forall n, exists l, ln2 n = Ret l /\ ln2_ok n l) ->
  dfi_exp ln2 (DFI 1 1 41) = Panic.
Proof.
  intros H2. unfold dfi_exp. cbn [dlog].
  change (41 + 10)%nat with 51%nat.
  replace (dfi_convert (DFI 1 1 41) 51) with (DFI 1024 1024 51) by (vm_compute; reflexivity).
  cbn [dlog dlo dhi].
  assert (Big : forall n l, (51 <= n)%nat -> ln2_ok n l -> (2 ^ (Z.of_nat n - 1) < dlo l)%Z /\ (2 ^ (Z.of_nat n - 1) < dhi l)%Z).
  { intros n l Hn Hl. destruct (ln2_ok_bounds _ _ Hl) as [[B1 _] [B2 _]].
    pose proof ln2_lower. pose proof (p2_pos n).
    assert (S3 : 3 * / 2 ^ n <= / 100). { pose proof (small_p2 n ltac:(lia)) as SP. set (v := / 2 ^ n) in *. clearbody v. lra. }
    assert (E : IZR (2 ^ (Z.of_nat n - 1)) = 2 ^ n * / 2).
    { replace (Z.of_nat n - 1)%Z with (Z.of_nat (n - 1)) by lia. rewrite IZR_p2.
      assert (En : 2 ^ n = 2 * 2 ^ (n - 1)) by (change (2 * 2 ^ (n - 1)) with (2 ^ S (n - 1)); f_equal; lia). rewrite En. field. }
    split; apply lt_IZR; rewrite E, (Rmult_comm (2 ^ n)); match goal with |- _ < IZR ?z => rewrite <- (dyadic_mul z n) end; (apply Rmult_lt_compat_r; [assumption|]); unfold Rdiv in *; lra. }
  destruct (H2 51%nat) as (short & -> & Hs). cbn [rbind].
  destruct (Big 51%nat short ltac:(lia) Hs) as [Bs _]. change (2 ^ (Z.of_nat 51 - 1))%Z with 1125899906842624%Z in Bs.
  unfold exp_extra_bits. change (0 <? 1024)%Z with true. cbv iota. unfold checked_div_floor at 1 2.
  replace (dlo short =? 0)%Z with false by (symmetry; apply Z.eqb_neq; lia). cbn [rbind].
  rewrite (Z.div_small 1024 (dlo short)) by lia. change (to_usize 0) with (Some 0%nat). cbn [unwrap rbind].
  change (41 + 32 + usize_floor_log2 (41 + 1) * 2 + Nat.max 0 0)%nat with 83%nat.
  change (Z.of_nat 83 <=? usize_max)%Z with true. cbn [assert_then].
  replace (dfi_convert (DFI 1024 1024 51) 83) with (DFI 4398046511104 4398046511104 83) by (vm_compute; reflexivity).
  destruct (H2 83%nat) as (l2 & -> & Hl). cbn [rbind dlo dhi].
  destruct (Big 83%nat l2 ltac:(lia) Hl) as [B1 B2].
  change (2 ^ (Z.of_nat 83 - 1))%Z with 4835703278458516698824704%Z in B1, B2.
  unfold checked_div_floor, checked_mod_floor.
  replace (dlo l2 =? 0)%Z with false by (symmetry; apply Z.eqb_neq; lia).
  replace (dhi l2 =? 0)%Z with false by (symmetry; apply Z.eqb_neq; lia). cbn [rbind].
  rewrite !Z.div_small, !Z.mod_small by lia.
  replace (exp_loop (83 - 1) 1 (DFI 4398046511104 4398046511104 83) (dfi_one 83) (dfi_one 83)) with (@Panic dfi) by (vm_compute; reflexivity).
  reflexivity.
Qed.
