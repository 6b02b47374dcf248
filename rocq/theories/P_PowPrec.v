(** How precise integer powers of intervals are. *)
From Coq Require Import ZArith QArith Qround Qreals Reals Lra Lia Bool List.
From Verif Require Import M_Base M_Traits M_Interval S_Interval S_PowPrec P_Interval P_IntervalTight P_IntervalPow P_IntervalDiv.
Local Open Scope R_scope.

Lemma step_low u a b A B V V' m k s : 0 < u -> 0 <= m -> 0 <= k -> 0 <= a <= A -> 0 <= b <= B -> A <= V -> B <= V' -> 1 <= V -> 1 <= V' ->
  A - m * u * V <= a -> B - k * u * V' <= b -> a * b - u <= s ->
  A * B - (m + k + 1) * u * (V * V') <= s.
Proof.
  intros Hu Hm Hk [Ha HA] [Hb HB] HV HV' V1 V1' Ea Eb Hs.
  assert (E1 : A * (B - b) <= V * (k * u * V')) by (apply Rmult_le_compat; lra).
  assert (E2 : b * (A - a) <= V' * (m * u * V)) by (apply Rmult_le_compat; lra).
  assert (E3 : 1 * 1 <= V * V') by (apply Rmult_le_compat; lra).
  assert (E4 : u * 1 <= u * (V * V')) by (apply Rmult_le_compat_l; lra).
  replace (A * B) with (a * b + b * (A - a) + A * (B - b)) by ring.
  replace ((m + k + 1) * u * (V * V')) with (V' * (m * u * V) + V * (k * u * V') + u * (V * V')) by ring.
  lra.
Qed.

Lemma step_high u a b A B V V' m k s : 0 < u -> 0 <= a -> 0 <= b -> 0 <= A <= V -> 0 <= B <= V' -> 1 <= V -> 1 <= V' ->
  a <= A + ((1 + u) ^ m - 1) * V -> b <= B + ((1 + u) ^ k - 1) * V' -> s <= a * b + u ->
  s <= A * B + ((1 + u) ^ (m + k + 1) - 1) * (V * V').
Proof.
  intros Hu Ha Hb [HA HV] [HB HV'] V1 V1' Ea Eb Hs.
  assert (Tm : 1 <= (1 + u) ^ m) by (apply pow_R1_Rle; lra).
  assert (Tk : 1 <= (1 + u) ^ k) by (apply pow_R1_Rle; lra).
  rewrite pow_add, pow_add, pow_1.
  set (tm := (1 + u) ^ m) in *; set (tk := (1 + u) ^ k) in *; clearbody tm tk.
  assert (E1 : a * b <= (A + (tm - 1) * V) * b) by (apply Rmult_le_compat_r; assumption).
  assert (E2 : A * b <= A * (B + (tk - 1) * V')) by (apply Rmult_le_compat_l; assumption).
  assert (E3 : b <= tk * V') by lra.
  assert (E4 : (tm - 1) * V * b <= (tm - 1) * V * (tk * V')).
  { apply Rmult_le_compat_l; [apply Rmult_le_pos; lra|assumption]. }
  assert (E5 : A * ((tk - 1) * V') <= V * ((tk - 1) * V')).
  { apply Rmult_le_compat_r; [apply Rmult_le_pos; lra|assumption]. }
  assert (E6 : 1 * 1 <= V * V') by (apply Rmult_le_compat; lra).
  assert (E7 : 1 * 1 <= tm * tk) by (apply Rmult_le_compat; lra).
  assert (E8 : u * 1 <= u * ((tm * tk) * (V * V'))).
  { apply Rmult_le_compat_l; [lra|]. apply Rle_trans with ((1 * 1) * (1 * 1)); [lra|apply Rmult_le_compat; lra]. }
  replace (A * B + (tm * tk * (1 + u) - 1) * (V * V'))
    with (A * B + V * ((tk - 1) * V') + (tm - 1) * V * (tk * V') + u * (tm * tk * (V * V'))) by ring.
  lra.
Qed.

Lemma quot_parts e : (1 <= e)%Z ->
  Z.to_nat e = ((if Z.odd e then 1 else 0) + 2 * Z.to_nat (Z.quot e 2))%nat.
Proof.
  intros He. assert (Q : Z.quot e 2 = (e / 2)%Z) by (apply Z.quot_div_nonneg; lia).
  rewrite Q. pose proof (Z.div_mod e 2 ltac:(lia)) as D. rewrite Zmod_odd in D.
  pose proof (Z.div_pos e 2 ltac:(lia) ltac:(lia)).
  destruct (Z.odd e); lia.
Qed.

Lemma shr_low a n : dyadic a n / 2 ^ n - / 2 ^ n <= dyadic (shr a n) n.
Proof.
  pose proof (shr_R a n) as S. pose proof (p2_pos n) as P. unfold dyadic, Rdiv.
  assert (I : 0 < / 2 ^ n) by (apply Rinv_0_lt_compat; exact P).
  assert (E : IZR a * / 2 ^ n <= IZR (shr a n) + 1).
  { apply Rmult_le_reg_r with (2 ^ n); [exact P|]. rewrite Rmult_assoc, Rinv_l by lra. lra. }
  replace (IZR a * / 2 ^ n * / 2 ^ n - / 2 ^ n) with ((IZR a * / 2 ^ n - 1) * / 2 ^ n) by ring.
  apply Rmult_le_compat_r; lra.
Qed.

Lemma dyadic_prod a b n : dyadic (a * b) n / 2 ^ n = dyadic a n * dyadic b n.
Proof. unfold dyadic; rewrite mult_IZR; unfold Rdiv; ring. Qed.

Lemma dyadic_nonneg a n : (0 <= a)%Z -> 0 <= dyadic a n.
Proof.
  intros H; unfold dyadic, Rdiv; apply Rmult_le_pos; [apply (IZR_le 0); exact H|].
  left; apply Rinv_0_lt_compat, p2_pos.
Qed.
Lemma dyadic_opp a n : dyadic (- a) n = - dyadic a n.
Proof. unfold dyadic; rewrite opp_IZR; unfold Rdiv; ring. Qed.

Lemma loop_low fuel : forall n rl nru bl bu e rl' nru' x p q (m k : R), (1 <= e)%Z ->
  0 <= x -> 0 <= m -> 0 <= k ->
  (0 <= rl)%Z -> (0 <= bl)%Z -> dyadic rl n <= x ^ p -> dyadic bl n <= x ^ q ->
  x ^ p - m * / 2 ^ n * Rmax 1 x ^ p <= dyadic rl n ->
  x ^ q - k * / 2 ^ n * Rmax 1 x ^ q <= dyadic bl n ->
  dfi_pow_loop fuel n rl nru bl bu e = Ret (rl', nru') ->
  x ^ (p + q * Z.to_nat e) - (m + (k + 1) * INR (Z.to_nat e)) * / 2 ^ n * Rmax 1 x ^ (p + q * Z.to_nat e) <= dyadic rl' n.
Proof.
  induction fuel as [|fuel IH]; intros n rl nru bl bu e rl' nru' x p q m k He Hx Hm Hk R0 B0 R1 B1 R2 B2 E; [discriminate E|].
  cbn [dfi_pow_loop] in E.
  set (u := / 2 ^ n) in *.
  assert (Hu : 0 < u) by (apply Rinv_0_lt_compat, p2_pos).
  set (W := Rmax 1 x) in *.
  assert (W1 : 1 <= W) by apply Rmax_l.
  assert (Wx : x <= W) by apply Rmax_r.
  assert (WP : forall j, 1 <= W ^ j /\ 0 <= x ^ j <= W ^ j).
  { intro j; split; [apply pow_R1_Rle; exact W1|split; [apply pow_le; exact Hx|apply pow_incr; lra]]. }
  pose proof (dyadic_nonneg _ n R0) as R0'. pose proof (dyadic_nonneg _ n B0) as B0'.
  destruct (if Z.odd e then (shr (rl * bl) n, shr (nru * bu) n) else (rl, nru)) as [rl1 nru1] eqn:Es.
  set (o := Z.odd e) in *.
  assert (L : (0 <= rl1)%Z /\ dyadic rl1 n <= x ^ (p + (if o then q else 0)) /\
    x ^ (p + (if o then q else 0)) - (m + (if o then k + 1 else 0)) * u * W ^ (p + (if o then q else 0)) <= dyadic rl1 n).
  { destruct o; injection Es as <- <-.
    - rewrite !pow_add. split; [apply shr_nonneg, Z.mul_nonneg_nonneg; assumption|split].
      + apply Rle_trans with (dyadic rl n * dyadic bl n).
        * rewrite <- dyadic_prod. pose proof (shr_R (rl * bl) n) as S. pose proof (p2_pos n) as P.
          unfold dyadic, Rdiv. fold u. apply Rmult_le_compat_r; [lra|].
          apply Rmult_le_reg_r with (2 ^ n); [exact P|]. unfold u. rewrite Rmult_assoc, Rinv_l by lra. lra.
        * apply Rmult_le_compat; assumption.
      + replace (m + (k + 1)) with (m + k + 1) by ring.
        apply step_low with (dyadic rl n) (dyadic bl n); try assumption; try (split; assumption); try apply WP.
        rewrite <- dyadic_prod; apply shr_low.
    - rewrite Nat.add_0_r, Rplus_0_r. auto. }
  destruct L as (R0n & R1n & R2n).
  assert (B : (0 <= shr (bl * bl) n)%Z /\ dyadic (shr (bl * bl) n) n <= x ^ (2 * q) /\
    x ^ (2 * q) - (2 * k + 1) * u * W ^ (2 * q) <= dyadic (shr (bl * bl) n) n).
  { replace (2 * q)%nat with (q + q)%nat by lia. rewrite !pow_add.
    split; [apply shr_nonneg, Z.mul_nonneg_nonneg; assumption|split].
    - apply Rle_trans with (dyadic bl n * dyadic bl n).
      + rewrite <- dyadic_prod. pose proof (shr_R (bl * bl) n) as S. pose proof (p2_pos n) as P.
        unfold dyadic, Rdiv. fold u. apply Rmult_le_compat_r; [lra|].
        apply Rmult_le_reg_r with (2 ^ n); [exact P|]. unfold u. rewrite Rmult_assoc, Rinv_l by lra. lra.
      + apply Rmult_le_compat; assumption.
    - replace (2 * k + 1) with (k + k + 1) by ring.
      apply step_low with (dyadic bl n) (dyadic bl n); try assumption; try (split; assumption); try apply WP.
      rewrite <- dyadic_prod; apply shr_low. }
  destruct B as (B0n & B1n & B2n).
  pose proof (quot_parts e He) as QP. fold o in QP.
  destruct (Z.eqb_spec (Z.quot e 2) 0) as [Hq|Hq].
  - rewrite Hq in QP. assert (rl' = rl1) by congruence. subst rl'.
    destruct o; rewrite QP; cbn [Z.to_nat Nat.mul Nat.add INR].
    + rewrite Nat.mul_1_r. replace (m + (k + 1) * 1) with (m + (k + 1)) by ring. exact R2n.
    + rewrite Nat.mul_0_r. replace (m + (k + 1) * 0) with (m + 0) by ring. exact R2n.
  - assert (H1 : (1 <= Z.quot e 2)%Z) by (pose proof (Z.quot_pos e 2 ltac:(lia) ltac:(lia)); lia).
    pose proof (IH n rl1 nru1 _ _ (Z.quot e 2) rl' nru' x _ (2 * q)%nat (m + (if o then k + 1 else 0)) (2 * k + 1) H1 Hx
      ltac:(destruct o; lra) ltac:(lra) R0n B0n R1n B1n R2n B2n E) as F.
    fold u W in F.
    replace (p + (if o then q else 0) + 2 * q * Z.to_nat (Z.quot e 2))%nat with (p + q * Z.to_nat e)%nat in F by (rewrite QP; destruct o; nia).
    replace (m + (if o then k + 1 else 0) + (2 * k + 1 + 1) * INR (Z.to_nat (Z.quot e 2))) with (m + (k + 1) * INR (Z.to_nat e)) in F; [exact F|].
    rewrite QP, plus_INR, mult_INR. destruct o; cbn [INR]; ring.
Qed.

Lemma loop_high fuel : forall n rl nru bl bu e rl' nru' x p q (m k : nat), (1 <= e)%Z ->
  0 <= x -> (nru <= 0)%Z -> (0 <= bu)%Z ->
  - dyadic nru n <= x ^ p + ((1 + / 2 ^ n) ^ m - 1) * Rmax 1 x ^ p ->
  dyadic bu n <= x ^ q + ((1 + / 2 ^ n) ^ k - 1) * Rmax 1 x ^ q ->
  dfi_pow_loop fuel n rl nru bl bu e = Ret (rl', nru') ->
  - dyadic nru' n <= x ^ (p + q * Z.to_nat e) +
    ((1 + / 2 ^ n) ^ (m + (k + 1) * Z.to_nat e) - 1) * Rmax 1 x ^ (p + q * Z.to_nat e).
Proof.
  induction fuel as [|fuel IH]; intros n rl nru bl bu e rl' nru' x p q m k He Hx R0 B0 R1 B1 E; [discriminate E|].
  cbn [dfi_pow_loop] in E.
  set (u := / 2 ^ n) in *.
  assert (Hu : 0 < u) by (apply Rinv_0_lt_compat, p2_pos).
  set (W := Rmax 1 x) in *.
  assert (W1 : 1 <= W) by apply Rmax_l.
  assert (Wx : x <= W) by apply Rmax_r.
  assert (WP : forall j, 1 <= W ^ j /\ 0 <= x ^ j <= W ^ j).
  { intro j; split; [apply pow_R1_Rle; exact W1|split; [apply pow_le; exact Hx|apply pow_incr; lra]]. }
  assert (R0' : 0 <= - dyadic nru n) by (rewrite <- dyadic_opp; apply dyadic_nonneg; lia).
  pose proof (dyadic_nonneg _ n B0) as B0'.
  destruct (if Z.odd e then (shr (rl * bl) n, shr (nru * bu) n) else (rl, nru)) as [rl1 nru1] eqn:Es.
  set (o := Z.odd e) in *.
  assert (L : (nru1 <= 0)%Z /\
    - dyadic nru1 n <= x ^ (p + (if o then q else 0)) + ((1 + u) ^ (m + (if o then k + 1 else 0)) - 1) * W ^ (p + (if o then q else 0))).
  { destruct o; injection Es as <- <-.
    - rewrite !(pow_add x), !(pow_add W). split.
      + unfold shr. rewrite Z.shiftr_div_pow2 by lia. apply Z.div_le_upper_bound; [apply Z.pow_pos_nonneg; lia|nia].
      + rewrite Nat.add_assoc.
        apply step_high with (- dyadic nru n) (dyadic bu n); try assumption; try apply WP.
        pose proof (shr_low (nru * bu) n) as S. rewrite dyadic_prod in S. fold u in S. lra.
    - rewrite !Nat.add_0_r. auto. }
  destruct L as (R0n & R1n).
  assert (B : (0 <= - shr (- bu * bu) n)%Z /\
    dyadic (- shr (- bu * bu) n) n <= x ^ (2 * q) + ((1 + u) ^ (2 * k + 1) - 1) * W ^ (2 * q)).
  { replace (2 * q)%nat with (q + q)%nat by lia. replace (2 * k + 1)%nat with (k + k + 1)%nat by lia.
    rewrite !(pow_add x), !(pow_add W). split.
    - unfold shr. rewrite Z.shiftr_div_pow2 by lia.
      assert ((- bu * bu) / 2 ^ Z.of_nat n <= 0)%Z; [|lia].
      apply Z.div_le_upper_bound; [apply Z.pow_pos_nonneg; lia|nia].
    - apply step_high with (dyadic bu n) (dyadic bu n); try assumption; try apply WP.
      pose proof (shr_low (- bu * bu) n) as S. rewrite dyadic_prod, dyadic_opp in S. fold u in S. rewrite dyadic_opp. lra. }
  destruct B as (B0n & B1n).
  pose proof (quot_parts e He) as QP. fold o in QP.
  destruct (Z.eqb_spec (Z.quot e 2) 0) as [Hq|Hq].
  - rewrite Hq in QP. assert (nru' = nru1) by congruence. subst nru'.
    destruct o; rewrite QP; cbn [Z.to_nat Nat.mul Nat.add].
    + rewrite !Nat.mul_1_r. exact R1n.
    + rewrite !Nat.mul_0_r. exact R1n.
  - assert (H1 : (1 <= Z.quot e 2)%Z) by (pose proof (Z.quot_pos e 2 ltac:(lia) ltac:(lia)); lia).
    pose proof (IH n rl1 nru1 _ _ (Z.quot e 2) rl' nru' x _ (2 * q)%nat (m + (if o then k + 1 else 0))%nat (2 * k + 1)%nat H1 Hx
      R0n B0n R1n B1n E) as F.
    fold u W in F.
    replace (p + (if o then q else 0) + 2 * q * Z.to_nat (Z.quot e 2))%nat with (p + q * Z.to_nat e)%nat in F by (rewrite QP; destruct o; nia).
    replace (m + (if o then k + 1 else 0) + (2 * k + 1 + 1) * Z.to_nat (Z.quot e 2))%nat with (m + (k + 1) * Z.to_nat e)%nat in F by (rewrite QP; destruct o; nia).
    exact F.
Qed.

Lemma bernoulli u e : 0 < u -> INR e * u <= (1 + u) ^ e - 1.
Proof. intros H; pose proof (poly e u H); lra. Qed.

Lemma pow_err_nonneg n e x : 0 <= pow_err n e x.
Proof.
  assert (I : 0 < / 2 ^ n) by (apply Rinv_0_lt_compat, p2_pos).
  unfold pow_err; apply Rmult_le_pos.
  - assert (1 <= (1 + / 2 ^ n) ^ e) by (apply pow_R1_Rle; lra); lra.
  - apply pow_le; apply Rle_trans with 1; [lra|apply Rmax_l].
Qed.

Lemma loop_mag fuel n bl bu e rl nru : (1 <= e)%Z -> (0 <= bl)%Z -> (0 <= bu)%Z ->
  dfi_pow_loop fuel n (shl 1 n) (- shl 1 n) bl bu e = Ret (rl, nru) ->
  dyadic bl n ^ Z.to_nat e - pow_err n (Z.to_nat e) (dyadic bl n) <= dyadic rl n /\
  - dyadic nru n <= dyadic bu n ^ Z.to_nat e + pow_err n (Z.to_nat e) (dyadic bu n).
Proof.
  intros He Hl Hh E.
  assert (One : IZR (shl 1 n) = 2 ^ n) by apply shl1_R.
  pose proof (p2_pos n) as P.
  assert (I : 0 < / 2 ^ n) by (apply Rinv_0_lt_compat, p2_pos).
  assert (One0 : (0 <= shl 1 n)%Z) by (apply le_IZR; rewrite One; lra).
  assert (D1 : dyadic (shl 1 n) n = 1) by (unfold dyadic; rewrite One; field; lra).
  pose proof (dyadic_nonneg _ n Hl) as L0; pose proof (dyadic_nonneg _ n Hh) as H0.
  split.
  - pose proof (loop_low fuel n (shl 1 n) (- shl 1 n) bl bu e rl nru (dyadic bl n) 0 1 0 0 He L0 (Rle_refl 0) (Rle_refl 0) One0 Hl) as F.
    rewrite !pow_O, !pow_1 in F.
    specialize (F ltac:(lra) ltac:(lra) ltac:(lra) ltac:(lra) E).
    rewrite Nat.add_0_l, Nat.mul_1_l in F.
    unfold pow_err; rewrite (Rabs_right (dyadic bl n)) by lra.
    pose proof (bernoulli (/ 2 ^ n) (Z.to_nat e) I) as BN.
    assert (0 <= Rmax 1 (dyadic bl n) ^ Z.to_nat e) by (apply pow_le; apply Rle_trans with 1; [lra|apply Rmax_l]).
    replace ((0 + (0 + 1) * INR (Z.to_nat e)) * / 2 ^ n) with (INR (Z.to_nat e) * / 2 ^ n) in F by ring.
    apply Rle_trans with (2 := F).
    assert (INR (Z.to_nat e) * / 2 ^ n * Rmax 1 (dyadic bl n) ^ Z.to_nat e <= ((1 + / 2 ^ n) ^ Z.to_nat e - 1) * Rmax 1 (dyadic bl n) ^ Z.to_nat e)
      by (apply Rmult_le_compat_r; assumption).
    lra.
  - pose proof (loop_high fuel n (shl 1 n) (- shl 1 n) bl bu e rl nru (dyadic bu n) 0 1 0 0 He H0 ltac:(lia) Hh) as F.
    rewrite !pow_O, !pow_1, dyadic_opp in F.
    specialize (F ltac:(lra) ltac:(lra) E).
    rewrite !Nat.add_0_l, !Nat.mul_1_l in F.
    unfold pow_err; rewrite (Rabs_right (dyadic bu n)) by lra. exact F.
Qed.

Lemma pow_err_abs n e x y : Rabs x = Rabs y -> pow_err n e x = pow_err n e y.
Proof. unfold pow_err; intros ->; reflexivity. Qed.

Lemma dyadic_abs z n : dyadic (Z.abs z) n = Rabs (dyadic z n).
Proof.
  destruct (Z.le_gt_cases 0 z) as [H|H].
  - rewrite Z.abs_eq, Rabs_right by (first [assumption | apply Rle_ge, dyadic_nonneg; assumption]). reflexivity.
  - rewrite Z.abs_neq, dyadic_opp by lia.
    assert (0 <= - dyadic z n) by (rewrite <- dyadic_opp; apply dyadic_nonneg; lia).
    rewrite Rabs_left1 by lra. reflexivity.
Qed.

Lemma loop_mag2 n bl bu e rl nru : (1 <= e)%Z -> (0 <= bl)%Z -> (0 <= bu)%Z ->
  dfi_pow_loop (Z.to_nat (Z.log2 e + 1)) n (shl 1 n) (- shl 1 n) bl bu e = Ret (rl, nru) ->
  Rabs (dyadic rl n - dyadic bl n ^ Z.to_nat e) <= pow_err n (Z.to_nat e) (dyadic bl n) /\
  Rabs (- dyadic nru n - dyadic bu n ^ Z.to_nat e) <= pow_err n (Z.to_nat e) (dyadic bu n).
Proof.
  intros He Hl Hh E.
  pose proof (loop_mag _ _ _ _ _ _ _ He Hl Hh E) as [A B].
  assert (F : (Z.log2 e < Z.of_nat (Z.to_nat (Z.log2 e + 1)))%Z) by (pose proof (Z.log2_nonneg e); lia).
  assert (One : IZR (shl 1 n) = 2 ^ n) by apply shl1_R.
  pose proof (p2_pos n) as P.
  assert (One0 : (0 <= shl 1 n)%Z) by (apply le_IZR; rewrite One; lra).
  destruct (dfi_pow_loop_spec _ n (shl 1 n) (- shl 1 n) bl bu e He F) as (rl' & nru' & E' & L & U).
  rewrite E in E'. injection E' as <- <-.
  destruct (L 1 (dyadic bl n)) as [_ L2]; [assumption|assumption|lra|unfold dyadic; right; field; lra|].
  pose proof (U 1 (dyadic bu n) ltac:(lra) (dyadic_nonneg _ n Hh) ltac:(rewrite opp_IZR; lra) ltac:(unfold dyadic; right; field; lra)) as U2.
  rewrite Rmult_1_l in L2, U2.
  assert (L3 : dyadic rl n <= dyadic bl n ^ Z.to_nat e).
  { unfold dyadic at 1. apply Rmult_le_reg_r with (2 ^ n); [exact P|]. unfold Rdiv. rewrite Rmult_assoc, Rinv_l by lra. lra. }
  assert (U3 : dyadic bu n ^ Z.to_nat e <= - dyadic nru n).
  { unfold dyadic at 2. apply Rmult_le_reg_r with (2 ^ n); [exact P|]. unfold Rdiv. rewrite <- Ropp_mult_distr_l, Rmult_assoc, Rinv_l by lra. lra. }
  split; apply Rabs_le; lra.
Qed.

Lemma odd_pow_mono x y e : (0 <= e)%Z -> Z.even e = false -> x <= y -> x ^ Z.to_nat e <= y ^ Z.to_nat e.
Proof.
  intros He Ev H.
  destruct (Rle_dec 0 x) as [Hx|Hx]; [apply pow_incr; lra|].
  destruct (Rle_dec 0 y) as [Hy|Hy].
  - apply Rle_trans with 0; [|apply pow_le; exact Hy].
    replace x with (- - x) by ring. rewrite pow_opp_odd by assumption.
    assert (0 <= (- x) ^ Z.to_nat e) by (apply pow_le; lra). lra.
  - replace x with (- - x) by ring. replace y with (- - y) by ring. rewrite !(pow_opp_odd (- _)) by assumption.
    apply Ropp_le_contravar, pow_incr; lra.
Qed.

(** A power of a magnitude, with the sign put back. *)
Lemma signed_near z n e v d : (0 <= e)%Z -> Z.even e = false ->
  Rabs (v - dyadic (Z.abs z) n ^ Z.to_nat e) <= d ->
  Rabs ((if (z <? 0)%Z then - v else v) - dyadic z n ^ Z.to_nat e) <= d.
Proof.
  intros He Ev H. destruct (Z.ltb_spec z 0) as [Hz|Hz].
  - rewrite Z.abs_neq, dyadic_opp, pow_opp_odd in H by (assumption || lia).
    rewrite <- Rabs_Ropp. replace (- (- v - dyadic z n ^ Z.to_nat e)) with (v - - dyadic z n ^ Z.to_nat e) by ring. exact H.
  - rewrite Z.abs_eq in H by lia. exact H.
Qed.

Lemma pow_err_absz n e z : pow_err n e (dyadic (Z.abs z) n) = pow_err n e (dyadic z n).
Proof. apply pow_err_abs; rewrite dyadic_abs; apply Rabs_Rabsolu. Qed.

Lemma dfi_pow_core_near i e r : dfi_ok i -> (2 <= e)%Z -> dfi_pow_core i e = Ret r ->
  let n := dlog i in let k := Z.to_nat e in
  dlog r = n /\
  (exists x, least_power i k x /\ Rabs (dyadic (dlo r) n - x ^ k) <= pow_err n k x) /\
  (exists x, greatest_power i k x /\ Rabs (dyadic (dhi r) n - x ^ k) <= pow_err n k x).
Proof.
  intros Hok He E n k; unfold dfi_pow_core in E; fold n in E.
  unfold dfi_ok in Hok.
  pose proof (proj2 (dyadic_le _ _ n) Hok) as LH.
  assert (Il : inI (dyadic (dlo i) n) i) by (unfold inI; fold n; lra).
  assert (Ih : inI (dyadic (dhi i) n) i) by (unfold inI; fold n; lra).
  set (bl0 := if (dlo i <? 0)%Z then (- dlo i)%Z else dlo i) in E.
  set (bu0 := if (dhi i <? 0)%Z then (- dhi i)%Z else dhi i) in E.
  assert (Hl0 : bl0 = Z.abs (dlo i)) by (unfold bl0; destruct (Z.ltb_spec (dlo i) 0); lia).
  assert (Hu0 : bu0 = Z.abs (dhi i)) by (unfold bu0; destruct (Z.ltb_spec (dhi i) 0); lia).
  clearbody bl0 bu0. subst bl0 bu0.
  destruct (Z.even e) eqn:Ev.
  - destruct (if (Z.abs (dhi i) <? Z.abs (dlo i))%Z then _ else _) as [bl bu] eqn:Eb.
    assert (Hb : (bl = Z.abs (dlo i) /\ bu = Z.abs (dhi i) /\ Z.abs (dlo i) <= Z.abs (dhi i))%Z \/
                 (bl = Z.abs (dhi i) /\ bu = Z.abs (dlo i) /\ Z.abs (dhi i) < Z.abs (dlo i))%Z).
    { destruct (Z.ltb_spec (Z.abs (dhi i)) (Z.abs (dlo i))); injection Eb as <- <-; lia. }
    clear Eb.
    set (bl' := if dfi_contains_zero i then 0%Z else bl) in E.
    destruct (dfi_pow_loop _ n (shl 1 n) (- shl 1 n) bl' bu e) as [[rl nru]| |] eqn:El; try discriminate E.
    cbn [rbind] in E. injection E as <-. cbn [dlo dhi dlog]. split; [reflexivity|].
    apply loop_mag2 in El; [|lia|unfold bl'; destruct (dfi_contains_zero i); lia|lia].
    fold k in El. destruct El as [EL EH]. rewrite dyadic_opp.
    assert (PE : forall x y, Rabs x <= Rabs y -> x ^ k <= y ^ k).
    { intros x y H. unfold k. rewrite (pow_abs_even x), (pow_abs_even y) by (assumption || lia).
      apply pow_incr; split; [apply Rabs_pos|exact H]. }
    assert (AB : forall y, inI y i -> Rabs y <= dyadic bu n).
    { intros y Hy. unfold inI in Hy; fold n in Hy. apply Rabs_le.
      rewrite <- dyadic_opp.
      assert (dyadic (- bu) n <= dyadic (dlo i) n) by (apply dyadic_le; lia).
      assert (dyadic (dhi i) n <= dyadic bu n) by (apply dyadic_le; lia). lra. }
    assert (AL : dfi_contains_zero i = false -> forall y, inI y i -> dyadic bl n <= Rabs y).
    { intros C y Hy. unfold inI in Hy; fold n in Hy.
      unfold dfi_contains_zero in C. apply andb_false_iff in C.
      rewrite !negb_false_iff, !Z.ltb_lt in C. destruct C as [C|C].
      - replace bl with (dlo i) by lia. apply Rle_trans with y; [lra|apply Rle_abs].
      - replace bl with (- dhi i)%Z by lia. rewrite dyadic_opp. apply Rle_trans with (- y); [lra|].
        rewrite <- Rabs_Ropp; apply Rle_abs. }
    assert (SB : forall z, (z = dlo i \/ z = dhi i) -> inI (dyadic z n) i) by (intros z [-> | ->]; assumption).
    assert (NB : forall z v d, Rabs (v - dyadic (Z.abs z) n ^ k) <= d -> Rabs (v - dyadic z n ^ k) <= d).
    { intros z v d H. rewrite dyadic_abs in H. unfold k in H |- *. rewrite <- pow_abs_even in H by (assumption || lia). exact H. }
    split.
    + unfold bl' in EL. destruct (dfi_contains_zero i) eqn:C.
      * exists 0. replace (dyadic 0 n) with 0 in EL by (unfold dyadic; field; apply Rgt_not_eq, p2_pos).
        split; [split; [apply contains_zero_spec; exact C|]|exact EL].
        intros y _. apply PE. rewrite Rabs_R0. apply Rabs_pos.
      * destruct Hb as [(-> & _)|(-> & _)]; rewrite pow_err_absz in EL; apply NB in EL;
          [exists (dyadic (dlo i) n)|exists (dyadic (dhi i) n)]; (split; [split; [assumption|]|exact EL]);
          intros y Hy; apply PE; rewrite <- dyadic_abs; apply (AL eq_refl y Hy).
    + destruct Hb as [(_ & -> & _)|(_ & -> & _)]; rewrite pow_err_absz in EH; apply NB in EH;
          [exists (dyadic (dhi i) n)|exists (dyadic (dlo i) n)]; (split; [split; [assumption|]|exact EH]);
          intros y Hy; apply PE; rewrite <- dyadic_abs; apply (AB y Hy).
  - assert (LP : least_power i k (dyadic (dlo i) n)).
    { split; [exact Il|]. intros y Hy. unfold inI in Hy; fold n in Hy. apply odd_pow_mono; [lia|assumption|lra]. }
    assert (GP : greatest_power i k (dyadic (dhi i) n)).
    { split; [exact Ih|]. intros y Hy. unfold inI in Hy; fold n in Hy. apply odd_pow_mono; [lia|assumption|lra]. }
    destruct (Z.ltb_spec (Z.abs (dhi i)) (Z.abs (dlo i))) as [Sw|Sw].
    + destruct (dfi_pow_loop _ n (shl 1 n) (- shl 1 n) (Z.abs (dhi i)) (Z.abs (dlo i)) e) as [[rl nru]| |] eqn:El; try discriminate E.
      cbn [rbind] in E. injection E as <-. cbn [dlo dhi dlog]. split; [reflexivity|].
      apply loop_mag2 in El; [|lia|lia|lia]. fold k in El.
      destruct El as [EL EH]. rewrite pow_err_absz in EL, EH.
      apply signed_near in EL; [|lia|assumption]. apply signed_near in EH; [|lia|assumption].
      split.
      * exists (dyadic (dlo i) n). split; [exact LP|].
        destruct (dlo i <? 0)%Z; rewrite ?dyadic_opp; rewrite ?dyadic_opp; exact EH.
      * exists (dyadic (dhi i) n). split; [exact GP|].
        destruct (dhi i <? 0)%Z; rewrite ?dyadic_opp; exact EL.
    + destruct (dfi_pow_loop _ n (shl 1 n) (- shl 1 n) (Z.abs (dlo i)) (Z.abs (dhi i)) e) as [[rl nru]| |] eqn:El; try discriminate E.
      cbn [rbind] in E. injection E as <-. cbn [dlo dhi dlog]. split; [reflexivity|].
      apply loop_mag2 in El; [|lia|lia|lia]. fold k in El.
      destruct El as [EL EH]. rewrite pow_err_absz in EL, EH.
      apply signed_near in EL; [|lia|assumption]. apply signed_near in EH; [|lia|assumption].
      split.
      * exists (dyadic (dlo i) n). split; [exact LP|].
        destruct (dlo i <? 0)%Z; rewrite ?dyadic_opp; exact EL.
      * exists (dyadic (dhi i) n). split; [exact GP|].
        destruct (dhi i <? 0)%Z; rewrite ?dyadic_opp; rewrite ?dyadic_opp; exact EH.
Qed.

Lemma dfi_pow_near i e : dfi_ok i -> (0 <= e)%Z ->
  exists r, dfi_pow i e = Ret r /\ dlog r = dlog i /\
  (exists x, least_power i (Z.to_nat e) x /\
     Rabs (dyadic (dlo r) (dlog r) - x ^ Z.to_nat e) <= pow_err (dlog i) (Z.to_nat e) x) /\
  (exists x, greatest_power i (Z.to_nat e) x /\
     Rabs (dyadic (dhi r) (dlog r) - x ^ Z.to_nat e) <= pow_err (dlog i) (Z.to_nat e) x).
Proof.
  intros Hok He.
  destruct (dfi_pow_ok i e Hok) as [_ T]. destruct (T (or_introl He)) as (r & E & Hl & _). clear T.
  exists r; split; [exact E|split; [exact Hl|]]. rewrite Hl.
  set (n := dlog i).
  pose proof (proj2 (dyadic_le _ _ n) Hok) as LH.
  assert (Il : inI (dyadic (dlo i) n) i) by (unfold inI; fold n; lra).
  assert (Ih : inI (dyadic (dhi i) n) i) by (unfold inI; fold n; lra).
  unfold dfi_pow in E.
  destruct (Z.eqb_spec e 0) as [->|E0].
  - injection E as <-.
    assert (D : inI 1 (dfi_set_one i)) by (apply (dfi_constants_ok 0 i); reflexivity).
    assert (D' : forall x, inI x (dfi_set_one i) -> x = 1) by (intros x; apply (dfi_constants_ok 0 i)).
    assert (dfi_ok (dfi_set_one i)) as O by (apply (inI_ok _ _ D)).
    pose proof (proj2 (dyadic_le _ _ n) O) as LO.
    assert (Dl : inI (dyadic (dlo (dfi_set_one i)) n) (dfi_set_one i)) by (unfold inI; rewrite Hl; fold n; lra).
    assert (Dh : inI (dyadic (dhi (dfi_set_one i)) n) (dfi_set_one i)) by (unfold inI; rewrite Hl; fold n; lra).
    apply D' in Dl; apply D' in Dh. rewrite Dl, Dh. change (Z.to_nat 0) with 0%nat.
    split; exists (dyadic (dlo i) n); (split; [split; [exact Il|intros; cbn; lra]|]); cbn [pow];
      replace (1 - 1) with 0 by ring; rewrite Rabs_R0; apply pow_err_nonneg.
  - destruct (Z.eqb_spec e 1) as [->|E1].
    + injection E as <-. change (Z.to_nat 1) with 1%nat.
      split; [exists (dyadic (dlo i) n)|exists (dyadic (dhi i) n)];
        (split; [split; [assumption|intros y Hy; unfold inI in Hy; fold n in Hy; rewrite !pow_1; lra]|]);
        rewrite pow_1, Rminus_diag_eq, Rabs_R0 by reflexivity; apply pow_err_nonneg.
    + destruct (Z.ltb_spec e 0) as [Hn|Hp]; [lia|].
      destruct (dfi_pow_core_near i e r Hok ltac:(lia) E) as [_ F]. exact F.
Qed.

Lemma dfi_pow_negative i e r : (e < 0)%Z -> dfi_recip i = Ret r -> dfi_pow i e = dfi_pow r (- e).
Proof.
  intros He E. unfold dfi_pow.
  destruct (Z.eqb_spec e 0); [lia|]. destruct (Z.eqb_spec e 1); [lia|]. destruct (Z.ltb_spec e 0); [|lia].
  destruct (Z.eqb_spec (- e) 0); [lia|]. destruct (Z.ltb_spec (- e) 0); [lia|].
  rewrite E; reflexivity.
Qed.

Lemma pow_err_small n e x : 2 * INR e <= 2 ^ n -> pow_err n e x <= 2 * INR e / 2 ^ n * Rmax 1 (Rabs x) ^ e.
Proof.
  intros H. unfold pow_err, Rdiv.
  assert (I : 0 < / 2 ^ n) by (apply Rinv_0_lt_compat, p2_pos).
  assert (P : 0 < 2 ^ n) by apply p2_pos.
  assert (U : 2 * INR e * / 2 ^ n <= 1).
  { apply Rmult_le_reg_r with (2 ^ n); [exact P|]. rewrite Rmult_assoc, Rinv_l by lra. lra. }
  set (u := / 2 ^ n) in *. clearbody u.
  apply Rmult_le_compat_r; [apply pow_le; apply Rle_trans with 1; [lra|apply Rmax_l]|].
  clear H x. assert (G : forall j, (j <= e)%nat -> (1 + u) ^ j <= 1 + 2 * INR j * u).
  { induction j as [|j IH]; intros Hj; [cbn; lra|].
    specialize (IH ltac:(lia)). rewrite S_INR. cbn [pow].
    assert (Hje : INR j <= INR e) by (apply le_INR; lia).
    assert (2 * INR j * u <= 1).
    { apply Rle_trans with (2 * INR e * u); [|exact U]. apply Rmult_le_compat_r; lra. }
    assert (2 * INR j * u * u <= 1 * u) by (apply Rmult_le_compat_r; lra).
    assert ((1 + u) * (1 + u) ^ j <= (1 + u) * (1 + 2 * INR j * u)) by (apply Rmult_le_compat_l; lra).
    lra. }
  specialize (G e (le_n e)). lra.
Qed.
