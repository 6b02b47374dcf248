From Coq Require Import ZArith QArith Qround Qreals Reals Lra Lia Bool List.
From Verif Require Import M_Base M_Traits M_Interval S_Interval.
Local Open Scope R_scope.

Lemma p2_pos n : 0 < 2 ^ n.
Proof. apply pow_lt; lra. Qed.
Lemma p2_ge1 n : 1 <= 2 ^ n.
Proof. apply pow_R1_Rle; lra. Qed.
#[global] Hint Resolve p2_pos p2_ge1 : itv.

Lemma IZR_p2 n : IZR (2 ^ Z.of_nat n) = 2 ^ n.
Proof. symmetry. apply pow_IZR. Qed.

Lemma shl_mul a n : shl a n = (a * 2 ^ Z.of_nat n)%Z.
Proof. unfold shl. apply Z.shiftl_mul_pow2; lia. Qed.
Lemma shr_div a n : shr a n = (a / 2 ^ Z.of_nat n)%Z.
Proof. unfold shr. apply Z.shiftr_div_pow2; lia. Qed.

Lemma shl_R a n : IZR (shl a n) = IZR a * 2 ^ n.
Proof. rewrite shl_mul, mult_IZR, IZR_p2. reflexivity. Qed.

Lemma shr_Z a n : (shr a n * 2 ^ Z.of_nat n <= a < (shr a n + 1) * 2 ^ Z.of_nat n)%Z.
Proof.
  rewrite shr_div. assert (0 < 2 ^ Z.of_nat n)%Z by (apply Z.pow_pos_nonneg; lia).
  pose proof (Z.div_mod a (2 ^ Z.of_nat n)). pose proof (Z.mod_pos_bound a (2 ^ Z.of_nat n)). nia.
Qed.

Lemma shr_R a n : IZR (shr a n) * 2 ^ n <= IZR a < (IZR (shr a n) + 1) * 2 ^ n.
Proof.
  destruct (shr_Z a n) as [H1 H2]. apply IZR_le in H1. apply IZR_lt in H2.
  rewrite mult_IZR, IZR_p2 in H1. rewrite mult_IZR, plus_IZR, IZR_p2 in H2. split; assumption.
Qed.

Lemma shr_up_R a n : (IZR (shr_up a n) - 1) * 2 ^ n < IZR a <= IZR (shr_up a n) * 2 ^ n.
Proof.
  unfold shr_up. rewrite opp_IZR. destruct (shr_R (- a) n) as [H1 H2]. rewrite opp_IZR in H1, H2. lra.
Qed.

Lemma mul_le_inv a b c : 0 < c -> a * c <= b * c -> a <= b.
Proof. intros Hc H. apply Rmult_le_reg_r with c; assumption. Qed.

Lemma dyadic_le m n k : dyadic m k <= dyadic n k <-> (m <= n)%Z.
Proof.
  unfold dyadic. pose proof (p2_pos k). split; intros H'.
  - apply le_IZR. apply mul_le_inv with (/ 2 ^ k); [apply Rinv_0_lt_compat; assumption|]. exact H'.
  - apply Rmult_le_compat_r; [left; apply Rinv_0_lt_compat; assumption|]. apply IZR_le; assumption.
Qed.

Lemma dyadic_mul n k : dyadic n k * 2 ^ k = IZR n.
Proof. unfold dyadic. field. pose proof (p2_pos k); lra. Qed.

Lemma dyadic_le_iff n k x : dyadic n k <= x <-> IZR n <= x * 2 ^ k.
Proof.
  pose proof (p2_pos k). rewrite <- (dyadic_mul n k). split; intros H'.
  - apply Rmult_le_compat_r; lra.
  - apply mul_le_inv with (2 ^ k); assumption.
Qed.
Lemma dyadic_ge_iff n k x : x <= dyadic n k <-> x * 2 ^ k <= IZR n.
Proof.
  pose proof (p2_pos k). rewrite <- (dyadic_mul n k). split; intros H'.
  - apply Rmult_le_compat_r; lra.
  - apply mul_le_inv with (2 ^ k); assumption.
Qed.

Lemma inI_num x i : inI x i <-> IZR (dlo i) <= x * 2 ^ dlog i <= IZR (dhi i).
Proof. unfold inI. rewrite dyadic_le_iff, dyadic_ge_iff. reflexivity. Qed.

Lemma inI_ok x i : inI x i -> dfi_ok i.
Proof. intros [H1 H2]. apply dyadic_le with (dlog i). lra. Qed.

Lemma dfi_ok_mem i : dfi_ok i -> inI (dyadic (dlo i) (dlog i)) i /\ inI (dyadic (dhi i) (dlog i)) i.
Proof. intros H. apply (dyadic_le _ _ (dlog i)) in H. unfold inI. lra. Qed.

Lemma dyadic_shl n k s : dyadic (shl n s) (k + s) = dyadic n k.
Proof.
  unfold dyadic. rewrite shl_R, pow_add. field. split; apply Rgt_not_eq, p2_pos.
Qed.

Lemma le_of_lt_succ a b : IZR a < IZR b + 1 -> (a <= b)%Z.
Proof. intros H. rewrite <- plus_IZR in H. apply lt_IZR in H. lia. Qed.

(** Floor and ceiling of rationals, as reals. *)
Lemma Qfloor_R q : IZR (Qfloor q) <= Q2R q < IZR (Qfloor q) + 1.
Proof.
  pose proof (Qfloor_le q) as H1. pose proof (Qlt_floor q) as H2.
  apply Qle_Rle in H1. apply Qlt_Rlt in H2.
  unfold Q2R in *; cbn [Qnum Qden inject_Z] in *. rewrite Rinv_1, Rmult_1_r in *.
  rewrite plus_IZR in H2. lra.
Qed.
Lemma Qceiling_R q : IZR (Qceiling q) - 1 < Q2R q <= IZR (Qceiling q).
Proof.
  unfold Qceiling. rewrite opp_IZR. pose proof (Qfloor_R (- q)) as H. rewrite Q2R_opp in H. lra.
Qed.
Lemma Qscale_R q z : Q2R (Qscale q z) = Q2R q * IZR z.
Proof. unfold Qscale, Q2R; cbn [Qnum Qden]. rewrite mult_IZR. ring. Qed.

Lemma shl1_R n : IZR (shl 1 n) = 2 ^ n.
Proof. rewrite shl_R. ring. Qed.

Lemma shl_ratio q n : Q2R (shl (Qnum q) n # Qden q) = Q2R q * 2 ^ n.
Proof. unfold Q2R; cbn [Qnum Qden]. rewrite shl_R. ring. Qed.

(** tightest intervals from floor/ceiling *)
Lemma tightest_intro l u k a b :
  IZR l <= a * 2 ^ k < IZR l + 1 -> IZR u - 1 < b * 2 ^ k <= IZR u ->
  tightest (DFI l u k) k a b.
Proof.
  intros [H1 H2] [H3 H4]. unfold tightest; cbn [dlo dhi dlog].
  rewrite dyadic_le_iff, dyadic_ge_iff.
  repeat match goal with |- _ /\ _ => split end; try assumption; try reflexivity.
  - intros m Hm. apply dyadic_le_iff in Hm. apply le_of_lt_succ. lra.
  - intros m Hm. apply dyadic_ge_iff in Hm. apply le_of_lt_succ. lra.
Qed.

Lemma tightest_in i k a b x : tightest i k a b -> a <= x <= b -> inI x i.
Proof. intros (Hk & H1 & H2 & _) Hx. unfold inI. rewrite Hk. lra. Qed.

(** * Constructors *)
Lemma dfi_new_ok l u n :
  (exists i, dfi_new l u n = Ret i /\ dfi_ok i /\ dlo i = l /\ dhi i = u /\ dlog i = n) \/
  (dfi_new l u n = Panic /\ (u < l)%Z).
Proof.
  unfold dfi_new, dfi_ok. destruct (Z.leb_spec l u) as [H|H]; [left|right; split; [reflexivity|assumption]].
  eexists; repeat split; assumption.
Qed.

Lemma dfi_from_ratio_ok q n : tightest (dfi_from_ratio q n) n (Q2R q) (Q2R q).
Proof.
  unfold dfi_from_ratio. apply tightest_intro; rewrite <- shl_ratio.
  - apply Qfloor_R.
  - apply Qceiling_R.
Qed.

Lemma dfi_from_ratio_range_ok l u n : 
  if Qle_bool l u then exists i, dfi_from_ratio_range l u n = Ret i /\ tightest i n (Q2R l) (Q2R u)
  else dfi_from_ratio_range l u n = Panic.
Proof.
  unfold dfi_from_ratio_range. destruct (Qle_bool l u); [|reflexivity].
  eexists; split; [reflexivity|]. apply tightest_intro; rewrite <- (shl1_R n), <- Qscale_R.
  - apply Qfloor_R.
  - apply Qceiling_R.
Qed.

Lemma convert_floor_R a o n : let r := convert_log2_denom_floor a o n in
  IZR r <= dyadic a o * 2 ^ n < IZR r + 1.
Proof.
  cbn zeta. unfold convert_log2_denom_floor. destruct (Nat.leb_spec o n) as [H|H].
  - rewrite shl_R. assert (E : dyadic a o * 2 ^ n = IZR a * 2 ^ (n - o)); [|lra].
    assert (E : 2 ^ n = 2 ^ o * 2 ^ (n - o)) by (rewrite <- pow_add; f_equal; lia).
    rewrite E, <- Rmult_assoc, dyadic_mul. reflexivity.
  - pose proof (shr_R a (o - n)) as S. rewrite <- (dyadic_mul a o) in S.
    assert (E : 2 ^ o = 2 ^ n * 2 ^ (o - n)) by (rewrite <- pow_add; f_equal; lia).
    rewrite E, <- Rmult_assoc in S.
    pose proof (p2_pos (o - n)) as P. split.
    + apply mul_le_inv with (2 ^ (o - n)); [assumption|]. lra.
    + apply Rmult_lt_reg_r with (2 ^ (o - n)); [assumption|]. lra.
Qed.

Lemma convert_ceil_R a o n : let r := convert_log2_denom_ceil a o n in
  IZR r - 1 < dyadic a o * 2 ^ n <= IZR r.
Proof.
  cbn zeta. unfold convert_log2_denom_ceil. destruct (Nat.leb_spec o n) as [H|H].
  - rewrite shl_R. assert (E : dyadic a o * 2 ^ n = IZR a * 2 ^ (n - o)); [|lra].
    assert (E : 2 ^ n = 2 ^ o * 2 ^ (n - o)) by (rewrite <- pow_add; f_equal; lia).
    rewrite E, <- Rmult_assoc, dyadic_mul. reflexivity.
  - pose proof (shr_up_R a (o - n)) as S. rewrite <- (dyadic_mul a o) in S.
    assert (E : 2 ^ o = 2 ^ n * 2 ^ (o - n)) by (rewrite <- pow_add; f_equal; lia).
    rewrite E, <- Rmult_assoc in S.
    pose proof (p2_pos (o - n)) as P. split.
    + apply Rmult_lt_reg_r with (2 ^ (o - n)); [assumption|]. lra.
    + apply mul_le_inv with (2 ^ (o - n)); [assumption|]. lra.
Qed.

Lemma dfi_convert_ok i n :
  tightest (dfi_convert i n) n (dyadic (dlo i) (dlog i)) (dyadic (dhi i) (dlog i)).
Proof. unfold dfi_convert. apply tightest_intro; [apply convert_floor_R|apply convert_ceil_R]. Qed.

Lemma dfi_convert_in i n x : inI x i -> inI x (dfi_convert i n).
Proof. intros H. eapply tightest_in; [apply dfi_convert_ok|exact H]. Qed.

Lemma dfi_convert_up_exact i n : (dlog i <= n)%nat ->
  dyadic (dlo (dfi_convert i n)) n = dyadic (dlo i) (dlog i) /\
  dyadic (dhi (dfi_convert i n)) n = dyadic (dhi i) (dlog i).
Proof.
  intros H. unfold dfi_convert, convert_log2_denom_floor, convert_log2_denom_ceil; cbn [dlo dhi].
  apply Nat.leb_le in H as H'. rewrite H'. clear H'.
  replace n with (dlog i + (n - dlog i))%nat at 2 4 by lia.
  rewrite !dyadic_shl. split; reflexivity.
Qed.

Lemma dfi_from_int_ok v n : dlog (dfi_from_int v n) = n /\
  dyadic (dlo (dfi_from_int v n)) n = IZR v /\ dyadic (dhi (dfi_from_int v n)) n = IZR v.
Proof.
  unfold dfi_from_int, dfi_from_dyadic_fraction; cbn [dlo dhi dlog].
  unfold dyadic. rewrite shl_R. pose proof (p2_pos n). repeat split; field; lra.
Qed.

Lemma dfi_from_int_in v n x : inI x (dfi_from_int v n) <-> x = IZR v.
Proof.
  destruct (dfi_from_int_ok v n) as (Hk & H1 & H2). unfold inI. rewrite Hk, H1, H2.
  split; [lra|intros ->; lra].
Qed.

Lemma dfi_from_int_range_ok l u n :
  if (l <=? u)%Z then exists i, dfi_from_int_range l u n = Ret i /\ dlog i = n /\
     dyadic (dlo i) n = IZR l /\ dyadic (dhi i) n = IZR u
  else dfi_from_int_range l u n = Panic.
Proof.
  unfold dfi_from_int_range, dfi_new. destruct (l <=? u)%Z; [|reflexivity].
  cbn [assert_then rmap rbind]. eexists; split; [reflexivity|]. split; [reflexivity|].
  destruct (dfi_convert_up_exact (DFI l u 0) n (Nat.le_0_l _)) as [-> ->].
  unfold dyadic; cbn [dlo dhi dlog pow]. split; field.
Qed.

(** Constants. *)
Lemma dfi_constants_ok n i x :
  (inI x (dfi_zero n) <-> x = 0) /\ (inI x (dfi_one n) <-> x = 1) /\
  (inI x (dfi_negative_one n) <-> x = -1) /\
  (inI x (dfi_set_zero i) <-> x = 0) /\ (inI x (dfi_set_one i) <-> x = 1) /\
  (inI x (dfi_set_negative_one i) <-> x = -1).
Proof.
  assert (Z0 : forall k, inI x (DFI 0 0 k) <-> x = 0).
  { intros k. unfold inI, dyadic; cbn [dlo dhi dlog]. unfold Rdiv. rewrite Rmult_0_l. split; lra. }
  split; [apply Z0|]. split; [apply dfi_from_int_in|]. split; [apply dfi_from_int_in|].
  split; [apply Z0|]. split; [apply (dfi_from_int_in 1)|].
  pose proof (dfi_from_int_in (-1) (dlog i) x) as H.
  unfold dfi_from_int, dfi_from_dyadic_fraction in H. unfold dfi_set_negative_one.
  replace (- shl 1 (dlog i))%Z with (shl (-1) (dlog i)) by (rewrite !shl_mul; ring). exact H.
Qed.

(** Rational bounds. *)
Lemma dfi_bounds_ok i :
  Q2R (dfi_lower_bound i) = dyadic (dlo i) (dlog i) /\ Q2R (dfi_upper_bound i) = dyadic (dhi i) (dlog i).
Proof.
  assert (H : forall a k, Q2R (Qred (a # two_pow k)) = dyadic a k).
  { intros a k. rewrite (Qeq_eqR _ _ (Qred_correct _)).
    unfold Q2R, dyadic, two_pow; cbn [Qnum Qden]. rewrite Z2Pos.id, shl1_R; [reflexivity|].
    rewrite shl_mul. assert (0 < 2 ^ Z.of_nat k)%Z by (apply Z.pow_pos_nonneg; lia). lia. }
  split; apply H.
Qed.

(** * Binary operations *)
(** A common precision of both operands. *)
Lemma do_op_cases op a b :
  exists a' b' n, n = Nat.max (dlog a) (dlog b) /\
    dlog a' = n /\ dlog b' = n /\
    dyadic (dlo a') n = dyadic (dlo a) (dlog a) /\ dyadic (dhi a') n = dyadic (dhi a) (dlog a) /\
    dyadic (dlo b') n = dyadic (dlo b) (dlog b) /\ dyadic (dhi b') n = dyadic (dhi b) (dlog b) /\
    do_op op a b = (let '(l, u) := op (dlo a') (dhi a') (dlo b') (dhi b') n in DFI l u n).
Proof.
  unfold do_op. destruct (Nat.leb_spec (dlog a) (dlog b)) as [H|H].
  - exists (DFI (shl (dlo a) (dlog b - dlog a)) (shl (dhi a) (dlog b - dlog a)) (dlog b)), b, (dlog b).
    cbn [dlo dhi dlog]. repeat match goal with |- _ /\ _ => split end; try reflexivity; try lia.
    + replace (dlog b) with (dlog a + (dlog b - dlog a))%nat at 2 by lia. apply dyadic_shl.
    + replace (dlog b) with (dlog a + (dlog b - dlog a))%nat at 2 by lia. apply dyadic_shl.
  - exists a, (DFI (shl (dlo b) (dlog a - dlog b)) (shl (dhi b) (dlog a - dlog b)) (dlog a)), (dlog a).
    cbn [dlo dhi dlog]. repeat match goal with |- _ /\ _ => split end; try reflexivity; try lia.
    + replace (dlog a) with (dlog b + (dlog a - dlog b))%nat at 2 by lia. apply dyadic_shl.
    + replace (dlog a) with (dlog b + (dlog a - dlog b))%nat at 2 by lia. apply dyadic_shl.
Qed.

Lemma dyadic_add m n k : dyadic (m + n) k = dyadic m k + dyadic n k.
Proof. unfold dyadic. rewrite plus_IZR. unfold Rdiv. ring. Qed.
Lemma dyadic_sub m n k : dyadic (m - n) k = dyadic m k - dyadic n k.
Proof. unfold dyadic. rewrite minus_IZR. unfold Rdiv. ring. Qed.
Lemma dyadic_opp m k : dyadic (- m) k = - dyadic m k.
Proof. unfold dyadic. rewrite opp_IZR. unfold Rdiv. ring. Qed.

(** Addition and subtraction are exact on the bounds. *)
Lemma dfi_add_bounds a b : dlog (dfi_add a b) = Nat.max (dlog a) (dlog b) /\
  dyadic (dlo (dfi_add a b)) (dlog (dfi_add a b)) = dyadic (dlo a) (dlog a) + dyadic (dlo b) (dlog b) /\
  dyadic (dhi (dfi_add a b)) (dlog (dfi_add a b)) = dyadic (dhi a) (dlog a) + dyadic (dhi b) (dlog b).
Proof.
  unfold dfi_add. 
  destruct (do_op_cases (fun ll lu rl ru _ => (ll + rl, lu + ru)%Z) a b)
    as (a' & b' & n & Hn & Ha & Hb & A1 & A2 & B1 & B2 & ->).
  cbn [dlo dhi dlog]. rewrite !dyadic_add. split; [assumption|]. lra.
Qed.
Lemma dfi_sub_bounds a b : dlog (dfi_sub a b) = Nat.max (dlog a) (dlog b) /\
  dyadic (dlo (dfi_sub a b)) (dlog (dfi_sub a b)) = dyadic (dlo a) (dlog a) - dyadic (dhi b) (dlog b) /\
  dyadic (dhi (dfi_sub a b)) (dlog (dfi_sub a b)) = dyadic (dhi a) (dlog a) - dyadic (dlo b) (dlog b).
Proof.
  unfold dfi_sub. 
  destruct (do_op_cases (fun ll lu rl ru _ => (ll - ru, lu - rl)%Z) a b)
    as (a' & b' & n & Hn & Ha & Hb & A1 & A2 & B1 & B2 & ->).
  cbn [dlo dhi dlog]. rewrite !dyadic_sub. split; [assumption|]. lra.
Qed.

Lemma dfi_add_in a b x y : inI x a -> inI y b -> inI (x + y) (dfi_add a b).
Proof. intros Hx Hy. destruct (dfi_add_bounds a b) as (_ & H1 & H2). unfold inI in *. rewrite H1, H2. lra. Qed.
Lemma dfi_sub_in a b x y : inI x a -> inI y b -> inI (x - y) (dfi_sub a b).
Proof. intros Hx Hy. destruct (dfi_sub_bounds a b) as (_ & H1 & H2). unfold inI in *. rewrite H1, H2. lra. Qed.

Lemma dfi_neg_in a x : inI x a <-> inI (- x) (dfi_neg a).
Proof. unfold inI, dfi_neg; cbn [dlo dhi dlog]. rewrite !dyadic_opp. lra. Qed.

Lemma dyadic_shl0 r n : dyadic (shl r n) n = IZR r.
Proof. unfold dyadic. rewrite shl_R. field. pose proof (p2_pos n); lra. Qed.

Lemma dfi_add_int_in a r x : inI x a <-> inI (x + IZR r) (dfi_add_int a r).
Proof. unfold inI, dfi_add_int; cbn [dlo dhi dlog]. rewrite !dyadic_add, dyadic_shl0. lra. Qed.
Lemma dfi_sub_int_in a r x : inI x a <-> inI (x - IZR r) (dfi_sub_int a r).
Proof. unfold inI, dfi_sub_int; cbn [dlo dhi dlog]. rewrite !dyadic_sub, dyadic_shl0. lra. Qed.

Lemma dfi_from_ratio_in q n : inI (Q2R q) (dfi_from_ratio q n).
Proof. eapply tightest_in; [apply dfi_from_ratio_ok|]. lra. Qed.

Lemma dfi_add_ratio_in a r x : inI x a -> inI (x + Q2R r) (dfi_add_ratio a r).
Proof. intros H. apply dfi_add_in; [assumption|apply dfi_from_ratio_in]. Qed.
Lemma dfi_sub_ratio_in a r x : inI x a -> inI (x - Q2R r) (dfi_sub_ratio a r).
Proof. intros H. apply dfi_sub_in; [assumption|apply dfi_from_ratio_in]. Qed.

(** * Multiplication *)
Lemma take_min_spec bs cur : let '(m, bs') := take_min cur bs in
  (m <= cur)%Z /\ (forall b, In b bs -> (m <= b)%Z) /\
  (forall v, In v (cur :: bs) <-> In v (m :: bs')) /\ length bs' = length bs.
Proof.
  revert cur; induction bs as [|b bs IH]; intros cur; cbn [take_min].
  - repeat split; try lia; try reflexivity; trivial. intros b [].
  - destruct (Z.ltb_spec b cur) as [H|H].
    + specialize (IH b). destruct (take_min b bs) as [m bs']. destruct IH as (I1 & I2 & I3 & I4).
      repeat match goal with |- _ /\ _ => split end.
      * lia.
      * intros v [<-|Hv]; [assumption|auto].
      * intros v. specialize (I3 v). cbn [In] in *. tauto.
      * cbn [length]; lia.
    + specialize (IH cur). destruct (take_min cur bs) as [m bs']. destruct IH as (I1 & I2 & I3 & I4).
      repeat match goal with |- _ /\ _ => split end.
      * lia.
      * intros v [<-|Hv]; [lia|auto].
      * intros v. specialize (I3 v). cbn [In] in *. tauto.
      * cbn [length]; lia.
Qed.

Lemma take_max_spec bs cur : In (take_max cur bs) (cur :: bs) /\
  (cur <= take_max cur bs)%Z /\ (forall b, In b bs -> (b <= take_max cur bs)%Z).
Proof.
  revert cur; induction bs as [|b bs IH]; intros cur; cbn [take_max].
  - repeat split; try lia; [left; reflexivity|]. intros b [].
  - destruct (Z.ltb_spec cur b) as [H|H].
    + destruct (IH b) as (I1 & I2 & I3). repeat split; [right; assumption|lia|].
      intros v [<-|Hv]; [assumption|auto].
    + destruct (IH cur) as (I1 & I2 & I3). repeat split; [cbn [In] in *; tauto|lia|].
      intros v [<-|Hv]; [lia|auto].
Qed.

(** The selection computes the minimum and the maximum of the four products. *)
Lemma mul_select p1 p2 p3 p4 :
  let '(lower, rest) := take_min p1 (p2 :: p3 :: p4 :: nil) in
  let upper := match rest with nil => lower | b :: bs => take_max b bs end in
  lower = Z.min (Z.min p1 p2) (Z.min p3 p4) /\ upper = Z.max (Z.max p1 p2) (Z.max p3 p4).
Proof.
  pose proof (take_min_spec (p2 :: p3 :: p4 :: nil) p1) as H.
  destruct (take_min p1 (p2 :: p3 :: p4 :: nil)) as [lower rest].
  destruct H as (H1 & H2 & H3 & H4).
  destruct rest as [|b bs]; [discriminate|].
  assert (HL : lower = Z.min (Z.min p1 p2) (Z.min p3 p4)).
  { pose proof (H2 p2 ltac:(cbn; tauto)). pose proof (H2 p3 ltac:(cbn; tauto)). pose proof (H2 p4 ltac:(cbn; tauto)).
    destruct (proj2 (H3 lower) ltac:(cbn; tauto)) as [E|[E|[E|[E|[]]]]]; lia. }
  split; [assumption|].
  destruct (take_max_spec bs b) as (T1 & T2 & T3).
  set (u := take_max b bs) in *.
  assert (HU : forall v, In v (p1 :: p2 :: p3 :: p4 :: nil) -> (v <= u)%Z).
  { intros v Hv. apply H3 in Hv. destruct Hv as [<-|[<-|Hv]]; [|assumption|auto].
    assert (In b (p1 :: p2 :: p3 :: p4 :: nil)) as Hb by (apply H3; cbn; tauto).
    assert (lower <= b)%Z by (destruct Hb as [<-|Hb]; [assumption|auto]). lia. }
  assert (HI : In u (p1 :: p2 :: p3 :: p4 :: nil)) by (apply H3; right; assumption).
  pose proof (HU p1 ltac:(cbn; tauto)). pose proof (HU p2 ltac:(cbn; tauto)).
  pose proof (HU p3 ltac:(cbn; tauto)). pose proof (HU p4 ltac:(cbn; tauto)).
  destruct HI as [E|[E|[E|[E|[]]]]]; lia.
Qed.

(** Box bound: a bilinear form on a box is between its values at the corners. *)
Lemma mul_box_le a b c d x y M : a <= x <= b -> c <= y <= d ->
  a * c <= M -> a * d <= M -> b * c <= M -> b * d <= M -> x * y <= M.
Proof.
  intros Hx Hy H1 H2 H3 H4.
  assert (La : a * y <= M).
  { destruct (Rle_dec 0 a); [apply Rle_trans with (a * d); [nra|assumption]|apply Rle_trans with (a * c); [nra|assumption]]. }
  assert (Lb : b * y <= M).
  { destruct (Rle_dec 0 b); [apply Rle_trans with (b * d); [nra|assumption]|apply Rle_trans with (b * c); [nra|assumption]]. }
  destruct (Rle_dec 0 y); [apply Rle_trans with (b * y); [nra|assumption]|apply Rle_trans with (a * y); [nra|assumption]].
Qed.
Lemma mul_box_ge a b c d x y M : a <= x <= b -> c <= y <= d ->
  M <= a * c -> M <= a * d -> M <= b * c -> M <= b * d -> M <= x * y.
Proof.
  intros Hx Hy H1 H2 H3 H4.
  assert (H : (- x) * y <= - M); [|lra].
  apply mul_box_le with (- b) (- a) c d; lra.
Qed.

Lemma dfi_mul_in a b x y : inI x a -> inI y b -> inI (x * y) (dfi_mul a b).
Proof.
  intros Hx Hy. unfold dfi_mul.
  match goal with |- inI _ (do_op ?op a b) => 
    destruct (do_op_cases op a b) as (a' & b' & n & Hn & Ha & Hb & A1 & A2 & B1 & B2 & ->) end.
  pose proof (mul_select (dlo a' * dlo b') (dlo a' * dhi b') (dhi a' * dlo b') (dhi a' * dhi b')) as S.
  destruct (take_min (dlo a' * dlo b') _) as [lower rest].
  destruct S as [SL SU].
  set (upper := match rest with nil => lower | cons b0 bs => take_max b0 bs end) in *.
  unfold inI in Hx, Hy. rewrite <- A1, <- A2 in Hx. rewrite <- B1, <- B2 in Hy.
  rewrite dyadic_le_iff, dyadic_ge_iff in Hx, Hy.
  apply inI_num. cbn [dlo dhi dlog].
  pose proof (p2_pos n) as P.
  assert (L : IZR lower <= (x * 2 ^ n) * (y * 2 ^ n)).
  { apply mul_box_ge with (IZR (dlo a')) (IZR (dhi a')) (IZR (dlo b')) (IZR (dhi b')); try assumption;
      rewrite <- mult_IZR; apply IZR_le; lia. }
  assert (U : (x * 2 ^ n) * (y * 2 ^ n) <= IZR upper).
  { apply mul_box_le with (IZR (dlo a')) (IZR (dhi a')) (IZR (dlo b')) (IZR (dhi b')); try assumption;
      rewrite <- mult_IZR; apply IZR_le; lia. }
  pose proof (shr_R lower n). pose proof (shr_up_R upper n).
  split; (apply mul_le_inv with (2 ^ n); [assumption|]); lra.
Qed.

Lemma dfi_mul_int_in a r x : inI x a -> inI (x * IZR r) (dfi_mul_int a r).
Proof.
  intros Hx. apply inI_num in Hx. apply inI_num. unfold dfi_mul_int.
  destruct (Z.ltb_spec r 0) as [H|H]; cbn [dlo dhi dlog]; rewrite !mult_IZR;
    [apply IZR_lt in H|apply IZR_le in H]; split; nra.
Qed.

Lemma dfi_mul_ratio_in a r x : inI x a -> inI (x * Q2R r) (dfi_mul_ratio a r).
Proof.
  intros Hx. apply inI_num in Hx. apply inI_num. unfold dfi_mul_ratio.
  assert (Hr : (Qnum r < 0)%Z -> Q2R r <= 0).
  { intros H. unfold Q2R. apply IZR_lt in H. 
    assert (0 < / IZR (Zpos (Qden r))) by (apply Rinv_0_lt_compat, IZR_lt; reflexivity). nra. }
  assert (Hr' : (0 <= Qnum r)%Z -> 0 <= Q2R r).
  { intros H. unfold Q2R. apply IZR_le in H. 
    assert (0 < / IZR (Zpos (Qden r))) by (apply Rinv_0_lt_compat, IZR_lt; reflexivity). nra. }
  destruct (Z.ltb_spec (Qnum r) 0) as [H|H]; cbn [dlo dhi dlog].
  - specialize (Hr H). pose proof (Qfloor_R (Qscale r (dhi a))) as F. pose proof (Qceiling_R (Qscale r (dlo a))) as C.
    rewrite Qscale_R in F, C. nra.
  - specialize (Hr' H). pose proof (Qfloor_R (Qscale r (dlo a))) as F. pose proof (Qceiling_R (Qscale r (dhi a))) as C.
    rewrite Qscale_R in F, C. nra.
Qed.

Lemma dfi_square_in a x : inI x a -> inI (x * x) (dfi_square a).
Proof.
  intros Hx. apply inI_num in Hx. apply inI_num. unfold dfi_square, dfi_contains_zero.
  set (n := dlog a) in *. set (l := dlo a) in *. set (u := dhi a) in *.
  set (mn0 := if (l <? 0)%Z then (- l)%Z else l). set (mx0 := if (u <? 0)%Z then (- u)%Z else u).
  assert (Hl : mn0 = Z.abs l) by (unfold mn0; destruct (Z.ltb_spec l 0); lia).
  assert (Hu : mx0 = Z.abs u) by (unfold mx0; destruct (Z.ltb_spec u 0); lia).
  destruct (if (mx0 <? mn0)%Z then (mx0, mn0) else (mn0, mx0)) as [mn mx] eqn:E.
  assert (Hmn : mn = Z.min (Z.abs l) (Z.abs u)) by (destruct (Z.ltb_spec mx0 mn0); injection E as <- <-; lia).
  assert (Hmx : mx = Z.max (Z.abs l) (Z.abs u)) by (destruct (Z.ltb_spec mx0 mn0); injection E as <- <-; lia).
  cbn [dlo dhi dlog]. pose proof (p2_pos n) as P. set (z := x * 2 ^ n) in *.
  assert (Hz : z * z = x * x * 2 ^ n * 2 ^ n) by (unfold z; ring).
  assert (HU : z * z <= IZR (mx * mx)).
  { rewrite mult_IZR. assert (- IZR mx <= z <= IZR mx).
    { rewrite <- opp_IZR. split.
      - apply Rle_trans with (IZR l); [apply IZR_le; lia|lra].
      - apply Rle_trans with (IZR u); [lra|apply IZR_le; lia]. }
    nra. }
  pose proof (shr_up_R (mx * mx) n) as S1.
  split.
  - destruct (negb (0 <? l)%Z && negb (u <? 0)%Z) eqn:C.
    + apply Rmult_le_pos; [|lra]. nra.
    + pose proof (shr_R (mn * mn) n) as S2.
      apply mul_le_inv with (2 ^ n); [assumption|]. rewrite <- Hz.
      apply Rle_trans with (IZR (mn * mn)); [lra|]. rewrite mult_IZR.
      assert (HLU : (l <= u)%Z) by (apply le_IZR; lra).
      apply andb_false_iff in C. rewrite !negb_false_iff, !Z.ltb_lt in C.
      destruct C as [C|C].
      * assert (E1 : mn = l) by lia. rewrite E1. apply IZR_lt in C. nra.
      * assert (E1 : mn = (- u)%Z) by lia. rewrite E1, opp_IZR. apply IZR_lt in C. nra.
  - apply mul_le_inv with (2 ^ n); [assumption|]. rewrite <- Hz. lra.
Qed.

(** * Reciprocal and division *)
Lemma div_floor_R a b : (b <> 0)%Z -> IZR (div_floor a b) <= IZR a / IZR b < IZR (div_floor a b) + 1.
Proof.
  intros Hb. unfold div_floor. pose proof (Z.div_mod a b Hb) as E.
  apply (f_equal IZR) in E. rewrite plus_IZR, mult_IZR in E.
  assert (Hb' : IZR b <> 0) by (apply not_0_IZR; assumption).
  replace (IZR a / IZR b) with (IZR (a / b) + IZR (a mod b) / IZR b) by (rewrite E; field; assumption).
  assert (0 <= IZR (a mod b) / IZR b < 1); [|lra].
  destruct (Z.lt_trichotomy b 0) as [H|[H|H]]; [|contradiction|].
  - pose proof (Z.mod_neg_bound a b H) as [M1 M2].
    apply IZR_lt in M1. apply IZR_le in M2. apply IZR_lt in H.
    replace (IZR (a mod b) / IZR b) with ((- IZR (a mod b)) / (- IZR b)) by (field; assumption).
    split.
    + apply Rmult_le_pos; [lra|]. left; apply Rinv_0_lt_compat; lra.
    + apply Rmult_lt_reg_r with (- IZR b); [lra|]. unfold Rdiv. rewrite Rmult_assoc, Rinv_l; lra.
  - pose proof (Z.mod_pos_bound a b H) as [M1 M2].
    apply IZR_le in M1. apply IZR_lt in M2. apply IZR_lt in H.
    split.
    + apply Rmult_le_pos; [lra|]. left; apply Rinv_0_lt_compat; lra.
    + apply Rmult_lt_reg_r with (IZR b); [lra|]. unfold Rdiv. rewrite Rmult_assoc, Rinv_l; lra.
Qed.
Lemma div_ceil_R a b : (b <> 0)%Z -> IZR (div_ceil a b) - 1 < IZR a / IZR b <= IZR (div_ceil a b).
Proof.
  intros Hb. unfold div_ceil. rewrite opp_IZR.
  pose proof (div_floor_R (- a) b Hb) as H. unfold div_floor in H. rewrite opp_IZR in H.
  assert (Hb' : IZR b <> 0) by (apply not_0_IZR; assumption).
  replace (- IZR a / IZR b) with (- (IZR a / IZR b)) in H by (field; assumption). lra.
Qed.

Lemma inv_antitone a b : (0 < a /\ 0 < b) \/ (a < 0 /\ b < 0) -> a <= b -> / b <= / a.
Proof.
  intros [[H H']|[H H']] L.
  - apply Rinv_le_contravar; assumption.
  - assert (/ - a <= / - b) by (apply Rinv_le_contravar; lra).
    rewrite !Rinv_opp in *. lra.
Qed.

Lemma contains_zero_spec i : dfi_contains_zero i = true <-> inI 0 i.
Proof.
  unfold dfi_contains_zero. rewrite inI_num, Rmult_0_l.
  rewrite andb_true_iff, !negb_true_iff, !Z.ltb_ge. split; intros [H1 H2]; split.
  - apply (IZR_le _ 0); assumption. 
  - apply (IZR_le 0); assumption.
  - apply le_IZR; assumption.
  - apply le_IZR; assumption.
Qed.

Lemma recip_bounds i y : dfi_contains_zero i = false -> inI y i ->
  y <> 0 /\ (dlo i <> 0)%Z /\ (dhi i <> 0)%Z /\
  / IZR (dhi i) <= / (y * 2 ^ dlog i) <= / IZR (dlo i).
Proof.
  intros Hc Hy. apply inI_num in Hy. pose proof (p2_pos (dlog i)) as P.
  unfold dfi_contains_zero in Hc. apply andb_false_iff in Hc. rewrite !negb_false_iff, !Z.ltb_lt in Hc.
  assert (HLU : (dlo i <= dhi i)%Z) by (apply le_IZR; lra).
  assert (S : (0 < dlo i)%Z \/ (dhi i < 0)%Z) by tauto. clear Hc.
  destruct S as [S|S]; apply IZR_lt in S as SR.
  - split; [intros ->; lra|]. split; [lia|]. split; [lia|].
    split; apply inv_antitone; try lra; left; lra.
  - split; [intros ->; lra|]. split; [lia|]. split; [lia|].
    split; apply inv_antitone; try lra; right; lra.
Qed.

Lemma dfi_checked_recip_in i r y : dfi_checked_recip i = Some r -> inI y i -> inI (/ y) r /\ y <> 0.
Proof.
  unfold dfi_checked_recip. destruct (dfi_contains_zero i) eqn:C; [discriminate|].
  intros E Hy. injection E as <-.
  destruct (recip_bounds i y C Hy) as (Hy0 & Hl & Hu & B1 & B2). split; [|assumption].
  apply inI_num; cbn [dlo dhi dlog]. set (n := dlog i) in *. pose proof (p2_pos n) as P.
  pose proof (div_floor_R (shl 1 (2 * n)) (dhi i) Hu) as F.
  pose proof (div_ceil_R (shl 1 (2 * n)) (dlo i) Hl) as G.
  rewrite shl1_R in F, G.
  assert (E2 : 2 ^ (2 * n) = 2 ^ n * 2 ^ n) by (rewrite <- pow_add; f_equal; lia).
  rewrite E2 in F, G. unfold Rdiv in F, G.
  assert (E : / y * 2 ^ n = 2 ^ n * 2 ^ n * / (y * 2 ^ n)) by (field; split; lra).
  rewrite E. assert (0 < 2 ^ n * 2 ^ n) by nra.
  split.
  - apply Rle_trans with (2 ^ n * 2 ^ n * / IZR (dhi i)); [apply F|]. apply Rmult_le_compat_l; [left; assumption|assumption].
  - apply Rle_trans with (2 ^ n * 2 ^ n * / IZR (dlo i)); [|apply G]. apply Rmult_le_compat_l; [left; assumption|assumption].
Qed.

Lemma dfi_checked_recip_none i : dfi_checked_recip i = None <-> inI 0 i.
Proof.
  rewrite <- contains_zero_spec. unfold dfi_checked_recip.
  destruct (dfi_contains_zero i); split; intros; try reflexivity; discriminate.
Qed.

(** Division is defined exactly when zero is not in the divisor. *)
Lemma dfi_div_ok a b : dfi_ok b ->
  (inI 0 b -> dfi_checked_recip b = None /\ dfi_recip b = Panic /\
              dfi_checked_div a b = None /\ dfi_div a b = Panic) /\
  (~ inI 0 b -> exists r q, dfi_checked_recip b = Some r /\ dfi_recip b = Ret r /\
       dfi_checked_div a b = Some q /\ dfi_div a b = Ret q /\
       forall x y, inI x a -> inI y b -> inI (/ y) r /\ inI (x / y) q).
Proof.
  intros Hok. unfold dfi_checked_div, dfi_div, dfi_recip. split.
  - intros H. apply dfi_checked_recip_none in H. rewrite H. repeat split.
  - intros H. rewrite <- dfi_checked_recip_none in H.
    destruct (dfi_checked_recip b) as [r|] eqn:E; [|contradiction].
    exists r, (dfi_mul a r). cbn [unwrap rmap rbind]. repeat match goal with |- _ /\ _ => split end; try reflexivity.
    intros x y Hx Hy. destruct (dfi_checked_recip_in b r y E Hy). split; [assumption|].
    apply dfi_mul_in; assumption.
Qed.

Lemma Q2R_red q : Q2R (Qred q) = Q2R q.
Proof. apply Qeq_eqR, Qred_correct. Qed.

Lemma ratio_new_R n d q : ratio_new n d = Ret q -> (d <> 0)%Z /\ Q2R q = IZR n / IZR d.
Proof.
  unfold ratio_new. destruct d as [|p|p]; intros E; try discriminate;
    (match type of E with Ret ?t = Ret _ => assert (X : q = t) by congruence end); rewrite X; clear X E;
    (split; [discriminate|]); rewrite Q2R_red; unfold Q2R; cbn [Qnum Qden]; [reflexivity|].
  rewrite opp_IZR. change (Z.neg p) with (- Z.pos p)%Z. rewrite opp_IZR.
  assert (IZR (Z.pos p) <> 0) by (apply not_0_IZR; discriminate). field. assumption.
Qed.

Lemma ratio_new_ret n d : (d <> 0)%Z -> exists q, ratio_new n d = Ret q.
Proof. destruct d as [|p|p]; [contradiction| |]; intros _; eexists; reflexivity. Qed.

Lemma dfi_div_int_in a r : 
  (r = 0%Z -> dfi_div_int a r = Panic) /\
  (r <> 0%Z -> exists q, dfi_div_int a r = Ret q /\ dlog q = dlog a /\ forall x, inI x a -> inI (x / IZR r) q).
Proof.
  unfold dfi_div_int. split; [intros ->; reflexivity|].
  intros H. destruct (ratio_new_ret 1 r H) as [q E]. rewrite E. cbn [rmap rbind].
  eexists; split; [reflexivity|]. split; [unfold dfi_mul_ratio; destruct (Qnum q <? 0)%Z; reflexivity|].
  intros x Hx. destruct (ratio_new_R _ _ _ E) as [_ Eq].
  replace (x / IZR r) with (x * Q2R q) by (rewrite Eq; unfold Rdiv; ring). apply dfi_mul_ratio_in; assumption.
Qed.

Lemma dfi_div_ratio_in a r : 
  (Q2R r = 0 -> dfi_div_ratio a r = Panic) /\
  (Q2R r <> 0 -> exists q, dfi_div_ratio a r = Ret q /\ forall x, inI x a -> inI (x / Q2R r) q).
Proof.
  unfold dfi_div_ratio, ratio_recip.
  assert (HD : IZR (Z.pos (Qden r)) <> 0) by (apply not_0_IZR; discriminate).
  split.
  - intros H. assert (E : Qnum r = 0%Z).
    { unfold Q2R in H. apply Rmult_integral in H. destruct H as [H|H]; [apply eq_IZR; exact H|].
      exfalso. apply (Rinv_neq_0_compat _ HD H). }
    rewrite E. reflexivity.
  - intros H. assert (E : Qnum r <> 0%Z).
    { intros E. apply H. unfold Q2R. rewrite E. ring. }
    destruct (ratio_new_ret (Z.pos (Qden r)) (Qnum r) E) as [q Eq]. rewrite Eq. cbn [rmap rbind].
    eexists; split; [reflexivity|]. intros x Hx. destruct (ratio_new_R _ _ _ Eq) as [_ Eq'].
    assert (HN : IZR (Qnum r) <> 0) by (apply not_0_IZR; assumption).
    replace (x / Q2R r) with (x * Q2R q).
    + apply dfi_mul_ratio_in; assumption.
    + rewrite Eq'. unfold Q2R. field. split; assumption.
Qed.

(** * Square root *)
Lemma Zsqrt_R a : (0 <= a)%Z -> IZR (Z.sqrt a) <= R_sqrt.sqrt (IZR a) < IZR (Z.sqrt a) + 1.
Proof.
  intros H. pose proof (Z.sqrt_spec a H) as [S1 S2]. pose proof (Z.sqrt_nonneg a) as S0.
  apply IZR_le in S1. apply IZR_lt in S2. apply IZR_le in S0. apply IZR_le in H as HR.
  rewrite mult_IZR in S1. rewrite mult_IZR in S2.
  rewrite succ_IZR in S2.
  split.
  - rewrite <- (sqrt_square (IZR (Z.sqrt a))) at 1 by assumption. apply sqrt_le_1_alt; assumption.
  - rewrite <- (sqrt_square (IZR (Z.sqrt a) + 1)) by lra. apply sqrt_lt_1_alt. lra.
Qed.

Lemma sqrt_scale x n : 0 <= x -> R_sqrt.sqrt x * 2 ^ n = R_sqrt.sqrt (x * 2 ^ n * 2 ^ n).
Proof.
  intros H. pose proof (p2_pos n). rewrite Rmult_assoc, sqrt_mult by nra. rewrite sqrt_square; lra.
Qed.

Lemma dfi_sqrt_ok i : dfi_ok i ->
  ((dlo i < 0)%Z -> dfi_sqrt i = Panic) /\
  ((0 <= dlo i)%Z -> exists r, dfi_sqrt i = Ret r /\
     tightest r (dlog i) (R_sqrt.sqrt (dyadic (dlo i) (dlog i))) (R_sqrt.sqrt (dyadic (dhi i) (dlog i)))).
Proof.
  intros Hok. unfold dfi_sqrt, bigint_sqrt. set (n := dlog i).
  assert (HP : (0 < 2 ^ Z.of_nat n)%Z) by (apply Z.pow_pos_nonneg; lia).
  split; intros H.
  - replace (shl (dlo i) n <? 0)%Z with true; [reflexivity|]. symmetry; apply Z.ltb_lt. rewrite shl_mul. nia.
  - unfold dfi_ok in Hok. assert (L0 : (0 <= shl (dlo i) n)%Z) by (rewrite shl_mul; nia).
    assert (U0 : (0 <= shl (dhi i) n)%Z) by (rewrite shl_mul; nia).
    replace (shl (dlo i) n <? 0)%Z with false by (symmetry; apply Z.ltb_ge; assumption).
    replace (shl (dhi i) n <? 0)%Z with false by (symmetry; apply Z.ltb_ge; assumption).
    cbn [rbind]. eexists; split; [reflexivity|].
    assert (S : forall a, (0 <= a)%Z -> R_sqrt.sqrt (dyadic a n) * 2 ^ n = R_sqrt.sqrt (IZR (shl a n))).
    { intros a Ha. rewrite sqrt_scale, dyadic_mul, shl_R; [reflexivity|].
      apply dyadic_ge_iff. rewrite Rmult_0_l. apply (IZR_le 0); assumption. }
    apply tightest_intro; rewrite S by lia.
    + apply Zsqrt_R; assumption.
    + pose proof (Zsqrt_R _ U0) as Q. set (s := Z.sqrt (shl (dhi i) n)) in *.
      destruct (Z.eqb_spec (s * s) (shl (dhi i) n)) as [E|E].
      * rewrite <- E, mult_IZR, sqrt_square; [lra|]. apply (IZR_le 0). apply Z.sqrt_nonneg.
      * rewrite plus_IZR. split; [|lra].
        destruct (Req_dec (IZR s) (R_sqrt.sqrt (IZR (shl (dhi i) n)))) as [E'|E']; [|lra].
        exfalso. apply E. apply eq_IZR. rewrite mult_IZR, E'. apply sqrt_sqrt. apply (IZR_le 0); assumption.
Qed.

Lemma dfi_sqrt_in i r x : dfi_sqrt i = Ret r -> inI x i -> 0 <= x /\ inI (R_sqrt.sqrt x) r.
Proof.
  intros E Hx. pose proof (inI_ok _ _ Hx) as Hok.
  destruct (dfi_sqrt_ok i Hok) as [H1 H2].
  destruct (Z.lt_ge_cases (dlo i) 0) as [H|H]; [rewrite (H1 H) in E; discriminate|].
  destruct (H2 H) as (r' & Er & T). rewrite E in Er. injection Er as <-.
  assert (L : 0 <= dyadic (dlo i) (dlog i)).
  { apply dyadic_ge_iff. rewrite Rmult_0_l. apply (IZR_le 0); assumption. }
  destruct Hx as [Hx1 Hx2]. split; [lra|].
  eapply tightest_in; [exact T|]. split; apply sqrt_le_1_alt; assumption.
Qed.

(** * abs, union, floor, ceil *)
Lemma dfi_abs_ok i : dfi_ok i -> forall y, inI y (dfi_abs i) <-> exists x, inI x i /\ y = Rabs x.
Proof.
  intros Hok y. unfold dfi_ok in Hok.
  assert (D : dfi_abs i = DFI (if dfi_contains_zero i then 0 else Z.min (Z.abs (dlo i)) (Z.abs (dhi i)))
                              (Z.max (Z.abs (dlo i)) (Z.abs (dhi i))) (dlog i)).
  { unfold dfi_abs.
    assert (E1 : (if (dlo i <? 0)%Z then (- dlo i)%Z else dlo i) = Z.abs (dlo i)) by (destruct (Z.ltb_spec (dlo i) 0); lia).
    assert (E2 : (if (dhi i <? 0)%Z then (- dhi i)%Z else dhi i) = Z.abs (dhi i)) by (destruct (Z.ltb_spec (dhi i) 0); lia).
    rewrite E1, E2. destruct (Z.ltb_spec (Z.abs (dhi i)) (Z.abs (dlo i))) as [H|H]; cbn beta iota zeta.
    - rewrite Z.min_r, Z.max_l by lia. reflexivity.
    - rewrite Z.min_l, Z.max_r by lia. reflexivity. }
  rewrite D. clear D.
  pose proof (p2_pos (dlog i)) as P.
  assert (Y : forall v, v = v * 2 ^ dlog i / 2 ^ dlog i) by (intros; field; lra).
  assert (HR : IZR (dlo i) <= IZR (dhi i)) by (apply IZR_le; assumption).
  destruct (Z.le_gt_cases 0 (dlo i)) as [Hl|Hl]; [|destruct (Z.le_gt_cases (dhi i) 0) as [Hu|Hu]].
  - (* non-negative interval *)
    assert (EI : DFI (if dfi_contains_zero i then 0 else Z.min (Z.abs (dlo i)) (Z.abs (dhi i)))
                     (Z.max (Z.abs (dlo i)) (Z.abs (dhi i))) (dlog i) = i).
    { unfold dfi_contains_zero. destruct i as [a b n]; cbn [dlo dhi dlog] in *.
      destruct (Z.ltb_spec 0 a); destruct (Z.ltb_spec b 0); cbn [negb andb]; f_equal; lia. }
    rewrite EI. apply IZR_le in Hl as HlR.
    assert (NN : forall x, inI x i -> 0 <= x).
    { intros x [Hx _]. apply Rle_trans with (dyadic (dlo i) (dlog i)); [|assumption].
      apply dyadic_ge_iff. lra. }
    split.
    + intros H. exists y. split; [assumption|]. symmetry; apply Rabs_right. apply Rle_ge, NN, H.
    + intros (x & Hx & ->). rewrite Rabs_right; [assumption|]. apply Rle_ge, NN, Hx.
  - (* non-positive interval *)
    assert (EI : DFI (if dfi_contains_zero i then 0 else Z.min (Z.abs (dlo i)) (Z.abs (dhi i)))
                     (Z.max (Z.abs (dlo i)) (Z.abs (dhi i))) (dlog i) = dfi_neg i).
    { unfold dfi_contains_zero, dfi_neg. destruct i as [a b n]; cbn [dlo dhi dlog] in *.
      destruct (Z.ltb_spec 0 a); destruct (Z.ltb_spec b 0); cbn [negb andb]; f_equal; lia. }
    rewrite EI. apply IZR_le in Hu as HuR.
    assert (NN : forall x, inI x i -> x <= 0).
    { intros x [_ Hx]. apply Rle_trans with (dyadic (dhi i) (dlog i)); [assumption|].
      apply dyadic_le_iff. lra. }
    split.
    + intros H. replace y with (- - y) in H by ring. apply dfi_neg_in in H. exists (- y). split; [assumption|].
      rewrite Rabs_left1; [ring|]. apply NN; assumption.
    + intros (x & Hx & ->). rewrite Rabs_left1 by (apply NN; assumption). apply -> dfi_neg_in. assumption.
  - (* zero strictly inside *)
    assert (C : dfi_contains_zero i = true).
    { apply contains_zero_spec. apply inI_num. rewrite Rmult_0_l.
      split; apply (IZR_le _ _); lia. }
    rewrite C. rewrite inI_num; cbn [dlo dhi dlog].
    apply IZR_lt in Hl as HlR. apply IZR_lt in Hu as HuR.
    split.
    + intros [H1 H2].
      assert (Hy : 0 <= y) by (apply mul_le_inv with (2 ^ dlog i); lra).
      destruct (Z.max_spec (Z.abs (dlo i)) (Z.abs (dhi i))) as [[_ E]|[_ E]]; rewrite E in H2.
      * exists y. split; [|rewrite Rabs_right; lra]. apply inI_num. rewrite Z.abs_eq in H2 by lia. lra.
      * exists (- y). split; [|rewrite Rabs_Ropp, Rabs_right; lra]. apply inI_num.
        rewrite Z.abs_neq, opp_IZR in H2 by lia. lra.
    + intros (x & Hx & ->). apply inI_num in Hx. split.
      * apply Rmult_le_pos; [apply Rabs_pos|lra].
      * replace (Rabs x * 2 ^ dlog i) with (Rabs (x * 2 ^ dlog i))
          by (rewrite Rabs_mult, (Rabs_right (2 ^ dlog i)); [reflexivity|lra]).
        assert (M1 : - IZR (dlo i) <= IZR (Z.max (Z.abs (dlo i)) (Z.abs (dhi i)))).
        { rewrite <- opp_IZR. apply IZR_le; lia. }
        assert (M2 : IZR (dhi i) <= IZR (Z.max (Z.abs (dlo i)) (Z.abs (dhi i)))) by (apply IZR_le; lia).
        apply Rabs_le. lra.
Qed.

Lemma dfi_union_bounds a b : dlog (dfi_union a b) = Nat.max (dlog a) (dlog b) /\
  dyadic (dlo (dfi_union a b)) (dlog (dfi_union a b)) = Rmin (dyadic (dlo a) (dlog a)) (dyadic (dlo b) (dlog b)) /\
  dyadic (dhi (dfi_union a b)) (dlog (dfi_union a b)) = Rmax (dyadic (dhi a) (dlog a)) (dyadic (dhi b) (dlog b)).
Proof.
  unfold dfi_union.
  match goal with |- context [do_op ?op a b] => 
    destruct (do_op_cases op a b) as (a' & b' & n & Hn & Ha & Hb & A1 & A2 & B1 & B2 & ->) end.
  cbn [dlo dhi dlog]. rewrite <- A1, <- A2, <- B1, <- B2. split; [assumption|]. split.
  - destruct (Z.ltb_spec (dlo b') (dlo a')) as [H|H].
    + rewrite Rmin_right; [reflexivity|]. apply dyadic_le; lia.
    + rewrite Rmin_left; [reflexivity|]. apply dyadic_le; lia.
  - destruct (Z.ltb_spec (dhi a') (dhi b')) as [H|H].
    + rewrite Rmax_right; [reflexivity|]. apply dyadic_le; lia.
    + rewrite Rmax_left; [reflexivity|]. apply dyadic_le; lia.
Qed.

Lemma dfi_union_in a b x : inI x a \/ inI x b -> inI x (dfi_union a b).
Proof.
  intros H. destruct (dfi_union_bounds a b) as (_ & H1 & H2). unfold inI in *. rewrite H1, H2.
  pose proof (Rmin_l (dyadic (dlo a) (dlog a)) (dyadic (dlo b) (dlog b))).
  pose proof (Rmin_r (dyadic (dlo a) (dlog a)) (dyadic (dlo b) (dlog b))).
  pose proof (Rmax_l (dyadic (dhi a) (dlog a)) (dyadic (dhi b) (dlog b))).
  pose proof (Rmax_r (dyadic (dhi a) (dlog a)) (dyadic (dhi b) (dlog b))).
  destruct H; lra.
Qed.

(** floor/ceil of reals as integers *)
Lemma dfi_floor_ok i n x (k : Z) : inI x i -> IZR k <= x < IZR k + 1 -> inI (IZR k) (dfi_floor i n).
Proof.
  intros Hx Hk. apply inI_num in Hx. unfold dfi_floor. apply dfi_convert_in. unfold inI, dyadic; cbn [dlo dhi dlog pow].
  pose proof (shr_R (dlo i) (dlog i)). pose proof (shr_R (dhi i) (dlog i)). pose proof (p2_pos (dlog i)) as P.
  split.
  - assert (H1 : (shr (dlo i) (dlog i) <= k)%Z); [|apply IZR_le in H1; lra].
    apply le_of_lt_succ. apply Rle_lt_trans with x; [|lra].
    apply mul_le_inv with (2 ^ dlog i); lra.
  - assert (H1 : (k <= shr (dhi i) (dlog i))%Z); [|apply IZR_le in H1; lra].
    apply le_of_lt_succ. apply Rle_lt_trans with x; [lra|].
    apply Rmult_lt_reg_r with (2 ^ dlog i); lra.
Qed.
Lemma dfi_ceil_ok i n x (k : Z) : inI x i -> IZR k - 1 < x <= IZR k -> inI (IZR k) (dfi_ceil i n).
Proof.
  intros Hx Hk. apply inI_num in Hx. unfold dfi_ceil. apply dfi_convert_in. unfold inI, dyadic; cbn [dlo dhi dlog pow].
  pose proof (shr_up_R (dlo i) (dlog i)). pose proof (shr_up_R (dhi i) (dlog i)). pose proof (p2_pos (dlog i)) as P.
  split.
  - assert (H1 : (shr_up (dlo i) (dlog i) <= k)%Z); [|apply IZR_le in H1; lra].
    apply le_of_lt_succ. apply Rlt_le_trans with (x + 1); [|lra].
    apply Rmult_lt_reg_r with (2 ^ dlog i); lra.
  - assert (H1 : (k <= shr_up (dhi i) (dlog i))%Z); [|apply IZR_le in H1; lra].
    apply le_of_lt_succ. apply Rlt_le_trans with (x + 1); [lra|].
    apply Rplus_le_compat_r. apply mul_le_inv with (2 ^ dlog i); lra.
Qed.
