From Coq Require Import ZArith QArith Qround Qreals Reals Lra Lia Bool List.
From Verif Require Import M_Base M_Traits M_Interval M_IntervalExp S_Interval P_Interval P_LogSeries.
Local Open Scope R_scope.

Lemma rfold_seq {A} (P : nat -> A -> Prop) (f : A -> nat -> res A) len : forall start a, P start a ->
  (forall i a, (start <= i < start + len)%nat -> P i a -> exists a', f a i = Ret a' /\ P (S i) a') ->
  exists a', rfold f (seq start len) a = Ret a' /\ P (start + len)%nat a'.
Proof.
  induction len as [|len IH]; intros start a H0 HS; cbn [seq rfold].
  - exists a. rewrite Nat.add_0_r. split; [reflexivity|assumption].
  - destruct (HS start a ltac:(lia) H0) as (a1 & E & H1). rewrite E; cbn [rbind].
    destruct (IH (S start) a1 H1) as (a2 & E2 & H2).
    { intros i a' Hi. apply HS. lia. }
    exists a2. split; [exact E2|]. replace (start + S len)%nat with (S start + len)%nat by lia. exact H2.
Qed.

Lemma p2_mono m n : (m <= n)%nat -> 2 ^ m <= 2 ^ n.
Proof. intros H. apply Rle_pow; [lra|assumption]. Qed.

Lemma dfi_add_log_num a b : dlog a = dlog b ->
  dfi_add a b = DFI (dlo a + dlo b) (dhi a + dhi b) (dlog b).
Proof.
  intros H. unfold dfi_add, do_op. rewrite H, Nat.leb_refl, Nat.sub_diag. unfold shl. rewrite !Z.shiftl_0_r. reflexivity.
Qed.

Lemma from_ratio_width q n : (dhi (dfi_from_ratio q n) - dlo (dfi_from_ratio q n) <= 1)%Z.
Proof.
  unfold dfi_from_ratio; cbn [dlo dhi]. set (r := (shl (Qnum q) n # Qden q)%Q).
  pose proof (Qfloor_R r). pose proof (Qceiling_R r).
  apply Z.lt_succ_r. apply lt_IZR. rewrite succ_IZR, minus_IZR. lra.
Qed.

Lemma inv_p2 n : (/ 2) ^ n = / 2 ^ n.
Proof. apply pow_inv. Qed.

(** * ln 2 *)
Lemma ln2_compute_ok n : exists i, ln2_compute n = Ret i /\ dlog i = ln2_working n /\ inI (ln 2) i /\
  (0 < dhi i - dlo i <= Z.of_nat (ln2_working n))%Z.
Proof.
  unfold ln2_compute. set (w := ln2_working n). assert (Hw : (10 <= w)%nat) by (unfold w, ln2_working; lia).
  destruct (rfold_seq (fun i acc => dlog acc = w /\ inI (lnS (i - 1) (1 / 2)) acc /\ (dhi acc - dlo acc <= Z.of_nat (i - 1))%Z)
    (fun acc i => (q <- ratio_new 1 (shl (Z.of_nat i) i);; Ret (dfi_add acc (dfi_from_ratio q w)))%res)
    (w - 1) 1 (dfi_zero w)) as (r & E & Lr & Ir & Wr).
  - split; [reflexivity|]. split; [|cbn; lia]. apply (proj1 (dfi_constants_ok w (dfi_zero w) _)). reflexivity.
  - intros i acc Hi (L & I & W).
    assert (Hz : (shl (Z.of_nat i) i <> 0)%Z).
    { rewrite shl_mul. apply Z.neq_mul_0. split; [lia|]. apply Z.pow_nonzero; lia. }
    destruct (ratio_new_ret 1 _ Hz) as [q Eq]. rewrite Eq; cbn [rbind].
    eexists; split; [reflexivity|]. destruct (ratio_new_R _ _ _ Eq) as [_ Rq].
    rewrite (dfi_add_log_num acc (dfi_from_ratio q w)) by (rewrite L; reflexivity).
    split; [reflexivity|]. split.
    + rewrite <- (dfi_add_log_num acc (dfi_from_ratio q w)) by (rewrite L; reflexivity).
      replace (S i - 1)%nat with (S (i - 1))%nat by lia. cbn [lnS]. apply dfi_add_in; [exact I|].
      replace ((1 / 2) ^ S (i - 1) / INR (S (i - 1))) with (Q2R q); [apply dfi_from_ratio_in|].
      rewrite Rq, shl_R. replace (S (i - 1)) with i by lia. rewrite INR_IZR_INZ.
      assert (IZR (Z.of_nat i) <> 0) by (apply not_0_IZR; lia).
      replace (1 / 2) with (/ 2) by lra. rewrite inv_p2. pose proof (p2_pos i). field. split; lra.
    + cbn [dlo dhi]. pose proof (from_ratio_width q w). lia.
  - rewrite E; cbn [rbind]. eexists; split; [reflexivity|]. cbn [dlo dhi dlog].
    replace (1 + (w - 1))%nat with w in * by lia.
    split; [assumption|]. split; [|pose proof (inI_ok _ _ Ir) as Or; unfold dfi_ok in Or; lia].
    apply inI_num in Ir. apply inI_num. cbn [dlo dhi dlog]. rewrite plus_IZR, Lr in *.
    pose proof (lnS_bounds (w - 1) (1 / 2) ltac:(lra)) as B.
    replace (1 - 1 / 2) with (/ 2) in B by lra. rewrite ln_Rinv, Ropp_involutive in B by lra.
    replace (S (w - 1)) with w in B by lia. pose proof (p2_pos w) as P.
    assert (T : 2 * ((1 / 2) ^ w / INR w) * 2 ^ w <= 1).
    { replace (1 / 2) with (/ 2) by lra. rewrite inv_p2.
      assert (10 <= INR w) by (replace 10 with (INR 10) by (cbn; ring); apply le_INR; assumption).
      replace (2 * (/ 2 ^ w / INR w) * 2 ^ w) with (2 / INR w) by (field; split; lra).
      apply mul_le_inv with (INR w); [lra|]. unfold Rdiv. rewrite Rmult_assoc, Rinv_l; lra. }
    nra.
Qed.

(** Converting a narrow interval to a smaller precision keeps it narrow. *)
Lemma convert_width i n : (IZR (dhi i) - IZR (dlo i)) / 2 ^ dlog i * 2 ^ n < 2 -> (dhi (dfi_convert i n) - dlo (dfi_convert i n) <= 3)%Z.
Proof.
  intros H. unfold dfi_convert; cbn [dlo dhi].
  pose proof (convert_floor_R (dlo i) (dlog i) n) as F. pose proof (convert_ceil_R (dhi i) (dlog i) n) as C.
  cbn zeta in F, C. set (l := convert_log2_denom_floor _ _ _) in *. set (u := convert_log2_denom_ceil _ _ _) in *.
  assert (D : dyadic (dhi i) (dlog i) * 2 ^ n - dyadic (dlo i) (dlog i) * 2 ^ n < 2).
  { unfold dyadic. replace (IZR (dhi i) / 2 ^ dlog i * 2 ^ n - IZR (dlo i) / 2 ^ dlog i * 2 ^ n)
      with ((IZR (dhi i) - IZR (dlo i)) / 2 ^ dlog i * 2 ^ n) by (field; apply Rgt_not_eq, p2_pos). assumption. }
  assert (IZR u - IZR l < 4) by lra. rewrite <- minus_IZR in H0. apply (lt_IZR _ 4) in H0. lia.
Qed.

Lemma convert_strict i n : (dlo i < dhi i)%Z -> (0 < dhi (dfi_convert i n) - dlo (dfi_convert i n))%Z.
Proof.
  intros H. unfold dfi_convert; cbn [dlo dhi].
  pose proof (convert_floor_R (dlo i) (dlog i) n) as F. pose proof (convert_ceil_R (dhi i) (dlog i) n) as C.
  cbn zeta in F, C. set (l := convert_log2_denom_floor _ _ _) in *. set (u := convert_log2_denom_ceil _ _ _) in *.
  assert (D : dyadic (dlo i) (dlog i) * 2 ^ n < dyadic (dhi i) (dlog i) * 2 ^ n).
  { apply Rmult_lt_compat_r; [apply p2_pos|]. unfold dyadic. apply Rmult_lt_compat_r; [apply Rinv_0_lt_compat, p2_pos|]. apply IZR_lt. assumption. }
  assert (l < u)%Z by (apply lt_IZR; lra). lia.
Qed.

Lemma ln2_working_small n : INR (ln2_working n) * 2 ^ n <= 2 ^ ln2_working n.
Proof.
  unfold ln2_working, usize_floor_log2. rewrite !pow_add, !plus_INR.
  pose proof (p2_pos n). set (l := Nat.log2 (n + 1)).
  assert (H1 : INR (n + 1) < 2 * 2 ^ l).
  { pose proof (Nat.log2_spec (n + 1) ltac:(lia)) as [_ S]. apply lt_INR in S. rewrite pow_INR in S. cbn [pow] in S. exact S. }
  assert (H2 : INR l <= 2 ^ l).
  { clear. induction l as [|l IH]; [cbn; lra|]. rewrite S_INR. cbn [pow]. pose proof (p2_ge1 l). lra. }
  rewrite plus_INR in H1. pose proof (pos_INR n). pose proof (p2_ge1 l).
  replace (INR 10) with 10 by (cbn; ring). change (INR 1) with 1 in H1.
  replace (2 ^ 10) with 1024 by (cbn; ring).
  assert (INR n + 10 + INR l <= 1024 * 2 ^ l) by lra. nra.
Qed.

(** With an empty cache natural_log_of_2 computes at a precision at least the
    requested one and converts. *)
Lemma ln2_converted_ok m n i : (n <= m)%nat -> ln2_compute m = Ret i -> ln2_ok n (dfi_convert i n).
Proof.
  intros Hm E. destruct (ln2_compute_ok m) as (i' & E' & L & I & W). rewrite E in E'. injection E' as <-.
  split; [reflexivity|]. split; [apply dfi_convert_in; assumption|]. split; [apply convert_strict; lia|]. apply convert_width.
  rewrite L. pose proof (ln2_working_small m) as S. pose proof (p2_mono n m Hm) as M.
  destruct W as [_ W]. apply IZR_le in W. rewrite minus_IZR, <- INR_IZR_INZ in W.
  pose proof (p2_pos (ln2_working m)) as P. pose proof (p2_pos n). pose proof (p2_pos m). pose proof (pos_INR (ln2_working m)).
  apply Rmult_lt_reg_r with (2 ^ ln2_working m); [assumption|].
  replace ((IZR (dhi i) - IZR (dlo i)) / 2 ^ ln2_working m * 2 ^ n * 2 ^ ln2_working m)
    with ((IZR (dhi i) - IZR (dlo i)) * 2 ^ n) by (field; lra).
  assert ((IZR (dhi i) - IZR (dlo i)) * 2 ^ n <= INR (ln2_working m) * 2 ^ m); [|lra].
  apply Rle_trans with (INR (ln2_working m) * 2 ^ n); [apply Rmult_le_compat_r; lra|apply Rmult_le_compat_l; lra].
Qed.

(** * log_core *)
Lemma two_num w : IZR (shl 2 w) = 2 * 2 ^ w. Proof. apply shl_R. Qed.

Lemma pos_of_num p w : (shl 2 w <= dlo p)%Z -> dlog p = w -> 2 <= dyadic (dlo p) (dlog p).
Proof. intros H L. apply dyadic_ge_iff. rewrite L, <- two_num. apply IZR_le; assumption. Qed.

Lemma num_of_pos p w : 2 <= dyadic (dlo p) (dlog p) -> dlog p = w -> (shl 2 w <= dlo p)%Z.
Proof. intros H L. apply dyadic_ge_iff in H. rewrite L, <- two_num in H. apply le_IZR; assumption. Qed.

Lemma mul_lower_ge p q w : dlog p = w -> dlog q = w -> dfi_ok p -> dfi_ok q ->
  (shl 2 w <= dlo p)%Z -> (shl 1 w <= dlo q)%Z -> (shl 2 w <= dlo (dfi_mul p q))%Z /\ dlog (dfi_mul p q) = w.
Proof.
  intros Lp Lq Op Oq Hp Hq. unfold dfi_mul, do_op. rewrite Lp, Lq, Nat.leb_refl, Nat.sub_diag.
  assert (S0 : forall a, shl a 0 = a) by (intros a; unfold shl; apply Z.shiftl_0_r).
  rewrite !S0. pose proof (mul_select (dlo p * dlo q) (dlo p * dhi q) (dhi p * dlo q) (dhi p * dhi q)) as S.
  destruct (take_min (dlo p * dlo q) _) as [lower rest]. destruct S as [SL _]. cbn [dlo dlog]. split; [|reflexivity].
  unfold dfi_ok in *. rewrite shr_div. rewrite shl_mul in *.
  assert (P : (0 < 2 ^ Z.of_nat w)%Z) by (apply Z.pow_pos_nonneg; lia).
  set (T := (2 ^ Z.of_nat w)%Z) in *. clearbody T.
  apply Z.div_le_lower_bound; [assumption|].
  assert (dlo p * dlo q <= dlo p * dhi q)%Z by nia. assert (dlo p * dlo q <= dhi p * dlo q)%Z by nia.
  assert (dlo p * dlo q <= dhi p * dhi q)%Z by nia.
  assert (EL : lower = (dlo p * dlo q)%Z) by lia. rewrite EL. nia.
Qed.

Lemma square_lower_ge p w : dlog p = w -> dfi_ok p -> (shl 2 w <= dlo p)%Z ->
  (shl 1 w <= dlo (dfi_square p))%Z /\ dlog (dfi_square p) = w.
Proof.
  intros Lp Op Hp. unfold dfi_ok in Op.
  assert (P : (0 < 2 ^ Z.of_nat w)%Z) by (apply Z.pow_pos_nonneg; lia).
  rewrite shl_mul in *. unfold dfi_square, dfi_contains_zero. rewrite Lp.
  destruct (Z.ltb_spec (dlo p) 0); [lia|]. destruct (Z.ltb_spec (dhi p) 0); [lia|].
  destruct (Z.ltb_spec (dhi p) (dlo p)); [lia|]. destruct (Z.ltb_spec 0 (dlo p)); [|lia].
  cbn [negb andb dlo dlog]. split; [|reflexivity]. rewrite shr_div.
  set (T := (2 ^ Z.of_nat w)%Z) in *. clearbody T. apply Z.div_le_lower_bound; [assumption|]. nia.
Qed.

Lemma Q_le_bool_R a b : Q2R a <= Q2R b -> Qle_bool a b = true.
Proof. intros H. apply Qle_bool_iff. apply Rle_Qle. assumption. Qed.

Lemma log_core_ok s : dfi_ok s -> (shl 2 (dlog s) <= dlo s)%Z ->
  exists r, log_core s = Ret r /\ dlog r = dlog s /\ 
    forall t, inI t s -> inI (ln ((t + 1) / (t - 1))) r.
Proof.
  intros Os Hs. unfold log_core. unfold dfi_ok in Os.
  replace (dlo s <=? dhi s)%Z with true by (symmetry; apply Z.leb_le; assumption). cbn [assert_then].
  set (w := (dlog s + 10 + usize_floor_log2 (dlog s + 1))%nat).
  assert (Hw : (dlog s <= w)%nat) by (unfold w; lia).
  set (power := dfi_convert s w).
  destruct (dfi_convert_up_exact s w Hw) as [PL PU]. fold power in PL, PU.
  assert (Lp : dlog power = w) by reflexivity.
  assert (Hp : (shl 2 w <= dlo power)%Z).
  { apply num_of_pos; [|reflexivity]. rewrite Lp, PL. apply pos_of_num with (dlog s); [assumption|reflexivity]. }
  assert (Op : dfi_ok power).
  { destruct (dfi_ok_mem s Os) as [M _]. eapply inI_ok, dfi_convert_in, M. }
  replace (shl 2 w <=? dlo power)%Z with true by (symmetry; apply Z.leb_le; assumption). cbn [assert_then].
  set (sq := dfi_square power).
  destruct (square_lower_ge power w Lp Op Hp) as [Hsq Lsq]. fold sq in Hsq, Lsq.
  assert (Osq : dfi_ok sq).
  { destruct (dfi_ok_mem _ Op) as [M _]. eapply inI_ok, dfi_square_in, M. }
  match goal with |- context [rfold ?f _ _] => set (F := f) end.
  destruct (rfold_seq (fun i st => dlog (fst st) = w /\ dlog (snd st) = w /\ dfi_ok (snd st) /\ (shl 2 w <= dlo (snd st))%Z /\
      forall t, inI t s -> inI (atS i (/ t)) (fst st) /\ inI (t ^ S (2 * i)) (snd st)) F w 0 (dfi_zero w, power))
    as ([retval pw] & E & Lr & _ & _ & _ & Ir).
  - cbn [fst snd]. repeat match goal with |- _ /\ _ => split end; try assumption; try reflexivity.
    intros t Ht. split.
    + apply (proj1 (dfi_constants_ok w (dfi_zero w) _)). reflexivity.
    + change (2 * 0)%nat with 0%nat. rewrite pow_1. apply dfi_convert_in. assumption.
  - intros i [rv p] Hi (Lrv & Lpp & Opp & Hpp & I). cbn [fst snd] in *.
    unfold F. set (k := Z.of_nat (i * 2 + 1)). assert (Hk : (1 <= k)%Z) by (unfold k; lia).
    assert (Hden : dfi_mul_int p k = DFI (dlo p * k) (dhi p * k) (dlog p)).
    { unfold dfi_mul_int. destruct (Z.ltb_spec k 0); [lia|reflexivity]. }
    rewrite Hden; cbn [dlo dhi dlog].
    assert (P : (0 < 2 ^ Z.of_nat w)%Z) by (apply Z.pow_pos_nonneg; lia).
    assert (Hlo : (0 < dlo p)%Z) by (rewrite shl_mul in Hpp; lia).
    assert (Hhi : (0 < dhi p)%Z) by (unfold dfi_ok in Opp; lia).
    destruct (ratio_new_ret (shl 2 w) (dhi p * k) ltac:(nia)) as [tl Etl].
    destruct (ratio_new_ret (shl 2 w) (dlo p * k) ltac:(nia)) as [tu Etu].
    rewrite Etl, Etu; cbn [rbind].
    destruct (ratio_new_R _ _ _ Etl) as [_ Rtl]. destruct (ratio_new_R _ _ _ Etu) as [_ Rtu].
    rewrite two_num, mult_IZR in Rtl, Rtu.
    assert (Lo : 0 < IZR (dlo p)) by (apply (IZR_lt 0); assumption).
    assert (Hi' : 0 < IZR (dhi p)) by (apply (IZR_lt 0); assumption).
    assert (Kp : 0 < IZR k) by (apply (IZR_lt 0); lia).
    pose proof (p2_pos w) as Pw.
    assert (Mono : forall a b, 0 < a -> a <= b -> 2 * 2 ^ w / (b * IZR k) <= 2 * 2 ^ w / (a * IZR k)).
    { intros a b Ha Hab. apply Rmult_le_compat_l; [lra|]. apply Rinv_le_contravar; nra. }
    pose proof (dfi_from_ratio_range_ok tl tu w) as FR.
    rewrite Q_le_bool_R in FR.
    2:{ rewrite Rtl, Rtu. apply Mono; [assumption|]. apply IZR_le; assumption. }
    destruct FR as (ti & Eti & Tti). rewrite Eti; cbn [rbind].
    eexists; split; [reflexivity|]. cbn [fst snd].
    destruct (mul_lower_ge p sq w Lpp Lsq Opp Osq Hpp Hsq) as [Hm Lm].
    assert (Lti : dlog ti = w) by apply Tti.
    repeat match goal with |- _ /\ _ => split end; try assumption.
    + rewrite dfi_add_log_num by congruence. exact Lti.
    + destruct (dfi_ok_mem _ Opp) as [M _]. destruct (dfi_ok_mem _ Osq) as [M' _]. eapply inI_ok, dfi_mul_in; eassumption.
    + intros t Ht. destruct (I t Ht) as [I1 I2].
      assert (T2 : 2 <= t).
      { apply Rle_trans with (dyadic (dlo s) (dlog s)); [apply pos_of_num with (dlog s); [assumption|reflexivity]|apply Ht]. }
      split.
      * cbn [atS]. apply dfi_add_in; [exact I1|]. eapply tightest_in; [exact Tti|].
        assert (Tp : 0 < t ^ S (2 * i)) by (apply pow_lt; lra).
        assert (Ek : INR (S (2 * i)) = IZR k) by (rewrite INR_IZR_INZ; f_equal; unfold k; lia).
        rewrite Ek, pow_inv. 
        replace (2 * (/ t ^ S (2 * i) / IZR k)) with (2 * 2 ^ w / (t ^ S (2 * i) * 2 ^ w * IZR k)) by (field; repeat split; lra).
        apply inI_num in I2. rewrite Lpp in I2.
        rewrite Rtl, Rtu. set (T := t ^ S (2 * i)) in *. clearbody T.
        assert (0 < T * 2 ^ w) by (apply Rmult_lt_0_compat; assumption).
        split; apply Mono; lra.
      * replace (t ^ S (2 * S i)) with (t ^ S (2 * i) * (t * t)) by (replace (S (2 * S i)) with (S (2 * i) + 2)%nat by lia; rewrite pow_add; ring).
        apply dfi_mul_in; [exact I2|]. apply dfi_square_in, dfi_convert_in. assumption.
  - rewrite E; cbn [rbind]. eexists; split; [reflexivity|]. split; [reflexivity|].
    intros t Ht. apply dfi_convert_in. destruct (Ir t Ht) as [I1 _]. cbn [fst] in *. cbn [Nat.add] in I1.
    assert (T2 : 2 <= t).
    { apply Rle_trans with (dyadic (dlo s) (dlog s)); [apply pos_of_num with (dlog s); [assumption|reflexivity]|apply Ht]. }
    apply inI_num in I1. apply inI_num; cbn [dlo dhi dlog]. rewrite plus_IZR, Lr in *.
    assert (U : 0 <= / t <= 1 / 2).
    { split; [left; apply Rinv_0_lt_compat; lra|]. replace (1 / 2) with (/ 2) by lra. apply Rinv_le_contravar; lra. }
    pose proof (atS_bounds w (/ t) U) as B.
    replace ((1 + / t) / (1 - / t)) with ((t + 1) / (t - 1)) in B by (field; split; lra).
    pose proof (p2_pos w) as Pw.
    assert (T : 8 / 3 * ((/ t) ^ S (2 * w) / INR (S (2 * w))) * 2 ^ w <= 1).
    { assert (X : (/ t) ^ S (2 * w) <= (/ 2) ^ S (2 * w)) by (apply pow_incr; lra).
      assert (Y : (/ 2) ^ S (2 * w) = / 2 * (/ 2 ^ w * / 2 ^ w)).
      { cbn [pow]. f_equal. rewrite <- !inv_p2, <- pow_add. f_equal. lia. }
      assert (W1 : 10 <= INR (S (2 * w))) by (replace 10 with (INR 10) by (cbn; ring); apply le_INR; unfold w; lia).
      assert (W2 : / INR (S (2 * w)) <= / 10) by (apply Rinv_le_contravar; lra).
      assert (W3 : 0 < / INR (S (2 * w))) by (apply Rinv_0_lt_compat; lra).
      pose proof (p2_ge1 w) as W4. assert (W5 : / 2 ^ w <= 1) by (rewrite <- Rinv_1; apply Rinv_le_contravar; lra).
      assert (W6 : 0 < / 2 ^ w) by (apply Rinv_0_lt_compat; lra).
      assert (X0 : 0 <= (/ t) ^ S (2 * w)) by (apply pow_le; lra).
      unfold Rdiv at 2.
      assert (Z1 : (/ t) ^ S (2 * w) * / INR (S (2 * w)) <= / 2 * (/ 2 ^ w * / 2 ^ w) * / 10).
      { rewrite <- Y. apply Rmult_le_compat; lra. }
      apply Rle_trans with (8 / 3 * (/ 2 * (/ 2 ^ w * / 2 ^ w) * / 10) * 2 ^ w).
      - apply Rmult_le_compat_r; [lra|]. apply Rmult_le_compat_l; lra.
      - replace (8 / 3 * (/ 2 * (/ 2 ^ w * / 2 ^ w) * / 10) * 2 ^ w) with (8 / 60 * / 2 ^ w) by (field; lra). lra. }
    nra.
Qed.

(** * log *)
Lemma ratio_div_R a b : Q2R b <> 0 -> exists q, ratio_div a b = Ret q /\ Q2R q = Q2R a / Q2R b.
Proof.
  intros H. unfold ratio_div.
  assert (HN : (Qnum b <> 0)%Z). { intros E. apply H. unfold Q2R. rewrite E. ring. }
  destruct (ratio_new_ret (Qnum a * Zpos (Qden b)) (Zpos (Qden a) * Qnum b) ltac:(nia)) as [q E].
  exists q. split; [exact E|]. destruct (ratio_new_R _ _ _ E) as [_ ->]. rewrite !mult_IZR. unfold Q2R.
  assert (IZR (Zpos (Qden a)) <> 0) by (apply not_0_IZR; discriminate).
  assert (IZR (Zpos (Qden b)) <> 0) by (apply not_0_IZR; discriminate).
  assert (IZR (Qnum b) <> 0) by (apply not_0_IZR; assumption). field. repeat split; assumption.
Qed.

Lemma powerRZ_pos2 z : 0 < powerRZ 2 z.
Proof. apply powerRZ_lt. lra. Qed.
Lemma powerRZ_nat n : powerRZ 2 (Z.of_nat n) = 2 ^ n.
Proof. symmetry. apply pow_powerRZ. Qed.

Lemma log_shift_ok a d q : (0 < a)%Z -> Q2R q = dyadic a d ->
  exists y s, log_shift a d q = Ret (y, s) /\ 3 / 2 <= Q2R y < 3 /\ dyadic a d = Q2R y * powerRZ 2 s.
Proof.
  intros Ha Hq. unfold log_shift, bigint_floor_log2.
  replace (0 <? a)%Z with true by (symmetry; apply Z.ltb_lt; assumption). cbn [unwrap rbind].
  replace (bigint_bits a - 1)%Z with (Z.log2 a)
    by (unfold bigint_bits; destruct (Z.eqb_spec a 0); [lia|rewrite Z.abs_eq by lia; ring]).
  set (fl := Z.log2 a). assert (Hfl : (0 <= fl)%Z) by apply Z.log2_nonneg.
  pose proof (Z.log2_spec a Ha) as [S1 S2]. fold fl in S1, S2.
  set (sh := (fl - Z.of_nat d)%Z).
  match goal with |- context [Qle_bool _ ?t] => set (y := t) end.
  assert (Y : dyadic a d = Q2R y * powerRZ 2 sh).
  { unfold y. destruct (Z.ltb_spec sh 0) as [L|L].
    - rewrite Q2R_red, Qscale_R, shl1_R, Hq, <- powerRZ_nat, Z2Nat.id by lia.
      rewrite Rmult_assoc, <- powerRZ_add by lra. replace (- sh + sh)%Z with 0%Z by lia. cbn [powerRZ]. ring.
    - rewrite Q2R_red, Q2R_div.
      2:{ intros X. apply Qeq_eqR in X. unfold Q2R, inject_Z in X; cbn [Qnum Qden] in X. rewrite shl1_R in X.
          pose proof (p2_pos (Z.to_nat sh)). lra. }
      rewrite Hq. unfold Q2R at 1, inject_Z; cbn [Qnum Qden]. rewrite shl1_R.
      replace (powerRZ 2 sh) with (2 ^ Z.to_nat sh) by (rewrite <- powerRZ_nat, Z2Nat.id; [reflexivity|lia]).
      pose proof (p2_pos (Z.to_nat sh)). field. lra. }
  assert (B : 1 <= Q2R y < 2).
  { pose proof (powerRZ_pos2 sh) as Ps. pose proof (p2_pos d) as Pd.
    assert (D : IZR a = Q2R y * powerRZ 2 fl).
    { rewrite <- (dyadic_mul a d), Y, <- powerRZ_nat, Rmult_assoc, <- powerRZ_add by lra. f_equal. f_equal. unfold sh; lia. }
    apply IZR_le in S1. apply IZR_lt in S2. rewrite <- (Z2Nat.id fl Hfl) in S1 at 1.
    rewrite IZR_p2, <- powerRZ_nat, Z2Nat.id in S1 by assumption.
    replace (Z.succ fl) with (Z.of_nat (Z.to_nat (Z.succ fl))) in S2 by lia.
    rewrite IZR_p2, <- powerRZ_nat, Z2Nat.id in S2 by lia.
    unfold Z.succ in S2. rewrite powerRZ_add in S2 by lra. rewrite D in S1, S2. replace (powerRZ 2 1) with 2 in S2 by (symmetry; apply powerRZ_1).
    pose proof (powerRZ_pos2 fl). split; nra. }
  clearbody y.
  destruct (Qle_bool (3 # 2) y) eqn:C; cbn [negb].
  - exists y, sh. split; [reflexivity|]. split; [|exact Y].
    apply Qle_bool_iff, Qle_Rle in C. unfold Q2R at 1 in C; cbn [Qnum Qden] in C. lra.
  - exists (Qred (Qscale y 2)), (sh - 1)%Z. split; [reflexivity|]. rewrite Q2R_red, Qscale_R. split.
    + assert (Q2R y < 3 / 2); [|lra].
      apply Rnot_le_lt. intros X. assert (Qle_bool (3 # 2) y = true); [|congruence].
      apply Q_le_bool_R. unfold Q2R at 1; cbn [Qnum Qden]. lra.
    + rewrite Y. replace sh with (1 + (sh - 1))%Z at 1 by lia. rewrite powerRZ_add by lra.
      replace (powerRZ 2 1) with 2 by (symmetry; apply powerRZ_1). ring.
Qed.

Lemma ln_shift y s : 0 < y -> ln (y * powerRZ 2 s) = IZR s * ln 2 + ln y.
Proof.
  intros H. rewrite ln_mult by (assumption || apply powerRZ_pos2).
  rewrite powerRZ_Rpower by lra. unfold Rpower. rewrite ln_exp. ring.
Qed.

Lemma log_piece y w : 3 / 2 <= Q2R y < 3 ->
  exists q c, ratio_div (y + 1) (y - 1) = Ret q /\ log_core (dfi_from_ratio q w) = Ret c /\
    dlog c = w /\ inI (ln (Q2R y)) c.
Proof.
  intros Hy.
  assert (E1 : Q2R (y + 1) = Q2R y + 1) by (rewrite Q2R_plus; unfold Q2R at 2; cbn; lra).
  assert (E2 : Q2R (y - 1) = Q2R y - 1) by (rewrite Q2R_minus; unfold Q2R at 2; cbn; lra).
  destruct (ratio_div_R (y + 1) (y - 1) ltac:(rewrite E2; lra)) as (q & E & Rq).
  rewrite E1, E2 in Rq. exists q.
  assert (Q2 : 2 <= Q2R q).
  { rewrite Rq. apply mul_le_inv with (Q2R y - 1); [lra|]. unfold Rdiv. rewrite Rmult_assoc, Rinv_l; lra. }
  pose proof (dfi_from_ratio_ok q w) as T.
  destruct (log_core_ok (dfi_from_ratio q w)) as (c & Ec & Lc & Ic).
  - eapply inI_ok, dfi_from_ratio_in.
  - destruct T as (_ & _ & _ & T & _). apply T. apply dyadic_le_iff. rewrite two_num.
    pose proof (p2_pos w). change (dlog (dfi_from_ratio q w)) with w. nra.
  - exists c. split; [exact E|]. split; [exact Ec|]. split; [exact Lc|].
    specialize (Ic (Q2R q) (dfi_from_ratio_in q w)).
    replace ((Q2R q + 1) / (Q2R q - 1)) with (Q2R y) in Ic; [exact Ic|].
    rewrite Rq. field. split; [lra|]. intros X. lra.
Qed.

Lemma dfi_log_ok ln2 i : (forall n, exists l, ln2 n = Ret l /\ ln2_ok n l) ->
  ((dlo i <= 0)%Z -> dfi_log ln2 i = Panic) /\
  ((0 < dlo i)%Z -> dfi_ok i -> exists r, dfi_log ln2 i = Ret r /\ dlog r = dlog i /\
     forall x, inI x i -> inI (ln x) r).
Proof.
  intros H2. unfold dfi_log. split.
  { intros H. replace (0 <? dlo i)%Z with false by (symmetry; apply Z.ltb_ge; assumption). reflexivity. }
  intros Hp Ok. unfold dfi_ok in Ok.
  replace (0 <? dlo i)%Z with true by (symmetry; apply Z.ltb_lt; assumption).
  replace (dlo i <=? dhi i)%Z with true by (symmetry; apply Z.leb_le; assumption). cbn [assert_then].
  set (w := (dlog i + 16)%nat). destruct (dfi_bounds_ok i) as [BL BU].
  destruct (log_shift_ok (dlo i) (dlog i) _ Hp BL) as (yl & sl & El & Yl & Dl).
  destruct (log_shift_ok (dhi i) (dlog i) _ ltac:(lia) BU) as (yu & su & Eu & Yu & Du).
  rewrite El; cbn [rbind]. rewrite Eu; cbn [rbind].
  assert (Sle : (sl <= su)%Z).
  { destruct (Z.le_gt_cases sl su) as [|G]; [assumption|exfalso].
    assert (LE : dyadic (dlo i) (dlog i) <= dyadic (dhi i) (dlog i)) by (apply dyadic_le; assumption).
    rewrite Dl, Du in LE. pose proof (powerRZ_pos2 su) as P1.
    assert (P2 : 2 * powerRZ 2 su <= powerRZ 2 sl).
    { replace sl with ((1 + su) + Z.of_nat (Z.to_nat (sl - su - 1)))%Z by lia.
      rewrite !powerRZ_add, powerRZ_nat by lra. pose proof (p2_ge1 (Z.to_nat (sl - su - 1))).
      replace (powerRZ 2 1) with 2 by (symmetry; apply powerRZ_1). nra. }
    assert (3 / 2 * powerRZ 2 sl <= Q2R yl * powerRZ 2 sl) by (apply Rmult_le_compat_r; lra).
    assert (Q2R yu * powerRZ 2 su < 3 * powerRZ 2 su) by (apply Rmult_lt_compat_r; lra). lra. }
  pose proof (dfi_from_int_range_ok sl su w) as FR.
  replace (sl <=? su)%Z with true in FR by (symmetry; apply Z.leb_le; assumption).
  destruct FR as (r0 & E0 & L0 & R0l & R0u). rewrite E0; cbn [rbind].
  destruct (H2 w) as (l2 & E2 & L2 & I2 & _). rewrite E2; cbn [rbind].
  destruct (log_piece yl w Yl) as (ql & cl & Eql & Ecl & Lcl & Icl).
  destruct (log_piece yu w Yu) as (qu & cu & Equ & Ecu & Lcu & Icu).
  rewrite Eql; cbn [rbind]. rewrite Ecl; cbn [rbind]. rewrite Equ; cbn [rbind]. rewrite Ecu; cbn [rbind].
  eexists; split; [reflexivity|]. split; [reflexivity|].
  intros x Hx. apply dfi_convert_in.
  set (res := dfi_add (dfi_mul r0 l2) (dfi_union cl cu)).
  assert (Rl : inI (ln (dyadic (dlo i) (dlog i))) res).
  { rewrite Dl, ln_shift by lra. apply dfi_add_in; [|apply dfi_union_in; left; assumption].
    apply dfi_mul_in; [|assumption]. unfold inI. rewrite L0, R0l, R0u. apply IZR_le in Sle. lra. }
  assert (Ru : inI (ln (dyadic (dhi i) (dlog i))) res).
  { rewrite Du, ln_shift by lra. apply dfi_add_in; [|apply dfi_union_in; right; assumption].
    apply dfi_mul_in; [|assumption]. unfold inI. rewrite L0, R0l, R0u. apply IZR_le in Sle. lra. }
  assert (P : 0 < dyadic (dlo i) (dlog i)).
  { rewrite Dl. pose proof (powerRZ_pos2 sl). apply Rmult_lt_0_compat; lra. }
  destruct Hx as [X1 X2].
  assert (M : forall a b, 0 < a -> a <= b -> ln a <= ln b).
  { intros a b Pa [AB|AB]; [left; apply ln_increasing; assumption|subst; lra]. }
  pose proof (M _ _ P X1). pose proof (M x _ ltac:(lra) X2). unfold inI in *. lra.
Qed.
