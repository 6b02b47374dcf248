(** How wide the interval returned by the logarithm is. *)
From Coq Require Import ZArith QArith Qround Qreals Reals Lra Lia Bool List.
From Verif Require Import M_Base M_Traits M_Interval M_IntervalExp S_Interval P_Interval P_IntervalTight P_LogSeries P_IntervalLog.
Local Open Scope R_scope.

Lemma tightest_near i k a b : tightest i k a b ->
  a * 2 ^ k - 1 < IZR (dlo i) <= a * 2 ^ k /\ b * 2 ^ k <= IZR (dhi i) < b * 2 ^ k + 1.
Proof.
  intros (_ & A & B & Ml & Mu). apply dyadic_le_iff in A. apply dyadic_ge_iff in B. split; split; try assumption.
  - apply Rnot_le_lt. intros H. assert (X : (dlo i + 1 <= dlo i)%Z); [|lia].
    apply Ml. apply dyadic_le_iff. rewrite plus_IZR. lra.
  - apply Rnot_le_lt. intros H. assert (X : (dhi i <= dhi i - 1)%Z); [|lia].
    apply Mu. apply dyadic_ge_iff. rewrite minus_IZR. lra.
Qed.

(** ((1+x)^m - 1) <= m x (1+x)^(m-1) *)
Lemma pow1_minus x m : 0 <= x -> (1 + x) ^ S m - 1 <= INR (S m) * x * (1 + x) ^ m.
Proof.
  intros Hx. induction m as [|m IH]; [cbn; lra|].
  change ((1 + x) ^ S (S m)) with ((1 + x) * (1 + x) ^ S m). rewrite (S_INR (S m)).
  assert (P : 1 <= (1 + x) ^ S m) by (apply pow_R1_Rle; lra).
  change ((1 + x) ^ S m) with ((1 + x) * (1 + x) ^ m) in *. set (p := (1 + x) ^ m) in *. clearbody p.
  pose proof (pos_INR (S m)). set (k := INR (S m)) in *. clearbody k.
  assert (0 <= x * x) by nra. nra.
Qed.

Lemma geom_step i : (3 / 5) ^ S i = 3 / 5 * (3 / 5) ^ i. Proof. reflexivity. Qed.

(** (1+x)^(2i) / 2^i <= (3/5)^i for small x *)
Lemma pow_ratio x i : 0 <= x <= / 16 -> (1 + x) ^ (2 * i) <= (3 / 5) ^ i * 2 ^ i.
Proof.
  intros Hx. rewrite <- Rpow_mult_distr, pow_mult. apply pow_incr. split; [apply pow_le; lra|]. cbn [pow]. nra.
Qed.

(** One step of the powers: relative width. *)
Lemma power_step A B L U sl sh T x Q A' B' :
  0 < x <= / 16 -> 1024 <= T * x -> 0 < T -> 2 * T <= A -> 2 <= L -> L <= U <= L + x -> 1 <= Q -> A <= B <= A * Q ->
  L * L * T - 1 <= sl -> 0 <= sh <= U * U * T + 1 ->
  A * sl - T <= A' * T -> B' * T <= B * sh + T ->
  2 * A <= A' /\ B' <= A' * (Q * (1 + x) ^ 2).
Proof.
  intros Hx HT PT HA HL HU HQ HB Hsl Hsh HA' HB'.
  assert (T1 : 16384 <= T) by (assert (T * x <= T * / 16) by (apply Rmult_le_compat_l; lra); lra).
  assert (S3 : 3 * T <= sl) by (assert (4 <= L * L) by nra; nra).
  assert (A2 : 2 * A <= A').
  { apply mul_le_inv with T; [assumption|]. nra. }
  split; [assumption|].
  assert (K : A * sh + T <= (A * sl - T) * (1 + x) ^ 2).
  { cbn [pow]. rewrite Rmult_1_r.
    assert (UU : U * U <= L * L * ((1 + x / 2) * (1 + x / 2))) by (assert (U1 : U <= L * (1 + x / 2)) by nra; replace (L * L * ((1 + x / 2) * (1 + x / 2))) with ((L * (1 + x / 2)) * (L * (1 + x / 2))) by ring; apply Rmult_le_compat; lra).
    assert (H1 : A * sh <= A * (U * U * T + 1)) by (apply Rmult_le_compat_l; lra).
    assert (H2 : A * (L * L * T - 1) <= A * sl) by (apply Rmult_le_compat_l; lra).
    assert (H3 : A * (U * U * T + 1) <= A * (L * L * ((1 + x / 2) * (1 + x / 2)) * T + 1)).
    { apply Rmult_le_compat_l; [lra|]. apply Rplus_le_compat_r. apply Rmult_le_compat_r; lra. }
    assert (P1 : 0 <= (1 + x) * (1 + x)) by nra.
    assert (H4 : (A * (L * L * T - 1) - T) * ((1 + x) * (1 + x)) <= (A * sl - T) * ((1 + x) * (1 + x))) by (apply Rmult_le_compat_r; lra).
    assert (LL : 2 * 2 <= L * L) by (apply Rmult_le_compat; lra).
    assert (H5 : A * (L * L * ((1 + x / 2) * (1 + x / 2)) * T + 1) + T <= (A * (L * L * T - 1) - T) * ((1 + x) * (1 + x))); [|lra].
    set (q := (1 + x) * (1 + x)) in *. set (h := (1 + x / 2) * (1 + x / 2)) in *.
    assert (Q1 : x <= q - h) by (unfold q, h; nra). assert (Q2 : q <= 2) by (unfold q; nra). clearbody q h.
    assert (H6 : A * (L * L) * T * x <= A * (L * L) * T * (q - h)) by (apply Rmult_le_compat_l; [apply Rmult_le_pos; [apply Rmult_le_pos|]; lra|lra]).
    assert (AT : 0 < A * T) by nra.
    assert (H7 : 4 * (A * T * x) <= A * (L * L) * T * x) by (replace (A * (L * L) * T * x) with (L * L * (A * T * x)) by ring; apply Rmult_le_compat_r; [apply Rmult_le_pos; lra|assumption]).
    assert (H8 : A * 1024 <= A * T * x) by (rewrite Rmult_assoc; apply Rmult_le_compat_l; lra).
    assert (H9 : A * q <= A * 2) by (apply Rmult_le_compat_l; lra).
    assert (H10 : T * q <= T * 2) by (apply Rmult_le_compat_l; lra).
    replace (A * (L * L * h * T + 1) + T) with (A * (L * L) * T * h + A + T) by ring.
    replace ((A * (L * L * T - 1) - T) * q) with (A * (L * L) * T * q - A * q - T * q) by ring.
    rewrite Rmult_minus_distr_l in H6. lra. }
  apply mul_le_inv with T; [assumption|].
  assert (SH : 0 <= sh) by lra. assert (P2 : 0 <= (1 + x) ^ 2) by (apply pow_le; lra).
  assert (BS : B * sh + T <= Q * (A * sh + T)).
  { assert (B * sh <= A * Q * sh) by (apply Rmult_le_compat_r; lra). nra. }
  assert (Q * (A * sh + T) <= Q * ((A * sl - T) * (1 + x) ^ 2)) by (apply Rmult_le_compat_l; lra).
  assert ((A * sl - T) * (1 + x) ^ 2 <= A' * T * (1 + x) ^ 2) by (apply Rmult_le_compat_r; lra). nra.
Qed.

Lemma dfi_mul_near p q w : dlog p = w -> dlog q = w -> dfi_ok p -> dfi_ok q -> (0 < dlo p)%Z -> (0 < dlo q)%Z ->
  IZR (dlo p) * IZR (dlo q) - 2 ^ w <= IZR (dlo (dfi_mul p q)) * 2 ^ w /\
  IZR (dhi (dfi_mul p q)) * 2 ^ w <= IZR (dhi p) * IZR (dhi q) + 2 ^ w.
Proof.
  intros Lp Lq Op Oq Hp Hq. pose proof (dfi_mul_tight p q) as T. cbv zeta in T. apply tightest_near in T.
  rewrite Lp, Lq, Nat.max_id in T. unfold dfi_ok in *. apply IZR_le in Op, Oq. apply IZR_lt in Hp, Hq.
  pose proof (p2_pos w) as P. destruct T as [[T1 _] [_ T2]].
  assert (D : forall a b, dyadic a w * dyadic b w * 2 ^ w * 2 ^ w = IZR a * IZR b).
  { intros a b. unfold dyadic. field. lra. }
  assert (M : forall a b c d, 0 <= IZR a -> 0 <= IZR b -> IZR a <= IZR c -> IZR b <= IZR d -> dyadic a w * dyadic b w <= dyadic c w * dyadic d w).
  { intros a b c d Ha Hb Hac Hbd. apply mul_le_inv with (2 ^ w); [assumption|]. apply mul_le_inv with (2 ^ w); [assumption|].
    rewrite !D. apply Rmult_le_compat; assumption. }
  split.
  - rewrite <- D. match type of T1 with ?m * _ - 1 < _ => assert (dyadic (dlo p) w * dyadic (dlo q) w <= m) end.
    { unfold Rmin4. repeat apply Rmin_glb; apply M; lra. }
    match type of T1 with ?m * _ - 1 < _ => set (mm := m) in * end. set (z := dyadic (dlo p) w * dyadic (dlo q) w) in *.
    assert (z * 2 ^ w <= mm * 2 ^ w) by (apply Rmult_le_compat_r; lra). clearbody mm z. nra.
  - rewrite <- D. match type of T2 with _ < ?m * _ + 1 => assert (m <= dyadic (dhi p) w * dyadic (dhi q) w) end.
    { unfold Rmax4. repeat apply Rmax_lub; apply M; lra. }
    match type of T2 with _ < ?m * _ + 1 => set (mm := m) in * end. set (z := dyadic (dhi p) w * dyadic (dhi q) w) in *.
    assert (mm * 2 ^ w <= z * 2 ^ w) by (apply Rmult_le_compat_r; lra). clearbody mm z. nra.
Qed.

Lemma dfi_square_near p w : dlog p = w -> dfi_ok p -> (0 < dlo p)%Z ->
  IZR (dlo p) * IZR (dlo p) - 2 ^ w <= IZR (dlo (dfi_square p)) * 2 ^ w /\
  IZR (dhi (dfi_square p)) * 2 ^ w <= IZR (dhi p) * IZR (dhi p) + 2 ^ w.
Proof.
  intros Lp Op Hp. pose proof (dfi_square_tight p Op) as T. cbv zeta in T. apply tightest_near in T.
  unfold dfi_contains_zero in T.
  replace (0 <? dlo p)%Z with true in T by (symmetry; apply Z.ltb_lt; assumption). rewrite andb_false_l in T.
  rewrite Lp in T. unfold dfi_ok in *. apply IZR_le in Op. apply IZR_lt in Hp.
  pose proof (p2_pos w) as P. destruct T as [[T1 _] [_ T2]].
  assert (D : forall a b, dyadic a w * dyadic b w * 2 ^ w * 2 ^ w = IZR a * IZR b).
  { intros a b. unfold dyadic. field. lra. }
  assert (M : dyadic (dlo p) w * dyadic (dlo p) w <= dyadic (dhi p) w * dyadic (dhi p) w).
  { apply mul_le_inv with (2 ^ w); [assumption|]. apply mul_le_inv with (2 ^ w); [assumption|].
    rewrite !D. apply Rmult_le_compat; lra. }
  rewrite Rmin_left in T1 by assumption. rewrite Rmax_right in T2 by assumption. rewrite <- !D.
  set (z := dyadic (dlo p) w * dyadic (dlo p) w) in *. set (z' := dyadic (dhi p) w * dyadic (dhi p) w) in *. clearbody z z'. nra.
Qed.

Lemma pow_odd x i : (1 + x) ^ S (2 * i) * (1 + x) ^ 2 = (1 + x) ^ S (2 * S i).
Proof. rewrite <- pow_add. f_equal. lia. Qed.

(** The width of one term of the series. *)
Lemma term_width A B T x i k : 0 < x <= / 16 -> 0 < T -> 2 * (2 ^ i * T) <= A -> A <= B <= A * (1 + x) ^ S (2 * i) ->
  k = INR (S (2 * i)) ->
  2 * T / (A * k) * T - 2 * T / (B * k) * T <= T * x * (3 / 5) ^ i.
Proof.
  intros Hx HT HA HB Ek. pose proof (p2_pos i) as Pi.
  assert (PA : 0 < A) by nra. assert (PB : 0 < B) by lra.
  assert (Pk : 0 < k) by (rewrite Ek; apply lt_0_INR; lia).
  pose proof (pow1_minus x (2 * i) ltac:(lra)) as PM. rewrite <- Ek in PM.
  pose proof (pow_ratio x i ltac:(lra)) as PR.
  set (Q := (1 + x) ^ S (2 * i)) in *. set (q := (1 + x) ^ (2 * i)) in *. set (g := (3 / 5) ^ i) in *.
  assert (PQ : 1 <= Q) by (apply pow_R1_Rle; lra).
  assert (Pg : 0 < g) by (apply pow_lt; lra). clearbody Q q g.
  set (p := 2 ^ i) in *. clearbody p.
  replace (2 * T / (A * k) * T - 2 * T / (B * k) * T) with (2 * T * T / k * ((B - A) / (A * B))) by (field; lra).
  assert (H1 : (B - A) / (A * B) <= (Q - 1) / A).
  { apply mul_le_inv with (A * B); [nra|]. replace ((B - A) / (A * B) * (A * B)) with (B - A) by (field; lra).
    replace ((Q - 1) / A * (A * B)) with ((Q - 1) * B) by (field; lra). nra. }
  assert (H2 : (Q - 1) / A <= k * x * (g * p) / (2 * (p * T))).
  { apply Rle_trans with ((Q - 1) / (2 * (p * T))).
    - apply Rmult_le_compat_l; [lra|]. apply Rinv_le_contravar; [nra|assumption].
    - apply Rmult_le_compat_r; [left; apply Rinv_0_lt_compat; nra|].
      apply Rle_trans with (k * x * q); [assumption|]. apply Rmult_le_compat_l; nra. }
  apply Rle_trans with (2 * T * T / k * (k * x * (g * p) / (2 * (p * T)))).
  - apply Rmult_le_compat_l; [|lra]. apply Rmult_le_pos; [nra|left; apply Rinv_0_lt_compat; assumption].
  - right. field. repeat split; lra.
Qed.

Lemma log_working_small n : 2 * INR (n + 10 + usize_floor_log2 (n + 1)) + 1 <= 2 ^ (10 + usize_floor_log2 (n + 1)).
Proof.
  unfold usize_floor_log2. rewrite !pow_add, !plus_INR. set (l := Nat.log2 (n + 1)).
  assert (H1 : INR (n + 1) < 2 * 2 ^ l).
  { pose proof (Nat.log2_spec (n + 1) ltac:(lia)) as [_ S]. apply lt_INR in S. rewrite pow_INR in S. cbn [pow] in S. exact S. }
  assert (H2 : INR l <= 2 ^ l).
  { clear. induction l as [|l IH]; [cbn; lra|]. rewrite S_INR. cbn [pow]. pose proof (p2_ge1 l). lra. }
  rewrite plus_INR in H1. pose proof (pos_INR n). pose proof (p2_ge1 l).
  replace (INR 10) with 10 by (cbn; ring). change (INR 1) with 1 in H1.
  replace (2 ^ 10) with 1024 by (cbn; ring). lra.
Qed.

Lemma log_core_width s r : dfi_ok s -> (shl 2 (dlog s) <= dlo s)%Z -> (dhi s - dlo s <= 1)%Z -> (4 <= dlog s)%nat ->
  log_core s = Ret r -> (dhi r - dlo r <= 5)%Z.
Proof.
  intros Os Hs W1 H4. unfold log_core. unfold dfi_ok in Os.
  replace (dlo s <=? dhi s)%Z with true by (symmetry; apply Z.leb_le; assumption). cbn [assert_then].
  set (w := (dlog s + 10 + usize_floor_log2 (dlog s + 1))%nat).
  assert (Hw : (dlog s <= w)%nat) by (unfold w; lia).
  set (power := dfi_convert s w).
  destruct (dfi_convert_up_exact s w Hw) as [PL PU]. fold power in PL, PU.
  assert (Lp : dlog power = w) by reflexivity.
  assert (L2 : 2 <= dyadic (dlo s) (dlog s)) by (apply pos_of_num with (dlog s); [assumption|reflexivity]).
  assert (Hp : (shl 2 w <= dlo power)%Z) by (apply num_of_pos; [|reflexivity]; rewrite Lp, PL; assumption).
  assert (Op : dfi_ok power).
  { destruct (dfi_ok_mem s Os) as [M _]. eapply inI_ok, dfi_convert_in, M. }
  replace (shl 2 w <=? dlo power)%Z with true by (symmetry; apply Z.leb_le; assumption). cbn [assert_then].
  set (sq := dfi_square power).
  destruct (square_lower_ge power w Lp Op Hp) as [Hsq Lsq]. fold sq in Hsq, Lsq.
  assert (Osq : dfi_ok sq).
  { destruct (dfi_ok_mem _ Op) as [M _]. eapply inI_ok, dfi_square_in, M. }
  assert (P : (0 < 2 ^ Z.of_nat w)%Z) by (apply Z.pow_pos_nonneg; lia).
  assert (Hlo0 : (0 < dlo power)%Z) by (rewrite shl_mul in Hp; lia).
  assert (Hsq0 : (0 < dlo sq)%Z) by (rewrite shl_mul in Hsq; lia).
  destruct (dfi_square_near power w Lp Op Hlo0) as [Sl Sh]. fold sq in Sl, Sh.
  set (x := / 2 ^ dlog s). pose proof (p2_pos (dlog s)) as Pn. pose proof (p2_pos w) as PT.
  assert (Hx : 0 < x <= / 16).
  { split; [apply Rinv_0_lt_compat; assumption|]. apply Rinv_le_contravar; [lra|].
    pose proof (p2_mono 4 (dlog s) H4) as M. cbn [pow] in M. lra. }
  set (e := (10 + usize_floor_log2 (dlog s + 1))%nat).
  assert (ET : 2 ^ w = 2 ^ dlog s * 2 ^ e) by (rewrite <- pow_add; f_equal; unfold w, e; lia).
  assert (He : 1024 <= 2 ^ e) by (pose proof (p2_mono 10 e ltac:(unfold e; lia)) as M; cbn [pow] in M; lra).
  assert (ETx : 2 ^ w * x = 2 ^ e) by (rewrite ET; unfold x; field; lra).
  assert (HTx : 1024 <= 2 ^ w * x) by (rewrite ETx; assumption).
  set (L := dyadic (dlo s) (dlog s)) in *. set (U := dyadic (dhi s) (dlog s)) in *.
  assert (HU : L <= U <= L + x).
  { unfold U, L. split; [apply dyadic_le; assumption|]. unfold dyadic, x. apply IZR_le in W1. rewrite minus_IZR in W1.
    apply mul_le_inv with (2 ^ dlog s); [assumption|].
    replace (IZR (dhi s) / 2 ^ dlog s * 2 ^ dlog s) with (IZR (dhi s)) by (field; lra).
    replace ((IZR (dlo s) / 2 ^ dlog s + / 2 ^ dlog s) * 2 ^ dlog s) with (IZR (dlo s) + 1) by (field; lra). lra. }
  assert (EL : IZR (dlo power) = L * 2 ^ w) by (rewrite <- PL, dyadic_mul; reflexivity).
  assert (EU : IZR (dhi power) = U * 2 ^ w) by (rewrite <- PU, dyadic_mul; reflexivity).
  assert (Sl' : L * L * 2 ^ w - 1 <= IZR (dlo sq)).
  { apply mul_le_inv with (2 ^ w); [assumption|]. rewrite EL in Sl. clear - Sl. nra. }
  assert (Sh' : IZR (dhi sq) <= U * U * 2 ^ w + 1).
  { apply mul_le_inv with (2 ^ w); [assumption|]. rewrite EU in Sh. clear - Sh. nra. }
  match goal with |- context [rfold ?f _ _] => set (F := f) end.
  destruct (rfold_seq (fun i st => dlog (fst st) = w /\ dlog (snd st) = w /\ dfi_ok (snd st) /\ (shl 2 w <= dlo (snd st))%Z /\
      2 * (2 ^ i * 2 ^ w) <= IZR (dlo (snd st)) /\ IZR (dhi (snd st)) <= IZR (dlo (snd st)) * (1 + x) ^ S (2 * i) /\
      IZR (dhi (fst st)) - IZR (dlo (fst st)) <= 2 ^ w * x * (5 / 2 * (1 - (3 / 5) ^ i)) + 2 * INR i) F w 0 (dfi_zero w, power))
    as ([retval pw] & E & Lr & _ & _ & _ & _ & _ & Wr).
  - cbn [fst snd]. repeat match goal with |- _ /\ _ => split end; try assumption; try reflexivity.
    + rewrite EL. cbn [pow]. nra.
    + change (S (2 * 0)) with 1%nat. rewrite EL, EU, pow_1. nra.
    + cbn [dfi_zero dlo dhi pow INR]. lra.
  - intros i [rv p] Hi (Lrv & Lpp & Opp & Hpp & HA & HB & HW). cbn [fst snd] in *.
    unfold F. set (k := Z.of_nat (i * 2 + 1)). assert (Hk : (1 <= k)%Z) by (unfold k; lia).
    assert (Hden : dfi_mul_int p k = DFI (dlo p * k) (dhi p * k) (dlog p)).
    { unfold dfi_mul_int. destruct (Z.ltb_spec k 0); [lia|reflexivity]. }
    rewrite Hden; cbn [dlo dhi dlog].
    assert (Hlo : (0 < dlo p)%Z) by (rewrite shl_mul in Hpp; lia).
    assert (Hhi : (0 < dhi p)%Z) by (unfold dfi_ok in Opp; lia).
    destruct (ratio_new_ret (shl 2 w) (dhi p * k) ltac:(nia)) as [tl Etl].
    destruct (ratio_new_ret (shl 2 w) (dlo p * k) ltac:(nia)) as [tu Etu].
    rewrite Etl, Etu; cbn [rbind].
    destruct (ratio_new_R _ _ _ Etl) as [_ Rtl]. destruct (ratio_new_R _ _ _ Etu) as [_ Rtu].
    rewrite two_num, mult_IZR in Rtl, Rtu.
    assert (Lo : 0 < IZR (dlo p)) by (apply (IZR_lt 0); assumption).
    assert (Hi' : 0 < IZR (dhi p)) by (apply (IZR_lt 0); assumption).
    assert (Kp : 0 < IZR k) by (apply (IZR_lt 0); lia).
    assert (Mono : forall a b, 0 < a -> a <= b -> 2 * 2 ^ w / (b * IZR k) <= 2 * 2 ^ w / (a * IZR k)).
    { intros a b Ha Hab. apply Rmult_le_compat_l; [lra|]. apply Rinv_le_contravar; nra. }
    assert (Opp' : IZR (dlo p) <= IZR (dhi p)) by (apply IZR_le; assumption).
    pose proof (dfi_from_ratio_range_ok tl tu w) as FR.
    rewrite Q_le_bool_R in FR by (rewrite Rtl, Rtu; apply Mono; assumption).
    destruct FR as (ti & Eti & Tti). rewrite Eti; cbn [rbind].
    eexists; split; [reflexivity|]. cbn [fst snd].
    destruct (mul_lower_ge p sq w Lpp Lsq Opp Osq Hpp Hsq) as [Hm Lm].
    assert (Lti : dlog ti = w) by apply Tti.
    destruct (dfi_mul_near p sq w Lpp Lsq Opp Osq Hlo Hsq0) as [Ml Mh].
    assert (Q1 : 1 <= (1 + x) ^ S (2 * i)) by (apply pow_R1_Rle; lra).
    destruct (power_step (IZR (dlo p)) (IZR (dhi p)) L U (IZR (dlo sq)) (IZR (dhi sq)) (2 ^ w) x ((1 + x) ^ S (2 * i))
      (IZR (dlo (dfi_mul p sq))) (IZR (dhi (dfi_mul p sq)))) as [N1 N2]; try assumption.
    { pose proof (p2_ge1 i). nra. }
    { split; assumption. }
    { split; [|assumption]. apply (IZR_le 0). unfold dfi_ok in Osq. lia. }
    repeat match goal with |- _ /\ _ => split end; try assumption.
    + rewrite dfi_add_log_num by congruence. exact Lti.
    + destruct (dfi_ok_mem _ Opp) as [M _]. destruct (dfi_ok_mem _ Osq) as [M' _]. eapply inI_ok, dfi_mul_in; eassumption.
    + cbn [pow]. lra.
    + rewrite pow_odd in N2. exact N2.
    + rewrite dfi_add_log_num by congruence. cbn [dlo dhi]. rewrite !plus_IZR.
      apply tightest_near in Tti. rewrite Rtl, Rtu in Tti.
      pose proof (term_width (IZR (dlo p)) (IZR (dhi p)) (2 ^ w) x i (IZR k) Hx PT HA (conj Opp' HB)) as TW.
      assert (Ek : IZR k = INR (S (2 * i))) by (rewrite INR_IZR_INZ; f_equal; unfold k; lia).
      specialize (TW Ek). rewrite S_INR. cbn [pow].
      set (g := (3 / 5) ^ i) in *. set (Tx := 2 ^ w * x) in *. lra.
  - rewrite E; cbn [rbind]. intros X. injection X as <-. cbn [fst snd] in *. cbn [Nat.add] in Wr.
    pose proof (dfi_convert_ok (DFI (dlo retval) (dhi retval + 1) (dlog retval)) (dlog s)) as T.
    apply tightest_near in T. cbn [dlo dhi dlog] in T. rewrite Lr in T.
    assert (C : forall a, dyadic a w * 2 ^ dlog s = IZR a / 2 ^ e).
    { intros a. unfold dyadic. rewrite ET. field. lra. }
    rewrite !C, plus_IZR, Lr in *.
    pose proof (log_working_small (dlog s)) as WS. fold e in WS. fold w in WS.
    assert (PG : 0 < (3 / 5) ^ w) by (apply pow_lt; lra).
    assert (B : (IZR (dhi retval) + 1) / 2 ^ e - IZR (dlo retval) / 2 ^ e <= 7 / 2).
    { apply mul_le_inv with (2 ^ e); [lra|].
      replace (((IZR (dhi retval) + 1) / 2 ^ e - IZR (dlo retval) / 2 ^ e) * 2 ^ e) with (IZR (dhi retval) + 1 - IZR (dlo retval)) by (field; lra).
      rewrite ETx in Wr. nra. }
    match goal with |- (?u - ?l <= 5)%Z => assert (IZR u - IZR l < 6) by lra end.
    rewrite <- minus_IZR in H. apply (lt_IZR _ 6) in H. lia.
Qed.

Lemma log_piece_width y w : (4 <= w)%nat -> 3 / 2 <= Q2R y < 3 ->
  exists q c, ratio_div (y + 1) (y - 1) = Ret q /\ log_core (dfi_from_ratio q w) = Ret c /\
    dlog c = w /\ inI (ln (Q2R y)) c /\ (dhi c - dlo c <= 5)%Z.
Proof.
  intros Hw Hy. destruct (log_piece y w Hy) as (q & c & Eq & Ec & Lc & Ic).
  exists q, c. repeat split; try assumption; try apply Ic.
  assert (E1 : Q2R (y + 1) = Q2R y + 1) by (rewrite Q2R_plus; unfold Q2R at 2; cbn; lra).
  assert (E2 : Q2R (y - 1) = Q2R y - 1) by (rewrite Q2R_minus; unfold Q2R at 2; cbn; lra).
  destruct (ratio_div_R (y + 1) (y - 1) ltac:(rewrite E2; lra)) as (q' & E & Rq).
  rewrite Eq in E. injection E as <-. rewrite E1, E2 in Rq.
  assert (Q2 : 2 <= Q2R q).
  { rewrite Rq. apply mul_le_inv with (Q2R y - 1); [lra|]. unfold Rdiv. rewrite Rmult_assoc, Rinv_l; lra. }
  pose proof (dfi_from_ratio_ok q w) as T.
  apply (log_core_width (dfi_from_ratio q w) c); try assumption.
  - eapply inI_ok, dfi_from_ratio_in.
  - destruct T as (_ & _ & _ & T & _). apply T. apply dyadic_le_iff. rewrite two_num.
    pose proof (p2_pos w). change (dlog (dfi_from_ratio q w)) with w. nra.
  - apply from_ratio_width.
Qed.

Lemma binade_le y s y' s' : 3 / 2 <= y < 3 -> 3 / 2 <= y' < 3 -> y * powerRZ 2 s <= y' * powerRZ 2 s' -> (s <= s')%Z.
Proof.
  intros Hy Hy' LE. destruct (Z.le_gt_cases s s') as [|G]; [assumption|exfalso].
  pose proof (powerRZ_pos2 s') as P1.
  assert (P2 : 2 * powerRZ 2 s' <= powerRZ 2 s).
  { replace s with ((1 + s') + Z.of_nat (Z.to_nat (s - s' - 1)))%Z by lia.
    rewrite !powerRZ_add, powerRZ_nat by lra. pose proof (p2_ge1 (Z.to_nat (s - s' - 1))).
    replace (powerRZ 2 1) with 2 by (symmetry; apply powerRZ_1). nra. }
  assert (3 / 2 * powerRZ 2 s <= y * powerRZ 2 s) by (apply Rmult_le_compat_r; lra).
  assert (y' * powerRZ 2 s' < 3 * powerRZ 2 s') by (apply Rmult_lt_compat_r; lra). lra.
Qed.

Lemma binade_unique y s y' s' : 3 / 2 <= y < 3 -> 3 / 2 <= y' < 3 -> y * powerRZ 2 s = y' * powerRZ 2 s' -> s = s'.
Proof. intros H H' E. apply Z.le_antisymm; eapply binade_le; [exact H|exact H'|rewrite E; lra|exact H'|exact H|rewrite E; lra]. Qed.

(** The product of the integer range [sl,su] with an enclosure of ln 2. *)
Lemma shift_ln2_near r0 l2 w sl su : (4 <= w)%nat -> (sl <= su)%Z -> dlog r0 = w -> dyadic (dlo r0) w = IZR sl -> dyadic (dhi r0) w = IZR su ->
  ln2_ok w l2 -> let m := dfi_mul r0 l2 in dlog m = w /\
  IZR sl * ln 2 - (3 * Rabs (IZR sl) + 1) / 2 ^ w <= dyadic (dlo m) w <= IZR sl * ln 2 /\
  IZR su * ln 2 <= dyadic (dhi m) w <= IZR su * ln 2 + (3 * Rabs (IZR su) + 1) / 2 ^ w.
Proof.
  intros H4 S L0 R0l R0u (L2 & I2 & W2). cbv zeta.
  pose proof (dfi_mul_tight r0 l2) as T. cbv zeta in T. rewrite L0, L2, Nat.max_id, R0l, R0u in T.
  assert (LM : dlog (dfi_mul r0 l2) = w) by apply T. split; [assumption|].
  apply tightest_near in T. destruct T as [[T1 T2] [T3 T4]].
  pose proof (p2_pos w) as P. set (a := dyadic (dlo l2) w) in *. set (b := dyadic (dhi l2) w) in *.
  assert (AB : a <= ln 2 <= b) by (unfold inI in I2; rewrite L2 in I2; exact I2).
  set (e := / 2 ^ w). assert (E0 : 0 < e) by (apply Rinv_0_lt_compat; assumption).
  assert (W : b - a <= 3 * e).
  { unfold b, a, e. rewrite <- dyadic_sub. unfold dyadic. apply Rmult_le_compat_r; [fold e; lra|]. apply IZR_le. apply W2. }
  assert (L2p : 1 / 2 <= ln 2).
  { assert (X : ln (/ 2) <= / 2 - 1) by (pose proof (exp_ineq1_le (ln (/ 2))) as Y; rewrite exp_ln in Y by lra; lra).
    rewrite ln_Rinv in X by lra. lra. }
  assert (e16 : e <= / 16).
  { unfold e. apply Rinv_le_contravar; [lra|]. pose proof (p2_mono 4 w H4) as M. cbn [pow] in M. lra. }
  assert (A0 : 0 <= a) by lra.
  apply IZR_le in S. set (s := IZR sl) in *. set (t := IZR su) in *. clearbody s t.
  assert (Lo : dyadic (dlo (dfi_mul r0 l2)) w * 2 ^ w = IZR (dlo (dfi_mul r0 l2))) by apply dyadic_mul.
  assert (Hi : dyadic (dhi (dfi_mul r0 l2)) w * 2 ^ w = IZR (dhi (dfi_mul r0 l2))) by apply dyadic_mul.
  assert (EE : e * 2 ^ w = 1) by (unfold e; field; lra).
  assert (Mn : s * ln 2 - 3 * Rabs s * e <= Rmin4 (s * a) (s * b) (t * a) (t * b) <= s * ln 2).
  { split.
    - assert (X : forall c v, a <= c <= b -> s <= v -> s * ln 2 - 3 * Rabs s * e <= v * c).
      { intros c v Hc Hv. apply Rle_trans with (s * c); [|apply Rmult_le_compat_r; lra].
        unfold Rabs. destruct (Rcase_abs s); nra. }
      unfold Rmin4; repeat apply Rmin_glb; apply X; lra.
    - unfold Rmin4. eapply Rle_trans; [apply Rmin_l|]. destruct (Rle_lt_dec 0 s).
      + eapply Rle_trans; [apply Rmin_l|]. nra.
      + eapply Rle_trans; [apply Rmin_r|]. nra. }
  assert (Mx : t * ln 2 <= Rmax4 (s * a) (s * b) (t * a) (t * b) <= t * ln 2 + 3 * Rabs t * e).
  { split.
    - unfold Rmax4. eapply Rle_trans; [|apply Rmax_r]. destruct (Rle_lt_dec 0 t).
      + eapply Rle_trans; [|apply Rmax_r]. nra.
      + eapply Rle_trans; [|apply Rmax_l]. nra.
    - assert (X : forall c v, a <= c <= b -> v <= t -> v * c <= t * ln 2 + 3 * Rabs t * e).
      { intros c v Hc Hv. apply Rle_trans with (t * c); [apply Rmult_le_compat_r; lra|].
        unfold Rabs. destruct (Rcase_abs t); nra. }
      unfold Rmax4; repeat apply Rmax_lub; apply X; lra. }
  rewrite <- Lo in T1, T2. rewrite <- Hi in T3, T4. unfold Rdiv. fold e.
  set (mn := Rmin4 _ _ _ _) in *. set (mx := Rmax4 _ _ _ _) in *.
  set (lo := dyadic (dlo (dfi_mul r0 l2)) w) in *. set (hi := dyadic (dhi (dfi_mul r0 l2)) w) in *.
  assert (lo <= mn) by (apply mul_le_inv with (2 ^ w); assumption).
  assert (mx <= hi) by (apply mul_le_inv with (2 ^ w); assumption).
  assert (mn - e <= lo) by (apply mul_le_inv with (2 ^ w); [assumption|]; rewrite Rmult_minus_distr_r, EE; lra).
  assert (hi <= mx + e) by (apply mul_le_inv with (2 ^ w); [assumption|]; rewrite Rmult_plus_distr_r, EE; lra).
  lra.
Qed.

Lemma ln_mono a b : 0 < a -> a <= b -> ln a <= ln b.
Proof. intros Pa [AB|AB]; [left; apply ln_increasing; assumption|subst; lra]. Qed.

(** Everything about the result of the logarithm: [yl 2^sl] and [yu 2^su] are
    the bounds of the argument, scaled to mantissas in [3/2, 3). *)
Lemma dfi_log_near ln2 i : (forall n, exists l, ln2 n = Ret l /\ ln2_ok n l) -> (0 < dlo i)%Z -> dfi_ok i ->
  exists r yl yu sl su, dfi_log ln2 i = Ret r /\ dlog r = dlog i /\
    3 / 2 <= yl < 3 /\ 3 / 2 <= yu < 3 /\
    dyadic (dlo i) (dlog i) = yl * powerRZ 2 sl /\ dyadic (dhi i) (dlog i) = yu * powerRZ 2 su /\
    IZR sl * ln 2 + Rmin (ln yl) (ln yu) - (2 + 3 * Rabs (IZR sl) / 2 ^ 16) / 2 ^ dlog i < dyadic (dlo r) (dlog r)
      <= IZR sl * ln 2 + Rmin (ln yl) (ln yu) /\
    IZR su * ln 2 + Rmax (ln yl) (ln yu) <= dyadic (dhi r) (dlog r)
      < IZR su * ln 2 + Rmax (ln yl) (ln yu) + (2 + 3 * Rabs (IZR su) / 2 ^ 16) / 2 ^ dlog i.
Proof.
  intros H2 Hp Ok. unfold dfi_log. unfold dfi_ok in Ok.
  replace (0 <? dlo i)%Z with true by (symmetry; apply Z.ltb_lt; assumption).
  replace (dlo i <=? dhi i)%Z with true by (symmetry; apply Z.leb_le; assumption). cbn [assert_then].
  set (w := (dlog i + 16)%nat). assert (W4 : (4 <= w)%nat) by (unfold w; lia). destruct (dfi_bounds_ok i) as [BL BU].
  destruct (log_shift_ok (dlo i) (dlog i) _ Hp BL) as (yl & sl & El & Yl & Dl).
  destruct (log_shift_ok (dhi i) (dlog i) _ ltac:(lia) BU) as (yu & su & Eu & Yu & Du).
  rewrite El; cbn [rbind]. rewrite Eu; cbn [rbind].
  assert (Sle : (sl <= su)%Z).
  { apply (binade_le (Q2R yl) sl (Q2R yu) su); try assumption. rewrite <- Dl, <- Du. apply dyadic_le; assumption. }
  pose proof (dfi_from_int_range_ok sl su w) as FR.
  replace (sl <=? su)%Z with true in FR by (symmetry; apply Z.leb_le; assumption).
  destruct FR as (r0 & E0 & L0 & R0l & R0u). rewrite E0; cbn [rbind].
  destruct (H2 w) as (l2 & E2 & K2). rewrite E2; cbn [rbind].
  destruct (log_piece_width yl w W4 Yl) as (ql & cl & Eql & Ecl & Lcl & Icl & Wcl).
  destruct (log_piece_width yu w W4 Yu) as (qu & cu & Equ & Ecu & Lcu & Icu & Wcu).
  rewrite Eql; cbn [rbind]. rewrite Ecl; cbn [rbind]. rewrite Equ; cbn [rbind]. rewrite Ecu; cbn [rbind].
  destruct (shift_ln2_near r0 l2 w sl su W4 Sle L0 R0l R0u K2) as (LM & [M1 M2] & [M3 M4]).
  set (m := dfi_mul r0 l2) in *.
  destruct (dfi_union_bounds cl cu) as (LU & U1 & U2). rewrite Lcl, Lcu, Nat.max_id in LU.
  rewrite LU, Lcl, Lcu in U1, U2.
  destruct (dfi_add_bounds m (dfi_union cl cu)) as (LA & A1 & A2).
  rewrite LM, LU, Nat.max_id in LA. rewrite LA, LM, LU in A1, A2.
  set (s := dfi_add m (dfi_union cl cu)) in *.
  eexists; exists (Q2R yl), (Q2R yu), sl, su. split; [reflexivity|]. split; [reflexivity|].
  split; [assumption|]. split; [assumption|]. split; [assumption|]. split; [assumption|].
  pose proof (dfi_convert_ok s (dlog i)) as T. rewrite LA in T.
  change (dlog (dfi_convert s (dlog i))) with (dlog i).
  apply tightest_near in T. destruct T as [T1 T2].
  rewrite <- (dyadic_mul (dlo (dfi_convert s (dlog i))) (dlog i)) in T1.
  rewrite <- (dyadic_mul (dhi (dfi_convert s (dlog i))) (dlog i)) in T2.
  set (lo := dyadic (dlo (dfi_convert s (dlog i))) (dlog i)) in *. set (hi := dyadic (dhi (dfi_convert s (dlog i))) (dlog i)) in *.
  pose proof (p2_pos (dlog i)) as Pn. set (N := 2 ^ dlog i) in *.
  assert (EW : 2 ^ w = 2 ^ 16 * N) by (unfold w, N; rewrite pow_add; ring).
  set (h := 2 ^ 16) in *. assert (Hh : h = 65536) by (unfold h; cbn; ring).
  assert (Cw : forall c y, dlog c = w -> inI y c -> (dhi c - dlo c <= 5)%Z ->
     y - 5 / 2 ^ w <= dyadic (dlo c) w <= y /\ y <= dyadic (dhi c) w <= y + 5 / 2 ^ w).
  { intros c y Lc Ic Wc. unfold inI in Ic. rewrite Lc in Ic.
    assert (X : dyadic (dhi c) w - dyadic (dlo c) w <= 5 / 2 ^ w).
    { rewrite <- dyadic_sub. unfold dyadic. apply Rmult_le_compat_r; [left; apply Rinv_0_lt_compat, p2_pos|]. apply IZR_le. assumption. }
    lra. }
  destruct (Cw cl _ Lcl Icl Wcl) as [Cl1 Cl2]. destruct (Cw cu _ Lcu Icu Wcu) as [Cu1 Cu2]. clear Cw.
  assert (Um : Rmin (ln (Q2R yl)) (ln (Q2R yu)) - 5 / 2 ^ w <= dyadic (dlo (dfi_union cl cu)) w <= Rmin (ln (Q2R yl)) (ln (Q2R yu))).
  { rewrite U1. unfold Rmin. destruct (Rle_dec _ _), (Rle_dec _ _); lra. }
  assert (Ux : Rmax (ln (Q2R yl)) (ln (Q2R yu)) <= dyadic (dhi (dfi_union cl cu)) w <= Rmax (ln (Q2R yl)) (ln (Q2R yu)) + 5 / 2 ^ w).
  { rewrite U2. unfold Rmax. destruct (Rle_dec _ _), (Rle_dec _ _); lra. }
  set (mn := Rmin (ln (Q2R yl)) (ln (Q2R yu))) in *. set (mx := Rmax (ln (Q2R yl)) (ln (Q2R yu))) in *.
  set (al := Rabs (IZR sl)) in *. set (au := Rabs (IZR su)) in *. 
  set (S1 := dyadic (dlo s) w) in *. set (S2 := dyadic (dhi s) w) in *.
  set (B1 := IZR sl * ln 2) in *. set (B2 := IZR su * ln 2) in *.
  assert (HS1 : B1 + mn - (3 * al + 6) / 2 ^ w <= S1 <= B1 + mn) by (unfold Rdiv in *; lra).
  assert (HS2 : B2 + mx <= S2 <= B2 + mx + (3 * au + 6) / 2 ^ w) by (unfold Rdiv in *; lra).
  assert (Q : forall a, (3 * a + 6) / 2 ^ w * N = (3 * a + 6) / h) by (intros a; rewrite EW; field; rewrite Hh; lra).
  assert (Q' : forall a, (2 + 3 * a / h) / N * N = 2 + 3 * a / h) by (intros a; field; rewrite Hh; lra).
  assert (K1 : B1 * N + mn * N - (3 * al + 6) / h <= S1 * N).
  { rewrite <- Q. rewrite <- Rmult_plus_distr_r, <- Rmult_minus_distr_r. apply Rmult_le_compat_r; lra. }
  assert (K2' : S2 * N <= B2 * N + mx * N + (3 * au + 6) / h).
  { rewrite <- Q. rewrite <- !Rmult_plus_distr_r. apply Rmult_le_compat_r; lra. }
  rewrite Hh in *. repeat split.
  - apply Rmult_lt_reg_r with N; [assumption|]. rewrite Rmult_minus_distr_r, Q', Rmult_plus_distr_r. lra.
  - apply mul_le_inv with N; [assumption|]. apply Rle_trans with (S1 * N); [lra|]. apply Rmult_le_compat_r; lra.
  - apply mul_le_inv with N; [assumption|]. apply Rle_trans with (S2 * N); [|lra]. apply Rmult_le_compat_r; lra.
  - apply Rmult_lt_reg_r with N; [assumption|]. rewrite Rmult_plus_distr_r, Q', Rmult_plus_distr_r. lra.
Qed.

Lemma binade_of l y s s' : 3 / 2 <= y < 3 -> l = y * powerRZ 2 s -> 3 / 2 * powerRZ 2 s' <= l < 3 * powerRZ 2 s' -> s = s'.
Proof.
  intros Hy E H. pose proof (powerRZ_pos2 s') as P.
  apply (binade_unique y s (l / powerRZ 2 s') s').
  - assumption.
  - split; [apply mul_le_inv with (powerRZ 2 s')|apply Rmult_lt_reg_r with (powerRZ 2 s')]; try assumption;
      unfold Rdiv; rewrite (Rmult_assoc l), Rinv_l; lra.
  - rewrite <- E. field. lra.
Qed.

Lemma ln_binade_gap a b : 3 / 2 <= a < 3 -> 3 / 2 <= b < 3 -> ln a - ln 2 < Rmin (ln a) (ln b) /\ Rmax (ln a) (ln b) < ln b + ln 2.
Proof.
  intros Ha Hb. assert (ln a < ln (b * 2)) by (apply ln_increasing; lra). rewrite ln_mult in H by lra.
  assert (0 < ln 2) by (rewrite <- ln_1; apply ln_increasing; lra).
  split; [apply Rmin_glb_lt|apply Rmax_lub_lt]; lra.
Qed.

Lemma dfi_log_binade ln2 i s : (forall n, exists l, ln2 n = Ret l /\ ln2_ok n l) -> dfi_ok i ->
  3 / 2 * powerRZ 2 s <= dyadic (dlo i) (dlog i) -> dyadic (dhi i) (dlog i) < 3 * powerRZ 2 s ->
  exists r, dfi_log ln2 i = Ret r /\ dlog r = dlog i /\
    ln (dyadic (dlo i) (dlog i)) - (2 + 3 * Rabs (IZR s) / 2 ^ 16) / 2 ^ dlog i < dyadic (dlo r) (dlog r) /\
    dyadic (dhi r) (dlog r) < ln (dyadic (dhi i) (dlog i)) + (2 + 3 * Rabs (IZR s) / 2 ^ 16) / 2 ^ dlog i.
Proof.
  intros H2 Ok Hl Hu. pose proof (powerRZ_pos2 s) as P. pose proof (p2_pos (dlog i)) as Pn.
  assert (LU : dyadic (dlo i) (dlog i) <= dyadic (dhi i) (dlog i)) by (apply dyadic_le; exact Ok).
  assert (Hp : (0 < dlo i)%Z).
  { apply lt_IZR. rewrite <- (dyadic_mul (dlo i) (dlog i)). apply Rmult_lt_0_compat; lra. }
  destruct (dfi_log_near ln2 i H2 Hp Ok) as (r & yl & yu & sl & su & E & L & Yl & Yu & Dl & Du & Nl & Nu).
  exists r. split; [assumption|]. split; [assumption|].
  assert (sl = s) as -> by (apply (binade_of _ yl sl s Yl Dl); lra).
  assert (su = s) as -> by (apply (binade_of _ yu su s Yu Du); lra).
  rewrite Dl, Du, !ln_shift by lra.
  assert (Y : yl <= yu) by (apply mul_le_inv with (powerRZ 2 s); [assumption|]; rewrite <- Dl, <- Du; assumption).
  pose proof (ln_mono yl yu ltac:(lra) Y) as M. rewrite Rmin_left in Nl by assumption. rewrite Rmax_right in Nu by assumption. lra.
Qed.

Lemma dfi_log_any ln2 i sl su : (forall n, exists l, ln2 n = Ret l /\ ln2_ok n l) -> dfi_ok i ->
  3 / 2 * powerRZ 2 sl <= dyadic (dlo i) (dlog i) < 3 * powerRZ 2 sl ->
  3 / 2 * powerRZ 2 su <= dyadic (dhi i) (dlog i) < 3 * powerRZ 2 su ->
  exists r, dfi_log ln2 i = Ret r /\ dlog r = dlog i /\
    ln (dyadic (dlo i) (dlog i)) - ln 2 - (2 + 3 * Rabs (IZR sl) / 2 ^ 16) / 2 ^ dlog i < dyadic (dlo r) (dlog r) /\
    dyadic (dhi r) (dlog r) < ln (dyadic (dhi i) (dlog i)) + ln 2 + (2 + 3 * Rabs (IZR su) / 2 ^ 16) / 2 ^ dlog i.
Proof.
  intros H2 Ok Hl Hu. pose proof (powerRZ_pos2 sl) as P. pose proof (p2_pos (dlog i)) as Pn.
  assert (Hp : (0 < dlo i)%Z).
  { apply lt_IZR. rewrite <- (dyadic_mul (dlo i) (dlog i)). apply Rmult_lt_0_compat; lra. }
  destruct (dfi_log_near ln2 i H2 Hp Ok) as (r & yl & yu & sl' & su' & E & L & Yl & Yu & Dl & Du & Nl & Nu).
  exists r. split; [assumption|]. split; [assumption|].
  assert (sl' = sl) as -> by (apply (binade_of _ yl sl' sl Yl Dl); lra).
  assert (su' = su) as -> by (apply (binade_of _ yu su' su Yu Du); lra).
  rewrite Dl, Du, !ln_shift by lra. destruct (ln_binade_gap yl yu Yl Yu). lra.
Qed.

(** At every precision, the logarithm of [2,3] is a quarter too low. *)
Lemma dfi_log_straddle ln2 n : (forall n, exists l, ln2 n = Ret l /\ ln2_ok n l) ->
  exists r, dfi_log ln2 (DFI (shl 2 n) (shl 3 n) n) = Ret r /\ dlog r = n /\
    dyadic (dlo r) n <= ln 2 - 1 / 4 /\ ln 3 + 1 / 4 <= dyadic (dhi r) n.
Proof.
  intros H2. assert (P : (0 < 2 ^ Z.of_nat n)%Z) by (apply Z.pow_pos_nonneg; lia).
  destruct (dfi_log_near ln2 (DFI (shl 2 n) (shl 3 n) n) H2) as (r & yl & yu & sl & su & E & L & Yl & Yu & Dl & Du & Nl & Nu).
  { cbn [dlo]. rewrite shl_mul. lia. }
  { unfold dfi_ok; cbn [dlo dhi]. rewrite !shl_mul. lia. }
  cbn [dlo dhi dlog] in *. rewrite !dyadic_shl0 in *.
  exists r. split; [assumption|]. split; [assumption|]. rewrite L in *.
  assert (sl = 0%Z) as -> by (apply (binade_of _ yl sl 0 Yl Dl); cbn [powerRZ]; lra).
  assert (su = 1%Z) as -> by (apply (binade_of _ yu su 1 Yu Du); rewrite powerRZ_1; lra).
  rewrite powerRZ_1 in Du. cbn [powerRZ] in Dl.
  assert (yl = 2) as -> by lra. assert (yu = 3 / 2) as -> by lra.
  assert (X : ln (3 / 2) - ln 2 <= - (1 / 4)).
  { unfold Rminus. rewrite <- ln_Rinv, <- ln_mult by lra. 
    pose proof (exp_ineq1_le (ln (3 / 2 * / 2))) as Y. rewrite exp_ln in Y by lra. lra. }
  assert (X3 : ln (3 / 2) = ln 3 - ln 2) by (unfold Rdiv; rewrite ln_mult, ln_Rinv by lra; ring).
  rewrite Rmin_right in Nl by lra. rewrite Rmax_left in Nu by lra. lra.
Qed.

Lemma dfi_log_straddle_refuted : exists c, 0 < c /\ forall ln2 n, (forall n, exists l, ln2 n = Ret l /\ ln2_ok n l) ->
  exists i r, dlog i = n /\ dfi_ok i /\ 2 <= dyadic (dlo i) n /\ dyadic (dhi i) n <= 3 /\ dfi_log ln2 i = Ret r /\
    dyadic (dlo r) (dlog r) <= ln (dyadic (dlo i) n) - c /\ ln (dyadic (dhi i) n) + c <= dyadic (dhi r) (dlog r).
Proof.
  exists (1 / 4). split; [lra|]. intros ln2 n H2. destruct (dfi_log_straddle ln2 n H2) as (r & E & L & A & B).
  exists (DFI (shl 2 n) (shl 3 n) n), r. cbn [dlo dhi dlog]. rewrite !dyadic_shl0, L.
  assert (P : (0 < 2 ^ Z.of_nat n)%Z) by (apply Z.pow_pos_nonneg; lia).
  repeat split; try assumption; try lra. unfold dfi_ok; cbn [dlo dhi]. rewrite !shl_mul. lia.
Qed.
