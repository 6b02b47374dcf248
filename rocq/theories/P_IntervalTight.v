(** The rounding operations give the tightest interval at their precision. *)
From Coq Require Import ZArith QArith Qround Qreals Reals Lra Lia Bool List.
From Verif Require Import M_Base M_Traits M_Interval S_Interval P_Interval.
Local Open Scope R_scope.

Definition Rmin4 a b c d := Rmin (Rmin a b) (Rmin c d).
Definition Rmax4 a b c d := Rmax (Rmax a b) (Rmax c d).

Lemma IZR_min a b : IZR (Z.min a b) = Rmin (IZR a) (IZR b).
Proof.
  destruct (Z.le_gt_cases a b) as [H|H].
  - rewrite Z.min_l, Rmin_left; [reflexivity|apply IZR_le; assumption|assumption].
  - rewrite Z.min_r, Rmin_right; [reflexivity|left; apply IZR_lt; assumption|lia].
Qed.
Lemma IZR_max a b : IZR (Z.max a b) = Rmax (IZR a) (IZR b).
Proof.
  destruct (Z.le_gt_cases a b) as [H|H].
  - rewrite Z.max_r, Rmax_right; [reflexivity|apply IZR_le; assumption|assumption].
  - rewrite Z.max_l, Rmax_left; [reflexivity|left; apply IZR_lt; assumption|lia].
Qed.
Lemma Rmin_scale c a b : 0 < c -> Rmin a b * c = Rmin (a * c) (b * c).
Proof.
  intros H. destruct (Rle_dec a b) as [L|L].
  - rewrite !Rmin_left; [reflexivity|apply Rmult_le_compat_r; lra|assumption].
  - rewrite !Rmin_right; [reflexivity|apply Rmult_le_compat_r; lra|lra].
Qed.
Lemma Rmax_scale c a b : 0 < c -> Rmax a b * c = Rmax (a * c) (b * c).
Proof.
  intros H. destruct (Rle_dec a b) as [L|L].
  - rewrite !Rmax_right; [reflexivity|apply Rmult_le_compat_r; lra|assumption].
  - rewrite !Rmax_left; [reflexivity|apply Rmult_le_compat_r; lra|lra].
Qed.

Lemma dfi_mul_tight a b :
  let al := dyadic (dlo a) (dlog a) in let ah := dyadic (dhi a) (dlog a) in
  let bl := dyadic (dlo b) (dlog b) in let bh := dyadic (dhi b) (dlog b) in
  tightest (dfi_mul a b) (Nat.max (dlog a) (dlog b))
    (Rmin4 (al * bl) (al * bh) (ah * bl) (ah * bh)) (Rmax4 (al * bl) (al * bh) (ah * bl) (ah * bh)).
Proof.
  cbv zeta. unfold dfi_mul.
  match goal with |- context [do_op ?op a b] => 
    destruct (do_op_cases op a b) as (a' & b' & n & Hn & Ha & Hb & A1 & A2 & B1 & B2 & ->) end.
  pose proof (mul_select (dlo a' * dlo b') (dlo a' * dhi b') (dhi a' * dlo b') (dhi a' * dhi b')) as S.
  destruct (take_min (dlo a' * dlo b') _) as [lower rest]. cbv zeta in S |- *.
  destruct S as [SL SU]. rewrite <- A1, <- A2, <- B1, <- B2, <- Hn. rewrite SU, SL. clear.
  pose proof (p2_pos n) as P. 
  assert (K : forall x y, dyadic x n * dyadic y n * (2 ^ n * 2 ^ n) = IZR (x * y)).
  { intros x y. rewrite mult_IZR, <- (dyadic_mul x n), <- (dyadic_mul y n). ring. }
  assert (P2 : 0 < 2 ^ n * 2 ^ n) by (apply Rmult_lt_0_compat; assumption).
  apply tightest_intro.
  - pose proof (shr_R (Z.min (Z.min (dlo a' * dlo b') (dlo a' * dhi b')) (Z.min (dhi a' * dlo b') (dhi a' * dhi b'))) n) as S.
    rewrite !IZR_min, <- !K, <- !(Rmin_scale (2 ^ n * 2 ^ n)) in S by exact P2. unfold Rmin4. 
    set (mn := Rmin _ _) in *. set (s := IZR (shr _ n)) in *. clearbody mn s. split.
    + apply mul_le_inv with (2 ^ n); [assumption|]. lra.
    + apply Rmult_lt_reg_r with (2 ^ n); [assumption|]. lra.
  - pose proof (shr_up_R (Z.max (Z.max (dlo a' * dlo b') (dlo a' * dhi b')) (Z.max (dhi a' * dlo b') (dhi a' * dhi b'))) n) as S.
    rewrite !IZR_max, <- !K, <- !(Rmax_scale (2 ^ n * 2 ^ n)) in S by exact P2. unfold Rmax4. 
    set (mn := Rmax _ _) in *. set (s := IZR (shr_up _ n)) in *. clearbody mn s. split.
    + apply Rmult_lt_reg_r with (2 ^ n); [assumption|]. lra.
    + apply mul_le_inv with (2 ^ n); [assumption|]. lra.
Qed.

Lemma dfi_recip_tight i r : dfi_checked_recip i = Some r ->
  tightest r (dlog i) (/ dyadic (dhi i) (dlog i)) (/ dyadic (dlo i) (dlog i)).
Proof.
  intros E. unfold dfi_checked_recip in E. destruct (dfi_contains_zero i) eqn:C; [discriminate|].
  set (n := dlog i) in *.
  assert (X : r = DFI (div_floor (shl 1 (2 * n)) (dhi i)) (div_ceil (shl 1 (2 * n)) (dlo i)) n) by congruence.
  rewrite X. clear X E. unfold dfi_contains_zero in C. apply andb_false_iff in C. rewrite !negb_false_iff, !Z.ltb_lt in C.
  destruct (Z.eq_dec (dlo i) 0) as [Z0|Z0].
  { (* malformed: lower bound zero, upper negative: 1/0 = 0 in both *)
    rewrite Z0. destruct C as [C|C]; [lia|].
    apply tightest_intro.
    - pose proof (div_floor_R (shl 1 (2 * n)) (dhi i) ltac:(lia)) as F. rewrite shl1_R in F.
      pose proof (p2_pos n). assert (IZR (dhi i) <> 0) by (apply not_0_IZR; lia).
      replace (/ dyadic (dhi i) n * 2 ^ n) with (2 ^ (2 * n) / IZR (dhi i)); [exact F|].
      replace (2 * n)%nat with (n + n)%nat by lia. rewrite pow_add. unfold dyadic. field. split; lra.
    - unfold div_ceil, dyadic, Rdiv. rewrite Zdiv.Zdiv_0_r, Rmult_0_l, Rinv_0, Rmult_0_l. cbn. lra. }
  destruct (Z.eq_dec (dhi i) 0) as [Z1|Z1].
  { rewrite Z1. destruct C as [C|C]; [|lia]. apply tightest_intro.
    - unfold div_floor, dyadic, Rdiv. rewrite Zdiv.Zdiv_0_r, Rmult_0_l, Rinv_0, Rmult_0_l. lra.
    - pose proof (div_ceil_R (shl 1 (2 * n)) (dlo i) Z0) as F. rewrite shl1_R in F.
      pose proof (p2_pos n). assert (IZR (dlo i) <> 0) by (apply not_0_IZR; lia).
      replace (/ dyadic (dlo i) n * 2 ^ n) with (2 ^ (2 * n) / IZR (dlo i)); [exact F|].
      replace (2 * n)%nat with (n + n)%nat by lia. rewrite pow_add. unfold dyadic. field. split; lra. }
  pose proof (p2_pos n).
  assert (K : forall z, z <> 0%Z -> / dyadic z n * 2 ^ n = 2 ^ (2 * n) / IZR z).
  { intros z Hz. assert (IZR z <> 0) by (apply not_0_IZR; assumption).
    replace (2 * n)%nat with (n + n)%nat by lia. rewrite pow_add. unfold dyadic. field. split; lra. }
  apply tightest_intro; rewrite K by assumption; rewrite <- shl1_R.
  - apply div_floor_R; assumption.
  - apply div_ceil_R; assumption.
Qed.

Lemma dfi_square_tight i : dfi_ok i ->
  let l := dyadic (dlo i) (dlog i) in let h := dyadic (dhi i) (dlog i) in
  tightest (dfi_square i) (dlog i) (if dfi_contains_zero i then 0 else Rmin (l * l) (h * h)) (Rmax (l * l) (h * h)).
Proof.
  intros Ok. cbv zeta. unfold dfi_square. set (n := dlog i).
  assert (E : (let '(mn, mx) := if ((if (dhi i <? 0)%Z then (- dhi i)%Z else dhi i) <? (if (dlo i <? 0)%Z then (- dlo i)%Z else dlo i))%Z
     then ((if (dhi i <? 0)%Z then (- dhi i)%Z else dhi i), (if (dlo i <? 0)%Z then (- dlo i)%Z else dlo i)) 
     else ((if (dlo i <? 0)%Z then (- dlo i)%Z else dlo i), (if (dhi i <? 0)%Z then (- dhi i)%Z else dhi i)) in
     DFI (if dfi_contains_zero i then 0 else shr (mn * mn) n) (shr_up (mx * mx) n) n) =
     DFI (if dfi_contains_zero i then 0 else shr (Z.min (dlo i * dlo i) (dhi i * dhi i)) n) (shr_up (Z.max (dlo i * dlo i) (dhi i * dhi i)) n) n).
  { assert (S : forall a b, (Z.abs a * Z.abs a <= Z.abs b * Z.abs b <-> Z.abs a <= Z.abs b)%Z).
    { intros a b. pose proof (Z.abs_nonneg a). pose proof (Z.abs_nonneg b). nia. }
    assert (Q : forall a, ((if a <? 0 then - a else a) = Z.abs a)%Z) by (intros a; destruct (Z.ltb_spec a 0); lia).
    rewrite !Q. destruct (Z.ltb_spec (Z.abs (dhi i)) (Z.abs (dlo i))) as [H|H].
    - assert (Z.abs (dhi i) * Z.abs (dhi i) <= Z.abs (dlo i) * Z.abs (dlo i))%Z by (apply S; lia).
      rewrite !Z.abs_square in *. rewrite Z.min_r, Z.max_l by assumption. reflexivity.
    - apply S in H. rewrite !Z.abs_square in *. rewrite Z.min_l, Z.max_r by assumption. reflexivity. }
  rewrite E. clear E. pose proof (p2_pos n) as P.
  assert (K : forall x, dyadic x n * dyadic x n * (2 ^ n * 2 ^ n) = IZR (x * x)).
  { intros x. rewrite mult_IZR, <- (dyadic_mul x n). ring. }
  assert (P2 : 0 < 2 ^ n * 2 ^ n) by (apply Rmult_lt_0_compat; assumption).
  apply tightest_intro.
  - destruct (dfi_contains_zero i); [rewrite Rmult_0_l; cbn; lra|].
    pose proof (shr_R (Z.min (dlo i * dlo i) (dhi i * dhi i)) n) as S.
    rewrite !IZR_min, <- !K, <- !(Rmin_scale (2 ^ n * 2 ^ n)) in S by exact P2.
    set (mn := Rmin _ _) in *. set (s := IZR (shr _ n)) in *. clearbody mn s. split.
    + apply mul_le_inv with (2 ^ n); [assumption|]. lra.
    + apply Rmult_lt_reg_r with (2 ^ n); [assumption|]. lra.
  - pose proof (shr_up_R (Z.max (dlo i * dlo i) (dhi i * dhi i)) n) as S.
    rewrite !IZR_max, <- !K, <- !(Rmax_scale (2 ^ n * 2 ^ n)) in S by exact P2.
    set (mn := Rmax _ _) in *. set (s := IZR (shr_up _ n)) in *. clearbody mn s. split.
    + apply Rmult_lt_reg_r with (2 ^ n); [assumption|]. lra.
    + apply mul_le_inv with (2 ^ n); [assumption|]. lra.
Qed.

Lemma dfi_mul_ratio_tight a r : dfi_ok a ->
  let al := dyadic (dlo a) (dlog a) in let ah := dyadic (dhi a) (dlog a) in
  tightest (dfi_mul_ratio a r) (dlog a) (Rmin (al * Q2R r) (ah * Q2R r)) (Rmax (al * Q2R r) (ah * Q2R r)).
Proof.
  intros Ok. cbv zeta. unfold dfi_mul_ratio.
  assert (HP : 0 < / IZR (Zpos (Qden r))) by (apply Rinv_0_lt_compat, IZR_lt; reflexivity).
  pose proof (p2_pos (dlog a)) as P.
  assert (L : dyadic (dlo a) (dlog a) <= dyadic (dhi a) (dlog a)) by (apply dyadic_le; assumption).
  assert (S : forall z, Q2R (Qscale r z) = dyadic z (dlog a) * Q2R r * 2 ^ dlog a).
  { intros z. rewrite Qscale_R, <- (dyadic_mul z (dlog a)). ring. }
  destruct (Z.ltb_spec (Qnum r) 0) as [H|H].
  - assert (R0 : Q2R r <= 0) by (unfold Q2R; apply IZR_lt in H; nra).
    rewrite Rmin_right, Rmax_left by nra. apply tightest_intro; rewrite <- S; [apply Qfloor_R|apply Qceiling_R].
  - assert (R0 : 0 <= Q2R r) by (unfold Q2R; apply IZR_le in H; nra).
    rewrite Rmin_left, Rmax_right by nra. apply tightest_intro; rewrite <- S; [apply Qfloor_R|apply Qceiling_R].
Qed.
