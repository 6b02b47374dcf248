(** Odd powers of intervals around zero and of negative points: when they enclose. *)
From Coq Require Import ZArith Reals Lra Lia Bool.
From Verif Require Import M_Base M_Interval S_Interval P_Interval P_IntervalPow.
Local Open Scope Z_scope.

Lemma even_root x e : 1 <= e -> (2 | x ^ e) -> (2 | x).
Proof.
  intros He H. apply Z.mod_divide in H; [|lia].
  rewrite Zmod_even in H. rewrite Z.even_pow in H by lia.
  destruct (Z.even x) eqn:E; [|discriminate]. apply Z.even_spec in E. destruct E as [k ->]. exists k. lia.
Qed.

Lemma root_divide s : 0 <= s -> forall x e, 1 <= e -> (2 ^ (s * e) | x ^ e) -> (2 ^ s | x).
Proof.
  intros Hs. pattern s. apply natlike_ind; [..|exact Hs].
  - intros x e _ _. apply Z.divide_1_l.
  - clear s Hs. intros s Hs IH x e He H.
    assert (E2 : 2 ^ (Z.succ s * e) = 2 ^ e * 2 ^ (s * e)) by (rewrite <- Z.pow_add_r by nia; f_equal; lia).
    rewrite E2 in H.
    assert (D : (2 | x)).
    { apply even_root with e; [exact He|]. apply Z.divide_trans with (2 ^ e * 2 ^ (s * e)); [|exact H].
      apply Z.divide_mul_l. replace e with (1 + (e - 1)) by lia. rewrite Z.pow_add_r by lia. exists (2 ^ (e - 1)). lia. }
    destruct D as [y ->]. rewrite (Z.mul_comm (2 ^ e)), Z.pow_mul_l in H.
    apply Z.mul_divide_cancel_r in H; [|apply Z.pow_nonzero; lia].
    apply IH in H; [|exact He]. destruct H as [z ->]. exists z. rewrite Z.pow_succ_r by exact Hs. lia.
Qed.

Section Exact.
Variables (n : nat) (m : Z).
Notation N := (Z.of_nat n).

(** [c / 2^n] is [(m / 2^n)^k] *)
Definition exactly (k c : Z) : Prop := c * 2 ^ (N * k) = m ^ k * 2 ^ N.

Lemma smaller_exact e k : 1 <= k <= e -> (2 ^ (N * (e - 1)) | m ^ e) -> exists w, exactly k w.
Proof.
  intros Hk H. assert (D : (2 ^ (N * (k - 1)) | m ^ k)).
  { apply root_divide with e; [nia|lia|]. rewrite <- Z.pow_mul_r by lia.
    apply Z.divide_trans with (2 ^ (N * (e - 1) * k)).
    - replace (N * (e - 1) * k) with (N * (k - 1) * e + N * (e - k)) by ring.
      rewrite Z.pow_add_r by (repeat apply Z.mul_nonneg_nonneg; lia). apply Z.divide_factor_l.
    - replace (k * e) with (e * k) by ring. rewrite (Z.pow_mul_r m), (Z.pow_mul_r 2) by (repeat apply Z.mul_nonneg_nonneg; lia).
      destruct H as [z ->]. rewrite Z.pow_mul_l. apply Z.divide_factor_r. }
  destruct D as [w E]. exists w. unfold exactly. rewrite E.
  replace (N * k) with (N * (k - 1) + N) by ring. rewrite Z.pow_add_r by nia. ring.
Qed.

Lemma shr_exact k j c d w : 0 <= k -> 0 <= j -> exactly k c -> exactly j d -> exactly (k + j) w -> shr (c * d) n = w.
Proof.
  unfold exactly. intros Hk Hj C D W.
  assert (P : 0 < 2 ^ N) by (apply Z.pow_pos_nonneg; lia).
  assert (Q : 0 < 2 ^ (N * (k + j))) by (apply Z.pow_pos_nonneg; nia).
  assert (E : c * d = w * 2 ^ N).
  { apply Z.mul_reg_r with (2 ^ (N * (k + j))); [lia|].
    replace (w * 2 ^ N * 2 ^ (N * (k + j))) with (w * 2 ^ (N * (k + j)) * 2 ^ N) by ring. rewrite W.
    rewrite Z.mul_add_distr_l, !Z.pow_add_r by nia.
    replace (c * d * (2 ^ (N * k) * 2 ^ (N * j))) with ((c * 2 ^ (N * k)) * (d * 2 ^ (N * j))) by ring. rewrite C, D. ring. }
  rewrite shr_div, E. apply Z.div_mul. lia.
Qed.
Lemma shr_exactly k j c d : 0 <= k -> 0 <= j -> exactly k c -> exactly j d -> (exists w, exactly (k + j) w) -> exactly (k + j) (shr (c * d) n).
Proof. intros Hk Hj C D [w W]. rewrite (shr_exact k j c d w Hk Hj C D W). exact W. Qed.
Lemma opp_exactly k j c d : 0 <= k -> 0 <= j -> exactly k (- c) -> exactly j d -> (exists w, exactly (k + j) w) -> exactly (k + j) (- shr (c * d) n).
Proof.
  intros Hk Hj C D [w W].
  assert (E : - c * d = w * 2 ^ N).
  { assert (S := shr_exact k j (- c) d w Hk Hj C D W).
    unfold exactly in *. assert (Q : 0 < 2 ^ (N * (k + j))) by (apply Z.pow_pos_nonneg; nia).
    apply Z.mul_reg_r with (2 ^ (N * (k + j))); [lia|].
    replace (w * 2 ^ N * 2 ^ (N * (k + j))) with (w * 2 ^ (N * (k + j)) * 2 ^ N) by ring. rewrite W.
    rewrite Z.mul_add_distr_l, !Z.pow_add_r by nia.
    replace (- c * d * (2 ^ (N * k) * 2 ^ (N * j))) with ((- c * 2 ^ (N * k)) * (d * 2 ^ (N * j))) by ring. rewrite C, D. ring. }
  replace (c * d) with (- w * 2 ^ N) by lia. rewrite shr_div, Z.div_mul by (apply Z.pow_nonzero; lia). rewrite Z.opp_involutive. exact W.
Qed.

Lemma loop_exact e0 : (2 ^ (N * (e0 - 1)) | m ^ e0) -> forall fuel rl nru bl bu e a j rl' nru', 1 <= e -> 0 <= a -> 1 <= j -> a + j * e <= e0 ->
  dfi_pow_loop fuel n rl nru bl bu e = Ret (rl', nru') ->
  (exactly a rl -> exactly j bl -> exactly (a + j * e) rl') /\
  (exactly a (- nru) -> exactly j bu -> exactly (a + j * e) (- nru')).
Proof.
  intros H0. induction fuel as [|fuel IH]; intros rl nru bl bu e a j rl' nru' He Ha Hj Hle E; [discriminate|].
  cbn [dfi_pow_loop] in E. assert (Q : Z.quot e 2 = e / 2) by (apply Z.quot_div_nonneg; lia).
  assert (M := Z.div_mod e 2 ltac:(lia)). rewrite Zmod_odd in M.
  assert (X : forall k, 1 <= k <= e0 -> exists w, exactly k w) by (intros k Hk; exact (smaller_exact e0 k Hk H0)).
  destruct (if Z.odd e then (shr (rl * bl) n, shr (nru * bu) n) else (rl, nru)) as [r1 n1] eqn:Es.
  assert (S1 : (exactly a rl -> exactly j bl -> exactly (a + j * (if Z.odd e then 1 else 0)) r1) /\
               (exactly a (- nru) -> exactly j bu -> exactly (a + j * (if Z.odd e then 1 else 0)) (- n1))).
  { destruct (Z.odd e); injection Es as <- <-.
    - rewrite Z.mul_1_r. assert (exists w, exactly (a + j) w) by (apply X; nia).
      split; intros A B; [apply shr_exactly|apply opp_exactly]; try assumption; lia.
    - rewrite Z.mul_0_r, Z.add_0_r. split; auto. }
  destruct S1 as [S1 S2]. set (o := if Z.odd e then 1 else 0) in *. assert (Ho : 0 <= o <= 1) by (unfold o; destruct (Z.odd e); lia).
  destruct (Z.eqb_spec (Z.quot e 2) 0) as [Z0|Z0].
  - injection E as <- <-. assert (Eo : e = o) by lia. rewrite Eo. split; assumption.
  - rewrite Q in *. assert (1 <= e / 2) by (assert (0 <= e / 2) by (apply Z.div_pos; lia); lia).
    destruct (IH r1 n1 (shr (bl * bl) n) (- shr (- bu * bu) n) (e / 2) (a + j * o) (j + j) rl' nru') as [I1 I2]; [assumption|nia|lia|nia|exact E|].
    replace (a + j * o + (j + j) * (e / 2)) with (a + j * e) in I1, I2 by nia.
    assert (exists w, exactly (j + j) w) by (apply X; nia).
    split; intros A B.
    + apply I1; [apply S1; assumption|]. apply shr_exactly; try assumption; lia.
    + apply I2; [apply S2; assumption|]. apply opp_exactly; try assumption; try lia. rewrite Z.opp_involutive. exact B.
Qed.
End Exact.

(** * The bounds of the result *)
Local Open Scope R_scope.
Lemma exactly_R n m k c : (0 <= k)%Z -> (0 <= c)%Z -> exactly n m k c <-> IZR c = (IZR m / 2 ^ n) ^ Z.to_nat k * 2 ^ n.
Proof.
  intros Hk Hc. pose proof (p2_pos n) as P. unfold exactly.
  assert (E1 : IZR (2 ^ Z.of_nat n) = 2 ^ n) by (rewrite <- pow_IZR; reflexivity).
  assert (E2 : IZR (2 ^ (Z.of_nat n * k)) = (2 ^ n) ^ Z.to_nat k).
  { rewrite Z.pow_mul_r by lia. rewrite <- (Z2Nat.id k) at 1 by exact Hk. rewrite <- pow_IZR, E1. reflexivity. }
  assert (E3 : IZR (m ^ k) = IZR m ^ Z.to_nat k) by (rewrite <- (Z2Nat.id k) at 1 by exact Hk; rewrite <- pow_IZR; reflexivity).
  assert (E4 : (IZR m / 2 ^ n) ^ Z.to_nat k * (2 ^ n) ^ Z.to_nat k = IZR m ^ Z.to_nat k).
  { rewrite <- Rpow_mult_distr. f_equal. field. lra. }
  assert (P2 : 0 < (2 ^ n) ^ Z.to_nat k) by (apply pow_lt, P).
  split; intros H.
  - apply (f_equal IZR) in H. rewrite !mult_IZR, E1, E2, E3, <- E4 in H.
    apply Rmult_eq_reg_r with ((2 ^ n) ^ Z.to_nat k); [|lra]. rewrite H. ring.
  - apply eq_IZR. rewrite !mult_IZR, E1, E2, E3, <- E4, H. ring.
Qed.

Lemma exactly_divides n m e c : (1 <= e)%Z -> exactly n m e c -> (2 ^ (Z.of_nat n * (e - 1)) | m ^ e)%Z.
Proof.
  unfold exactly. intros He H. exists c.
  assert (0 < 2 ^ Z.of_nat n)%Z by (apply Z.pow_pos_nonneg; lia).
  apply Z.mul_reg_r with (2 ^ Z.of_nat n)%Z; [lia|]. rewrite <- H, <- Z.mul_assoc, <- Z.pow_add_r by nia.
  f_equal. f_equal. ring.
Qed.

Lemma start_exactly n m : exactly n m 0 (shl 1 n).
Proof. unfold exactly. rewrite Z.mul_0_r, !Z.pow_0_r. unfold shl. rewrite Z.shiftl_mul_pow2 by lia. ring. Qed.
Lemma base_exactly n m : exactly n m 1 m.
Proof. unfold exactly. rewrite Z.mul_1_r, Z.pow_1_r. reflexivity. Qed.

(** the loop started at one with the bases [a] and [b] *)
Lemma loop_bounds n a b e : (0 <= a)%Z -> (0 <= b)%Z -> (1 <= e)%Z ->
  exists rl nru, dfi_pow_loop (Z.to_nat (Z.log2 e + 1)) n (shl 1 n) (- shl 1 n) a b e = Ret (rl, nru) /\ (0 <= rl)%Z /\
    IZR rl <= (IZR a / 2 ^ n) ^ Z.to_nat e * 2 ^ n /\
    (IZR b / 2 ^ n) ^ Z.to_nat e * 2 ^ n <= - IZR nru /\
    ((2 ^ (Z.of_nat n * (e - 1)) | a ^ e)%Z <-> IZR rl = (IZR a / 2 ^ n) ^ Z.to_nat e * 2 ^ n) /\
    ((2 ^ (Z.of_nat n * (e - 1)) | b ^ e)%Z -> - IZR nru = (IZR b / 2 ^ n) ^ Z.to_nat e * 2 ^ n).
Proof.
  intros Ha Hb He. pose proof (p2_pos n) as P.
  assert (F : (Z.log2 e < Z.of_nat (Z.to_nat (Z.log2 e + 1)))%Z) by (pose proof (Z.log2_nonneg e); lia).
  assert (One : IZR (shl 1 n) = 2 ^ n) by apply shl1_R.
  assert (One0 : (0 <= shl 1 n)%Z) by (apply le_IZR; rewrite One; lra).
  apply IZR_le in Ha as Ra. apply IZR_le in Hb as Rb.
  assert (Da : IZR a / 2 ^ n * 2 ^ n = IZR a) by (field; lra).
  assert (Db : IZR b / 2 ^ n * 2 ^ n = IZR b) by (field; lra).
  destruct (dfi_pow_loop_spec _ n (shl 1 n) (- shl 1 n) a b e He F) as (rl & nru & E & L & U).
  destruct (L 1 (IZR a / 2 ^ n) One0 Ha ltac:(lra) ltac:(lra)) as [L0 L1]. rewrite Rmult_1_l in L1.
  assert (U1 := U 1 (IZR b / 2 ^ n) ltac:(lra) ltac:(apply Rmult_le_pos; [exact Rb|apply Rlt_le, Rinv_0_lt_compat, P])
    ltac:(rewrite opp_IZR; lra) ltac:(lra)). rewrite Rmult_1_l in U1.
  assert (N0 : (0 <= - nru)%Z).
  { apply le_IZR. rewrite opp_IZR. eapply Rle_trans; [|exact U1]. apply Rmult_le_pos; [|lra]. apply pow_le.
    apply Rmult_le_pos; [exact Rb|apply Rlt_le, Rinv_0_lt_compat, P]. }
  exists rl, nru. split; [exact E|]. split; [exact L0|]. split; [exact L1|]. split; [exact U1|]. split; [split|].
  - intros D. destruct (loop_exact n a e D _ _ _ _ _ e 0 1 rl nru He ltac:(lia) ltac:(lia) ltac:(lia) E) as [X _].
    specialize (X (start_exactly n a) (base_exactly n a)). rewrite Z.add_0_l, Z.mul_1_l in X.
    apply exactly_R in X; [exact X|lia|exact L0].
  - intros X. apply exactly_divides with rl; [exact He|]. apply exactly_R; [lia|exact L0|exact X].
  - intros D. destruct (loop_exact n b e D _ _ _ _ _ e 0 1 rl nru He ltac:(lia) ltac:(lia) ltac:(lia) E) as [_ X].
    rewrite Z.opp_involutive in X.
    specialize (X (start_exactly n b) (base_exactly n b)). rewrite Z.add_0_l, Z.mul_1_l in X.
    apply exactly_R in X; [|lia|exact N0]. rewrite opp_IZR in X. exact X.
Qed.

Lemma odd_pow_le x y e : (0 <= e)%Z -> Z.even e = false -> x <= y -> x ^ Z.to_nat e <= y ^ Z.to_nat e.
Proof.
  intros He Ho H. destruct (Rle_dec 0 x) as [X|X]; [apply pow_incr; lra|]. destruct (Rle_dec 0 y) as [Y|Y].
  - apply Rle_trans with 0; [|apply pow_le, Y]. replace x with (- - x) by ring. rewrite pow_opp_odd by assumption.
    assert (0 <= (- x) ^ Z.to_nat e) by (apply pow_le; lra). lra.
  - replace x with (- - x) by ring. replace y with (- - y) by ring. rewrite !(pow_opp_odd (- _)) by assumption.
    assert ((- y) ^ Z.to_nat e <= (- x) ^ Z.to_nat e) by (apply pow_incr; lra). lra.
Qed.

Lemma odd_straddling i e : (dlo i < 0 < dhi i)%Z -> (3 <= e)%Z -> Z.Odd e ->
  exists r, dfi_pow i e = Ret r /\
  ((forall x, inI x i -> inI (x ^ Z.to_nat e) r) <->
   (2 ^ (Z.of_nat (dlog i) * (e - 1)) | Z.min (- dlo i) (dhi i) ^ e)%Z).
Proof.
  intros Hi He Ho. apply Z.odd_spec in Ho. assert (Ev : Z.even e = false) by (rewrite <- Z.negb_odd, Ho; reflexivity).
  unfold dfi_pow. destruct (Z.eqb_spec e 0) as [?Z0|_]; [lia|]. destruct (Z.eqb_spec e 1) as [?Z1|_]; [lia|]. destruct (Z.ltb_spec e 0) as [?Z2|_]; [lia|].
  unfold dfi_pow_core. destruct (Z.ltb_spec (dlo i) 0); [|lia]. destruct (Z.ltb_spec (dhi i) 0); [lia|]. rewrite Ev.
  set (n := dlog i). pose proof (p2_pos n) as P. set (a := (- dlo i)%Z). set (b := dhi i).
  assert (Ea : IZR (dlo i) = - IZR a) by (unfold a; rewrite opp_IZR; ring).
  assert (Ed : forall z, IZR z / 2 ^ n * 2 ^ n = IZR z) by (intros z; field; lra).
  destruct (Z.ltb_spec b a) as [S|S].
  - destruct (loop_bounds n b a e ltac:(lia) ltac:(lia) ltac:(lia)) as (rl & nru & E & R0 & L & U & X & _).
    rewrite E. cbn [rbind]. eexists. split; [reflexivity|]. rewrite Z.min_r by lia. rewrite X. split.
    + intros HH. assert (Hb : inI (IZR b / 2 ^ n) i).
      { apply inI_num. fold n. rewrite Ed. fold b. split; [apply IZR_le; lia|lra]. }
      apply HH, inI_num in Hb. cbn [dlo dhi dlog] in Hb. lra.
    + intros Eq x Hx. apply inI_num in Hx. fold n b in Hx. apply inI_num. cbn [dlo dhi dlog]. rewrite !opp_IZR.
      assert (H2 : x <= IZR b / 2 ^ n) by (apply mul_le_inv with (2 ^ n); [exact P|rewrite Ed; lra]).
      assert (H3 : - (IZR a / 2 ^ n) <= x) by (apply mul_le_inv with (2 ^ n); [exact P|]; rewrite Ropp_mult_distr_l_reverse, Ed; lra).
      apply (odd_pow_le _ _ e) in H2; [|lia|exact Ev]. apply (odd_pow_le _ _ e) in H3; [|lia|exact Ev]. rewrite pow_opp_odd in H3 by (assumption || lia).
      apply Rmult_le_compat_r with (r := 2 ^ n) in H2; [|lra]. apply Rmult_le_compat_r with (r := 2 ^ n) in H3; lra.
  - destruct (loop_bounds n a b e ltac:(lia) ltac:(lia) ltac:(lia)) as (rl & nru & E & R0 & L & U & X & _).
    rewrite E. cbn [rbind]. eexists. split; [reflexivity|]. rewrite Z.min_l by lia. rewrite X. split.
    + intros HH. assert (Hb : inI (- (IZR a / 2 ^ n)) i).
      { apply inI_num. fold n. rewrite Ropp_mult_distr_l_reverse, Ed, Ea. fold b. split; [lra|]. rewrite <- opp_IZR. apply IZR_le; lia. }
      apply HH, inI_num in Hb. cbn [dlo dhi dlog] in Hb. rewrite pow_opp_odd, opp_IZR in Hb by (assumption || lia). lra.
    + intros Eq x Hx. apply inI_num in Hx. fold n b in Hx. apply inI_num. cbn [dlo dhi dlog]. rewrite !opp_IZR.
      assert (H2 : x <= IZR b / 2 ^ n) by (apply mul_le_inv with (2 ^ n); [exact P|rewrite Ed; lra]).
      assert (H3 : - (IZR a / 2 ^ n) <= x) by (apply mul_le_inv with (2 ^ n); [exact P|]; rewrite Ropp_mult_distr_l_reverse, Ed; lra).
      apply (odd_pow_le _ _ e) in H2; [|lia|exact Ev]. apply (odd_pow_le _ _ e) in H3; [|lia|exact Ev]. rewrite pow_opp_odd in H3 by (assumption || lia).
      apply Rmult_le_compat_r with (r := 2 ^ n) in H2; [|lra]. apply Rmult_le_compat_r with (r := 2 ^ n) in H3; lra.
Qed.

Lemma odd_negative_point i e : dlo i = dhi i -> (dhi i < 0)%Z -> (3 <= e)%Z -> Z.Odd e ->
  exists r, dfi_pow i e = Ret r /\
  ((forall x, inI x i -> inI (x ^ Z.to_nat e) r) <->
   (2 ^ (Z.of_nat (dlog i) * (e - 1)) | (- dlo i) ^ e)%Z).
Proof.
  intros Hi H0 He Ho. apply Z.odd_spec in Ho. assert (Ev : Z.even e = false) by (rewrite <- Z.negb_odd, Ho; reflexivity).
  unfold dfi_pow. destruct (Z.eqb_spec e 0) as [?Z0|_]; [lia|]. destruct (Z.eqb_spec e 1) as [?Z1|_]; [lia|]. destruct (Z.ltb_spec e 0) as [?Z2|_]; [lia|].
  unfold dfi_pow_core. rewrite Hi. destruct (Z.ltb_spec (dhi i) 0); [|lia]. rewrite Ev, Z.ltb_irrefl.
  set (n := dlog i). pose proof (p2_pos n) as P. set (a := (- dhi i)%Z).
  assert (Ea : IZR (dhi i) = - IZR a) by (unfold a; rewrite opp_IZR; ring).
  assert (Ed : forall z, IZR z / 2 ^ n * 2 ^ n = IZR z) by (intros z; field; lra).
  destruct (loop_bounds n a a e ltac:(lia) ltac:(lia) ltac:(lia)) as (rl & nru & E & R0 & L & U & X & Y).
  rewrite E. cbn [rbind]. eexists. split; [reflexivity|]. split.
  - intros H1. rewrite X. assert (Hb : inI (- (IZR a / 2 ^ n)) i).
    { apply inI_num. fold n. rewrite Ropp_mult_distr_l_reverse, Ed, Hi, Ea. lra. }
    apply H1, inI_num in Hb. cbn [dlo dhi dlog] in Hb. rewrite pow_opp_odd, !opp_IZR in Hb by (assumption || lia). lra.
  - intros D x Hx. assert (Xa := proj1 X D). assert (Ya := Y D). apply inI_num in Hx. fold n in Hx. rewrite Hi, Ea in Hx.
    assert (Ex : x = - (IZR a / 2 ^ n)).
    { apply Rmult_eq_reg_r with (2 ^ n); [|lra]. rewrite Ropp_mult_distr_l_reverse, Ed. lra. }
    apply inI_num. cbn [dlo dhi dlog]. rewrite !opp_IZR, Ex, pow_opp_odd by (assumption || lia). lra.
Qed.

Lemma integer_bounds i e : dfi_ok i -> dlog i = 0%nat -> (0 <= e)%Z ->
  exists r, dfi_pow i e = Ret r /\ forall x, inI x i -> inI (x ^ Z.to_nat e) r.
Proof.
  intros Hok Hn He.
  destruct (Z.eq_dec e 0) as [->|E0].
  { eexists. split; [reflexivity|]. intros x _. apply inI_num. cbn [dfi_set_one dlo dhi dlog Z.to_nat pow]. rewrite Hn. cbn. lra. }
  destruct (Z.eq_dec e 1) as [->|E1].
  { exists i. split; [reflexivity|]. intros x Hx. change (Z.to_nat 1) with 1%nat. rewrite pow_1. exact Hx. }
  assert (D : forall m, (2 ^ (Z.of_nat (dlog i) * (e - 1)) | m)%Z) by (intros m; rewrite Hn; apply Z.divide_1_l).
  destruct (dfi_pow_core_ok i e Hok ltac:(lia)) as (r & E & _ & S).
  assert (Er : dfi_pow i e = Ret r).
  { unfold dfi_pow. destruct (Z.eqb_spec e 0); [lia|]. destruct (Z.eqb_spec e 1); [lia|]. destruct (Z.ltb_spec e 0); [lia|]. exact E. }
  destruct (Z.even e) eqn:Ev; [exists r; split; [exact Er|]; apply S; right; right; exact Ev|].
  assert (Od : Z.Odd e) by (apply Z.odd_spec; rewrite <- Z.negb_even, Ev; reflexivity).
  assert (H3 : (3 <= e)%Z) by (destruct Od as [k ->]; lia). unfold dfi_ok in Hok.
  destruct (Z_le_gt_dec 0 (dlo i)) as [L|L]; [exists r; split; [exact Er|]; apply S; left; exact L|].
  destruct (Z_lt_le_dec 0 (dhi i)) as [U|U].
  { destruct (odd_straddling i e ltac:(lia) H3 Od) as (r' & E' & X). exists r'. split; [exact E'|]. apply X, D. }
  destruct (Z.eq_dec (dlo i) (dhi i)) as [Q|Q].
  { destruct (odd_negative_point i e Q ltac:(lia) H3 Od) as (r' & E' & X). exists r'. split; [exact E'|]. apply X, D. }
  exists r. split; [exact Er|]. apply S. right; left. lia.
Qed.
