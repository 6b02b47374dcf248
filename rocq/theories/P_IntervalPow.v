From Coq Require Import ZArith QArith Qround Qreals Reals Lra Lia Bool List.
From Verif Require Import M_Base M_Traits M_Interval S_Interval P_Interval.
Local Open Scope R_scope.

(** * Integer powers *)
Lemma pow_half b e : (1 <= e)%Z ->
  b ^ Z.to_nat e = (if Z.odd e then b else 1) * (b * b) ^ Z.to_nat (Z.quot e 2).
Proof.
  intros He. pose proof (Zodd_div2 e) as HO. pose proof (Zeven_div2 e) as HE.
  assert (Q : Z.quot e 2 = Z.div2 e) by (rewrite Z.div2_div; apply Z.quot_div_nonneg; lia).
  rewrite Q. assert (Hd : (0 <= Z.div2 e)%Z) by (apply Z.div2_nonneg; lia).
  destruct (Z.odd e) eqn:O.
  - apply Z.odd_spec in O. assert (O' : Z.Odd e) by assumption. 
    assert (E : e = (2 * Z.div2 e + 1)%Z) by (apply HO, Zodd_equiv; assumption).
    rewrite E at 1. replace (Z.to_nat (2 * Z.div2 e + 1)) with (S (2 * Z.to_nat (Z.div2 e)))%nat by lia.
    cbn [pow]. rewrite pow_mult. f_equal. f_equal. ring.
  - assert (E : e = (2 * Z.div2 e)%Z).
    { apply HE, Zeven_equiv, Z.even_spec. rewrite <- Z.negb_odd, O. reflexivity. }
    rewrite E at 1. replace (Z.to_nat (2 * Z.div2 e)) with (2 * Z.to_nat (Z.div2 e))%nat by lia.
    rewrite pow_mult, Rmult_1_l. f_equal. ring.
Qed.

Lemma shr_mono_R a b n (c : R) : (0 <= a)%Z -> IZR a <= c * 2 ^ n * 2 ^ n -> a = b -> IZR (shr b n) <= c * 2 ^ n.
Proof.
  intros H0 H <-. pose proof (shr_R a n). pose proof (p2_pos n). apply mul_le_inv with (2 ^ n); lra.
Qed.

Lemma shr_nonneg a n : (0 <= a)%Z -> (0 <= shr a n)%Z.
Proof. intros H. unfold shr. apply Z.shiftr_nonneg; assumption. Qed.

Lemma dfi_pow_loop_spec fuel : forall n rl nru bl bu e, (1 <= e)%Z -> (Z.log2 e < Z.of_nat fuel)%Z ->
  exists rl' nru', dfi_pow_loop fuel n rl nru bl bu e = Ret (rl', nru') /\
    (forall c b, (0 <= rl)%Z -> (0 <= bl)%Z -> IZR rl <= c * 2 ^ n -> IZR bl <= b * 2 ^ n ->
       (0 <= rl')%Z /\ IZR rl' <= c * b ^ Z.to_nat e * 2 ^ n) /\
    (forall c b, 0 <= c -> 0 <= b -> c * 2 ^ n <= - IZR nru -> b * 2 ^ n <= IZR bu ->
       c * b ^ Z.to_nat e * 2 ^ n <= - IZR nru').
Proof.
  induction fuel as [|fuel IH]; intros n rl nru bl bu e He Hf.
  { exfalso. pose proof (Z.log2_nonneg e). lia. }
  cbn [dfi_pow_loop]. pose proof (p2_pos n) as P.
  set (s := if Z.odd e then (shr (rl * bl) n, shr (nru * bu) n) else (rl, nru)).
  destruct s as [rl1 nru1] eqn:Es; subst s.
  assert (L : forall c b, (0 <= rl)%Z -> (0 <= bl)%Z -> IZR rl <= c * 2 ^ n -> IZR bl <= b * 2 ^ n ->
       (0 <= rl1)%Z /\ IZR rl1 <= c * (if Z.odd e then b else 1) * 2 ^ n).
  { intros c b R0 B0 Hr Hb. destruct (Z.odd e); injection Es as <- <-.
    - split; [apply shr_nonneg, Z.mul_nonneg_nonneg; assumption|].
      apply shr_mono_R with (rl * bl)%Z; [apply Z.mul_nonneg_nonneg; assumption| |reflexivity].
      rewrite mult_IZR. apply IZR_le in R0. apply IZR_le in B0. 
      replace (c * b * 2 ^ n * 2 ^ n) with ((c * 2 ^ n) * (b * 2 ^ n)) by ring.
      apply Rmult_le_compat; assumption.
    - split; [assumption|]. rewrite Rmult_1_r. assumption. }
  assert (U : forall c b, 0 <= c -> 0 <= b -> c * 2 ^ n <= - IZR nru -> b * 2 ^ n <= IZR bu ->
       c * (if Z.odd e then b else 1) * 2 ^ n <= - IZR nru1).
  { intros c b C0 B0 Hr Hb. destruct (Z.odd e); injection Es as <- <-.
    - pose proof (shr_R (nru * bu) n) as S. rewrite mult_IZR in S.
      apply mul_le_inv with (2 ^ n); [assumption|].
      apply Rle_trans with (- IZR nru * IZR bu); [|lra].
      replace (c * b * 2 ^ n * 2 ^ n) with ((c * 2 ^ n) * (b * 2 ^ n)) by ring.
      apply Rmult_le_compat; try assumption; apply Rmult_le_pos; lra.
    - rewrite Rmult_1_r. assumption. }
  clear Es. assert (Q : (Z.quot e 2 = e / 2)%Z) by (apply Z.quot_div_nonneg; lia).
  destruct (Z.eqb_spec (Z.quot e 2) 0) as [Hq|Hq].
  - exists rl1, nru1. split; [reflexivity|]. 
    assert (E1 : forall b, b ^ Z.to_nat e = if Z.odd e then b else 1).
    { intros b. rewrite pow_half by assumption. rewrite Hq. cbn [Z.to_nat pow]. ring. }
    split; intros; rewrite E1; auto.
  - assert (H1 : (1 <= Z.quot e 2)%Z) by (rewrite Q in *; pose proof (Z.div_pos e 2); lia).
    assert (H2 : (Z.log2 (Z.quot e 2) < Z.of_nat fuel)%Z).
    { assert (2 <= e)%Z by (rewrite Q in Hq; pose proof (Z.div_small e 2); lia).
      pose proof (Z.log2_le_mono 2 e ltac:(assumption)) as M. change (Z.log2 2) with 1%Z in M.
      rewrite Q, <- Z.div2_div. rewrite Z.div2_spec, Z.log2_shiftr by lia. lia. }
    destruct (IH n rl1 nru1 (shr (bl * bl) n) (- shr (- bu * bu) n)%Z (Z.quot e 2) H1 H2)
      as (rl' & nru' & E & L' & U').
    exists rl', nru'. split; [exact E|]. split.
    + intros c b R0 B0 Hr Hb. destruct (L c b R0 B0 Hr Hb) as [R1 Hr1].
      destruct (L' (c * (if Z.odd e then b else 1)) (b * b) R1) as [R2 Hr2]; [..|split; [assumption|]].
      * apply shr_nonneg, Z.mul_nonneg_nonneg; assumption.
      * assumption.
      * apply shr_mono_R with (bl * bl)%Z; [apply Z.mul_nonneg_nonneg; assumption| |reflexivity].
        rewrite mult_IZR. apply IZR_le in B0.
        replace (b * b * 2 ^ n * 2 ^ n) with ((b * 2 ^ n) * (b * 2 ^ n)) by ring.
        apply Rmult_le_compat; assumption.
      * rewrite pow_half by assumption. rewrite <- Rmult_assoc. exact Hr2.
    + intros c b C0 B0 Hr Hb. pose proof (U c b C0 B0 Hr Hb) as Hr1.
      rewrite pow_half by assumption. rewrite <- Rmult_assoc. apply U'.
      * destruct (Z.odd e); nra.
      * nra.
      * exact Hr1.
      * replace (- bu * bu)%Z with (- (bu * bu))%Z by ring. fold (shr_up (bu * bu) n).
        pose proof (shr_up_R (bu * bu) n) as S. rewrite mult_IZR in S.
        apply mul_le_inv with (2 ^ n); [assumption|]. apply Rle_trans with (IZR bu * IZR bu); [|lra].
        replace (b * b * 2 ^ n * 2 ^ n) with ((b * 2 ^ n) * (b * 2 ^ n)) by ring.
        assert (0 <= b * 2 ^ n) by (apply Rmult_le_pos; lra).
        apply Rmult_le_compat; assumption.
Qed.

(** The exponents and intervals for which the directed rounding is outward. *)
Definition pow_sound (i : dfi) (e : Z) : Prop :=
  (0 <= dlo i)%Z \/ (dlo i < dhi i /\ dhi i <= 0)%Z \/ Z.even e = true.

Lemma pow_abs_even x e : (0 <= e)%Z -> Z.even e = true -> x ^ Z.to_nat e = Rabs x ^ Z.to_nat e.
Proof.
  intros H0 He. apply Z.even_spec in He. destruct He as [k ->].
  replace (Z.to_nat (2 * k)) with (2 * Z.to_nat k)%nat by lia.
  rewrite !pow_mult. f_equal. rewrite pow2_abs. reflexivity.
Qed.

Lemma pow_opp_odd x e : (0 <= e)%Z -> Z.even e = false -> (- x) ^ Z.to_nat e = - x ^ Z.to_nat e.
Proof.
  intros H0 He. assert (O : Z.odd e = true) by (rewrite <- Z.negb_even, He; reflexivity).
  apply Z.odd_spec in O. destruct O as [k ->].
  replace (Z.to_nat (2 * k + 1)) with (S (2 * Z.to_nat k)) by lia.
  cbn [pow]. rewrite !pow_mult. replace ((- x) ^ 2) with (x ^ 2) by ring. ring.
Qed.

Lemma dfi_pow_core_ok i e : dfi_ok i -> (2 <= e)%Z ->
  exists r, dfi_pow_core i e = Ret r /\ dlog r = dlog i /\
    (pow_sound i e -> forall x, inI x i -> inI (x ^ Z.to_nat e) r).
Proof.
  intros Hok He. unfold dfi_pow_core. set (n := dlog i). pose proof (p2_pos n) as P.
  unfold dfi_ok in Hok.
  set (bl0 := if (dlo i <? 0)%Z then (- dlo i)%Z else dlo i).
  set (bu0 := if (dhi i <? 0)%Z then (- dhi i)%Z else dhi i).
  assert (Hl0 : bl0 = Z.abs (dlo i)) by (unfold bl0; destruct (Z.ltb_spec (dlo i) 0); lia).
  assert (Hu0 : bu0 = Z.abs (dhi i)) by (unfold bu0; destruct (Z.ltb_spec (dhi i) 0); lia).
  clearbody bl0 bu0. subst bl0 bu0.
  assert (F : (Z.log2 e < Z.of_nat (Z.to_nat (Z.log2 e + 1)))%Z) by (pose proof (Z.log2_nonneg e); lia).
  assert (One : IZR (shl 1 n) = 2 ^ n) by apply shl1_R.
  assert (One0 : (0 <= shl 1 n)%Z) by (apply le_IZR; rewrite One; lra).
  destruct (Z.even e) eqn:Ev.
  - (* even exponent *)
    destruct (if (Z.abs (dhi i) <? Z.abs (dlo i))%Z then _ else _) as [bl bu] eqn:Eb.
    assert (Hbu : bu = Z.max (Z.abs (dlo i)) (Z.abs (dhi i))) by (destruct (Z.ltb_spec (Z.abs (dhi i)) (Z.abs (dlo i))); injection Eb as <- <-; lia).
    assert (Hbl : bl = Z.min (Z.abs (dlo i)) (Z.abs (dhi i))) by (destruct (Z.ltb_spec (Z.abs (dhi i)) (Z.abs (dlo i))); injection Eb as <- <-; lia).
    set (bl' := if dfi_contains_zero i then 0%Z else bl).
    destruct (dfi_pow_loop_spec _ n (shl 1 n) (- shl 1 n) bl' bu e ltac:(lia) F) as (rl & nru & E & L & U).
    rewrite E. cbn [rbind]. eexists; split; [reflexivity|]. split; [reflexivity|]. intros _ x Hx.
    apply inI_num in Hx. apply inI_num; cbn [dlo dhi dlog]. fold n in Hx. fold n.
    rewrite pow_abs_even by (assumption || lia).
    assert (Ax : Rabs (x * 2 ^ n) = Rabs x * 2 ^ n) by (rewrite Rabs_mult, (Rabs_right (2 ^ n)); lra).
    split.
    + destruct (L 1 (Rabs x)) as [_ HL]; [assumption| | | |rewrite Rmult_1_l in HL; exact HL].
      * unfold bl'. destruct (dfi_contains_zero i); lia.
      * lra.
      * unfold bl'. destruct (dfi_contains_zero i) eqn:C.
        { apply Rmult_le_pos; [apply Rabs_pos|lra]. }
        rewrite <- Ax. unfold dfi_contains_zero in C. apply andb_false_iff in C.
        rewrite !negb_false_iff, !Z.ltb_lt in C. destruct C as [C|C].
        { assert (Ebl : bl = dlo i) by lia. rewrite Ebl. apply IZR_lt in C. rewrite Rabs_right; lra. }
        { assert (Ebl : bl = (- dhi i)%Z) by lia. rewrite Ebl, opp_IZR. apply IZR_lt in C. rewrite Rabs_left; lra. }
    + rewrite <- (Rmult_1_l (Rabs x ^ Z.to_nat e)), opp_IZR. apply U.
      * lra.
      * apply Rabs_pos.
      * rewrite opp_IZR. lra.
      * rewrite <- Ax. apply Rabs_le. rewrite <- opp_IZR. split.
        { apply Rle_trans with (IZR (dlo i)); [apply IZR_le; lia|lra]. }
        { apply Rle_trans with (IZR (dhi i)); [lra|apply IZR_le; lia]. }
  - (* odd exponent *)
    destruct (Z.ltb_spec (Z.abs (dhi i)) (Z.abs (dlo i))) as [Sw|Sw].
    + destruct (dfi_pow_loop_spec _ n (shl 1 n) (- shl 1 n) (Z.abs (dhi i)) (Z.abs (dlo i)) e ltac:(lia) F) as (rl & nru & E & L & U).
      rewrite E. cbn [rbind]. eexists; split; [reflexivity|]. split; [reflexivity|].
      intros Hs x Hx. assert (Hneg : (dlo i < dhi i /\ dhi i <= 0)%Z).
      { destruct Hs as [Hs|[Hs|Hs]]; [lia|assumption|congruence]. }
      apply inI_num in Hx. fold n in Hx.
      assert (Hh : IZR (dhi i) <= 0) by (apply (IZR_le _ 0); lia).
      assert (Hx0 : x <= 0) by (apply mul_le_inv with (2 ^ n); lra).
      destruct (Z.ltb_spec (dlo i) 0) as [Lo|Lo]; [|lia].
      apply inI_num; cbn [dlo dhi dlog]. fold n.
      replace (x ^ Z.to_nat e) with (- (- x) ^ Z.to_nat e)
        by (rewrite pow_opp_odd by (assumption || lia); ring).
      destruct (L 1 (- x)) as [HL0 HL]; [assumption|lia|lra|rewrite Z.abs_neq, opp_IZR by lia; lra|].
      rewrite Rmult_1_l in HL.
      assert (HU : 1 * (- x) ^ Z.to_nat e * 2 ^ n <= - IZR nru).
      { apply U; [lra|lra|rewrite opp_IZR; lra|rewrite Z.abs_neq, opp_IZR by lia; lra]. }
      rewrite Rmult_1_l in HU. rewrite !opp_IZR.
      split; [lra|].
      destruct (Z.ltb_spec (dhi i) 0) as [Hi|Hi]; [rewrite opp_IZR; lra|].
      (* upper bound zero: the lower magnitude is zero *)
      apply Rle_trans with 0; [|apply (IZR_le 0); assumption].
      assert (0 <= (- x) ^ Z.to_nat e) by (apply pow_le; lra). nra.
    + destruct (dfi_pow_loop_spec _ n (shl 1 n) (- shl 1 n) (Z.abs (dlo i)) (Z.abs (dhi i)) e ltac:(lia) F) as (rl & nru & E & L & U).
      rewrite E. cbn [rbind]. eexists; split; [reflexivity|]. split; [reflexivity|].
      intros Hs x Hx. assert (Hpos : (0 <= dlo i)%Z).
      { destruct Hs as [Hs|[Hs|Hs]]; [assumption|lia|congruence]. }
      apply inI_num in Hx. fold n in Hx.
      destruct (Z.ltb_spec (dlo i) 0) as [Lo|Lo]; [lia|].
      destruct (Z.ltb_spec (dhi i) 0) as [Hi|Hi]; [lia|].
      apply inI_num; cbn [dlo dhi dlog]. fold n.
      assert (Hl : 0 <= IZR (dlo i)) by (apply (IZR_le 0); lia).
      assert (Hx0 : 0 <= x) by (apply mul_le_inv with (2 ^ n); lra).
      destruct (L 1 x) as [HL0 HL]; [assumption|lia|lra|rewrite Z.abs_eq by lia; lra|].
      rewrite Rmult_1_l in HL.
      assert (HU : 1 * x ^ Z.to_nat e * 2 ^ n <= - IZR nru).
      { apply U; [lra|lra|rewrite opp_IZR; lra|rewrite Z.abs_eq by lia; lra]. }
      rewrite Rmult_1_l in HU. rewrite opp_IZR. split; lra.
Qed.

Lemma recip_pow_sound i r e : dfi_ok i -> dfi_checked_recip i = Some r -> pow_sound i e -> pow_sound r e /\ dfi_ok r.
Proof.
  intros Hok E Hs. unfold dfi_ok in Hok.
  assert (Hr : dfi_ok r).
  { destruct (dfi_ok_mem i Hok) as [M _]. destruct (dfi_checked_recip_in _ _ _ E M) as [M' _]. apply (inI_ok _ _ M'). }
  split; [|assumption].
  unfold dfi_checked_recip in E. destruct (dfi_contains_zero i) eqn:C; [discriminate|]. injection E as <-.
  unfold dfi_contains_zero in C. apply andb_false_iff in C. rewrite !negb_false_iff, !Z.ltb_lt in C.
  set (D := shl 1 (dlog i + (dlog i + 0))) in *.
  assert (D0 : (0 < D)%Z) by (apply lt_IZR; unfold D; rewrite shl1_R; apply p2_pos). clearbody D.
  unfold pow_sound; cbn [dlo dhi]. destruct Hs as [Hs|[Hs|Hs]].
  - left. apply Z.div_pos; [apply Z.lt_le_incl; exact D0|lia].
  - right; left.
    assert (Hlo : (dlo i <> 0)%Z) by lia. assert (Hhi : (dhi i <> 0)%Z) by lia.
    pose proof (div_floor_R D (dhi i) Hhi) as F. pose proof (div_ceil_R D (dlo i) Hlo) as G.
    assert (Lt : IZR D / IZR (dhi i) < IZR D / IZR (dlo i)).
    { apply Rmult_lt_compat_l; [apply (IZR_lt 0); assumption|].
      assert (/ - IZR (dlo i) < / - IZR (dhi i)).
      { apply Rinv_lt_contravar.
        - apply Rmult_lt_0_compat; rewrite <- opp_IZR; apply (IZR_lt 0); lia.
        - apply Ropp_lt_contravar, IZR_lt; lia. }
      rewrite !Rinv_opp in *; lra. }
    split.
    + apply lt_IZR. lra.
    + apply Z.lt_succ_r. apply lt_IZR. rewrite succ_IZR.
      assert (IZR D / IZR (dlo i) < 0).
      { assert (A1 : 0 < IZR D) by (apply (IZR_lt 0); assumption).
        assert (A2 : / IZR (dlo i) < 0) by (apply Rinv_lt_0_compat, (IZR_lt _ 0); lia).
        unfold Rdiv. nra. }
      lra.
  - right; right. assumption.
Qed.

Lemma powerRZ_nonneg x e : (0 <= e)%Z -> powerRZ x e = x ^ Z.to_nat e.
Proof. intros H. destruct e; [reflexivity|reflexivity|lia]. Qed.
Lemma powerRZ_neg' x e : (0 <= e)%Z -> powerRZ x (- e) = (/ x) ^ Z.to_nat e.
Proof.
  intros H. destruct e as [|p|p]; [reflexivity| |lia].
  cbn [Z.opp powerRZ Z.to_nat]. symmetry. apply pow_inv.
Qed.

(** For every exponent; non-positive straddling/point intervals excluded for
    odd exponents. *)
Lemma dfi_pow_ok i e : dfi_ok i ->
  ((e < 0)%Z -> inI 0 i -> dfi_pow i e = Panic) /\
  ((0 <= e)%Z \/ ~ inI 0 i -> exists r, dfi_pow i e = Ret r /\ dlog r = dlog i /\
     ((-1 <= e <= 1)%Z \/ pow_sound i e -> forall x, inI x i -> inI (powerRZ x e) r)).
Proof.
  intros Hok. unfold dfi_pow. split.
  - intros He Hz. apply dfi_checked_recip_none in Hz.
    destruct (Z.eqb_spec e 0); [lia|]. destruct (Z.eqb_spec e 1); [lia|]. destruct (Z.ltb_spec e 0); [|lia].
    unfold dfi_recip. rewrite Hz. reflexivity.
  - intros H. destruct (Z.eqb_spec e 0) as [->|E0].
    { eexists; split; [reflexivity|]. split; [reflexivity|]. intros _ x _.
      apply (dfi_constants_ok 0 i). reflexivity. }
    destruct (Z.eqb_spec e 1) as [->|E1].
    { eexists; split; [reflexivity|]. split; [reflexivity|]. intros _ x Hx.
      rewrite powerRZ_nonneg by lia. change (Z.to_nat 1) with 1%nat. rewrite pow_1. assumption. }
    destruct (Z.ltb_spec e 0) as [Hn|Hp].
    + assert (Hz : ~ inI 0 i) by (destruct H; [lia|assumption]).
      rewrite <- dfi_checked_recip_none in Hz. unfold dfi_recip.
      destruct (dfi_checked_recip i) as [ri|] eqn:Er; [|contradiction]. cbn [unwrap rbind].
      assert (Hri : dfi_ok ri).
      { destruct (dfi_ok_mem i Hok) as [M _]. destruct (dfi_checked_recip_in _ _ _ Er M) as [M' _]. apply (inI_ok _ _ M'). }
      assert (Hlog : dlog ri = dlog i).
      { unfold dfi_checked_recip in Er. destruct (dfi_contains_zero i); [discriminate|]. injection Er as <-. reflexivity. }
      destruct (Z.eqb_spec (- e) 1) as [E2|E2].
      * eexists; split; [reflexivity|]. split; [assumption|]. intros _ x Hx.
        replace e with (- (1))%Z by lia. rewrite powerRZ_neg' by lia. change (Z.to_nat 1) with 1%nat. rewrite pow_1.
        apply (dfi_checked_recip_in _ _ _ Er Hx).
      * destruct (dfi_pow_core_ok ri (- e) Hri ltac:(lia)) as (r & Ep & Hl & Hin).
        exists r. split; [exact Ep|]. split; [congruence|]. intros Hs x Hx.
        destruct Hs as [Hs|Hs]; [lia|].
        replace e with (- - e)%Z by lia. rewrite powerRZ_neg' by lia. apply Hin.
        { apply (recip_pow_sound i ri (- e) Hok Er). unfold pow_sound in *. rewrite Z.even_opp. exact Hs. }
        { apply (dfi_checked_recip_in _ _ _ Er Hx). }
    + destruct (dfi_pow_core_ok i e Hok ltac:(lia)) as (r & Ep & Hl & Hin).
      exists r. split; [exact Ep|]. split; [assumption|]. intros Hs x Hx.
      destruct Hs as [Hs|Hs]; [lia|]. rewrite powerRZ_nonneg by lia. apply Hin; assumption.
Qed.

(** Witnesses: odd powers of straddling and of negative point intervals. *)
Lemma powerRZ_3 x : powerRZ x 3 = x * x * x.
Proof. unfold powerRZ. change (Pos.to_nat 3) with 3%nat. ring. Qed.
Lemma dfi_pow_straddle_witness :
  dfi_pow (DFI (-5) 3 1) 3 = Ret (DFI (-33) 6 1) /\ inI (3/2) (DFI (-5) 3 1) /\
  ~ inI (powerRZ (3/2) 3) (DFI (-33) 6 1).
Proof.
  split; [reflexivity|]. rewrite powerRZ_3. unfold inI, dyadic; cbn [dlo dhi dlog pow].
  split; [lra|]. intros [_ H]. lra.
Qed.
Lemma dfi_pow_point_witness :
  dfi_pow (DFI (-3) (-3) 1) 3 = Ret (DFI (-6) (-8) 1) /\ inI (-3/2) (DFI (-3) (-3) 1) /\
  ~ inI (powerRZ (-3/2) 3) (DFI (-6) (-8) 1) /\ ~ dfi_ok (DFI (-6) (-8) 1).
Proof.
  split; [reflexivity|]. rewrite powerRZ_3. unfold inI, dyadic, dfi_ok; cbn [dlo dhi dlog pow].
  split; [lra|]. split; [|lia]. intros [H _]. lra.
Qed.
