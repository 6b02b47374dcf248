(** The lower bound of the exponential of an interval is never negative. *)
From Coq Require Import ZArith QArith Qround Qreals Reals Lra Lia Bool List.
From Verif Require Import M_Base M_Traits M_Interval M_IntervalExp S_Interval P_Traits P_Interval P_IntervalLog P_IntervalExp.
Local Open Scope Z_scope.

Definition nn (i : dfi) : Prop := 0 <= dlo i /\ 0 <= dhi i.

Lemma shl_nn a n : 0 <= a -> 0 <= shl a n.
Proof. apply Z.shiftl_nonneg. Qed.
Lemma shr_nn a n : 0 <= a -> 0 <= shr a n.
Proof. apply Z.shiftr_nonneg. Qed.
Lemma shr_up_nn a n : 0 <= a -> 0 <= shr_up a n.
Proof.
  intros H. unfold shr_up, shr. rewrite Z.shiftr_div_pow2 by lia.
  pose proof (Z.pow_pos_nonneg 2 (Z.of_nat n) ltac:(lia) ltac:(lia)) as P.
  pose proof (Z.div_le_upper_bound (- a) (2 ^ Z.of_nat n) 0 P ltac:(lia)). lia.
Qed.

Lemma mul_nn a b : nn a -> nn b -> nn (dfi_mul a b).
Proof.
  intros [A1 A2] [B1 B2]. unfold dfi_mul.
  match goal with |- nn (do_op ?f a b) => set (op := f) end.
  assert (O : forall ll lu rl ru n, 0 <= ll -> 0 <= lu -> 0 <= rl -> 0 <= ru -> 0 <= fst (op ll lu rl ru n) /\ 0 <= snd (op ll lu rl ru n)).
  { intros ll lu rl ru n H1 H2 H3 H4. unfold op.
    pose proof (take_min_spec (ll * ru :: lu * rl :: lu * ru :: nil) (ll * rl)) as H.
    destruct (take_min _ _) as [lower rest]. destruct H as (_ & _ & H & _).
    assert (N : forall v, In v (lower :: rest) -> 0 <= v).
    { intros v Hv. apply H in Hv. cbn [In] in Hv.
      destruct Hv as [<-|[<-|[<-|[<-|[]]]]]; apply Z.mul_nonneg_nonneg; assumption. }
    cbn [fst snd]. split; [apply shr_nn, N; left; reflexivity|]. apply shr_up_nn.
    destruct rest as [|b0 bs]; [apply N; left; reflexivity|].
    apply N. right. apply (proj1 (take_max_spec bs b0)). }
  unfold do_op. destruct (Nat.leb (dlog a) (dlog b)).
  - specialize (O (shl (dlo a) (dlog b - dlog a)) (shl (dhi a) (dlog b - dlog a)) (dlo b) (dhi b) (dlog b)).
    destruct (op _ _ _ _ _) as [l u]. apply O; try apply shl_nn; assumption.
  - specialize (O (dlo a) (dhi a) (shl (dlo b) (dlog a - dlog b)) (shl (dhi b) (dlog a - dlog b)) (dlog a)).
    destruct (op _ _ _ _ _) as [l u]. apply O; try apply shl_nn; assumption.
Qed.
Lemma add_nn a b : nn a -> nn b -> nn (dfi_add a b).
Proof.
  intros [A1 A2] [B1 B2]. unfold dfi_add, do_op. destruct (Nat.leb (dlog a) (dlog b)); split; cbn [dlo dhi];
  apply Z.add_nonneg_nonneg; try apply shl_nn; assumption.
Qed.
Lemma div_nn a (k : positive) r : nn a -> dfi_div_int a (Zpos k) = Ret r -> nn r.
Proof.
  intros [A1 A2]. unfold dfi_div_int. rewrite ratio_new_pos. cbn [rmap]. intros [= <-].
  match goal with |- nn (dfi_mul_ratio a ?x) => set (q := x) end.
  assert (Q0 : Qnum q = 1 /\ Qden q = k) by (split; unfold q; try reflexivity).
  clearbody q. destruct q as [qn qd]. cbn [Qnum Qden] in Q0. destruct Q0 as [-> ->].
  unfold dfi_mul_ratio. cbn [Qnum]. change (1 <? 0) with false. cbv iota. split; cbn [dlo dhi].
  - unfold Qfloor, Qscale. cbn [Qnum Qden]. apply Z.div_pos; lia.
  - unfold Qceiling, Qscale, Qfloor, Qopp. cbn [Qnum Qden].
    pose proof (Z.div_le_upper_bound (- (1 * dhi a)) (Zpos k) 0 ltac:(lia)) as D.
    specialize (D ltac:(lia)). lia.
Qed.
Lemma exp_loop_nn left : forall i self term retval r, nn self -> nn term -> nn retval ->
  exp_loop left (S i) self term retval = Ret r -> nn r.
Proof.
  induction left as [|left IH]; intros i self term retval r Hs Ht Hr; cbn [exp_loop].
  - intros [= <-]. assumption.
  - destruct (dfi_div_int (dfi_mul term self) (Z.of_nat (S i))) as [t| |] eqn:E; try discriminate. cbn [rbind].
    assert (Nt : nn t) by (apply (div_nn (dfi_mul term self) (Pos.of_succ_nat i)); [apply mul_nn; assumption|exact E]).
    assert (Na : nn (dfi_add retval t)) by (apply add_nn; assumption).
    destruct (_ || _).
    + destruct (dlo t =? 0); cbn [assert_then]; [|discriminate]. intros [= <-]. assumption.
    + apply IH; assumption.
Qed.

Lemma dfi_exp_nn ln2 i r : (forall n, exists l, ln2 n = Ret l /\ ln2_ok n l) -> dfi_exp ln2 i = Ret r -> 0 <= dlo r.
Proof.
  intros H2. unfold dfi_exp. destruct (H2 (dlog (dfi_convert i (dlog i + 10)))) as (sh & -> & _). cbn [rbind].
  destruct (exp_extra_bits _ _) as [e1| |]; try discriminate. cbn [rbind].
  destruct (exp_extra_bits _ _) as [e2| |]; try discriminate. cbn [rbind].
  set (w := (dlog i + 32 + usize_floor_log2 (dlog i + 1) * 2 + Nat.max e1 e2)%nat).
  destruct (Z.of_nat w <=? usize_max); [|discriminate]. cbn [assert_then].
  destruct (H2 w) as (l2 & -> & Hl). cbn [rbind].
  assert (Pl : 0 < dlo l2 /\ 0 < dhi l2).
  { destruct (ln2_ok_bounds _ _ Hl) as [[B1 _] [B2 _]]. pose proof ln2_lower. pose proof (p2_pos w).
    assert (W : (32 <= w)%nat) by (unfold w; lia). pose proof (small_p2 w W) as SP.
    assert (S3 : (3 * / 2 ^ w <= / 100)%R) by (set (v := (/ 2 ^ w)%R) in *; clearbody v; lra).
    assert (P1 : (0 < dyadic (dlo l2) w)%R) by (unfold Rdiv in *; lra).
    assert (P2 : (0 < dyadic (dhi l2) w)%R) by (unfold Rdiv in *; lra).
    split; apply lt_IZR; match goal with |- (_ < IZR ?z)%R => rewrite <- (dyadic_mul z w) end; nra. }
  unfold checked_div_floor, checked_mod_floor.
  destruct (Z.eqb_spec (dhi l2) 0) as [E|_]; [lia|]. destruct (Z.eqb_spec (dlo l2) 0) as [E|_]; [lia|]. cbn [rbind].
  destruct (exp_loop _ _ _ _ _) as [rv| |] eqn:E; try discriminate. cbn [rbind].
  assert (Nr : nn rv).
  { refine (exp_loop_nn _ 0 _ _ _ _ _ _ _ E).
    - split; cbn [dlo dhi]; apply Z.mod_pos_bound; tauto.
    - split; cbn [dlo dhi]; apply shl_nn; lia.
    - split; cbn [dlo dhi]; apply shl_nn; lia. }
  set (k := dlo _ / dhi l2). unfold exp_shift_lower at 1.
  assert (LO : forall lo, (match to_usize (Z.abs k) with
    | Some s => Ret (if k <? 0 then shr (dlo rv) s else shl (dlo rv) s) | None => assert_then (k <? 0) (Ret 0) end) = Ret lo -> 0 <= lo).
  { intros lo. destruct (to_usize (Z.abs k)) as [s|].
    - intros [= <-]. destruct (k <? 0); [apply shr_nn|apply shl_nn]; apply Nr.
    - destruct (k <? 0); cbn [assert_then]; [intros [= <-]; lia|discriminate]. }
  destruct (match to_usize (Z.abs k) with Some _ => _ | None => _ end) as [lo| |] eqn:EL; try discriminate.
  cbn [rbind]. destruct (exp_shift_upper _ _) as [hi| |]; try discriminate. cbn [rbind]. intros [= <-].
  specialize (LO lo eq_refl). cbn [dlo dfi_convert]. unfold convert_log2_denom_floor. cbn [dlo dlog].
  repeat match goal with |- context [if ?c then _ else _] => destruct c end; try apply shr_nn; try apply shl_nn; assumption.
Qed.
