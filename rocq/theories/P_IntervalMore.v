(** Packaging of interval lemmas for the theorem file. *)
From Coq Require Import ZArith NArith QArith Qreals Reals Lra Lia List.
From Verif Require Import M_Base M_Traits M_Interval M_IntervalExp M_Cache S_Interval.
From Verif Require Import P_Interval P_IntervalPow P_IntervalAgm P_IntervalLog P_IntervalExp P_Cache.
Local Open Scope R_scope.

Lemma dfi_from_int_exact v n : dlog (dfi_from_int v n) = n /\ forall x, inI x (dfi_from_int v n) <-> x = IZR v.
Proof. split; [apply dfi_from_int_ok|apply dfi_from_int_in]. Qed.

Lemma dfi_add_sub_exact a b :
  (dlog (dfi_add a b) = Nat.max (dlog a) (dlog b) /\
   dyadic (dlo (dfi_add a b)) (dlog (dfi_add a b)) = dyadic (dlo a) (dlog a) + dyadic (dlo b) (dlog b) /\
   dyadic (dhi (dfi_add a b)) (dlog (dfi_add a b)) = dyadic (dhi a) (dlog a) + dyadic (dhi b) (dlog b)) /\
  (dlog (dfi_sub a b) = Nat.max (dlog a) (dlog b) /\
   dyadic (dlo (dfi_sub a b)) (dlog (dfi_sub a b)) = dyadic (dlo a) (dlog a) - dyadic (dhi b) (dlog b) /\
   dyadic (dhi (dfi_sub a b)) (dlog (dfi_sub a b)) = dyadic (dhi a) (dlog a) - dyadic (dlo b) (dlog b)).
Proof. split; [apply dfi_add_bounds|apply dfi_sub_bounds]. Qed.

Lemma dfi_add_sub_neg_in a b x y : inI x a -> inI y b ->
  inI (x + y) (dfi_add a b) /\ inI (x - y) (dfi_sub a b) /\ inI (- x) (dfi_neg a).
Proof. intros. split; [apply dfi_add_in|split; [apply dfi_sub_in|apply (proj1 (dfi_neg_in _ _))]]; assumption. Qed.

Lemma dfi_add_sub_int_in a r x :
  (inI x a <-> inI (x + IZR r) (dfi_add_int a r)) /\ (inI x a <-> inI (x - IZR r) (dfi_sub_int a r)).
Proof. split; [apply dfi_add_int_in|apply dfi_sub_int_in]. Qed.

Lemma dfi_add_sub_ratio_in a r x : inI x a ->
  inI (x + Q2R r) (dfi_add_ratio a r) /\ inI (x - Q2R r) (dfi_sub_ratio a r).
Proof. split; [apply dfi_add_ratio_in|apply dfi_sub_ratio_in]; assumption. Qed.

Lemma dfi_add_sub_ratio_tight a r :
  tightest (dfi_add_ratio a r) (dlog a) (dyadic (dlo a) (dlog a) + Q2R r) (dyadic (dhi a) (dlog a) + Q2R r) /\
  tightest (dfi_sub_ratio a r) (dlog a) (dyadic (dlo a) (dlog a) - Q2R r) (dyadic (dhi a) (dlog a) - Q2R r).
Proof.
  unfold dfi_add_ratio, dfi_sub_ratio. set (n := dlog a).
  pose proof (dfi_from_ratio_ok r n) as T. set (f := dfi_from_ratio r n) in *.
  destruct T as (L & A & B & C & D).
  destruct (dfi_add_bounds a f) as (La & A1 & A2). destruct (dfi_sub_bounds a f) as (Ls & S1 & S2).
  fold n in La, Ls, A1, A2, S1, S2. rewrite L, Nat.max_id in La, Ls. rewrite La, L in A1, A2. rewrite Ls, L in S1, S2.
  assert (Ad : forall u v, dyadic (u + v) n = dyadic u n + dyadic v n) by (intros; apply dyadic_add).
  assert (Sd : forall u v, dyadic (u - v) n = dyadic u n - dyadic v n) by (intros; apply dyadic_sub).
  repeat match goal with |- _ /\ _ => split | |- tightest _ _ _ _ => split end; try assumption; try lra.
  - intros m Hm. specialize (C (m - dlo a)%Z). rewrite Sd in C. specialize (C ltac:(lra)).
    apply (dyadic_le _ _ n) in C. rewrite Sd in C. apply (dyadic_le _ _ n). lra.
  - intros m Hm. specialize (D (m - dhi a)%Z). rewrite Sd in D. specialize (D ltac:(lra)).
    apply (dyadic_le _ _ n) in D. rewrite Sd in D. apply (dyadic_le _ _ n). lra.
  - intros m Hm. specialize (D (dlo a - m)%Z). rewrite Sd in D. specialize (D ltac:(lra)).
    apply (dyadic_le _ _ n) in D. rewrite Sd in D. apply (dyadic_le _ _ n). lra.
  - intros m Hm. specialize (C (dhi a - m)%Z). rewrite Sd in C. specialize (C ltac:(lra)).
    apply (dyadic_le _ _ n) in C. rewrite Sd in C. apply (dyadic_le _ _ n). lra.
Qed.

Lemma dfi_mul_scalars_in a r q x : inI x a -> inI (x * IZR r) (dfi_mul_int a r) /\ inI (x * Q2R q) (dfi_mul_ratio a q).
Proof. split; [apply dfi_mul_int_in|apply dfi_mul_ratio_in]; assumption. Qed.

Lemma dfi_div_scalars a :
  (forall r, (r = 0%Z -> dfi_div_int a r = Panic) /\
     (r <> 0%Z -> exists q, dfi_div_int a r = Ret q /\ dlog q = dlog a /\ forall x, inI x a -> inI (x / IZR r) q)) /\
  (forall r, (Q2R r = 0 -> dfi_div_ratio a r = Panic) /\
     (Q2R r <> 0 -> exists q, dfi_div_ratio a r = Ret q /\ forall x, inI x a -> inI (x / Q2R r) q)).
Proof. split; [apply dfi_div_int_in|apply dfi_div_ratio_in]. Qed.

Lemma dfi_union_ok a b :
  (forall x, inI x a \/ inI x b -> inI x (dfi_union a b)) /\
  dlog (dfi_union a b) = Nat.max (dlog a) (dlog b) /\
  dyadic (dlo (dfi_union a b)) (dlog (dfi_union a b)) = Rmin (dyadic (dlo a) (dlog a)) (dyadic (dlo b) (dlog b)) /\
  dyadic (dhi (dfi_union a b)) (dlog (dfi_union a b)) = Rmax (dyadic (dhi a) (dlog a)) (dyadic (dhi b) (dlog b)).
Proof. split; [apply dfi_union_in|apply dfi_union_bounds]. Qed.

Lemma dfi_floor_ceil_in i n x (k : Z) : inI x i ->
  (IZR k <= x < IZR k + 1 -> inI (IZR k) (dfi_floor i n)) /\
  (IZR k - 1 < x <= IZR k -> inI (IZR k) (dfi_ceil i n)).
Proof. split; [apply dfi_floor_ok|apply dfi_ceil_ok]; assumption. Qed.

Lemma dfi_floor_ceil_exact i n : exists fl fu cl cu : Z,
  dlog (dfi_floor i n) = n /\ dyadic (dlo (dfi_floor i n)) n = IZR fl /\ dyadic (dhi (dfi_floor i n)) n = IZR fu /\
  dlog (dfi_ceil i n) = n /\ dyadic (dlo (dfi_ceil i n)) n = IZR cl /\ dyadic (dhi (dfi_ceil i n)) n = IZR cu /\
  IZR fl <= dyadic (dlo i) (dlog i) < IZR fl + 1 /\ IZR fu <= dyadic (dhi i) (dlog i) < IZR fu + 1 /\
  IZR cl - 1 < dyadic (dlo i) (dlog i) <= IZR cl /\ IZR cu - 1 < dyadic (dhi i) (dlog i) <= IZR cu.
Proof.
  exists (shr (dlo i) (dlog i)), (shr (dhi i) (dlog i)), (shr_up (dlo i) (dlog i)), (shr_up (dhi i) (dlog i)).
  unfold dfi_floor, dfi_ceil.
  assert (K : forall l u, dyadic (dlo (dfi_convert (DFI l u 0) n)) n = IZR l /\ dyadic (dhi (dfi_convert (DFI l u 0) n)) n = IZR u).
  { intros l u. destruct (dfi_convert_up_exact (DFI l u 0) n (Nat.le_0_l _)) as [-> ->].
    unfold dyadic; cbn [dlo dhi dlog pow]. split; field. }
  assert (F : forall z, IZR (shr z (dlog i)) <= dyadic z (dlog i) < IZR (shr z (dlog i)) + 1).
  { intros z. pose proof (shr_R z (dlog i)) as S. rewrite <- (dyadic_mul z (dlog i)) in S. pose proof (p2_pos (dlog i)).
    split; [apply mul_le_inv with (2 ^ dlog i)|apply Rmult_lt_reg_r with (2 ^ dlog i)]; lra. }
  assert (C : forall z, IZR (shr_up z (dlog i)) - 1 < dyadic z (dlog i) <= IZR (shr_up z (dlog i))).
  { intros z. pose proof (shr_up_R z (dlog i)) as S. rewrite <- (dyadic_mul z (dlog i)) in S. pose proof (p2_pos (dlog i)).
    split; [apply Rmult_lt_reg_r with (2 ^ dlog i)|apply mul_le_inv with (2 ^ dlog i)]; lra. }
  repeat match goal with |- _ /\ _ => split end; try reflexivity; try apply K; try apply F; try apply C.
Qed.

Lemma dfi_pow_straddle_refuted : exists i e r x, dfi_ok i /\ (0 <= e)%Z /\ dfi_pow i e = Ret r /\
  inI x i /\ ~ inI (powerRZ x e) r.
Proof.
  destruct dfi_pow_straddle_witness as (H1 & H2 & H3).
  do 4 eexists. split; [|split; [|split; [exact H1|split; [exact H2|exact H3]]]]; [unfold dfi_ok; cbn|]; lia.
Qed.
Lemma dfi_pow_point_refuted : exists i e r x, dfi_ok i /\ (0 <= e)%Z /\ dfi_pow i e = Ret r /\
  dlo i = dhi i /\ inI x i /\ ~ inI (powerRZ x e) r /\ ~ dfi_ok r.
Proof.
  destruct dfi_pow_point_witness as (H1 & H2 & H3 & H4).
  do 4 eexists. split; [|split; [|split; [exact H1|split; [|split; [exact H2|split; [exact H3|exact H4]]]]]];
    [unfold dfi_ok; cbn; lia|lia|reflexivity].
Qed.

Lemma dfi_exp_total_refuted : exists i, dfi_ok i /\
  forall ln2, (forall n, exists l, ln2 n = Ret l /\ ln2_ok n l) -> dfi_exp ln2 i = Panic.
Proof. eexists. split; [|exact dfi_exp_panic_witness]. unfold dfi_ok; cbn; lia. Qed.

Lemma cache_entries_precise idx compute : (forall a b, (a <= b)%N -> (idx a <= idx b)%nat) ->
  (forall n, exists i, compute n = Ret i /\ (n <= dlog i)%nat) ->
  forall k s n e, reach idx compute (initial k) s -> (N.of_nat n < 2 ^ 64)%N ->
  nth_error (cache s) (idx (N.of_nat n)) = Some e -> (n <= dlog e)%nat.
Proof.
  intros M C k s n e H Hn E. destruct (cache_transparent idx compute M C k s H) as (_ & _ & G).
  destruct (G _ _ E) as (m & i & Hm & Ei & ->). apply (required_ge idx M); [assumption|apply le_n].
Qed.

Lemma cache_race_run idx : (forall a b, (a <= b)%N -> (idx a <= idx b)%nat) ->
  idx (N.of_nat 5) = 0%nat -> idx (N.of_nat 7) = 0%nat ->
  exists s, reach idx sqrt_2_compute (initial 2) s /\ length (results s) = 2%nat /\ length (cache s) = 1%nat.
Proof.
  intros M I5 I7.
  assert (C : forall n, exists i, sqrt_2_compute n = Ret i /\ (n <= dlog i)%nat).
  { intros n. destruct (sqrt2_compute_ok n) as (i & E & T). exists i. split; [exact E|]. destruct T as [-> _]. apply le_n. }
  assert (G : good_vec idx sqrt_2_compute nil) by (intros [|j] e; discriminate).
  destruct (fill_ok _ _ M C nil 0 G (le_n _)) as (new & r & F & _ & L & _).
  eexists. split.
  { eapply reach_step; [eapply reach_step; [eapply reach_step; [eapply reach_step; [eapply reach_step; [eapply reach_step;
      [eapply reach_step; [eapply reach_step; [apply reach_refl|]|]|]|]|]|]|]|].
    - apply step_call with (t := 0%nat) (n := 5%nat); reflexivity.
    - apply step_call with (t := 1%nat) (n := 7%nat); reflexivity.
    - apply step_read_miss with (t := 0%nat) (n := 5%nat); [reflexivity|]. rewrite I5. reflexivity.
    - apply step_read_miss with (t := 1%nat) (n := 7%nat); [reflexivity|]. rewrite I7. reflexivity.
    - apply step_fill with (t := 0%nat) (n := 5%nat) (old := nil) (new := new) (r := r); [reflexivity|]. rewrite I5. exact F.
    - apply step_fill with (t := 1%nat) (n := 7%nat) (old := nil) (new := new) (r := r); [reflexivity|]. rewrite I7. exact F.
    - apply step_write with (t := 0%nat) (n := 5%nat) (new := new) (r := r); reflexivity.
    - apply step_write with (t := 1%nat) (n := 7%nat) (new := new) (r := r); reflexivity. }
  cbn [cache threads results initial length]. rewrite L. cbn. rewrite L. cbn. auto.
Qed.
Lemma cache_race_example : exists s, reach (fun _ => 0%nat) sqrt_2_compute (initial 2) s /\
  length (results s) = 2%nat /\ length (cache s) = 1%nat.
Proof. exact (cache_race_run (fun _ => 0%nat) (fun _ _ _ => le_n _) eq_refl eq_refl). Qed.
