(** The exponential of an interval can miss the exponentials of its own end
    points: both bounds divide by the wrong bound of ln 2 when the power of two
    is negative. *)
From Coq Require Import ZArith QArith Reals Lra Lia Bool List.
From Verif Require Import M_Base M_Traits M_Interval M_IntervalExp S_Interval P_Interval P_IntervalLog P_IntervalExp P_Cache.
Local Open Scope R_scope.

Definition ln2_num : Z := 1113844574712631719546256151097547306333272293549090750737802.
Lemma ln2_200 : dyadic (ln2_num - 1) 200 <= ln 2 <= dyadic (ln2_num + 2) 200.
Proof.
  destruct (ln2_oracle_exists 200) as (l & E & D & [B1 B2] & W). vm_compute in E. injection E as <-.
  cbn [dlo dhi dlog] in *. split; [eapply Rle_trans; [|exact B1]|eapply Rle_trans; [exact B2|]]; apply dyadic_le; vm_compute; discriminate.
Qed.

Lemma dyadic_lt_inv a b n : dyadic a n < dyadic b n -> (a < b)%Z.
Proof. intros H. apply Z.nle_gt. intros L. apply (dyadic_le _ _ n) in L. lra. Qed.
(** What an acceptable value of ln 2 can be at a given precision. *)
Lemma ln2_cases n F l : ln2_ok n l -> dyadic F n < ln 2 < dyadic (F + 1) n ->
  exists a b, l = DFI a b n /\ (F - 2 <= a <= F)%Z /\ (F + 1 <= b <= F + 3)%Z.
Proof.
  intros (D & [B1 B2] & W) [H1 H2]. destruct l as [a b m]. cbn [dlo dhi dlog] in *. subst m.
  assert (L1 : (a < F + 1)%Z) by (apply dyadic_lt_inv with n; lra).
  assert (L2 : (F < b)%Z) by (apply dyadic_lt_inv with n; lra).
  exists a, b. split; [reflexivity|lia].
Qed.

Lemma exp_upper x : 0 <= x <= 1 -> exp x <= 1 + x + x * x / 2 + x * x * x / 6 + x * x * x * x / 24 + x * x * x * x * x / 40.
Proof. intros H. pose proof (exp_le_eS 4 x H) as E. cbn [eS eterm] in E. simpl INR in E. lra. Qed.
Lemma exp_lower x : 0 <= x -> 1 + x + x * x / 2 + x * x * x / 6 <= exp x.
Proof. intros H. pose proof (eS_le_exp 3 x H) as E. cbn [eS eterm] in E. simpl INR in E. lra. Qed.

Lemma exp_shifted m x : exp x * 2 ^ m = exp (x + INR m * ln 2).
Proof.
  rewrite exp_plus. f_equal. induction m as [|m IH]; [cbn; rewrite Rmult_0_l, exp_0; reflexivity|].
  rewrite S_INR, Rmult_plus_distr_r, exp_plus, <- IH, Rmult_1_l, exp_ln by lra. cbn [pow]. ring.
Qed.

(** Comparing fractions. *)
Lemma frac_lt a b c d : (0 < b)%Z -> (0 < d)%Z -> (a * d < c * b)%Z -> IZR a / IZR b < IZR c / IZR d.
Proof.
  intros Hb Hd H. apply IZR_lt in Hb, Hd, H. rewrite !mult_IZR in H.
  apply (Rmult_lt_reg_r (IZR b * IZR d)); [nra|]. field_simplify; [|lra|lra]. lra.
Qed.
Lemma dyadic_frac a n : dyadic a n = IZR a / IZR (2 ^ Z.of_nat n).
Proof. unfold dyadic. rewrite IZR_p2. reflexivity. Qed.
Lemma upper_frac e D : (0 < D)%Z -> let h := IZR e / IZR D in
  1 + h + h * h / 2 + h * h * h / 6 + h * h * h * h / 24 + h * h * h * h * h / 40 =
  IZR (120 * (D * D * D * D * D) + 120 * (e * (D * D * D * D)) + 60 * (e * e * (D * D * D)) + 20 * (e * e * e * (D * D))
       + 5 * (e * e * e * e * D) + 3 * (e * e * e * e * e)) / IZR (120 * (D * D * D * D * D)).
Proof. intros HD h. apply IZR_lt in HD. unfold h. rewrite ?plus_IZR, ?mult_IZR, ?plus_IZR, ?mult_IZR. field. lra. Qed.
Lemma lower_frac e D : (0 < D)%Z -> let h := IZR e / IZR D in
  1 + h + h * h / 2 + h * h * h / 6 =
  IZR (6 * (D * D * D) + 6 * (e * (D * D)) + 3 * (e * e * D) + e * e * e) / IZR (6 * (D * D * D)).
Proof. intros HD h. apply IZR_lt in HD. unfold h. rewrite ?plus_IZR, ?mult_IZR, ?plus_IZR, ?mult_IZR. field. lra. Qed.

(** ** A lower bound that is too large *)
Definition low_arg : Z := -53629665495806097418709149.
Definition low_res : Z := 1208925819614753051316485.
Lemma low_value : exp (dyadic low_arg 84) < dyadic low_res 84.
Proof.
  set (x := dyadic low_arg 84).
  pose (e := (low_arg * 2 ^ 116 + 4 * (ln2_num + 2))%Z).
  assert (Hx : x = IZR (low_arg * 2 ^ 116) / IZR (2 ^ 200)).
  { unfold x. rewrite dyadic_frac. change (2 ^ Z.of_nat 84)%Z with (2 ^ 84)%Z. replace (2 ^ 200)%Z with (2 ^ 84 * 2 ^ 116)%Z by (vm_compute; reflexivity).
    rewrite !mult_IZR. field. split; apply not_0_IZR; vm_compute; discriminate. }
  destruct ln2_200 as [L1 L2]. rewrite dyadic_frac in L1, L2. change (2 ^ Z.of_nat 200)%Z with (2 ^ 200)%Z in L1, L2.
  assert (Hu : x + INR 4 * ln 2 <= IZR e / IZR (2 ^ 200)).
  { rewrite Hx. unfold e. rewrite (plus_IZR (low_arg * 2 ^ 116)), (mult_IZR 4). simpl INR. unfold Rdiv in *. lra. }
  assert (Hb : 0 <= IZR e / IZR (2 ^ 200) <= 1).
  { split.
    - apply Rmult_le_pos; [apply IZR_le; vm_compute; discriminate|].
      left. apply Rinv_0_lt_compat, IZR_lt. vm_compute. reflexivity.
    - left. replace 1 with (IZR 1 / IZR 1) by field. apply frac_lt; vm_compute; reflexivity. }
  apply (Rmult_lt_reg_r (2 ^ 4)); [apply p2_pos|]. rewrite (exp_shifted 4).
  eapply Rle_lt_trans; [apply exp_mono, Hu|]. eapply Rle_lt_trans; [apply exp_upper, Hb|].
  rewrite upper_frac by (vm_compute; reflexivity).
  replace (dyadic low_res 84 * 2 ^ 4) with (IZR (low_res * 16) / IZR (2 ^ 84)).
  2:{ rewrite dyadic_frac, mult_IZR. change (2 ^ Z.of_nat 84)%Z with (2 ^ 84)%Z. simpl pow. field. apply not_0_IZR; vm_compute; discriminate. }
  apply frac_lt; vm_compute; reflexivity.
Qed.

(** ** An upper bound that is too small *)
Definition up_arg : Z := -13729194366926482961849963349.
Definition up_res : Z := 309485009821369154720743834.
Lemma up_value : dyadic up_res 92 < exp (dyadic up_arg 92).
Proof.
  set (x := dyadic up_arg 92).
  pose (e := (up_arg * 2 ^ 108 + 4 * (ln2_num - 1))%Z).
  assert (Hx : x = IZR (up_arg * 2 ^ 108) / IZR (2 ^ 200)).
  { unfold x. rewrite dyadic_frac. change (2 ^ Z.of_nat 92)%Z with (2 ^ 92)%Z. replace (2 ^ 200)%Z with (2 ^ 92 * 2 ^ 108)%Z by (vm_compute; reflexivity).
    rewrite !mult_IZR. field. split; apply not_0_IZR; vm_compute; discriminate. }
  destruct ln2_200 as [L1 L2]. rewrite dyadic_frac in L1, L2. change (2 ^ Z.of_nat 200)%Z with (2 ^ 200)%Z in L1, L2.
  assert (Hu : IZR e / IZR (2 ^ 200) <= x + INR 4 * ln 2).
  { rewrite Hx. unfold e. rewrite (plus_IZR (up_arg * 2 ^ 108)), (mult_IZR 4). simpl INR. unfold Rdiv in *. lra. }
  assert (Hb : 0 <= IZR e / IZR (2 ^ 200)).
  { apply Rmult_le_pos; [apply IZR_le; vm_compute; discriminate|].
    left. apply Rinv_0_lt_compat, IZR_lt. vm_compute. reflexivity. }
  apply (Rmult_lt_reg_r (2 ^ 4)); [apply p2_pos|]. rewrite (exp_shifted 4).
  eapply Rlt_le_trans; [|apply exp_mono, Hu]. eapply Rlt_le_trans; [|apply exp_lower, Hb].
  rewrite lower_frac by (vm_compute; reflexivity).
  replace (dyadic up_res 92 * 2 ^ 4) with (IZR (up_res * 16) / IZR (2 ^ 92)).
  2:{ rewrite dyadic_frac, mult_IZR. change (2 ^ Z.of_nat 92)%Z with (2 ^ 92)%Z. simpl pow. field. apply not_0_IZR; vm_compute; discriminate. }
  apply frac_lt; vm_compute; reflexivity.
Qed.

(** ** What exp returns *)
Lemma ln2_between n F : (dyadic F n < dyadic (ln2_num - 1) 200) -> dyadic (ln2_num + 2) 200 < dyadic (F + 1) n -> dyadic F n < ln 2 < dyadic (F + 1) n.
Proof. pose proof ln2_200. lra. Qed.
Lemma exp_low ln2 : (forall n, exists l, ln2 n = Ret l /\ ln2_ok n l) ->
  dfi_exp ln2 (DFI low_arg (low_arg + 1) 84) = Ret (DFI low_res (low_res + 1) 84).
Proof.
  intros H2. unfold dfi_exp. cbn [dlog]. change (84 + 10)%nat with 94%nat.
  destruct (H2 94%nat) as (sh & Es & _).
  replace (dlog (dfi_convert (DFI low_arg (low_arg + 1) 84) 94)) with 94%nat by (vm_compute; reflexivity).
  rewrite Es. cbn [rbind].
  replace (exp_extra_bits (dlo sh) (dlo (dfi_convert (DFI low_arg (low_arg + 1) 84) 94))) with (Ret 0%nat) by (vm_compute; reflexivity).
  cbn [rbind].
  replace (exp_extra_bits (dlo sh) (dhi (dfi_convert (DFI low_arg (low_arg + 1) 84) 94))) with (Ret 0%nat) by (vm_compute; reflexivity).
  cbn [rbind]. change (84 + 32 + usize_floor_log2 (84 + 1) * 2 + Nat.max 0 0)%nat with 128%nat.
  destruct (H2 128%nat) as (l2 & -> & Hl).
  destruct (ln2_cases 128 235865763225513294137944142764154484399 l2 Hl) as (a & b & -> & Ha & Hb).
  { apply ln2_between; rewrite !dyadic_frac; apply frac_lt; vm_compute; reflexivity. }
  assert (Ca : (a = 235865763225513294137944142764154484397 \/ a = 235865763225513294137944142764154484398 \/ a = 235865763225513294137944142764154484399)%Z) by lia.
  assert (Cb : (b = 235865763225513294137944142764154484400 \/ b = 235865763225513294137944142764154484401 \/ b = 235865763225513294137944142764154484402)%Z) by lia.
  destruct Ca as [->|[->| ->]]; destruct Cb as [->|[->| ->]]; vm_compute; reflexivity.
Qed.
Lemma exp_up ln2 : (forall n, exists l, ln2 n = Ret l /\ ln2_ok n l) ->
  dfi_exp ln2 (DFI (up_arg - 1) up_arg 92) = Ret (DFI (up_res - 1) up_res 92).
Proof.
  intros H2. unfold dfi_exp. cbn [dlog]. change (92 + 10)%nat with 102%nat.
  destruct (H2 102%nat) as (sh & Es & _).
  replace (dlog (dfi_convert (DFI (up_arg - 1) up_arg 92) 102)) with 102%nat by (vm_compute; reflexivity).
  rewrite Es. cbn [rbind].
  replace (exp_extra_bits (dlo sh) (dlo (dfi_convert (DFI (up_arg - 1) up_arg 92) 102))) with (Ret 0%nat) by (vm_compute; reflexivity).
  cbn [rbind].
  replace (exp_extra_bits (dlo sh) (dhi (dfi_convert (DFI (up_arg - 1) up_arg 92) 102))) with (Ret 0%nat) by (vm_compute; reflexivity).
  cbn [rbind]. change (92 + 32 + usize_floor_log2 (92 + 1) * 2 + Nat.max 0 0)%nat with 136%nat.
  destruct (H2 136%nat) as (l2 & -> & Hl).
  destruct (ln2_cases 136 60381635385731403299313700547623548006208 l2 Hl) as (a & b & -> & Ha & Hb).
  { apply ln2_between; rewrite !dyadic_frac; apply frac_lt; vm_compute; reflexivity. }
  assert (Ca : (a = 60381635385731403299313700547623548006206 \/ a = 60381635385731403299313700547623548006207 \/ a = 60381635385731403299313700547623548006208)%Z) by lia.
  assert (Cb : (b = 60381635385731403299313700547623548006209 \/ b = 60381635385731403299313700547623548006210 \/ b = 60381635385731403299313700547623548006211)%Z) by lia.
  destruct Ca as [->|[->| ->]]; destruct Cb as [->|[->| ->]]; vm_compute; reflexivity.
Qed.

Lemma exp_enclosure_refuted : exists i j r s, dfi_ok i /\ dfi_ok j /\
  forall ln2, (forall n, exists l, ln2 n = Ret l /\ ln2_ok n l) ->
    (dfi_exp ln2 i = Ret r /\ exists x, inI x i /\ exp x < dyadic (dlo r) (dlog r)) /\
    (dfi_exp ln2 j = Ret s /\ exists x, inI x j /\ dyadic (dhi s) (dlog s) < exp x).
Proof.
  exists (DFI low_arg (low_arg + 1) 84), (DFI (up_arg - 1) up_arg 92), (DFI low_res (low_res + 1) 84), (DFI (up_res - 1) up_res 92).
  assert (O1 : dfi_ok (DFI low_arg (low_arg + 1) 84)) by (vm_compute; discriminate).
  assert (O2 : dfi_ok (DFI (up_arg - 1) up_arg 92)) by (vm_compute; discriminate).
  split; [exact O1|]. split; [exact O2|]. intros ln2 H. split.
  - split; [apply exp_low; assumption|]. exists (dyadic low_arg 84). split; [exact (proj1 (dfi_ok_mem _ O1))|apply low_value].
  - split; [apply exp_up; assumption|]. exists (dyadic up_arg 92). split; [exact (proj2 (dfi_ok_mem _ O2))|apply up_value].
Qed.
