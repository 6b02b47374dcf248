From Coq Require Import ZArith QArith Qround Qreals Reals Lra Lia Bool List.
From Verif Require Import M_Base M_Traits M_Interval S_Interval P_Interval.
Local Open Scope R_scope.

(** * The AGM of two reals *)
Definition step2 (p : R * R) : R * R := ((fst p + snd p) / 2, R_sqrt.sqrt (fst p * snd p)).

Lemma agm_seq_S x y n : agm_seq x y (S n) = step2 (agm_seq x y n).
Proof. cbn [agm_seq]. unfold step2. destruct (agm_seq x y n); reflexivity. Qed.
Lemma agm_seq_shift x y n m : agm_seq x y (n + m) = agm_seq (fst (agm_seq x y m)) (snd (agm_seq x y m)) n.
Proof.
  induction n as [|n IH]; [cbn [agm_seq Nat.add]; destruct (agm_seq x y m); reflexivity|].
  change (S n + m)%nat with (S (n + m)). rewrite !agm_seq_S, IH. reflexivity.
Qed.

Lemma sqrt_between a b : 0 <= a -> a <= b -> a <= R_sqrt.sqrt (a * b) <= b.
Proof.
  intros H0 H. split.
  - rewrite <- (sqrt_square a) at 1 by assumption. apply sqrt_le_1_alt. nra.
  - rewrite <- (sqrt_square b) at 2 by lra. apply sqrt_le_1_alt. nra.
Qed.

Lemma step2_bounds p lo hi : 0 <= lo -> lo <= fst p <= hi -> lo <= snd p <= hi ->
  lo <= fst (step2 p) <= hi /\ lo <= snd (step2 p) <= hi.
Proof.
  intros H0 H1 H2. unfold step2; cbn [fst snd]. split; [lra|].
  destruct (Rle_dec (fst p) (snd p)) as [H|H].
  - pose proof (sqrt_between (fst p) (snd p)). lra.
  - rewrite Rmult_comm. pose proof (sqrt_between (snd p) (fst p)). lra.
Qed.

Lemma agm_seq_bounds x y lo hi n : 0 <= lo -> lo <= x <= hi -> lo <= y <= hi ->
  lo <= fst (agm_seq x y n) <= hi /\ lo <= snd (agm_seq x y n) <= hi.
Proof.
  intros H0 Hx Hy. induction n as [|n [I1 I2]]; [split; assumption|].
  rewrite agm_seq_S. apply step2_bounds; assumption.
Qed.

Lemma amgm a b : 0 <= a -> 0 <= b -> R_sqrt.sqrt (a * b) <= (a + b) / 2.
Proof.
  intros Ha Hb. rewrite <- (sqrt_square ((a + b) / 2)) by lra. apply sqrt_le_1_alt.
  apply Rminus_le. replace (a * b - (a + b) / 2 * ((a + b) / 2)) with (- Rsqr ((a - b) / 2)) by (unfold Rsqr; field).
  pose proof (Rle_0_sqr ((a - b) / 2)). lra.
Qed.

Lemma cv_const c : Un_cv (fun _ => c) c.
Proof. intros e He. exists 0%nat. intros n _. unfold R_dist. rewrite Rminus_diag_eq by reflexivity. rewrite Rabs_R0. assumption. Qed.

Lemma cv_bounds f l lo hi : Un_cv f l -> (forall n, lo <= f n <= hi) -> lo <= l <= hi.
Proof.
  intros C H. split.
  - apply Rle_cv_lim with (fun _ => lo) f; [intros n; apply H|apply cv_const|assumption].
  - apply Rle_cv_lim with f (fun _ => hi); [intros n; apply H|assumption|apply cv_const].
Qed.

(** The limit lies between the two current means, at every stage. *)
Lemma is_agm_between x y l m : 0 <= x -> 0 <= y -> is_agm x y l ->
  Rmin (fst (agm_seq x y m)) (snd (agm_seq x y m)) <= l <= Rmax (fst (agm_seq x y m)) (snd (agm_seq x y m)).
Proof.
  intros Hx Hy [C _].
  assert (N : 0 <= fst (agm_seq x y m) /\ 0 <= snd (agm_seq x y m)).
  { pose proof (Rmax_l x y). pose proof (Rmax_r x y).
    destruct (agm_seq_bounds x y 0 (Rmax x y) m); lra. }
  apply cv_bounds with (fun n => fst (agm_seq x y (n + m))).
  - exact (CV_shift' (fun n => fst (agm_seq x y n)) m l C).
  - intros n. rewrite agm_seq_shift.
    set (a := fst (agm_seq x y m)) in *. set (g := snd (agm_seq x y m)) in *.
    pose proof (Rmin_l a g). pose proof (Rmin_r a g). pose proof (Rmax_l a g). pose proof (Rmax_r a g).
    destruct (agm_seq_bounds a g (Rmin a g) (Rmax a g) n); try lra.
    apply Rmin_glb; lra.
Qed.

(** The limit exists. *)
Lemma is_agm_exists x y : 0 <= x -> 0 <= y -> exists l, is_agm x y l.
Proof.
  intros Hx Hy.
  assert (NN : forall n, 0 <= fst (agm_seq x y n) /\ 0 <= snd (agm_seq x y n)).
  { intros n. pose proof (Rmax_l x y). pose proof (Rmax_r x y).
    destruct (agm_seq_bounds x y 0 (Rmax x y) n); lra. }
  set (A := fun n => fst (agm_seq x y (n + 1))). set (G := fun n => snd (agm_seq x y (n + 1))).
  assert (S1 : forall n, A (S n) = (A n + G n) / 2 /\ G (S n) = R_sqrt.sqrt (A n * G n)).
  { intros n. unfold A, G. change (S n + 1)%nat with (S (n + 1)). rewrite agm_seq_S. split; reflexivity. }
  assert (GA : forall n, 0 <= G n <= A n).
  { intros n. unfold A, G. split; [apply NN|]. rewrite Nat.add_comm. cbn [Nat.add]. rewrite agm_seq_S.
    unfold step2; cbn [fst snd]. destruct (NN n). apply amgm; assumption. }
  assert (DA : Un_decreasing A). { intros n. destruct (S1 n) as [-> _]. pose proof (GA n). lra. }
  destruct (decreasing_cv A DA) as [l Hl].
  { exists 0. intros r [n ->]. unfold opp_seq. pose proof (GA n). lra. }
  assert (D : forall n, A n - G n <= (A 0%nat - G 0%nat) * (/ 2) ^ n).
  { induction n as [|n IH]; [cbn [pow]; lra|]. destruct (S1 n) as [-> ->].
    pose proof (GA n) as [G0 GA']. rewrite Rmult_comm with (r1 := A n) (r2 := G n).
    pose proof (sqrt_between (G n) (A n) G0 GA'). cbn [pow]. lra. }
  exists l. split; [exact (CV_shift (fun n => fst (agm_seq x y n)) 1 l Hl)|].
  apply (CV_shift (fun n => snd (agm_seq x y n)) 1 l). change (Un_cv G l).
  assert (C0 : Un_cv (fun n => A n - G n) 0).
  { intros e He. pose proof (GA 0%nat) as GA0.
    destruct (pow_lt_1_zero (/ 2) ltac:(rewrite Rabs_right; lra) (e / (A 0%nat - G 0%nat + 1))) as [N HN].
    { apply Rdiv_lt_0_compat; lra. }
    exists N. intros n Hn. unfold R_dist. rewrite Rminus_0_r. pose proof (GA n). rewrite Rabs_right by lra.
    specialize (HN n Hn). rewrite Rabs_right in HN by (apply Rle_ge, pow_le; lra).
    apply Rle_lt_trans with ((A 0%nat - G 0%nat) * (/ 2) ^ n); [apply D|].
    apply Rle_lt_trans with ((A 0%nat - G 0%nat + 1) * (/ 2) ^ n).
    - assert (0 <= (/ 2) ^ n) by (apply pow_le; lra). nra.
    - apply Rlt_le_trans with ((A 0%nat - G 0%nat + 1) * (e / (A 0%nat - G 0%nat + 1))).
      + apply Rmult_lt_compat_l; lra.
      + right. field. lra. }
  pose proof (CV_minus _ _ _ _ Hl C0) as C1. rewrite Rminus_0_r in C1.
  apply (Un_cv_ext _ G) in C1; [assumption|]. intros n. cbn beta. ring.
Qed.

(** * The interval computation *)
Lemma dfi_mul_log a b : dlog (dfi_mul a b) = Nat.max (dlog a) (dlog b).
Proof.
  unfold dfi_mul. match goal with |- context [do_op ?op a b] => 
    destruct (do_op_cases op a b) as (a' & b' & n & Hn & _ & _ & _ & _ & _ & _ & ->) end.
  destruct (take_min _ _) as [lower rest]. cbn [dlog]. assumption.
Qed.

Lemma lo_nonneg_iff i : (0 <= dlo i)%Z <-> 0 <= dyadic (dlo i) (dlog i).
Proof.
  rewrite dyadic_ge_iff, Rmult_0_l. split; [apply IZR_le|apply le_IZR].
Qed.

Lemma dfi_mul_nonneg a b : dfi_ok a -> dfi_ok b -> (0 <= dlo a)%Z -> (0 <= dlo b)%Z ->
  (0 <= dlo (dfi_mul a b))%Z.
Proof.
  intros Ha Hb La Lb. unfold dfi_mul.
  match goal with |- context [do_op ?op a b] => 
    destruct (do_op_cases op a b) as (a' & b' & n & Hn & Ea & Eb & A1 & A2 & B1 & B2 & ->) end.
  apply lo_nonneg_iff in La, Lb. unfold dfi_ok in *.
  apply (dyadic_le _ _ (dlog a)) in Ha. apply (dyadic_le _ _ (dlog b)) in Hb.
  rewrite <- A1, <- A2 in *. rewrite <- B1, <- B2 in *. rewrite <- Ea in La at 1. rewrite <- Eb in Lb at 1.
  apply lo_nonneg_iff in La, Lb. apply dyadic_le in Ha, Hb.
  pose proof (mul_select (dlo a' * dlo b') (dlo a' * dhi b') (dhi a' * dlo b') (dhi a' * dhi b')) as S.
  destruct (take_min (dlo a' * dlo b') _) as [lower rest]. destruct S as [SL _]. cbn [dlo].
  unfold shr. apply Z.shiftr_nonneg. nia.
Qed.

Definition good (n : nat) (i : dfi) : Prop := dlog i = n /\ dfi_ok i /\ (0 <= dlo i)%Z.

Lemma agm_step n am gm : good n am -> good n gm ->
  exists am' gm', dfi_div_int (dfi_add am gm) 2 = Ret am' /\ dfi_sqrt (dfi_mul am gm) = Ret gm' /\
    good n am' /\ good n gm' /\
    forall a g, inI a am -> inI g gm -> inI ((a + g) / 2) am' /\ inI (R_sqrt.sqrt (a * g)) gm'.
Proof.
  intros (La & Oa & Na) (Lg & Og & Ng).
  destruct (dfi_div_int_in (dfi_add am gm) 2) as [_ H]. destruct (H ltac:(discriminate)) as (am' & E1 & L1 & I1). clear H.
  destruct (dfi_ok_mem _ Oa) as [Ma _]. destruct (dfi_ok_mem _ Og) as [Mg _].
  assert (Om : dfi_ok (dfi_mul am gm)) by (eapply inI_ok, dfi_mul_in; eassumption).
  assert (Nm : (0 <= dlo (dfi_mul am gm))%Z) by (apply dfi_mul_nonneg; assumption).
  destruct (dfi_sqrt_ok _ Om) as [_ H]. destruct (H Nm) as (gm' & E2 & T). clear H.
  exists am', gm'. split; [exact E1|]. split; [exact E2|].
  assert (IN : forall a g, inI a am -> inI g gm -> inI ((a + g) / 2) am' /\ inI (R_sqrt.sqrt (a * g)) gm').
  { intros a g Ia Ig. split.
    - apply I1. apply dfi_add_in; assumption.
    - eapply dfi_sqrt_in; [exact E2|]. apply dfi_mul_in; assumption. }
  destruct (IN _ _ Ma Mg) as [Ja Jg].
  assert (K1 : dlog am' = n).
  { rewrite L1. destruct (dfi_add_bounds am gm) as [-> _]. rewrite La, Lg. apply Nat.max_id. }
  assert (K2 : dlog gm' = n).
  { destruct T as [-> _]. rewrite dfi_mul_log, La, Lg. apply Nat.max_id. }
  repeat match goal with |- _ /\ _ => split end; try exact IN.
  - split; [exact K1|]. split; [apply (inI_ok _ _ Ja)|].
    (* lower bound of the mean *)
    unfold dfi_div_int in E1. destruct (ratio_new 1 2) as [q| |] eqn:Eq; try discriminate. cbn [rmap rbind] in E1.
    assert (Em : am' = dfi_mul_ratio (dfi_add am gm) q) by congruence.
    destruct (ratio_new_R _ _ _ Eq) as [_ Rq].
    assert (Q0 : (Qnum q <? 0)%Z = false).
    { cbn in Eq. assert (Eq' : q = (1 # 2)%Q) by congruence. rewrite Eq'. reflexivity. }
    rewrite Em. unfold dfi_mul_ratio. rewrite Q0. cbn [dlo].
    apply Z.lt_succ_r. apply lt_IZR. rewrite succ_IZR.
    pose proof (Qfloor_R (Qscale q (dlo (dfi_add am gm)))) as F. rewrite Qscale_R in F.
    apply Rle_lt_trans with (Q2R q * IZR (dlo (dfi_add am gm))); [|apply F].
    rewrite Rq. apply Rmult_le_pos; [lra|].
    destruct (dfi_add_bounds am gm) as (_ & B & _). apply lo_nonneg_iff in Na, Ng.
    assert (0 <= dyadic (dlo (dfi_add am gm)) (dlog (dfi_add am gm))) as Hn by lra.
    apply lo_nonneg_iff in Hn. apply (IZR_le 0); assumption.
  - split; [exact K2|]. split; [apply (inI_ok _ _ Jg)|].
    destruct T as (_ & _ & _ & T & _). apply T. replace (dyadic 0 (dlog (dfi_mul am gm))) with 0 by (unfold dyadic, Rdiv; ring). apply sqrt_pos.
Qed.

Lemma good_union n a b : good n a -> good n b -> good n (dfi_union a b) .
Proof.
  intros (La & Oa & Na) (Lb & Ob & Nb). destruct (dfi_union_bounds a b) as (L & B1 & B2).
  split; [rewrite L, La, Lb; apply Nat.max_id|]. split.
  - destruct (dfi_ok_mem _ Oa) as [M _]. eapply inI_ok. apply dfi_union_in. left; exact M.
  - apply lo_nonneg_iff. rewrite B1. apply lo_nonneg_iff in Na, Nb. apply Rmin_glb; assumption.
Qed.

Lemma in_union_between a b u v l : inI u a -> inI v b -> Rmin u v <= l <= Rmax u v -> inI l (dfi_union a b).
Proof.
  intros Hu Hv Hl.
  assert (U : inI u (dfi_union a b)) by (apply dfi_union_in; left; assumption).
  assert (V : inI v (dfi_union a b)) by (apply dfi_union_in; right; assumption).
  unfold inI in *. unfold Rmin, Rmax in Hl. destruct (Rle_dec u v); lra.
Qed.

Lemma agm_loop_ok fuel : forall n result am gm, good n result -> good n am -> good n gm ->
  (dhi result - dlo result <= Z.of_nat fuel)%Z ->
  exists r, agm_loop fuel result am gm (dfi_union am gm) = Ret r /\ good n r /\
    (dhi r - dlo r <= dhi result - dlo result)%Z /\
    (forall x y l m, 0 <= x -> 0 <= y -> is_agm x y l ->
       inI (fst (agm_seq x y m)) am -> inI (snd (agm_seq x y m)) gm -> inI l result -> inI l r).
Proof.
  induction fuel as [|fuel IH]; intros n result am gm Hr Ha Hg Hf; cbn [agm_loop];
    pose proof (good_union n am gm Ha Hg) as Hu;
    destruct (Z.ltb_spec (dhi (dfi_union am gm) - dlo (dfi_union am gm)) (dhi result - dlo result)) as [H|H].
  - exfalso. destruct Hu as (_ & Ou & _). unfold dfi_ok in Ou. lia.
  - exists result. split; [reflexivity|]. split; [assumption|]. split; [lia|]. auto.
  - destruct (agm_step n am gm Ha Hg) as (am' & gm' & E1 & E2 & Ha' & Hg' & IN).
    rewrite E1; cbn [rbind]. rewrite E2; cbn [rbind].
    destruct (IH n (dfi_union am gm) am' gm' Hu Ha' Hg' ltac:(lia)) as (r & E & Gr & Wr & Ir).
    exists r. split; [exact E|]. split; [assumption|]. split; [lia|].
    intros x y l m Hx Hy Hl Ia Ig _. apply (Ir x y l (S m)); try assumption.
    + rewrite agm_seq_S. apply IN; assumption.
    + rewrite agm_seq_S. apply IN; assumption.
    + eapply in_union_between; [exact Ia|exact Ig|]. apply is_agm_between; assumption.
  - exists result. split; [reflexivity|]. split; [assumption|]. split; [lia|]. auto.
Qed.

Lemma convert_same i : dlog (dfi_convert i (dlog i)) = dlog i. Proof. reflexivity. Qed.

Lemma dfi_agm_ok a b : dfi_ok a -> dfi_ok b ->
  ((dlo a < 0 \/ dlo b < 0)%Z -> dfi_agm a b = Panic) /\
  ((0 <= dlo a)%Z -> (0 <= dlo b)%Z -> exists r, dfi_agm a b = Ret r /\
     dfi_ok r /\ dlog r = Nat.max (dlog a) (dlog b) /\
     (forall x y l, inI x a -> inI y b -> is_agm x y l -> inI l r)).
Proof.
  intros Oa Ob. unfold dfi_agm. split.
  - intros [H|H]; apply Z.ltb_lt in H; rewrite H; cbn [negb assert_then]; [reflexivity|].
    destruct (negb (dlo a <? 0)%Z); reflexivity.
  - intros Na Nb.
    destruct (Z.ltb_spec (dlo a) 0); [lia|]. destruct (Z.ltb_spec (dlo b) 0); [lia|]. cbn [negb assert_then].
    set (n := Nat.max (dlog a) (dlog b)).
    (* bring both operands to the common precision *)
    set (a' := dfi_convert a n). set (b' := dfi_convert b n).
    assert (Ga : good n a').
    { split; [reflexivity|]. destruct (dfi_ok_mem _ Oa) as [M _]. split; [eapply inI_ok, dfi_convert_in, M|].
      apply lo_nonneg_iff. change (dlog a') with n. unfold a'.
      rewrite (proj1 (dfi_convert_up_exact a n ltac:(unfold n; lia))). apply lo_nonneg_iff; assumption. }
    assert (Gb : good n b').
    { split; [reflexivity|]. destruct (dfi_ok_mem _ Ob) as [M _]. split; [eapply inI_ok, dfi_convert_in, M|].
      apply lo_nonneg_iff. change (dlog b') with n. unfold b'.
      rewrite (proj1 (dfi_convert_up_exact b n ltac:(unfold n; lia))). apply lo_nonneg_iff; assumption. }
    assert (OP : forall op, do_op op a b = do_op op a' b').
    { intros op. unfold do_op, a', b', dfi_convert, convert_log2_denom_floor, convert_log2_denom_ceil; cbn [dlo dhi dlog].
      rewrite Nat.leb_refl, Nat.sub_diag. unfold n.
      destruct (Nat.leb_spec (dlog a) (dlog b)) as [L|L].
      - rewrite Nat.max_r by assumption. apply Nat.leb_le in L as L'. rewrite L', Nat.leb_refl, Nat.sub_diag.
        unfold shl. rewrite !Z.shiftl_0_r. reflexivity.
      - rewrite Nat.max_l by lia. rewrite Nat.leb_refl, Nat.sub_diag.
        replace (dlog b <=? dlog a)%nat with true by (symmetry; apply Nat.leb_le; lia).
        unfold shl. rewrite !Z.shiftl_0_r. reflexivity. }
    assert (EU : dfi_union a b = dfi_union a' b') by apply OP.
    assert (EA : dfi_add a b = dfi_add a' b') by apply OP.
    assert (EM : dfi_mul a b = dfi_mul a' b') by apply OP.
    rewrite EU, EA, EM.
    destruct (agm_step n a' b' Ga Gb) as (am & gm & E1 & E2 & Gam & Ggm & IN).
    rewrite E1; cbn [rbind]. rewrite E2; cbn [rbind].
    pose proof (good_union n a' b' Ga Gb) as Gu.
    destruct (agm_loop_ok (Z.to_nat (dhi (dfi_union a' b') - dlo (dfi_union a' b'))) n (dfi_union a' b') am gm Gu Gam Ggm)
      as (r & E & (Lr & Or & _) & _ & Ir).
    { destruct Gu as (_ & Ou & _). unfold dfi_ok in Ou. lia. }
    exists r. split; [exact E|]. split; [assumption|]. split; [assumption|].
    intros x y l Hx Hy Hl. apply (dfi_convert_in a n) in Hx as Hx'. apply (dfi_convert_in b n) in Hy as Hy'.
    assert (X0 : 0 <= x). { apply lo_nonneg_iff in Na. destruct Hx. lra. }
    assert (Y0 : 0 <= y). { apply lo_nonneg_iff in Nb. destruct Hy. lra. }
    apply (Ir x y l 1%nat X0 Y0 Hl).
    + rewrite agm_seq_S. apply IN; assumption.
    + rewrite agm_seq_S. apply IN; assumption.
    + eapply in_union_between; [exact Hx'|exact Hy'|]. apply (is_agm_between x y l 0 X0 Y0 Hl).
Qed.
