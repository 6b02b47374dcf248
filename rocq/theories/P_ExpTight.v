(** How close the bounds returned by the exponential are, and when it returns. *)
From Coq Require Import ZArith QArith Qround Qreals Reals Lra Lia Bool List.
From Verif Require Import M_Base M_Traits M_Interval M_IntervalExp S_Interval P_Interval P_IntervalTight P_LogSeries P_IntervalLog P_IntervalExp P_LogTight.
Local Open Scope R_scope.

Definition cdiv (a b : Z) : Z := (- ((- a) / b))%Z.

Lemma div_R a b : (0 < b)%Z -> IZR (a / b) <= IZR a / IZR b < IZR (a / b) + 1.
Proof.
  intros H. pose proof (Z.div_mod a b ltac:(lia)) as E. pose proof (Z.mod_pos_bound a b H) as B.
  assert (Pb : 0 < IZR b) by (apply (IZR_lt 0); assumption).
  assert (ER : IZR a = IZR b * IZR (a / b) + IZR (a mod b)) by (rewrite <- mult_IZR, <- plus_IZR; f_equal; exact E).
  destruct B as [B1 B2]. apply IZR_le in B1. apply IZR_lt in B2.
  split; [apply mul_le_inv with (IZR b)|apply Rmult_lt_reg_r with (IZR b)]; try assumption;
    unfold Rdiv; rewrite (Rmult_assoc (IZR a)), Rinv_l; lra.
Qed.
Lemma cdiv_R a b : (0 < b)%Z -> IZR (cdiv a b) - 1 < IZR a / IZR b <= IZR (cdiv a b).
Proof.
  intros H. unfold cdiv. rewrite opp_IZR. pose proof (div_R (- a) b H) as D. rewrite opp_IZR in D.
  unfold Rdiv in *. lra.
Qed.

Lemma Qred_1 p : Qred (1 # p) = 1 # p.
Proof.
  unfold Qred. pose proof (Z.ggcd_gcd 1 (Zpos p)) as G. pose proof (Z.ggcd_correct_divisors 1 (Zpos p)) as D.
  destruct (Z.ggcd 1 (Zpos p)) as [g [aa bb]]. cbn [fst] in G. rewrite Z.gcd_1_l in G. subst g.
  destruct D as [D1 D2]. rewrite Z.mul_1_l in D1, D2. subst aa bb. reflexivity.
Qed.

Lemma exp_div_step l u w j : (1 <= j)%Z -> dfi_div_int (DFI l u w) j = Ret (DFI (l / j) (cdiv u j) w).
Proof.
  intros Hj. destruct j as [|p|p]; try lia. unfold dfi_div_int, ratio_new. rewrite Qred_1. cbn [rmap rbind].
  unfold dfi_mul_ratio. cbn [Qnum dlo dhi dlog]. change (1 <? 0)%Z with false. cbv iota.
  unfold Qscale, Qceiling, Qfloor, Qopp, cdiv. cbn [Qnum Qden]. rewrite !Z.mul_1_l. reflexivity.
Qed.

Lemma exp_mul_step tl th a b w : (0 <= tl <= th)%Z -> (0 <= a <= b)%Z ->
  dfi_mul (DFI tl th w) (DFI a b w) = DFI (tl * a / 2 ^ Z.of_nat w) (cdiv (th * b) (2 ^ Z.of_nat w)) w.
Proof.
  intros Ht Ha. unfold dfi_mul, do_op; cbn [dlo dhi dlog]. rewrite Nat.leb_refl, Nat.sub_diag.
  assert (S0 : forall z, shl z 0 = z) by (intros z; unfold shl; apply Z.shiftl_0_r).
  rewrite !S0. pose proof (mul_select (tl * a) (tl * b) (th * a) (th * b)) as S.
  destruct (take_min (tl * a) _) as [lower rest]. destruct S as [-> ->].
  rewrite !Z.min_l, !Z.max_r by nia. unfold shr_up. rewrite !shr_div. reflexivity.
Qed.

Lemma exp_step tl th a b x y w j : (0 <= tl <= th)%Z -> (0 <= a <= b)%Z -> (x = a /\ y = b \/ x = b /\ y = a) -> (1 <= j)%Z ->
  dfi_div_int (dfi_mul (DFI tl th w) (DFI x y w)) j =
  Ret (DFI (tl * a / 2 ^ Z.of_nat w / j) (cdiv (cdiv (th * b) (2 ^ Z.of_nat w)) j) w).
Proof.
  intros Ht Ha [[-> ->]|[-> ->]] Hj; [|rewrite dfi_mul_swap]; rewrite exp_mul_step, exp_div_step by assumption; reflexivity.
Qed.

Section L.
Variables (w : nat) (a b x y : Z).
Hypothesis Hab : (0 <= a <= b)%Z.
Hypothesis Hxy : x = a /\ y = b \/ x = b /\ y = a.
Let T := 2 ^ w.
Let al := dyadic a w.
Let be := dyadic b w.
Hypothesis Hbe : be <= 3 / 4.

Lemma al_be : 0 <= al <= be.
Proof.
  unfold al, be, dyadic. pose proof (p2_pos w) as P. assert (0 < / 2 ^ w) by (apply Rinv_0_lt_compat; assumption).
  destruct Hab as [H1 H2]. apply IZR_le in H1, H2. split; [apply Rmult_le_pos; lra|apply Rmult_le_compat_r; lra].
Qed.

Lemma step_lower tl E j : (1 <= j)%Z -> 0 <= E -> E * T - 8 <= IZR tl -> E * al / IZR j * T - 8 <= IZR (tl * a / 2 ^ Z.of_nat w / j).
Proof.
  intros Hj HE H. destruct al_be as [A0 A1]. pose proof (p2_pos w) as P. fold T in P.
  assert (Z0 : (0 < 2 ^ Z.of_nat w)%Z) by (apply Z.pow_pos_nonneg; lia).
  pose proof (div_R (tl * a) (2 ^ Z.of_nat w) Z0) as [_ D1]. rewrite IZR_p2, mult_IZR in D1. fold T in D1.
  set (v := (tl * a / 2 ^ Z.of_nat w)%Z) in *.
  pose proof (div_R v j ltac:(lia)) as [_ D2]. apply IZR_le in Hj. set (J := IZR j) in *.
  set (v' := IZR (v / j)) in *. clearbody v'.
  assert (EA : IZR tl * IZR a / T = IZR tl * al) by (unfold al, dyadic; fold T; field; lra). rewrite EA in D1.
  assert (D3 : (E * T - 8) * al <= IZR tl * al) by (apply Rmult_le_compat_r; lra).
  assert (Q : (E * T * al - 7) / J <= IZR v / J).
  { apply Rmult_le_compat_r; [left; apply Rinv_0_lt_compat; lra|]. nra. }
  assert (Q2 : 7 / J <= 7). { apply mul_le_inv with J; [lra|]. unfold Rdiv. rewrite Rmult_assoc, Rinv_l; lra. }
  replace (E * al / J * T) with ((E * T * al - 7) / J + 7 / J) by (field; lra). lra.
Qed.
Lemma step_upper th E j : (1 <= j)%Z -> 0 <= E -> IZR th <= E * T + 8 -> IZR (cdiv (cdiv (th * b) (2 ^ Z.of_nat w)) j) <= E * be / IZR j * T + 8.
Proof.
  intros Hj HE H. destruct al_be as [A0 A1]. pose proof (p2_pos w) as P. fold T in P.
  assert (Z0 : (0 < 2 ^ Z.of_nat w)%Z) by (apply Z.pow_pos_nonneg; lia).
  pose proof (cdiv_R (th * b) (2 ^ Z.of_nat w) Z0) as [D1 _]. rewrite IZR_p2, mult_IZR in D1. fold T in D1.
  set (v := cdiv (th * b) (2 ^ Z.of_nat w)) in *.
  pose proof (cdiv_R v j ltac:(lia)) as [D2 _]. apply IZR_le in Hj. set (J := IZR j) in *.
  set (v' := IZR (cdiv v j)) in *. clearbody v'.
  assert (EA : IZR th * IZR b / T = IZR th * be) by (unfold be, dyadic; fold T; field; lra). rewrite EA in D1.
  assert (D3 : IZR th * be <= (E * T + 8) * be) by (apply Rmult_le_compat_r; lra).
  assert (Q : IZR v / J <= (E * T * be + 7) / J).
  { apply Rmult_le_compat_r; [left; apply Rinv_0_lt_compat; lra|]. nra. }
  assert (Q2 : 7 / J <= 7). { apply mul_le_inv with J; [lra|]. unfold Rdiv. rewrite Rmult_assoc, Rinv_l; lra. }
  replace (E * be / J * T) with ((E * T * be + 7) / J - 7 / J) by (field; lra). lra.
Qed.
Lemma step_order tl th j : (1 <= j)%Z -> (0 <= tl <= th)%Z ->
  (0 <= tl * a / 2 ^ Z.of_nat w / j <= cdiv (cdiv (th * b) (2 ^ Z.of_nat w)) j)%Z.
Proof.
  intros Hj Ht. assert (Z0 : (0 < 2 ^ Z.of_nat w)%Z) by (apply Z.pow_pos_nonneg; lia).
  set (Z2 := (2 ^ Z.of_nat w)%Z) in *. clearbody Z2.
  assert (P : (0 <= tl * a <= th * b)%Z) by nia.
  assert (Q : (0 <= tl * a / Z2)%Z) by (apply Z.div_pos; lia).
  assert (Q2 : (tl * a / Z2 <= cdiv (th * b) Z2)%Z).
  { unfold cdiv. pose proof (Z.mul_div_le (tl * a) Z2 Z0). pose proof (Z.mul_div_le (- (th * b)) Z2 Z0). nia. }
  split; [apply Z.div_pos; lia|]. set (u := (tl * a / Z2)%Z) in *. set (v := cdiv (th * b) Z2) in *. clearbody u v.
  unfold cdiv. pose proof (Z.mul_div_le u j ltac:(lia)). pose proof (Z.mul_div_le (- v) j ltac:(lia)). nia.
Qed.
Lemma step_upper_ge th E j : (1 <= j)%Z -> E * T <= IZR th -> E * be / IZR j * T <= IZR (cdiv (cdiv (th * b) (2 ^ Z.of_nat w)) j).
Proof.
  intros Hj H. destruct al_be as [A0 A1]. pose proof (p2_pos w) as P. fold T in P.
  assert (Z0 : (0 < 2 ^ Z.of_nat w)%Z) by (apply Z.pow_pos_nonneg; lia).
  pose proof (cdiv_R (th * b) (2 ^ Z.of_nat w) Z0) as [_ D1]. rewrite IZR_p2, mult_IZR in D1. fold T in D1.
  set (v := cdiv (th * b) (2 ^ Z.of_nat w)) in *.
  pose proof (cdiv_R v j ltac:(lia)) as [_ D2]. apply IZR_le in Hj. set (J := IZR j) in *.
  set (v' := IZR (cdiv v j)) in *. clearbody v'.
  assert (EA : IZR th * IZR b / T = IZR th * be) by (unfold be, dyadic; fold T; field; lra). rewrite EA in D1.
  assert (D3 : E * T * be <= IZR th * be) by (apply Rmult_le_compat_r; lra).
  assert (Q : E * T * be / J <= IZR v / J).
  { apply Rmult_le_compat_r; [left; apply Rinv_0_lt_compat; lra|]. lra. }
  replace (E * be / J * T) with (E * T * be / J) by (field; lra). lra.
Qed.

Lemma exp_loop_near left : forall i tl th sl sh r, (0 <= tl <= th)%Z ->
  eterm i al * T - 8 <= IZR tl -> eterm i be * T <= IZR th <= eterm i be * T + 8 ->
  eS i al * T - 8 * INR i <= IZR sl -> IZR sh <= eS i be * T + 8 * INR i ->
  exp_loop left (S i) (DFI x y w) (DFI tl th w) (DFI sl sh w) = Ret r ->
  exists n, (n <= i + left)%nat /\ dlog r = w /\ eS n al * T - 8 * INR n <= IZR (dlo r) /\ IZR (dhi r) <= eS n be * T + 8 * INR n /\
    (n = (i + left)%nat \/ eterm n be * T <= 1).
Proof.
  induction left as [|left IH]; intros i tl th sl sh r Ht H1 H2 H3 H4 E.
  - cbn [exp_loop] in E. injection E as <-. exists i. cbn [dlo dhi dlog]. rewrite Nat.add_0_r. repeat split; auto.
  - cbn [exp_loop] in E. rewrite (exp_step tl th a b x y w _ Ht Hab Hxy) in E by lia. cbn [rbind dlo dhi] in E.
    destruct al_be as [A0 A1].
    pose proof (step_lower tl (eterm i al) (Z.of_nat (S i)) ltac:(lia) (eterm_nonneg i al A0) H1) as S1.
    pose proof (step_upper th (eterm i be) (Z.of_nat (S i)) ltac:(lia) (eterm_nonneg i be ltac:(lra)) (proj2 H2)) as S2.
    pose proof (step_upper_ge th (eterm i be) (Z.of_nat (S i)) ltac:(lia) (proj1 H2)) as S3.
    pose proof (step_order tl th (Z.of_nat (S i)) ltac:(lia) Ht) as S4.
    set (tl' := (tl * a / 2 ^ Z.of_nat w / Z.of_nat (S i))%Z) in *.
    set (th' := cdiv (cdiv (th * b) (2 ^ Z.of_nat w)) (Z.of_nat (S i))) in *. clearbody tl' th'.
    rewrite <- INR_IZR_INZ in S1, S2, S3.
    change (eterm i al * al / INR (S i)) with (eterm (S i) al) in S1.
    change (eterm i be * be / INR (S i)) with (eterm (S i) be) in S2, S3.
    rewrite dfi_add_log_num in E by reflexivity. cbn [dlo dhi dlog] in E.
    assert (S5 : eS (S i) al * T - 8 * INR (S i) <= IZR (sl + tl')) by (rewrite plus_IZR, S_INR; cbn [eS]; lra).
    assert (S6 : IZR (sh + th') <= eS (S i) be * T + 8 * INR (S i)) by (rewrite plus_IZR, S_INR; cbn [eS]; lra).
    destruct ((th' =? 1)%Z || (th' =? 0)%Z) eqn:B.
    + destruct (tl' =? 0)%Z; [|discriminate]. cbn [assert_then] in E. injection E as <-.
      exists (S i). cbn [dlo dhi dlog]. repeat split; try assumption; try lia. right.
      apply orb_true_iff in B. rewrite !Z.eqb_eq in B. assert (th' <= 1)%Z as B' by lia. apply IZR_le in B'. lra.
    + destruct (IH (S i) tl' th' (sl + tl')%Z (sh + th')%Z r S4 S1 (conj S3 S2) S5 S6 E) as (n & N1 & N2).
      exists n. replace (i + S left)%nat with (S i + left)%nat by lia. split; [assumption|exact N2].
Qed.

(** Once the two bounds of the term differ the assertion cannot fail. *)
Lemma step_strict tl th j : (1 <= j)%Z -> (0 <= tl < th)%Z -> (0 < b)%Z ->
  (tl * a / 2 ^ Z.of_nat w / j < cdiv (cdiv (th * b) (2 ^ Z.of_nat w)) j)%Z.
Proof.
  intros Hj Ht Hb. assert (Z0 : (0 < 2 ^ Z.of_nat w)%Z) by (apply Z.pow_pos_nonneg; lia).
  set (Z2 := (2 ^ Z.of_nat w)%Z) in *. clearbody Z2.
  assert (P : (0 <= tl * a < th * b)%Z) by nia.
  assert (Q2 : (tl * a / Z2 < cdiv (th * b) Z2)%Z).
  { unfold cdiv. pose proof (Z.mul_div_le (tl * a) Z2 Z0). pose proof (Z.mul_div_le (- (th * b)) Z2 Z0). nia. }
  set (u := (tl * a / Z2)%Z) in *. set (v := cdiv (th * b) Z2) in *. clearbody u v.
  unfold cdiv. pose proof (Z.mul_div_le u j ltac:(lia)). pose proof (Z.mul_div_le (- v) j ltac:(lia)). nia.
Qed.

Lemma exp_loop_total left : forall i tl th sl sh, (1 <= i)%nat -> (0 <= tl < th)%Z -> (0 < b)%Z ->
  exists r, exp_loop left i (DFI x y w) (DFI tl th w) (DFI sl sh w) = Ret r.
Proof.
  induction left as [|left IH]; intros i tl th sl sh Hi Ht Hb; cbn [exp_loop]; [eexists; reflexivity|].
  rewrite (exp_step tl th a b x y w) by (assumption || lia). cbn [rbind dlo dhi].
  pose proof (step_order tl th (Z.of_nat i) ltac:(lia) ltac:(lia)) as S4.
  pose proof (step_strict tl th (Z.of_nat i) ltac:(lia) Ht Hb) as S5.
  set (tl' := (tl * a / 2 ^ Z.of_nat w / Z.of_nat i)%Z) in *.
  set (th' := cdiv (cdiv (th * b) (2 ^ Z.of_nat w)) (Z.of_nat i)) in *. clearbody tl' th'.
  rewrite dfi_add_log_num by reflexivity. cbn [dlo dhi dlog].
  destruct ((th' =? 1)%Z || (th' =? 0)%Z) eqn:B.
  - apply orb_true_iff in B. rewrite !Z.eqb_eq in B. replace (tl' =? 0)%Z with true by (symmetry; apply Z.eqb_eq; lia).
    eexists; reflexivity.
  - apply IH; lia.
Qed.

Lemma one_first : forall v, (v * 2 ^ Z.of_nat w / 2 ^ Z.of_nat w = v /\ cdiv (v * 2 ^ Z.of_nat w) (2 ^ Z.of_nat w) = v)%Z.
Proof.
  intros v. assert (Z0 : (0 < 2 ^ Z.of_nat w)%Z) by (apply Z.pow_pos_nonneg; lia). unfold cdiv.
  rewrite <- Z.mul_opp_l, !Z.div_mul by lia. lia.
Qed.
Lemma cdiv_1 v : cdiv v 1 = v. Proof. unfold cdiv. rewrite Z.div_1_r. lia. Qed.

Lemma dfi_one_num : dfi_one w = DFI (2 ^ Z.of_nat w) (2 ^ Z.of_nat w) w.
Proof. unfold dfi_one, dfi_from_int, dfi_from_dyadic_fraction. rewrite shl_mul, Z.mul_1_l. reflexivity. Qed.

(** The first iteration starts from the exact term. *)
Lemma exp_loop_first left : exp_loop (S left) 1 (DFI x y w) (dfi_one w) (dfi_one w) =
  if ((b =? 1)%Z || (b =? 0)%Z) then assert_then (a =? 0)%Z (Ret (DFI (2 ^ Z.of_nat w + a) (2 ^ Z.of_nat w + b) w))
  else exp_loop left 2 (DFI x y w) (DFI a b w) (DFI (2 ^ Z.of_nat w + a) (2 ^ Z.of_nat w + b) w).
Proof.
  cbn [exp_loop]. rewrite dfi_one_num. assert (Z0 : (0 < 2 ^ Z.of_nat w)%Z) by (apply Z.pow_pos_nonneg; lia).
  rewrite (exp_step _ _ a b x y w) by (assumption || lia). cbn [rbind dlo dhi]. change (Z.of_nat 1) with 1%Z.
  rewrite !(Z.mul_comm (2 ^ Z.of_nat w)), Z.div_1_r, cdiv_1, !(proj1 (one_first _)), !(proj2 (one_first _)).
  rewrite dfi_add_log_num by reflexivity. cbn [dlo dhi dlog]. reflexivity.
Qed.

Lemma exp_loop_total1 left : (a < b)%Z -> exists r, exp_loop left 1 (DFI x y w) (dfi_one w) (dfi_one w) = Ret r.
Proof.
  intros H. destruct left as [|left]; [eexists; reflexivity|]. rewrite exp_loop_first.
  destruct ((b =? 1)%Z || (b =? 0)%Z) eqn:B.
  - apply orb_true_iff in B. rewrite !Z.eqb_eq in B. replace (a =? 0)%Z with true by (symmetry; apply Z.eqb_eq; lia).
    eexists; reflexivity.
  - apply exp_loop_total; lia.
Qed.

Lemma eterm_mono n : eterm n al <= eterm n be.
Proof.
  rewrite !eterm_pow. apply Rmult_le_compat_r; [left; apply Rinv_0_lt_compat, INR_fact_lt_0|]. apply pow_incr, al_be.
Qed.
Lemma eterm_dec n v : 0 <= v <= 1 -> eterm (S n) v <= eterm n v.
Proof.
  intros Hv. cbn [eterm]. assert (1 <= INR (S n)) by (rewrite S_INR; pose proof (pos_INR n); lra).
  pose proof (eterm_nonneg n v ltac:(lra)) as N.
  apply mul_le_inv with (INR (S n)); [lra|]. unfold Rdiv. rewrite Rmult_assoc, Rinv_l by lra. nra.
Qed.

(** What the loop computes, in units of the last place. *)
Lemma exp_loop_value r : (4 <= w)%nat ->
  exp_loop (w - 1) 1 (DFI x y w) (dfi_one w) (dfi_one w) = Ret r ->
  dlog r = w /\ exp al * T - 3 - 8 * INR w <= IZR (dlo r) /\ IZR (dhi r) <= exp be * T + 8 * INR w.
Proof.
  intros W4 E. rewrite dfi_one_num in E. pose proof (p2_pos w) as P. fold T in P.
  assert (Z0 : (0 < 2 ^ Z.of_nat w)%Z) by (apply Z.pow_pos_nonneg; lia).
  assert (EZ : IZR (2 ^ Z.of_nat w) = T) by apply IZR_p2.
  destruct (exp_loop_near (w - 1) 0 (2 ^ Z.of_nat w) (2 ^ Z.of_nat w) (2 ^ Z.of_nat w) (2 ^ Z.of_nat w) r) as (n & N1 & N2 & N3 & N4 & N5);
    try assumption; try lia; try (rewrite EZ; cbn [eterm eS INR]; lra).
  split; [assumption|]. destruct al_be as [A0 A1].
  assert (Hn : INR n <= INR w) by (apply le_INR; lia).
  assert (Tail : eterm (S n) al * T <= 1).
  { destruct N5 as [->|N5].
    - replace (S (0 + (w - 1))) with ((w - 4) + 4)%nat by lia. pose proof (eterm_small (w - 4) al ltac:(lra)) as ES.
      replace ((w - 4) + 4)%nat with w in * by lia. rewrite inv_p2 in ES. fold T in ES.
      apply Rle_trans with (/ T * T); [apply Rmult_le_compat_r; lra|]. rewrite Rinv_l; lra.
    - apply Rle_trans with (eterm n be * T); [|assumption]. apply Rmult_le_compat_r; [lra|].
      apply Rle_trans with (eterm n al); [apply eterm_dec; lra|apply eterm_mono]. }
  pose proof (exp_le_eS n al ltac:(lra)) as X1. pose proof (eS_le_exp n be ltac:(lra)) as X2.
  assert (exp al * T <= (eS n al + 3 * eterm (S n) al) * T) by (apply Rmult_le_compat_r; lra).
  assert (eS n be * T <= exp be * T) by (apply Rmult_le_compat_r; lra).
  split; lra.
Qed.
End L.

(** * The exponential up to its loop *)
Lemma extra_bits_R d v short : ln2_ok (d + 10) short -> exists e1, 
  (dyadic v (d + 10) <= 2 ^ 60 -> exp_extra_bits (dlo short) v = Ret e1) /\
  (dyadic v (d + 10) <= 0 -> e1 = 0%nat) /\
  (0 <= dyadic v (d + 10) -> INR e1 <= 5 / 3 * (dyadic v (d + 10) * (1 + / 100))) /\ dyadic v (d + 10) < (INR e1 + 1) * ln 2.
Proof.
  intros Hs. destruct (ln2_ok_bounds _ _ Hs) as [[S1 S2] _]. pose proof ln2_lower as LL. pose proof ln2_upper as LU.
  pose proof (p2_pos (d + 10)) as P.
  assert (H4 : 1024 <= 2 ^ (d + 10)) by (pose proof (p2_mono 10 (d + 10) ltac:(lia)) as M; cbn [pow] in M; lra).
  assert (H5 : 3 / 2 ^ (d + 10) <= 3 / 1024).
  { unfold Rdiv. apply Rmult_le_compat_l; [lra|]. apply Rinv_le_contravar; lra. }
  assert (Ss : (0 < dlo short)%Z).
  { apply lt_IZR. rewrite <- (dyadic_mul (dlo short) (d + 10)). apply Rmult_lt_0_compat; lra. }
  unfold exp_extra_bits. destruct (Z.ltb_spec 0 v) as [V|V].
  - destruct (divmod_R v (dlo short) (d + 10) Ss) as [Q1 Q2].
    set (q := (v / dlo short)%Z) in *. assert (Q0 : (0 <= q)%Z) by (apply Z.div_pos; lia).
    exists (Z.to_nat q). assert (Eq : INR (Z.to_nat q) = IZR q) by (rewrite INR_IZR_INZ, Z2Nat.id by assumption; reflexivity).
    rewrite Eq. apply IZR_le in Q0 as Q0'.
    assert (Vp : 0 < dyadic v (d + 10)) by (unfold dyadic; apply Rmult_lt_0_compat; [apply (IZR_lt 0); assumption|apply Rinv_0_lt_compat; assumption]).
    assert (Up : IZR q <= 5 / 3 * (dyadic v (d + 10) * (1 + / 100))) by nra.
    repeat split.
    + intros B. unfold checked_div_floor. replace (dlo short =? 0)%Z with false by (symmetry; apply Z.eqb_neq; lia).
      cbn [rbind]. fold q. unfold to_usize. replace (0 <=? q)%Z with true by (symmetry; apply Z.leb_le; assumption).
      assert (Qb : (q <= 2 ^ 61)%Z).
      { apply le_IZR. replace (IZR (2 ^ 61)) with (2 * 2 ^ 60) by (rewrite <- (IZR_p2 60), <- mult_IZR; reflexivity). lra. }
      replace (q <=? usize_max)%Z with true by (symmetry; apply Z.leb_le; change usize_max with (2 ^ 64 - 1)%Z; lia).
      reflexivity.
    + intros B. lra.
    + intros _. exact Up.
    + rewrite Q1. nra.
  - exists 0%nat. apply IZR_le in V. 
    assert (Vn : dyadic v (d + 10) <= 0) by (apply dyadic_le_iff; lra).
    repeat split; cbn [INR]; intros; try reflexivity; lra.
Qed.

Lemma exp_frame ln2 i : (forall n, exists l, ln2 n = Ret l /\ ln2_ok n l) -> dfi_ok i ->
  let d := dlog i in let lo := dyadic (dlo i) d in let up := dyadic (dhi i) d in
  (Z.of_nat d <= 2 ^ 60)%Z -> up <= 2 ^ 60 ->
  exists e w l2 i2, w = (d + 32 + 2 * Nat.log2 (d + 1) + e)%nat /\ (Z.of_nat w <= usize_max)%Z /\
    (up <= 0 -> e = 0%nat) /\ (0 <= up -> INR e <= 2 * up) /\ up < (INR e + 1) * ln 2 /\
    ln2_ok w l2 /\ (0 < dlo l2)%Z /\ (0 < dhi l2)%Z /\ dyadic (dlo i2) w = lo /\ dyadic (dhi i2) w = up /\
    dfi_exp ln2 i = (retval <- exp_loop (w - 1) 1 (DFI (dlo i2 mod dhi l2) (dhi i2 mod dlo l2) w) (dfi_one w) (dfi_one w) ;;
      lo <- exp_shift_lower (dlo i2 / dhi l2) (dlo retval) ;;
      hi <- exp_shift_upper (dhi i2 / dlo l2) (dhi retval) ;;
      Ret (dfi_convert (DFI lo hi w) d))%res.
Proof.
  intros H2 Ok d lo up Hd Hup. unfold dfi_exp. fold d.
  set (i1 := dfi_convert i (d + 10)). change (dlog i1) with (d + 10)%nat.
  destruct (dfi_convert_up_exact i (d + 10) ltac:(fold d; lia)) as [A1 A2]. fold i1 d lo up in A1, A2.
  destruct (H2 (d + 10)%nat) as (short & Es & Hshort). rewrite Es; cbn [rbind].
  assert (LU : lo <= up) by (apply dyadic_le; exact Ok).
  destruct (extra_bits_R d (dlo i1) short Hshort) as (e1 & X1 & X2 & X3 & X4). rewrite A1 in *.
  destruct (extra_bits_R d (dhi i1) short Hshort) as (e2 & Y1 & Y2 & Y3 & Y4). rewrite A2 in *.
  rewrite X1 by lra. cbn [rbind]. rewrite Y1 by lra. cbn [rbind].
  set (w := (d + 32 + usize_floor_log2 (d + 1) * 2 + Nat.max e1 e2)%nat).
  pose proof ln2_lower as L6. pose proof ln2_upper as L7.
  assert (M1 : up <= 0 -> Nat.max e1 e2 = 0%nat) by (intros N; rewrite X2, Y2 by lra; reflexivity).
  assert (M2 : 0 <= up -> INR (Nat.max e1 e2) <= 2 * up).
  { intros N. destruct (Nat.max_spec e1 e2) as [[_ ->]|[_ ->]].
    - specialize (Y3 N). lra.
    - destruct (Rle_lt_dec lo 0) as [C|C]; [rewrite (X2 C); cbn; lra|specialize (X3 ltac:(lra)); lra]. }
  assert (M3 : up < (INR (Nat.max e1 e2) + 1) * ln 2).
  { assert (INR e2 <= INR (Nat.max e1 e2)) by (apply le_INR; lia). nra. }
  assert (Hw : (Z.of_nat w <= usize_max)%Z).
  { assert (LG : (Nat.log2 (d + 1) <= d)%nat) by (pose proof (Nat.log2_lt_lin (d + 1) ltac:(lia)); lia).
    assert (EM : (Z.of_nat (Nat.max e1 e2) <= 2 ^ 61)%Z).
    { apply le_IZR. rewrite <- INR_IZR_INZ. replace (IZR (2 ^ 61)) with (2 * 2 ^ 60) by (rewrite <- (IZR_p2 60), <- mult_IZR; reflexivity).
      destruct (Rle_lt_dec up 0) as [C|C]; [rewrite (M1 C); cbn [INR]; pose proof (p2_pos 60); lra|specialize (M2 ltac:(lra)); lra]. }
    change usize_max with (2 ^ 64 - 1)%Z. unfold w, usize_floor_log2. 
    assert (Z.of_nat (d + 32 + Nat.log2 (d + 1) * 2 + Nat.max e1 e2) <= 3 * Z.of_nat d + 32 + Z.of_nat (Nat.max e1 e2))%Z by lia.
    lia. }
  replace (Z.of_nat w <=? usize_max)%Z with true by (symmetry; apply Z.leb_le; exact Hw). cbn [assert_then].
  set (i2 := dfi_convert i1 w).
  destruct (dfi_convert_up_exact i1 w ltac:(change (dlog i1) with (d + 10)%nat; unfold w; lia)) as [B1 B2].
  change (dlog i1) with (d + 10)%nat in B1, B2. fold i2 in B1, B2. rewrite A1 in B1. rewrite A2 in B2.
  destruct (H2 w) as (l2 & El2 & Hl2). rewrite El2; cbn [rbind].
  destruct (ln2_ok_bounds w l2 Hl2) as [[Ll1 Ll2] [Lh1 Lh2]].
  pose proof (small_p2 w ltac:(unfold w; lia)) as Sm. pose proof (p2_pos w) as P.
  assert (Plo : (0 < dlo l2)%Z).
  { apply lt_IZR. rewrite <- (dyadic_mul (dlo l2) w). apply Rmult_lt_0_compat; [|assumption]. unfold Rdiv in *. lra. }
  assert (Phi : (0 < dhi l2)%Z).
  { apply lt_IZR. rewrite <- (dyadic_mul (dhi l2) w). apply Rmult_lt_0_compat; [|assumption]. lra. }
  unfold checked_div_floor, checked_mod_floor.
  replace (dlo l2 =? 0)%Z with false by (symmetry; apply Z.eqb_neq; lia).
  replace (dhi l2 =? 0)%Z with false by (symmetry; apply Z.eqb_neq; lia). cbn [rbind].
  exists (Nat.max e1 e2), w, l2, i2. repeat match goal with |- _ /\ _ => split end; try assumption; try reflexivity.
  unfold w, usize_floor_log2. lia.
Qed.

Lemma to_usize_small k : (Z.abs k <= 2 ^ 61)%Z -> to_usize (Z.abs k) = Some (Z.to_nat (Z.abs k)).
Proof.
  intros H. unfold to_usize. replace (0 <=? Z.abs k)%Z with true by (symmetry; apply Z.leb_le; lia).
  replace (Z.abs k <=? usize_max)%Z with true by (symmetry; apply Z.leb_le; change usize_max with (2 ^ 64 - 1)%Z; lia).
  reflexivity.
Qed.

Lemma shift_k k : (if (k <? 0)%Z then powerRZ 2 k = / 2 ^ Z.to_nat (Z.abs k) else powerRZ 2 k = 2 ^ Z.to_nat (Z.abs k)).
Proof.
  destruct (Z.ltb_spec k 0).
  - rewrite <- powerRZ_neg_nat. f_equal. lia.
  - rewrite <- powerRZ_nat. f_equal. lia.
Qed.

Lemma exp_shift_lower_near k v w : (Z.abs k <= 2 ^ 61)%Z -> exists lo, exp_shift_lower k v = Ret lo /\
  dyadic v w * powerRZ 2 k - / 2 ^ w <= dyadic lo w <= dyadic v w * powerRZ 2 k.
Proof.
  intros H. unfold exp_shift_lower. rewrite to_usize_small by assumption. eexists; split; [reflexivity|].
  pose proof (p2_pos w) as P. assert (P' : 0 < / 2 ^ w) by (apply Rinv_0_lt_compat; assumption).
  pose proof (shift_k k) as K. set (s := Z.to_nat (Z.abs k)) in *. pose proof (p2_pos s) as Ps.
  destruct (Z.ltb_spec k 0); rewrite K.
  - pose proof (dyadic_shr_le v w s). split; [|assumption].
    pose proof (shr_R v s) as [_ S]. unfold dyadic.
    apply mul_le_inv with (2 ^ w * 2 ^ s); [apply Rmult_lt_0_compat; assumption|].
    replace ((IZR v / 2 ^ w * / 2 ^ s - / 2 ^ w) * (2 ^ w * 2 ^ s)) with (IZR v - 2 ^ s) by (field; lra).
    replace (IZR (shr v s) / 2 ^ w * (2 ^ w * 2 ^ s)) with (IZR (shr v s) * 2 ^ s) by (field; lra). lra.
  - rewrite dyadic_shl_mul. lra.
Qed.
Lemma exp_shift_upper_near k v w : (Z.abs k <= 2 ^ 61)%Z -> exists hi, exp_shift_upper k v = Ret hi /\
  dyadic v w * powerRZ 2 k <= dyadic hi w <= dyadic v w * powerRZ 2 k + / 2 ^ w.
Proof.
  intros H. unfold exp_shift_upper. rewrite to_usize_small by assumption. eexists; split; [reflexivity|].
  pose proof (p2_pos w) as P. assert (P' : 0 < / 2 ^ w) by (apply Rinv_0_lt_compat; assumption).
  pose proof (shift_k k) as K. set (s := Z.to_nat (Z.abs k)) in *. pose proof (p2_pos s) as Ps.
  destruct (Z.ltb_spec k 0); rewrite K.
  - pose proof (dyadic_shr_up_ge v w s). split; [assumption|].
    pose proof (shr_up_R v s) as [S _]. unfold dyadic.
    apply mul_le_inv with (2 ^ w * 2 ^ s); [apply Rmult_lt_0_compat; assumption|].
    replace ((IZR v / 2 ^ w * / 2 ^ s + / 2 ^ w) * (2 ^ w * 2 ^ s)) with (IZR v + 2 ^ s) by (field; lra).
    replace (IZR (shr_up v s) / 2 ^ w * (2 ^ w * 2 ^ s)) with (IZR (shr_up v s) * 2 ^ s) by (field; lra). lra.
  - rewrite dyadic_shl_mul. lra.
Qed.

Lemma div_of_R v L n k : (0 < L)%Z -> IZR k * dyadic L n <= dyadic v n < (IZR k + 1) * dyadic L n -> (v / L = k)%Z.
Proof.
  intros HL [H1 H2]. destruct (divmod_R v L n HL) as [E B]. set (q := (v / L)%Z) in *.
  assert (PL : 0 < dyadic L n) by lra.
  assert (A : IZR q < IZR k + 1) by (apply Rmult_lt_reg_r with (dyadic L n); lra).
  assert (C : IZR k < IZR q + 1) by (apply Rmult_lt_reg_r with (dyadic L n); lra).
  rewrite <- plus_IZR in A, C. apply lt_IZR in A, C. lia.
Qed.

Lemma exp_small_up t : 0 <= t <= 3 / 4 -> exp t <= 1 + 4 * t.
Proof.
  intros H. pose proof (exp_ineq1_le (- t)) as I. rewrite exp_Ropp in I. pose proof (exp_pos t) as P.
  assert (X : exp t * (1 - t) <= 1).
  { apply Rle_trans with (exp t * / exp t); [apply Rmult_le_compat_l; lra|rewrite Rinv_r; lra]. }
  nra.
Qed.

Lemma err_size A g h : h = 67108864 -> 0 <= A -> 1 <= g -> 40 * A + 284 + 32 * g <= (h + A) * 64 * (g * g).
Proof.
  intros Hh HA HG. assert (G2 : g <= g * g) by (rewrite <- (Rmult_1_l g) at 1; apply Rmult_le_compat_r; lra).
  assert ((h + A) * 64 * g <= (h + A) * 64 * (g * g)) by (apply Rmult_le_compat_l; lra).
  assert (A * 64 * 1 <= A * 64 * g) by (apply Rmult_le_compat_l; lra). rewrite Hh in *. lra.
Qed.

(** Everything in one binade. *)
Section Binade.
Variables (ln2 : nat -> res dfi) (i : dfi) (k : Z).
Hypothesis H2 : forall n, exists l, ln2 n = Ret l /\ ln2_ok n l.
Hypothesis Ok : dfi_ok i.
Let d := dlog i.
Let lo := dyadic (dlo i) d.
Let up := dyadic (dhi i) d.
Hypothesis Hd : (Z.of_nat d <= 2 ^ 60)%Z.
Hypothesis Hk : (Z.abs k < 2 ^ 60)%Z.
Hypothesis Hlo : IZR k * ln 2 + 3 * Rabs (IZR k) / 2 ^ (d + 32) <= lo.
Hypothesis Hup : up < (IZR k + 1) * ln 2 - 3 * Rabs (IZR k + 1) / 2 ^ (d + 32).

Lemma up_60 : up <= 2 ^ 60.
Proof.
  pose proof ln2_lower as L6. pose proof ln2_upper as L7. pose proof (Rabs_pos (IZR k + 1)) as A0.
  assert (A1 : 0 <= 3 * Rabs (IZR k + 1) / 2 ^ (d + 32)).
  { apply Rmult_le_pos; [lra|]. left. apply Rinv_0_lt_compat, p2_pos. }
  assert (K : IZR k + 1 <= 2 ^ 60).
  { replace (IZR k + 1) with (IZR (k + 1)) by (rewrite plus_IZR; reflexivity). rewrite <- IZR_p2. apply IZR_le.
    change (Z.of_nat 60) with 60%Z. lia. }
  assert (K0 : 0 < 2 ^ 60) by apply p2_pos. destruct (Rle_lt_dec (IZR k + 1) 0); nra.
Qed.

Lemma binade_frame : exists e w l2 i2, w = (d + 32 + 2 * Nat.log2 (d + 1) + e)%nat /\
    (0 <= up -> INR e <= 2 * up) /\ INR e <= 2 * Rabs (IZR k) + 3 /\ powerRZ 2 k <= 2 ^ e /\
    let ml := (dlo i2 mod dhi l2)%Z in let mu := (dhi i2 mod dlo l2)%Z in
    ln2_ok w l2 /\ (0 <= ml)%Z /\ (0 <= mu)%Z /\
    dyadic (dlo i2) w = lo /\ dyadic (dhi i2) w = up /\
    lo = IZR k * dyadic (dhi l2) w + dyadic ml w /\ up = IZR k * dyadic (dlo l2) w + dyadic mu w /\
    dyadic ml w <= 3 / 4 /\ dyadic mu w <= 3 / 4 /\
    dfi_exp ln2 i = (retval <- exp_loop (w - 1) 1 (DFI ml mu w) (dfi_one w) (dfi_one w) ;;
      lo <- exp_shift_lower k (dlo retval) ;;
      hi <- exp_shift_upper k (dhi retval) ;;
      Ret (dfi_convert (DFI lo hi w) d))%res.
Proof.
  pose proof (exp_frame ln2 i H2 Ok Hd up_60) as F. cbv zeta in F. fold d in F. fold lo up in F.
  destruct F as (e & w & l2 & i2 & Ew & Hw & M1 & M2 & M3 & Hl2 & Plo & Phi & B1 & B2 & E).
  exists e, w, l2, i2. split; [exact Ew|].
  pose proof ln2_lower as L6. pose proof ln2_upper as L7.
  destruct (ln2_ok_bounds w l2 Hl2) as [[Ll1 Ll2] [Lh1 Lh2]].
  set (Ll := dyadic (dlo l2) w) in *. set (Lh := dyadic (dhi l2) w) in *.
  assert (Eps : 3 / 2 ^ w <= 3 / 2 ^ (d + 32)).
  { apply Rmult_le_compat_l; [lra|]. apply Rinv_le_contravar; [apply p2_pos|apply p2_mono; lia]. }
  set (eps := 3 / 2 ^ (d + 32)) in *.
  assert (Hlo' : IZR k * ln 2 + Rabs (IZR k) * eps <= lo) by (unfold eps, Rdiv in *; lra).
  assert (Hup' : up < (IZR k + 1) * ln 2 - Rabs (IZR k + 1) * eps) by (unfold eps, Rdiv in *; lra).
  assert (LU : lo <= up) by (apply dyadic_le; exact Ok).
  assert (E0 : 0 < 3 / 2 ^ w) by (apply Rmult_lt_0_compat; [lra|apply Rinv_0_lt_compat, p2_pos]).
  set (ew := 3 / 2 ^ w) in *.
  assert (Sm : ew <= 3 / 1000).
  { unfold ew, Rdiv. pose proof (small_p2 w ltac:(lia)). lra. }
  assert (Ak := Rabs_pos (IZR k)). assert (Ak1 := Rabs_pos (IZR k + 1)).
  assert (Abs : forall z t, 0 <= t <= eps -> - (Rabs z * eps) <= z * t <= Rabs z * eps).
  { intros z t Ht. unfold Rabs. destruct (Rcase_abs z); nra. }
  assert (X1 := Abs (IZR k) (Lh - ln 2) ltac:(lra)). assert (X2 := Abs (IZR k) (ln 2 - Ll) ltac:(lra)).
  assert (X3 := Abs (IZR k + 1) (Lh - ln 2) ltac:(lra)). assert (X4 := Abs (IZR k + 1) (ln 2 - Ll) ltac:(lra)).
  assert (DL : (dlo i2 / dhi l2 = k)%Z).
  { apply div_of_R with w; [assumption|]. fold Lh. rewrite B1. split; lra. }
  assert (DU : (dhi i2 / dlo l2 = k)%Z).
  { apply div_of_R with w; [assumption|]. fold Ll. rewrite B2. split; lra. }
  destruct (divmod_R (dlo i2) (dhi l2) w Phi) as [Q1 Q2]. destruct (divmod_R (dhi i2) (dlo l2) w Plo) as [Q3 Q4].
  fold Lh in Q1, Q2. fold Ll in Q3, Q4. rewrite DL, B1 in Q1. rewrite DU, B2 in Q3.
  assert (KE : (k <= Z.of_nat e)%Z).
  { assert (IZR k < INR e + 1).
    { apply Rmult_lt_reg_r with (ln 2); [lra|].
      assert (0 <= Rabs (IZR k) * eps) by (apply Rmult_le_pos; lra). lra. }
    rewrite INR_IZR_INZ, <- plus_IZR in H. apply lt_IZR in H. lia. }
  split; [exact M2|]. split.
  { destruct (Rle_lt_dec up 0) as [C|C].
    - rewrite (M1 C). cbn [INR]. lra.
    - specialize (M2 ltac:(lra)). assert (0 <= Rabs (IZR k + 1) * eps) by (apply Rmult_le_pos; lra).
      assert (Kp : 0 < IZR k + 1) by (apply Rmult_lt_reg_r with (ln 2); lra). pose proof (Rle_abs (IZR k)).
      assert ((IZR k + 1) * ln 2 <= (IZR k + 1) * (7 / 10)) by (apply Rmult_le_compat_l; lra). lra. }
  split.
  { destruct (Z.le_gt_cases 0 k) as [K|K].
    - replace k with (Z.of_nat (Z.to_nat k)) by lia. rewrite powerRZ_nat. apply p2_mono. lia.
    - pose proof (shift_k k) as Sk. replace (k <? 0)%Z with true in Sk by (symmetry; apply Z.ltb_lt; assumption). rewrite Sk.
      pose proof (p2_ge1 (Z.to_nat (Z.abs k))). pose proof (p2_ge1 e).
      apply Rle_trans with 1; [rewrite <- Rinv_1; apply Rinv_le_contravar; lra|assumption]. }
  cbv zeta. split; [assumption|]. split; [apply Z.mod_pos_bound; assumption|]. split; [apply Z.mod_pos_bound; assumption|].
  split; [assumption|]. split; [assumption|]. split; [exact Q1|]. split; [exact Q3|].
  split; [lra|]. split; [lra|]. rewrite E, DL, DU. reflexivity.
Qed.

Lemma mant_bound : 0 <= lo - IZR k * ln 2 /\ up - IZR k * ln 2 <= ln 2 /\ 3 * Rabs (IZR k) / 2 ^ (d + 32) <= 7 / 10.
Proof.
  pose proof (Rabs_pos (IZR k)). pose proof (Rabs_pos (IZR k + 1)).
  assert (P : 0 < / 2 ^ (d + 32)) by (apply Rinv_0_lt_compat, p2_pos). pose proof ln2_upper.
  assert (0 <= 3 * Rabs (IZR k) / 2 ^ (d + 32)) by (apply Rmult_le_pos; lra).
  assert (0 <= 3 * Rabs (IZR k + 1) / 2 ^ (d + 32)) by (apply Rmult_le_pos; lra).
  assert (lo <= up) by (apply dyadic_le; exact Ok). repeat split; lra.
Qed.

Lemma binade_precise r : dfi_exp ln2 i = Ret r -> dlog r = d /\
  exp lo - (2 + Rabs (IZR k) / 2 ^ 26) / 2 ^ d < dyadic (dlo r) d /\
  dyadic (dhi r) d < exp up + (2 + Rabs (IZR k) / 2 ^ 26) / 2 ^ d.
Proof.
  intros Er. destruct binade_frame as (e & w & l2 & i2 & Ew & _ & Ee & Pk & F). cbv zeta in F.
  destruct F as (Hl2 & Ml0 & Mu0 & _ & _ & Qlo & Qup & Ml1 & Mu1 & E).
  rewrite E in Er. clear E.
  set (ml := (dlo i2 mod dhi l2)%Z) in *. set (mu := (dhi i2 mod dlo l2)%Z) in *.
  destruct (exp_loop (w - 1) 1 (DFI ml mu w) (dfi_one w) (dfi_one w)) as [rv| |] eqn:Erv; try discriminate. cbn [rbind] in Er.
  destruct (exp_shift_lower_near k (dlo rv) w ltac:(lia)) as (vl & E1 & S1). rewrite E1 in Er; cbn [rbind] in Er.
  destruct (exp_shift_upper_near k (dhi rv) w ltac:(lia)) as (vu & E2 & S2). rewrite E2 in Er; cbn [rbind] in Er.
  injection Er as <-. split; [reflexivity|].
  set (a := Z.min ml mu). set (b := Z.max ml mu).
  assert (Hab : (0 <= a <= b)%Z) by (unfold a, b; lia).
  assert (Hxy : ml = a /\ mu = b \/ ml = b /\ mu = a) by (unfold a, b; lia).
  assert (Hb : dyadic b w <= 3 / 4) by (unfold b; destruct (Z.max_spec ml mu) as [[_ ->]|[_ ->]]; assumption).
  destruct (exp_loop_value w a b ml mu Hab Hxy Hb rv ltac:(lia) Erv) as (Lrv & V1 & V2).
  destruct (ln2_ok_bounds w l2 Hl2) as [[Ll1 Ll2] [Lh1 Lh2]].
  pose proof (p2_pos w) as P. pose proof (p2_pos d) as Pd. set (T := 2 ^ w) in *.
  assert (P' : 0 < / T) by (apply Rinv_0_lt_compat; assumption).
  set (K := IZR k) in *. set (A := Rabs K) in *. assert (A0 : 0 <= A) by apply Rabs_pos.
  (* residues *)
  assert (AA : forall t, 0 <= t <= 3 / T -> - (A * (3 / T)) <= K * t <= A * (3 / T)).
  { intros t Ht. unfold A, Rabs. destruct (Rcase_abs K); nra. }
  assert (R1 := AA (dyadic (dhi l2) w - ln 2) ltac:(lra)). assert (R2 := AA (ln 2 - dyadic (dlo l2) w) ltac:(lra)).
  assert (LU : lo <= up) by (apply dyadic_le; exact Ok).
  assert (Ra : lo - K * ln 2 - A * (3 / T) <= dyadic a w).
  { unfold a. destruct (Z.min_spec ml mu) as [[_ ->]|[_ ->]]; lra. }
  assert (Rb : dyadic b w <= up - K * ln 2 + A * (3 / T)).
  { unfold b. destruct (Z.max_spec ml mu) as [[_ ->]|[_ ->]]; lra. }
  destruct mant_bound as (B1 & B2 & B3). fold K in B1, B2, B3. fold A in B3.
  assert (Tw : / T <= / 2 ^ (d + 32)) by (apply Rinv_le_contravar; [apply p2_pos|apply p2_mono; lia]).
  set (t := A * (3 / T)) in *.
  assert (Ht : 0 <= t <= 3 / 4).
  { unfold t, Rdiv in *. split; [apply Rmult_le_pos; lra|].
    assert (A * (3 * / T) <= A * (3 * / 2 ^ (d + 32))) by (apply Rmult_le_compat_l; lra). lra. }
  (* mantissas *)
  set (xl := exp (lo - K * ln 2)) in *. set (xu := exp (up - K * ln 2)) in *.
  assert (E2' : exp (ln 2) = 2) by (apply exp_ln; lra).
  assert (XL : 0 < xl <= 2) by (split; [apply exp_pos|]; rewrite <- E2'; apply exp_mono; lra).
  assert (XU : 0 < xu <= 2) by (split; [apply exp_pos|]; rewrite <- E2'; apply exp_mono; lra).
  assert (EA : xl - 2 * t <= exp (dyadic a w)).
  { apply Rle_trans with (exp ((lo - K * ln 2) + - t)); [|apply exp_mono; lra].
    rewrite exp_plus. fold xl. pose proof (exp_ineq1_le (- t)) as I. nra. }
  assert (EB : exp (dyadic b w) <= xu + 8 * t).
  { apply Rle_trans with (exp ((up - K * ln 2) + t)); [apply exp_mono; lra|].
    rewrite exp_plus. fold xu. pose proof (exp_small_up t Ht) as I. nra. }
  set (q := powerRZ 2 k) in *. assert (Q0 : 0 < q) by apply powerRZ_pos2.
  assert (XLq : xl * q = exp lo) by (unfold xl, q, K; rewrite <- exp_ln2, <- exp_plus; f_equal; ring).
  assert (XUq : xu * q = exp up) by (unfold xu, q, K; rewrite <- exp_ln2, <- exp_plus; f_equal; ring).
  set (W := INR w) in *.
  assert (V1' : xl - 2 * t - (3 + 8 * W) * / T <= dyadic (dlo rv) w).
  { apply mul_le_inv with T; [assumption|]. unfold T at 3. rewrite dyadic_mul. rewrite Rmult_minus_distr_r, Rmult_assoc, Rinv_l by lra.
    assert ((xl - 2 * t) * T <= exp (dyadic a w) * T) by (apply Rmult_le_compat_r; lra). lra. }
  assert (V2' : dyadic (dhi rv) w <= xu + 8 * t + 8 * W * / T).
  { apply mul_le_inv with T; [assumption|]. unfold T at 1. rewrite dyadic_mul. rewrite Rmult_plus_distr_r, Rmult_assoc, Rinv_l by lra.
    assert (exp (dyadic b w) * T <= (xu + 8 * t) * T) by (apply Rmult_le_compat_r; lra). lra. }
  assert (S1' : exp lo - (2 * t + (3 + 8 * W) * / T) * q - / T <= dyadic vl w).
  { assert ((xl - 2 * t - (3 + 8 * W) * / T) * q <= dyadic (dlo rv) w * q) by (apply Rmult_le_compat_r; lra). lra. }
  assert (S2' : dyadic vu w <= exp up + (8 * t + 8 * W * / T) * q + / T).
  { assert (dyadic (dhi rv) w * q <= (xu + 8 * t + 8 * W * / T) * q) by (apply Rmult_le_compat_r; lra). lra. }
  (* size of the error *)
  set (lg := Nat.log2 (d + 1)) in *.
  set (g := 2 ^ lg). assert (G1 : 1 <= g) by apply p2_ge1.
  assert (ET : T = 2 ^ d * 2 ^ 32 * (g * g) * 2 ^ e).
  { unfold T, g. rewrite Ew, !pow_add. replace (2 * lg)%nat with (lg + lg)%nat by lia. rewrite pow_add. ring. }
  set (h := 2 ^ 26). assert (H26 : h = 67108864) by (unfold h; cbn; ring).
  assert (H32 : 2 ^ 32 = 64 * h) by (unfold h; cbn; ring).
  set (N := 2 ^ d) in *. set (E' := 2 ^ e) in *. assert (E1' : 1 <= E') by apply p2_ge1.
  assert (DW : W <= 2 * g + 32 + 2 * g + 2 * A + 3).
  { unfold W. rewrite Ew, !plus_INR, mult_INR. 
    assert (D1 : INR (d + 1) < 2 * g).
    { pose proof (Nat.log2_spec (d + 1) ltac:(lia)) as [_ S]. apply lt_INR in S. rewrite pow_INR in S. cbn [pow] in S. exact S. }
    assert (D2 : INR lg <= g).
    { unfold g. clear. induction lg as [|l IH]; [cbn; lra|]. rewrite S_INR. cbn [pow]. pose proof (p2_ge1 l). lra. }
    rewrite plus_INR in D1. change (INR 1) with 1 in D1. replace (INR 32) with 32 by (cbn; ring). change (INR 2) with 2. 
    clear - D1 D2 Ee. lra. }
  assert (Err : (8 * t + (3 + 8 * W) * / T) * q + / T <= (1 + A / h) / N).
  { unfold t. apply mul_le_inv with (T * N); [apply Rmult_lt_0_compat; lra|].
    replace (((8 * (A * (3 / T)) + (3 + 8 * W) * / T) * q + / T) * (T * N)) with (((24 * A + 3 + 8 * W) * q + 1) * N) by (field; lra).
    replace ((1 + A / h) / N * (T * N)) with ((1 + A / h) * T) by (field; rewrite H26; lra).
    assert (X1 : (24 * A + 3 + 8 * W) * q + 1 <= (40 * A + 284 + 32 * g) * E').
    { assert (W0 : 0 <= W) by apply pos_INR.
      assert ((24 * A + 3 + 8 * W) * q <= (24 * A + 3 + 8 * W) * E') by (apply Rmult_le_compat_l; lra).
      assert ((24 * A + 4 + 8 * W) * E' <= (40 * A + 284 + 32 * g) * E') by (apply Rmult_le_compat_r; lra). lra. }
    assert (X2 : (40 * A + 284 + 32 * g) <= (h + A) * 64 * (g * g)) by (apply err_size; assumption).
    replace ((1 + A / h) * T) with ((h + A) * 64 * (g * g) * E' * N) by (rewrite ET, H32; field; rewrite H26; lra).
    apply Rmult_le_compat_r; [lra|]. apply Rle_trans with (1 := X1). apply Rmult_le_compat_r; lra. }
  pose proof (dfi_convert_ok (DFI vl vu w) d) as C. apply tightest_near in C. cbn [dlo dhi dlog] in C. destruct C as [[C1 _] [_ C2]].
  fold N in C1, C2. set (r' := dfi_convert (DFI vl vu w) d) in *.
  rewrite <- (dyadic_mul (dlo r') d) in C1. rewrite <- (dyadic_mul (dhi r') d) in C2. fold N in C1, C2.
  assert (P2 : 0 < / N) by (apply Rinv_0_lt_compat; assumption).
  assert (EN : (2 + A / h) / N = (1 + A / h) / N + / N) by (field; rewrite H26; lra).
  assert (D1 : dyadic vl w - / N < dyadic (dlo r') d).
  { apply Rmult_lt_reg_r with N; [assumption|]. rewrite Rmult_minus_distr_r, Rinv_l; lra. }
  assert (D2 : dyadic (dhi r') d < dyadic vu w + / N).
  { apply Rmult_lt_reg_r with N; [assumption|]. rewrite Rmult_plus_distr_r, Rinv_l; lra. }
  assert (W0 : 0 <= W) by apply pos_INR.
  assert (M1 : (2 * t + (3 + 8 * W) * / T) * q <= (8 * t + (3 + 8 * W) * / T) * q) by (apply Rmult_le_compat_r; lra).
  assert (M2 : (8 * t + 8 * W * / T) * q <= (8 * t + (3 + 8 * W) * / T) * q) by (apply Rmult_le_compat_r; lra).
  rewrite EN. lra.
Qed.
End Binade.
