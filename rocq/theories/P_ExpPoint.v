(** When the exponential of a single point returns: 3-adic argument. *)
From Coq Require Import ZArith Znumtheory Lia Bool List Factorial.
From Verif Require Import M_Base M_Traits M_Interval M_IntervalExp P_IntervalLog P_ExpTight.
Local Open Scope Z_scope.

Definition zfact (n : nat) : Z := Z.of_nat (fact n).
Lemma zfact_S n : zfact (S n) = Z.of_nat (S n) * zfact n.
Proof. unfold zfact. change (fact (S n)) with (S n * fact n)%nat. rewrite Nat2Z.inj_mul. reflexivity. Qed.
Lemma zfact_pos n : 0 < zfact n.
Proof. unfold zfact. pose proof (lt_O_fact n). lia. Qed.

Lemma prime3 : prime 3. Proof. exact prime_3. Qed.

Lemma n3_mul u v : ~ (3 | u) -> ~ (3 | v) -> ~ (3 | u * v).
Proof. intros A B H. apply prime_mult in H; [tauto|exact prime3]. Qed.

Lemma fact_3m m : exists u, zfact (3 * m) = 3 ^ Z.of_nat m * zfact m * u /\ ~ (3 | u).
Proof.
  induction m as [|m (u & E & N)].
  - exists 1. split; [reflexivity|]. intros [q Q]. lia.
  - exists ((3 * Z.of_nat m + 2) * ((3 * Z.of_nat m + 1) * u)). split.
    + replace (3 * S m)%nat with (S (S (S (3 * m)))) by lia. rewrite !zfact_S, E.
      rewrite (Nat2Z.inj_succ m), Z.pow_succ_r by lia.
      replace (Z.of_nat (S (S (S (3 * m))))) with (3 * (Z.of_nat m + 1)) by lia.
      replace (Z.of_nat (S (S (3 * m)))) with (3 * Z.of_nat m + 2) by lia.
      replace (Z.of_nat (S (3 * m))) with (3 * Z.of_nat m + 1) by lia. 
      replace (Z.succ (Z.of_nat m)) with (Z.of_nat m + 1) by lia. ring.
    + apply n3_mul; [intros [q Q]; lia|]. apply n3_mul; [intros [q Q]; lia|assumption].
Qed.

Lemma fact_split n : exists m u, (n = 3 * m \/ n = 3 * m + 1 \/ n = 3 * m + 2)%nat /\
  zfact n = 3 ^ Z.of_nat m * zfact m * u /\ ~ (3 | u).
Proof.
  assert (D : exists m, (n = 3 * m \/ n = 3 * m + 1 \/ n = 3 * m + 2)%nat).
  { exists (n / 3)%nat. pose proof (Nat.div_mod n 3 ltac:(lia)). pose proof (Nat.mod_upper_bound n 3 ltac:(lia)). lia. }
  destruct D as [m D]. destruct (fact_3m m) as (u & E & N). exists m. destruct D as [D|[D|D]].
  - exists u. subst n. auto.
  - exists ((3 * Z.of_nat m + 1) * u). split; [auto|]. split.
    + rewrite D. replace (3 * m + 1)%nat with (S (3 * m)) by lia. rewrite zfact_S, E.
      replace (Z.of_nat (S (3 * m))) with (3 * Z.of_nat m + 1) by lia. ring.
    + apply n3_mul; [intros [q Q]; lia|assumption].
  - exists ((3 * Z.of_nat m + 2) * ((3 * Z.of_nat m + 1) * u)). split; [auto|]. split.
    + rewrite D. replace (3 * m + 2)%nat with (S (S (3 * m))) by lia. rewrite !zfact_S, E.
      replace (Z.of_nat (S (3 * m))) with (3 * Z.of_nat m + 1) by lia.
      replace (Z.of_nat (S (S (3 * m)))) with (3 * Z.of_nat m + 2) by lia. ring.
    + apply n3_mul; [intros [q Q]; lia|]. apply n3_mul; [intros [q Q]; lia|assumption].
Qed.

Lemma rel3 k u : ~ (3 | u) -> rel_prime (3 ^ Z.of_nat k) u.
Proof.
  intros N. induction k as [|k IH].
  - change (3 ^ Z.of_nat 0) with 1. apply rel_prime_1.
  - rewrite Nat2Z.inj_succ, Z.pow_succ_r by lia. apply rel_prime_sym, rel_prime_mult; apply rel_prime_sym; [|assumption].
    apply prime_rel_prime; [exact prime3|assumption].
Qed.

Lemma pow3_fact n : (1 <= n)%nat -> ~ (3 ^ Z.of_nat n | zfact n).
Proof.
  induction n as [n IH] using lt_wf_ind. intros Hn H. destruct (fact_split n) as (m & u & D & E & N).
  destruct (Nat.eq_dec m 0) as [->|M].
  - assert (zfact n = u) by (rewrite E; change (zfact 0) with 1; change (Z.of_nat 0) with 0; rewrite Z.pow_0_r; ring).
    apply N. rewrite <- H0. apply Z.divide_trans with (3 ^ Z.of_nat n); [|assumption].
    replace (Z.of_nat n) with (Z.succ (Z.of_nat (n - 1))) by lia. rewrite Z.pow_succ_r by lia. apply Z.divide_factor_l.
  - apply (IH m ltac:(lia) ltac:(lia)).
    apply Z.divide_trans with (3 ^ Z.of_nat (n - m)).
    { replace (Z.of_nat (n - m)) with (Z.of_nat m + Z.of_nat (n - m - m)) by lia. rewrite Z.pow_add_r by lia. apply Z.divide_factor_l. }
    rewrite E in H. replace (Z.of_nat n) with (Z.of_nat m + Z.of_nat (n - m)) in H by lia. rewrite Z.pow_add_r in H by lia.
    rewrite <- Z.mul_assoc in H. apply Z.mul_divide_cancel_l in H; [|apply Z.pow_nonzero; lia].
    rewrite Z.mul_comm in H. eapply Gauss; [exact H|]. apply rel3. assumption.
Qed.

Lemma fact_div3 n : (3 <= n)%nat -> (3 | zfact n).
Proof.
  induction n as [|n IH]; intros H; [lia|]. rewrite zfact_S. destruct (Nat.eq_dec n 2) as [->|].
  - apply Z.divide_factor_l.
  - apply Z.divide_mul_r, IH. lia.
Qed.

Lemma no_power_fact c n m : (3 <= n)%nat -> c ^ Z.of_nat n = zfact n * 2 ^ Z.of_nat m -> False.
Proof.
  intros Hn E. assert (N2 : forall m, ~ (3 | 2 ^ Z.of_nat m)).
  { clear. induction m as [|m IH]; [intros [q Q]; change (2 ^ Z.of_nat 0) with 1 in Q; lia|].
    rewrite Nat2Z.inj_succ, Z.pow_succ_r by lia. apply n3_mul; [intros [q Q]; lia|assumption]. }
  assert (D : (3 | c ^ Z.of_nat n)) by (rewrite E; apply Z.divide_mul_l, fact_div3; assumption).
  assert (C : (3 | c)).
  { clear E Hn. induction n as [|n IH]; [destruct D as [q Q]; change (c ^ Z.of_nat 0) with 1 in Q; lia|].
    rewrite Nat2Z.inj_succ, Z.pow_succ_r in D by lia. apply prime_mult in D; [tauto|exact prime3]. }
  destruct C as [q ->]. apply (pow3_fact n ltac:(lia)). rewrite Z.pow_mul_l in E.
  assert (X : (3 ^ Z.of_nat n | 2 ^ Z.of_nat m * zfact n)) by (rewrite Z.mul_comm, <- E; apply Z.divide_factor_r).
  eapply Gauss; [exact X|]. apply rel3, N2.
Qed.

(** * The loop on a single point *)
Section Pt.
Variables (w : nat) (c : Z).
Hypothesis Hc : 2 <= c.
Let Z2 := 2 ^ Z.of_nat w.

Lemma Z2_pos : 0 < Z2. Proof. apply Z.pow_pos_nonneg; lia. Qed.

(** One step from an exact term: exact again, or the bounds separate. *)
Lemma point_step t j : 1 <= j -> 0 < t ->
  let tl := t * c / Z2 / j in let th := cdiv (cdiv (t * c) Z2) j in
  0 <= tl < th \/ (tl = th /\ t * c = Z2 * j * tl /\ 1 <= tl).
Proof.
  intros Hj Ht tl th. pose proof Z2_pos as P. assert (TC : 0 < t * c) by nia.
  assert (T0 : 0 <= tl) by (unfold tl; apply Z.div_pos; [apply Z.div_pos; lia|lia]).
  assert (A : j * Z2 * tl <= t * c).
  { unfold tl. rewrite Z.div_div by lia. pose proof (Z.mul_div_le (t * c) (Z2 * j) ltac:(nia)). lia. }
  assert (B : t * c <= j * Z2 * th).
  { unfold th, cdiv. rewrite Z.opp_involutive, Z.div_div by lia. pose proof (Z.mul_div_le (- (t * c)) (Z2 * j) ltac:(nia)). lia. }
  clearbody tl th. assert (J : 0 < j * Z2) by nia.
  destruct (Z.lt_trichotomy tl th) as [L|[L|L]]; [left; lia| |nia].
  right. subst th. split; [reflexivity|]. split; nia.
Qed.

Lemma point_loop left : forall i t sl sh, (2 <= i)%nat -> 2 <= t -> c ^ Z.of_nat i = zfact i * 2 ^ Z.of_nat (w * (i - 1)) * t ->
  exists r, exp_loop left (S i) (DFI c c w) (DFI t t w) (DFI sl sh w) = Ret r.
Proof.
  induction left as [|left IH]; intros i t sl sh Hi Ht E; cbn [exp_loop]; [eexists; reflexivity|].
  rewrite (exp_step t t c c c c w) by lia. cbn [rbind dlo dhi].
  pose proof (point_step t (Z.of_nat (S i)) ltac:(lia) ltac:(lia)) as St. cbv zeta in St. fold Z2.
  set (tl := t * c / Z2 / Z.of_nat (S i)) in *. set (th := cdiv (cdiv (t * c) Z2) (Z.of_nat (S i))) in *. clearbody tl th.
  rewrite dfi_add_log_num by reflexivity. cbn [dlo dhi dlog].
  destruct St as [St|(<- & St & T1)].
  - destruct ((th =? 1) || (th =? 0)) eqn:B.
    + apply orb_true_iff in B. rewrite !Z.eqb_eq in B. replace (tl =? 0) with true by (symmetry; apply Z.eqb_eq; lia).
      eexists; reflexivity.
    + apply (exp_loop_total w c c c c); lia.
  - assert (E' : c ^ Z.of_nat (S i) = zfact (S i) * 2 ^ Z.of_nat (w * (S i - 1)) * tl).
    { rewrite Nat2Z.inj_succ, Z.pow_succ_r, E, zfact_S by lia.
      replace (w * (S i - 1))%nat with (w + w * (i - 1))%nat by nia. rewrite Nat2Z.inj_add, Z.pow_add_r by apply Nat2Z.is_nonneg. fold Z2.
      rewrite Nat2Z.inj_succ in St.
      replace (c * (zfact i * 2 ^ Z.of_nat (w * (i - 1)) * t)) with (zfact i * 2 ^ Z.of_nat (w * (i - 1)) * (t * c)) by ring.
      rewrite St, Nat2Z.inj_succ. ring. }
    assert (tl <> 1).
    { intros ->. apply (no_power_fact c (S i) (w * (S i - 1)) ltac:(lia)). rewrite E'. ring. }
    replace ((tl =? 1) || (tl =? 0)) with false by (symmetry; apply orb_false_iff; rewrite !Z.eqb_neq; lia).
    apply IH; [lia|lia|exact E'].
Qed.

Lemma point_exp left : (exp_loop (S (S left)) 1 (DFI c c w) (dfi_one w) (dfi_one w) = Panic /\ c * c = 2 * Z2) \/
  (exists r, exp_loop (S (S left)) 1 (DFI c c w) (dfi_one w) (dfi_one w) = Ret r /\ c * c <> 2 * Z2).
Proof.
  rewrite (exp_loop_first w c c c c) by lia.
  replace ((c =? 1) || (c =? 0)) with false by (symmetry; apply orb_false_iff; rewrite !Z.eqb_neq; lia).
  cbn [exp_loop]. rewrite (exp_step c c c c c c w) by lia. cbn [rbind dlo dhi].
  pose proof (point_step c (Z.of_nat 2) ltac:(lia) ltac:(lia)) as St. cbv zeta in St. fold Z2.
  change (Z.of_nat 2) with 2 in *.
  set (tl := c * c / Z2 / 2) in *. set (th := cdiv (cdiv (c * c) Z2) 2) in *.
  assert (TL : c * c = 2 * Z2 -> tl = 1 /\ th = 1).
  { intros X. unfold tl, th, cdiv. rewrite X, Z.opp_involutive, !Z.div_div by (pose proof Z2_pos; lia). pose proof Z2_pos.
    replace (2 * Z2) with (1 * (Z2 * 2)) by ring. rewrite <- Z.mul_opp_l, !Z.div_mul by lia. lia. }
  clearbody tl th. rewrite dfi_add_log_num by reflexivity. cbn [dlo dhi dlog].
  destruct St as [St|(<- & St & T1)].
  - right. assert (NE : c * c <> 2 * Z2) by (intros X; destruct (TL X); lia).
    destruct ((th =? 1) || (th =? 0)) eqn:B.
    + apply orb_true_iff in B. rewrite !Z.eqb_eq in B. replace (tl =? 0) with true by (symmetry; apply Z.eqb_eq; lia).
      eexists; split; [reflexivity|assumption].
    + destruct (exp_loop_total w c c c c ltac:(lia) ltac:(lia) left 3 tl th (Z2 + c + tl) (Z2 + c + th) ltac:(lia) St ltac:(lia)) as [r R].
      exists r. split; [exact R|assumption].
  - destruct (Z.eq_dec tl 1) as [->|N].
    + left. split; [reflexivity|]. rewrite St. ring.
    + right. replace ((tl =? 1) || (tl =? 0)) with false by (symmetry; apply orb_false_iff; rewrite !Z.eqb_neq; lia).
      assert (NE : c * c <> 2 * Z2) by (intros X; destruct (TL X); lia).
      destruct (point_loop left 2 tl (Z2 + c + tl) (Z2 + c + tl) ltac:(lia) ltac:(lia)) as [r R].
      { change (zfact 2) with 2. replace (w * (2 - 1))%nat with w by lia. fold Z2. change (Z.of_nat 2) with 2. rewrite Z.pow_2_r, St. ring. }
      exists r. split; [exact R|assumption].
Qed.
End Pt.
