(** Partial sums of the series used by the logarithm, with explicit tails. *)
From Coq Require Import Reals Lra Lia List.
From Coquelicot Require Import Coquelicot.
Local Open Scope R_scope.

(** A function with non-negative derivative on [0,t] does not decrease. *)
Lemma nonneg_deriv (f f' : R -> R) t : 0 <= t ->
  (forall x, 0 <= x <= t -> is_derive f x (f' x)) ->
  (forall x, 0 <= x <= t -> 0 <= f' x) -> f 0 <= f t.
Proof.
  intros Ht D P. destruct Ht as [Ht|Ht]; [|subst; lra].
  destruct (MVT_cor2 f f' 0 t Ht) as (c & E & Hc).
  { intros c Hc. apply is_derive_Reals. apply D. lra. }
  assert (0 <= f' c) by (apply P; lra). nra.
Qed.

(** sum_{1<=i<=n} t^i / i *)
Fixpoint lnS (n : nat) (t : R) : R :=
  match n with O => 0 | S n' => lnS n' t + t ^ S n' / INR (S n') end.
Fixpoint geom (n : nat) (t : R) : R :=
  match n with O => 0 | S n' => geom n' t + t ^ n' end.
Lemma geom_eq n t : (1 - t) * geom n t = 1 - t ^ n.
Proof. induction n as [|n IH]; cbn [geom pow]; [ring|]. rewrite Rmult_plus_distr_l, IH. ring. Qed.
Lemma lnS_derive n t : is_derive (lnS n) t (geom n t).
Proof.
  induction n as [|n IH]; cbn [lnS geom].
  - apply is_derive_Reals, derivable_pt_lim_const.
  - apply (is_derive_plus (lnS n) (fun t => t ^ S n / INR (S n)) t (geom n t) (t ^ n)); [exact IH|].
    auto_derive; [trivial|]. rewrite Nat.pred_succ || idtac.
    assert (INR (S n) <> 0) by (apply not_0_INR; discriminate).
    change (match n with 0%nat => 1 | S _ => INR n + 1 end) with (INR (S n)). 
    cbn [Init.Nat.pred]. field. assumption.
Qed.

Lemma ln_minus_derive x : x < 1 -> is_derive (fun t => - ln (1 - t)) x (/ (1 - x)).
Proof. intros H. auto_derive; [lra|]. field. lra. Qed.

Lemma lnS_0 n : lnS n 0 = 0.
Proof. induction n as [|n IH]; cbn [lnS]; [reflexivity|]. rewrite IH, pow_i by lia. unfold Rdiv. ring. Qed.

Lemma lnS_bounds n t : 0 <= t <= 1 / 2 ->
  lnS n t <= - ln (1 - t) <= lnS n t + 2 * (t ^ S n / INR (S n)).
Proof.
  intros Ht. assert (I0 : 0 < INR (S n)) by (apply lt_0_INR; lia).
  split.
  - pose proof (nonneg_deriv (fun t => - ln (1 - t) - lnS n t) (fun t => / (1 - t) - geom n t) t ltac:(lra)) as H.
    cbn beta in H. rewrite lnS_0 in H. replace (1 - 0) with 1 in H by ring. rewrite ln_1 in H.
    assert (0 <= - ln (1 - t) - lnS n t); [|lra]. replace 0 with (-0 - 0) by ring. apply H.
    + intros x Hx. apply (is_derive_minus (fun t => - ln (1 - t)) (lnS n)); [apply ln_minus_derive; lra|apply lnS_derive].
    + intros x Hx. assert (E : / (1 - x) - geom n x = x ^ n / (1 - x)).
      { assert (geom n x = (1 - x ^ n) / (1 - x)) as ->; [|field; lra]. rewrite <- geom_eq. field. lra. }
      rewrite E. apply Rmult_le_pos; [apply pow_le; lra|]. left. apply Rinv_0_lt_compat. lra.
  - pose proof (nonneg_deriv (fun t => lnS n t + 2 * (t ^ S n / INR (S n)) - - ln (1 - t))
                             (fun t => geom n t + 2 * t ^ n - / (1 - t)) t ltac:(lra)) as H.
    cbn beta in H. rewrite lnS_0, pow_i in H by lia. replace (1 - 0) with 1 in H by ring. rewrite ln_1 in H.
    assert (0 <= lnS n t + 2 * (t ^ S n / INR (S n)) - - ln (1 - t)); [|lra].
    replace 0 with (0 + 2 * (0 / INR (S n)) - -0) by (field; lra). apply H.
    + intros x Hx. apply (is_derive_minus (fun t => lnS n t + 2 * (t ^ S n / INR (S n))) (fun t => - ln (1 - t)));
        [|apply ln_minus_derive; lra].
      apply (is_derive_plus (lnS n) (fun t => 2 * (t ^ S n / INR (S n)))); [apply lnS_derive|].
      auto_derive; [trivial|].
      change (match n with 0%nat => 1 | S _ => INR n + 1 end) with (INR (S n)).
      cbn [Init.Nat.pred]. field. lra.
    + intros x Hx. assert (E : geom n x + 2 * x ^ n - / (1 - x) = x ^ n * (2 - / (1 - x))).
      { assert (geom n x = (1 - x ^ n) / (1 - x)) as ->; [|field; lra]. rewrite <- geom_eq. field. lra. }
      rewrite E. apply Rmult_le_pos; [apply pow_le; lra|].
      assert (/ (1 - x) <= / (1 / 2)) by (apply Rinv_le_contravar; lra). lra.
Qed.

(** 2 sum_{i<n} t^(2i+1) / (2i+1) *)
Fixpoint atS (n : nat) (t : R) : R :=
  match n with O => 0 | S n' => atS n' t + 2 * (t ^ S (2 * n') / INR (S (2 * n'))) end.
Lemma atS_derive n t : is_derive (atS n) t (2 * geom n (t * t)).
Proof.
  induction n as [|n IH]; cbn [atS geom].
  - rewrite Rmult_0_r. apply is_derive_Reals, derivable_pt_lim_const.
  - rewrite Rmult_plus_distr_l.
    apply (is_derive_plus (atS n) (fun t => 2 * (t ^ S (2 * n) / INR (S (2 * n))))); [exact IH|].
    set (m := (2 * n)%nat). assert (I0 : INR (S m) <> 0) by (apply not_0_INR; discriminate).
    assert (E : (t * t) ^ n = t ^ m) by (unfold m; rewrite pow_mult; f_equal; ring).
    rewrite E. clearbody m. auto_derive; [trivial|].
    change (match m with 0%nat => 1 | S _ => INR m + 1 end) with (INR (S m)).
    cbn [Init.Nat.pred]. field. assumption.
Qed.
Lemma atS_0 n : atS n 0 = 0.
Proof. induction n as [|n IH]; cbn [atS]; [reflexivity|]. rewrite IH, pow_i by lia. unfold Rdiv. ring. Qed.
Lemma lnat_derive x : 0 <= x < 1 -> is_derive (fun t => ln ((1 + t) / (1 - t))) x (2 / (1 - x * x)).
Proof.
  intros H. auto_derive.
  - split; [lra|]. split; [|trivial]. apply Rdiv_lt_0_compat; lra.
  - field. split; [nra|]. split; lra.
Qed.

Lemma atS_bounds n t : 0 <= t <= 1 / 2 ->
  atS n t <= ln ((1 + t) / (1 - t)) <= atS n t + 8 / 3 * (t ^ S (2 * n) / INR (S (2 * n))).
Proof.
  intros Ht. set (m := (2 * n)%nat). assert (I0 : 0 < INR (S m)) by (apply lt_0_INR; lia).
  assert (G : forall x, 0 <= x <= t -> geom n (x * x) = (1 - x ^ m) / (1 - x * x)).
  { intros x Hx. assert (E : (x * x) ^ n = x ^ m) by (unfold m; rewrite pow_mult; f_equal; ring).
    rewrite <- E, <- geom_eq. field. nra. }
  assert (L0 : ln ((1 + 0) / (1 - 0)) = 0) by (replace ((1 + 0) / (1 - 0)) with 1 by field; apply ln_1).
  split.
  - pose proof (nonneg_deriv (fun t => ln ((1 + t) / (1 - t)) - atS n t) (fun t => 2 / (1 - t * t) - 2 * geom n (t * t)) t ltac:(lra)) as H.
    cbn beta in H. rewrite atS_0, L0 in H.
    assert (0 <= ln ((1 + t) / (1 - t)) - atS n t); [|lra]. replace 0 with (0 - 0) by ring. apply H.
    + intros x Hx. apply (is_derive_minus (fun t => ln ((1 + t) / (1 - t))) (atS n)); [apply lnat_derive; lra|apply atS_derive].
    + intros x Hx. rewrite G by assumption.
      assert (E : 2 / (1 - x * x) - 2 * ((1 - x ^ m) / (1 - x * x)) = 2 * x ^ m / (1 - x * x)) by (field; nra).
      rewrite E. apply Rmult_le_pos; [apply Rmult_le_pos; [lra|apply pow_le; lra]|]. left. apply Rinv_0_lt_compat. nra.
  - pose proof (nonneg_deriv (fun t => atS n t + 8 / 3 * (t ^ S m / INR (S m)) - ln ((1 + t) / (1 - t)))
                             (fun t => 2 * geom n (t * t) + 8 / 3 * t ^ m - 2 / (1 - t * t)) t ltac:(lra)) as H.
    cbn beta in H. rewrite atS_0, L0, pow_i in H by lia.
    assert (0 <= atS n t + 8 / 3 * (t ^ S m / INR (S m)) - ln ((1 + t) / (1 - t))); [|lra].
    replace 0 with (0 + 8 / 3 * (0 / INR (S m)) - 0) by (field; lra). apply H.
    + intros x Hx. apply (is_derive_minus (fun t => atS n t + 8 / 3 * (t ^ S m / INR (S m))) (fun t => ln ((1 + t) / (1 - t))));
        [|apply lnat_derive; lra].
      apply (is_derive_plus (atS n) (fun t => 8 / 3 * (t ^ S m / INR (S m)))); [apply atS_derive|].
      clearbody m. auto_derive; [trivial|].
      change (match m with 0%nat => 1 | S _ => INR m + 1 end) with (INR (S m)).
      cbn [Init.Nat.pred]. field. lra.
    + intros x Hx. rewrite G by assumption.
      assert (E : 2 * ((1 - x ^ m) / (1 - x * x)) + 8 / 3 * x ^ m - 2 / (1 - x * x) = x ^ m * (8 / 3 - 2 / (1 - x * x))) by (field; nra).
      rewrite E. apply Rmult_le_pos; [apply pow_le; lra|].
      assert (/ (1 - x * x) <= / (3 / 4)) by (apply Rinv_le_contravar; nra). lra.
Qed.
