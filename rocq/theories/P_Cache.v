From Coq Require Import ZArith NArith Reals List Lia Lra Bool Arith.
From Verif Require Import M_Base M_Traits M_Interval M_IntervalExp M_Cache S_Interval P_Interval P_IntervalLog.
Import ListNotations.

(** Converting downwards in two stages is converting once. *)
Lemma shr_shr a m n : shr (shr a m) n = shr a (m + n).
Proof.
  rewrite !shr_div, Z.div_div, <- Z.pow_add_r, Nat2Z.inj_add; try reflexivity; try lia.
Qed.
Lemma shr_up_up a m n : shr_up (shr_up a m) n = shr_up a (m + n).
Proof. unfold shr_up. rewrite Z.opp_involutive, shr_shr. reflexivity. Qed.

Lemma convert_convert i a b : b <= a -> a <= dlog i -> dfi_convert (dfi_convert i a) b = dfi_convert i b.
Proof.
  intros Hb Ha. unfold dfi_convert, convert_log2_denom_floor, convert_log2_denom_ceil; cbn [dlo dhi dlog].
  f_equal.
  - destruct (Nat.leb_spec (dlog i) a); [replace a with (dlog i) by lia; rewrite Nat.sub_diag; unfold shl; rewrite Z.shiftl_0_r; reflexivity|].
    destruct (Nat.leb_spec a b); [replace b with a by lia; rewrite Nat.sub_diag; unfold shl; rewrite Z.shiftl_0_r;
       destruct (Nat.leb_spec (dlog i) a); [lia|reflexivity]|].
    destruct (Nat.leb_spec (dlog i) b); [lia|]. rewrite shr_shr. f_equal. lia.
  - destruct (Nat.leb_spec (dlog i) a); [replace a with (dlog i) by lia; rewrite Nat.sub_diag; unfold shl; rewrite Z.shiftl_0_r; reflexivity|].
    destruct (Nat.leb_spec a b); [replace b with a by lia; rewrite Nat.sub_diag; unfold shl; rewrite Z.shiftl_0_r;
       destruct (Nat.leb_spec (dlog i) a); [lia|reflexivity]|].
    destruct (Nat.leb_spec (dlog i) b); [lia|]. rewrite shr_up_up. f_equal. lia.
Qed.

Lemma nth_set {A} (l : list A) t x u y : nth_error (set_nth l t x) u = Some y ->
  y = x \/ nth_error l u = Some y.
Proof.
  revert t u; induction l as [|z l IH]; intros t u; cbn [set_nth]; [right; assumption|].
  destruct t; destruct u; cbn; intros H.
  - left; congruence.
  - right; assumption.
  - right; assumption.
  - apply (IH t u H).
Qed.
Lemma set_length {A} (l : list A) t x : length (set_nth l t x) = length l.
Proof. revert t; induction l; intros [|t]; cbn; auto. Qed.

Section Cache.
Variable idx : N -> nat.
Variable compute : nat -> res dfi.
Hypothesis idx_mono : forall a b, (a <= b)%N -> idx a <= idx b.
Notation required := (required idx).

Lemma lor_bit r b : (r mod 2 ^ N.of_nat (S b) = 0)%N -> N.lor r (2 ^ N.of_nat b) = (r + 2 ^ N.of_nat b)%N.
Proof.
  intros H. symmetry. rewrite <- N.lxor_lor, <- N.add_nocarry_lxor; [reflexivity| |].
  all: apply N.bits_inj; intros k; rewrite N.land_spec, N.bits_0.
  all: destruct (N.lt_ge_cases k (N.of_nat (S b))) as [L|L].
  all: try (assert (E : N.testbit r k = false);
      [ rewrite <- (N.mod_pow2_bits_low r (N.of_nat (S b)) k L), H; apply N.bits_0 | rewrite E; reflexivity ]).
  all: rewrite (N.pow2_bits_false (N.of_nat b) k) by lia; apply andb_false_r.
Qed.

Lemma required_loop_spec bits i : forall r, (r mod 2 ^ N.of_nat bits = 0)%N -> (r = 0%N \/ idx r <= i) ->
  let R := required_loop idx bits i r in
  (R = 0%N \/ idx R <= i) /\
  (R < r + 2 ^ N.of_nat bits)%N /\
  (forall x, idx x <= i -> (x < r + 2 ^ N.of_nat bits)%N -> (x <= R)%N).
Proof.
  induction bits as [|b IH]; intros r Hm Hr; cbn [required_loop].
  - cbn. repeat split; [assumption|lia|intros; lia].
  - assert (P : (2 ^ N.of_nat (S b) = 2 * 2 ^ N.of_nat b)%N) by (rewrite Nat2N.inj_succ, N.pow_succ_r'; reflexivity).
    assert (P0 : (0 < 2 ^ N.of_nat b)%N) by (apply N.neq_0_lt_0, N.pow_nonzero; discriminate).
    rewrite (lor_bit r b Hm).
    assert (Hm' : (r mod 2 ^ N.of_nat b = 0)%N).
    { apply N.mod_divide in Hm; [|lia]. destruct Hm as [k ->]. rewrite P.
      replace (k * (2 * 2 ^ N.of_nat b))%N with (k * 2 * 2 ^ N.of_nat b)%N by lia. apply N.mod_mul; lia. }
    destruct (Nat.leb_spec (idx (r + 2 ^ N.of_nat b)) i) as [L|L].
    + destruct (IH (r + 2 ^ N.of_nat b)%N) as (I1 & I3 & I4).
      * rewrite N.add_mod, Hm', N.mod_same, N.add_0_l, N.mod_0_l by lia. reflexivity.
      * right; assumption.
      * cbv zeta. repeat split; try assumption; try lia.
        intros x Hx Hx2. apply I4; [assumption|lia].
    + destruct (IH r Hm' Hr) as (I1 & I3 & I4).
      cbv zeta. assert (Lx : forall x, idx x <= i -> (x < r + 2 ^ N.of_nat b)%N).
      { intros x Hx. destruct (N.lt_ge_cases x (r + 2 ^ N.of_nat b)) as [|G]; [assumption|]. apply idx_mono in G. lia. }
      repeat split; try assumption; try lia.
      intros x Hx _. apply I4; auto.
Qed.

Lemma required_ge n i : (N.of_nat n < 2 ^ 64)%N -> idx (N.of_nat n) <= i -> n <= required i.
Proof.
  intros Hn Hi. unfold M_Cache.required.
  destruct (required_loop_spec 64 i 0) as (_ & _ & H); [apply N.mod_0_l; discriminate|left; reflexivity|].
  cbv zeta in H. specialize (H (N.of_nat n) Hi). rewrite N.add_0_l in H. specialize (H Hn). lia.
Qed.
Lemma required_mono i j : i <= j -> required i <= required j.
Proof.
  intros H. destruct (required_loop_spec 64 i 0) as (H1 & H2 & _); [apply N.mod_0_l; discriminate|left; reflexivity|].
  cbv zeta in *. destruct H1 as [H1|H1].
  - unfold M_Cache.required at 1. rewrite H1. apply Nat.le_0_l.
  - apply required_ge; unfold M_Cache.required; rewrite N2Nat.id; [rewrite N.add_0_l in H2; exact H2|lia].
Qed.

#[local] Opaque M_Cache.required.

(** The computations never panic and deliver at least the precision asked for. *)
Hypothesis compute_ok : forall n, exists i, compute n = Ret i /\ n <= dlog i.

(** Entry number j is a conversion of a computation at precision at least required(j). *)
Definition from_compute (n : nat) (e : dfi) : Prop :=
  exists m i, n <= m /\ compute m = Ret i /\ e = dfi_convert i n.
Definition good_vec (v : list dfi) : Prop :=
  forall j e, nth_error v j = Some e -> from_compute (required j) e.

Lemma fill_ok old k : good_vec old -> length old <= k ->
  exists new r, fill idx compute old k = Ret (new, r) /\ good_vec new /\ length new = S k /\
    from_compute (required k) r /\ (forall j e, nth_error old j = Some e -> nth_error new j = Some e).
Proof.
  intros G L. unfold fill. destruct (compute_ok (required k)) as (i & Ei & Hi). rewrite Ei. cbn [rbind].
  replace (Nat.leb (required k) (dlog i)) with true by (symmetry; apply Nat.leb_le; assumption). cbn [assert_then].
  eexists; eexists; split; [reflexivity|].
  assert (FC : forall j, j <= k -> from_compute (required j) (dfi_convert i (required j))).
  { intros j Hj. exists (required k), i. split; [apply required_mono; assumption|]. split; [assumption|reflexivity]. }
  set (mid := map _ _). assert (Lm : length mid = k - length old) by (unfold mid; rewrite map_length, seq_length; reflexivity).
  assert (Lo : length (old ++ mid) = k) by (rewrite app_length; lia).
  repeat match goal with |- _ /\ _ => split end.
  - intros j e E. destruct (Nat.lt_ge_cases j (length (old ++ mid))) as [H|H].
    + rewrite nth_error_app1 in E by assumption.
      destruct (Nat.lt_ge_cases j (length old)) as [H1|H1].
      * rewrite nth_error_app1 in E by assumption. apply (G _ _ E).
      * rewrite nth_error_app2 in E by assumption. unfold mid in E.
        apply nth_error_In in E as I. 
        assert (E2 : nth_error (seq (length old) (k - length old)) (j - length old) = Some j).
        { rewrite (nth_error_nth' _ 0) by (rewrite seq_length; lia). rewrite seq_nth by lia. f_equal; lia. }
        rewrite (map_nth_error (fun i0 => dfi_convert i (required i0)) _ _ E2) in E. injection E as <-. apply FC. lia.
    + rewrite nth_error_app2 in E by assumption. destruct (j - length (old ++ mid)) eqn:D; cbn in E.
      * injection E as <-. replace j with k by lia. apply FC; lia.
      * destruct n; discriminate.
  - rewrite app_length. cbn. lia.
  - apply FC; lia.
  - intros j e E. rewrite <- app_assoc. rewrite nth_error_app1; [assumption|]. apply nth_error_Some. congruence.
Qed.

Definition good_pc (p : pc) : Prop :=
  match p with
  | Idle => True
  | Asked n => (N.of_nat n < 2 ^ 64)%N
  | Missed n old => (N.of_nat n < 2 ^ 64)%N /\ good_vec old /\ length old <= idx (N.of_nat n)
  | Writing n new r => (N.of_nat n < 2 ^ 64)%N /\ good_vec new /\ from_compute (required (idx (N.of_nat n))) r
  | Panicked => False
  end.
Definition inv (s : state) : Prop :=
  good_vec (cache s) /\ (forall t p, nth_error (threads s) t = Some p -> good_pc p) /\
  (forall n r, In (n, r) (results s) -> from_compute n r).

Lemma from_compute_convert n k e : n <= k -> from_compute k e -> from_compute n (dfi_convert e n).
Proof.
  intros H (m & i & Hm & Ei & ->). exists m, i. split; [lia|]. split; [assumption|].
  destruct (compute_ok m) as (i' & E' & L). assert (i' = i) by congruence. subst i'.
  apply convert_convert; lia.
Qed.

Lemma inv_step s s' : inv s -> step idx compute s s' -> inv s'.
Proof.
  intros (G & T & Rs) St. destruct St as [t n E L|t n e E Ec|t n E Ec|t n old new r E F|t n old E F|t n new r E];
    pose proof (T _ _ E) as P; unfold inv; cbn [cache threads results].
  - split; [assumption|]. split; [|assumption]. intros u p H. apply nth_set in H. destruct H as [->|H]; [exact L|eauto].
  - split; [assumption|]. split.
    + intros u p H. apply nth_set in H. destruct H as [->|H]; [exact I|eauto].
    + intros m r [H|H]; [|auto]. injection H as <- <-. apply from_compute_convert with (required (idx (N.of_nat n))).
      * apply required_ge; [exact P|lia].
      * apply (G _ _ Ec).
  - split; [assumption|]. split; [|assumption]. intros u p H. apply nth_set in H. destruct H as [->|H]; [|eauto].
    cbn. split; [exact P|]. split; [assumption|]. apply nth_error_None; assumption.
  - destruct P as (P1 & P2 & P3). destruct (fill_ok old _ P2 P3) as (new' & r' & F' & Gn & Ln & Fr & Ko).
    rewrite F in F'. assert (new' = new /\ r' = r) as [-> ->] by (split; congruence).
    split; [assumption|]. split; [|assumption]. intros u p H. apply nth_set in H. destruct H as [->|H]; [|eauto].
    cbn. auto.
  - destruct P as (P1 & P2 & P3). destruct (fill_ok old _ P2 P3) as (new' & r' & F' & _).
    rewrite F' in F. discriminate.
  - destruct P as (P1 & P2 & P3). split; [destruct (Nat.ltb _ _); assumption|]. split.
    + intros u p H. apply nth_set in H. destruct H as [->|H]; [exact I|eauto].
    + intros m r' [H|H]; [|auto]. injection H as <- <-. apply from_compute_convert with (required (idx (N.of_nat n))).
      * apply required_ge; [exact P1|lia].
      * assumption.
Qed.

Lemma inv_initial k : inv (initial k).
Proof.
  split; [|split].
  - intros [|j] e; discriminate.
  - intros t p H. apply nth_error_In in H. cbn in H. apply repeat_spec in H. subst p. exact I.
  - intros n r [].
Qed.
Lemma inv_reach k s : reach idx compute (initial k) s -> inv s.
Proof. induction 1; [apply inv_initial|eapply inv_step; eassumption]. Qed.

(** The cache only ever grows. *)
Lemma step_cache_grows s s' : step idx compute s s' -> cache s' = cache s \/ length (cache s) < length (cache s').
Proof.
  destruct 1; cbn [cache]; auto. destruct (Nat.ltb_spec (length (cache s)) (length new)); auto.
Qed.

Lemma cache_transparent k s : reach idx compute (initial k) s ->
  (forall t, nth_error (threads s) t <> Some Panicked) /\
  (forall n r, In (n, r) (results s) -> exists m i, n <= m /\ compute m = Ret i /\ r = dfi_convert i n) /\
  (forall j e, nth_error (cache s) j = Some e -> exists m i,
     required j <= m /\ compute m = Ret i /\ e = dfi_convert i (required j)).
Proof.
  intros H. apply inv_reach in H. destruct H as (G & T & Rs). split; [|split; [exact Rs|exact G]].
  intros t E. exact (T _ _ E).
Qed.

(** Every thread inside a call can always make a step: no blocking. *)
Lemma cache_no_deadlock k s t p : reach idx compute (initial k) s -> nth_error (threads s) t = Some p -> p <> Idle ->
  exists s', step idx compute s s' /\ (nth_error (threads s') t <> Some p).
Proof.
  intros H E NI. pose proof (inv_reach _ _ H) as (G & T & Rs). pose proof (T _ _ E) as P.
  assert (NS : forall (l : list pc) x u q, nth_error l u = Some q -> nth_error (set_nth l u x) u = Some x).
  { induction l as [|y l IH]; intros x [|u] q Hq; try discriminate; cbn in *; eauto. }
  destruct p as [|n|n old|n new r|]; try contradiction.
  - destruct (nth_error (cache s) (idx (N.of_nat n))) as [e|] eqn:C.
    + eexists; split; [eapply step_read_hit; eassumption|]. cbn. rewrite (NS _ _ _ _ E). discriminate.
    + eexists; split; [eapply step_read_miss; eassumption|]. cbn. rewrite (NS _ _ _ _ E). discriminate.
  - destruct P as (P1 & P2 & P3). destruct (fill_ok old _ P2 P3) as (new & r & F & _).
    eexists; split; [eapply step_fill; eassumption|]. cbn. rewrite (NS _ _ _ _ E). discriminate.
  - eexists; split; [eapply step_write; eassumption|]. cbn. rewrite (NS _ _ _ _ E). discriminate.
Qed.

Lemma reach_cache_grows k s s' : reach idx compute (initial k) s -> reach idx compute s s' ->
  length (cache s) <= length (cache s').
Proof. intros _ H. induction H as [|s1 s2 H IH St]; [lia|]. destruct (step_cache_grows _ _ St) as [->|]; lia. Qed.
End Cache.

(** ** The two cached constants *)
Lemma ln2_compute_precise n : exists i, ln2_compute n = Ret i /\ n <= dlog i.
Proof.
  destruct (ln2_compute_ok n) as (i & E & L & _). exists i. split; [exact E|]. rewrite L. unfold ln2_working. lia.
Qed.

Lemma sqrt2_compute_ok n : exists i, sqrt_2_compute n = Ret i /\
  tightest i n (R_sqrt.sqrt 2) (R_sqrt.sqrt 2).
Proof.
  unfold sqrt_2_compute. destruct (dfi_from_int_ok 2 n) as (L & B1 & B2).
  assert (Ok : dfi_ok (dfi_from_int 2 n)) by (unfold dfi_ok; cbn; lia).
  destruct (dfi_sqrt_ok _ Ok) as [_ H]. destruct H as (r & E & T).
  - apply le_IZR. rewrite <- (dyadic_mul (dlo (dfi_from_int 2 n)) n), B1. pose proof (p2_pos n). lra.
  - exists r. split; [exact E|]. rewrite L, B1, B2 in T. exact T.
Qed.

Lemma tightest_convert i m n x : n <= m -> tightest i m x x -> tightest (dfi_convert i n) n x x.
Proof.
  intros Hn (L & A & B & C & D). destruct (dfi_convert_ok i n) as (L' & A' & B' & C' & D').
  rewrite L in *.
  split; [exact L'|]. split; [lra|]. split; [lra|].
  assert (Up : forall z, dyadic z n = dyadic (shl z (m - n)) m).
  { intros z. replace m with (n + (m - n))%nat at 2 by lia. symmetry. apply dyadic_shl. }
  split.
  - intros z Hz. apply C'. rewrite Up in *. apply dyadic_le. apply C. assumption.
  - intros z Hz. apply D'. rewrite Up in *. apply dyadic_le. apply D. assumption.
Qed.

Lemma cached_ln2_ok idx k s : (forall a b, (a <= b)%N -> idx a <= idx b) ->
  reach idx ln2_compute (initial k) s ->
  (forall t, nth_error (threads s) t <> Some Panicked) /\
  (forall n r, In (n, r) (results s) -> ln2_ok n r).
Proof.
  intros M H. destruct (cache_transparent idx ln2_compute M ln2_compute_precise k s H) as (P & Rs & _).
  split; [exact P|]. intros n r I. destruct (Rs n r I) as (m & i & Hm & E & ->). apply ln2_converted_ok with m; assumption.
Qed.

Lemma cached_sqrt2_ok idx k s : (forall a b, (a <= b)%N -> idx a <= idx b) ->
  reach idx sqrt_2_compute (initial k) s ->
  (forall t, nth_error (threads s) t <> Some Panicked) /\
  (forall n r, In (n, r) (results s) -> tightest r n (R_sqrt.sqrt 2) (R_sqrt.sqrt 2)).
Proof.
  intros M H.
  assert (C : forall n, exists i, sqrt_2_compute n = Ret i /\ n <= dlog i).
  { intros n. destruct (sqrt2_compute_ok n) as (i & E & T). exists i. split; [exact E|]. destruct T as [-> _]. lia. }
  destruct (cache_transparent idx sqrt_2_compute M C k s H) as (P & Rs & _).
  split; [exact P|]. intros n r I. destruct (Rs n r I) as (m & i & Hm & E & ->).
  destruct (sqrt2_compute_ok m) as (i' & E' & T). assert (i' = i) by congruence. subst i'.
  apply tightest_convert with m; assumption.
Qed.

(** Calling [get] once on an empty cache with nobody else around. *)
Lemma ln2_fresh_ok n : ln2_ok n (match ln2_compute n with Ret i => dfi_convert i n | _ => DFI 0 0 0 end).
Proof. destruct (ln2_compute_precise n) as (i & E & _). rewrite E. apply ln2_converted_ok with n; [lia|assumption]. Qed.
Lemma ln2_oracle_exists : forall n, exists l, (fun n => rmap (fun i => dfi_convert i n) (ln2_compute n)) n = Ret l /\ ln2_ok n l.
Proof. intros n. destruct (ln2_compute_precise n) as (i & E & _). rewrite E. eexists; split; [reflexivity|]. apply ln2_converted_ok with n; [lia|assumption]. Qed.
