(** Moduli: proofs. *)
From Coq Require Import ZArith Znumtheory List Bool Lia.
From Verif Require Import M_Base M_Traits M_ModInt M_Modulus S_Modulus.
Import ListNotations.
Local Open Scope Z_scope.

Lemma small_prime b : prime b -> b <= 16 -> In b [2; 3; 5; 7; 11; 13].
Proof.
  intros P L. pose proof (prime_ge_2 b P) as G.
  assert (N : forall d, 1 < d < b -> ~ (d | b)).
  { intros d D [k K]. destruct P as [_ P].
    specialize (P d ltac:(lia)). destruct P as [_ _ P].
    specialize (P d (Z.divide_refl d) ltac:(exists k; exact K)). apply Z.divide_1_r in P. lia. }
  assert (C : b = 2 \/ b = 3 \/ b = 4 \/ b = 5 \/ b = 6 \/ b = 7 \/ b = 8 \/ b = 9 \/ b = 10 \/ b = 11 \/ b = 12 \/ b = 13 \/
    b = 14 \/ b = 15 \/ b = 16) by lia.
  pose proof (N 2) as N2. pose proof (N 3) as N3. clear N P L G.
  repeat (destruct C as [-> | C]); try subst b; simpl; try tauto; exfalso.
  all: try solve [apply N2; [lia | apply Z.mod_divide; [lia | reflexivity]]].
  all: try solve [apply N3; [lia | apply Z.mod_divide; [lia | reflexivity]]].
Qed.
Lemma prime_small b : In b [2; 3; 5; 7; 11; 13] -> prime b.
Proof.
  intros I. apply prime_intro; [simpl in I; lia |].
  intros n N. apply Zgcd_1_rel_prime.
  assert (C : n = 1 \/ n = 2 \/ n = 3 \/ n = 4 \/ n = 5 \/ n = 6 \/ n = 7 \/ n = 8 \/ n = 9 \/ n = 10 \/ n = 11 \/ n = 12)
    by (simpl in I; lia).
  simpl in I.
  repeat (destruct I as [<- | I]); try contradiction;
  repeat (destruct C as [-> | C]); try subst n; try reflexivity; lia.
Qed.
Lemma small_prime_iff b : b <= 16 -> prime b <-> In b [2; 3; 5; 7; 11; 13].
Proof. intros L. split; [intros P; now apply small_prime | apply prime_small]. Qed.

Lemma static_range v opts : In (v, opts) static_moduli -> 1 <= v <= 16.
Proof. unfold static_moduli. simpl. intros H. repeat (destruct H as [H | H]; [injection H; lia |]). contradiction. Qed.
Lemma static_fits v t : 1 <= v <= 16 -> In t modulus_types -> fits t v = true.
Proof.
  unfold modulus_types. simpl. intros V H.
  repeat (destruct H as [<- | H]); try contradiction; unfold fits, in_irange, imin, imax;
  try (apply andb_true_intro; split); try apply Z.leb_le; try apply Z.ltb_lt;
  try (match goal with |- context [2 ^ ?k] => let x := eval vm_compute in (2 ^ k) in change (2 ^ k) with x end); lia.
Qed.
Lemma small_power v b e : 1 <= v <= 16 -> prime_power_of v b e -> In b [2; 3; 5; 7; 11; 13] /\ In e [1; 2; 3; 4]%nat.
Proof.
  intros V [P [E X]]. pose proof (prime_ge_2 b P) as G.
  assert (B : b <= v).
  { rewrite X. transitivity (b ^ 1); [lia | apply Z.pow_le_mono_r; lia]. }
  split; [apply small_prime; [exact P | lia] |].
  assert (L : (e <= 4)%nat).
  { destruct (Nat.le_gt_cases e 4) as [L | L]; [exact L |].
    assert (2 ^ 5 <= v).
    { rewrite X. transitivity (b ^ 5); [apply Z.pow_le_mono_l; lia | apply Z.pow_le_mono_r; lia]. }
    change (2 ^ 5) with 32 in H. lia. }
  simpl. lia.
Qed.
Lemma small_power_iff v b e : 1 <= v <= 16 ->
  prime_power_of v b e <-> In b [2; 3; 5; 7; 11; 13] /\ In e [1; 2; 3; 4]%nat /\ v = b ^ Z.of_nat e.
Proof.
  intros V. split.
  - intros H. destruct (small_power _ _ _ V H) as [B E]. destruct H as [_ [_ X]]. auto.
  - intros [B [E X]]. split; [now apply prime_small |]. split; [simpl in E; lia | exact X].
Qed.

Lemma static_modulus v opts t : In (v, opts) static_moduli -> In t modulus_types ->
  to_modulus t (MStatic v opts) = Ret v /\ printed (MStatic v opts) = v /\
  (is_odd_modulus (MStatic v opts) = true <-> Z.odd v = true) /\
  (is_prime_modulus (MStatic v opts) = true <-> prime v) /\
  (forall b e, base_and_exponent t (MStatic v opts) = Some (Ret (b, e)) <-> prime_power_of v b e) /\
  (base_and_exponent t (MStatic v opts) = None <-> ~ exists b e, prime_power_of v b e).
Proof.
  intros I T. pose proof (static_range _ _ I) as V.
  assert (F : forall z, 1 <= z <= 16 -> in_ty t z = Ret z) by (intros z Z; unfold in_ty; now rewrite static_fits).
  assert (K : forall b e, base_and_exponent t (MStatic v opts) = Some (Ret (b, e)) <->
    In b [2; 3; 5; 7; 11; 13] /\ In e [1; 2; 3; 4]%nat /\ v = b ^ Z.of_nat e).
  { clear V. intros b e. unfold static_moduli in I. simpl in I.
    repeat (destruct I as [I | I]; [injection I as <- <- |]); try contradiction; cbn [base_and_exponent static_base].
    all: try (rewrite F by lia); cbn [rmap]; simpl In.
    all: split;
      [ first [discriminate | intros J; injection J as <- <-; repeat split; auto 10]
      | intros [B [E X]];
        repeat (destruct B as [<- | B]; [| ]); try contradiction;
        repeat (destruct E as [<- | E]; [| ]); try contradiction;
        vm_compute in X; first [discriminate X | reflexivity] ]. }
  split; [apply F; exact V |]. split; [reflexivity |]. split; [| split; [split | split; [split | split]]].
  1: clear - I; unfold static_moduli in I; simpl in I;
    repeat (destruct I as [I | I]; [injection I as <- <-; now vm_compute |]); contradiction.
  - intros H. apply (small_prime_iff v); [lia |]. revert H. clear - I. unfold static_moduli in I; simpl in I.
    repeat (destruct I as [I | I]; [injection I as <- <-; cbn; solve [discriminate | intros _; simpl; auto 10] |]); contradiction.
  - intros H. apply (small_prime_iff v) in H; [| lia]. revert H. clear - I. unfold static_moduli in I; simpl in I.
    repeat (destruct I as [I | I]; [injection I as <- <-; cbn; solve [reflexivity | lia] |]); contradiction.
  - intros H. now apply (small_power_iff v b e V), K.
  - intros H. now apply K, (small_power_iff v b e V).
  - intros H [b [e P]]. apply (small_power_iff v b e V), K in P. congruence.
  - intros H. destruct (base_and_exponent t (MStatic v opts)) as [r |] eqn:Q; [| reflexivity]. exfalso.
    assert (R : exists b e, r = Ret (b, e)).
    { clear - I Q F. unfold static_moduli in I; simpl in I.
      repeat (destruct I as [I | I]; [injection I as <- <-; cbn [base_and_exponent static_base] in Q;
        first [discriminate Q | rewrite F in Q by lia; injection Q as <-; eexists; eexists; reflexivity] |]); contradiction. }
    destruct R as [b [e ->]]. apply H. exists b, e. apply (small_power_iff v b e V), K. reflexivity.
Qed.

Lemma modulus_sound t m : In t modulus_types -> promised t m ->
  exists v, to_modulus t m = Ret v /\ printed m = v /\ fits t v = true /\
    (is_odd_modulus m = true -> Z.odd v = true) /\
    (is_prime_modulus m = true -> prime v /\ base_and_exponent t m = Some (Ret (v, 1%nat))) /\
    (forall r, base_and_exponent t m = Some r -> exists b e, r = Ret (b, e) /\ fits t b = true /\ prime_power_of v b e).
Proof.
  intros T. induction m as [v | m IH | v opts | m IH | m IH]; cbn [promised]; intros P.
  - exists v. repeat split; auto; discriminate.
  - destruct (IH P) as [v [A [B [C _]]]]. exists v. repeat split; auto; discriminate.
  - pose proof (static_range _ _ P) as V.
    destruct (static_modulus _ _ _ P T) as [A [B [C [D [E G]]]]].
    exists v. split; [exact A |]. split; [exact B |]. split; [now apply static_fits |].
    split; [now apply C |]. split.
    + intros H. apply D in H. split; [exact H |]. apply E.
      split; [exact H |]. split; [lia |]. now rewrite Z.pow_1_r.
    + intros r R. destruct r as [[b e] | |].
      * exists b, e. apply E in R. split; [reflexivity |]. split; [| exact R].
        apply static_fits; [| exact T]. destruct (small_power _ _ _ V R) as [B' _]. simpl in B'. lia.
      * exfalso. enough (~ exists b e, prime_power_of v b e) as N by (apply G in N; congruence).
        intros [b [e X]]. apply E in X. congruence.
      * exfalso. enough (~ exists b e, prime_power_of v b e) as N by (apply G in N; congruence).
        intros [b [e X]]. apply E in X. congruence.
  - destruct P as [P Q]. destruct (IH P) as [v [A [B [C [D _]]]]]. specialize (Q v A).
    exists v. cbn [to_modulus printed is_odd_modulus is_prime_modulus base_and_exponent]. rewrite A.
    split; [reflexivity |]. split; [exact B |]. split; [exact C |]. split; [exact D |]. split; [auto |].
    intros r R. injection R as <-. exists v, 1%nat. split; [reflexivity |]. split; [exact C |].
    split; [exact Q |]. split; [lia |]. now rewrite Z.pow_1_r.
  - destruct P as [P Q]. destruct (IH P) as [v [A [B [C [D E]]]]]. specialize (Q v A).
    exists v. cbn [to_modulus printed is_odd_modulus is_prime_modulus base_and_exponent]. auto.
Qed.
(** Adding a wrapper takes nothing away. *)
Lemma known_prime t m : to_modulus t (MKnownPrime m) = to_modulus t m /\ is_prime_modulus (MKnownPrime m) = true /\
  is_odd_modulus (MKnownPrime m) = is_odd_modulus m.
Proof. auto. Qed.
Lemma known_odd t m : to_modulus t (MKnownOdd m) = to_modulus t m /\ is_odd_modulus (MKnownOdd m) = true /\
  is_prime_modulus (MKnownOdd m) = is_prime_modulus m /\ base_and_exponent t (MKnownOdd m) = base_and_exponent t m.
Proof. auto. Qed.
