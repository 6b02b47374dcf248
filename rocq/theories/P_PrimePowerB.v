(** Exactly which prime powers the generic test recognises. *)
From Coq Require Import ZArith Znumtheory List Bool Lia Sorted.
From Verif Require Import M_Base M_Traits M_ModInt M_PrimeTable M_Util M_PseudoPrime P_Traits P_Util P_PseudoPrime.
Import ListNotations.
Local Open Scope Z_scope.

Lemma lor_ge a b : 0 <= a -> 0 <= b -> a <= Z.lor a b.
Proof.
  intros Ha Hb. apply Z.ldiff_le; [apply Z.lor_nonneg; auto|].
  apply Z.bits_inj'. intros n Hn. rewrite Z.ldiff_spec, Z.lor_spec, Z.bits_0.
  destruct (Z.testbit a n), (Z.testbit b n); reflexivity.
Qed.

Lemma power_up_exp n p left : forall m rest r, 0 <= m ->
  power_up left n (p ^ 2 ^ m :: rest) (2 ^ m) = Ret r ->
  match r with
  | inl e => exists j, 0 <= j /\ e = 2 ^ j
  | inr (ps, ex) => (left = O /\ ps = p ^ 2 ^ m :: rest) \/ (0 <= ex /\ n < p ^ ex)
  end.
Proof.
  induction left as [|left IH]; intros m rest r Hm; cbn [power_up].
  { intros X; inversion X; subst. left; auto. }
  rewrite pow_pow2_S by exact Hm.
  assert (E2 : Z.shiftl (2 ^ m) 1 = 2 ^ (m + 1)).
  { rewrite Z.shiftl_mul_pow2 by lia. rewrite <- Z.pow_add_r; lia. }
  rewrite E2.
  destruct (Z.compare_spec n (p ^ 2 ^ (m + 1))) as [E|E|E].
  - intros X; inversion X; subst. exists (m + 1); split; [lia|reflexivity].
  - intros X; inversion X; subst. right. split; [apply Z.pow_nonneg; lia|exact E].
  - unfold assert_then. destruct (Z.ltb_spec 0 (Z.of_nat left)) as [L|L]; [|discriminate].
    intros X. apply IH in X; [|lia]. destruct r as [e|[ps ex]]; [exact X|].
    destruct X as [[X _]|X]; [subst left; cbn in L; lia|right; exact X].
Qed.

Lemma power_down_exp n powers : forall q e r, 0 <= e -> power_down n powers q e = Ret r -> e <= r.
Proof.
  induction powers as [|c rest IH]; intros q e r He; cbn [power_down]; [discriminate|].
  set (b := Z.shiftl 1 (Z.of_nat (length rest))).
  assert (Hb : 0 <= b) by (apply Z.shiftl_nonneg; lia).
  pose proof (lor_ge e b He Hb) as G.
  destruct (n ?= c * q).
  - intros X; inversion X; subst; exact G.
  - intros X. apply IH in X; lia.
  - apply IH; exact He.
Qed.

Lemma power_of_prime_exp p k m b : 1 < p -> 1 <= k -> power_of_prime (p ^ k) p m = Ret (Some (b, k)) ->
  exists j, 0 <= j /\ k = 2 ^ j.
Proof.
  intros Hp Hk. unfold power_of_prime.
  destruct (bigint_floor_log2 m) as [l|]; cbn [unwrap rbind]; [|discriminate].
  destruct (p ^ k ?= p); [|discriminate|].
  - intros X; inversion X; subst. exists 0; split; [lia|reflexivity].
  - destruct (power_up (Z.to_nat l) (p ^ k) [p] 1) as [o| |] eqn:U; cbn [rbind]; try discriminate.
    assert (U' : power_up (Z.to_nat l) (p ^ k) [p ^ 2 ^ 0] (2 ^ 0) = Ret o).
    { change (2 ^ 0) with 1. rewrite Z.pow_1_r. exact U. }
    apply power_up_exp in U'; [|lia].
    destruct o as [e|[[|q powers] ex]]; [|discriminate|].
    + intros X; inversion X; subst. exact U'.
    + destruct (power_down (p ^ k) powers q ex) as [r| |] eqn:D; cbn [rbind]; try discriminate.
      intros X. assert (r = k) by congruence. subst r. exfalso. destruct U' as [[_ E]|[H0 E]].
      * inversion E; subst. discriminate D.
      * apply power_down_exp in D; [|exact H0].
        assert (p ^ ex <= p ^ k) by (apply Z.pow_le_mono_r; lia). lia.
Qed.

Lemma power_two_log k : (exists j, 0 <= j /\ k = 2 ^ j) -> 1 <= k.
Proof. intros (j & Hj & ->). change 1 with (2 ^ 0). apply Z.pow_le_mono_r; lia. Qed.

Lemma prime_power_exact p k : prime p -> 1 <= k ->
  (is_pseudo_prime_power (p ^ k) = Ret (Some (p, k)) <-> p <= 541 /\ exists j, 0 <= j /\ k = 2 ^ j).
Proof.
  intros Pp Hk. pose proof (prime_ge_2 p Pp) as P2. split.
  - intros H. unfold is_pseudo_prime_power in H.
    destruct (bigint_floor_log2 (p ^ k)) as [m|]; [|discriminate].
    destruct (m =? 0); [discriminate|].
    pose proof (prime_power_loop_sound _ _ _ _ _ H) as [I _].
    split; [exact (proj2 (first_100_range p I))|].
    rewrite (prime_power_loop_finds _ _ _ p first_100_prime Pp) in H; [|exists k; auto|exact I].
    apply power_of_prime_exp in H; [exact H|lia|exact Hk].
  - intros [H (j & Hj & ->)]. apply prime_power_complete_541; assumption.
Qed.

Lemma power_up_returns n left : forall powers e, power_up left n powers e <> NoFuel.
Proof.
  induction left as [|left IH]; intros powers e; cbn [power_up]; [discriminate|].
  destruct powers as [|q powers]; [discriminate|].
  destruct (n ?= q * q); try discriminate.
  unfold assert_then; destruct (0 <? Z.of_nat left); [apply IH|discriminate].
Qed.
Lemma power_down_returns n powers : forall q e, power_down n powers q e <> NoFuel.
Proof.
  induction powers as [|c rest IH]; intros q e; cbn [power_down]; [discriminate|].
  destruct (n ?= c * q); [discriminate|apply IH|apply IH].
Qed.
Lemma power_of_prime_returns n p m : power_of_prime n p m <> NoFuel.
Proof.
  unfold power_of_prime.
  destruct (bigint_floor_log2 m) as [l|]; cbn [unwrap rbind]; [|discriminate].
  destruct (n ?= p); [discriminate|discriminate|].
  destruct (power_up _ _ _ _) as [[o|[[|q powers] ex]]| |] eqn:U; cbn [rbind]; try discriminate.
  - destruct (power_down _ _ _ _) eqn:D; cbn [rbind]; try discriminate. exfalso; exact (power_down_returns _ _ _ _ D).
  - exfalso; exact (power_up_returns _ _ _ _ U).
Qed.
Lemma prime_power_loop_returns n m tbl : prime_power_loop tbl n m <> NoFuel.
Proof.
  induction tbl as [|p tbl IH]; cbn [prime_power_loop]; [discriminate|].
  destruct (n mod p =? 0); [apply power_of_prime_returns|exact IH].
Qed.
Lemma prime_power_returns n : is_pseudo_prime_power n <> NoFuel.
Proof.
  unfold is_pseudo_prime_power. destruct (bigint_floor_log2 n) as [m|]; [|discriminate].
  destruct (m =? 0); [discriminate|apply prime_power_loop_returns].
Qed.

Lemma prime_power_other n : 1 < n ->
  (forall p k, prime p -> p <= 541 -> 1 <= k -> n <> p ^ k) -> is_pseudo_prime_power n = Panic.
Proof.
  intros Hn H. destruct (is_pseudo_prime_power n) as [[[b e]|]| |] eqn:E; [| |reflexivity|].
  - exfalso. unfold is_pseudo_prime_power in E.
    destruct (bigint_floor_log2 n) as [m|]; [|discriminate]. destruct (m =? 0); [discriminate|].
    apply prime_power_loop_sound in E. destruct E as [I (k & Hk & En)].
    exact (H b k (first_100_prime _ I) (proj2 (first_100_range _ I)) Hk En).
  - exfalso. apply prime_power_err in E. lia.
  - exfalso. exact (prime_power_returns n E).
Qed.
