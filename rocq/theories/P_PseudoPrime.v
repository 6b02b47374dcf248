(** Proofs about the pseudo-prime tests. *)
From Coq Require Import ZArith Znumtheory List Bool Lia Sorted.
From Verif Require Import M_Base M_Traits M_ModInt M_PrimeTable M_Util M_PseudoPrime P_Traits P_Util.
Import ListNotations.
Local Open Scope Z_scope.

Lemma square_not_prime n s : s * s = n -> ~ prime n.
Proof.
  intros E P. pose proof (prime_ge_2 n P).
  assert (D : (Z.abs s | n)) by (exists (Z.abs s); nia).
  pose proof (prime_divisors n P _ D). nia.
Qed.

Lemma miller_rabin_loop_not_true b bases n d : miller_rabin_loop (b :: bases) n d <> Ret true.
Proof.
  cbn [miller_rabin_loop]. unfold miller_rabin_base, bigint_modpow.
  destruct ((n =? 0) || (d <? 0)); [discriminate|]. cbn [rbind].
  destruct (_ || _); cbn [rbind negb]; discriminate.
Qed.

Lemma firstn_13 : exists l, firstn 13 primes_u16 = 2 :: l.
Proof. eexists. vm_compute. reflexivity. Qed.

Lemma quick_spec n b : 1 < n -> pseudo_prime_quick n = Some b -> (b = true <-> prime n).
Proof.
  intros Hn. unfold pseudo_prime_quick. destruct (Z.ltb_spec n (2 ^ 128)) as [H|H].
  - apply small_divisors_sound. lia.
  - destruct (existsb _ _) eqn:E; [|discriminate]. intros X; inversion X; subst.
    split; [discriminate|]. intros P. exfalso.
    apply existsb_exists in E. destruct E as (p & Hp & E). apply Z.eqb_eq in E.
    apply table_spec in Hp. destruct Hp as (Pp & Hp). pose proof (prime_ge_2 p Pp).
    assert (D : (p | n)) by (apply Z.mod_divide; [lia|exact E]).
    apply (prime_divisors n P) in D. assert (2 ^ 16 < 2 ^ 128) by (apply Z.pow_lt_mono_r; lia). lia.
Qed.

Lemma is_pseudo_prime_cases n :
  (n <= 1 /\ is_pseudo_prime n = Ret false) \/
  (1 < n /\ exists b, is_pseudo_prime n = Ret b /\ (b = true <-> prime n)
     /\ (Z.sqrt n * Z.sqrt n = n \/ pseudo_prime_quick n = Some b)) \/
  (1 < n /\ pseudo_prime_quick n = None /\ (is_pseudo_prime n = Ret false \/ is_pseudo_prime n = Panic)).
Proof.
  unfold is_pseudo_prime. destruct (Z.leb_spec n 1) as [H|H]; [left; auto|right].
  destruct (Z.eqb_spec (Z.sqrt n * Z.sqrt n) n) as [E|E].
  { left. split; [exact H|]. exists false. repeat split; auto; try discriminate.
    intros P. exfalso. exact (square_not_prime _ _ E P). }
  destruct (pseudo_prime_quick n) as [b|] eqn:Q.
  { left. split; [exact H|]. exists b. split; [reflexivity|]. split; [exact (quick_spec n b H Q)|auto]. }
  right. split; [exact H|]. split; [reflexivity|].
  destruct (bigint_trailing_zeros (n - 1)) as [r|]; cbn [unwrap rbind]; [|auto].
  destruct firstn_13 as (l & ->).
  pose proof (miller_rabin_loop_not_true 2 l n (Z.shiftr (n - 1) r)) as NT.
  set (m := miller_rabin_loop _ _ _) in *.
  assert (NF : m <> NoFuel).
  { unfold m. clear. cbn [miller_rabin_loop]. unfold miller_rabin_base, bigint_modpow.
    destruct (_ || _); cbn [rbind]; [discriminate|]. destruct (_ || _); cbn [rbind negb]; discriminate. }
  destruct m as [[|]| |]; cbn [rbind negb]; [contradiction|auto|auto|contradiction].
Qed.

Lemma is_pseudo_prime_true n : is_pseudo_prime n = Ret true -> prime n.
Proof.
  intros E. destruct (is_pseudo_prime_cases n) as [[_ F]|[(_ & b & F & S & _)|(_ & _ & [F|F])]];
    rewrite F in E; inversion E; subst. apply S; reflexivity.
Qed.

Lemma small_divisors_decides v : 1 < v -> forall tbl,
  small_divisors_loop tbl v = None -> forall p, In p tbl -> p * p <= v.
Proof.
  intros Hv. induction tbl as [|q tbl IH]; [intros _ p []|]. cbn [small_divisors_loop].
  destruct (v =? q); [discriminate|]. destruct (v mod q =? 0); [discriminate|].
  destruct (Z.ltb_spec v (q * q)) as [|H]; [discriminate|]. intros E p [<-|Hp]; [exact H|].
  exact (IH E p Hp).
Qed.

Lemma last_of_100 : nth 99 (firstn 100 primes_u16) 0 = 541.
Proof. vm_compute. reflexivity. Qed.
Lemma in_541 : In 541 (firstn 100 primes_u16).
Proof. rewrite <- last_of_100. apply nth_In. vm_compute. lia. Qed.

Lemma is_pseudo_prime_small n : n < 541 * 541 ->
  exists b, is_pseudo_prime n = Ret b /\ (b = true <-> prime n).
Proof.
  intros Hn. destruct (is_pseudo_prime_cases n) as [[H F]|[(_ & b & F & S & _)|(H & Q & _)]].
  - exists false. split; [exact F|]. split; [discriminate|]. intros P. pose proof (prime_ge_2 n P). lia.
  - exists b. auto.
  - exfalso. unfold pseudo_prime_quick in Q.
    assert (541 * 541 < 2 ^ 128) by reflexivity.
    destruct (Z.ltb_spec n (2 ^ 128)) as [L|L]; [|lia].
    unfold is_prime_check_small_divisors in Q.
    destruct (Z.leb_spec n 1) as [|_]; [discriminate|].
    pose proof (small_divisors_decides n H _ Q 541 in_541). lia.
Qed.

(** In the other direction the test is useless: no number from 541^2 on is
    reported prime. *)
Lemma small_divisors_large v : 541 * 541 <= v -> forall tbl,
  (forall p, In p tbl -> 0 < p <= 541) -> small_divisors_loop tbl v <> Some true.
Proof.
  intros Hv. induction tbl as [|q tbl IH]; intros Hp; cbn [small_divisors_loop]; [discriminate|].
  pose proof (Hp q (or_introl eq_refl)).
  destruct (Z.eqb_spec v q) as [->|_]; [nia|]. destruct (v mod q =? 0); [discriminate|].
  destruct (Z.ltb_spec v (q * q)) as [|_]; [nia|]. apply IH. intros p Hi. apply Hp. right; exact Hi.
Qed.
Lemma first_100_range p : In p (firstn 100 primes_u16) -> 0 < p <= 541.
Proof.
  assert (A : forallb (fun p => (0 <? p) && (p <=? 541)) (firstn 100 primes_u16) = true)
    by (vm_compute; reflexivity).
  rewrite forallb_forall in A. intros H. specialize (A p H).
  apply andb_prop in A. destruct A as [A B]. apply Z.ltb_lt in A. apply Z.leb_le in B. lia.
Qed.
Lemma is_pseudo_prime_large n : 541 * 541 <= n -> is_pseudo_prime n <> Ret true.
Proof.
  intros Hn E. destruct (is_pseudo_prime_cases n) as [[_ F]|[(_ & b & F & S & Q)|(_ & _ & [F|F])]];
    rewrite F in E; inversion E; subst.
  destruct Q as [Q|Q].
  - apply (square_not_prime n _ Q). apply S; reflexivity.
  - unfold pseudo_prime_quick in Q. destruct (n <? 2 ^ 128).
    + unfold is_prime_check_small_divisors in Q. destruct (n <=? 1); [discriminate|].
      exact (small_divisors_large n Hn _ first_100_range Q).
    + destruct (existsb _ _); discriminate.
Qed.

(** 292703 = 3 mod 4 is the first prime above 541^2 reported composite. *)
Lemma is_pseudo_prime_false_negative : exists n, prime n /\ is_pseudo_prime n = Ret false.
Proof.
  exists 292703. split.
  - apply is_prime_u32_spec; [split; [lia|reflexivity]|]. vm_compute. reflexivity.
  - vm_compute. reflexivity.
Qed.

(** * Prime powers *)
Definition is_power (p n : Z) : Prop := exists k, 1 <= k /\ n = p ^ k.
Lemma is_power_mul p a b : is_power p a -> is_power p b -> is_power p (a * b).
Proof.
  intros (k & Hk & ->) (l & Hl & ->). exists (k + l). split; [lia|]. rewrite Z.pow_add_r; lia.
Qed.

Lemma power_up_sound n p left : forall powers e r,
  Forall (is_power p) powers -> power_up left n powers e = Ret r ->
  match r with
  | inl _ => is_power p n
  | inr (l, _) => Forall (is_power p) l
  end.
Proof.
  induction left as [|left IH]; intros powers e r Hp; cbn [power_up].
  { intros X; inversion X; subst. exact Hp. }
  destruct powers as [|q powers]; [discriminate|].
  inversion Hp as [|? ? Hq _]; subst.
  destruct (Z.compare_spec n (q * q)) as [E|E|E].
  - intros X; inversion X; subst. apply is_power_mul; exact Hq.
  - intros X; inversion X; subst. exact Hp.
  - unfold assert_then. destruct (0 <? Z.of_nat left); [|discriminate].
    apply IH. constructor; [apply is_power_mul; exact Hq|exact Hp].
Qed.
Lemma power_down_sound n p powers : forall q e r,
  Forall (is_power p) powers -> is_power p q -> power_down n powers q e = Ret r -> is_power p n.
Proof.
  induction powers as [|c rest IH]; intros q e r Hp Hq; cbn [power_down]; [discriminate|].
  inversion Hp as [|? ? Hc Hr]; subst.
  destruct (Z.compare_spec n (c * q)) as [E|E|E].
  - intros _. rewrite E. apply is_power_mul; assumption.
  - apply IH; [exact Hr|apply is_power_mul; assumption].
  - apply IH; assumption.
Qed.

Lemma power_of_prime_sound n p m b e : power_of_prime n p m = Ret (Some (b, e)) -> b = p /\ is_power p n.
Proof.
  unfold power_of_prime.
  destruct (bigint_floor_log2 m) as [l|]; cbn [unwrap rbind]; [|discriminate].
  assert (Hp : is_power p p) by (exists 1; split; [lia|rewrite Z.pow_1_r; reflexivity]).
  destruct (Z.compare_spec n p) as [E|E|E]; [|discriminate|].
  - intros X; inversion X; subst. auto.
  - destruct (power_up (Z.to_nat l) n [p] 1) as [o| |] eqn:U; cbn [rbind]; try discriminate.
    pose proof (power_up_sound n p _ _ _ _ (Forall_cons _ Hp (Forall_nil _)) U) as S.
    destruct o as [o|[[|q powers] ex]]; [|discriminate|].
    + intros X; inversion X; subst. auto.
    + destruct (power_down n powers q ex) as [r| |] eqn:D; cbn [rbind]; try discriminate.
      intros X; inversion X; subst. split; [reflexivity|].
      inversion S; subst. exact (power_down_sound n b powers q ex e ltac:(assumption) ltac:(assumption) D).
Qed.
Lemma power_of_prime_not_err n p m : power_of_prime n p m <> Ret None.
Proof.
  unfold power_of_prime.
  destruct (bigint_floor_log2 m) as [l|]; cbn [unwrap rbind]; [|discriminate].
  destruct (n ?= p); [discriminate|discriminate|].
  destruct (power_up _ _ _ _) as [[o|[[|q powers] ex]]| |]; cbn [rbind]; try discriminate.
  destruct (power_down _ _ _ _); cbn [rbind]; discriminate.
Qed.

Lemma prime_power_loop_sound n m tbl b e : prime_power_loop tbl n m = Ret (Some (b, e)) ->
  In b tbl /\ is_power b n.
Proof.
  induction tbl as [|p tbl IH]; cbn [prime_power_loop]; [discriminate|].
  destruct (n mod p =? 0).
  - intros H. apply power_of_prime_sound in H. destruct H as [-> H]. split; [left; reflexivity|exact H].
  - intros H. apply IH in H. destruct H; split; [right|]; assumption.
Qed.
Lemma prime_power_loop_not_err n m tbl : prime_power_loop tbl n m <> Ret None.
Proof.
  induction tbl as [|p tbl IH]; cbn [prime_power_loop]; [discriminate|].
  destruct (n mod p =? 0); [apply power_of_prime_not_err|exact IH].
Qed.
Lemma first_100_prime p : In p (firstn 100 primes_u16) -> prime p.
Proof.
  intros H. apply table_spec. rewrite <- (firstn_skipn 100 primes_u16). apply in_or_app. auto.
Qed.

Lemma prime_power_sound n b e : is_pseudo_prime_power n = Ret (Some (b, e)) ->
  prime b /\ exists k, 1 <= k /\ n = b ^ k.
Proof.
  unfold is_pseudo_prime_power. destruct (bigint_floor_log2 n) as [m|]; [|discriminate].
  destruct (m =? 0); [discriminate|]. intros H. apply prime_power_loop_sound in H.
  destruct H as [H1 H2]. split; [exact (first_100_prime _ H1)|exact H2].
Qed.
Lemma prime_power_err n : is_pseudo_prime_power n = Ret None <-> n <= 1.
Proof.
  unfold is_pseudo_prime_power. pose proof (bigint_floor_log2_spec n) as S.
  destruct (bigint_floor_log2 n) as [m|]; [|split; [intros _; lia|reflexivity]].
  destruct S as (Hn & Hm & Hl & Hu). destruct (Z.eqb_spec m 0) as [->|Hm0].
  - split; [intros _; change (2 ^ (0 + 1)) with 2 in Hu; lia|reflexivity].
  - split; [intros H; exfalso; exact (prime_power_loop_not_err _ _ _ H)|]. intros H. exfalso.
    assert (2 ^ 1 <= 2 ^ m) by (apply Z.pow_le_mono_r; lia). change (2 ^ 1) with 2 in H0. lia.
Qed.

(** The exponents that are powers of two are found. *)
Lemma pow_pow2_S p i : 0 <= i -> p ^ 2 ^ i * p ^ 2 ^ i = p ^ 2 ^ (i + 1).
Proof.
  intros Hi. rewrite <- Z.pow_add_r by (apply Z.pow_nonneg; lia). f_equal.
  rewrite Z.pow_add_r by lia. change (2 ^ 1) with 2. lia.
Qed.
Lemma power_up_complete p j : 1 < p -> forall left i rest, 0 <= i < j -> (Z.to_nat (j - i) <= left)%nat ->
  power_up left (p ^ 2 ^ j) (p ^ 2 ^ i :: rest) (2 ^ i) = Ret (inl (2 ^ j)).
Proof.
  intros Hp. induction left as [|left IH]; intros i rest Hi Hl; [lia|]. cbn [power_up].
  rewrite pow_pow2_S by lia. rewrite Z.shiftl_mul_pow2 by lia.
  replace (2 ^ i * 2 ^ 1) with (2 ^ (i + 1)) by (rewrite Z.pow_add_r; lia).
  destruct (Z.eq_dec (i + 1) j) as [<-|Hne].
  - rewrite Z.compare_refl. reflexivity.
  - assert (L : p ^ 2 ^ (i + 1) < p ^ 2 ^ j).
    { apply Z.pow_lt_mono_r; [lia|apply Z.pow_nonneg; lia|]. apply Z.pow_lt_mono_r; lia. }
    destruct (Z.compare_spec (p ^ 2 ^ j) (p ^ 2 ^ (i + 1))) as [E|E|E]; [lia|lia|].
    assert (A : (0 <? Z.of_nat left) = true) by (apply Z.ltb_lt; lia).
    unfold assert_then. rewrite A. apply IH; lia.
Qed.
Lemma prime_divides_power q p k : prime q -> prime p -> 0 <= k -> (q | p ^ k) -> q = p.
Proof.
  intros Pq Pp Hk. pattern k. apply natlike_ind; [| |exact Hk].
  - rewrite Z.pow_0_r. intros D. pose proof (prime_ge_2 q Pq). apply Z.divide_1_r_nonneg in D; lia.
  - intros i Hi IH D. rewrite Z.pow_succ_r in D by exact Hi.
    destruct (prime_mult q Pq _ _ D) as [E|E]; [exact (prime_div_prime q p Pq Pp E)|exact (IH E)].
Qed.
Lemma prime_power_loop_finds tbl n m p : (forall q, In q tbl -> prime q) -> prime p -> is_power p n ->
  In p tbl -> prime_power_loop tbl n m = power_of_prime n p m.
Proof.
  intros Ht Pp (k & Hk & ->). induction tbl as [|q tbl IH]; intros Hi; [contradiction|].
  cbn [prime_power_loop]. pose proof (Ht q (or_introl eq_refl)) as Pq. pose proof (prime_ge_2 q Pq).
  destruct (Z.eqb_spec (p ^ k mod q) 0) as [E|E].
  - apply Z.mod_divide in E; [|lia]. apply prime_divides_power in E; [subst; reflexivity|exact Pq|exact Pp|lia].
  - apply IH; [intros r Hr; apply Ht; right; exact Hr|]. destruct Hi as [<-|Hi]; [|exact Hi].
    exfalso. apply E. apply Z.mod_divide; [lia|].
    exists (q ^ (k - 1)). rewrite Z.mul_comm, <- Z.pow_succ_r by lia. f_equal; lia.
Qed.
Lemma prime_power_complete p j : In p (firstn 100 primes_u16) -> 0 <= j ->
  is_pseudo_prime_power (p ^ 2 ^ j) = Ret (Some (p, 2 ^ j)).
Proof.
  intros Hp Hj. pose proof (first_100_prime _ Hp) as Pp. pose proof (prime_ge_2 p Pp) as P2.
  unfold is_pseudo_prime_power.
  assert (J : 1 <= 2 ^ j) by (change 1 with (2 ^ 0); apply Z.pow_le_mono_r; lia).
  assert (L : 2 ^ 2 ^ j <= p ^ 2 ^ j) by (apply Z.pow_le_mono_l; lia).
  pose proof (bigint_floor_log2_spec (p ^ 2 ^ j)) as S.
  destruct (bigint_floor_log2 (p ^ 2 ^ j)) as [m|].
  2:{ assert (0 < p ^ 2 ^ j) by (apply Z.pow_pos_nonneg; lia). lia. }
  destruct S as (Hn & Hm & Hl & Hu).
  assert (M : 2 ^ j <= m).
  { assert (2 ^ 2 ^ j < 2 ^ (m + 1)) by lia. apply Z.pow_lt_mono_r_iff in H; lia. }
  destruct (Z.eqb_spec m 0) as [->|_]; [lia|].
  rewrite (prime_power_loop_finds _ _ _ p first_100_prime Pp); [|exists (2 ^ j); auto|exact Hp].
  unfold power_of_prime. pose proof (bigint_floor_log2_spec m) as S.
  destruct (bigint_floor_log2 m) as [l|]; [|lia]. cbn [unwrap rbind].
  destruct S as (_ & Hl0 & Hl1 & Hl2).
  assert (JL : j <= l).
  { assert (2 ^ j < 2 ^ (l + 1)) by lia. apply Z.pow_lt_mono_r_iff in H; lia. }
  destruct (Z.eq_dec j 0) as [->|Hj0].
  - change (2 ^ 0) with 1. rewrite Z.pow_1_r, Z.compare_refl. reflexivity.
  - assert (G : p ^ 1 < p ^ 2 ^ j).
    { apply Z.pow_lt_mono_r; [lia|lia|]. change 1 with (2 ^ 0). apply Z.pow_lt_mono_r; lia. }
    rewrite Z.pow_1_r in G.
    destruct (Z.compare_spec (p ^ 2 ^ j) p) as [E|E|E]; [lia|lia|].
    pose proof (power_up_complete p j ltac:(lia) (Z.to_nat l) 0 [] ltac:(lia) ltac:(lia)) as U.
    change (2 ^ 0) with 1 in U. rewrite Z.pow_1_r in U. rewrite U. reflexivity.
Qed.

Lemma prime_power_wrong_exponent : exists n b e,
  is_pseudo_prime_power n = Ret (Some (b, e)) /\ b ^ e <> n.
Proof. exists 27, 3, 5. split; [vm_compute; reflexivity|]. vm_compute. discriminate. Qed.
Lemma prime_power_panics : exists p k, prime p /\ 1 <= k /\ is_pseudo_prime_power (p ^ k) = Panic.
Proof. exists 2, 3. split; [exact prime_2|]. split; [lia|]. vm_compute. reflexivity. Qed.
Lemma first_100_all p : prime p -> p <= 541 -> In p (firstn 100 primes_u16).
Proof.
  intros Pp Hp. assert (I : In p primes_u16) by (apply table_spec; split; [exact Pp|lia]).
  pose proof table_sorted as T. rewrite <- (firstn_skipn 100 primes_u16) in I, T.
  apply in_app_or in I. destruct I as [I|I]; [exact I|]. exfalso.
  pose proof in_541 as J. revert T I J.
  generalize (skipn 100 primes_u16) as m. generalize (firstn 100 primes_u16) as l.
  induction l as [|z l IH]; intros m T I J; [contradiction|].
  cbn [app] in T. inversion T as [|? ? T' A]; subst. destruct J as [->|J].
  - rewrite Forall_forall in A. specialize (A p (in_or_app _ _ _ (or_intror I))). lia.
  - exact (IH m T' I J).
Qed.
Lemma prime_power_complete_541 p j : prime p -> p <= 541 -> 0 <= j ->
  is_pseudo_prime_power (p ^ 2 ^ j) = Ret (Some (p, 2 ^ j)).
Proof. intros Pp Hp. apply prime_power_complete. exact (first_100_all p Pp Hp). Qed.
