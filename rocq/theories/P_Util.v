(** Proofs about M_Util: primes below 2^32, signs, subset enumeration. *)
From Coq Require Import ZArith List Bool Lia Znumtheory Sorted Wf_Z.
From Verif Require Import M_Base M_Traits M_PrimeTable M_Util S_Int.
Import ListNotations.
Local Open Scope Z_scope.

(** ** prime divisors *)

Lemma prime_divisor_exists n : 1 < n -> exists p, prime p /\ (p | n).
Proof.
  assert (H : forall m, 0 <= m -> forall n, 1 < n <= m -> exists p, prime p /\ (p | n)).
  { apply (natlike_ind (fun m => forall n, 1 < n <= m -> exists p, prime p /\ (p | n))).
    - intros; lia.
    - intros m Hm IH k Hk. destruct (prime_dec k) as [P|P].
      + exists k. split; [exact P|apply Z.divide_refl].
      + apply not_prime_divide in P; [|lia]. destruct P as (d & Hd & D).
        destruct (IH d) as (p & Pp & Dp); [lia|].
        exists p. split; [exact Pp|]. apply Z.divide_trans with d; assumption. }
  intros Hn. apply (H n); lia.
Qed.

Lemma composite_small_prime n : 1 < n -> ~ prime n ->
  exists p, prime p /\ (p | n) /\ p * p <= n /\ p <> n.
Proof.
  intros Hn P. apply not_prime_divide in P; [|exact Hn].
  destruct P as (d & Hd & [e He]).
  assert (He' : 1 < e < n) by nia.
  destruct (Z.le_gt_cases (d * d) n) as [H|H].
  - destruct (prime_divisor_exists d) as (p & Pp & Dp); [lia|].
    exists p. pose proof (prime_ge_2 p Pp).
    assert (p <= d) by (apply Z.divide_pos_le; [lia|exact Dp]).
    split; [exact Pp|]. split; [|split; [nia|lia]].
    apply Z.divide_trans with d; [exact Dp|exists e; lia].
  - destruct (prime_divisor_exists e) as (p & Pp & Dp); [lia|].
    exists p. pose proof (prime_ge_2 p Pp).
    assert (p <= e) by (apply Z.divide_pos_le; [lia|exact Dp]).
    assert (e * e <= n) by nia.
    split; [exact Pp|]. split; [|split; [nia|lia]].
    apply Z.divide_trans with e; [exact Dp|exists d; lia].
Qed.

(** ** the table is exactly the primes below 2^16 *)

Fixpoint trial (ds : list Z) (n : Z) : bool :=
  match ds with
  | [] => true
  | d :: ds' => if n <? d * d then true else if n mod d =? 0 then false else trial ds' n
  end.

Lemma trial_true ds n : Sorted Z.lt ds -> (forall d, In d ds -> 0 < d) -> trial ds n = true ->
  forall d, In d ds -> d * d <= n -> ~ (d | n).
Proof.
  induction ds as [|d0 ds IH]; intros Hs Hpos Ht d Hin Hd; [contradiction|].
  apply Sorted_StronglySorted in Hs; [|exact Z.lt_trans].
  inversion Hs as [|? ? Hss Hall]; subst.
  cbn [trial] in Ht.
  assert (H0 : 0 < d0) by (apply Hpos; left; reflexivity).
  destruct (Z.ltb_spec n (d0 * d0)) as [Hlt|Hlt].
  - destruct Hin as [<-|Hin]; [lia|].
    rewrite Forall_forall in Hall. specialize (Hall d Hin). nia.
  - destruct (Z.eqb_spec (n mod d0) 0) as [E|E]; [discriminate|].
    destruct Hin as [<-|Hin].
    + intros D. apply E. apply Z.mod_divide; [lia|exact D].
    + apply IH; try assumption.
      * apply StronglySorted_Sorted; assumption.
      * intros; apply Hpos; right; assumption.
Qed.

Lemma trial_false ds n : (forall d, In d ds -> 1 < d) -> trial ds n = false ->
  exists d, 1 < d < n /\ (d | n).
Proof.
  induction ds as [|d0 ds IH]; intros Hpos Ht; cbn [trial] in Ht; [discriminate|].
  assert (H0 : 1 < d0) by (apply Hpos; left; reflexivity).
  destruct (Z.ltb_spec n (d0 * d0)) as [Hlt|Hlt]; [discriminate|].
  destruct (Z.eqb_spec (n mod d0) 0) as [E|E].
  - exists d0. split; [nia|]. apply Z.mod_divide; [lia|exact E].
  - apply IH; [|exact Ht]. intros; apply Hpos; right; assumption.
Qed.

Fixpoint zrange' (a : Z) (n : nat) : list Z :=
  match n with O => [] | S n => a :: zrange' (a + 1) n end.
Lemma in_zrange' n : forall a x, In x (zrange' a n) <-> a <= x < a + Z.of_nat n.
Proof.
  induction n as [|n IH]; intros a x; cbn [zrange' In].
  - lia.
  - rewrite IH. lia.
Qed.
Lemma Sorted_zrange' n : forall a, StronglySorted Z.lt (zrange' a n).
Proof.
  induction n as [|n IH]; intros a; cbn [zrange']; constructor; [apply IH|].
  apply Forall_forall. intros x Hx. apply in_zrange' in Hx. lia.
Qed.

Lemma StronglySorted_filter (f : Z -> bool) l :
  StronglySorted Z.lt l -> StronglySorted Z.lt (filter f l).
Proof.
  induction 1 as [|a l H IH Hall]; cbn [filter]; [constructor|].
  destruct (f a); [|exact IH]. constructor; [exact IH|].
  rewrite Forall_forall in *. intros x Hx. apply filter_In in Hx. apply Hall. tauto.
Qed.

Lemma trial_prime ds n : 2 <= n -> Sorted Z.lt ds -> (forall d, In d ds -> 1 < d) ->
  (forall p, prime p -> p * p <= n -> In p ds) -> (trial ds n = true <-> prime n).
Proof.
  intros Hn Hs Hgt Hin. split.
  - intros Ht. destruct (prime_dec n) as [P|P]; [exact P|exfalso].
    destruct (composite_small_prime n) as (p & Pp & Dp & Hp & _); [lia|exact P|].
    revert Dp. apply (trial_true ds); try assumption.
    + intros d Hd. specialize (Hgt d Hd). lia.
    + apply Hin; assumption.
  - intros P. destruct (trial ds n) eqn:E; [reflexivity|exfalso].
    apply trial_false in E; [|exact Hgt].
    destruct E as (d & Hd & D). apply (prime_divisors n P) in D. lia.
Qed.

(** primes below 256 *)
Definition small_ds : list Z := Eval vm_compute in filter (trial (zrange' 2 14)) (zrange' 2 254).
Lemma small_ds_eq : small_ds = filter (trial (zrange' 2 14)) (zrange' 2 254).
Proof. vm_compute. reflexivity. Qed.

Lemma small_ds_spec p : In p small_ds <-> prime p /\ p < 256.
Proof.
  rewrite small_ds_eq, filter_In, in_zrange'.
  assert (H : 2 <= p < 256 -> (trial (zrange' 2 14) p = true <-> prime p)).
  { intros Hp. apply trial_prime; [lia| | |].
    - apply StronglySorted_Sorted, Sorted_zrange'.
    - intros d Hd. apply in_zrange' in Hd. lia.
    - intros q Pq Hq. pose proof (prime_ge_2 q Pq). apply in_zrange'. nia. }
  split.
  - intros [H1 H2]. split; [apply H; [lia|exact H2]|lia].
  - intros [P Hp]. pose proof (prime_ge_2 p P). split; [lia|]. apply H; [lia|exact P].
Qed.

(** A sieve over the odd numbers 3, 5, 7, ...: [strike p c l] clears the cells
    c, c+p, c+2p, ... of [l]. *)
Fixpoint strike (p c : nat) (l : list bool) : list bool :=
  match l with
  | [] => []
  | b :: l' => match c with
               | O => false :: strike p (pred p) l'
               | S c' => b :: strike p c' l'
               end
  end.

Definition struck (p c i : nat) : Prop := exists k, i = (c + k * p)%nat.

Lemma strike_spec p : (0 < p)%nat -> forall l c i, (i < length l)%nat ->
  (nth i (strike p c l) false = true <-> nth i l false = true /\ ~ struck p c i).
Proof.
  intros Hp. induction l as [|b l IH]; intros c i Hi; [cbn in Hi; lia|].
  cbn [strike]. destruct c as [|c].
  - destruct i as [|i]; cbn [nth].
    + split; [discriminate|]. intros [_ H]. exfalso. apply H. exists 0%nat. reflexivity.
    + cbn [length] in Hi. rewrite IH by lia.
      assert (E : struck p (pred p) i <-> struck p 0 (S i)).
      { split; intros [k Hk]; [exists (S k); cbn; lia|].
        destruct k as [|k]; [cbn in Hk; lia|]. exists k. cbn in Hk. lia. }
      rewrite E. reflexivity.
  - destruct i as [|i]; cbn [nth].
    + split; [|tauto]. intros H. split; [exact H|]. intros [k Hk]. lia.
    + cbn [length] in Hi. rewrite IH by lia.
      assert (E : struck p c i <-> struck p (S c) (S i)).
      { split; intros [k Hk]; exists k; lia. }
      rewrite E. reflexivity.
Qed.

Lemma strike_length p l : forall c, length (strike p c l) = length l.
Proof. induction l as [|b l IH]; intros c; cbn; [reflexivity|]. destruct c; cbn; rewrite IH; reflexivity. Qed.

(** first odd multiple of p beyond p is 3p, in cell (3p-3)/2 *)
Definition strike_all (ps : list nat) (l : list bool) : list bool :=
  fold_left (fun l p => strike p (p + Nat.div2 (p - 3)) l) ps l.

Lemma strike_all_spec ps : (forall p, In p ps -> (0 < p)%nat) -> forall l i, (i < length l)%nat ->
  (nth i (strike_all ps l) false = true <->
   nth i l false = true /\ forall p, In p ps -> ~ struck p (p + Nat.div2 (p - 3)) i).
Proof.
  unfold strike_all. induction ps as [|p ps IH]; intros Hp l i Hi; cbn [fold_left].
  - split; [intros H; split; [exact H|intros p []]|tauto].
  - rewrite IH; [|intros; apply Hp; right; assumption|rewrite strike_length; exact Hi].
    rewrite strike_spec; [|apply Hp; left; reflexivity|exact Hi].
    split.
    + intros [[H1 H2] H3]. split; [exact H1|]. intros q [<-|Hq]; auto.
    + intros [H1 H2]. split; [split; [exact H1|apply H2; left; reflexivity]|].
      intros q Hq. apply H2. right; exact Hq.
Qed.

Fixpoint collect (v : Z) (l : list bool) : list Z :=
  match l with
  | [] => []
  | b :: l' => if b then v :: collect (v + 2) l' else collect (v + 2) l'
  end.

Lemma collect_spec l : forall v x, In x (collect v l) <->
  exists i, (i < length l)%nat /\ x = v + 2 * Z.of_nat i /\ nth i l false = true.
Proof.
  induction l as [|b l IH]; intros v x; cbn [collect].
  - split; [intros []|intros (i & Hi & _); cbn in Hi; lia].
  - assert (E : In x (collect (v + 2) l) <-> exists i, (S i < length (b :: l))%nat /\ x = v + 2 * Z.of_nat (S i) /\ nth (S i) (b :: l) false = true).
    { rewrite IH. split; intros (i & Hi & Hx & Hn); exists i; cbn [length nth] in *; repeat split; try lia; assumption. }
    destruct b; cbn [In]; rewrite E; split.
    + intros [<-|(i & H)]; [exists 0%nat; cbn [length nth]; repeat split; lia|exists (S i); exact H].
    + intros ([|i] & Hi & Hx & Hn); [left; lia|right; exists i; auto].
    + intros (i & H). exists (S i). exact H.
    + intros ([|i] & Hi & Hx & Hn); [discriminate|exists i; auto].
Qed.

Lemma collect_sorted l : forall v, StronglySorted Z.lt (collect v l).
Proof.
  induction l as [|b l IH]; intros v; cbn [collect]; [constructor|].
  destruct b; [|apply IH]. constructor; [apply IH|].
  apply Forall_forall. intros x Hx. apply collect_spec in Hx. destruct Hx as (i & _ & -> & _). lia.
Qed.

Definition odd_small : list nat := Eval vm_compute in map Z.to_nat (tl small_ds).
Lemma odd_small_spec p : In p odd_small <-> prime (Z.of_nat p) /\ (3 <= p < 256)%nat.
Proof.
  change odd_small with (map Z.to_nat (tl small_ds)).
  assert (E : forall x, In x (tl small_ds) <-> In x small_ds /\ x <> 2).
  { intros x. assert (Hn : ~ In 2 (tl small_ds)).
    { cbn. intros H. repeat (destruct H as [H|H]; [discriminate H|]). exact H. }
    split.
    - intros H. split; [right; exact H|]. intros ->. contradiction.
    - intros [[H|H] Hx]; [congruence|exact H]. }
  rewrite in_map_iff. split.
  - intros (x & <- & Hx). apply E in Hx as [Hx H2]. apply small_ds_spec in Hx as [P Hx].
    pose proof (prime_ge_2 x P). rewrite Z2Nat.id by lia. split; [exact P|lia].
  - intros [P Hp]. exists (Z.of_nat p). split; [lia|]. apply E. split; [|lia].
    apply small_ds_spec. split; [exact P|lia].
Qed.

Lemma table_eq : 2 :: collect 3 (strike_all odd_small (repeat true (Z.to_nat 32767))) = primes_u16.
Proof. vm_compute. reflexivity. Qed.

Lemma prime_even p : prime p -> p mod 2 = 0 -> p = 2.
Proof.
  intros P E. apply Z.mod_divide in E; [|lia].
  apply (prime_divisors p P) in E. pose proof (prime_ge_2 p P). lia.
Qed.

Lemma prime_odd p : prime p -> p <> 2 -> exists k, p = 2 * k + 1.
Proof.
  intros P H. pose proof (Z.mod_pos_bound p 2 ltac:(lia)).
  destruct (Z.eq_dec (p mod 2) 0) as [E|E]; [exfalso; apply H, prime_even; assumption|].
  exists (p / 2). pose proof (Z.div_mod p 2 ltac:(lia)). lia.
Qed.

(** cell i is struck by p iff 3+2i is an odd multiple kp with k >= 3 *)
Lemma struck_iff p i : prime (Z.of_nat p) -> (3 <= p)%nat ->
  (struck p (p + Nat.div2 (p - 3)) i <-> exists k, 1 < k /\ 3 + 2 * Z.of_nat i = k * Z.of_nat p).
Proof.
  intros P Hp. destruct (prime_odd _ P) as [h Hh]; [lia|].
  assert (Hd : Z.of_nat (Nat.div2 (p - 3)) = h - 1).
  { rewrite Nat.div2_div, Nat2Z.inj_div, Nat2Z.inj_sub by lia. change (Z.of_nat 3) with 3.
    change (Z.of_nat 2) with 2. replace (Z.of_nat p - 3) with ((h - 1) * 2) by lia.
    apply Z.div_mul. lia. }
  split.
  - intros [k Hk]. exists (3 + 2 * Z.of_nat k). split; [lia|].
    rewrite Hk, !Nat2Z.inj_add, Nat2Z.inj_mul, Hd. rewrite Hh. ring.
  - intros (k & Hk & E).
    assert (Hko : exists j, k = 2 * j + 1).
    { exists (k / 2). pose proof (Z.div_mod k 2 ltac:(lia)).
      pose proof (Z.mod_pos_bound k 2 ltac:(lia)).
      assert (k mod 2 <> 0); [|lia]. intros E0.
      assert (k = 2 * (k / 2)) by lia. set (j := k / 2) in *. clearbody j. subst k.
      replace (2 * j * Z.of_nat p) with (2 * (j * Z.of_nat p)) in E by ring. lia. }
    destruct Hko as [j Hj].
    exists (Z.to_nat (j - 1)). apply Nat2Z.inj.
    rewrite !Nat2Z.inj_add, Nat2Z.inj_mul, Hd, Z2Nat.id by lia.
    subst k. rewrite Hh in E |- *. nia.
Qed.

Lemma table_spec p : In p primes_u16 <-> prime p /\ p < 65536.
Proof.
  rewrite <- table_eq. cbn [In]. rewrite collect_spec.
  assert (Hlen : length (strike_all odd_small (repeat true (Z.to_nat 32767))) = Z.to_nat 32767).
  { unfold strike_all. generalize odd_small. intros ps.
    assert (H : forall l, length (fold_left (fun l p => strike p (p + Nat.div2 (p - 3)) l) ps l) = length l).
    { induction ps as [|q ps IH]; intros l; cbn [fold_left]; [reflexivity|].
      rewrite IH. apply strike_length. }
    rewrite H. apply repeat_length. }
  rewrite Hlen.
  assert (Hcell : forall i, (i < Z.to_nat 32767)%nat ->
    (nth i (strike_all odd_small (repeat true (Z.to_nat 32767))) false = true <->
     prime (3 + 2 * Z.of_nat i))).
  { intros i Hi. rewrite strike_all_spec.
    2:{ intros q Hq. apply odd_small_spec in Hq. lia. }
    2:{ rewrite repeat_length. exact Hi. }
    set (v := 3 + 2 * Z.of_nat i). assert (Hv : 2 < v < 65536) by lia.
    split.
    - intros [_ H]. destruct (prime_dec v) as [P|P]; [exact P|exfalso].
      destruct (composite_small_prime v) as (q & Pq & [k Hk] & Hq & Hne); [lia|exact P|].
      pose proof (prime_ge_2 q Pq).
      assert (q <> 2) by lia.
      apply (H (Z.to_nat q)).
      + apply odd_small_spec. rewrite Z2Nat.id by lia. split; [exact Pq|nia].
      + apply struck_iff; rewrite ?Z2Nat.id by lia; [exact Pq|lia|].
        exists k. split; [nia|exact Hk].
    - intros P. split.
      + rewrite nth_indep with (d' := true) by (rewrite repeat_length; exact Hi). apply nth_repeat.
      + intros q Hq S. apply odd_small_spec in Hq as [Pq Hq]. apply struck_iff in S; [|exact Pq|lia].
        destruct S as (k & Hk & E). fold v in E.
        assert (D : (Z.of_nat q | v)) by (exists k; exact E).
        apply (prime_divisors v P) in D. nia. }
  split.
  - intros [<-|(i & Hi & -> & Hn)]; [split; [apply prime_2|lia]|].
    apply Hcell in Hn; [|exact Hi]. split; [exact Hn|lia].
  - intros [P Hp]. destruct (Z.eq_dec p 2) as [->|H2]; [left; reflexivity|right].
    destruct (prime_odd p P H2) as [k Hk]. pose proof (prime_ge_2 p P).
    exists (Z.to_nat (k - 1)). split; [lia|]. split; [lia|].
    apply Hcell; [lia|]. replace (3 + 2 * Z.of_nat (Z.to_nat (k - 1))) with p by lia. exact P.
Qed.

Lemma table_sorted : StronglySorted Z.lt primes_u16.
Proof.
  rewrite <- table_eq. constructor; [apply collect_sorted|].
  apply Forall_forall. intros x Hx. apply collect_spec in Hx. destruct Hx as (i & _ & -> & _). lia.
Qed.

(** ** is_prime_u32 *)

Lemma is_prime_loop_spec v : 1 < v < 2 ^ 32 -> forall rest,
  StronglySorted Z.lt rest -> (forall p, In p rest -> prime p) ->
  (forall p, prime p -> p < 65536 -> ~ In p rest -> ~ (p | v)) ->
  (is_prime_loop rest v = true <-> prime v).
Proof.
  intros Hv. induction rest as [|p rest IH]; intros Hs Hp Hdone; cbn [is_prime_loop].
  - split; [intros _|reflexivity].
    destruct (prime_dec v) as [P|P]; [exact P|exfalso].
    destruct (composite_small_prime v) as (q & Pq & Dq & Hq & _); [lia|exact P|].
    pose proof (prime_ge_2 q Pq). apply (Hdone q); try assumption; [nia|intros []].
  - inversion Hs as [|? ? Hss Hall]; subst.
    assert (Pp : prime p) by (apply Hp; left; reflexivity).
    pose proof (prime_ge_2 p Pp).
    destruct (Z.eqb_spec v p) as [->|Hne]; [tauto|].
    destruct (Z.eqb_spec (v mod p) 0) as [E|E].
    + split; [discriminate|]. intros Pv. exfalso.
      assert (D : (p | v)) by (apply Z.mod_divide; [lia|exact E]).
      apply (prime_divisors v Pv) in D. lia.
    + assert (ND : ~ (p | v)) by (intros D; apply E; apply Z.mod_divide; [lia|exact D]).
      destruct (Z.ltb_spec v (p * p)) as [Hlt|Hge].
      * split; [intros _|reflexivity].
        destruct (prime_dec v) as [P|P]; [exact P|exfalso].
        destruct (composite_small_prime v) as (q & Pq & Dq & Hq & _); [lia|exact P|].
        pose proof (prime_ge_2 q Pq). apply (Hdone q); try assumption; [nia|].
        intros [->|Hin]; [lia|]. rewrite Forall_forall in Hall. specialize (Hall q Hin). nia.
      * apply IH; [exact Hss|intros; apply Hp; right; assumption|].
        intros q Pq Hq Hnin Dq.
        destruct (Z.eq_dec p q) as [->|Hpq]; [contradiction|].
        apply (Hdone q); try assumption. intros [?|?]; [contradiction|tauto].
Qed.

Lemma is_prime_u32_spec v : 0 <= v < 2 ^ 32 -> (is_prime_u32 v = true <-> prime v).
Proof.
  intros Hv. unfold is_prime_u32. destruct (Z.leb_spec v 1) as [H|H].
  - split; [discriminate|]. intros P. pose proof (prime_ge_2 v P). lia.
  - apply is_prime_loop_spec; [lia|apply table_sorted| |].
    + intros p Hp. apply table_spec in Hp. tauto.
    + intros p Pp Hp Hn. exfalso. apply Hn. apply table_spec. auto.
Qed.

(** ** prev_prime *)

Lemma prev_loop_spec fuel : forall v, 3 <= v < 2 ^ 32 -> v mod 2 = 1 ->
  match prev_prime_loop fuel v with
  | Ret p => prime p /\ p <= v /\ (forall q, prime q -> q <= v -> q <= p)
  | Panic => False
  | NoFuel => (Z.of_nat fuel < v - 2)
  end.
Proof.
  induction fuel as [|fuel IH]; intros v Hv Hodd; cbn [prev_prime_loop];
    destruct (is_prime_u32 v) eqn:E.
  1,3: apply is_prime_u32_spec in E; [|lia]; repeat match goal with |- _ /\ _ => split end; try lia; try assumption; intros; lia.
  - lia.
  - assert (NP : ~ prime v).
    { intros P. apply is_prime_u32_spec in P; [|lia]. congruence. }
    destruct (Z.ltb_spec v 2); [lia|].
    destruct (Z.eq_dec v 3) as [->|]; [exfalso; apply NP, prime_3|].
    assert (v <> 4) by (intros ->; discriminate Hodd).
    specialize (IH (v - 2) ltac:(lia)).
    assert (Hodd' : (v - 2) mod 2 = 1).
    { replace (v - 2) with (v + (-1) * 2) by ring. rewrite Z.mod_add by lia. exact Hodd. }
    specialize (IH Hodd').
    destruct (prev_prime_loop fuel (v - 2)) as [p| |]; [|exact IH|lia].
    destruct IH as (Pp & Hp & Hmax). repeat match goal with |- _ /\ _ => split end; [exact Pp|lia|].
    intros q Pq Hq. destruct (Z.le_gt_cases q (v - 2)) as [|Hgt]; [apply Hmax; assumption|].
    destruct (Z.eq_dec q v) as [->|]; [contradiction|].
    assert (q = v - 1) by lia. subst q.
    assert (v - 1 = 2).
    { apply prime_even; [exact Pq|]. replace (v - 1) with (v - 2 + 1) by ring.
      rewrite Z.add_mod, Hodd' by lia. reflexivity. }
    assert (2 <= p) by (apply prime_ge_2; exact Pp). lia.
Qed.

Lemma lor_1 v : Z.lor v 1 = if v mod 2 =? 0 then v + 1 else v.
Proof.
  rewrite Zmod_even. destruct v as [|p|p]; [reflexivity| |].
  - destruct p; cbn; try reflexivity; f_equal; lia.
  - destruct p as [p|p|]; try reflexivity. cbn. destruct p; reflexivity.
Qed.

Lemma prev_prime_u32_spec fuel v : 0 <= v < 2 ^ 32 ->
  match prev_prime_u32 fuel v with
  | Ret r => is_prev_prime v r
  | Panic => False
  | NoFuel => Z.of_nat fuel < v
  end.
Proof.
  intros Hv. unfold prev_prime_u32.
  destruct (Z.leb_spec v 2) as [H2|H2].
  { intros q Pq Hq. pose proof (prime_ge_2 q Pq). lia. }
  destruct (Z.eqb_spec v 3) as [->|H3].
  { cbn. repeat match goal with |- _ /\ _ => split end; [apply prime_2|lia|intros; lia]. }
  rewrite lor_1.
  pose proof (Z.mod_pos_bound v 2 ltac:(lia)) as Hb.
  destruct (Z.eqb_spec (v mod 2) 0) as [E|E].
  - replace (v + 1 - 2) with (v - 1) by ring.
    assert (Ho : (v - 1) mod 2 = 1).
    { replace (v - 1) with (v + 1 + (-1) * 2) by ring. rewrite Z.mod_add, Z.add_mod, E by lia. reflexivity. }
    pose proof (prev_loop_spec fuel (v - 1) ltac:(lia) Ho) as HL.
    destruct (prev_prime_loop fuel (v - 1)) as [p| |]; cbn; [|exact HL|lia].
    destruct HL as (Pp & Hp & Hm). repeat match goal with |- _ /\ _ => split end; [exact Pp|lia|intros; apply Hm; [assumption|lia]].
  - assert (E1 : v mod 2 = 1) by lia.
    assert (v <> 4) by (intros ->; discriminate E1).
    assert (Ho : (v - 2) mod 2 = 1).
    { replace (v - 2) with (v + (-1) * 2) by ring. rewrite Z.mod_add by lia. exact E1. }
    pose proof (prev_loop_spec fuel (v - 2) ltac:(lia) Ho) as HL.
    destruct (prev_prime_loop fuel (v - 2)) as [p| |]; cbn; [|exact HL|lia].
    destruct HL as (Pp & Hp & Hm). repeat match goal with |- _ /\ _ => split end; [exact Pp|lia|].
    intros q Pq Hq. destruct (Z.eq_dec q (v - 1)) as [->|]; [|apply Hm; [assumption|lia]].
    assert (v - 1 = 2); [|lia].
    apply prime_even; [exact Pq|]. replace (v - 1) with (v - 2 + 1) by ring.
    rewrite Z.add_mod, Ho by lia. reflexivity.
Qed.

Lemma prev_prime_i32_spec fuel v : - 2 ^ 31 <= v < 2 ^ 31 ->
  match prev_prime_i32 fuel v with
  | Ret r => is_prev_prime v r
  | Panic => False
  | NoFuel => Z.of_nat fuel < v
  end.
Proof.
  intros Hv. unfold prev_prime_i32. destruct (Z.ltb_spec v 0).
  - intros q Pq Hq. pose proof (prime_ge_2 q Pq). lia.
  - apply prev_prime_u32_spec. lia.
Qed.

(** ** next_prime *)

Lemma biggest_prime_u32 : prime 4294967291.
Proof. apply is_prime_u32_spec; [lia|]. vm_compute. reflexivity. Qed.

Lemma biggest_prime_i32 : prime 2147483647.
Proof. apply is_prime_u32_spec; [lia|]. vm_compute. reflexivity. Qed.

Lemma next_loop_spec fuel : forall big v, prime big -> big mod 2 = 1 -> big < 2 ^ 32 ->
  3 <= v <= big -> v mod 2 = 1 ->
  match next_prime_loop fuel v with
  | Ret p => prime p /\ v <= p <= big /\ (forall q, prime q -> v <= q -> p <= q)
  | Panic => False
  | NoFuel => Z.of_nat fuel < big - v
  end.
Proof.
  induction fuel as [|fuel IH]; intros big v Pb Hbo Hb Hv Hodd; cbn [next_prime_loop];
    destruct (is_prime_u32 v) eqn:E.
  1,3: apply is_prime_u32_spec in E; [|lia]; repeat match goal with |- _ /\ _ => split end; try lia; try assumption; intros; lia.
  - destruct (Z.eq_dec v big) as [->|]; [|lia].
    apply is_prime_u32_spec in Pb; [|lia]. congruence.
  - assert (NP : ~ prime v).
    { intros P. apply is_prime_u32_spec in P; [|lia]. congruence. }
    destruct (Z.eq_dec v big) as [->|Hne]; [contradiction|].
    assert (v + 1 <> big).
    { intros <-. rewrite Z.add_mod, Hodd in Hbo by lia. discriminate Hbo. }
    destruct (Z.leb_spec (2 ^ 32) (v + 2)); [lia|].
    assert (Hodd' : (v + 2) mod 2 = 1).
    { replace (v + 2) with (v + 1 * 2) by ring. rewrite Z.mod_add by lia. exact Hodd. }
    specialize (IH big (v + 2) Pb Hbo Hb ltac:(lia) Hodd').
    destruct (next_prime_loop fuel (v + 2)) as [p| |]; [|exact IH|lia].
    destruct IH as (Pp & Hp & Hmin). repeat match goal with |- _ /\ _ => split end; [exact Pp|lia|lia|].
    intros q Pq Hq.
    destruct (Z.eq_dec q v) as [->|]; [contradiction|].
    destruct (Z.eq_dec q (v + 1)) as [->|]; [|apply Hmin; [assumption|lia]].
    exfalso. assert (v + 1 = 2); [|lia]. apply prime_even; [exact Pq|].
    rewrite Z.add_mod, Hodd by lia. reflexivity.
Qed.

Lemma no_prime_above v : 4294967291 < v < 2 ^ 32 -> ~ prime v.
Proof.
  intros Hv P. apply is_prime_u32_spec in P; [|lia].
  assert (H : In v [4294967292; 4294967293; 4294967294; 4294967295]).
  { cbn. lia. }
  cbn [In] in H. destruct H as [<-|[<-|[<-|[<-|[]]]]]; vm_compute in P; discriminate P.
Qed.

Lemma next_prime_u32_spec fuel v : 2 <= v < 2 ^ 32 ->
  match next_prime_u32 fuel v with
  | Ret r => is_next_prime (2 ^ 32) v r
  | Panic => False
  | NoFuel => Z.of_nat fuel < 2 ^ 32 - v
  end.
Proof.
  intros Hv. unfold next_prime_u32.
  destruct (Z.ltb_spec v 3) as [H3|H3].
  { cbn [is_next_prime]. repeat match goal with |- _ /\ _ => split end; [apply prime_3|lia|lia|intros; lia]. }
  destruct (Z.leb_spec 4294967291 v) as [Hb|Hb].
  { cbn [is_next_prime]. intros q Pq Hq. destruct (Z.le_gt_cases (2 ^ 32) q); [assumption|].
    exfalso. apply (no_prime_above q); [lia|exact Pq]. }
  pose proof (Z.mod_pos_bound v 2 ltac:(lia)) as Hm.
  destruct (Z.eqb_spec (v mod 2) 0) as [E|E].
  - assert (Ho : (v + 1) mod 2 = 1) by (rewrite Z.add_mod, E by lia; reflexivity).
    pose proof (next_loop_spec fuel 4294967291 (v + 1) biggest_prime_u32 eq_refl ltac:(lia) ltac:(lia) Ho) as HL.
    destruct (next_prime_loop fuel (v + 1)) as [p| |]; cbn [rmap rbind is_next_prime]; [|exact HL|lia].
    destruct HL as (Pp & Hp & Hmin). repeat match goal with |- _ /\ _ => split end; [exact Pp|lia|lia|intros; apply Hmin; [assumption|lia]].
  - assert (E1 : v mod 2 = 1) by lia.
    assert (Ho : (v + 2) mod 2 = 1).
    { replace (v + 2) with (v + 1 * 2) by ring. rewrite Z.mod_add by lia. exact E1. }
    assert (v <> 4294967290) by (intros ->; discriminate E1).
    pose proof (next_loop_spec fuel 4294967291 (v + 2) biggest_prime_u32 eq_refl ltac:(lia) ltac:(lia) Ho) as HL.
    destruct (next_prime_loop fuel (v + 2)) as [p| |]; cbn [rmap rbind is_next_prime]; [|exact HL|lia].
    destruct HL as (Pp & Hp & Hmin). repeat match goal with |- _ /\ _ => split end; [exact Pp|lia|lia|].
    intros q Pq Hq. destruct (Z.eq_dec q (v + 1)) as [->|]; [|apply Hmin; [assumption|lia]].
    exfalso. assert (v + 1 = 2); [|lia]. apply prime_even; [exact Pq|].
    rewrite Z.add_mod, E1 by lia. reflexivity.
Qed.

Lemma next_prime_i32_spec fuel v : 2 <= v < 2 ^ 31 ->
  match next_prime_i32 fuel v with
  | Ret r => is_next_prime (2 ^ 31) v r
  | Panic => False
  | NoFuel => Z.of_nat fuel < 2 ^ 32
  end.
Proof.
  intros Hv. unfold next_prime_i32. destruct (Z.leb_spec 2147483647 v) as [H|H].
  - cbn [is_next_prime]. intros q Pq Hq. lia.
  - rewrite Z.max_l by lia.
    pose proof (next_prime_u32_spec fuel v ltac:(lia)) as HS.
    destruct (next_prime_u32 fuel v) as [[p|]| |].
    + destruct HS as (Pp & Hp & Hmin). cbn [is_next_prime].
      specialize (Hmin _ biggest_prime_i32 H) as Hle.
      repeat match goal with |- _ /\ _ => split end; [exact Pp|lia|lia|exact Hmin].
    + exfalso. specialize (HS _ biggest_prime_i32 H). lia.
    + exact HS.
    + lia.
Qed.

(** small divisors *)
Lemma small_divisors_sound v b : 0 <= v -> is_prime_check_small_divisors v = Some b ->
  (b = true <-> prime v).
Proof.
  intros Hv0. unfold is_prime_check_small_divisors.
  destruct (Z.leb_spec v 1) as [H|H].
  { intros E; inversion E; subst. split; [discriminate|]. intros P. pose proof (prime_ge_2 v P). lia. }
  assert (Hs : StronglySorted Z.lt (firstn 100 primes_u16)).
  { pose proof table_sorted as T. revert T. generalize primes_u16 as l. generalize 100%nat as n.
    induction n as [|n IH]; intros l T; cbn [firstn]; [constructor|].
    destruct l as [|x l]; [constructor|]. inversion T as [|? ? T' A]; subst.
    constructor; [apply IH; exact T'|]. rewrite Forall_forall in *. intros y Hy. apply A.
    rewrite <- (firstn_skipn n l). apply in_or_app. left; exact Hy. }
  assert (Hsp : primes_u16 = firstn 100 primes_u16 ++ skipn 100 primes_u16)
    by (symmetry; apply firstn_skipn).
  assert (Hlast : forall x, In x (skipn 100 primes_u16) -> forall y, In y (firstn 100 primes_u16) -> y < x).
  { pose proof table_sorted as T. rewrite Hsp in T. revert T.
    generalize (skipn 100 primes_u16) as m. generalize (firstn 100 primes_u16) as l.
    induction l as [|z l IH]; intros m T x Hx y Hy; [contradiction|].
    cbn [app] in T. inversion T as [|? ? T' A]; subst. destruct Hy as [<-|Hy].
    - rewrite Forall_forall in A. apply A. apply in_or_app; right; exact Hx.
    - apply (IH m T' x Hx y Hy). }
  assert (Hpr : forall p, In p (firstn 100 primes_u16) -> prime p).
  { intros p Hp. apply table_spec. rewrite Hsp. apply in_or_app; left; exact Hp. }
  assert (Hdone : forall p q, prime p -> In q (firstn 100 primes_u16) -> p < q ->
      ~ In p (firstn 100 primes_u16) -> ~ (p | v)).
  { intros p q Pp Hq Hlt Hn. exfalso.
    assert (Hin : In p primes_u16).
    { apply table_spec. split; [exact Pp|].
      assert (In q primes_u16) by (rewrite Hsp; apply in_or_app; left; exact Hq).
      apply table_spec in H0. lia. }
    rewrite Hsp in Hin. apply in_app_or in Hin. destruct Hin as [|Hin]; [contradiction|].
    specialize (Hlast p Hin q Hq). lia. }
  assert (Hdone' : forall p q, prime p -> In q (firstn 100 primes_u16) -> p < q ->
      ~ In p (firstn 100 primes_u16) -> ~ (p | v)) by exact Hdone.
  revert Hs Hpr Hdone. clear Hlast Hsp Hdone'.
  generalize (firstn 100 primes_u16) as rest.
  induction rest as [|p rest IH]; intros Hs Hpr Hdone; cbn [small_divisors_loop]; [discriminate|].
  inversion Hs as [|? ? Hss Hall]; subst.
  assert (Pp : prime p) by (apply Hpr; left; reflexivity).
  pose proof (prime_ge_2 p Pp).
  destruct (Z.eqb_spec v p) as [->|Hne].
  { intros E; inversion E; tauto. }
  destruct (Z.eqb_spec (v mod p) 0) as [E|E].
  { intros X; inversion X; subst. split; [discriminate|]. intros Pv.
    assert (D : (p | v)) by (apply Z.mod_divide; [lia|exact E]).
    apply (prime_divisors v Pv) in D. lia. }
  assert (ND : ~ (p | v)) by (intros D; apply E; apply Z.mod_divide; [lia|exact D]).
  destruct (Z.ltb_spec v (p * p)) as [Hlt|Hge].
  - intros X; inversion X; subst. split; [intros _|reflexivity].
    destruct (prime_dec v) as [P|P]; [exact P|exfalso].
    destruct (composite_small_prime v) as (q & Pq & Dq & Hq & _); [lia|exact P|].
    pose proof (prime_ge_2 q Pq).
    assert (q < p) by nia.
    apply (Hdone q p); try assumption; [left; reflexivity|].
    intros [->|Hin]; [lia|]. rewrite Forall_forall in Hall. specialize (Hall q Hin). lia.
  - apply IH; [exact Hss|intros; apply Hpr; right; assumption|].
    intros q r Pq Hr Hlt Hn Dq.
    destruct (Z.eq_dec p q) as [->|Hpq]; [contradiction|].
    apply (Hdone q r); try assumption; [right; exact Hr|]. intros [?|?]; [contradiction|tauto].
Qed.

(** ** signs *)

Lemma sign_new_spec v : match sign_new v with
  | Some s => v <> 0 /\ Z.sgn v = sval s | None => v = 0 end.
Proof. destruct v; cbn; lia. Qed.
Lemma sign_xor_spec a b : sval (sign_xor a b) = sval a * sval b.
Proof. destruct a, b; reflexivity. Qed.
Lemma sign_neg_spec a : sval (sign_neg a) = - sval a.
Proof. destruct a; reflexivity. Qed.
Lemma sign_cmp_spec a b : sign_cmp a b = (sval a ?= sval b).
Proof. destruct a, b; reflexivity. Qed.
Lemma sign_and_or_spec a b :
  sval (sign_and a b) = Z.max (sval a) (sval b) /\ sval (sign_or a b) = Z.min (sval a) (sval b).
Proof. destruct a, b; split; reflexivity. Qed.
Lemma sign_bool_spec a b : sign_of_bool (bool_of_sign a) = a /\ bool_of_sign (sign_of_bool b) = b.
Proof. destruct a, b; split; reflexivity. Qed.

(** ** subsets *)

(** the enumeration, as a list *)
Fixpoint combs (k start : nat) (len : nat) : list (list nat) :=
  (* k-subsets of [start, start+len) *)
  match k with
  | O => [[]]
  | S k' =>
      (fix go (start len : nat) : list (list nat) :=
         match len with
         | O => []
         | S len' => map (cons start) (combs k' (S start) len') ++ go (S start) len'
         end) start len
  end.

Lemma combs_S k start len : combs (S k) start len =
  match len with
  | O => []
  | S len' => map (cons start) (combs k (S start) len') ++ combs (S k) (S start) len'
  end.
Proof. destruct len; reflexivity. Qed.

Lemma increasing_weaken a b stop s : (b <= a)%nat -> increasing_in a stop s -> increasing_in b stop s.
Proof. destruct s as [|x s]; cbn; [auto|]. intros H [H1 H2]. split; [lia|exact H2]. Qed.

Lemma in_combs k : forall len start s,
  In s (combs k start len) <-> length s = k /\ increasing_in start (start + len) s.
Proof.
  induction k as [|k IHk].
  - intros len start s. cbn [combs In]. split.
    + intros [<-|[]]. cbn. auto.
    + intros [H _]. destruct s; [left; reflexivity|discriminate].
  - induction len as [|len IHl]; intros start s; rewrite combs_S.
    + cbn [In]. split; [contradiction|]. intros [H1 H2]. destruct s as [|x s]; [discriminate|].
      cbn in H2. lia.
    + rewrite in_app_iff, IHl, in_map_iff. split.
      * intros [(s' & <- & Hs')|[H1 H2]].
        -- apply IHk in Hs' as [H1 H2]. cbn. split; [lia|]. split; [lia|].
           replace (start + S len)%nat with (S start + len)%nat by lia. exact H2.
        -- split; [exact H1|]. replace (start + S len)%nat with (S start + len)%nat by lia.
           apply (increasing_weaken (S start)); [lia|exact H2].
      * intros [H1 H2]. destruct s as [|x s]; [discriminate|].
        destruct H2 as [Hx Hs]. destruct (Nat.eq_dec x start) as [->|Hne].
        -- left. exists s. split; [reflexivity|]. apply IHk. split; [cbn in H1; lia|].
           replace (S start + len)%nat with (start + S len)%nat by lia. exact Hs.
        -- right. split; [exact H1|]. cbn. split; [lia|].
           replace (S (start + len))%nat with (start + S len)%nat by lia. exact Hs.
Qed.

Lemma combs_sorted k : forall len start, StronglySorted lex_lt (combs k start len).
Proof.
  induction k as [|k IHk].
  - intros. cbn. constructor; constructor.
  - induction len as [|len IHl]; intros start; rewrite combs_S; [constructor|].
    specialize (IHk len (S start)). specialize (IHl (S start)).
    assert (H : forall s, In s (combs (S k) (S start) len) -> forall t, lex_lt (start :: t) s).
    { intros s Hs t. apply in_combs in Hs as [H1 H2]. destruct s as [|x s]; [discriminate|].
      cbn in H2 |- *. lia. }
    revert IHk. generalize (combs k (S start) len) as L.
    induction L as [|a L IH]; intros HL; cbn [map app]; [exact IHl|].
    inversion HL as [|? ? HL' HA]; subst. constructor; [apply IH; exact HL'|].
    rewrite Forall_forall in *. intros s Hs. apply in_app_or in Hs as [Hs|Hs].
    + apply in_map_iff in Hs as (s' & <- & Hs'). cbn. right. split; [reflexivity|]. apply HA; exact Hs'.
    + apply H; exact Hs.
Qed.

Lemma run_app {St T} (cb : St -> list nat -> St * option T) L1 : forall L2 st,
  run_until_break cb (L1 ++ L2) st =
  match run_until_break cb L1 st with
  | (st', None) => run_until_break cb L2 st'
  | r => r
  end.
Proof.
  induction L1 as [|s L1 IH]; intros L2 st; cbn [run_until_break app]; [reflexivity|].
  destruct (cb st s) as [st' [t|]]; [reflexivity|apply IH].
Qed.

Lemma set_nth_spec pre x y post : set_nth (length pre) x (pre ++ y :: post) = pre ++ x :: post.
Proof. induction pre as [|a pre IH]; cbn; [reflexivity|]. f_equal. exact IH. Qed.

Section SubsetsProof.
  Context {St T : Type} (cb : St -> list nat -> St * option T).

  (** unfolding of the loop *)
  Fixpoint helper_loop (rem' idx stop : nat) (l : list nat) (buf : list nat) (st : St) : St * option T * list nat :=
    match l with
    | [] => (st, None, buf)
    | index :: l' =>
        let buf1 := set_nth idx index buf in
        match subsets_helper cb rem' (S idx) (S index) stop buf1 st with
        | (st', None, buf') => helper_loop rem' idx stop l' buf' st'
        | r => r
        end
    end.

  Lemma helper_unfold rem' idx start stop buf st :
    subsets_helper cb (S rem') idx start stop buf st =
    if Nat.leb (S rem') stop
    then helper_loop rem' idx stop (seq start (S (stop - S rem') - start)) buf st
    else (st, None, buf).
  Proof.
    cbn [subsets_helper]. destruct (Nat.leb (S rem') stop); [|reflexivity].
    generalize (seq start (S (stop - S rem') - start)) as l. intros l.
    revert buf st. induction l as [|i l IH]; intros buf st; cbn [helper_loop]; [reflexivity|].
    destruct (subsets_helper cb rem' (S idx) (S i) stop (set_nth idx i buf) st) as [[st' [t|]] buf'];
      [reflexivity|apply IH].
  Qed.

  Lemma combs_empty k : forall len start, (len < k)%nat -> combs k start len = [].
  Proof.
    intros len start H. destruct (combs k start len) as [|s L] eqn:E; [reflexivity|exfalso].
    assert (Hin : In s (combs k start len)) by (rewrite E; left; reflexivity).
    apply in_combs in Hin as [H1 H2].
    assert (forall s a b, increasing_in a b s -> (length s <= b - a)%nat) as HL.
    { clear. induction s as [|x s IH]; intros a b; cbn; [lia|]. intros [Hx Hs]. apply IH in Hs. lia. }
    apply HL in H2. lia.
  Qed.

  Definition proj_run (r : St * option T * list nat) : St * option T := fst r.

  Lemma helper_spec rem : forall pre start stop post st,
    length post = rem -> (start <= stop)%nat ->
    exists post', length post' = rem /\
    subsets_helper cb rem (length pre) start stop (pre ++ post) st =
      (run_until_break (fun st s => cb st (pre ++ s)) (combs rem start (stop - start)) st, pre ++ post').
  Proof.
    induction rem as [|rem IH]; intros pre start stop post st Hpost Hle.
    - destruct post; [|discriminate]. exists []. split; [reflexivity|].
      cbn [subsets_helper combs run_until_break].
      destruct (cb st (pre ++ [])) as [st' [t|]]; reflexivity.
    - rewrite helper_unfold.
      destruct (Nat.leb_spec (S rem) stop) as [Hs|Hs].
      2:{ exists post. split; [exact Hpost|]. rewrite combs_empty by lia. reflexivity. }
      destruct (Nat.le_gt_cases (S rem) (stop - start)) as [Hk|Hk].
      2:{ exists post. split; [exact Hpost|]. rewrite combs_empty by lia.
          replace (S (stop - S rem) - start)%nat with 0%nat by lia. reflexivity. }
      assert (Hlen : exists n, stop = (start + n)%nat) by (exists (stop - start)%nat; lia).
      destruct Hlen as [n ->]. replace (start + n - start)%nat with n by lia.
      replace (S (start + n - S rem) - start)%nat with (n - rem)%nat by lia.
      clear Hs Hle Hk.
      remember (start + n)%nat as stop eqn:Estop.
      revert start post st Hpost Estop.
      induction n as [|n IHn]; intros start post st Hpost Estop.
      + exists post. split; [exact Hpost|]. cbn [Nat.sub seq helper_loop]. rewrite combs_S. reflexivity.
      + rewrite combs_S.
        destruct (Nat.le_gt_cases (S n) rem) as [Hn|Hn].
        { replace (S n - rem)%nat with 0%nat by lia. cbn [seq helper_loop].
          rewrite !combs_empty by lia. exists post. split; [exact Hpost|reflexivity]. }
        replace (S n - rem)%nat with (S (n - rem)) by lia. cbn [seq helper_loop].
        destruct post as [|y post]; [discriminate|].
        rewrite set_nth_spec.
        destruct (IH (pre ++ [start]) (S start) stop post st) as (post' & Hp' & E);
          [cbn in Hpost; lia|lia|].
        rewrite app_length in E. cbn [length] in E. rewrite Nat.add_1_r in E.
        rewrite <- !app_assoc in E. cbn [app] in E. rewrite E.
        replace (stop - S start)%nat with n by lia.
        rewrite run_app.
        assert (Emap : forall L st, run_until_break (fun st s => cb st (pre ++ s)) (map (cons start) L) st
                   = run_until_break (fun st s => cb st ((pre ++ [start]) ++ s)) L st).
        { clear. induction L as [|s L IHL]; intros st; cbn [map run_until_break]; [reflexivity|].
          rewrite <- app_assoc. cbn [app]. destruct (cb st (pre ++ start :: s)) as [st' [t|]]; [reflexivity|apply IHL]. }
        rewrite Emap.
        destruct (run_until_break (fun st s => cb st ((pre ++ [start]) ++ s)) (combs rem (S start) n) st) as [st' [t|]].
        * exists (start :: post'). split; [cbn; lia|]. reflexivity.
        * apply IHn; [cbn; lia|lia].
  Qed.

  Lemma for_subsets_spec k start stop st :
    (start < stop)%nat ->
    for_subsets_of_size cb k start stop st = run_until_break cb (combs k start (stop - start)) st.
  Proof.
    intros H. unfold for_subsets_of_size.
    destruct (Nat.leb_spec stop start) as [|_]; [lia|]. cbn [orb].
    destruct (Nat.ltb_spec (stop - start) k) as [Hk|Hk].
    - rewrite combs_empty by lia. reflexivity.
    - destruct (helper_spec k [] start stop (repeat 0%nat k) st) as (post' & Hp & E);
        [apply repeat_length|lia|].
      cbn [length app] in E. rewrite E. reflexivity.
  Qed.

  Lemma for_subsets_empty k start stop st :
    (stop <= start)%nat -> for_subsets_of_size cb k start stop st = (st, None).
  Proof.
    intros H. unfold for_subsets_of_size. destruct (Nat.leb_spec stop start); [reflexivity|lia].
  Qed.
End SubsetsProof.

Lemma subsets_list k start stop : (start < stop)%nat ->
  exists L,
    (forall s, In s L <-> length s = k /\ increasing_in start stop s) /\
    StronglySorted lex_lt L /\
    (forall St T (cb : St -> list nat -> St * option T) st,
       for_subsets_of_size cb k start stop st = run_until_break cb L st).
Proof.
  intros H. exists (combs k start (stop - start)). split; [|split].
  - intros s. rewrite in_combs. replace (start + (stop - start))%nat with stop by lia. reflexivity.
  - apply combs_sorted.
  - intros. apply for_subsets_spec. exact H.
Qed.
