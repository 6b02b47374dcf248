From Coq Require Import ZArith List Bool Lia Znumtheory Zpow_facts.
From Verif Require Import M_Base M_Traits M_ModInt S_ModInt P_Traits.
Local Open Scope Z_scope.

(** Basic facts about ranges: every type contains the interval between any of
    its non-negative members and zero. *)
Lemma fits_between t v m : fits t m = true -> 0 <= v <= m -> fits t v = true.
Proof.
  destruct t as [w|w| |]; cbn [fits]; unfold in_irange; intros Hm Hv;
    rewrite ?andb_true_iff, ?Z.leb_le, ?Z.ltb_lt in *; try reflexivity; try lia.
  destruct Hm as [_ Hm]. split; [|lia].
  unfold imin. unfold imax in Hm.
  assert (0 <= 2 ^ (w - 1)) by (apply Z.pow_nonneg; lia). lia.
Qed.

Lemma fits_abs t v m : signed_ty t = true -> fits t m = true -> - m <= v <= m -> fits t v = true.
Proof.
  destruct t as [w|w| |]; cbn [fits signed_ty]; unfold in_irange, imin, imax; intros Ht Hm Hv;
    try discriminate; try reflexivity.
  rewrite ?andb_true_iff, ?Z.leb_le, ?Z.ltb_lt in *. lia.
Qed.

Lemma in_ty_ret t v : fits t v = true -> in_ty t v = Ret v.
Proof. unfold in_ty; intros ->; reflexivity. Qed.

Lemma neq0_eqb m : 0 < m -> (m =? 0) = false.
Proof. intros; apply Z.eqb_neq; lia. Qed.

Lemma modular_reduce_ok t v m : 0 < m -> modular_reduce t v m = Ret (v mod m).
Proof.
  intros Hm. unfold modular_reduce, mod_floor. rewrite neq0_eqb by assumption.
  destruct t as [w|w| |]; try reflexivity.
  replace (m =? -1) with false by (symmetry; apply Z.eqb_neq; lia).
  rewrite andb_false_r. reflexivity.
Qed.

Lemma mod_fits t v m : 0 < m -> fits t m = true -> fits t (v mod m) = true.
Proof. intros Hm Hf. apply fits_between with m; [assumption|]. pose proof (Z.mod_pos_bound v m Hm). lia. Qed.

Lemma from_bigint_ok t v m : 0 < m -> fits t m = true ->
  modular_reduce_from_bigint t v m = Ret (v mod m).
Proof.
  intros Hm Hf. unfold modular_reduce_from_bigint. rewrite neq0_eqb by assumption.
  apply in_ty_ret, mod_fits; assumption.
Qed.

Lemma modular_add_ok t a b m : 0 < m -> fits t m = true -> 0 <= a + b ->
  modular_add t a b m = Ret ((a + b) mod m).
Proof.
  intros Hm Hf H. unfold modular_add. rewrite neq0_eqb by assumption.
  rewrite Z.rem_mod_nonneg by lia. apply in_ty_ret, mod_fits; assumption.
Qed.

Lemma modular_mul_ok t a b m : 0 < m -> fits t m = true -> 0 <= a -> 0 <= b ->
  modular_mul t a b m = Ret ((a * b) mod m).
Proof.
  intros Hm Hf H H'. unfold modular_mul. rewrite neq0_eqb by assumption.
  rewrite Z.rem_mod_nonneg by nia. apply in_ty_ret, mod_fits; assumption.
Qed.

Lemma modular_neg_ok t a m : 0 < m -> fits t m = true -> 0 <= a < m ->
  modular_neg t a m = Ret ((- a) mod m).
Proof.
  intros Hm Hf H. unfold modular_neg.
  rewrite in_ty_ret by (apply fits_between with m; [assumption|lia]). cbn [rbind].
  f_equal. destruct (Z.eqb_spec (m - a) m) as [E|E].
  - assert (a = 0) as -> by lia. reflexivity.
  - replace (- a) with ((m - a) + (-1) * m) by ring.
    rewrite Z.mod_add by lia. symmetry; apply Z.mod_small; lia.
Qed.

Lemma modular_sub_ok t a b m : 0 < m -> fits t m = true -> 0 <= a < m -> 0 <= b < m ->
  modular_sub t a b m = Ret ((a - b) mod m).
Proof.
  intros Hm Hf Ha Hb. unfold modular_sub. rewrite modular_neg_ok by assumption. cbn [rbind].
  pose proof (Z.mod_pos_bound (- b) m Hm).
  rewrite modular_add_ok by (try assumption; lia).
  f_equal. rewrite Zplus_mod_idemp_r. f_equal; ring.
Qed.

(** Exponentiation. *)
Lemma pow_mod_idemp b e m : 0 <= e -> 0 < m -> ((b mod m) ^ e) mod m = (b ^ e) mod m.
Proof. intros. rewrite <- Zpower_mod by lia. reflexivity. Qed.

Lemma pow_loop_ok t m : 0 < m -> fits t m = true ->
  forall fuel acc base e, 0 < e -> 0 <= base < m ->
    match acc with None => True | Some r => 0 <= r < m end ->
    Z.log2 e < Z.of_nat fuel ->
    pow_loop fuel t acc base e m =
      Ret (match acc with None => base ^ e mod m | Some r => (r * base ^ e) mod m end).
Proof.
  intros Hm Hf. induction fuel as [|fuel IH]; intros acc base e He Hb Hacc Hfuel.
  { pose proof (Z.log2_nonneg e). lia. }
  cbn [pow_loop]. rewrite Z.quot_div_nonneg by lia.
  assert (Hodd : Z.odd e = true -> e = 2 * (e / 2) + 1).
  { intros Ho. pose proof (Zdiv.Zmod_odd e) as H. rewrite Ho in H.
    pose proof (Z.div_mod e 2). lia. }
  assert (Heven : Z.odd e = false -> e = 2 * (e / 2)).
  { intros Ho. pose proof (Zdiv.Zmod_odd e) as H. rewrite Ho in H.
    pose proof (Z.div_mod e 2). lia. }
  assert (Hsq : forall k, 0 <= k -> (((base * base) mod m) ^ k) mod m = base ^ (2 * k) mod m).
  { intros k Hk. rewrite pow_mod_idemp by assumption.
    replace (base * base) with (base ^ 2) by ring. rewrite <- Z.pow_mul_r by lia. reflexivity. }
  destruct (Z.odd e) eqn:Ho.
  - specialize (Hodd eq_refl). clear Heven.
    assert (Hacc' : exists r',
      (match acc with
       | Some r => rmap Some (modular_mul t r base m)
       | None => Ret (Some base) end) = Ret (Some r') /\ 0 <= r' < m /\
      forall k, (r' * k) mod m = match acc with None => (base * k) mod m | Some r => (r * base * k) mod m end).
    { destruct acc as [r|].
      - rewrite modular_mul_ok by (try assumption; lia). exists ((r * base) mod m).
        split; [reflexivity|]. split; [apply Z.mod_pos_bound; assumption|].
        intros k. apply Zmult_mod_idemp_l.
      - exists base. split; [reflexivity|]. split; [assumption|]. intros; reflexivity. }
    destruct Hacc' as (r' & Hr' & Hr'b & Hr'm). rewrite Hr'. cbn [rbind].
    destruct (Z.eqb_spec (e / 2) 0) as [E|E].
    + cbn [unwrap]. f_equal. assert (e = 1) as -> by lia. specialize (Hr'm 1).
      rewrite Z.mul_1_r in Hr'm. rewrite Z.mod_small in Hr'm by assumption.
      rewrite Hr'm. rewrite Z.pow_1_r. destruct acc; f_equal; ring.
    + rewrite modular_mul_ok by (try assumption; lia). cbn [rbind].
      assert (0 < e / 2) by (pose proof (Z.div_pos e 2); lia).
      rewrite IH; try assumption.
      * f_equal. rewrite <- Zmult_mod_idemp_r, Hsq, Zmult_mod_idemp_r by lia. rewrite Hr'm.
        assert (P : base ^ e = base * base ^ (2 * (e / 2))).
        { rewrite Hodd at 1. rewrite Z.add_1_r, Z.pow_succ_r by lia. reflexivity. }
        rewrite P. destruct acc; f_equal; ring.
      * apply Z.mod_pos_bound; assumption.
      * rewrite Hodd in Hfuel. rewrite Z.log2_succ_double in Hfuel by lia. lia.
  - specialize (Heven eq_refl). clear Hodd. cbn [rbind].
    destruct (Z.eqb_spec (e / 2) 0) as [E|E]; [lia|].
    rewrite modular_mul_ok by (try assumption; lia). cbn [rbind].
    assert (0 < e / 2) by (pose proof (Z.div_pos e 2); lia).
    rewrite IH; try assumption.
    + f_equal. destruct acc as [r|].
      * rewrite <- Zmult_mod_idemp_r, Hsq, Zmult_mod_idemp_r by lia. rewrite <- Heven. reflexivity.
      * rewrite Hsq by lia. rewrite <- Heven. reflexivity.
    + apply Z.mod_pos_bound; assumption.
    + rewrite Heven in Hfuel. rewrite Z.log2_double in Hfuel by lia. lia.
Qed.

Lemma pow_modular_reduce_ok t b e m : 0 < m -> fits t m = true -> 0 <= e -> (e = 0 -> 1 < m) ->
  pow_modular_reduce t b e m = Ret (b ^ e mod m).
Proof.
  intros Hm Hf He H1.
  assert (Hprim : pow_modular_reduce_prim t b e m = Ret (b ^ e mod m)).
  { unfold pow_modular_reduce_prim. destruct (Z.eqb_spec e 0) as [->|E0].
    - rewrite Z.pow_0_r, Z.mod_small; [reflexivity|]. specialize (H1 eq_refl). lia.
    - rewrite modular_reduce_ok by assumption. cbn [rbind].
      destruct (Z.eqb_spec e 1) as [->|E1]; [rewrite Z.pow_1_r; reflexivity|].
      rewrite pow_loop_ok; try assumption; try lia.
      + f_equal. apply pow_mod_idemp; assumption.
      + apply Z.mod_pos_bound; assumption.
      + rewrite Z.abs_eq by assumption. pose proof (Z.log2_nonneg e). lia. }
  unfold pow_modular_reduce, bigint_modpow.
  destruct t as [w|w| |]; try exact Hprim;
    rewrite neq0_eqb by assumption; (replace (e <? 0) with false by (symmetry; apply Z.ltb_ge; lia));
    reflexivity.
Qed.

Lemma opp_abs_sub s0 s1 q : 0 <= q -> (s0 <= 0 <= s1 \/ s1 <= 0 <= s0) ->
  Z.abs (s1 - q * s0) = Z.abs s1 + q * Z.abs s0 /\
  Z.abs (q * s0) <= Z.abs (s1 - q * s0) /\
  (s1 - q * s0 <= 0 <= s0 \/ s0 <= 0 <= s1 - q * s0).
Proof.
  intros Hq [[H H']|[H H']].
  - assert (q * s0 <= 0) by (apply Z.mul_nonneg_nonpos; assumption).
    rewrite (Z.abs_neq s0), (Z.abs_neq (q * s0)), (Z.abs_eq s1), (Z.abs_eq (s1 - q * s0)) by lia.
    split; [ring|]. lia.
  - assert (0 <= q * s0) by (apply Z.mul_nonneg_nonneg; assumption).
    rewrite (Z.abs_eq s0), (Z.abs_eq (q * s0)), (Z.abs_neq s1), (Z.abs_neq (s1 - q * s0)) by lia.
    split; [ring|]. lia.
Qed.

Lemma cofactor_step u v q r0 r1 c : 0 <= u -> 0 <= v -> 0 <= q -> 0 < r0 -> q * r0 <= r1 ->
  u * r1 + v * r0 <= c ->
  v + q * u <= c /\ (v + q * u) * r0 + u * (r1 - q * r0) <= c.
Proof.
  intros Hu Hv Hq Hr Hqr Hc.
  assert (u * (q * r0) <= u * r1) by (apply Z.mul_le_mono_nonneg_l; assumption).
  assert (0 <= q * u) by (apply Z.mul_nonneg_nonneg; assumption).
  assert ((v + q * u) * 1 <= (v + q * u) * r0) by (apply Z.mul_le_mono_nonneg_l; lia).
  split; lia.
Qed.

(** The range-checked extended Euclid loop on a non-negative value and a
    positive modulus never leaves the range of the type. *)
Lemma ext_gcd_loop_ty_ok t a b M : signed_ty t = true ->
  fits t a = true -> fits t b = true -> fits t M = true ->
  forall fuel s0 s1 t0 t1 r0 r1,
    0 <= r0 -> 0 <= r1 -> r0 <= M -> r1 <= M ->
    Z.abs s0 * r1 + Z.abs s1 * r0 <= b ->
    Z.abs t0 * r1 + Z.abs t1 * r0 <= a ->
    (s0 <= 0 <= s1 \/ s1 <= 0 <= s0) -> (t0 <= 0 <= t1 \/ t1 <= 0 <= t0) ->
    ext_gcd_loop_ty fuel t s0 s1 t0 t1 r0 r1 =
    match ext_gcd_loop fuel s0 s1 t0 t1 r0 r1 with Some p => Ret p | None => NoFuel end.
Proof.
  intros Ht Hfa Hfb HfM.
  induction fuel as [|fuel IH]; intros s0 s1 t0 t1 r0 r1 Hr0 Hr1 HM0 HM1 Hb Ha Hs Htt;
    cbn [ext_gcd_loop_ty ext_gcd_loop].
  - destruct (Z.eqb_spec r0 0); [|reflexivity].
    replace (0 <=? r1) with true by (symmetry; apply Z.leb_le; lia). reflexivity.
  - destruct (Z.eqb_spec r0 0) as [E|E].
    { replace (0 <=? r1) with true by (symmetry; apply Z.leb_le; lia). reflexivity. }
    rewrite Z.quot_div_nonneg by lia.
    assert (Hq : 0 <= r1 / r0) by (apply Z.div_pos; lia).
    assert (Hqr : 0 <= r1 - (r1 / r0) * r0 < r0).
    { pose proof (Z.mod_pos_bound r1 r0 ltac:(lia)) as H. rewrite Z.mod_eq in H by lia. lia. }
    assert (Hqr0 : 0 <= (r1 / r0) * r0) by (apply Z.mul_nonneg_nonneg; lia).
    generalize dependent (r1 / r0); intros q Hq Hqr Hqr0.
    destruct (opp_abs_sub s0 s1 q Hq Hs) as (S1 & S2 & S3).
    destruct (opp_abs_sub t0 t1 q Hq Htt) as (T1 & T2 & T3).
    destruct (cofactor_step (Z.abs s0) (Z.abs s1) q r0 r1 b) as [S4 S5]; try apply Z.abs_nonneg; try assumption; try lia.
    destruct (cofactor_step (Z.abs t0) (Z.abs t1) q r0 r1 a) as [T4 T5]; try apply Z.abs_nonneg; try assumption; try lia.
    rewrite <- S1 in S4, S5. rewrite <- T1 in T4, T5.
    clear S1 T1 Hs Htt Ha Hb.
    assert (F : forall x c, fits t c = true -> Z.abs x <= c -> fits t x = true).
    { intros x c Hc Hx. apply fits_abs with c; [assumption|assumption|lia]. }
    rewrite in_ty_ret by (apply (F _ M HfM); lia). cbn [rbind].
    rewrite in_ty_ret by (apply (F _ M HfM); lia). cbn [rbind].
    rewrite in_ty_ret by (apply (F _ b Hfb); lia). cbn [rbind].
    rewrite in_ty_ret by (apply (F _ b Hfb); lia). cbn [rbind].
    rewrite in_ty_ret by (apply (F _ a Hfa); lia). cbn [rbind].
    rewrite in_ty_ret by (apply (F _ a Hfa); lia). cbn [rbind].
    apply IH; try assumption; try lia.
Qed.

Lemma ext_gcd_ty_ok t a m : signed_ty t = true -> fits t m = true -> 0 < m -> 0 <= a < m ->
  exists x y, ext_gcd_loop_ty (ext_gcd_fuel m) t 0 1 1 0 m a = Ret (Z.gcd a m, x, y) /\
    a * x + m * y = Z.gcd a m.
Proof.
  intros Ht Hf Hm Ha.
  destruct (int_extended_gcd_spec a m) as (g & x & y & E & B & G). rewrite G in E, B. clear g G.
  exists x, y. split; [|assumption].
  unfold int_extended_gcd in E.
  rewrite (ext_gcd_loop_ty_ok t a m m); try assumption; try lia.
  - rewrite E. reflexivity.
  - apply fits_between with m; [assumption|lia].
Qed.

(** * ModularInteger *)

Lemma mi_new_ok t v m : 0 < m -> mi_new t v m = Ret (MI (v mod m) m).
Proof. intros. unfold mi_new. rewrite modular_reduce_ok by assumption. reflexivity. Qed.

Lemma mi_from_bigint_ok t v m : 0 < m -> fits t m = true -> mi_from_bigint t v m = Ret (MI (v mod m) m).
Proof. intros. unfold mi_from_bigint. rewrite from_bigint_ok by assumption. reflexivity. Qed.

Lemma matching_refl v v' m : has_matching_moduli (MI v m) (MI v' m) = true.
Proof. apply Z.eqb_refl. Qed.

Lemma mi_add_ok t a b m : 0 < m -> fits t m = true -> 0 <= a < m -> 0 <= b < m ->
  mi_add t (MI a m) (MI b m) = Ret (MI ((a + b) mod m) m) /\
  mi_checked_add t (MI a m) (MI b m) = Ret (Some (MI ((a + b) mod m) m)).
Proof.
  intros Hm Hf Ha Hb. unfold mi_add, mi_checked_add. rewrite matching_refl. cbn [assert_then mi_value mi_modulus].
  rewrite modular_add_ok by (try assumption; lia). split; reflexivity.
Qed.

Lemma mi_sub_ok t a b m : 0 < m -> fits t m = true -> 0 <= a < m -> 0 <= b < m ->
  mi_sub t (MI a m) (MI b m) = Ret (MI ((a - b) mod m) m) /\
  mi_checked_sub t (MI a m) (MI b m) = Ret (Some (MI ((a - b) mod m) m)).
Proof.
  intros Hm Hf Ha Hb. unfold mi_sub, mi_checked_sub. rewrite matching_refl. cbn [assert_then mi_value mi_modulus].
  rewrite modular_sub_ok by assumption. split; reflexivity.
Qed.

Lemma mi_mul_ok t a b m : 0 < m -> fits t m = true -> 0 <= a < m -> 0 <= b < m ->
  mi_mul t (MI a m) (MI b m) = Ret (MI ((a * b) mod m) m) /\
  mi_checked_mul t (MI a m) (MI b m) = Ret (Some (MI ((a * b) mod m) m)).
Proof.
  intros Hm Hf Ha Hb. unfold mi_mul, mi_checked_mul. rewrite matching_refl. cbn [assert_then mi_value mi_modulus].
  rewrite modular_mul_ok by (try assumption; lia). split; reflexivity.
Qed.

Lemma mi_neg_ok t a m : 0 < m -> fits t m = true -> 0 <= a < m ->
  mi_neg t (MI a m) = Ret (MI ((- a) mod m) m).
Proof. intros. unfold mi_neg. cbn [mi_value mi_modulus]. rewrite modular_neg_ok by assumption. reflexivity. Qed.

Lemma mi_mul_usize_ok t a k m : 0 < m -> fits t m = true -> 0 <= a < m ->
  mi_mul_usize t (MI a m) k = Ret (MI ((a * Z.of_nat k) mod m) m).
Proof.
  intros Hm Hf Ha. unfold mi_mul_usize. cbn [mi_value mi_modulus].
  rewrite from_bigint_ok by assumption. cbn [rbind].
  pose proof (Z.mod_pos_bound (Z.of_nat k) m Hm).
  rewrite modular_mul_ok by (try assumption; lia). cbn [rmap rbind].
  rewrite Zmult_mod_idemp_r. reflexivity.
Qed.

Lemma mi_arith_ok t x y m : 0 < m -> fits t m = true ->
  exists a b, mi_from_bigint t x m = Ret a /\ mi_from_bigint t y m = Ret b /\
    mi_add t a b = mi_from_bigint t (x + y) m /\
    mi_sub t a b = mi_from_bigint t (x - y) m /\
    mi_mul t a b = mi_from_bigint t (x * y) m /\
    mi_neg t a = mi_from_bigint t (- x) m /\
    mi_checked_add t a b = rmap Some (mi_from_bigint t (x + y) m) /\
    mi_checked_sub t a b = rmap Some (mi_from_bigint t (x - y) m) /\
    mi_checked_mul t a b = rmap Some (mi_from_bigint t (x * y) m) /\
    mi_value a = x mod m /\ mi_modulus a = m /\
    (mi_eqb a b = true <-> (m | x - y)).
Proof.
  intros Hm Hf. exists (MI (x mod m) m), (MI (y mod m) m).
  pose proof (Z.mod_pos_bound x m Hm) as Hx. pose proof (Z.mod_pos_bound y m Hm) as Hy.
  rewrite !mi_from_bigint_ok by assumption.
  destruct (mi_add_ok t (x mod m) (y mod m) m Hm Hf Hx Hy) as [-> ->].
  destruct (mi_sub_ok t (x mod m) (y mod m) m Hm Hf Hx Hy) as [-> ->].
  destruct (mi_mul_ok t (x mod m) (y mod m) m Hm Hf Hx Hy) as [-> ->].
  rewrite mi_neg_ok by assumption.
  rewrite <- Zplus_mod, <- Zminus_mod, <- Zmult_mod.
  assert (N : (- (x mod m)) mod m = (- x) mod m).
  { replace (- (x mod m)) with (0 - x mod m) by ring. rewrite Zminus_mod_idemp_r. f_equal; ring. }
  rewrite N.
  repeat match goal with |- _ /\ _ => split end; try reflexivity.
  split.
  - unfold mi_eqb; cbn [mi_value mi_modulus]. rewrite Z.eqb_refl, andb_true_r, Z.eqb_eq.
    intros E. apply Z.mod_divide; [lia|]. rewrite Zminus_mod, E, Z.sub_diag. apply Z.mod_0_l; lia.
  - intros [k Hk]. unfold mi_eqb; cbn [mi_value mi_modulus]. rewrite Z.eqb_refl, andb_true_r, Z.eqb_eq.
    replace x with (y + k * m) by lia. apply Z.mod_add; lia.
Qed.

Lemma mi_canonical_ops t a b : fits t (mi_modulus a) = true -> mi_canonical a -> mi_canonical b ->
  (forall c, mi_add t a b = Ret c \/ mi_sub t a b = Ret c \/ mi_mul t a b = Ret c \/ mi_neg t a = Ret c ->
     mi_canonical c /\ mi_modulus c = mi_modulus a) /\
  mi_neg t a <> Panic /\
  (mi_modulus a = mi_modulus b -> is_ret (mi_add t a b) = true /\ is_ret (mi_sub t a b) = true /\ is_ret (mi_mul t a b) = true).
Proof.
  destruct a as [x m], b as [y n]. unfold mi_canonical; cbn [mi_value mi_modulus]. intros Hf Hx Hy.
  assert (Hm : 0 < m) by lia.
  rewrite mi_neg_ok by assumption.
  assert (C : forall v, mi_canonical (MI (v mod m) m) /\ mi_modulus (MI (v mod m) m) = m).
  { intros v. split; [|reflexivity]. apply Z.mod_pos_bound; assumption. }
  destruct (Z.eq_dec m n) as [<-|E].
  - destruct (mi_add_ok t x y m Hm Hf Hx Hy) as [-> _].
    destruct (mi_sub_ok t x y m Hm Hf Hx Hy) as [-> _].
    destruct (mi_mul_ok t x y m Hm Hf Hx Hy) as [-> _].
    repeat match goal with |- _ /\ _ => split end; try discriminate; [|intros; repeat split].
    intros c [H|[H|[H|H]]]; injection H as <-; apply C.
  - unfold mi_add, mi_sub, mi_mul, has_matching_moduli; cbn [mi_value mi_modulus].
    replace (m =? n) with false by (symmetry; apply Z.eqb_neq; assumption). cbn [assert_then].
    repeat match goal with |- _ /\ _ => split end; try discriminate; [|intros; contradiction].
    intros c [H|[H|[H|H]]]; try discriminate. injection H as <-. apply C.
Qed.

Lemma mi_mismatch t a b : mi_modulus a <> mi_modulus b ->
  mi_add t a b = Panic /\ mi_sub t a b = Panic /\ mi_mul t a b = Panic /\
  mi_checked_add t a b = Ret None /\ mi_checked_sub t a b = Ret None /\ mi_checked_mul t a b = Ret None.
Proof.
  intros E. unfold mi_add, mi_sub, mi_mul, mi_checked_add, mi_checked_sub, mi_checked_mul, has_matching_moduli.
  replace (mi_modulus a =? mi_modulus b) with false by (symmetry; apply Z.eqb_neq; assumption).
  repeat split.
Qed.

Lemma mi_checked_inverse_ok t a : signed_ty t = true -> fits t (mi_modulus a) = true ->
  mi_canonical a -> 1 < mi_modulus a ->
  exists o, mi_checked_inverse t a = Ret o /\
   match o with
   | Some i => mi_canonical i /\ mi_modulus i = mi_modulus a /\
               (mi_value a * mi_value i) mod mi_modulus a = 1
   | None => forall k, (mi_value a * k) mod mi_modulus a <> 1
   end.
Proof.
  destruct a as [v m]. unfold mi_canonical; cbn [mi_value mi_modulus]. intros Ht Hf Hv Hm.
  unfold mi_checked_inverse; cbn [mi_value mi_modulus].
  destruct (Z.eqb_spec v 0) as [->|E].
  { exists None. split; [reflexivity|]. intros k. rewrite Z.mul_0_l, Z.mod_0_l by lia. lia. }
  destruct (ext_gcd_ty_ok t v m) as (x & y & Ex & Hb); try assumption; try lia.
  rewrite Ex. cbn [rbind]. destruct (Z.eqb_spec (Z.gcd v m) 1) as [G|G].
  - rewrite mi_new_ok by lia. cbn [rmap rbind]. eexists; split; [reflexivity|].
    cbn [mi_value mi_modulus]. split; [apply Z.mod_pos_bound; lia|]. split; [reflexivity|].
    rewrite Zmult_mod_idemp_r. replace (v * x) with (1 + (- y) * m) by lia.
    rewrite Z.mod_add by lia. apply Z.mod_small; lia.
  - eexists; split; [reflexivity|]. intros k Hk. apply G.
    assert (D : (Z.gcd v m | 1)).
    { rewrite <- Hk. rewrite Z.mod_eq by lia.
      apply Z.divide_sub_r; apply Z.divide_mul_l; [apply Z.gcd_divide_l|apply Z.gcd_divide_r]. }
    apply Z.divide_1_r_nonneg in D; [assumption|apply Z.gcd_nonneg].
Qed.

Lemma mi_checked_inverse_mod1 t : mi_checked_inverse t (MI 0 1) = Ret None.
Proof. reflexivity. Qed.

Lemma mi_div_ok t a b : signed_ty t = true -> fits t (mi_modulus a) = true ->
  mi_canonical a -> mi_canonical b -> mi_modulus a = mi_modulus b -> 1 < mi_modulus a ->
  (exists q, mi_checked_div t a b = Ret (Some q) /\ mi_div t a b = Ret q /\
     mi_checked_exact_div_assign t a b = Ret (q, true) /\
     mi_canonical q /\ mi_modulus q = mi_modulus a /\
     mi_mul t q b = Ret a /\ exists k, (mi_value b * k) mod mi_modulus a = 1)
  \/ (mi_checked_div t a b = Ret None /\ mi_div t a b = Panic /\
     mi_checked_exact_div_assign t a b = Ret (a, false) /\
      forall k, (mi_value b * k) mod mi_modulus a <> 1).
Proof.
  destruct a as [x m], b as [y n]. cbn [mi_value mi_modulus]. intros Ht Hf Ha Hb <- Hm.
  unfold mi_checked_exact_div_assign, mi_checked_div, mi_div, mi_inverse.
  destruct (mi_checked_inverse_ok t (MI y m)) as (o & Eo & Ho); try assumption.
  rewrite Eo. cbn [rbind]. destruct o as [[i n]|]; cbn [mi_value mi_modulus unwrap rbind] in *.
  - destruct Ho as (Hi & -> & Hyi). left. unfold mi_canonical in *; cbn [mi_value mi_modulus] in *.
    destruct (mi_mul_ok t x i m) as [-> ->]; try assumption; try lia. cbn [rbind].
    eexists; split; [reflexivity|]. split; [reflexivity|]. split; [reflexivity|].
    cbn [mi_value mi_modulus]. pose proof (Z.mod_pos_bound (x * i) m ltac:(lia)).
    split; [assumption|]. split; [reflexivity|]. split; [|exists i; assumption].
    destruct (mi_mul_ok t ((x * i) mod m) y m) as [-> _]; try assumption; try lia.
    f_equal; f_equal. rewrite Zmult_mod_idemp_l.
    replace (x * i * y) with (x * (y * i)) by ring.
    rewrite <- Zmult_mod_idemp_r, Hyi, Z.mul_1_r. apply Z.mod_small; lia.
  - right. repeat split; try reflexivity. assumption.
Qed.

Lemma mi_div_mismatch t a b : 
  signed_ty t = true -> fits t (mi_modulus b) = true -> mi_canonical b -> 1 < mi_modulus b ->
  mi_modulus a <> mi_modulus b ->
  mi_div t a b = Panic /\ mi_checked_div t a b = Ret None.
Proof.
  intros Ht Hf Hc Hm Hne.
  destruct (mi_checked_inverse_ok t b) as (o & Eo & Ho); try assumption.
  unfold mi_div, mi_checked_div, mi_inverse. rewrite Eo. cbn [rbind].
  destruct o as [i|]; cbn [unwrap rbind]; [|split; reflexivity].
  destruct Ho as (_ & Hi & _). rewrite <- Hi in Hne.
  destruct (mi_mismatch t a i Hne) as (_ & _ & -> & _ & _ & ->). split; reflexivity.
Qed.

Lemma inverse_mod1_refuted : exists t a,
  mi_canonical a /\ mi_modulus a = 1 /\ mi_checked_inverse t a = Ret None /\
  exists k, (mi_value a * k - 1) mod mi_modulus a = 0.
Proof. exists IBig, (MI 0 1). split; [unfold mi_canonical; cbn; lia|]. split; [reflexivity|]. split; [reflexivity|]. exists 0. reflexivity. Qed.

Lemma mi_pow_ok t a e : fits t (mi_modulus a) = true -> mi_canonical a -> (e = 0%nat -> 1 < mi_modulus a) ->
  mi_pow t a e = Ret (MI (mi_value a ^ Z.of_nat e mod mi_modulus a) (mi_modulus a)).
Proof.
  destruct a as [v m]; unfold mi_canonical, mi_pow; cbn [mi_value mi_modulus]. intros Hf Hv He.
  rewrite pow_modular_reduce_ok; try assumption; try lia. reflexivity.
Qed.

(** Counterexamples. *)
Lemma pow_mod1_refuted : exists t b,
  fits t 1 = true /\ pow_modular_reduce t b 0 1 = Ret 1 /\ b ^ 0 mod 1 = 0.
Proof. exists (IUnsigned 32), 5. repeat split. Qed.

Lemma zero_modulus_refuted : exists t a b,
  mi_new t 3 0 = Ret a /\ mi_new t 4 0 = Ret b /\ mi_add t a b = Panic.
Proof. exists IBig, (MI 3 0), (MI 4 0). repeat split. Qed.

Lemma negative_modulus_refuted : exists t a b c d,
  mi_new t (-2) (-5) = Ret a /\ mi_new t (-3) (-5) = Ret b /\ mi_mul t a b = Ret c /\
  mi_new t 6 (-5) = Ret d /\ mi_eqb c d = false.
Proof. exists IBig, (MI (-2) (-5)), (MI (-3) (-5)), (MI 1 (-5)), (MI (-4) (-5)). repeat split. Qed.
