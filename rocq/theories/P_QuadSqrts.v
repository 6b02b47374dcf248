(** Sums and differences of two square roots. *)
From Coq Require Import ZArith Reals Lia Lra Znumtheory.
From Verif Require Import M_Base M_Interval M_Quad S_Quad.
Local Open Scope Z_scope.

Definition is_square (n : Z) : Prop := exists s, s * s = n.

Lemma sqrt_test n : 0 <= n -> (Z.sqrt n * Z.sqrt n =? n) = true <-> is_square n.
Proof.
  intros H. rewrite Z.eqb_eq. split; [intros E; exists (Z.sqrt n); exact E|].
  intros [s <-]. rewrite <- (Z.abs_square s). rewrite Z.sqrt_square by apply Z.abs_nonneg. reflexivity.
Qed.

(** an integer that is the square of a fraction is the square of an integer *)
Lemma square_fraction n m k : n <> 0 -> n * n * k = m * m -> is_square k.
Proof.
  intros N E. set (g := Z.gcd n m).
  assert (G : g <> 0) by (unfold g; rewrite Z.gcd_eq_0; tauto).
  destruct (Z.gcd_divide_l n m) as [n' En]. destruct (Z.gcd_divide_r n m) as [m' Em]. fold g in En, Em.
  assert (C : Z.gcd n' m' = 1).
  { replace n' with (n / g) by (rewrite En; apply Z.div_mul; exact G).
    replace m' with (m / g) by (rewrite Em; apply Z.div_mul; exact G).
    apply Z.gcd_div_gcd; [exact G|reflexivity]. }
  assert (E' : n' * n' * k = m' * m').
  { apply (Z.mul_reg_l _ _ (g * g)); [nia|]. rewrite En, Em in E. nia. }
  assert (D : (n' | m' * m')) by (rewrite <- E'; exists (n' * k); ring).
  apply Z.gauss in D; [|exact C].
  assert (U : (n' | 1)) by (rewrite <- C; apply Z.gcd_greatest; [apply Z.divide_refl|exact D]).
  apply Z.divide_1_r in U. exists m'. rewrite <- E'. destruct U as [-> | ->]; ring.
Qed.

Local Open Scope R_scope.

Lemma sqrt_sq a : (0 <= a)%Z -> sqrt (IZR a) * sqrt (IZR a) = IZR a.
Proof. intros H. apply sqrt_sqrt. apply IZR_le. exact H. Qed.

(** 1 and the square root of a non-square are independent *)
Lemma independent a m n : (0 <= a)%Z -> ~ is_square a -> IZR m + IZR n * sqrt (IZR a) = 0 -> m = 0%Z /\ n = 0%Z.
Proof.
  intros Ha Hs E. assert (S := sqrt_sq a Ha). set (r := sqrt (IZR a)) in *.
  assert (Q : (n * n * a = m * m)%Z).
  { apply eq_IZR. rewrite !mult_IZR. rewrite <- S. replace (IZR m) with (- (IZR n * r)) by lra. ring. }
  destruct (Z.eq_dec n 0) as [->|N]; [split; [nia|reflexivity]|]. exfalso. apply Hs. exact (square_fraction n m a N Q).
Qed.

(** The sum of two square roots solves no quadratic equation unless one of the
    numbers, or their product, is a square. *)
Lemma sum_not_quadratic a b : (0 <= a)%Z -> (0 <= b)%Z -> ~ is_square a -> ~ is_square b -> ~ is_square (a * b) ->
  ~ quadratic (sqrt (IZR a) + sqrt (IZR b)).
Proof.
  intros Ha Hb Sa Sb Sab (al & be & ga & N & E).
  assert (Qa := sqrt_sq a Ha). assert (Qb := sqrt_sq b Hb). set (r := sqrt (IZR a)) in *. set (s := sqrt (IZR b)) in *.
  set (P := (al * (a + b) + ga)%Z).
  assert (E1 : IZR P + IZR be * r = - s * (IZR be + 2 * IZR al * r)).
  { unfold P. rewrite plus_IZR, mult_IZR, plus_IZR. rewrite <- Qa, <- Qb. lra. }
  assert (E2 : (IZR P + IZR be * r) * (IZR P + IZR be * r) = (s * s) * ((IZR be + 2 * IZR al * r) * (IZR be + 2 * IZR al * r))).
  { rewrite E1. ring. }
  rewrite Qb in E2.
  destruct (independent a (P * P + be * be * a - b * (be * be + 4 * al * al * a)) (2 * P * be - b * 4 * be * al) Ha Sa) as [I1 I2].
  { repeat rewrite ?minus_IZR, ?plus_IZR, ?mult_IZR. fold r. rewrite <- Qa. lra. }
  destruct (Z.eq_dec be 0) as [->|Nb].
  - assert (Nal : al <> 0%Z) by tauto. apply Sab. apply (square_fraction (2 * al) P); nia.
  - assert (HP : P = (2 * b * al)%Z) by nia.
    assert (H0 : ((b - a) * (4 * b * al * al - be * be) = 0)%Z) by (rewrite HP in I1; nia).
    apply Z.mul_eq_0 in H0. destruct H0 as [H0|H0].
    + apply Sab. exists a. replace b with a by lia. reflexivity.
    + apply Sb. apply (square_fraction (2 * al) be); nia.
Qed.

Local Open Scope Z_scope.
Lemma add_sub_unfold a b : 0 <= a -> 0 <= b -> add_sub_sqrts a b =
  if Z.sqrt a * Z.sqrt a =? a then Ret (Some (add_sub_perfect a b (Z.sqrt a)))
  else if Z.sqrt b * Z.sqrt b =? a then Ret (Some (add_sub_perfect b a (Z.sqrt b)))
  else if Z.sqrt (a * b) * Z.sqrt (a * b) =? a * b then
    Ret (Some (Quad (2 * Z.sqrt (a * b) - (a + b)) 0 1, Quad (- (2 * Z.sqrt (a * b)) - (a + b)) 0 1))
  else Ret None.
Proof.
  intros Ha Hb. unfold add_sub_sqrts, bigint_sqrt, assert_then.
  assert (A : (a <? 0) = false) by (apply Z.ltb_ge; exact Ha).
  assert (B : (b <? 0) = false) by (apply Z.ltb_ge; exact Hb).
  assert (AB : (a * b <? 0) = false) by (apply Z.ltb_ge; nia).
  rewrite A, B. cbn [negb rbind]. rewrite ?A, ?B. cbn [rbind].
  destruct (Z.sqrt a * Z.sqrt a =? a); [reflexivity|]. destruct (Z.sqrt b * Z.sqrt b =? a); [reflexivity|].
  rewrite AB. cbn [rbind]. reflexivity.
Qed.

(** the code's second test never succeeds *)
Lemma second_dead a b : 0 <= a -> (Z.sqrt a * Z.sqrt a =? a) = false -> (Z.sqrt b * Z.sqrt b =? a) = false.
Proof.
  intros Ha H. apply Z.eqb_neq. intros E. pose proof (proj2 (sqrt_test a Ha) (ex_intro _ _ E)). congruence.
Qed.

Local Open Scope R_scope.
Lemma sqrt_of_square s : (0 <= s)%Z -> sqrt (IZR (s * s)) = IZR s.
Proof. intros H. rewrite mult_IZR. apply sqrt_square. apply IZR_le. exact H. Qed.

Lemma quad1 c b : qvalue (Quad c b 1) = (- IZR b + sqrt (IZR (b * b - 4 * c))) / 2.
Proof. unfold qvalue. cbn [qa qb qc]. cbn [Z.eqb]. rewrite Rmult_1_r. do 3 f_equal. Qed.

Lemma perfect_values a b s : (0 <= s)%Z -> (s * s = a)%Z -> (0 <= b)%Z ->
  qvalue (fst (add_sub_perfect a b s)) = sqrt (IZR b) - sqrt (IZR a) /\
  qvalue (snd (add_sub_perfect a b s)) = sqrt (IZR a) + sqrt (IZR b).
Proof.
  intros Hs <- Hb. unfold add_sub_perfect. cbn [fst snd]. rewrite !quad1, (sqrt_of_square s Hs).
  assert (S2 : sqrt (IZR (4 * b)) = 2 * sqrt (IZR b)).
  { rewrite mult_IZR, sqrt_mult by (try apply IZR_le; lia || lra). f_equal. replace 4 with (2 * 2) by ring. apply sqrt_square. lra. }
  replace (2 * s * (2 * s) - 4 * (s * s - b))%Z with (4 * b)%Z by ring.
  replace (- (2 * s) * - (2 * s) - 4 * (s * s - b))%Z with (4 * b)%Z by ring.
  rewrite S2, opp_IZR, mult_IZR. split; field.
Qed.

Lemma product_values a b s : (0 <= a)%Z -> (0 <= b)%Z -> (0 <= s)%Z -> (s * s = a * b)%Z ->
  qvalue (Quad (2 * s - (a + b)) 0 1) = Rabs (sqrt (IZR a) - sqrt (IZR b)) /\
  qvalue (Quad (- (2 * s) - (a + b)) 0 1) = sqrt (IZR a) + sqrt (IZR b).
Proof.
  intros Ha Hb Hs E. rewrite !quad1.
  assert (Qa := sqrt_sq a Ha). assert (Qb := sqrt_sq b Hb).
  assert (R : IZR s = sqrt (IZR a) * sqrt (IZR b)).
  { rewrite <- sqrt_mult by (apply IZR_le; assumption). rewrite <- mult_IZR, <- E. symmetry. apply sqrt_of_square. exact Hs. }
  assert (Pa := sqrt_pos (IZR a)). assert (Pb := sqrt_pos (IZR b)).
  set (x := sqrt (IZR a)) in *. set (y := sqrt (IZR b)) in *. split.
  - replace (IZR (0 * 0 - 4 * (2 * s - (a + b)))) with (Rsqr (2 * (x - y))).
    + rewrite sqrt_Rsqr_abs, Rabs_mult, (Rabs_pos_eq 2) by lra. field.
    + repeat rewrite ?minus_IZR, ?plus_IZR, ?mult_IZR. rewrite R, <- Qa, <- Qb. unfold Rsqr. ring.
  - replace (IZR (0 * 0 - 4 * (- (2 * s) - (a + b)))) with (Rsqr (2 * (x + y))).
    + rewrite sqrt_Rsqr by lra. field.
    + repeat rewrite ?minus_IZR, ?opp_IZR, ?plus_IZR, ?mult_IZR. rewrite R, <- Qa, <- Qb. unfold Rsqr. ring.
Qed.

Lemma add_sub_sqrts_spec a b : (0 <= a)%Z -> (0 <= b)%Z ->
  match add_sub_sqrts a b with
  | Ret (Some (p, q)) =>
      qvalue q = sqrt (IZR a) + sqrt (IZR b) /\ Rabs (qvalue p) = Rabs (sqrt (IZR a) - sqrt (IZR b))
  | Ret None => is_square b \/ ~ quadratic (sqrt (IZR a) + sqrt (IZR b))
  | _ => False
  end.
Proof.
  intros Ha Hb. rewrite add_sub_unfold by assumption.
  destruct (Z.sqrt a * Z.sqrt a =? a)%Z eqn:T1.
  - apply Z.eqb_eq in T1. destruct (perfect_values a b (Z.sqrt a)) as [P Q]; [apply Z.sqrt_nonneg|exact T1|exact Hb|].
    unfold add_sub_perfect in *. cbn [fst snd] in *. split; [exact Q|]. rewrite P. apply Rabs_minus_sym.
  - rewrite (second_dead a b Ha T1).
    assert (Sa : ~ is_square a) by (intros X; apply (sqrt_test a Ha) in X; congruence).
    assert (Hab : (0 <= a * b)%Z) by nia.
    destruct (Z.sqrt (a * b) * Z.sqrt (a * b) =? a * b)%Z eqn:T3.
    + apply Z.eqb_eq in T3. destruct (product_values a b (Z.sqrt (a * b)) Ha Hb (Z.sqrt_nonneg _) T3) as [P Q].
      split; [exact Q|]. rewrite P. apply Rabs_Rabsolu.
    + assert (Sab : ~ is_square (a * b)) by (intros X; apply (sqrt_test _ Hab) in X; congruence).
      destruct (Z.sqrt b * Z.sqrt b =? b)%Z eqn:T2; [left; apply (sqrt_test b Hb); exact T2|].
      right. apply sum_not_quadratic; try assumption. intros X. apply (sqrt_test b Hb) in X. congruence.
Qed.

(** if just the second number is a square the sum is reported not quadratic *)
Lemma add_sub_sqrts_second a s : (0 <= a)%Z -> ~ is_square a -> (0 < s)%Z -> add_sub_sqrts a (s * s) = Ret None.
Proof.
  intros Ha Sa Hs. rewrite add_sub_unfold by nia.
  destruct (Z.sqrt a * Z.sqrt a =? a)%Z eqn:T1; [exfalso; apply Sa, (sqrt_test a Ha), T1|].
  rewrite (second_dead a _ Ha T1). destruct (_ =? a * (s * s))%Z eqn:T3; [|reflexivity].
  exfalso. apply Sa. apply Z.eqb_eq in T3. apply (square_fraction s (Z.sqrt (a * (s * s)))); [lia|]. rewrite T3. ring.
Qed.

Lemma sqrts_wrong_error : exists a b, (0 <= a)%Z /\ (0 <= b)%Z /\
  add_sub_sqrts a b = Ret None /\ quadratic (sqrt (IZR a) + sqrt (IZR b)).
Proof.
  exists 2%Z, 4%Z. split; [lia|]. split; [lia|]. split; [vm_compute; reflexivity|].
  exists 1%Z, (-4)%Z, 2%Z. split; [left; lia|].
  replace (sqrt 4) with 2 by (symmetry; replace 4 with (2 * 2) by ring; apply sqrt_square; lra).
  pose proof (sqrt_sqrt 2 ltac:(lra)). lra.
Qed.
