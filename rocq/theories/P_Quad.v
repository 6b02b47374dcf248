(** Proofs about quadratic numbers. *)
From Coq Require Import ZArith Znumtheory Reals Lra Lia Psatz Bool.
From Verif Require Import M_Base M_Traits M_Interval M_Quad S_Quad.
Local Open Scope R_scope.

(** * Integers *)

Lemma zdiv_mul a b : (b <> 0)%Z -> zdiv (b * a) b = Ret a.
Proof.
intros H. unfold zdiv. destruct (Z.eqb_spec b 0); [easy|].
now rewrite Z.mul_comm, Z.quot_mul.
Qed.

Lemma zdiv_mul_opp a b : (b <> 0)%Z -> zdiv (b * a) (- b) = Ret (- a)%Z.
Proof.
intros H. replace (b * a)%Z with (- b * - a)%Z by ring. apply zdiv_mul. lia.
Qed.

(** a rational whose square is an integer is an integer *)
Lemma square_ratio (p q D : Z) : (q <> 0)%Z -> (p * p = D * (q * q))%Z -> exists s, (s * s = D)%Z.
Proof.
intros Hq E.
pose (g := Z.gcd p q).
assert (Hg : (0 < g)%Z).
{ assert (g <> 0)%Z by (intros H; apply Z.gcd_eq_0 in H; lia). pose proof (Z.gcd_nonneg p q). unfold g in *. lia. }
destruct (Z.gcd_divide_l p q) as [p' Ep]. destruct (Z.gcd_divide_r p q) as [q' Eq].
fold g in Ep, Eq.
assert (Hc : Z.gcd p' q' = 1%Z).
{ assert (E1 : (g * Z.gcd p' q' = g)%Z).
  { rewrite <- Z.gcd_mul_mono_l_nonneg by lia. rewrite (Z.mul_comm g p'), (Z.mul_comm g q'), <- Ep, <- Eq. easy. }
  nia. }
assert (E2 : (p' * p' = D * (q' * q'))%Z).
{ rewrite Ep, Eq in E. nia. }
assert (Hd : (q' | p')%Z).
{ apply (Gauss q' p' p').
  - rewrite E2. exists (D * q')%Z. ring.
  - apply Zgcd_1_rel_prime. now rewrite Z.gcd_comm. }
assert (H1 : (q' | 1)%Z).
{ rewrite <- Hc. apply Z.gcd_greatest; [easy|apply Z.divide_refl]. }
apply Z.divide_1_r in H1. exists p'. destruct H1 as [-> | ->]; lia.
Qed.

(** * Canonical forms *)

Definition disc (p : quad) : Z := (qb p * qb p - 4 * qa p * qc p)%Z.

Lemma disc_eq p : discriminant p = disc p.
Proof. unfold discriminant, disc. ring. Qed.

Definition gcd3 (x : quad) : Z := Z.gcd (Z.gcd (qc x) (qb x)) (qa x).

Definition canon (x : quad) : Prop :=
  (qa x = 0%Z /\ (0 < qb x)%Z /\ Z.gcd (qc x) (qb x) = 1%Z) \/
  (qa x <> 0%Z /\ gcd3 x = 1%Z /\ (0 <= disc x)%Z /\ ~ exists s, (s * s = disc x)%Z).

Lemma canon_root x : canon x -> has_root x.
Proof.
intros [[H1 [H2 _]]|[H1 [_ [H2 _]]]]; unfold has_root.
- split; [lia|]. rewrite H1. nia.
- split; [lia|]. exact H2.
Qed.

Lemma qvalue_lin x : qa x = 0%Z -> qvalue x = - IZR (qc x) / IZR (qb x).
Proof. intros H. unfold qvalue. now rewrite H. Qed.

Lemma qvalue_quad x : qa x <> 0%Z -> qvalue x = (- IZR (qb x) + sqrt (IZR (disc x))) / (2 * IZR (qa x)).
Proof. intros H. unfold qvalue, disc. now destruct (Z.eqb_spec (qa x) 0). Qed.

Lemma IZR_nz z : (z <> 0)%Z -> IZR z <> 0.
Proof. intros H. now apply IZR_neq. Qed.

Lemma from_ratio_ok n d : (d <> 0)%Z ->
  exists x, from_ratio n d = Ret x /\ canon x /\ qa x = 0%Z /\ qvalue x = IZR n / IZR d.
Proof.
intros Hd. unfold from_ratio, from_ratio_non_inf, int_gcd.
destruct (Z.eqb_spec d 0); [easy|]. cbn [negb assert_then].
set (g := Z.gcd n d).
assert (Hg : (0 < g)%Z).
{ assert (g <> 0)%Z by (intros H; apply Z.gcd_eq_0 in H; lia). pose proof (Z.gcd_nonneg n d). unfold g in *. lia. }
destruct (Z.gcd_divide_l n d) as [n' En]. destruct (Z.gcd_divide_r n d) as [d' Ed].
fold g in En, Ed.
assert (Hc : Z.gcd n' d' = 1%Z).
{ assert (E1 : (g * Z.gcd n' d' = g)%Z).
  { rewrite <- Z.gcd_mul_mono_l_nonneg by lia. rewrite (Z.mul_comm g n'), (Z.mul_comm g d'), <- En, <- Ed. easy. }
  nia. }
assert (HgR : IZR g <> 0) by (apply IZR_nz; lia).
assert (Hd' : (d' <> 0)%Z) by nia.
assert (Hd'R : IZR d' <> 0) by now apply IZR_nz.
clearbody g. rewrite En, Ed, (Z.mul_comm n'), (Z.mul_comm d').
destruct (Z.ltb_spec (g * d') 0) as [Hs|Hs].
- rewrite zdiv_mul, zdiv_mul_opp by lia. cbn [rbind]. eexists. split; [reflexivity|].
  split; [|split; [easy|]].
  + left. cbn. split; [easy|]. split; [nia|]. now rewrite Z.gcd_opp_r.
  + rewrite qvalue_lin by easy. cbn. rewrite opp_IZR, !mult_IZR. field. easy.
- rewrite zdiv_mul, zdiv_mul_opp by lia. cbn [rbind]. eexists. split; [reflexivity|].
  split; [|split; [easy|]].
  + left. cbn. split; [easy|]. split; [nia|]. now rewrite Z.gcd_opp_l.
  + rewrite qvalue_lin by easy. cbn. rewrite opp_IZR, !mult_IZR. field. easy.
Qed.

Lemma from_ratio_zero n : from_ratio n 0 = Panic.
Proof. easy. Qed.

Lemma sqrt_square_Z s D : (0 <= s)%Z -> (s * s = D)%Z -> sqrt (IZR D) = IZR s.
Proof.
intros Hs <-. rewrite mult_IZR. apply sqrt_square. now apply IZR_le.
Qed.

Lemma into_reduced_ok p : has_root p ->
  exists x, into_reduced p = Ret x /\ canon x /\ qvalue x = qvalue p.
Proof.
intros [H1 H2]. unfold into_reduced.
destruct (Z.eqb_spec (qa p) 0) as [Ha|Ha].
- destruct (from_ratio_ok (- qc p) (qb p)) as [x [E [Hc [_ Hv]]]]; [lia|].
  exists x. split; [easy|]. split; [easy|]. rewrite Hv, (qvalue_lin p Ha), opp_IZR. easy.
- unfold int_gcd. fold (gcd3 p). set (g := gcd3 p).
  assert (Hg : (0 < g)%Z).
  { assert (g <> 0)%Z by (intros H; apply Z.gcd_eq_0 in H; lia).
    pose proof (Z.gcd_nonneg (Z.gcd (qc p) (qb p)) (qa p)). unfold g, gcd3 in *. lia. }
  assert (Hda : (g | qa p)%Z) by apply Z.gcd_divide_r.
  assert (Hdc : (g | qc p)%Z).
  { apply (Z.divide_trans _ (Z.gcd (qc p) (qb p))); [apply Z.gcd_divide_l|apply Z.gcd_divide_l]. }
  assert (Hdb : (g | qb p)%Z).
  { apply (Z.divide_trans _ (Z.gcd (qc p) (qb p))); [apply Z.gcd_divide_l|apply Z.gcd_divide_r]. }
  destruct Hda as [a Ea], Hdb as [b Eb], Hdc as [c Ec].
  assert (Hg3 : gcd3 (Quad c b a) = 1%Z).
  { assert (E1 : (g * gcd3 (Quad c b a) = g)%Z).
    { unfold gcd3. cbn. rewrite <- !Z.gcd_mul_mono_l_nonneg by lia.
      rewrite !(Z.mul_comm g), <- Ea, <- Eb, <- Ec. easy. }
    nia. }
  assert (Ha' : (a <> 0)%Z) by nia.
  assert (ED : (disc p = g * g * disc (Quad c b a))%Z).
  { unfold disc. rewrite Ea, Eb, Ec. cbn [qa qb qc]. ring. }
  assert (HD : (0 <= disc (Quad c b a))%Z).
  { change (0 <= disc p)%Z in H2. rewrite ED in H2. nia. }
  assert (Hv : qvalue (Quad c b a) = qvalue p).
  { rewrite !qvalue_quad by easy. rewrite ED, mult_IZR, mult_IZR. cbn [qa qb qc].
    rewrite sqrt_mult_alt by (apply Rle_0_sqr).
    rewrite sqrt_square by (apply IZR_le; lia).
    rewrite Ea, Eb, !mult_IZR. field.
    split; apply IZR_nz; lia. }
  clearbody g. rewrite Ea, Eb, Ec, !(Z.mul_comm _ g).
  assert ((0 <? g)%Z = true) as -> by (now apply Z.ltb_lt). cbn [assert_then].
  rewrite !zdiv_mul by lia. cbn [rbind]. rewrite disc_eq.
  unfold bigint_sqrt. assert ((disc (Quad c b a) <? 0)%Z = false) as -> by (apply Z.ltb_ge; lia).
  cbn [negb assert_then rbind].
  destruct (Z.eqb_spec (Z.sqrt (disc (Quad c b a)) * Z.sqrt (disc (Quad c b a))) (disc (Quad c b a))) as [Es|Es].
  + cbn [qa qb qc] in *.
    destruct (from_ratio_ok (- b + Z.sqrt (disc (Quad c b a))) (2 * a)) as [x [E [Hc [_ Hx]]]]; [lia|].
    exists x. split; [easy|]. split; [easy|]. rewrite Hx, <- Hv, qvalue_quad by easy. cbn [qa qb qc].
    rewrite (sqrt_square_Z _ _ (Z.sqrt_nonneg _) Es), plus_IZR, opp_IZR, mult_IZR. easy.
  + exists (Quad c b a). split; [easy|]. split; [|easy].
    right. split; [easy|]. split; [easy|]. split; [easy|].
    intros [s Hs]. apply Es. rewrite <- Hs.
    rewrite (Z.sqrt_unique (s * s) (Z.abs s)); [|nia]. apply Z.abs_square.
Qed.

(** * Irrationality and uniqueness *)

Lemma canon_irrational x : canon x -> qa x <> 0%Z ->
  forall n d : Z, (d <> 0)%Z -> IZR d * qvalue x <> IZR n.
Proof.
intros Hc Ha n d Hd E. destruct Hc as [[H _]|[_ [_ [HD Hs]]]]; [easy|]. apply Hs.
assert (Hv := qvalue_quad x Ha).
assert (HaR : IZR (qa x) <> 0) by now apply IZR_nz.
assert (E2 : IZR d * sqrt (IZR (disc x)) = IZR (2 * qa x * n + d * qb x)).
{ rewrite plus_IZR, !mult_IZR, <- E, Hv. field. easy. }
apply (square_ratio (2 * qa x * n + d * qb x) d (disc x) Hd).
apply eq_IZR. rewrite !mult_IZR, <- E2.
transitivity (IZR d * IZR d * (sqrt (IZR (disc x)) * sqrt (IZR (disc x)))); [ring|].
rewrite sqrt_sqrt by (now apply IZR_le). ring.
Qed.

Lemma qvalue_root x : has_root x -> IZR (qa x) * qvalue x * qvalue x + IZR (qb x) * qvalue x + IZR (qc x) = 0.
Proof.
intros [H1 H2]. destruct (Z.eq_dec (qa x) 0) as [Ha|Ha].
- rewrite (qvalue_lin x Ha), Ha. assert (IZR (qb x) <> 0) by (apply IZR_nz; lia). field. easy.
- rewrite (qvalue_quad x Ha). assert (HaR : IZR (qa x) <> 0) by now apply IZR_nz.
  set (s := sqrt (IZR (disc x))).
  assert (Es : s * s = IZR (disc x)) by (apply sqrt_sqrt; now apply IZR_le).
  unfold disc in Es. rewrite minus_IZR, !mult_IZR in Es.
  field_simplify; [|easy]. replace (s ^ 2) with (s * s) by ring. rewrite Es. field. easy.
Qed.

Lemma prim_div a b c a' b' c' : Z.gcd (Z.gcd c b) a = 1%Z ->
  (a * b' = a' * b)%Z -> (a * c' = a' * c)%Z -> (a | a')%Z.
Proof.
intros Hg E1 E2.
destruct (Z.gcd_bezout (Z.gcd c b) a _ Hg) as [u [w Hw]].
destruct (Z.gcd_bezout c b _ eq_refl) as [s [t Ht]]. rewrite <- Ht in Hw.
exists (u * s * c' + u * t * b' + w * a')%Z.
replace a' with (a' * (u * (s * c + t * b) + w * a))%Z at 1 by (rewrite Hw; ring).
transitivity (u * s * (a' * c) + u * t * (a' * b) + w * a' * a)%Z; [ring|].
rewrite <- E1, <- E2. ring.
Qed.

Lemma canon_unique x y : canon x -> canon y -> qvalue x = qvalue y -> x = y.
Proof.
intros Hx Hy E.
destruct (Z.eq_dec (qa x) 0) as [Ax|Ax]; destruct (Z.eq_dec (qa y) 0) as [Ay|Ay].
- destruct Hx as [[_ [Bx Gx]]|[H _]]; [|easy]. destruct Hy as [[_ [By Gy]]|[H _]]; [|easy].
  rewrite !qvalue_lin in E by easy.
  assert (E2 : (qc x * qb y = qc y * qb x)%Z).
  { apply eq_IZR. rewrite !mult_IZR.
    assert (IZR (qb x) <> 0) by (apply IZR_nz; lia). assert (IZR (qb y) <> 0) by (apply IZR_nz; lia).
    transitivity (- (- IZR (qc x) / IZR (qb x)) * IZR (qb x) * IZR (qb y)); [field; easy|].
    rewrite E. field. easy. }
  assert (D1 : (qb x | qb y)%Z).
  { apply (Gauss (qb x) (qc x) (qb y)).
    - exists (qc y). easy.
    - apply Zgcd_1_rel_prime. now rewrite Z.gcd_comm. }
  assert (D2 : (qb y | qb x)%Z).
  { apply (Gauss (qb y) (qc y) (qb x)).
    - exists (qc x). easy.
    - apply Zgcd_1_rel_prime. now rewrite Z.gcd_comm. }
  assert (Eb : qb x = qb y) by (apply Z.divide_antisym_nonneg; try easy; lia).
  destruct x as [c b a], y as [c' b' a']; cbn in *. subst. f_equal. nia.
- exfalso. apply (canon_irrational y Hy Ay (- qc x) (qb x)).
  + destruct Hx as [[_ [Bx _]]|[H _]]; [lia|easy].
  + rewrite <- E, (qvalue_lin x Ax), opp_IZR.
    destruct Hx as [[_ [Bx _]]|[H _]]; [|easy].
    field. apply IZR_nz. lia.
- exfalso. apply (canon_irrational x Hx Ax (- qc y) (qb y)).
  + destruct Hy as [[_ [By _]]|[H _]]; [lia|easy].
  + rewrite E, (qvalue_lin y Ay), opp_IZR.
    destruct Hy as [[_ [By _]]|[H _]]; [|easy].
    field. apply IZR_nz. lia.
- pose proof (qvalue_root x (canon_root x Hx)) as Rx.
  pose proof (qvalue_root y (canon_root y Hy)) as Ry. rewrite <- E in Ry.
  set (v := qvalue x) in *.
  assert (L : IZR (qa x * qb y - qa y * qb x) * v = IZR (qa y * qc x - qa x * qc y)).
  { rewrite !minus_IZR, !mult_IZR.
    apply (Rplus_eq_reg_r (IZR (qa x) * (IZR (qa y) * v * v + IZR (qc y)) - IZR (qa y) * (IZR (qa x) * v * v + IZR (qc x)))).
    transitivity (IZR (qa x) * (IZR (qa y) * v * v + IZR (qb y) * v + IZR (qc y)) -
      IZR (qa y) * (IZR (qa x) * v * v + IZR (qb x) * v + IZR (qc x))); [ring|].
    rewrite Rx, Ry. ring. }
  assert (E1 : (qa x * qb y = qa y * qb x)%Z).
  { destruct (Z.eq_dec (qa x * qb y - qa y * qb x) 0) as [H|H]; [lia|].
    now destruct (canon_irrational x Hx Ax _ _ H L). }
  assert (E2 : (qa x * qc y = qa y * qc x)%Z).
  { replace (qa x * qb y - qa y * qb x)%Z with 0%Z in L by lia. rewrite Rmult_0_l in L.
    symmetry in L. apply eq_IZR_R0 in L. lia. }
  destruct Hx as [[H _]|[_ [Gx [Dx Sx]]]]; [easy|].
  destruct Hy as [[H _]|[_ [Gy [Dy _]]]]; [easy|].
  assert (D1 : (qa x | qa y)%Z) by (apply (prim_div _ (qb x) (qc x) _ (qb y) (qc y)); easy).
  assert (D2 : (qa y | qa x)%Z).
  { apply (prim_div _ (qb y) (qc y) _ (qb x) (qc x)); [easy|lia|lia]. }
  destruct (Z.divide_antisym _ _ D1 D2) as [Ea|Ea].
  + destruct x as [c b a], y as [c' b' a']; cbn in *. subst. f_equal; nia.
  + exfalso. apply Sx. exists 0%Z.
    assert (Eb : qb y = (- qb x)%Z) by nia. assert (Ec : qc y = (- qc x)%Z) by nia.
    assert (Ed : disc y = disc x).
    { unfold disc. rewrite Eb, Ec. replace (qa y) with (- qa x)%Z by lia. ring. }
    unfold v in E. rewrite (qvalue_quad x Ax), (qvalue_quad y Ay), Ed, Eb in E.
    replace (qa y) with (- qa x)%Z in E by lia. rewrite !opp_IZR in E.
    assert (HaR : IZR (qa x) <> 0) by now apply IZR_nz.
    assert (Z0 : sqrt (IZR (disc x)) = 0).
    { apply (Rmult_eq_reg_r (/ IZR (qa x))); [|now apply Rinv_neq_0_compat].
      transitivity ((- IZR (qb x) + sqrt (IZR (disc x))) / (2 * IZR (qa x)) -
         (- - IZR (qb x) + sqrt (IZR (disc x))) / (2 * - IZR (qa x))); [field; easy|].
      rewrite <- E. ring. }
    apply sqrt_eq_0 in Z0; [|now apply IZR_le]. apply eq_IZR in Z0. easy.
Qed.

(** * Operations *)

Lemma neg_ok x : canon x -> canon (quad_neg x) /\ qvalue (quad_neg x) = - qvalue x.
Proof.
intros H. assert (Ed : disc (quad_neg x) = disc x) by (unfold disc; cbn [qa qb qc quad_neg]; ring).
destruct H as [[Ha [Hb Hg]]|[Ha [Hg [Hd Hs]]]].
- split.
  + left. cbn. rewrite Ha. split; [easy|]. split; [easy|]. now rewrite Z.gcd_opp_l.
  + rewrite !qvalue_lin by (cbn; lia). cbn. rewrite opp_IZR. field. apply IZR_nz. lia.
- split.
  + right. rewrite Ed. split; [cbn; lia|]. split; [|easy].
    unfold gcd3 in *. cbn. now rewrite Z.gcd_opp_r, Z.gcd_opp_l.
  + rewrite !qvalue_quad by (cbn; lia). rewrite Ed. cbn. rewrite opp_IZR. field. now apply IZR_nz.
Qed.

Lemma int_ok v : canon (from_integer v) /\ qvalue (from_integer v) = IZR v.
Proof.
split.
- left. cbn. split; [easy|]. split; [easy|]. apply Z.gcd_1_r.
- rewrite qvalue_lin by easy. cbn. rewrite opp_IZR. field.
Qed.

Lemma add_rational_ok n d p : (0 < d)%Z -> has_root p ->
  exists x, add_rational n d p = Ret x /\ canon x /\ qvalue x = IZR n / IZR d + qvalue p.
Proof.
intros Hd [H1 H2]. unfold add_rational.
set (q := Quad _ _ _).
assert (Ed : disc q = (d * d * (d * d) * disc p)%Z) by (unfold disc, q; cbn [qa qb qc]; ring).
assert (Hq : has_root q).
{ split.
  - unfold q; cbn [qa qb qc]. destruct (Z.eq_dec (qa p) 0) as [Ha|Ha]; [right; rewrite Ha; nia|left; nia].
  - change (0 <= disc q)%Z. rewrite Ed. change (0 <= disc p)%Z in H2. nia. }
destruct (into_reduced_ok q Hq) as [x [E [Hc Hv]]]. exists x. split; [easy|]. split; [easy|].
rewrite Hv. assert (HdR : IZR d <> 0) by (apply IZR_nz; lia).
destruct (Z.eq_dec (qa p) 0) as [Ha|Ha].
- assert (Hb : IZR (qb p) <> 0) by (apply IZR_nz; lia).
  rewrite !qvalue_lin by (unfold q; cbn [qa]; lia). unfold q; cbn [qa qb qc]. rewrite Ha.
  replace (qb p * (d * d) - 2 * 0 * (d * n))%Z with (qb p * (d * d))%Z by ring.
  rewrite plus_IZR, minus_IZR, !mult_IZR. field. easy.
- rewrite !qvalue_quad by (unfold q; cbn [qa]; nia). rewrite Ed, mult_IZR.
  rewrite sqrt_mult_alt by (apply IZR_le; nia). rewrite !(mult_IZR (d * d)).
  rewrite sqrt_square by (apply IZR_le; nia). unfold q; cbn [qa qb qc].
  rewrite minus_IZR, !mult_IZR. field. split; [now apply IZR_nz|easy].
Qed.

Lemma has_root_tuple x n d : canon x -> to_tuple_ratio x = Some (n, d) ->
  (0 < d)%Z /\ qvalue x = IZR n / IZR d /\ qa x = 0%Z /\ n = (- qc x)%Z /\ d = qb x.
Proof.
unfold to_tuple_ratio, is_ratio. intros Hc. destruct (Z.eqb_spec (qa x) 0) as [Ha|]; [|easy].
intros [= <- <-]. destruct Hc as [[_ [Hb _]]|[H _]]; [|easy].
split; [easy|]. split; [|easy]. rewrite (qvalue_lin x Ha), opp_IZR. easy.
Qed.

Lemma no_tuple x : to_tuple_ratio x = None -> qa x <> 0%Z.
Proof. unfold to_tuple_ratio, is_ratio. now destruct (Z.eqb_spec (qa x) 0). Qed.

(** what addition answers *)
Lemma add_ok x y : canon x -> canon y ->
  match quad_checked_add x y with
  | Ret (Some z) => canon z /\ qvalue z = qvalue x + qvalue y
  | Ret None => qa x <> 0%Z /\ qa y <> 0%Z
  | Panic => qa x <> 0%Z /\ qa y <> 0%Z
  | NoFuel => False
  end.
Proof.
intros Hx Hy. unfold quad_checked_add.
destruct (to_tuple_ratio x) as [[n d]|] eqn:Ex.
- destruct (has_root_tuple x n d Hx Ex) as [Hd [Hv _]].
  destruct (add_rational_ok n d y Hd (canon_root y Hy)) as [z [E [Hc Hz]]].
  rewrite E. cbn. split; [easy|]. now rewrite Hz, Hv.
- destruct (to_tuple_ratio y) as [[n d]|] eqn:Ey.
  + destruct (has_root_tuple y n d Hy Ey) as [Hd [Hv _]].
    destruct (add_rational_ok n d x Hd (canon_root x Hx)) as [z [E [Hc Hz]]].
    rewrite E. cbn. split; [easy|]. rewrite Hz, Hv. ring.
  + apply no_tuple in Ex, Ey. unfold add_sub_sqrts, bigint_sqrt, assert_then.
    set (A := (_ * Z.abs (qa y) * 2)%Z). set (B := (_ * Z.abs (qa x) * 2)%Z).
    destruct (A <? 0)%Z eqn:EA; [easy|]. destruct (B <? 0)%Z eqn:EB; [easy|].
    assert ((A * B <? 0)%Z = false) as Eab by (apply Z.ltb_ge; apply Z.ltb_ge in EA, EB; nia).
    rewrite Eab. cbn [negb rbind].
    destruct (_ =? A)%Z; [easy|]. cbn [rbind]. destruct (_ =? A)%Z; [easy|]. cbn [rbind].
    destruct (_ =? _)%Z; easy.
Qed.

Lemma is_zero_ok x : canon x -> (quad_is_zero x = true <-> qvalue x = 0).
Proof.
intros H. unfold quad_is_zero. rewrite !andb_true_iff, !Z.eqb_eq. split.
- intros [[Hc Hb] Ha]. rewrite (qvalue_lin x Ha), Hc, Hb. field.
- intros E. rewrite <- (proj2 (int_ok 0)) in E.
  rewrite (canon_unique x (from_integer 0) H (proj1 (int_ok 0)) E). easy.
Qed.

Lemma is_one_ok x : canon x -> (quad_is_one x = true <-> qvalue x = 1).
Proof.
intros H. unfold quad_is_one. rewrite !andb_true_iff, !Z.eqb_eq. split.
- intros [[Hc Hb] Ha]. rewrite (qvalue_lin x Ha), Hc, Hb. field.
- intros E. rewrite <- (proj2 (int_ok 1)) in E.
  rewrite (canon_unique x (from_integer 1) H (proj1 (int_ok 1)) E). easy.
Qed.

(** comparing a square root with an integer *)
Lemma sqrt_gt p r : (0 <= r)%Z -> (IZR p < sqrt (IZR r) <-> (p < 0 \/ p * p < r)%Z).
Proof.
intros Hr. assert (HrR : 0 <= IZR r) by now apply IZR_le.
pose proof (sqrt_pos (IZR r)) as Hs. pose proof (sqrt_sqrt (IZR r) HrR) as Es.
set (s := sqrt (IZR r)) in *. split.
- intros H. destruct (Z_lt_le_dec p 0) as [|Hp]; [now left|right].
  apply lt_IZR. rewrite mult_IZR, <- Es. apply IZR_le in Hp. nra.
- intros [H|H].
  + apply IZR_lt in H. lra.
  + apply IZR_lt in H. rewrite mult_IZR, <- Es in H. destruct (Rlt_le_dec (IZR p) s); [easy|]. nra.
Qed.

Lemma sqrt_lt p r : (0 <= r)%Z -> (sqrt (IZR r) < IZR p <-> (0 < p /\ r < p * p)%Z).
Proof.
intros Hr. assert (HrR : 0 <= IZR r) by now apply IZR_le.
pose proof (sqrt_pos (IZR r)) as Hs. pose proof (sqrt_sqrt (IZR r) HrR) as Es.
set (s := sqrt (IZR r)) in *. split.
- intros H. assert (0 < IZR p) by lra. split; [now apply lt_IZR|].
  apply lt_IZR. rewrite mult_IZR, <- Es. nra.
- intros [H1 H2]. apply IZR_lt in H1, H2. rewrite mult_IZR, <- Es in H2.
  destruct (Rlt_le_dec s (IZR p)); [easy|]. nra.
Qed.

(** the value against a rational, by the sign of the quadratic term *)
Lemma value_lt_pos x n d : (0 < qa x)%Z -> (0 < d)%Z ->
  (qvalue x < IZR n / IZR d <-> IZR d * sqrt (IZR (disc x)) < IZR (2 * qa x * n + qb x * d)).
Proof.
intros Ha Hd. rewrite qvalue_quad by lia.
apply IZR_lt in Ha, Hd. rewrite plus_IZR, !mult_IZR. set (s := sqrt _).
assert (P : 0 < 2 * IZR (qa x) * IZR d) by nra.
assert (E1 : (- IZR (qb x) + s) / (2 * IZR (qa x)) * (2 * IZR (qa x) * IZR d) = (- IZR (qb x) + s) * IZR d) by (field; lra).
assert (E2 : IZR n / IZR d * (2 * IZR (qa x) * IZR d) = 2 * IZR (qa x) * IZR n) by (field; lra).
split; intros H.
- apply (Rmult_lt_compat_r _ _ _ P) in H. rewrite E1, E2 in H. lra.
- apply (Rmult_lt_reg_r _ _ _ P). rewrite E1, E2. lra.
Qed.

Lemma value_lt_neg x n d : (qa x < 0)%Z -> (0 < d)%Z ->
  (qvalue x < IZR n / IZR d <-> IZR (2 * qa x * n + qb x * d) < IZR d * sqrt (IZR (disc x))).
Proof.
intros Ha Hd. rewrite qvalue_quad by lia.
apply IZR_lt in Ha, Hd. rewrite plus_IZR, !mult_IZR. set (s := sqrt _).
assert (P : 0 < 2 * - IZR (qa x) * IZR d) by nra.
assert (E1 : (- IZR (qb x) + s) / (2 * IZR (qa x)) * (2 * - IZR (qa x) * IZR d) = (IZR (qb x) - s) * IZR d) by (field; lra).
assert (E2 : IZR n / IZR d * (2 * - IZR (qa x) * IZR d) = - (2 * IZR (qa x) * IZR n)) by (field; lra).
split; intros H.
- apply (Rmult_lt_compat_r _ _ _ P) in H. rewrite E1, E2 in H. lra.
- apply (Rmult_lt_reg_r _ _ _ P). rewrite E1, E2. lra.
Qed.

Lemma scale_sqrt d r : (0 <= d)%Z -> IZR d * sqrt (IZR r) = sqrt (IZR (d * d * r)).
Proof.
intros Hd. rewrite mult_IZR, sqrt_mult_alt by (apply IZR_le; nia).
rewrite mult_IZR, sqrt_square by (now apply IZR_le). easy.
Qed.

Lemma lt_ratio_ok x n d : canon x -> (0 < d)%Z ->
  exists t, quad_lt_ratio x n d = Ret t /\ (t = true <-> qvalue x < IZR n / IZR d).
Proof.
intros Hx Hd. unfold quad_lt_ratio.
assert ((0 <? d)%Z = true) as -> by (now apply Z.ltb_lt). rewrite disc_eq.
assert (HD : (0 <= disc x)%Z) by apply (canon_root x Hx).
assert ((disc x <? 0)%Z = false) as -> by (now apply Z.ltb_ge). cbn [negb assert_then].
destruct (to_tuple_ratio x) as [[n1 d1]|] eqn:Ex.
- destruct (has_root_tuple x n1 d1 Hx Ex) as [Hd1 [Hv _]]. eexists. split; [reflexivity|].
  rewrite Hv. unfold ratio_cmp. assert ((0 <? d1 * d)%Z = true) as -> by (apply Z.ltb_lt; nia).
  assert (P1 := IZR_lt _ _ Hd). assert (P2 := IZR_lt _ _ Hd1).
  assert (P : 0 < IZR d * IZR d1) by nra.
  assert (F1 : IZR n1 / IZR d1 * (IZR d * IZR d1) = IZR n1 * IZR d) by (field; lra).
  assert (F2 : IZR n / IZR d * (IZR d * IZR d1) = IZR n * IZR d1) by (field; lra).
  assert (Q : (n1 * d < n * d1)%Z <-> IZR n1 / IZR d1 < IZR n / IZR d).
  { split; intros H.
    - apply IZR_lt in H. rewrite !mult_IZR in H. apply (Rmult_lt_reg_r _ _ _ P). rewrite F1, F2. lra.
    - apply lt_IZR. rewrite !mult_IZR. apply (Rmult_lt_compat_r _ _ _ P) in H. rewrite F1, F2 in H. lra. }
  rewrite <- Q, Z.lt_nge. destruct (Z.compare_spec (n1 * d) (n * d1)); split; try easy; lia.
- apply no_tuple in Ex.
  assert (HDd : (0 <= d * d * disc x)%Z) by nia.
  destruct (Z.ltb_spec (qa x) 0) as [Ha|Ha].
  + assert (K := value_lt_neg x n d Ha Hd). rewrite scale_sqrt, sqrt_gt in K by lia.
    rewrite Z.abs_neq by lia.
    destruct (Z.ltb_spec (qb x * d) (2 * - qa x * n)) as [H|H].
    * exists true. split; [easy|]. rewrite K. split; [|easy]. intros _. left. lia.
    * eexists. split; [reflexivity|]. rewrite K, Z.ltb_lt. unfold disc.
      assert (E : ((2 * qa x * n + qb x * d) * (2 * qa x * n + qb x * d) - d * d * (qb x * qb x - 4 * qa x * qc x)
         = 4 * qa x * (qc x * d * d - - n * (qa x * n + qb x * d)))%Z) by ring.
      split; intros H1; [right; nia|]. destruct H1; [lia|nia].
  + assert (K := value_lt_pos x n d ltac:(lia) Hd). rewrite scale_sqrt, sqrt_lt in K by lia.
    rewrite Z.abs_eq by lia. unfold disc in K.
    assert (E : ((2 * qa x * n + qb x * d) * (2 * qa x * n + qb x * d) - d * d * (qb x * qb x - 4 * qa x * qc x)
         = 4 * qa x * (qc x * d * d - - n * (qa x * n + qb x * d)))%Z) by ring.
    destruct (Z.ltb_spec (-2 * qa x * n) (qb x * d)) as [H|H].
    * eexists. split; [reflexivity|]. rewrite K, Z.ltb_lt. split; intros H1; [split; [lia|nia]|nia].
    * exists false. split; [easy|]. rewrite K. split; [easy|]. lia.
Qed.

Lemma cmp_ratio_ok x n d : canon x -> (0 < d)%Z ->
  exists c, quad_cmp_ratio x n d = Ret c /\ ordered c (qvalue x) (IZR n / IZR d).
Proof.
intros Hx Hd. unfold quad_cmp_ratio. destruct (to_tuple_ratio x) as [[n1 d1]|] eqn:Ex.
- destruct (has_root_tuple x n1 d1 Hx Ex) as [Hd1 [Hv _]]. eexists. split; [reflexivity|].
  rewrite Hv. unfold ratio_cmp. assert ((0 <? d1 * d)%Z = true) as -> by (apply Z.ltb_lt; nia).
  assert (P1 := IZR_lt _ _ Hd). assert (P2 := IZR_lt _ _ Hd1).
  assert (P : 0 < IZR d * IZR d1) by nra.
  assert (F1 : IZR n1 / IZR d1 * (IZR d * IZR d1) = IZR n1 * IZR d) by (field; lra).
  assert (F2 : IZR n / IZR d * (IZR d * IZR d1) = IZR n * IZR d1) by (field; lra).
  destruct (Z.compare_spec (n1 * d) (n * d1)) as [H|H|H]; cbn.
  + apply (f_equal IZR) in H. rewrite !mult_IZR in H.
    apply (Rmult_eq_reg_r (IZR d * IZR d1)); [|lra]. lra.
  + apply IZR_lt in H. rewrite !mult_IZR in H. apply (Rmult_lt_reg_r _ _ _ P). lra.
  + apply IZR_lt in H. rewrite !mult_IZR in H. apply (Rmult_lt_reg_r _ _ _ P). lra.
- destruct (lt_ratio_ok x n d Hx Hd) as [t [-> Ht]]. cbn [rbind].
  eexists. split; [reflexivity|]. destruct t; cbn; [now apply Ht|].
  apply no_tuple in Ex.
  assert (HdR : IZR d <> 0) by (apply IZR_nz; lia).
  destruct (Rtotal_order (qvalue x) (IZR n / IZR d)) as [H|[H|H]]; [|exfalso|easy].
  + apply Ht in H. discriminate.
  + apply (canon_irrational x Hx Ex n d); [lia|]. rewrite H. field. easy.
Qed.

(** * The order of two irrational numbers *)

Lemma sq_lt u v : 0 <= u -> 0 <= v -> (u < v <-> u * u < v * v).
Proof. intros Hu Hv. split; intros H; nra. Qed.

Lemma ltR a b : (a < b)%Z <-> IZR a < IZR b.
Proof. split; [apply IZR_lt|apply lt_IZR]. Qed.

Section Order.
Variables (p r s : Z).
Hypotheses (Hr : (0 <= r)%Z) (Hs : (0 <= s)%Z).
Let X := sqrt (IZR r).
Let Y := sqrt (IZR s).

Lemma order_facts : 0 <= X /\ 0 <= Y /\ X * X = IZR r /\ Y * Y = IZR s.
Proof.
unfold X, Y. split; [apply sqrt_pos|]. split; [apply sqrt_pos|].
split; apply sqrt_sqrt; now apply IZR_le.
Qed.

(** (p + X)^2 against Y^2 through 2pX against s - r - p^2 *)
Lemma cross (n : Z) : n = (s - r - p * p)%Z ->
  IZR n = Y * Y - X * X - IZR p * IZR p /\
  IZR (r * ((2 * p) * (2 * p))) = (2 * IZR p * X) * (2 * IZR p * X).
Proof.
intros ->. destruct order_facts as [_ [_ [E1 E2]]].
rewrite !minus_IZR, !mult_IZR. rewrite <- E1, <- E2. split; ring.
Qed.

Lemma order1 q : (0 < q)%Z ->
  exists t, (t <- psrq p r q ;;
       if t : bool then Ret true
       else
         let r2n := s - r - p * p in
         let r2d := 2 * p in
         if p <? 0 then
           if 0 <? r2n then Ret true else Ret (r2n * r2n <? r * (r2d * r2d))
         else
           if r2n <? 0 then Ret false else Ret (r * (r2d * r2d) <? r2n * r2n))%Z%res = Ret t /\
    (t = true <-> IZR p + X < Y).
Proof.
intros Hq. destruct order_facts as [HX [HY [E1 E2]]].
unfold psrq. destruct (Z.eqb_spec q 0) as [Hq0|Hq0]; [lia|]. cbn [negb assert_then rbind].
assert ((0 <? q)%Z = true) as -> by (now apply Z.ltb_lt).
assert ((r <? 0)%Z = false) as -> by (now apply Z.ltb_ge).
rewrite andb_true_r.
destruct ((r <? p * p)%Z && negb (0 <? p)%Z) eqn:E.
- exists true. split; [easy|]. split; [intros _|easy].
  apply andb_true_iff in E. destruct E as [Ea Eb]. apply Z.ltb_lt in Ea.
  apply negb_true_iff, Z.ltb_ge in Eb. apply IZR_le in Eb. apply ltR in Ea. rewrite mult_IZR in Ea. nra.
- assert (Hp : 0 <= IZR p + X).
  { apply andb_false_iff in E. destruct E as [E|E].
    - apply Z.ltb_ge, IZR_le in E. rewrite mult_IZR, <- E1 in E. nra.
    - apply negb_false_iff, Z.ltb_lt, IZR_lt in E. lra. }
  set (n := (s - r - p * p)%Z). destruct (cross n eq_refl) as [En Ec].
  assert (K : IZR p + X < Y <-> 2 * IZR p * X < IZR n) by (rewrite (sq_lt _ _ Hp HY); lra).
  cbv zeta. destruct (Z.ltb_spec p 0) as [Hp0|Hp0].
  + apply IZR_lt in Hp0. destruct (Z.ltb_spec 0 n) as [Hn|Hn].
    * exists true. split; [easy|]. split; [intros _|easy]. apply K. apply IZR_lt in Hn. nra.
    * eexists. split; [reflexivity|]. apply IZR_le in Hn.
      rewrite Z.ltb_lt, ltR, Ec, K, mult_IZR.
      assert (Q := sq_lt (- IZR n) (- (2 * IZR p * X)) ltac:(lra) ltac:(nra)). lra.
  + apply IZR_le in Hp0. destruct (Z.ltb_spec n 0) as [Hn|Hn].
    * exists false. split; [easy|]. split; [easy|]. intros H. apply K in H. apply IZR_lt in Hn. nra.
    * eexists. split; [reflexivity|]. apply IZR_le in Hn.
      rewrite Z.ltb_lt, ltR, Ec, K, mult_IZR.
      assert (Q := sq_lt (2 * IZR p * X) (IZR n) ltac:(nra) ltac:(lra)). lra.
Qed.

Lemma psrq_neg q : (q < 0)%Z -> psrq p r q = Ret (if (0 <? p)%Z then true else (p * p <? r)%Z).
Proof.
intros Hq. unfold psrq. destruct (Z.eqb_spec q 0) as [Hq0|Hq0]; [lia|]. cbn [negb assert_then].
assert ((0 <? q)%Z = false) as -> by (apply Z.ltb_ge; lia).
assert ((r <? 0)%Z = false) as -> by (now apply Z.ltb_ge). easy.
Qed.

Lemma psrq_neg_val : (if (0 <? p)%Z then true else (p * p <? r)%Z) = true -> 0 < IZR p + X.
Proof.
destruct order_facts as [HX [HY [E1 E2]]].
destruct (Z.ltb_spec 0 p) as [H|H]; intros E.
- apply IZR_lt in H. lra.
- apply Z.ltb_lt, IZR_lt in E. rewrite mult_IZR, <- E1 in E. apply IZR_le in H. nra.
Qed.

Lemma psrq_neg_val' : (if (0 <? p)%Z then true else (p * p <? r)%Z) = false -> IZR p + X <= 0 /\ IZR p <= 0.
Proof.
destruct order_facts as [HX [HY [E1 E2]]].
destruct (Z.ltb_spec 0 p) as [H|H]; intros E; [easy|].
apply Z.ltb_ge, IZR_le in E. rewrite mult_IZR, <- E1 in E. apply IZR_le in H. split; [nra|easy].
Qed.

Lemma order2 q : (q < 0)%Z ->
  exists t, (t <- psrq p r q ;;
       if t : bool then Ret false
       else
         let r2n := s - p * p - r in
         let r2d := 2 * p in
         if 0 <? p then
           if r2n <? 0 then Ret true else Ret (r2n * r2n <? r * r2d * r2d)
         else
           if 0 <? r2n then Ret false else Ret (r * r2d * r2d <? r2n * r2n))%Z%res = Ret t /\
    (t = true <-> IZR p + X + Y < 0).
Proof.
intros Hq. destruct order_facts as [HX [HY [E1 E2]]]. rewrite (psrq_neg q Hq). cbn [rbind].
destruct (if (0 <? p)%Z then true else (p * p <? r)%Z) eqn:E.
- exists false. split; [easy|]. split; [easy|]. apply psrq_neg_val in E. lra.
- assert (E' := E). apply psrq_neg_val' in E. destruct E as [Ha Hb].
  assert ((0 <? p)%Z = false) as -> by (apply Z.ltb_ge; now apply le_IZR).
  cbv zeta. replace (s - p * p - r)%Z with (s - r - p * p)%Z by ring.
  replace (r * (2 * p) * (2 * p))%Z with (r * (2 * p * (2 * p)))%Z by ring.
  set (n := (s - r - p * p)%Z). destruct (cross n eq_refl) as [En Ec].
  assert (K : IZR p + X + Y < 0 <-> IZR n < 2 * IZR p * X).
  { assert (Q := sq_lt Y (- (IZR p + X)) HY ltac:(lra)). lra. }
  destruct (Z.ltb_spec 0 n) as [Hn|Hn].
  + exists false. split; [easy|]. split; [easy|]. intros H. apply K in H. apply IZR_lt in Hn. nra.
  + eexists. split; [reflexivity|]. apply IZR_le in Hn.
    rewrite Z.ltb_lt, ltR, Ec, K, mult_IZR.
    assert (Q := sq_lt (- (2 * IZR p * X)) (- IZR n) ltac:(nra) ltac:(lra)). lra.
Qed.

Lemma order3 q : (q < 0)%Z ->
  exists t, (t <- psrq p r q ;;
       if t : bool then Ret true
       else
         let r2n := s - p * p - r in
         let r2d := 2 * p in
         if 0 <? p then
           if r2n <? 0 then Ret false else Ret (r * r2d * r2d <? r2n * r2n)
         else
           if 0 <? r2n then Ret true else Ret (r2n * r2n <? r * r2d * r2d))%Z%res = Ret t /\
    (t = true <-> 0 < IZR p + X + Y).
Proof.
intros Hq. destruct order_facts as [HX [HY [E1 E2]]]. rewrite (psrq_neg q Hq). cbn [rbind].
destruct (if (0 <? p)%Z then true else (p * p <? r)%Z) eqn:E.
- exists true. split; [easy|]. split; [|easy]. apply psrq_neg_val in E. lra.
- assert (E' := E). apply psrq_neg_val' in E. destruct E as [Ha Hb].
  assert ((0 <? p)%Z = false) as -> by (apply Z.ltb_ge; now apply le_IZR).
  cbv zeta. replace (s - p * p - r)%Z with (s - r - p * p)%Z by ring.
  replace (r * (2 * p) * (2 * p))%Z with (r * (2 * p * (2 * p)))%Z by ring.
  set (n := (s - r - p * p)%Z). destruct (cross n eq_refl) as [En Ec].
  assert (K : 0 < IZR p + X + Y <-> 2 * IZR p * X < IZR n).
  { assert (Q := sq_lt (- (IZR p + X)) Y ltac:(lra) HY). lra. }
  destruct (Z.ltb_spec 0 n) as [Hn|Hn].
  + exists true. split; [easy|]. split; [intros _|easy]. apply K. apply IZR_lt in Hn. nra.
  + eexists. split; [reflexivity|]. apply IZR_le in Hn.
    rewrite Z.ltb_lt, ltR, Ec, K, mult_IZR.
    assert (Q := sq_lt (- IZR n) (- (2 * IZR p * X)) ltac:(lra) ltac:(nra)). lra.
Qed.
End Order.

Lemma sqrt_scale d a : sqrt (IZR (d * (a * a))) = sqrt (IZR d) * IZR (Z.abs a).
Proof.
rewrite Z.mul_comm, <- (Z.abs_square a), <- scale_sqrt by lia. ring.
Qed.

(** values of two irrational numbers over a common denominator *)
Lemma value_cross x y : qa x <> 0%Z -> qa y <> 0%Z ->
  qvalue x - qvalue y =
  (IZR (qb y * qa x - qb x * qa y) + IZR (qa y) * sqrt (IZR (disc x)) - IZR (qa x) * sqrt (IZR (disc y)))
  / (2 * IZR (qa x) * IZR (qa y)).
Proof.
intros Hx Hy. rewrite !qvalue_quad by easy. rewrite minus_IZR, !mult_IZR. field.
split; now apply IZR_nz.
Qed.

Lemma less_core_ok x y : qa x <> 0%Z -> qa y <> 0%Z -> (0 <= disc x)%Z -> (0 <= disc y)%Z ->
  ~ (qa x < 0 /\ qa y < 0)%Z ->
  exists t, less_core x y = Ret t /\ (t = true <-> qvalue x < qvalue y).
Proof.
intros Hx Hy Dx Dy Hn. unfold less_core.
assert (C := value_cross x y Hx Hy).
fold (disc x). fold (disc y).
set (U := sqrt (IZR (disc x))) in *. set (V := sqrt (IZR (disc y))) in *.
destruct (Z.ltb_spec (qa x) 0) as [Ax|Ax]; cbn [negb].
- (* the first negative *)
  assert (Ay : (0 < qa y)%Z) by lia.
  destruct (order3 (qb y * qa x - qb x * qa y) (disc y * (qa x * qa x)) (disc x * (qa y * qa y))
     ltac:(nia) ltac:(nia) (- qa y) ltac:(lia)) as [t [E Ht]].
  exists t. split; [exact E|]. rewrite Ht, !sqrt_scale. fold U V.
  rewrite (Z.abs_neq (qa x)), (Z.abs_eq (qa y)), opp_IZR by lia.
  apply IZR_lt in Ax, Ay. set (W := IZR (_ - _)) in *.
  assert (P : 0 < 2 * - IZR (qa x) * IZR (qa y)) by nra.
  assert (F : (qvalue x - qvalue y) * (2 * - IZR (qa x) * IZR (qa y)) = - (W + IZR (qa y) * U - IZR (qa x) * V)).
  { rewrite C. field. lra. }
  split; intros H; [|nra].
  apply Rminus_lt. apply (Rmult_lt_reg_r _ _ _ P). rewrite F. lra.
- destruct (Z.ltb_spec (qa y) 0) as [Ay|Ay]; cbn [negb].
  + destruct (order2 (qb x * qa y - qb y * qa x) (disc y * (qa x * qa x)) (disc x * (qa y * qa y))
     ltac:(nia) ltac:(nia) (qa y) Ay) as [t [E Ht]].
    exists t. split; [exact E|]. rewrite Ht, !sqrt_scale. fold U V.
    rewrite (Z.abs_eq (qa x)), (Z.abs_neq (qa y)), opp_IZR by lia.
    replace (IZR (qb x * qa y - qb y * qa x)) with (- IZR (qb y * qa x - qb x * qa y)) by (rewrite <- opp_IZR; f_equal; ring).
    assert (Ax' : 0 < IZR (qa x)) by (apply IZR_lt; lia).
    apply IZR_lt in Ay. set (W := IZR (_ - _)) in *.
    assert (P : 0 < 2 * IZR (qa x) * - IZR (qa y)) by nra.
    assert (F : (qvalue x - qvalue y) * (2 * IZR (qa x) * - IZR (qa y)) = - (W + IZR (qa y) * U - IZR (qa x) * V)).
    { rewrite C. field. lra. }
    split; intros H; [|nra].
    apply Rminus_lt. apply (Rmult_lt_reg_r _ _ _ P). rewrite F. lra.
  + destruct (order1 (qb y * qa x - qb x * qa y) (disc x * (qa y * qa y)) (disc y * (qa x * qa x))
     ltac:(nia) ltac:(nia) (qa x) ltac:(lia)) as [t [E Ht]].
    exists t. split; [exact E|]. rewrite Ht, !sqrt_scale. fold U V.
    rewrite (Z.abs_eq (qa x)), (Z.abs_eq (qa y)) by lia.
    assert (Ax' : 0 < IZR (qa x)) by (apply IZR_lt; lia).
    assert (Ay' : 0 < IZR (qa y)) by (apply IZR_lt; lia). set (W := IZR (_ - _)) in *.
    assert (P : 0 < 2 * IZR (qa x) * IZR (qa y)) by nra.
    assert (F : (qvalue x - qvalue y) * (2 * IZR (qa x) * IZR (qa y)) = W + IZR (qa y) * U - IZR (qa x) * V).
    { rewrite C. field. lra. }
    split; intros H; [|nra].
    apply Rminus_lt. apply (Rmult_lt_reg_r _ _ _ P). rewrite F. lra.
Qed.

Lemma neg_value x : qa x <> 0%Z -> disc (quad_neg x) = disc x /\ qvalue (quad_neg x) = - qvalue x.
Proof.
intros Ha. assert (Ed : disc (quad_neg x) = disc x) by (unfold disc; cbn [qa qb qc quad_neg]; ring).
split; [easy|]. rewrite !qvalue_quad by (cbn; lia). rewrite Ed. cbn. rewrite opp_IZR. field. now apply IZR_nz.
Qed.

Lemma less_than_ok x y : qa x <> 0%Z -> qa y <> 0%Z -> (0 <= disc x)%Z -> (0 <= disc y)%Z ->
  exists t, less_than x y = Ret t /\ (t = true <-> qvalue x < qvalue y).
Proof.
intros Hx Hy Dx Dy. unfold less_than. rewrite !disc_eq.
destruct (neg_value x Hx) as [Ex Vx]. destruct (neg_value y Hy) as [Ey Vy]. rewrite Ex, Ey.
assert ((disc x <? 0)%Z = false) as -> by (now apply Z.ltb_ge).
assert ((disc y <? 0)%Z = false) as -> by (now apply Z.ltb_ge).
cbn [negb assert_then].
assert ((qa x =? 0)%Z = false) as -> by (now apply Z.eqb_neq).
assert ((qa y =? 0)%Z = false) as -> by (now apply Z.eqb_neq).
assert ((qa (quad_neg x) =? 0)%Z = false) as -> by (apply Z.eqb_neq; cbn; lia).
assert ((qa (quad_neg y) =? 0)%Z = false) as -> by (apply Z.eqb_neq; cbn; lia).
cbn [negb assert_then].
destruct ((qa x <? 0)%Z && (qa y <? 0)%Z) eqn:E.
- apply andb_true_iff in E. destruct E as [E1 E2]. apply Z.ltb_lt in E1, E2.
  destruct (less_core_ok (quad_neg y) (quad_neg x)) as [t [-> Ht]]; try (rewrite ?Ex, ?Ey; easy); try (cbn; lia).
  exists t. split; [easy|]. rewrite Ht, Vx, Vy. lra.
- apply less_core_ok; try easy. rewrite !Z.lt_nge. intros [H1 H2].
  apply andb_false_iff in E. destruct E as [E|E]; apply Z.ltb_ge in E; lia.
Qed.

Lemma quad_eqb_ok x y : quad_eqb x y = true <-> x = y.
Proof.
unfold quad_eqb. rewrite !andb_true_iff, !Z.eqb_eq. destruct x, y; cbn. split.
- now intros [[-> ->] ->].
- now intros [= -> -> ->].
Qed.

Lemma cmp_ok x y : canon x -> canon y ->
  exists c, quad_cmp x y = Ret c /\ ordered c (qvalue x) (qvalue y).
Proof.
intros Hx Hy. unfold quad_cmp.
destruct (to_tuple_ratio y) as [[n d]|] eqn:Ey.
- destruct (has_root_tuple y n d Hy Ey) as [Hd [Hv _]]. rewrite Hv. now apply cmp_ratio_ok.
- destruct (to_tuple_ratio x) as [[n d]|] eqn:Ex.
  + destruct (has_root_tuple x n d Hx Ex) as [Hd [Hv _]]. rewrite Hv.
    destruct (cmp_ratio_ok y n d Hy Hd) as [c [E Hc]]. unfold ratio_cmp_quad. rewrite E. cbn.
    exists (CompOpp c). split; [easy|]. destruct c; cbn in *; lra.
  + apply no_tuple in Ex, Ey. destruct (quad_eqb x y) eqn:E.
    * apply quad_eqb_ok in E. subst. exists Eq. easy.
    * destruct (less_than_ok x y Ex Ey (proj2 (canon_root x Hx)) (proj2 (canon_root y Hy))) as [t [-> Ht]].
      cbn [rbind]. eexists. split; [reflexivity|]. destruct t; cbn; [now apply Ht|].
      destruct (Rtotal_order (qvalue x) (qvalue y)) as [H|[H|H]]; [|exfalso|easy].
      -- apply Ht in H. discriminate.
      -- apply (canon_unique x y Hx Hy) in H. apply quad_eqb_ok in H. congruence.
Qed.

Lemma is_positive_ok x : canon x -> (quad_is_positive x = true <-> 0 < qvalue x).
Proof.
intros Hx. unfold quad_is_positive.
destruct (Z.eq_dec (qa x) 0) as [Ha|Ha].
- rewrite Ha, Z.ltb_lt, (qvalue_lin x Ha). destruct Hx as [[_ [Hb _]]|[H _]]; [|easy].
  apply IZR_lt in Hb. assert (E : - IZR (qc x) / IZR (qb x) * IZR (qb x) = - IZR (qc x)) by (field; lra).
  split; intros H.
  + apply IZR_lt in H. apply Rdiv_lt_0_compat; lra.
  + apply lt_IZR. nra.
- assert (D : (0 <= disc x)%Z) by apply (canon_root x Hx).
  assert (Hv := qvalue_quad x Ha). set (s := sqrt _) in *.
  assert (E : qvalue x * (2 * IZR (qa x)) = - IZR (qb x) + s) by (rewrite Hv; field; now apply IZR_nz).
  destruct (qa x) as [|a|a] eqn:Ea; [easy| |].
  + assert (P : 0 < IZR (Z.pos a)) by (apply IZR_lt; lia).
    assert (K : 0 < qvalue x <-> IZR (qb x) < s) by (split; intros H; nra).
    unfold s in K. rewrite sqrt_gt in K by easy. rewrite K. unfold disc. rewrite Ea.
    destruct (Z.ltb_spec (qb x) 0); cbn [negb]; [split; [now left|easy]|].
    rewrite Z.ltb_lt. split; intros H'; [right; nia|nia].
  + assert (P : IZR (Z.neg a) < 0) by (apply IZR_lt; lia).
    assert (K : 0 < qvalue x <-> s < IZR (qb x)) by (split; intros H; nra).
    unfold s in K. rewrite sqrt_lt in K by easy. rewrite K. unfold disc in *. rewrite Ea in *.
    destruct (Z.ltb_spec (qb x) 0); cbn [negb]; [split; [easy|lia]|].
    rewrite Z.ltb_lt. split; intros H'; [split; nia|nia].
Qed.

Lemma is_negative_ok x : canon x -> (quad_is_negative x = true <-> qvalue x < 0).
Proof.
intros Hx. unfold quad_is_negative.
assert (Z := is_zero_ok x Hx). assert (P := is_positive_ok x Hx).
destruct (quad_is_zero x).
- assert (qvalue x = 0) by now apply Z. split; [easy|lra].
- rewrite negb_true_iff. destruct (quad_is_positive x).
  + assert (0 < qvalue x) by now apply P. split; [easy|lra].
  + split; [intros _|easy]. destruct (Rtotal_order (qvalue x) 0) as [H|[H|H]]; [easy| |].
    * apply Z in H. easy.
    * apply P in H. easy.
Qed.

Lemma abs_ok x : canon x -> canon (quad_abs x) /\ qvalue (quad_abs x) = Rabs (qvalue x).
Proof.
intros Hx. unfold quad_abs. assert (N := is_negative_ok x Hx).
destruct (quad_is_negative x).
- destruct (neg_ok x Hx) as [H1 H2]. split; [easy|]. rewrite H2, Rabs_left; [easy|now apply N].
- split; [easy|]. rewrite Rabs_right; [easy|].
  destruct (Rlt_le_dec (qvalue x) 0) as [H|H]; [|lra]. apply N in H. easy.
Qed.

Lemma signum_ok x : canon x -> canon (quad_signum x) /\
  (0 < qvalue x -> qvalue (quad_signum x) = 1) /\
  (qvalue x = 0 -> qvalue (quad_signum x) = 0) /\
  (qvalue x < 0 -> qvalue (quad_signum x) = -1).
Proof.
intros Hx. unfold quad_signum. split; [apply int_ok|]. rewrite (proj2 (int_ok _)).
assert (Z := is_zero_ok x Hx). assert (P := is_positive_ok x Hx).
destruct (quad_is_zero x).
- assert (qvalue x = 0) by now apply Z. repeat split; intros; lra.
- destruct (quad_is_positive x).
  + assert (0 < qvalue x) by now apply P. repeat split; intros; lra.
  + repeat split; intros H.
    * apply P in H. easy.
    * apply Z in H. easy.
Qed.

Lemma new_ok p :
  (has_root p -> exists x, quad_new p = Ret (Some x) /\ canon x /\ qvalue x = qvalue p) /\
  (~ has_root p -> quad_new p = Ret None).
Proof.
unfold quad_new, has_root. fold (disc p). rewrite disc_eq.
destruct (Z.eqb_spec (qa p) 0) as [Ha|Ha], (Z.eqb_spec (qb p) 0) as [Hb|Hb];
  destruct (Z.ltb_spec (disc p) 0) as [Hd|Hd]; cbn [andb orb]; split; intros H; try easy; try lia;
  destruct (into_reduced_ok p) as [x [E Hx]]; try (split; [lia|exact Hd]); exists x; rewrite E; easy.
Qed.

Lemma made_canon x : made_quad x -> canon x.
Proof.
induction 1.
- destruct (Z_lt_le_dec (disc p) 0) as [Hd|Hd].
  + rewrite (proj2 (new_ok p)) in H; [easy|]. intros [_ H']. unfold disc in Hd. lia.
  + destruct (Z.eq_dec (qa p) 0) as [Ha|Ha]; [destruct (Z.eq_dec (qb p) 0) as [Hb|Hb]|].
    * rewrite (proj2 (new_ok p)) in H; [easy|]. intros [H' _]. lia.
    * destruct (proj1 (new_ok p)) as [y [E [Hc _]]]; [split; [lia|easy]|]. congruence.
    * destruct (proj1 (new_ok p)) as [y [E [Hc _]]]; [split; [lia|easy]|]. congruence.
- apply int_ok.
- destruct (Z.eq_dec d 0) as [->|Hd]; [easy|].
  destruct (from_ratio_ok n d Hd) as [y [E [Hc _]]]. congruence.
- now apply neg_ok.
- now apply abs_ok.
- now apply signum_ok.
- pose proof (add_ok x y IHmade_quad1 IHmade_quad2) as A. rewrite H1 in A. apply A.
- pose proof (add_ok x (quad_neg y) IHmade_quad1 (proj1 (neg_ok y IHmade_quad2))) as A.
  unfold quad_checked_sub in H1. rewrite H1 in A. apply A.
Qed.

(** * Statements about the numbers a user can build *)

Lemma eq_value x y : made_quad x -> made_quad y -> (quad_eqb x y = true <-> qvalue x = qvalue y).
Proof.
intros Hx Hy. rewrite quad_eqb_ok. split; [now intros ->|].
apply canon_unique; now apply made_canon.
Qed.

Lemma cmp_made x y : made_quad x -> made_quad y ->
  exists c, quad_cmp x y = Ret c /\ ordered c (qvalue x) (qvalue y).
Proof. intros Hx Hy. apply cmp_ok; now apply made_canon. Qed.

Lemma cmp_ratio_made x n d : made_quad x -> (0 < d)%Z ->
  (exists c, quad_cmp_ratio x n d = Ret c /\ ordered c (qvalue x) (IZR n / IZR d)) /\
  (exists c, ratio_cmp_quad n d x = Ret c /\ ordered c (IZR n / IZR d) (qvalue x)) /\
  (exists t, quad_lt_ratio x n d = Ret t /\ (t = true <-> qvalue x < IZR n / IZR d)).
Proof.
intros Hx Hd. apply made_canon in Hx. split; [now apply cmp_ratio_ok|].
split; [|now apply lt_ratio_ok].
destruct (cmp_ratio_ok x n d Hx Hd) as [c [E Hc]]. unfold ratio_cmp_quad. rewrite E. cbn.
exists (CompOpp c). split; [easy|]. destruct c; cbn in *; lra.
Qed.

Lemma eq_ratio_made x n d : made_quad x -> (0 < d)%Z -> Z.gcd n d = 1%Z ->
  (quad_eq_ratio x n d = true <-> qvalue x = IZR n / IZR d).
Proof.
intros Hx Hd Hg. apply made_canon in Hx. unfold quad_eq_ratio, is_ratio.
rewrite !andb_true_iff, !Z.eqb_eq.
assert (Hc : canon (Quad (- n) d 0)).
{ left. cbn. split; [easy|]. split; [easy|]. now rewrite Z.gcd_opp_l. }
assert (Hv : qvalue (Quad (- n) d 0) = IZR n / IZR d).
{ rewrite qvalue_lin by easy. cbn. rewrite opp_IZR. field. apply IZR_nz. lia. }
split.
- intros [[Ha Hb] Hn]. rewrite (qvalue_lin x Ha), <- Hn, Hb, opp_IZR. easy.
- intros E. rewrite <- Hv in E. rewrite (canon_unique x _ Hx Hc E). cbn. lia.
Qed.

Lemma to_integer_made x v : made_quad x -> (quad_to_integer x = Some v <-> qvalue x = IZR v).
Proof.
intros Hx. apply made_canon in Hx. unfold quad_to_integer, quad_is_integer, is_ratio. split.
- destruct (Z.eqb_spec (qa x) 0) as [Ha|]; [|easy]. destruct (Z.eqb_spec (qb x) 1) as [Hb|]; [|easy].
  intros [= <-]. rewrite (qvalue_lin x Ha), Hb, opp_IZR. field.
- intros E. rewrite <- (proj2 (int_ok v)) in E.
  rewrite (canon_unique x _ Hx (proj1 (int_ok v)) E). cbn. now rewrite Z.opp_involutive.
Qed.

Lemma to_ratio_made x : made_quad x ->
  match to_tuple_ratio x with
  | Some (n, d) => (0 < d)%Z /\ Z.gcd n d = 1%Z /\ qvalue x = IZR n / IZR d
  | None => forall n d : Z, (d <> 0)%Z -> qvalue x <> IZR n / IZR d
  end.
Proof.
intros Hx. apply made_canon in Hx. destruct (to_tuple_ratio x) as [[n d]|] eqn:E.
- destruct (has_root_tuple x n d Hx E) as [Hd [Hv [Ha [-> ->]]]]. split; [easy|]. split; [|easy].
  rewrite Z.gcd_opp_l. destruct Hx as [[_ [_ H]]|[H _]]; easy.
- apply no_tuple in E. intros n d Hd H. apply (canon_irrational x Hx E n d Hd).
  rewrite H. field. now apply IZR_nz.
Qed.

Lemma sign_made x : made_quad x ->
  (quad_is_zero x = true <-> qvalue x = 0) /\ (quad_is_one x = true <-> qvalue x = 1) /\
  (quad_is_positive x = true <-> 0 < qvalue x) /\ (quad_is_negative x = true <-> qvalue x < 0) /\
  qvalue (quad_neg x) = - qvalue x /\ qvalue (quad_abs x) = Rabs (qvalue x) /\
  (0 < qvalue x -> qvalue (quad_signum x) = 1) /\
  (qvalue x = 0 -> qvalue (quad_signum x) = 0) /\
  (qvalue x < 0 -> qvalue (quad_signum x) = -1).
Proof.
intros Hx. apply made_canon in Hx.
split; [now apply is_zero_ok|]. split; [now apply is_one_ok|]. split; [now apply is_positive_ok|].
split; [now apply is_negative_ok|]. split; [now apply neg_ok|]. split; [now apply abs_ok|].
now apply signum_ok.
Qed.

Lemma new_made p :
  (has_root p -> exists x, quad_new p = Ret (Some x) /\ qvalue x = qvalue p) /\
  (~ has_root p -> quad_new p = Ret None).
Proof.
split; [|apply new_ok]. intros H. destruct (proj1 (new_ok p) H) as [x [E [_ Hv]]]. now exists x.
Qed.

Lemma from_made :
  (forall v, qvalue (from_integer v) = IZR v) /\
  (forall n d, (d <> 0)%Z -> exists x, from_ratio n d = Ret x /\
     from_ratio_checked n d = Ret (Some x) /\ qvalue x = IZR n / IZR d) /\
  (forall n, from_ratio n 0 = Panic /\ from_ratio_checked n 0 = Ret None).
Proof.
split; [intros v; apply int_ok|]. split; [|easy].
intros n d Hd. destruct (from_ratio_ok n d Hd) as [x [E [_ [_ Hv]]]]. exists x.
split; [easy|]. split; [|easy]. unfold from_ratio, from_ratio_checked in *.
destruct (Z.eqb_spec d 0); [easy|]. cbn [negb assert_then] in E. now rewrite E.
Qed.

Lemma add_made x y : made_quad x -> made_quad y ->
  (forall z, quad_checked_add x y = Ret (Some z) -> qvalue z = qvalue x + qvalue y) /\
  (forall z, quad_checked_sub x y = Ret (Some z) -> qvalue z = qvalue x - qvalue y) /\
  (forall n d : Z, (d <> 0)%Z -> qvalue x = IZR n / IZR d \/ qvalue y = IZR n / IZR d ->
     (exists z, quad_checked_add x y = Ret (Some z)) /\
     (exists z, quad_checked_sub x y = Ret (Some z))).
Proof.
intros Hx Hy. apply made_canon in Hx, Hy. destruct (neg_ok y Hy) as [Hn Vn].
pose proof (add_ok x y Hx Hy) as A. pose proof (add_ok x (quad_neg y) Hx Hn) as S.
fold (quad_checked_sub x y) in S.
split; [intros z E; rewrite E in A; apply A|].
split; [intros z E; rewrite E in S; rewrite (proj2 S), Vn; ring|].
intros n d Hd H.
assert (N : ~ (qa x <> 0 /\ qa y <> 0)%Z).
{ intros [Ax Ay]. assert (HdR : IZR d <> 0) by now apply IZR_nz. destruct H as [H|H].
  - apply (canon_irrational x Hx Ax n d Hd). rewrite H. field. easy.
  - apply (canon_irrational y Hy Ay n d Hd). rewrite H. field. easy. }
split.
- destruct (quad_checked_add x y) as [[z|]| |]; [now exists z| | |easy]; now destruct N.
- cbn in S. destruct (quad_checked_sub x y) as [[z|]| |]; [now exists z| | |easy]; destruct N; lia.
Qed.

Lemma recip_made x : made_quad x -> forall n d : Z, (d <> 0)%Z -> qvalue x = IZR n / IZR d ->
  (n <> 0%Z -> exists z, quad_checked_recip x = Ret (Some z) /\ qvalue z = / qvalue x) /\
  (n = 0%Z -> quad_checked_recip x = Ret None).
Proof.
intros Hx n d Hd Hv. apply made_canon in Hx.
assert (HdR : IZR d <> 0) by now apply IZR_nz.
assert (Ha : qa x = 0%Z).
{ destruct (Z.eq_dec (qa x) 0) as [|Ax]; [easy|]. exfalso.
  apply (canon_irrational x Hx Ax n d Hd). rewrite Hv. field. easy. }
unfold quad_checked_recip, is_ratio. rewrite Ha. cbn [Z.eqb].
assert (Hl := qvalue_lin x Ha).
assert (Hb : (0 < qb x)%Z) by (destruct Hx as [[_ [H _]]|[H _]]; easy).
assert (HbR : IZR (qb x) <> 0) by (apply IZR_nz; lia).
assert (E : IZR (- qc x) * IZR d = IZR n * IZR (qb x)).
{ rewrite opp_IZR.
  transitivity (- IZR (qc x) / IZR (qb x) * IZR (qb x) * IZR d); [field; easy|].
  rewrite <- Hl, Hv. field. easy. }
rewrite <- !mult_IZR in E. apply eq_IZR in E.
split; intros Hn.
- assert (Hc : (qc x <> 0)%Z) by nia.
  destruct (Z.eqb_spec (qc x) 0); [easy|]. eexists. split; [reflexivity|].
  rewrite qvalue_lin by easy. cbn [qb qc]. rewrite Hl.
  assert (IZR (qc x) <> 0) by now apply IZR_nz. field. split; [easy|]. lra.
- assert (qc x = 0%Z) as -> by nia. easy.
Qed.

(** * Failures *)

Definition sqrt2 : quad := Quad (-2) 0 1.
Definition near2 : quad := Quad 1 (-4) 2.

Lemma sqrt2_made : made_quad sqrt2.
Proof. apply (mq_new (Quad (-2) 0 1)). reflexivity. Qed.
Lemma near2_made : made_quad near2.
Proof. apply (mq_new (Quad 1 (-4) 2)). reflexivity. Qed.

Lemma add_panics : made_quad sqrt2 /\ quad_checked_add sqrt2 sqrt2 = Panic.
Proof. split; [exact sqrt2_made|reflexivity]. Qed.

Lemma add_wrong_error : made_quad sqrt2 /\ made_quad near2 /\
  quad_checked_add sqrt2 near2 = Ret None /\ quadratic (qvalue sqrt2 + qvalue near2).
Proof.
split; [exact sqrt2_made|]. split; [exact near2_made|]. split; [reflexivity|].
exists 2%Z, (-4)%Z, (-7)%Z. split; [lia|].
rewrite !qvalue_quad by easy. unfold disc, sqrt2, near2. cbn [qa qb qc].
change (0 * 0 - 4 * 1 * -2)%Z with 8%Z. change (-4 * -4 - 4 * 2 * 1)%Z with 8%Z.
assert (E : sqrt (IZR 8) * sqrt (IZR 8) = IZR 8) by (apply sqrt_sqrt; lra).
set (s := sqrt (IZR 8)) in *. field_simplify. replace (s ^ 2) with (s * s) by ring. rewrite E. lra.
Qed.

Lemma recip_not_equal : exists x z, made_quad x /\ quad_checked_recip x = Ret (Some z) /\
  qvalue z = IZR 2 /\ quad_eqb z (from_integer 2) = false.
Proof.
exists (Quad (-1) 2 0), (Quad 2 (-1) 0). split; [|split; [reflexivity|split; [|reflexivity]]].
- apply (mq_ratio 1 2). reflexivity.
- rewrite qvalue_lin by easy. cbn. lra.
Qed.

Lemma recip_panics : made_quad sqrt2 /\ quad_checked_recip sqrt2 = Panic.
Proof. split; [exact sqrt2_made|reflexivity]. Qed.

Lemma recip_cmp_panics : exists x y z, made_quad x /\ made_quad y /\
  quad_checked_recip y = Ret (Some z) /\ quad_cmp x z = Panic.
Proof.
exists sqrt2, (Quad (-1) 2 0), (Quad 2 (-1) 0). split; [exact sqrt2_made|].
split; [apply (mq_ratio 1 2); reflexivity|]. split; reflexivity.
Qed.
