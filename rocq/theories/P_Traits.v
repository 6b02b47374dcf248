(** Proofs about M_Traits. *)
From Coq Require Import ZArith QArith Qreduction Qabs List Bool Lia Znumtheory Lqa.
From Verif Require Import M_Base M_Traits S_Int.
Local Open Scope Z_scope.

(** ** integer gcd *)

Lemma int_gcd_spec a b :
  0 <= int_gcd a b /\ (int_gcd a b | a) /\ (int_gcd a b | b) /\
  (forall d, (d | a) -> (d | b) -> (d | int_gcd a b)).
Proof.
  unfold int_gcd. repeat match goal with |- _ /\ _ => split end.
  - apply Z.gcd_nonneg.
  - apply Z.gcd_divide_l.
  - apply Z.gcd_divide_r.
  - intros; apply Z.gcd_greatest; assumption.
Qed.

Lemma int_lcm_spec a b :
  0 <= int_lcm a b /\ (a | int_lcm a b) /\ (b | int_lcm a b) /\
  (forall m, (a | m) -> (b | m) -> (int_lcm a b | m)).
Proof.
  unfold int_lcm. repeat match goal with |- _ /\ _ => split end.
  - apply Z.lcm_nonneg.
  - apply Z.divide_lcm_l.
  - apply Z.divide_lcm_r.
  - intros; apply Z.lcm_least; assumption.
Qed.

Lemma int_gcd_lcm_abs a b : int_gcd a b * int_lcm a b = Z.abs (a * b).
Proof.
  unfold int_gcd, int_lcm, Z.lcm.
  destruct (Z.eq_dec (Z.gcd a b) 0) as [E|E].
  - apply Z.gcd_eq_0 in E as [-> ->]. reflexivity.
  - destruct (Z.gcd_divide_r a b) as [k Hk].
    pose proof (Z.gcd_nonneg a b) as Hn.
    set (g := Z.gcd a b) in *. clearbody g. subst b.
    rewrite Z.div_mul by exact E.
    rewrite !Z.abs_mul, (Z.abs_eq g) by assumption. ring.
Qed.

(** ** extended gcd *)

Lemma ext_gcd_loop_inv fuel : forall a b s0 s1 t0 t1 r0 r1 g x y,
  a * s0 + b * t0 = r0 -> a * s1 + b * t1 = r1 ->
  ext_gcd_loop fuel s0 s1 t0 t1 r0 r1 = Some (g, x, y) ->
  a * x + b * y = g /\ g = Z.gcd r0 r1.
Proof.
  induction fuel as [|fuel IH]; intros a b s0 s1 t0 t1 r0 r1 g x y H0 H1 H;
    cbn [ext_gcd_loop] in H; destruct (Z.eqb_spec r0 0) as [E|E].
  1,3: subst r0; rewrite E; rewrite Z.gcd_0_l; destruct (Z.leb_spec 0 r1); inversion H; subst; split; lia.
  - discriminate.
  - apply (IH a b) in H; [| |assumption].
    + destruct H as [Hb Hg]. split; [exact Hb|]. rewrite Hg.
      rewrite Z.gcd_comm.
      replace (r1 - Z.quot r1 r0 * r0) with (r1 + (- Z.quot r1 r0) * r0) by ring.
      rewrite Z.gcd_add_mult_diag_r. reflexivity.
    + rewrite <- H0, <- H1. ring.
Qed.

Lemma ext_gcd_loop_fuel k : forall fuel s0 s1 t0 t1 r0 r1,
  Z.abs r0 < 2 ^ Z.of_nat k -> (2 * k + 1 <= fuel)%nat ->
  ext_gcd_loop fuel s0 s1 t0 t1 r0 r1 <> None.
Proof.
  induction k as [|k IH]; intros fuel s0 s1 t0 t1 r0 r1 Hr Hf.
  - change (2 ^ Z.of_nat 0) with 1 in Hr.
    destruct fuel as [|fuel]; [lia|]. cbn [ext_gcd_loop].
    destruct (Z.eqb_spec r0 0); [|lia]. destruct (0 <=? r1); discriminate.
  - destruct fuel as [|[|fuel]]; [lia|lia|]. cbn [ext_gcd_loop].
    destruct (Z.eqb_spec r0 0) as [E|E]; [destruct (0 <=? r1); discriminate|].
    set (r' := r1 - Z.quot r1 r0 * r0).
    destruct (Z.eqb_spec r' 0) as [E'|E']; [destruct (0 <=? r0); discriminate|].
    apply IH; [|lia].
    assert (Hr' : Z.abs r' < Z.abs r0).
    { unfold r'. replace (r1 - Z.quot r1 r0 * r0) with (Z.rem r1 r0)
        by (pose proof (Z.quot_rem r1 r0 E); lia).
      apply Z.rem_bound_abs; assumption. }
    assert (H2 : 2 * Z.abs (r0 - Z.quot r0 r' * r') < Z.abs r0 + 1).
    { replace (r0 - Z.quot r0 r' * r') with (Z.rem r0 r')
        by (pose proof (Z.quot_rem r0 r' E'); lia).
      pose proof (Z.rem_bound_abs r0 r' E').
      pose proof (Z.quot_rem (Z.abs r0) (Z.abs r') ltac:(lia)) as Hq.
      rewrite Z.rem_abs, Z.quot_abs in Hq by assumption.
      assert (1 <= Z.abs (Z.quot r0 r')).
      { rewrite <- Z.quot_abs by assumption.
        apply Z.quot_le_lower_bound; lia. }
      nia. }
    rewrite Nat2Z.inj_succ, Z.pow_succ_r in Hr by lia. lia.
Qed.

Lemma int_extended_gcd_total a b : int_extended_gcd a b <> None.
Proof.
  unfold int_extended_gcd, ext_gcd_fuel.
  set (k := Z.to_nat (Z.log2 (Z.abs b) + 1)).
  pose proof (Z.log2_nonneg (Z.abs b)).
  apply (ext_gcd_loop_fuel k).
  - unfold k. rewrite Z2Nat.id by lia.
    destruct (Z.eq_dec b 0) as [->|Hb]; [reflexivity|].
    pose proof (Z.log2_spec (Z.abs b) ltac:(lia)) as [_ Hs].
    rewrite Z.add_1_r. exact Hs.
  - unfold k. lia.
Qed.

Lemma int_extended_gcd_spec a b :
  exists g x y, int_extended_gcd a b = Some (g, x, y) /\
    a * x + b * y = g /\ g = Z.gcd a b.
Proof.
  destruct (int_extended_gcd a b) as [[[g x] y]|] eqn:E.
  - exists g, x, y. split; [reflexivity|].
    unfold int_extended_gcd in E.
    apply (ext_gcd_loop_inv _ a b) in E; [|ring|ring].
    rewrite Z.gcd_comm. exact E.
  - exfalso; exact (int_extended_gcd_total a b E).
Qed.

Lemma int_extended_gcd_lcm_spec a b :
  exists g x y, int_extended_gcd_lcm a b = Some (g, x, y, Z.lcm a b) /\
    a * x + b * y = g /\ g = Z.gcd a b.
Proof.
  destruct (int_extended_gcd_spec a b) as (g & x & y & E & H).
  exists g, x, y. unfold int_extended_gcd_lcm. rewrite E. auto.
Qed.

(** ** rational gcd *)

Lemma ratio_new_pos n (d : positive) : ratio_new n (Zpos d) = Ret (Qred (n # d)).
Proof. reflexivity. Qed.

(** positive common denominator form: x/d | y/d iff x | y *)
Lemma Qdivides_common x y (d : positive) :
  Qdivides (x # d) (y # d) <-> (x | y).
Proof.
  unfold Qdivides, Qeq; simpl. split.
  - intros [k Hk]. exists k. nia.
  - intros [k Hk]. exists k. subst. rewrite ?Pos.mul_1_l. ring.
Qed.

Lemma Qdivides_compat a b c d : (a == b)%Q -> (c == d)%Q -> Qdivides a c -> Qdivides b d.
Proof.
  unfold Qdivides. intros H1 H2 [k Hk]. exists k. rewrite <- H1, <- H2. exact Hk.
Qed.

Lemma Q_common_l (a b : Q) : (a == (Qnum a * Zpos (Qden b)) # (Qden a * Qden b))%Q.
Proof. unfold Qeq; simpl. rewrite Pos2Z.inj_mul. ring. Qed.
Lemma Q_common_r (a b : Q) : (b == (Qnum b * Zpos (Qden a)) # (Qden a * Qden b))%Q.
Proof. unfold Qeq; simpl. rewrite Pos2Z.inj_mul. ring. Qed.

Lemma Qzero_num a : Qnum a = 0 -> (a == 0)%Q.
Proof. unfold Qeq; simpl; lia. Qed.

(** any common divisor e of a and b divides (gcd x y)/d *)
Lemma Qgcd_greatest x y (d : positive) (e : Q) :
  Qdivides e (x # d) -> Qdivides e (y # d) -> Qdivides e (Z.gcd x y # d).
Proof.
  intros [k1 H1] [k2 H2].
  destruct (Z.gcd_bezout x y (Z.gcd x y) eq_refl) as (s & t & Hst).
  exists (s * k1 + t * k2).
  rewrite <- Hst.
  transitivity (inject_Z s * (x # d) + inject_Z t * (y # d))%Q.
  - unfold Qeq; simpl. rewrite ?Pos2Z.inj_mul. ring.
  - rewrite H1, H2, inject_Z_plus, !inject_Z_mult. ring.
Qed.

Lemma ratio_gcd_lcm_spec a b :
  exists g l, ratio_gcd_lcm a b = Ret (g, l) /\
    Qdivides g a /\ Qdivides g b /\
    (forall e, Qdivides e a -> Qdivides e b -> Qdivides e g) /\
    Qdivides a l /\ Qdivides b l /\ (0 <= l)%Q /\
    (forall m, Qdivides a m -> Qdivides b m -> Qdivides l m) /\
    (Qabs.Qabs (g * l) == Qabs.Qabs (a * b))%Q /\
    ((~ a == 0 -> ~ b == 0 -> 0 < g)%Q) /\
    ((a == 0 -> g == b)%Q) /\ ((b == 0 -> g == a)%Q).
Proof.
  unfold ratio_gcd_lcm.
  destruct (Z.eqb_spec (Qnum a) 0) as [Ea|Ea].
  { assert (Ha : (a == 0)%Q) by (apply Qzero_num; exact Ea).
    exists b, 0%Q. split; [reflexivity|].
    repeat match goal with |- _ /\ _ => split end.
    - exists 0. rewrite Ha. ring.
    - exists 1. ring.
    - auto.
    - exists 0. ring.
    - exists 0. ring.
    - apply Qle_refl.
    - intros m [k Hk] _. exists 0. rewrite Hk, Ha. ring.
    - rewrite Ha. setoid_replace (b * 0)%Q with 0%Q by ring.
      setoid_replace (0 * b)%Q with 0%Q by ring. reflexivity.
    - intros H; contradiction.
    - reflexivity.
    - intros H. rewrite H, Ha. reflexivity. }
  destruct (Z.eqb_spec (Qnum b) 0) as [Eb|Eb].
  { assert (Hb : (b == 0)%Q) by (apply Qzero_num; exact Eb).
    exists a, 0%Q. split; [reflexivity|].
    repeat match goal with |- _ /\ _ => split end.
    - exists 1. ring.
    - exists 0. rewrite Hb. ring.
    - auto.
    - exists 0. ring.
    - exists 0. ring.
    - apply Qle_refl.
    - intros m _ [k Hk]. exists 0. rewrite Hk, Hb. ring.
    - rewrite Hb. reflexivity.
    - intros _ H; contradiction.
    - intros H. rewrite H, Hb. reflexivity.
    - reflexivity. }
  set (x := Qnum a * Zpos (Qden b)). set (y := Qnum b * Zpos (Qden a)).
  set (d := (Qden a * Qden b)%positive).
  change (Zpos (Qden a) * Zpos (Qden b)) with (Zpos d).
  unfold int_gcd_lcm. rewrite !ratio_new_pos. cbn [rbind].
  exists (Qred (Z.gcd x y # d)), (Qred (Z.lcm x y # d)).
  split; [reflexivity|].
  pose proof (Q_common_l a b) as Ha. pose proof (Q_common_r a b) as Hb.
  fold x in Ha. fold y in Hb. fold d in Ha, Hb.
  assert (Hx : x <> 0) by (unfold x; nia). assert (Hy : y <> 0) by (unfold y; nia).
  pose proof (Qred_correct (Z.gcd x y # d)) as Hg.
  pose proof (Qred_correct (Z.lcm x y # d)) as Hl.
  set (g := Qred (Z.gcd x y # d)) in *. set (l := Qred (Z.lcm x y # d)) in *.
  symmetry in Ha, Hb.
  repeat match goal with |- _ /\ _ => split end.
  - apply (Qdivides_compat (Z.gcd x y # d) _ (x # d)); [symmetry; exact Hg|exact Ha|].
    apply Qdivides_common, Z.gcd_divide_l.
  - apply (Qdivides_compat (Z.gcd x y # d) _ (y # d)); [symmetry; exact Hg|exact Hb|].
    apply Qdivides_common, Z.gcd_divide_r.
  - intros e H1 H2.
    apply (Qdivides_compat e _ (Z.gcd x y # d)); [reflexivity|symmetry; exact Hg|].
    apply Qgcd_greatest;
      [apply (Qdivides_compat e _ a)|apply (Qdivides_compat e _ b)];
      try reflexivity; try assumption; symmetry; assumption.
  - apply (Qdivides_compat (x # d) _ (Z.lcm x y # d)); [exact Ha|symmetry; exact Hl|].
    apply Qdivides_common, Z.divide_lcm_l.
  - apply (Qdivides_compat (y # d) _ (Z.lcm x y # d)); [exact Hb|symmetry; exact Hl|].
    apply Qdivides_common, Z.divide_lcm_r.
  - rewrite Hl. unfold Qle; simpl. pose proof (Z.lcm_nonneg x y). lia.
  - intros m [k1 H1] [k2 H2].
    assert (Hm : (m == (k1 * x) # d)%Q).
    { rewrite H1, <- Ha. unfold Qeq; simpl. rewrite ?Pos2Z.inj_mul. ring. }
    assert (Hm2 : k1 * x = k2 * y).
    { assert (E : (inject_Z k1 * (x # d) == inject_Z k2 * (y # d))%Q)
        by (rewrite Ha, Hb, <- H1, <- H2; reflexivity).
      unfold Qeq in E; simpl in E. nia. }
    apply (Qdivides_compat (Z.lcm x y # d) _ (k1 * x # d));
      [symmetry; exact Hl|symmetry; exact Hm|].
    apply Qdivides_common, Z.lcm_least; [exists k1; ring|].
    rewrite Hm2. exists k2; ring.
  - rewrite Hg, Hl, <- Ha, <- Hb.
    transitivity (Qabs.Qabs ((Z.gcd x y * Z.lcm x y) # (d * d))%Q).
    { apply Qabs.Qabs_wd. unfold Qeq; simpl. ring. }
    fold (int_gcd x y) (int_lcm x y). rewrite int_gcd_lcm_abs.
    unfold Qeq; simpl. rewrite Z.abs_involutive. reflexivity.
  - intros _ _. rewrite Hg. unfold Qlt; simpl.
    pose proof (Z.gcd_nonneg x y). assert (Z.gcd x y <> 0) by (rewrite Z.gcd_eq_0; tauto). lia.
  - intros E. exfalso. rewrite <- Ha in E. unfold Qeq in E; simpl in E. lia.
  - intros E. exfalso. rewrite <- Hb in E. unfold Qeq in E; simpl in E. lia.
Qed.

Lemma ratio_extended_gcd_lcm_spec a b :
  exists g s t l, ratio_extended_gcd_lcm a b = Ret (g, s, t, l) /\
    (a * s + b * t == g)%Q /\ (0 <= g)%Q /\ Qdivides g a /\ Qdivides g b /\
    (exists s' t' : Z, s = inject_Z s' /\ t = inject_Z t').
Proof.
  unfold ratio_extended_gcd_lcm.
  set (x := Qnum a * Zpos (Qden b)). set (y := Qnum b * Zpos (Qden a)).
  set (d := (Qden a * Qden b)%positive).
  change (Zpos (Qden a) * Zpos (Qden b)) with (Zpos d).
  destruct (int_extended_gcd_lcm_spec x y) as (g & s & t & E & Hb & Hg).
  rewrite E, !ratio_new_pos. cbn [rbind].
  exists (Qred (g # d)), (inject_Z s), (inject_Z t), (Qred (Z.lcm x y # d)).
  pose proof (Q_common_l a b) as Ha. pose proof (Q_common_r a b) as Hbb.
  fold x in Ha. fold y in Hbb. fold d in Ha, Hbb.
  pose proof (Qred_correct (g # d)) as Hgr.
  split; [reflexivity|]. repeat match goal with |- _ /\ _ => split end.
  - rewrite Hgr, Ha at 1. rewrite Hbb at 1. rewrite <- Hb.
    unfold Qeq; simpl. rewrite ?Pos2Z.inj_mul. ring.
  - rewrite Hgr. unfold Qle; simpl. rewrite Hg. pose proof (Z.gcd_nonneg x y). lia.
  - apply (Qdivides_compat (g # d) _ (x # d)); [symmetry; exact Hgr|symmetry; exact Ha|].
    apply Qdivides_common. rewrite Hg. apply Z.gcd_divide_l.
  - apply (Qdivides_compat (g # d) _ (y # d)); [symmetry; exact Hgr|symmetry; exact Hbb|].
    apply Qdivides_common. rewrite Hg. apply Z.gcd_divide_r.
  - exists s, t. auto.
Qed.

(** ** nearest division *)

Lemma bigint_nearest_iff a b q r :
  bigint_checked_div_rem_nearest a b = Some (q, r) ->
  (nearest_div_rem a b q r <->
   (b < 0 /\ 2 * Z.abs (Z.rem a b) <= Z.abs b /\ 2 * Z.abs (Z.rem a b - Z.abs b) <= Z.abs b
    \/ 2 * Z.abs (Z.rem a b) = Z.abs b)).
Proof.
  unfold bigint_checked_div_rem_nearest, nearest_div_rem.
  destruct (Z.eqb_spec b 0) as [|Hb]; [discriminate|].
  pose proof (Z.quot_rem a b Hb) as Hqr.
  pose proof (Z.rem_bound_abs a b Hb).
  destruct (Z.ltb_spec (Z.abs (Z.rem a b)) (Z.abs b - Z.abs (Z.rem a b))) as [Hl|Hl].
  - destruct (Z.ltb_spec b 0) as [Hn|Hn]; intros E; inversion E; subst; clear E.
    + split; [intros [_ H2]; left; lia|].
      intros [[_ [H1 H2]]|H1]; [|lia]. split; [nia|lia].
    + split; [|lia]. intros [H1 _]. nia.
  - intros E; inversion E; subst; clear E. split; [intros [_ H2]; right; lia|].
    intros [[_ [H1 H2]]|H1]; split; nia.
Qed.

Lemma bigint_nearest_none a b :
  bigint_checked_div_rem_nearest a b = None <-> b = 0.
Proof.
  unfold bigint_checked_div_rem_nearest. destruct (Z.eqb_spec b 0) as [|Hb].
  - tauto.
  - destruct (_ <? _); [destruct (_ <? _)|]; split; intros; discriminate || contradiction.
Qed.

(** the division identity always holds at fixed width *)
Lemma int_nearest_identity w a b q r :
  int_checked_div_rem_nearest w a b = Some (q, r) -> a = q * b + r.
Proof.
  unfold int_checked_div_rem_nearest, iadd_checked.
  destruct (Z.eqb_spec b 0) as [|Hb]; [discriminate|].
  destruct (_ && _) eqn:E1; [discriminate|].
  pose proof (Z.quot_rem a b Hb) as Hqr.
  destruct (negb _ && _) eqn:E2.
  - destruct (Z.ltb_spec b 0);
      destruct (in_irange _ _); try discriminate;
      destruct (in_irange _ _); try discriminate;
      intros E; inversion E; subst; nia.
  - intros E; inversion E; subst; nia.
Qed.

Lemma int_nearest_nonneg w a b :
  1 < w -> imin w <= a <= imax w -> imin w < b <= imax w -> 0 <= a -> b <> 0 ->
  exists q r, int_checked_div_rem_nearest w a b = Some (q, r) /\ nearest_div_rem a b q r /\
    imin w <= q <= imax w /\ imin w <= r <= imax w.
Proof.
  intros Hw Ha Hb Ha0 Hb0.
  assert (Hpow : 2 ^ (w - 1) = 2 * 2 ^ (w - 2)).
  { replace (w - 1) with (Z.succ (w - 2)) by lia. apply Z.pow_succ_r; lia. }
  assert (0 < 2 ^ (w - 2)) by (apply Z.pow_pos_nonneg; lia).
  unfold int_checked_div_rem_nearest, iadd_checked, in_irange, nearest_div_rem.
  unfold imin, imax in *.
  destruct (Z.eqb_spec b 0) as [|_]; [contradiction|].
  destruct (Z.eqb_spec a (- 2 ^ (w - 1))) as [|_]; [lia|]. rewrite andb_false_r.
  destruct (Z.eqb_spec b (- 2 ^ (w - 1))) as [|_]; [lia|]. cbn [negb andb].
  pose proof (Z.quot_rem a b Hb0) as Hqr.
  pose proof (Z.rem_bound_abs a b Hb0) as Hrb.
  assert (Hr0 : 0 <= Z.rem a b) by (apply Z.rem_nonneg; assumption).
  assert (Hq : Z.abs (Z.quot a b) <= a).
  { rewrite <- Z.quot_abs by assumption. rewrite (Z.abs_eq a) by assumption.
    rewrite Z.quot_div_nonneg by lia. apply Z.div_le_upper_bound; [lia|nia]. }
  destruct (Z.ltb_spec (Z.abs b / 2) (Z.abs (Z.rem a b))) as [Hl|Hl].
  - assert (Hl' : Z.abs b < 2 * Z.rem a b).
    { pose proof (Z.div_mod (Z.abs b) 2 ltac:(lia)).
      pose proof (Z.mod_pos_bound (Z.abs b) 2 ltac:(lia)). lia. }
    destruct (Z.ltb_spec b 0) as [Hn|Hn].
    + (* b < 0 *)
      assert (Hqn : Z.quot a b <= 0) by nia.
      assert (Hqb : -(2 ^ (w - 1)) <= Z.quot a b + -1).
      { nia. }
      rewrite (proj2 (Z.leb_le _ _) Hqb).
      rewrite (proj2 (Z.leb_le (Z.quot a b + -1) _)) by lia.
      rewrite (proj2 (Z.leb_le _ (Z.rem a b + b))) by lia.
      rewrite (proj2 (Z.leb_le (Z.rem a b + b) _)) by lia.
      cbn [andb]. do 2 eexists. split; [reflexivity|]. repeat match goal with |- _ /\ _ => split end; nia.
    + assert (Hqb : Z.quot a b + 1 <= 2 ^ (w - 1) - 1) by nia.
      assert (Hqn : 0 <= Z.quot a b) by nia.
      rewrite (proj2 (Z.leb_le _ _) Hqb).
      rewrite (proj2 (Z.leb_le _ (Z.quot a b + 1))) by lia.
      rewrite (proj2 (Z.leb_le _ (Z.rem a b + - b))) by lia.
      rewrite (proj2 (Z.leb_le (Z.rem a b + - b) _)) by lia.
      cbn [andb]. do 2 eexists. split; [reflexivity|]. repeat match goal with |- _ /\ _ => split end; nia.
  - do 2 eexists. split; [reflexivity|].
    assert (2 * Z.abs (Z.rem a b) <= Z.abs b).
    { pose proof (Z.div_mod (Z.abs b) 2 ltac:(lia)).
      pose proof (Z.mod_pos_bound (Z.abs b) 2 ltac:(lia)). lia. }
    repeat match goal with |- _ /\ _ => split end; try lia.
Qed.

(** ** logarithms *)

Lemma bigint_floor_log2_spec a :
  match bigint_floor_log2 a with
  | None => a <= 0
  | Some k => 0 < a /\ 0 <= k /\ 2 ^ k <= a < 2 ^ (k + 1)
  end.
Proof.
  unfold bigint_floor_log2, bigint_bits. destruct (Z.ltb_spec 0 a) as [H|H]; [|lia].
  destruct (Z.eqb_spec a 0); [lia|]. rewrite Z.abs_eq by lia.
  replace (Z.log2 a + 1 - 1) with (Z.log2 a) by ring.
  pose proof (Z.log2_spec a H). pose proof (Z.log2_nonneg a).
  rewrite Z.add_1_r. lia.
Qed.

Lemma bigint_ceil_log2_spec a :
  match bigint_ceil_log2 a with
  | None => a <= 0
  | Some k => 0 < a /\ 0 <= k /\ a <= 2 ^ k /\ (forall j, 0 <= j < k -> 2 ^ j < a)
  end.
Proof.
  unfold bigint_ceil_log2, bigint_bits. destruct (Z.ltb_spec 0 a) as [H|H]; [|lia].
  destruct (Z.eqb_spec (a - 1) 0) as [E|E].
  - change (2 ^ 0) with 1. repeat match goal with |- _ /\ _ => split end; lia.
  - rewrite Z.abs_eq by lia.
    pose proof (Z.log2_spec (a - 1) ltac:(lia)) as [H1 H2]. pose proof (Z.log2_nonneg (a - 1)).
    rewrite Z.add_1_r.
    repeat match goal with |- _ /\ _ => split end; try lia.
    intros j Hj. assert (2 ^ j <= 2 ^ Z.log2 (a - 1)) by (apply Z.pow_le_mono_r; lia). lia.
Qed.

Lemma prim_floor_log2_eq w a : prim_floor_log2 w a = bigint_floor_log2 a.
Proof.
  unfold prim_floor_log2, bigint_floor_log2, prim_leading_zeros.
  destruct (Z.leb_spec a 0), (Z.ltb_spec 0 a); try lia; f_equal. lia.
Qed.
Lemma prim_ceil_log2_eq w a : prim_ceil_log2 w a = bigint_ceil_log2 a.
Proof.
  unfold prim_ceil_log2, bigint_ceil_log2, prim_leading_zeros.
  destruct (Z.leb_spec a 0), (Z.ltb_spec 0 a); try lia; f_equal. lia.
Qed.

Lemma pos_ctz_spec p : 0 <= pos_ctz p /\ exists m, Zpos p = (2 * m + 1) * 2 ^ pos_ctz p.
Proof.
  induction p as [p IH|p IH|]; cbn [pos_ctz].
  - split; [lia|]. exists (Zpos p). change (2 ^ 0) with 1. lia.
  - destruct IH as [H [m Hm]]. split; [lia|]. exists m.
    rewrite Z.pow_add_r by lia. change (2 ^ 1) with 2. rewrite Pos2Z.inj_xO, Hm. ring.
  - split; [lia|]. exists 0. reflexivity.
Qed.

Lemma valuation_intro a k m : 0 <= k -> a = (2 * m + 1) * 2 ^ k -> is_two_valuation a k.
Proof.
  intros Hk E. assert (0 < 2 ^ k) by (apply Z.pow_pos_nonneg; lia).
  split; [exact Hk|]. split; [exists (2 * m + 1); exact E|].
  intros [j Hj]. rewrite Z.pow_add_r in Hj by lia. change (2 ^ 1) with 2 in Hj.
  assert (2 * m + 1 = j * 2) by (apply (Z.mul_reg_r _ _ (2 ^ k)); lia). lia.
Qed.

Lemma prim_ctz_spec a : a <> 0 -> is_two_valuation a (prim_ctz a).
Proof.
  intros Ha. destruct a as [|p|p]; [contradiction| |]; cbn [prim_ctz];
    destruct (pos_ctz_spec p) as [H [m Hm]].
  - apply (valuation_intro _ _ m); assumption.
  - apply (valuation_intro _ _ (- m - 1)); [assumption|].
    rewrite <- Pos2Z.opp_pos, Hm. ring.
Qed.

Lemma valuation_unique a j k : is_two_valuation a j -> is_two_valuation a k -> j = k.
Proof.
  intros (Hj & Dj & Nj) (Hk & Dk & Nk).
  destruct (Z.lt_trichotomy j k) as [H|[H|H]]; [|exact H|]; exfalso.
  - apply Nj. apply Z.divide_trans with (2 ^ k); [|exact Dk].
    exists (2 ^ (k - (j + 1))). rewrite <- Z.pow_add_r by lia. f_equal; lia.
  - apply Nk. apply Z.divide_trans with (2 ^ j); [|exact Dj].
    exists (2 ^ (j - (k + 1))). rewrite <- Z.pow_add_r by lia. f_equal; lia.
Qed.

Lemma shiftr_shiftl_dvd v b : 0 <= b -> (Z.shiftl (Z.shiftr v b) b =? v) = true <-> (2 ^ b | v).
Proof.
  intros Hb. rewrite Z.shiftr_div_pow2, Z.shiftl_mul_pow2 by assumption.
  assert (0 < 2 ^ b) by (apply Z.pow_pos_nonneg; lia).
  rewrite Z.eqb_eq. split.
  - intros E. exists (v / 2 ^ b). symmetry. exact E.
  - intros [m ->]. rewrite Z.div_mul by lia. reflexivity.
Qed.

(** loop invariant: valuation of [value] < 2^n; [ret] has no bit below n *)
Lemma lor_add_pow n m : 0 <= n -> Z.lor (m * 2 ^ (n + 1)) (2 ^ n) = m * 2 ^ (n + 1) + 2 ^ n.
Proof.
  intros Hn. rewrite <- Z.lxor_lor.
  - symmetry. apply Z.add_nocarry_lxor.
    apply Z.bits_inj'. intros i Hi. rewrite Z.land_spec, Z.bits_0.
    rewrite Z.pow2_bits_eqb by assumption.
    destruct (Z.eqb_spec n i) as [->|]; [|apply andb_false_r].
    rewrite Z.mul_pow2_bits_low by lia. reflexivity.
  - apply Z.bits_inj'. intros i Hi. rewrite Z.land_spec, Z.bits_0.
    rewrite Z.pow2_bits_eqb by assumption.
    destruct (Z.eqb_spec n i) as [->|]; [|apply andb_false_r].
    rewrite Z.mul_pow2_bits_low by lia. reflexivity.
Qed.

Lemma tz_loop_spec n : forall value ret k,
  is_two_valuation value k -> k < 2 ^ Z.of_nat n ->
  (exists m, ret = m * 2 ^ Z.of_nat n) ->
  tz_loop n value ret = ret + k.
Proof.
  induction n as [|n IH]; intros value ret k Hk Hlt [m Hm].
  - cbn [tz_loop]. change (2 ^ Z.of_nat 0) with 1 in Hlt. destruct Hk. lia.
  - cbn [tz_loop]. set (bit := 2 ^ Z.of_nat n).
    rewrite Nat2Z.inj_succ, <- Z.add_1_r in Hlt, Hm.
    rewrite Z.pow_add_r in Hlt by lia. fold bit in Hlt. change (2 ^ 1) with 2 in Hlt.
    assert (Hbit : 0 < bit) by (apply Z.pow_pos_nonneg; lia).
    destruct (Z.shiftl (Z.shiftr value bit) bit =? value) eqn:E.
    + apply shiftr_shiftl_dvd in E; [|lia].
      assert (Hge : bit <= k).
      { destruct (Z.le_gt_cases bit k); [assumption|]. exfalso.
        destruct Hk as (Hk0 & _ & N). apply N.
        apply Z.divide_trans with (2 ^ bit); [|exact E].
        exists (2 ^ (bit - (k + 1))). rewrite <- Z.pow_add_r by lia. f_equal; lia. }
      rewrite (IH _ _ (k - bit)).
      * subst ret. unfold bit. rewrite lor_add_pow by lia. fold bit. lia.
      * rewrite Z.shiftr_div_pow2 by lia. destruct E as [v Hv]. rewrite Hv.
        assert (0 < 2 ^ bit) by (apply Z.pow_pos_nonneg; lia).
        rewrite Z.div_mul by lia.
        destruct Hk as (Hk0 & [c Hc] & N). split; [lia|]. split.
        -- exists c. rewrite Hv in Hc. apply (Z.mul_reg_r _ _ (2 ^ bit)); [lia|].
           rewrite Hc, <- Z.mul_assoc, <- Z.pow_add_r by lia. f_equal; f_equal; lia.
        -- intros [c' Hc']. apply N. exists c'. rewrite Hv, Hc', <- Z.mul_assoc, <- Z.pow_add_r by lia.
           f_equal; f_equal; lia.
      * fold bit. lia.
      * subst ret. unfold bit. rewrite lor_add_pow by lia.
        exists (2 * m + 1). rewrite Z.pow_add_r by lia. change (2 ^ 1) with 2. ring.
    + rewrite (IH _ _ k); [reflexivity|assumption| |].
      * fold bit. destruct (Z.le_gt_cases bit k) as [Hge|]; [exfalso|assumption].
        rewrite (proj2 (shiftr_shiftl_dvd value bit ltac:(lia))) in E; [discriminate|].
        destruct Hk as (Hk0 & D & _). apply Z.divide_trans with (2 ^ k); [|exact D].
        exists (2 ^ (k - bit)). rewrite <- Z.pow_add_r by lia. f_equal; lia.
      * exists (2 * m). subst ret. rewrite Z.pow_add_r by lia. change (2 ^ 1) with 2. ring.
Qed.

Lemma tz_start_spec fuel : forall k c,
  0 <= k -> Z.log2_up c <= k + Z.of_nat fuel -> c <= 2 ^ tz_start fuel k c /\ 0 <= tz_start fuel k c.
Proof.
  induction fuel as [|fuel IH]; intros k c Hk Hf; cbn [tz_start].
  - destruct (Z.ltb_spec (2 ^ k) c) as [H|H]; [|lia].
    split; [|lia]. assert (1 < c) by (pose proof (Z.pow_pos_nonneg 2 k ltac:(lia) Hk); lia).
    pose proof (Z.log2_up_spec c ltac:(lia)) as [_ H2].
    etransitivity; [exact H2|]. apply Z.pow_le_mono_r; lia.
  - destruct (Z.ltb_spec (2 ^ k) c) as [H|H]; [|lia].
    apply IH; lia.
Qed.

Lemma biguint_trailing_zeros_spec a : 0 <= a ->
  match biguint_trailing_zeros a with
  | None => a = 0
  | Some k => is_two_valuation a k
  end.
Proof.
  intros Ha. unfold biguint_trailing_zeros.
  pose proof (bigint_ceil_log2_spec a) as Hc.
  destruct (bigint_ceil_log2 a) as [c|]; [|lia].
  destruct Hc as (H0 & Hc0 & Hle & Hmin).
  destruct (Z.ltb_spec a (2 ^ 32)); [apply prim_ctz_spec; lia|].
  set (k := tz_start _ 0 c).
  assert (Hk : c <= 2 ^ k /\ 0 <= k).
  { apply tz_start_spec; [lia|]. pose proof (Z.log2_up_nonneg c). lia. }
  pose proof (prim_ctz_spec a ltac:(lia)) as Hv.
  assert (Hb : prim_ctz a <= c).
  { destruct Hv as (Hp & [m Hm] & _). destruct (Z.le_gt_cases (prim_ctz a) c); [assumption|exfalso].
    assert (0 < 2 ^ c) by (apply Z.pow_pos_nonneg; lia).
    assert (2 ^ c < 2 ^ prim_ctz a) by (apply Z.pow_lt_mono_r; lia).
    set (u := 2 ^ prim_ctz a) in *. assert (0 < m) by nia. nia. }
  rewrite (tz_loop_spec _ _ _ (prim_ctz a)).
  - exact Hv.
  - exact Hv.
  - rewrite Nat2Z.inj_succ, Z2Nat.id by lia.
    assert (2 ^ k < 2 ^ Z.succ k) by (apply Z.pow_lt_mono_r; lia). lia.
  - exists 0. reflexivity.
Qed.

Lemma valuation_abs a k : is_two_valuation (Z.abs a) k -> is_two_valuation a k.
Proof.
  intros (H & D & N). split; [assumption|]. split.
  - apply Z.divide_abs_r. exact D.
  - intros E. apply N. apply Z.divide_abs_r. exact E.
Qed.

Lemma bigint_trailing_zeros_spec a :
  match bigint_trailing_zeros a with
  | None => a = 0
  | Some k => is_two_valuation a k
  end.
Proof.
  unfold bigint_trailing_zeros.
  pose proof (biguint_trailing_zeros_spec (Z.abs a) (Z.abs_nonneg a)) as H.
  destruct (biguint_trailing_zeros (Z.abs a)); [apply valuation_abs; exact H|lia].
Qed.

(** ** exact division *)

Lemma quot_exact a b q : b <> 0 -> (Z.rem a b = 0 /\ Z.quot a b = q <-> a = q * b).
Proof.
  intros Hb. pose proof (Z.quot_rem a b Hb) as E. split.
  - intros [H1 H2]. rewrite H1, H2 in E. lia.
  - intros ->. rewrite Z.rem_mul, Z.quot_mul by assumption. auto.
Qed.

Lemma bigint_checked_exact_div_spec a b q :
  bigint_checked_exact_div a b = Some q <-> b <> 0 /\ a = q * b.
Proof.
  unfold bigint_checked_exact_div, checked_exact_div_by, bigint_checked_div_rem.
  destruct (Z.eqb_spec b 0) as [|Hb]; [split; [discriminate|tauto]|].
  rewrite <- (quot_exact a b q Hb).
  destruct (Z.eqb_spec (Z.rem a b) 0) as [E|E].
  - split; [intros H; inversion H; auto|intros (_ & _ & ->); reflexivity].
  - split; [discriminate|tauto].
Qed.

Lemma bigint_checked_exact_div_assign_spec a b :
  match bigint_checked_exact_div_assign a b with
  | (q, true) => b <> 0 /\ a = q * b
  | (a', false) => a' = a /\ (b = 0 \/ ~ (b | a))
  end.
Proof.
  unfold bigint_checked_exact_div_assign.
  destruct (bigint_checked_exact_div a b) as [q|] eqn:E.
  - now apply bigint_checked_exact_div_spec.
  - split; [reflexivity|]. destruct (Z.eq_dec b 0) as [|Hb]; [now left|right; intros [q Hq]].
    assert (H : bigint_checked_exact_div a b = Some q) by now apply bigint_checked_exact_div_spec.
    congruence.
Qed.

Lemma bigint_exact_div_spec a b :
  match bigint_exact_div a b with
  | Ret q => b <> 0 /\ a = q * b
  | Panic => b = 0 \/ ~ (b | a)
  | NoFuel => False
  end.
Proof.
  unfold bigint_exact_div. destruct (Z.eqb_spec b 0) as [|Hb]; [tauto|].
  destruct (Z.eqb_spec (Z.rem a b) 0) as [E|E].
  - split; [assumption|]. apply quot_exact; auto.
  - right. intros [k Hk]. apply E. subst. apply Z.rem_mul; assumption.
Qed.

Lemma int_checked_exact_div_spec w a b q : 0 < w ->
  imin w <= a <= imax w -> imin w <= b <= imax w ->
  (int_checked_exact_div w a b = Some q <-> b <> 0 /\ a = q * b /\ imin w <= q <= imax w).
Proof.
  intros Hw Ha Hb.
  assert (Hp : 0 < 2 ^ (w - 1)) by (apply Z.pow_pos_nonneg; lia).
  unfold int_checked_exact_div, checked_exact_div_by, int_checked_div_rem.
  destruct (Z.eqb_spec b 0) as [|Hb0]; [split; [discriminate|tauto]|].
  destruct (Z.eqb_spec b (-1)) as [E1|E1], (Z.eqb_spec a (imin w)) as [E2|E2]; cbn [andb].
  - split; [discriminate|]. intros (_ & E & Hq). subst. unfold imin, imax in *. exfalso. lia.
  - subst b. rewrite <- (quot_exact a (-1) q) by lia.
    destruct (Z.eqb_spec (Z.rem a (-1)) 0) as [E|E].
    + split; [intros H; inversion H; subst|intros (_ & [_ ->] & _); reflexivity].
      split; [lia|]. split; [auto|].
      assert (a = Z.quot a (-1) * -1) by (apply quot_exact; [lia|auto]).
      unfold imin, imax in *. lia.
    + split; [discriminate|tauto].
  - rewrite <- (quot_exact a b q) by lia.
    destruct (Z.eqb_spec (Z.rem a b) 0) as [E|E].
    + split; [intros H; inversion H; subst q|intros (_ & [_ ->] & _); reflexivity].
      split; [lia|]. split; [auto|].
      assert (a = Z.quot a b * b) by (apply quot_exact; [lia|auto]).
      unfold imin, imax in *. nia.
    + split; [discriminate|tauto].
  - rewrite <- (quot_exact a b q) by lia.
    destruct (Z.eqb_spec (Z.rem a b) 0) as [E|E].
    + split; [intros H; inversion H; subst q|intros (_ & [_ ->] & _); reflexivity].
      split; [lia|]. split; [auto|].
      assert (a = Z.quot a b * b) by (apply quot_exact; [lia|auto]).
      unfold imin, imax in *. nia.
    + split; [discriminate|tauto].
Qed.

Lemma ratio_checked_exact_div_spec a b :
  match ratio_checked_exact_div a b with
  | None => (b == 0)%Q
  | Some q => (~ b == 0)%Q /\ (q * b == a)%Q
  end.
Proof.
  unfold ratio_checked_exact_div. destruct (Z.eqb_spec (Qnum b) 0) as [E|E].
  - apply Qzero_num; exact E.
  - assert (Hb : (~ b == 0)%Q) by (unfold Qeq; simpl; lia).
    split; [exact Hb|]. rewrite Qred_correct. field. exact Hb.
Qed.

(** ** witnesses *)
Lemma gcd_lcm_product_refuted : exists a b, int_gcd a b * int_lcm a b <> a * b.
Proof. exists 2, (-3). vm_compute. discriminate. Qed.
Lemma ratio_gcd_negative : exists a b g l, ratio_gcd_lcm a b = Ret (g, l) /\ (g < 0)%Q.
Proof. exists 0%Q, (-1 # 2)%Q, (-1 # 2)%Q, 0%Q. split; reflexivity. Qed.
Lemma bigint_nearest_refuted : exists a b q r,
  bigint_checked_div_rem_nearest a b = Some (q, r) /\ a <> q * b + r.
Proof. exists 7, 3, 3, 4. split; [reflexivity|discriminate]. Qed.
Lemma int_nearest_refuted : exists a b q r,
  int_checked_div_rem_nearest 32 a b = Some (q, r) /\ ~ 2 * Z.abs r <= Z.abs b.
Proof. exists (-6), 10, 1, (-16). split; [reflexivity|lia]. Qed.
Lemma int_nearest_spurious_none : exists a b,
  int_checked_div_rem_nearest 8 a b = None /\ b <> 0 /\ nearest_div_rem a b (-1) 1.
Proof. exists (-100), 101. split; [reflexivity|]. split; [lia|]. unfold nearest_div_rem. lia. Qed.
