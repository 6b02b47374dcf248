(** Nearest division, trailing zeros and exact division at fixed width: further
    proofs. *)
From Coq Require Import ZArith QArith Bool Lia.
From Verif Require Import M_Base M_Traits S_Int P_Traits.
Local Open Scope Z_scope.

Section Nearest.
Variables w a b : Z.
Hypotheses (W : 1 < w) (A : imin w <= a <= imax w) (B : imin w <= b <= imax w).
Let q := Z.quot a b.
Let r := Z.rem a b.

Lemma nearest_facts : b <> 0 -> a = b * q + r /\ Z.abs r < Z.abs b /\ (0 <= a -> 0 <= r) /\ (a <= 0 -> r <= 0).
Proof.
  intros N. unfold q, r. split; [apply Z.quot_rem; exact N |]. split; [apply Z.rem_bound_abs; exact N |].
  split; intros S; [apply Z.rem_nonneg; auto | apply Z.rem_nonpos; auto].
Qed.
Lemma half_lt x y : 0 <= x -> (x / 2 <? y) = true <-> x < 2 * y.
Proof. intros X. rewrite Z.ltb_lt. pose proof (Z.div_mod x 2 ltac:(lia)). pose proof (Z.mod_pos_bound x 2 ltac:(lia)). lia. Qed.

Lemma int_nearest_iff u v : int_checked_div_rem_nearest w a b = Some (u, v) ->
  (nearest_div_rem a b u v <-> 2 * Z.abs (Z.rem a b) <= Z.abs b \/ 0 <= a /\ imin w < b).
Proof.
  unfold int_checked_div_rem_nearest. fold q r.
  destruct (Z.eqb_spec b 0) as [E | N]; [discriminate |].
  destruct (nearest_facts N) as [D [L [P M]]].
  destruct ((b =? -1) && (a =? imin w)); [discriminate |].
  destruct (negb (b =? imin w) && (Z.abs b / 2 <? Z.abs r)) eqn:C.
  - apply andb_prop in C. destruct C as [C1 C2]. apply half_lt in C2; [| lia].
    destruct (Z.eqb_spec b (imin w)) as [E | N2]; [discriminate |].
    unfold iadd_checked, nearest_div_rem.
    destruct (Z.ltb_spec b 0) as [S | S]; cbv beta iota.
    + destruct (in_irange w (q + -1)); [| discriminate]. destruct (in_irange w (r + b)); [| discriminate].
      intros E. injection E as <- <-. split; [intros [_ G] | intros G; split]; lia.
    + destruct (in_irange w (q + 1)); [| discriminate]. destruct (in_irange w (r + - b)); [| discriminate].
      intros E. injection E as <- <-. split; [intros [_ G] | intros G; split]; lia.
  - intros E. injection E as <- <-. unfold nearest_div_rem.
    apply andb_false_iff in C. split.
    + intros [_ G]. now left.
    + intros [G | [G1 G2]]; split; try lia. destruct C as [C | C].
      * destruct (Z.eqb_spec b (imin w)); [lia | discriminate].
      * destruct (Z.lt_ge_cases (Z.abs b) (2 * Z.abs r)) as [H | H]; [| exact H].
        apply half_lt in H; [congruence | lia].
Qed.

Lemma int_nearest_none_iff : int_checked_div_rem_nearest w a b = None <->
  b = 0 \/ (a = imin w /\ b = -1) \/
  (a < 0 /\ imin w < b /\ Z.abs b < 2 * Z.abs (Z.rem a b) /\ Z.rem a b - Z.abs b < imin w).
Proof.
  unfold int_checked_div_rem_nearest. fold q r.
  destruct (Z.eqb_spec b 0) as [E | N]; [split; auto |].
  destruct (nearest_facts N) as [D [L [P M]]].
  assert (H2 : 2 ^ w = 2 * 2 ^ (w - 1)) by (rewrite <- Z.pow_succ_r by lia; f_equal; lia).
  assert (W1 : 2 <= 2 ^ (w - 1)) by (change 2 with (2 ^ 1) at 1; apply Z.pow_le_mono_r; lia).
  unfold imin, imax in *. set (h := 2 ^ (w - 1)) in *.
  destruct (Z.eqb_spec b (-1)) as [E1 | N1]; cbn [andb].
  { destruct (Z.eqb_spec a (- h)) as [E2 | N2]; [split; auto |].
    assert (R0 : r = 0) by lia.
    replace (Z.abs b / 2 <? Z.abs r) with false by (rewrite R0, E1; reflexivity).
    rewrite andb_false_r. split; [discriminate |]. intros H. exfalso. lia. }
  destruct (negb (b =? - h) && (Z.abs b / 2 <? Z.abs r)) eqn:C.
  - apply andb_prop in C. destruct C as [C1 C2]. apply half_lt in C2; [| lia].
    destruct (Z.eqb_spec b (- h)) as [E | N2]; [discriminate |].
    assert (B3 : 3 <= Z.abs b) by lia.
    assert (Q3 : 3 * Z.abs q <= h) by nia.
    assert (F : forall k, Z.abs k <= 1 -> in_irange w (q + k) = true).
    { intros k K. unfold in_irange, imin, imax. fold h. apply andb_true_intro. split; apply Z.leb_le; lia. }
    unfold iadd_checked.
    destruct (Z.ltb_spec b 0) as [S | S]; cbv beta iota; rewrite F by lia; unfold in_irange, imin, imax; fold h.
    + destruct (Z.leb_spec (- h) (r + b)); destruct (Z.leb_spec (r + b) (h - 1)); cbn [andb];
        (split; [try discriminate; intros _ | try reflexivity; intros; exfalso]); lia.
    + destruct (Z.leb_spec (- h) (r + - b)); destruct (Z.leb_spec (r + - b) (h - 1)); cbn [andb];
        (split; [try discriminate; intros _ | try reflexivity; intros; exfalso]); lia.
  - split; [discriminate |]. apply andb_false_iff in C. intros [H | [H | H]]; try lia. exfalso.
    destruct C as [C | C]; [destruct (Z.eqb_spec b (- h)); [lia | discriminate] |].
    destruct H as [_ [_ [H _]]]. apply half_lt in H; [congruence | lia].
Qed.
End Nearest.

Lemma uint_nearest a b : 0 <= a -> 0 <= b ->
  match uint_checked_div_rem_nearest a b with
  | None => b = 0
  | Some (q, r) => b <> 0 /\ a = q * b + r /\ 0 <= r < b
  end.
Proof.
  intros A B. unfold uint_checked_div_rem_nearest. destruct (Z.eqb_spec b 0) as [E | N]; [exact E |].
  split; [exact N |]. pose proof (Z.div_mod a b N). pose proof (Z.mod_pos_bound a b ltac:(lia)). lia.
Qed.
Lemma ratio_nearest a b : match ratio_checked_div_rem_nearest a b with
  | None => (b == 0)%Q
  | Some (q, r) => (~ b == 0)%Q /\ (a == q * b + r)%Q /\ (r == 0)%Q
  end.
Proof.
  unfold ratio_checked_div_rem_nearest. destruct (Z.eqb_spec (Qnum b) 0) as [E | N].
  - unfold Qeq. cbn. lia.
  - assert (Z : ~ (b == 0)%Q) by (unfold Qeq; cbn; lia).
    split; [exact Z |]. split; [| reflexivity]. rewrite Qred_correct. field. exact Z.
Qed.
Lemma prim_trailing_zeros_spec a :
  match prim_trailing_zeros a with None => a = 0 | Some k => is_two_valuation a k end.
Proof.
  unfold prim_trailing_zeros. destruct (Z.eqb_spec a 0) as [E | N]; [exact E | now apply prim_ctz_spec].
Qed.
Lemma int_exact_div_spec w a b : 0 < w -> imin w <= a <= imax w -> imin w <= b <= imax w ->
  match int_exact_div w a b with
  | Ret q => b <> 0 /\ a = q * b /\ imin w <= q <= imax w
  | Panic => forall q, ~ (b <> 0 /\ a = q * b /\ imin w <= q <= imax w)
  | NoFuel => False
  end.
Proof.
  intros W A B.
  assert (E : int_exact_div w a b = match int_checked_exact_div w a b with Some q => Ret q | None => Panic end).
  { unfold int_exact_div, int_checked_exact_div, checked_exact_div_by, int_checked_div_rem.
    destruct (b =? 0); [reflexivity |]. destruct ((b =? -1) && (a =? imin w)); [reflexivity |].
    destruct (Z.rem a b =? 0); reflexivity. }
  rewrite E. destruct (int_checked_exact_div w a b) as [q |] eqn:F.
  - now apply int_checked_exact_div_spec in F.
  - intros q G. apply (int_checked_exact_div_spec w a b q W A B) in G. congruence.
Qed.
