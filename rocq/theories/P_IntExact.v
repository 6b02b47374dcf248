(** Exactly when the refuted properties of integers, fractions and residues fail. *)
From Coq Require Import ZArith QArith Qabs Lia Lqa.
From Verif Require Import M_Base M_Traits M_ModInt S_Int S_ModInt P_Traits P_ModInt.
Local Open Scope Z_scope.

Lemma product_iff a b : int_gcd a b * int_lcm a b = a * b <-> 0 <= a * b.
Proof. rewrite int_gcd_lcm_abs. lia. Qed.

Lemma num_zero (q : Q) : (q == 0)%Q <-> Qnum q = 0.
Proof. unfold Qeq. cbn. lia. Qed.
Lemma num_neg (q : Q) : (q < 0)%Q <-> Qnum q < 0.
Proof. unfold Qlt. cbn. lia. Qed.

Lemma ratio_new_pos n d q : 0 <= n -> 0 < d -> ratio_new n d = Ret q -> (0 <= q)%Q.
Proof.
  intros Hn Hd E. destruct d as [|p|p]; [discriminate| |lia]. assert (E1 : Qred (n # p) = q) by (cbv beta iota delta [ratio_new] in E; congruence). rewrite <- E1, Qred_correct.
  unfold Qle. cbn. lia.
Qed.
Lemma negative_iff a b g l : ratio_gcd_lcm a b = Ret (g, l) ->
  ((g < 0)%Q <-> ((a == 0 /\ b < 0) \/ (b == 0 /\ a < 0))%Q).
Proof.
  rewrite !num_zero, !(num_neg a), !(num_neg b). unfold ratio_gcd_lcm.
  destruct (Z.eqb_spec (Qnum a) 0) as [A|A].
  { intros E. injection E as <- <-. rewrite num_neg. lia. }
  destruct (Z.eqb_spec (Qnum b) 0) as [B|B].
  { intros E. injection E as <- <-. rewrite num_neg. lia. }
  unfold int_gcd_lcm. destruct (ratio_new (Z.gcd _ _) _) as [gq| |] eqn:G; try discriminate.
  apply ratio_new_pos in G; [|apply Z.gcd_nonneg|lia]. cbn [rbind].
  destruct (ratio_new _ _) as [lq| |]; try discriminate. cbn [rbind]. intros E.
  assert (Eg : gq = g) by congruence. rewrite <- Eg. split; [intros; lra|lia].
Qed.

Lemma pow_iff t b e m : 0 < m -> fits t m = true -> 0 <= e ->
  (pow_modular_reduce t b e m = Ret (b ^ e mod m) <-> ~ (t <> IBig /\ t <> IBigU /\ e = 0 /\ m = 1)).
Proof.
  intros Hm Hf He. split.
  - intros E (T1 & T2 & -> & ->). rewrite Z.mod_1_r in E. destruct t; try congruence; discriminate E.
  - intros N. destruct (Z.eq_dec e 0) as [->|E0]; [|apply pow_modular_reduce_ok; try assumption; intros; lia].
    destruct (Z.eq_dec m 1) as [->|M1]; [|apply pow_modular_reduce_ok; try assumption; intros; lia].
    destruct t; try reflexivity; exfalso; apply N; repeat split; discriminate.
Qed.

Lemma inverse_one t a : mi_canonical a -> mi_modulus a = 1 -> mi_value a = 0 /\ mi_checked_inverse t a = Ret None /\ mi_inverse t a = Panic.
Proof.
  unfold mi_canonical. intros H M. assert (V : mi_value a = 0) by lia. split; [exact V|].
  unfold mi_inverse, mi_checked_inverse. rewrite V. split; reflexivity.
Qed.

Lemma pow_loop_opp fuel t : forall r b e m, pow_loop fuel t r b (- e) m = pow_loop fuel t r b e m.
Proof.
  induction fuel as [|fuel IH]; intros r b e m; [reflexivity|]. cbn [pow_loop]. rewrite Z.odd_opp.
  rewrite Z.quot_opp_l by discriminate.
  assert (E : (- Z.quot e 2 =? 0) = (Z.quot e 2 =? 0)) by (destruct (Z.eqb_spec (- Z.quot e 2) 0), (Z.eqb_spec (Z.quot e 2) 0); lia).
  rewrite E. destruct (if Z.odd e then _ else _) as [r'| |]; cbn [rbind]; try reflexivity.
  destruct (Z.quot e 2 =? 0); [reflexivity|]. destruct (modular_mul t b b m); cbn [rbind]; [apply IH|reflexivity|reflexivity].
Qed.

Lemma pow_negative t b e m : 0 < m -> fits t m = true -> e < 0 ->
  pow_modular_reduce t b e m = match t with IBig | IBigU => Panic | _ => Ret (b ^ (- e) mod m) end.
Proof.
  intros Hm Hf He.
  assert (P : t <> IBig -> t <> IBigU -> pow_modular_reduce t b e m = Ret (b ^ (- e) mod m)).
  { intros T1 T2. rewrite <- (pow_modular_reduce_ok t b (- e) m) by (assumption || lia).
    assert (E : forall e', pow_modular_reduce t b e' m = pow_modular_reduce_prim t b e' m) by (intros; destruct t; reflexivity || congruence).
    rewrite !E. unfold pow_modular_reduce_prim.
    destruct (Z.eqb_spec e 0); [lia|]. destruct (Z.eqb_spec (- e) 0); [lia|]. destruct (Z.eqb_spec e 1); [lia|].
    rewrite Z.abs_opp. destruct (modular_reduce t b m) as [v| |]; cbn [rbind]; try reflexivity.
    rewrite pow_loop_opp. destruct (Z.eqb_spec (- e) 1) as [E1|E1]; [|reflexivity].
    replace e with (-1) by lia. reflexivity. }
  destruct t; try (apply P; discriminate); cbn [pow_modular_reduce]; unfold bigint_modpow;
    destruct (Z.ltb_spec e 0); try lia; rewrite Bool.orb_true_r; reflexivity.
Qed.
