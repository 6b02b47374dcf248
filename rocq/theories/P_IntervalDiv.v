(** How precise products with scalars and quotients are. *)
From Coq Require Import ZArith QArith Qround Qreals Reals Lra Lia Bool List.
From Verif Require Import M_Base M_Traits M_Interval S_Interval P_Interval P_IntervalTight.
Local Open Scope R_scope.

Lemma dfi_mul_int_exact a r : dfi_ok a ->
  let al := dyadic (dlo a) (dlog a) in let ah := dyadic (dhi a) (dlog a) in
  dlog (dfi_mul_int a r) = dlog a /\
  dyadic (dlo (dfi_mul_int a r)) (dlog a) = Rmin (al * IZR r) (ah * IZR r) /\
  dyadic (dhi (dfi_mul_int a r)) (dlog a) = Rmax (al * IZR r) (ah * IZR r).
Proof.
  intros Ok; cbv zeta; unfold dfi_mul_int.
  assert (L : dyadic (dlo a) (dlog a) <= dyadic (dhi a) (dlog a)) by (apply dyadic_le; assumption).
  assert (S : forall z, dyadic (z * r) (dlog a) = dyadic z (dlog a) * IZR r).
  { intro z; unfold dyadic; rewrite mult_IZR; unfold Rdiv; ring. }
  destruct (Z.ltb_spec r 0) as [H|H]; cbn [dlo dhi dlog]; rewrite !S; (split; [reflexivity|]).
  - apply IZR_lt in H; rewrite Rmin_right, Rmax_left by nra; split; reflexivity.
  - apply IZR_le in H; rewrite Rmin_left, Rmax_right by nra; split; reflexivity.
Qed.

Lemma dfi_div_int_tight a r q : dfi_ok a -> dfi_div_int a r = Ret q ->
  let al := dyadic (dlo a) (dlog a) in let ah := dyadic (dhi a) (dlog a) in
  tightest q (dlog a) (Rmin (al / IZR r) (ah / IZR r)) (Rmax (al / IZR r) (ah / IZR r)).
Proof.
  intros Ok E; cbv zeta; unfold dfi_div_int in E.
  destruct (ratio_new 1 r) as [s| |] eqn:Es; try discriminate E.
  cbn in E; injection E as <-.
  destruct (ratio_new_R _ _ _ Es) as [Hr V].
  assert (R0 : IZR r <> 0) by (apply not_0_IZR; exact Hr).
  pose proof (dfi_mul_ratio_tight a s Ok) as T; cbv zeta in T; rewrite V in T.
  replace (dyadic (dlo a) (dlog a) / IZR r) with (dyadic (dlo a) (dlog a) * (1 / IZR r)) by (field; exact R0).
  replace (dyadic (dhi a) (dlog a) / IZR r) with (dyadic (dhi a) (dlog a) * (1 / IZR r)) by (field; exact R0).
  exact T.
Qed.

Lemma dfi_div_ratio_tight a r q : dfi_ok a -> dfi_div_ratio a r = Ret q ->
  let al := dyadic (dlo a) (dlog a) in let ah := dyadic (dhi a) (dlog a) in
  tightest q (dlog a) (Rmin (al / Q2R r) (ah / Q2R r)) (Rmax (al / Q2R r) (ah / Q2R r)).
Proof.
  intros Ok E; cbv zeta; unfold dfi_div_ratio, ratio_recip in E.
  destruct (ratio_new _ _) as [s| |] eqn:Es; try discriminate E.
  cbn in E; injection E as <-.
  destruct (ratio_new_R _ _ _ Es) as [Hr V].
  assert (N0 : IZR (Qnum r) <> 0) by (apply not_0_IZR; exact Hr).
  assert (D0 : IZR (Zpos (Qden r)) <> 0) by (apply not_0_IZR; discriminate).
  assert (V' : Q2R s = / Q2R r) by (rewrite V; unfold Q2R; field; split; assumption).
  pose proof (dfi_mul_ratio_tight a s Ok) as T; cbv zeta in T; rewrite V' in T; exact T.
Qed.

Lemma Rmax4_one a b c d : Rmax4 a b c d = a \/ Rmax4 a b c d = b \/ Rmax4 a b c d = c \/ Rmax4 a b c d = d.
Proof. unfold Rmax4, Rmax; repeat destruct (Rle_dec _ _); auto. Qed.
Lemma Rmin4_one a b c d : Rmin4 a b c d = a \/ Rmin4 a b c d = b \/ Rmin4 a b c d = c \/ Rmin4 a b c d = d.
Proof. unfold Rmin4, Rmin; repeat destruct (Rle_dec _ _); auto. Qed.

Lemma dyadic_succ m k : dyadic (m + 1) k = dyadic m k + / 2 ^ k.
Proof. unfold dyadic; rewrite plus_IZR; unfold Rdiv; ring. Qed.

Lemma tightest_near i k a b : tightest i k a b ->
  a - / 2 ^ k < dyadic (dlo i) k <= a /\ b <= dyadic (dhi i) k < b + / 2 ^ k.
Proof.
  intros (_ & L & U & ML & MU).
  assert (A : ~ dyadic (dlo i + 1) k <= a) by (intro H; apply ML in H; lia).
  assert (B : ~ b <= dyadic (dhi i - 1) k) by (intro H; apply MU in H; lia).
  rewrite dyadic_succ in A.
  assert (E : dyadic (dhi i) k = dyadic (dhi i - 1) k + / 2 ^ k).
  { rewrite <- dyadic_succ; f_equal; lia. }
  lra.
Qed.

Lemma abs_bounds x m : Rabs x <= m -> - m <= x <= m.
Proof. unfold Rabs; destruct (Rcase_abs x); lra. Qed.

Lemma prod_near u r v e M : Rabs u <= M -> Rabs (r - v) <= e -> Rabs (u * r - u * v) <= M * e.
Proof.
  intros HM HE.
  replace (u * r - u * v) with (u * (r - v)) by ring.
  rewrite Rabs_mult; pose proof (Rabs_pos u); pose proof (Rabs_pos (r - v)).
  apply Rmult_le_compat; assumption.
Qed.

Lemma dfi_div_near a b q M : dfi_ok a -> dfi_ok b -> dfi_checked_div a b = Some q ->
  (forall x, inI x a -> Rabs x <= M) ->
  dlog q = Nat.max (dlog a) (dlog b) /\
  (exists x y, inI x a /\ inI y b /\
     x / y - M / 2 ^ dlog b - / 2 ^ dlog q < dyadic (dlo q) (dlog q)) /\
  (exists x y, inI x a /\ inI y b /\
     dyadic (dhi q) (dlog q) < x / y + M / 2 ^ dlog b + / 2 ^ dlog q).
Proof.
  intros Oa Ob E HM; unfold dfi_checked_div in E.
  destruct (dfi_checked_recip b) as [r|] eqn:Er; [|discriminate E].
  assert (Q : q = dfi_mul a r) by congruence.
  pose proof (dfi_recip_tight _ _ Er) as Tr.
  pose proof (dfi_mul_tight a r) as T; cbv zeta in T; rewrite <- Q in T; clear Q E Er.
  assert (Lr : dlog r = dlog b) by apply Tr.
  rewrite Lr in T.
  assert (Lq : dlog q = Nat.max (dlog a) (dlog b)) by apply T.
  rewrite Lq; split; [reflexivity|].
  apply tightest_near in Tr; apply tightest_near in T; destruct Tr as [R1 R2], T as [T1 T2].
  set (k := Nat.max _ _) in *; clearbody k.
  set (al := dyadic (dlo a) (dlog a)) in *; set (ah := dyadic (dhi a) (dlog a)) in *.
  set (bl := dyadic (dlo b) (dlog b)) in *; set (bh := dyadic (dhi b) (dlog b)) in *.
  set (rl := dyadic (dlo r) (dlog b)) in *; set (rh := dyadic (dhi r) (dlog b)) in *.
  assert (Ia : inI al a /\ inI ah a).
  { unfold inI; fold al ah; assert (al <= ah) by (apply dyadic_le; exact Oa); lra. }
  assert (Ib : inI bl b /\ inI bh b).
  { unfold inI; fold bl bh; assert (bl <= bh) by (apply dyadic_le; exact Ob); lra. }
  destruct Ia as [Ia1 Ia2], Ib as [Ib1 Ib2].
  set (e := / 2 ^ dlog b) in *.
  assert (E1 : Rabs (rl - / bh) <= e) by (apply Rabs_le; lra).
  assert (E2 : Rabs (rh - / bl) <= e) by (apply Rabs_le; lra).
  pose proof (prod_near al rl _ e M (HM _ Ia1) E1) as P1.
  pose proof (prod_near al rh _ e M (HM _ Ia1) E2) as P2.
  pose proof (prod_near ah rl _ e M (HM _ Ia2) E1) as P3.
  pose proof (prod_near ah rh _ e M (HM _ Ia2) E2) as P4.
  apply abs_bounds in P1; apply abs_bounds in P2; apply abs_bounds in P3; apply abs_bounds in P4.
  unfold Rdiv; fold e.
  split.
  - destruct (Rmin4_one (al * rl) (al * rh) (ah * rl) (ah * rh)) as [H|[H|[H|H]]]; rewrite H in T1;
      [exists al, bh|exists al, bl|exists ah, bh|exists ah, bl]; (split; [assumption|split; [assumption|]]); lra.
  - destruct (Rmax4_one (al * rl) (al * rh) (ah * rl) (ah * rh)) as [H|[H|[H|H]]]; rewrite H in T2;
      [exists al, bh|exists al, bl|exists ah, bh|exists ah, bl]; (split; [assumption|split; [assumption|]]); lra.
Qed.
