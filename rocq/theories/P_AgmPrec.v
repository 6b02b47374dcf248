(** How precise the arithmetic-geometric mean of intervals is. *)
From Coq Require Import ZArith QArith Qround Qreals Reals Lra Lia Bool List.
From Verif Require Import M_Base M_Traits M_Interval S_Interval P_Interval P_IntervalTight P_IntervalDiv P_IntervalAgm.
Local Open Scope R_scope.

Definition L (i : dfi) : R := dyadic (dlo i) (dlog i).
Definition U (i : dfi) : R := dyadic (dhi i) (dlog i).
Definition big (k : nat) (i : dfi) : Prop := dlog i = k /\ dfi_ok i /\ 1 <= L i.

Lemma big_good k i : big k i -> good k i.
Proof.
  intros (A & B & C). split; [exact A|]. split; [exact B|]. apply lo_nonneg_iff. unfold L in C. lra.
Qed.

Lemma one_dyadic k : dyadic (2 ^ Z.of_nat k) k = 1.
Proof. unfold dyadic. rewrite <- pow_IZR. field. pose proof (p2_pos k); lra. Qed.

Lemma tightest_one i k a b : tightest i k a b -> 1 <= a -> 1 <= L i.
Proof.
  intros (E & _ & _ & T & _) H. rewrite <- (one_dyadic k) in H. apply T in H.
  unfold L. rewrite E. rewrite <- (one_dyadic k). apply dyadic_le. exact H.
Qed.

Lemma near_LU i k a b : tightest i k a b -> a - / 2 ^ k <= L i <= a /\ b <= U i <= b + / 2 ^ k.
Proof.
  intros T. pose proof (tightest_near _ _ _ _ T) as N. destruct T as (E & _). unfold L, U. rewrite E. lra.
Qed.

Lemma sqrt_down x y u : 0 < u -> u <= 1 -> 1 <= x -> 1 <= y -> x - u <= y -> R_sqrt.sqrt x - u <= R_sqrt.sqrt y.
Proof.
  intros H0 H1 Hx Hy H.
  assert (S1 : 1 <= R_sqrt.sqrt x) by (rewrite <- sqrt_1; apply sqrt_le_1_alt; lra).
  assert (S0 : R_sqrt.sqrt x * R_sqrt.sqrt x = x) by (apply sqrt_sqrt; lra).
  rewrite <- (sqrt_square (R_sqrt.sqrt x - u)) by lra.
  apply sqrt_le_1_alt. nra.
Qed.
Lemma sqrt_up x y u : 0 < u -> u <= 1 -> 1 <= x -> y <= x + u -> R_sqrt.sqrt y <= R_sqrt.sqrt x + u.
Proof.
  intros H0 H1 Hx H.
  assert (S1 : 1 <= R_sqrt.sqrt x) by (rewrite <- sqrt_1; apply sqrt_le_1_alt; lra).
  assert (S0 : R_sqrt.sqrt x * R_sqrt.sqrt x = x) by (apply sqrt_sqrt; lra).
  rewrite <- (sqrt_square (R_sqrt.sqrt x + u)) by lra.
  apply sqrt_le_1_alt. nra.
Qed.

Lemma ulp_small k : (2 <= k)%nat -> 0 < / 2 ^ k <= / 4.
Proof.
  intros H. pose proof (p2_pos k). split; [apply Rinv_0_lt_compat; assumption|].
  apply Rinv_le_contravar; [lra|]. replace 4 with (2 ^ 2) by ring. apply Rle_pow; [lra|exact H].
Qed.

Lemma prod4 al ah gl gh : 1 <= al <= ah -> 1 <= gl <= gh ->
  Rmin4 (al * gl) (al * gh) (ah * gl) (ah * gh) = al * gl /\ Rmax4 (al * gl) (al * gh) (ah * gl) (ah * gh) = ah * gh.
Proof.
  intros Ha Hg. assert (al * gl <= al * gh) by nra. assert (al * gl <= ah * gl) by nra.
  assert (al * gh <= ah * gh) by nra. assert (ah * gl <= ah * gh) by nra. unfold Rmin4, Rmax4. split.
  - rewrite (Rmin_left (al * gl)) by assumption. rewrite (Rmin_left (ah * gl)) by assumption. apply Rmin_left; assumption.
  - rewrite (Rmax_right (al * gl)) by assumption. rewrite (Rmax_right (ah * gl)) by assumption. apply Rmax_right; assumption.
Qed.

Lemma step_near k am gm am' gm' : (2 <= k)%nat -> big k am -> big k gm ->
  dfi_div_int (dfi_add am gm) 2 = Ret am' -> dfi_sqrt (dfi_mul am gm) = Ret gm' ->
  let u := / 2 ^ k in let A := (L am + L gm) / 2 in let G := R_sqrt.sqrt (L am * L gm) in
  big k am' /\ big k gm' /\
  A - u <= L am' <= A /\ G - 2 * u <= L gm' <= G /\
  U am' <= (U am + U gm) / 2 + u /\ U gm' <= R_sqrt.sqrt (U am * U gm) + 2 * u.
Proof.
  intros Hk Ba Bg E1 E2; cbv zeta.
  destruct (agm_step k am gm (big_good _ _ Ba) (big_good _ _ Bg)) as (a1 & g1 & F1 & F2 & (Ka & Oa & _) & (Kg & Og & _) & _).
  rewrite E1 in F1. rewrite E2 in F2. injection F1 as <-. injection F2 as <-.
  destruct Ba as (La & OKa & Aa). destruct Bg as (Lg & OKg & Ag).
  pose proof (ulp_small k Hk) as [u0 u1].
  assert (UA : L am <= U am) by (apply dyadic_le; exact OKa).
  assert (UG : L gm <= U gm) by (apply dyadic_le; exact OKg).
  destruct (dfi_add_bounds am gm) as (Ls & Sl & Su). rewrite La, Lg, Nat.max_id in Ls.
  fold (L am) (L gm) in Sl. fold (U am) (U gm) in Su.
  assert (Os : dfi_ok (dfi_add am gm)).
  { apply dyadic_le with (dlog (dfi_add am gm)). rewrite Sl, Su. lra. }
  pose proof (dfi_div_int_tight _ _ _ Os E1) as T1. cbv zeta in T1. rewrite Sl, Su, Ls in T1.
  rewrite Rmin_left, Rmax_right in T1 by lra.
  pose proof (dfi_mul_tight am gm) as TM. cbv zeta in TM. fold (L am) (L gm) (U am) (U gm) in TM.
  rewrite La, Lg, Nat.max_id in TM.
  destruct (prod4 (L am) (U am) (L gm) (U gm)) as [-> ->] in TM; [lra|lra|].
  pose proof (tightest_one _ _ _ _ TM ltac:(nra)) as M1.
  pose proof (near_LU _ _ _ _ TM) as [NM1 NM2]. destruct TM as (Em & _).
  set (P := dfi_mul am gm) in *.
  assert (OP : dfi_ok P).
  { apply dyadic_le with (dlog P). fold (L P) (U P). assert (L am * L gm <= U am * U gm) by nra. unfold L, U in *. lra. }
  destruct (dfi_sqrt_ok _ OP) as [_ H]. destruct H as (g & Eg & TG).
  { apply lo_nonneg_iff. fold (L P). lra. }
  rewrite E2 in Eg. injection Eg as <-. fold (L P) (U P) in TG. rewrite Em in TG.
  assert (SP : 1 <= R_sqrt.sqrt (L P)) by (rewrite <- sqrt_1; apply sqrt_le_1_alt; lra).
  pose proof (tightest_one _ _ _ _ T1 ltac:(lra)) as X1.
  pose proof (tightest_one _ _ _ _ TG SP) as X2.
  apply near_LU in T1. apply near_LU in TG.
  assert (D1 : 1 <= L am * L gm) by nra. assert (D2 : 1 <= U am * U gm) by nra.
  pose proof (sqrt_down (L am * L gm) (L P) (/ 2 ^ k) u0 ltac:(lra) D1 M1 ltac:(lra)) as Q1.
  assert (Q2 : R_sqrt.sqrt (L P) <= R_sqrt.sqrt (L am * L gm)) by (apply sqrt_le_1_alt; lra).
  pose proof (sqrt_up (U am * U gm) (U P) (/ 2 ^ k) u0 ltac:(lra) D2 ltac:(lra)) as Q3.
  split; [split; [exact Ka|split; [exact Oa|exact X1]]|].
  split; [split; [exact Kg|split; [exact Og|exact X2]]|].
  lra.
Qed.

(** One step keeps the relative widths and shrinks the hull. *)
Definition hull (a b : dfi) : R := Rmax (U a) (U b) - Rmin (L a) (L b).

Lemma ratio_keep rho u A l h e : 0 < u <= / 4 -> 1 <= rho -> 1 <= A -> 0 <= e <= 2 * u ->
  A - e <= l -> h <= rho * A + e -> h <= rho * (1 + 8 * u) * l.
Proof.
  intros Hu Hr HA He Hl Hh.
  assert (S1 : rho * A + e <= rho * (1 + 8 * u) * (A - e)).
  { assert (e <= 8 * u * A - e - 8 * u * e) by nra. nra. }
  assert (0 <= rho * (1 + 8 * u)) by nra. nra.
Qed.

Lemma sqrt_ratio al ah gl gh rho : 1 <= al <= ah -> 1 <= gl <= gh -> 1 <= rho ->
  ah <= rho * al -> gh <= rho * gl -> R_sqrt.sqrt (ah * gh) <= rho * R_sqrt.sqrt (al * gl).
Proof.
  intros Ha Hg Hr H1 H2.
  replace (rho * R_sqrt.sqrt (al * gl)) with (R_sqrt.sqrt ((rho * al) * (rho * gl))).
  - apply sqrt_le_1_alt. apply Rmult_le_compat; lra.
  - replace (rho * al * (rho * gl)) with (rho * rho * (al * gl)) by ring.
    rewrite sqrt_mult; [rewrite sqrt_square by lra; reflexivity|nra|nra].
Qed.

Lemma sqrt_in x y : 1 <= x -> 1 <= y -> Rmin x y <= R_sqrt.sqrt (x * y) <= Rmax x y.
Proof.
  intros Hx Hy. destruct (Rle_dec x y) as [H|H].
  - rewrite Rmin_left, Rmax_right by lra. apply sqrt_between; lra.
  - rewrite Rmin_right, Rmax_left by lra. rewrite Rmult_comm. apply sqrt_between; lra.
Qed.

Lemma step_shrinks k am gm am' gm' rho M : (2 <= k)%nat -> big k am -> big k gm ->
  dfi_div_int (dfi_add am gm) 2 = Ret am' -> dfi_sqrt (dfi_mul am gm) = Ret gm' ->
  1 <= rho <= 3 / 2 -> U am <= rho * L am -> U gm <= rho * L gm -> L am <= M -> L gm <= M ->
  let u := / 2 ^ k in
  big k am' /\ big k gm' /\
  U am' <= rho * (1 + 8 * u) * L am' /\ U gm' <= rho * (1 + 8 * u) * L gm' /\ L am' <= M /\ L gm' <= M /\
  hull am' gm' <= 3 / 4 * hull am gm + ((rho - 1) * M + 4 * u).
Proof.
  intros Hk Ba Bg E1 E2 Hr Ra Rg Ma Mg; cbv zeta.
  destruct (step_near k am gm am' gm' Hk Ba Bg E1 E2) as (Ba' & Bg' & A1 & G1 & A2 & G2).
  pose proof (ulp_small k Hk) as Hu. set (u := / 2 ^ k) in *. clearbody u.
  assert (UA : L am <= U am) by (destruct Ba as (_ & O & _); apply dyadic_le; exact O).
  assert (UG : L gm <= U gm) by (destruct Bg as (_ & O & _); apply dyadic_le; exact O).
  assert (LA : 1 <= L am) by (apply Ba). assert (LG : 1 <= L gm) by (apply Bg).
  pose proof (sqrt_ratio (L am) (U am) (L gm) (U gm) rho ltac:(lra) ltac:(lra) ltac:(lra) Ra Rg) as SR.
  pose proof (sqrt_in (L am) (L gm) LA LG) as SL.
  pose proof (amgm (U am) (U gm) ltac:(lra) ltac:(lra)) as AG.
  set (G := R_sqrt.sqrt (L am * L gm)) in *. set (Gu := R_sqrt.sqrt (U am * U gm)) in *. clearbody G Gu.
  assert (G0 : 1 <= G). { apply Rle_trans with (2 := proj1 SL). apply Rmin_glb; assumption. }
  assert (GM : G <= M). { apply Rle_trans with (1 := proj2 SL). apply Rmax_lub; assumption. }
  split; [exact Ba'|]. split; [exact Bg'|].
  split. { apply (ratio_keep rho u ((L am + L gm) / 2) (L am') (U am') u); try lra. }
  split. { apply (ratio_keep rho u G (L gm') (U gm') (2 * u)); lra. }
  split; [lra|]. split; [lra|].
  unfold hull.
  assert (HU : Rmax (U am') (U gm') <= (U am + U gm) / 2 + 2 * u) by (apply Rmax_lub; lra).
  assert (HL : Rmin (L am) (L gm) - 2 * u <= Rmin (L am') (L gm')).
  { pose proof (Rmin_l (L am) (L gm)). pose proof (Rmin_r (L am) (L gm)). apply Rmin_glb; lra. }
  pose proof (Rmax_l (U am) (U gm)). pose proof (Rmax_r (U am) (U gm)).
  clear E1 E2 Ba Bg Ba' Bg' A1 G1 A2 G2 SR SL AG Hk.
  assert (N : (U am + U gm) / 2 <= rho * ((L am + L gm) / 2)) by lra.
  destruct (Rle_dec (L am) (L gm)) as [C|C].
  - rewrite (Rmin_left (L am) (L gm) C) in *.
    assert (D : L gm - L am <= Rmax (U am) (U gm) - L am) by lra.
    set (X := Rmax (U am) (U gm)) in *.
    assert (rho * ((L am + L gm) / 2) = L am + (rho - 1) * L am + rho / 2 * (L gm - L am)) as E by field.
    assert (rho / 2 * (L gm - L am) <= 3 / 4 * (X - L am)) by nra.
    assert ((rho - 1) * L am <= (rho - 1) * M) by nra. lra.
  - assert (C' : L gm <= L am) by lra. rewrite (Rmin_right (L am) (L gm) C') in *.
    assert (D : L am - L gm <= Rmax (U am) (U gm) - L gm) by lra.
    set (X := Rmax (U am) (U gm)) in *.
    assert (rho * ((L am + L gm) / 2) = L gm + (rho - 1) * L gm + rho / 2 * (L am - L gm)) as E by field.
    assert (rho / 2 * (L am - L gm) <= 3 / 4 * (X - L gm)) by nra.
    assert ((rho - 1) * L gm <= (rho - 1) * M) by nra. lra.
Qed.

Lemma union_LU k a b : dlog a = k -> dlog b = k ->
  dlog (dfi_union a b) = k /\ U (dfi_union a b) - L (dfi_union a b) = hull a b.
Proof.
  intros Ha Hb. destruct (dfi_union_bounds a b) as (E & E1 & E2). split.
  - rewrite E, Ha, Hb. apply Nat.max_id.
  - unfold L, U, hull. rewrite E1, E2. reflexivity.
Qed.

Lemma range_le k a b : dlog a = k -> dlog b = k -> (dhi a - dlo a <= dhi b - dlo b)%Z <-> U a - L a <= U b - L b.
Proof.
  intros Ha Hb. unfold U, L. rewrite Ha, Hb.
  assert (S : forall i, dyadic (dhi i) k - dyadic (dlo i) k = dyadic (dhi i - dlo i) k).
  { intros i. unfold dyadic. rewrite minus_IZR. unfold Rdiv; ring. }
  rewrite !S. symmetry. apply dyadic_le.
Qed.

Lemma loop_mono k fuel : forall result am gm r, dlog result = k -> dlog am = k -> dlog gm = k ->
  good k am -> good k gm ->
  agm_loop fuel result am gm (dfi_union am gm) = Ret r -> U r - L r <= U result - L result.
Proof.
  induction fuel as [|fuel IH]; intros result am gm r Kr Ka Kg Ga Gg; cbn [agm_loop];
    destruct (Z.ltb_spec (dhi (dfi_union am gm) - dlo (dfi_union am gm)) (dhi result - dlo result)) as [H|H].
  - discriminate.
  - intros R; injection R as <-; lra.
  - destruct (agm_step k am gm Ga Gg) as (am' & gm' & E1 & E2 & Ga' & Gg' & _).
    rewrite E1; cbn [rbind]; rewrite E2; cbn [rbind]. intros R.
    destruct (union_LU k am gm Ka Kg) as [Ku _].
    apply IH in R; [|exact Ku|apply Ga'|apply Gg'|exact Ga'|exact Gg'].
    assert (H' : (dhi (dfi_union am gm) - dlo (dfi_union am gm) <= dhi result - dlo result)%Z) by lia.
    apply (range_le k) in H'; [lra|exact Ku|exact Kr].
  - intros R; injection R as <-; lra.
Qed.

Lemma loop_near k M P : (2 <= k)%nat -> P <= 3 / 2 -> forall fuel m rho result am gm r X,
  let u := / 2 ^ k in let E := (P - 1) * M + 4 * u in
  dlog result = k -> big k am -> big k gm -> 1 <= rho -> rho * (1 + 8 * u) ^ m <= P ->
  U am <= rho * L am -> U gm <= rho * L gm -> L am <= M -> L gm <= M ->
  hull am gm <= 3 / 4 * (U result - L result) + E ->
  0 <= X -> U result - L result - 4 * E <= X ->
  agm_loop fuel result am gm (dfi_union am gm) = Ret r ->
  U r - L r <= (3 / 4) ^ S m * X + 4 * E.
Proof.
  intros Hk HP. cbv zeta. pose proof (ulp_small k Hk) as Hu. set (u := / 2 ^ k) in *.
  set (E := (P - 1) * M + 4 * u).
  induction fuel as [|fuel IH]; intros m rho result am gm r X Kr Ba Bg Hr Hrho Ra Rg Ma Mg Hh HX0 HX; cbn [agm_loop];
    destruct (union_LU k am gm (proj1 Ba) (proj1 Bg)) as [Ku Wu];
    destruct (Z.ltb_spec (dhi (dfi_union am gm) - dlo (dfi_union am gm)) (dhi result - dlo result)) as [H|H].
  - discriminate.
  - intros R. injection R as <-. apply (range_le k) in H; [|exact Kr|exact Ku]. rewrite Wu in H.
    assert (0 <= (3 / 4) ^ S m * X) by (apply Rmult_le_pos; [apply pow_le; lra|exact HX0]). lra.
  - destruct (dfi_div_int (dfi_add am gm) 2) as [am'| |] eqn:E1; cbn [rbind]; try discriminate.
    destruct (dfi_sqrt (dfi_mul am gm)) as [gm'| |] eqn:E2; cbn [rbind]; try discriminate.
    intros R.
    assert (HX' : U (dfi_union am gm) - L (dfi_union am gm) - 4 * E <= 3 / 4 * X) by (rewrite Wu; lra).
    assert (P1 : forall n, 1 <= (1 + 8 * u) ^ n) by (intros n; apply pow_R1_Rle; lra).
    assert (RP : rho <= P).
    { pose proof (P1 m) as Q. apply Rle_trans with (2 := Hrho). nra. }
    assert (M0 : 1 <= M) by (destruct Ba as (_ & _ & Q); lra).
    destruct (step_shrinks k am gm am' gm' rho M Hk Ba Bg E1 E2 ltac:(lra) Ra Rg Ma Mg)
      as (Ba' & Bg' & Ra' & Rg' & Ma' & Mg' & Sh). fold u in Ra', Rg', Sh.
    destruct m as [|m].
    + (* enough steps are made: the width does not grow any more *)
      pose proof (loop_mono k fuel _ _ _ _ Ku (proj1 Ba') (proj1 Bg') (big_good _ _ Ba') (big_good _ _ Bg') R) as W.
      cbn [pow]. lra.
    + assert (Hm : rho * (1 + 8 * u) * (1 + 8 * u) ^ m <= P).
      { replace (rho * (1 + 8 * u) * (1 + 8 * u) ^ m) with (rho * (1 + 8 * u) ^ S m) by (cbn [pow]; ring). exact Hrho. }
      pose proof (IH m (rho * (1 + 8 * u)) (dfi_union am gm) am' gm' r (3 / 4 * X) Ku Ba' Bg' ltac:(nra) Hm Ra' Rg' Ma' Mg') as B.
      assert (B1 : hull am' gm' <= 3 / 4 * (U (dfi_union am gm) - L (dfi_union am gm)) + E).
      { rewrite Wu. assert ((rho - 1) * M <= (P - 1) * M) by (apply Rmult_le_compat_r; lra). unfold E. lra. }
      specialize (B B1 ltac:(lra) HX' R).
      replace ((3 / 4) ^ S (S m) * X) with ((3 / 4) ^ S m * (3 / 4 * X)) by (cbn [pow]; ring). exact B.
  - intros R. injection R as <-. apply (range_le k) in H; [|exact Kr|exact Ku]. rewrite Wu in H.
    assert (0 <= (3 / 4) ^ S m * X) by (apply Rmult_le_pos; [apply pow_le; lra|exact HX0]). lra.
Qed.

Lemma agm_convert a b : let n := Nat.max (dlog a) (dlog b) in (0 <= dlo a)%Z -> (0 <= dlo b)%Z ->
  dfi_agm a b = dfi_agm (dfi_convert a n) (dfi_convert b n).
Proof.
  cbv zeta. set (n := Nat.max (dlog a) (dlog b)). intros Na Nb.
  set (a' := dfi_convert a n). set (b' := dfi_convert b n).
  assert (Na' : (0 <= dlo a')%Z).
  { apply lo_nonneg_iff. change (dlog a') with n. unfold a'.
    rewrite (proj1 (dfi_convert_up_exact a n ltac:(unfold n; lia))). apply lo_nonneg_iff; assumption. }
  assert (Nb' : (0 <= dlo b')%Z).
  { apply lo_nonneg_iff. change (dlog b') with n. unfold b'.
    rewrite (proj1 (dfi_convert_up_exact b n ltac:(unfold n; lia))). apply lo_nonneg_iff; assumption. }
  assert (OP : forall op, do_op op a b = do_op op a' b').
  { intros op. unfold do_op, a', b', dfi_convert, convert_log2_denom_floor, convert_log2_denom_ceil; cbn [dlo dhi dlog].
    rewrite Nat.leb_refl, Nat.sub_diag. unfold n.
    destruct (Nat.leb_spec (dlog a) (dlog b)) as [Le|Le].
    - rewrite Nat.max_r by assumption. apply Nat.leb_le in Le as L'. rewrite L', Nat.leb_refl, Nat.sub_diag.
      unfold shl. rewrite !Z.shiftl_0_r. reflexivity.
    - rewrite Nat.max_l by lia. rewrite Nat.leb_refl, Nat.sub_diag.
      replace (dlog b <=? dlog a)%nat with true by (symmetry; apply Nat.leb_le; lia).
      unfold shl. rewrite !Z.shiftl_0_r. reflexivity. }
  assert (EU : dfi_union a b = dfi_union a' b') by apply OP.
  assert (EA : dfi_add a b = dfi_add a' b') by apply OP.
  assert (EM : dfi_mul a b = dfi_mul a' b') by apply OP.
  unfold dfi_agm. rewrite EU, EA, EM.
  destruct (Z.ltb_spec (dlo a) 0); [lia|]. destruct (Z.ltb_spec (dlo b) 0); [lia|].
  destruct (Z.ltb_spec (dlo a') 0); [lia|]. destruct (Z.ltb_spec (dlo b') 0); [lia|]. reflexivity.
Qed.

Lemma big_near k a b r rho M m : (2 <= k)%nat -> big k a -> big k b -> 1 <= rho ->
  U a <= rho * L a -> U b <= rho * L b -> L a <= M -> L b <= M ->
  rho * (1 + 8 * / 2 ^ k) ^ m <= 3 / 2 -> dfi_agm a b = Ret r ->
  U r - L r <= (3 / 4) ^ m * hull a b + 4 * ((rho * (1 + 8 * / 2 ^ k) ^ m - 1) * M + 4 * / 2 ^ k).
Proof.
  intros Hk Ba Bb Hr Ra Rb Ma Mb HP R.
  pose proof (ulp_small k Hk) as Hu. set (u := / 2 ^ k) in *.
  assert (P1 : forall n, 1 <= (1 + 8 * u) ^ n) by (intros n; apply pow_R1_Rle; lra).
  assert (LA : 1 <= L a) by (apply Ba).
  assert (UA : L a <= U a) by (destruct Ba as (_ & O & _); apply dyadic_le; exact O).
  assert (H0 : 0 <= hull a b).
  { unfold hull. pose proof (Rmax_l (U a) (U b)). pose proof (Rmin_l (L a) (L b)). lra. }
  unfold dfi_agm in R.
  destruct (big_good _ _ Ba) as (_ & _ & N1). destruct (big_good _ _ Bb) as (_ & _ & N2).
  destruct (Z.ltb_spec (dlo a) 0); [lia|]. destruct (Z.ltb_spec (dlo b) 0); [lia|]. cbn [negb assert_then] in R.
  destruct (dfi_div_int (dfi_add a b) 2) as [am| |] eqn:E1; cbn [rbind] in R; try discriminate.
  destruct (dfi_sqrt (dfi_mul a b)) as [gm| |] eqn:E2; cbn [rbind] in R; try discriminate.
  destruct (union_LU k a b (proj1 Ba) (proj1 Bb)) as [Ku Wu].
  assert (RB : rho <= rho * (1 + 8 * u) ^ m) by (pose proof (P1 m); nra).
  destruct (step_shrinks k a b am gm rho M Hk Ba Bb E1 E2 ltac:(lra) Ra Rb Ma Mb)
    as (Bam & Bgm & Ram & Rgm & Mam & Mgm & Sh). fold u in Ram, Rgm, Sh.
  destruct m as [|m].
  - apply (loop_mono k) in R; [|exact Ku|apply Bam|apply Bgm|apply big_good; exact Bam|apply big_good; exact Bgm].
    cbn [pow]. assert (0 <= (rho * 1 - 1) * M) by nra. lra.
  - set (P := rho * (1 + 8 * u) ^ S m) in *.
    set (E := (P - 1) * M + 4 * u).
    assert (E0 : 0 <= E). { unfold E. assert (0 <= (P - 1) * M) by nra. lra. }
    pose proof (loop_near k M P Hk HP (Z.to_nat (dhi (dfi_union a b) - dlo (dfi_union a b))) m (rho * (1 + 8 * u)) (dfi_union a b) am gm r (hull a b)) as B.
    cbv zeta in B. fold u in B. fold E in B.
    apply B; try assumption.
    + nra.
    + unfold P. cbn [pow]. lra.
    + rewrite Wu. assert ((rho - 1) * M <= (P - 1) * M) by nra. unfold E. lra.
    + rewrite Wu. lra.
Qed.

Lemma agm_near a b r k rho M m : dfi_ok a -> dfi_ok b ->
  let al := dyadic (dlo a) (dlog a) in let ah := dyadic (dhi a) (dlog a) in
  let bl := dyadic (dlo b) (dlog b) in let bh := dyadic (dhi b) (dlog b) in
  k = Nat.max (dlog a) (dlog b) -> (2 <= k)%nat ->
  1 <= al <= M -> 1 <= bl <= M -> 1 <= rho -> ah <= rho * al -> bh <= rho * bl ->
  let growth := rho * (1 + 8 / 2 ^ k) ^ m in growth <= 3 / 2 ->
  dfi_agm a b = Ret r ->
  dyadic (dhi r) (dlog r) - dyadic (dlo r) (dlog r) <=
    (3 / 4) ^ m * (Rmax ah bh - Rmin al bl) + 4 * ((growth - 1) * M + 4 / 2 ^ k).
Proof.
  intros Oa Ob al ah bl bh -> Hk Ha Hb Hr Ra Rb growth HG R.
  assert (Na : (0 <= dlo a)%Z) by (apply lo_nonneg_iff; fold al; lra).
  assert (Nb : (0 <= dlo b)%Z) by (apply lo_nonneg_iff; fold bl; lra).
  rewrite agm_convert in R by assumption. set (k := Nat.max (dlog a) (dlog b)) in *.
  destruct (dfi_convert_up_exact a k ltac:(unfold k; lia)) as [A1 A2].
  destruct (dfi_convert_up_exact b k ltac:(unfold k; lia)) as [B1 B2].
  assert (LA : L (dfi_convert a k) = al) by exact A1. assert (UA : U (dfi_convert a k) = ah) by exact A2.
  assert (LB : L (dfi_convert b k) = bl) by exact B1. assert (UB : U (dfi_convert b k) = bh) by exact B2.
  assert (Ba : big k (dfi_convert a k)).
  { split; [reflexivity|]. split; [|rewrite LA; lra].
    destruct (dfi_ok_mem _ Oa) as [Mm _]. eapply inI_ok, dfi_convert_in, Mm. }
  assert (Bb : big k (dfi_convert b k)).
  { split; [reflexivity|]. split; [|rewrite LB; lra].
    destruct (dfi_ok_mem _ Ob) as [Mm _]. eapply inI_ok, dfi_convert_in, Mm. }
  pose proof (big_near k _ _ r rho M m Hk Ba Bb Hr) as B. unfold hull in B. rewrite LA, UA, LB, UB in B.
  exact (B Ra Rb (proj2 Ha) (proj2 Hb) HG R).
Qed.

Lemma growth_bound v n : 0 <= v -> 2 * INR n * v <= 1 -> (1 + v) ^ n <= 1 + 2 * INR n * v.
Proof.
  intros Hv. induction n as [|n IH]; intros H; [cbn [pow INR]; lra|].
  rewrite S_INR in *. pose proof (pos_INR n). cbn [pow].
  assert (K : 2 * INR n * v <= 1) by nra. specialize (IH K).
  apply Rle_trans with ((1 + v) * (1 + 2 * INR n * v)); [apply Rmult_le_compat_l; lra|].
  assert (N : 2 * INR n * v * v <= 1 * v) by (apply Rmult_le_compat_r; lra). lra.
Qed.

Lemma three_quarters k : (3 / 4) ^ (3 * k) <= / 2 ^ k.
Proof.
  rewrite pow_mult, <- pow_inv by lra. apply pow_incr. lra.
Qed.

Lemma pow_2_k k : (10 <= k)%nat -> 96 * INR k <= 2 ^ k.
Proof.
  induction 1 as [|k H IH]; [cbn [INR pow]; lra|].
  rewrite S_INR. cbn [pow]. assert (1 <= INR k) by (apply (le_INR 1); lia). lra.
Qed.

(** The mean of two exactly given numbers. *)
Lemma agm_points m n k M r : (10 <= k)%nat ->
  1 <= dyadic m k <= M -> 1 <= dyadic n k <= M -> dfi_agm (DFI m m k) (DFI n n k) = Ret r ->
  dyadic (dhi r) (dlog r) - dyadic (dlo r) (dlog r) <= 200 * INR k * M / 2 ^ k.
Proof.
  intros Hk Hm Hn R.
  pose proof (p2_pos k) as P. pose proof (pow_2_k k Hk) as Q.
  assert (K10 : 10 <= INR k) by (apply (le_INR 10) in Hk; cbn [INR] in Hk; lra).
  set (u := / 2 ^ k).
  assert (u0 : 0 < u) by (apply Rinv_0_lt_compat; exact P).
  assert (Ku : 96 * INR k * u <= 1).
  { unfold u. apply Rmult_le_reg_r with (2 ^ k); [exact P|]. rewrite Rmult_assoc, Rinv_l by lra. lra. }
  pose proof (growth_bound (8 * u) (3 * k) ltac:(lra)) as G. rewrite mult_INR in G. cbn [INR] in G.
  specialize (G ltac:(lra)).
  pose proof (agm_near (DFI m m k) (DFI n n k) r k 1 M (3 * k)) as B. cbv zeta in B. cbn [dlo dhi dlog] in B.
  replace (8 / 2 ^ k) with (8 * u) in B by reflexivity. replace (4 / 2 ^ k) with (4 * u) in B by reflexivity.
  specialize (B (Z.le_refl m) (Z.le_refl n) (eq_sym (Nat.max_id k)) ltac:(lia) Hm Hn (Rle_refl 1) ltac:(lra) ltac:(lra)).
  specialize (B ltac:(lra) R).
  pose proof (three_quarters k) as T. fold u in T.
  assert (W : Rmax (dyadic m k) (dyadic n k) - Rmin (dyadic m k) (dyadic n k) <= M).
  { assert (Rmax (dyadic m k) (dyadic n k) <= M) by (apply Rmax_lub; lra).
    assert (1 <= Rmin (dyadic m k) (dyadic n k)) by (apply Rmin_glb; lra). lra. }
  assert (W0 : 0 <= Rmax (dyadic m k) (dyadic n k) - Rmin (dyadic m k) (dyadic n k)).
  { pose proof (Rmax_l (dyadic m k) (dyadic n k)). pose proof (Rmin_l (dyadic m k) (dyadic n k)). lra. }
  set (W' := Rmax _ _ - _) in *.
  assert (T1 : (3 / 4) ^ (3 * k) * W' <= u * M).
  { apply Rmult_le_compat; try assumption. apply pow_le; lra. }
  set (g := (1 + 8 * u) ^ (3 * k)) in *.
  assert (G1 : (1 * g - 1) * M <= 48 * INR k * u * M).
  { apply Rmult_le_compat_r; [lra|]. lra. }
  replace (200 * INR k * M / 2 ^ k) with (200 * INR k * M * u) by reflexivity.
  assert (UM : 0 <= u * M) by (apply Rmult_le_pos; lra).
  assert (10 * (u * M) <= INR k * (u * M)) by (apply Rmult_le_compat_r; assumption).
  assert (u <= u * M) by nra. lra.
Qed.
