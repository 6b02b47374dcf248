(** Reciprocals and logarithms to base 2. *)
From Coq Require Import ZArith QArith Qreals Qround Reals Lia Lra.
From Coq Require Qcanon.
Set Warnings "-notation-overridden,-ambiguous-paths".
From mathcomp Require Import all_ssreflect all_algebra.
From mathcomp.zify Require Import ssrZ.
From Verif Require Import M_Base M_Traits M_Util M_Interval M_Poly M_PolyCoef P_PolyInst M_PolyAlg M_Factor M_Alg
  S_Poly S_PolyAlg S_Factor S_Interval P_Traits P_Interval P_IntervalTight P_Poly P_PolyAlgInst P_PolyAlgRef P_Rstruct S_Alg P_AlgBase P_AlgShrink
  P_AlgBasic P_AlgSign P_AlgNeg.
Set Implicit Arguments.
Unset Strict Implicit.
Unset Printing Implicit Defensive.
Import Order.TTheory GRing.Theory Num.Theory.
Delimit Scope Z_scope with ZZ.
Delimit Scope R_scope with RR.
Delimit Scope Q_scope with QQ.
Local Open Scope ring_scope.
Local Notation Rt p := (root (real_poly p)).
Local Notation PV p := (pval int_sem p).

(** * Reversed polynomials *)
Section Rev.
Variable F : fieldType.
Implicit Types p q : {poly F}.
Definition revp n p : {poly F} := \poly_(i < n.+1) p`_(n - i).
Lemma revpE n p (y : F) : (size p <= n.+1)%N -> y != 0 -> (revp n p).[y] = y ^+ n * p.[y^-1].
Proof.
move=> sp y0; rewrite horner_poly (horner_coef_wide _ sp) mulr_sumr (reindex_inj rev_ord_inj) /=.
apply: eq_bigr => i _; rewrite subSS subKn; last by rewrite -ltnS.
have hi : (i <= n)%N by rewrite -ltnS.
have e : y ^+ n = y ^+ (n - i) * y ^+ i by rewrite -exprD subnK.
by rewrite mulrCA exprVn e mulfK ?expf_neq0.
Qed.
Lemma revpK n p : (size p <= n.+1)%N -> revp n (revp n p) = p.
Proof.
move=> sp; apply/polyP => i; rewrite !coef_poly; case: ltnP => hi; last first.
  by rewrite nth_default // (leq_trans sp).
by rewrite ltnS leq_subr subKn.
Qed.
Lemma size_revp n p : p`_0 != 0 -> size (revp n p) = n.+1.
Proof. by move=> p0; rewrite size_poly_eq //= subnn. Qed.
End Rev.
Lemma poly_ext (F : numFieldType) (p q : {poly F}) : (forall y, y != 0 -> p.[y] = q.[y]) -> p = q.
Proof.
move=> h; apply/eqP; rewrite -subr_eq0; apply/negPn/negP => d0.
have := max_poly_roots d0 (rs := [seq k.+1%:R | k <- iota 0 (size (p - q))]).
rewrite size_map size_iota ltnn; move=> /(_ _ _) H; suff : false by []; apply: H.
- apply/allP => _ /mapP [k _ ->]; rewrite /root hornerD hornerN h ?subrr //.
  by rewrite pnatr_eq0.
- rewrite map_inj_uniq ?iota_uniq // => k l /eqP; rewrite eqr_nat eqSS => /eqP //.
Qed.
Lemma revpM (F : numFieldType) n m (p q : {poly F}) : (size p <= n.+1)%N -> (size q <= m.+1)%N ->
  revp (n + m) (p * q) = revp n p * revp m q.
Proof.
move=> sp sq; apply: poly_ext => y y0; rewrite hornerM !revpE //; last first.
  apply: leq_trans (size_mul_leq _ _) _; move: (leq_add sp sq); rewrite addSn addnS.
  by case: (size p + size q)%N.
by rewrite hornerM exprD mulrACA.
Qed.
Lemma irr_rev (F : numFieldType) n (p : {poly F}) : p`_0 != 0 -> size p = n.+1 -> irreducible_poly p -> irreducible_poly (revp n p).
Proof.
move=> p0 sp [s1 irr]; have sr := size_revp n p0; split=> [|q sq dq]; first by rewrite sr -sp.
have r0 : revp n p != 0 by rewrite -size_poly_eq0 sr.
rewrite -dvdp_size_eqp // sr -sp; case/dvdpP: dq => r e.
have [rn0 qn0] : r != 0 /\ q != 0 by apply/andP; rewrite -negb_or -mulf_eq0 -e.
have sz : n = ((size r).-1 + (size q).-1)%N.
  have := sr; rewrite e size_mul // -{1}(prednK (n := size r)) ?size_poly_gt0 // addSn /= -{1}(prednK (n := size q)) ?size_poly_gt0 // addnS => -[->] //.
have c0 : r`_0 * q`_0 != 0.
  rewrite -!horner_coef0 -hornerM -e horner_coef0 coef_poly /= subn0; have := lead_coef_eq0 p; rewrite lead_coefE sp /= => ->.
  by rewrite -size_poly_eq0 sp.
have [rc qc] : r`_0 != 0 /\ q`_0 != 0 by move: c0; rewrite mulf_eq0 negb_or => /andP.
have ep : p = revp (size r).-1 r * revp (size q).-1 q.
  rewrite -revpM; [|by rewrite prednK ?size_poly_gt0..].
  by rewrite -e -sz revpK // sp.
have dq : revp (size q).-1 q %| p by rewrite [p]ep dvdp_mull.
have := irr _ _ dq; rewrite size_revp // prednK ?size_poly_gt0 // => /(_ sq) /eqp_size.
by rewrite size_revp // prednK ?size_poly_gt0 // => ->.
Qed.

(** * The polynomial of the reciprocal *)
Section RecipPoly.
Variable p : zpoly.
Hypothesis (w : wf int_sem p) (p0 : PV p != 0).
Let P := PV p.
Let n := (size P).-1.
Let r : zpoly := from_iterator (K := int_coef) (rev (coefficients p)).
Lemma rev_wf : wf int_sem r.  Proof. exact: (from_iterator_spec int_sem _).1. Qed.
Lemma sizeP : size P = n.+1.  Proof. by rewrite prednK // size_poly_gt0. Qed.
Lemma rev_val : PV r = \poly_(i < n.+1) P`_(n - i).
Proof.
rewrite (from_iterator_spec int_sem _).2; apply/polyP => i; rewrite coef_Poly coef_poly map_rev.
have e : map (vc int_sem) (coefficients p) = P :> seq int by rewrite (vcoefs int_sem) -pval_seq.
rewrite e; case: ltnP => h; last by rewrite nth_default // size_rev sizeP.
by rewrite nth_rev ?sizeP // subSS.
Qed.
Lemma rev_map (F : fieldType) (f : {rmorphism int -> F}) : map_poly f (PV r) = revp n (map_poly f P).
Proof. by rewrite rev_val; apply/polyP => i; rewrite coef_map coef_poly [RHS]coef_poly coef_map; case: ifP => // _; exact: rmorph0. Qed.
Lemma rev_size : P`_0 != 0 -> size (PV r) = size P.
Proof. by move=> c0; rewrite rev_val size_poly_eq ?sizeP //= subnn. Qed.
Lemma rev_irr : P`_0 != 0 -> irreducible_over_Q P -> irreducible_over_Q (PV r).
Proof.
move=> c0; rewrite /irreducible_over_Q rev_map; apply: irr_rev; last by rewrite size_intr sizeP.
by rewrite coef_map /= intr_eq0.
Qed.
Lemma rev_root (x : R) : x != 0 -> Rt r (x^-1) = Rt p x.
Proof.
move=> x0; rewrite /real_poly rev_map /root revpE ?invr_eq0 ?invrK //.
  by rewrite mulf_eq0 expf_eq0 invr_eq0 (negbTE x0) andbF.
by rewrite -/(real_poly p) size_real -/P sizeP.
Qed.
End RecipPoly.

Local Open Scope R_scope.
(** * Moving the interval away from zero *)
Lemma contains_zeroE i : dfi_contains_zero i = false -> lo i <= hi i -> 0 < lo i \/ hi i < 0.
Proof.
move=> h le; case: (Rlt_le_dec 0 (lo i)) => h1; [by left|right].
case: (Rlt_le_dec (hi i) 0) => // h2; move: h.
by rewrite (proj2 (contains_zero_spec i) (conj h1 h2)).
Qed.
Lemma away_conv p x s : refines p x s -> x <> 0 ->
  exists s', [/\ eventually (fun f => away_loop f s) s', refines p x s', sh_seq s' = sh_seq s, inside (sh_itv s') (sh_itv s)
    & dfi_contains_zero (sh_itv s') = false].
Proof.
move=> h x0.
have [|||||s' [e h' q' i' d']] := @loop_conv _ away_loop (fun s => ~~ dfi_contains_zero (sh_itv s)) id p x (sh_itv s) (Rabs x) _ _ _ _ s h _.
- exact: Rabs_pos_lt.
- by [].
- by move=> f t _ _ /=; case: dfi_contains_zero.
- move=> t ht _ wt; apply/negP => /contains_zero_spec; rewrite inIE; have := rf_in ht; rewrite inIE.
  by move: wt; rewrite /width => wt [h1 h2] [h3 h4]; move: wt; rewrite /Rabs; case: Rcase_abs; lra.
- exact: inside_refl.
- by exists s'; split=> //; apply: negbTE.
Qed.

Definition sign_of (x : R) (s : Sign) : Prop := match s with Negative => x < 0 | Positive => 0 < x end.
Lemma remove_zero_spec a x : denotes a x ->
  (x = 0 /\ forall f, remove_zero f a = Ret None) \/
  (exists s s', [/\ eventually (fun f => remove_zero f a) (Some (s, s')), refines (mp a) x s', inside (sh_itv s') (itv a),
     dfi_contains_zero (sh_itv s') = false & sign_of x s]).
Proof.
move=> D; rewrite /remove_zero; have [c [-> hc]] := cmp_with_zero_spec D; cbn [rbind].
have ix := den_in D; rewrite inIE in ix; have [l [el sok]] := den_sturm D.
have main i s : inI x i -> inside i (itv a) -> x <> 0 -> sign_of x s ->
  exists s0 s', [/\ eventually (fun f => (t <- shrinker_new (mp a) i ;; t' <- away_loop f t ;; Ret (Some (s, t')))%res) (Some (s0, s')),
     refines (mp a) x s', inside (sh_itv s') (itv a), dfi_contains_zero (sh_itv s') = false & sign_of x s0].
  move=> ii si x0 sx; rewrite /shrinker_new el; cbn [rbind rmap].
  have [||s' [[N e] h' _ i' z']] := @away_conv (mp a) x (shrinker_with (mp a :: l) i) => //.
    apply: refines_new => //; first exact: den_root D.
    by move=> y; rewrite inIE => iy; apply: (den_uniq D); apply/inIE; case: si; lra.
  exists s, s'; split=> //; last exact: inside_trans i' si.
  by exists N => f; rewrite e; case: ifP.
have z0 : dyadic 0 (dlog (itv a)) = 0 := dyadic0 _.
case: c hc => /= hc; [by left|right|right].
- case: Z.ltb_spec => h; last by apply: (main (itv a) Negative) => //; [exact: inside_refl|lra].
  rewrite /dfi_set_upper_bound_to_zero; case: Z.ltb_spec => h1 /=.
    by have := dyadic_lt (dlog (itv a)) h1; rewrite z0 -/(lo _); lra.
  apply: main => //; [|split|lra]; rewrite ?inIE /lo /hi; cbn [dlo dhi dlog]; rewrite ?z0 -?/(lo _) -?/(hi _); try lra.
  by have := dyadic_lt (dlog (itv a)) h; rewrite z0 -/(hi _); lra.
- case: Z.ltb_spec => h; last by apply: (main (itv a) Positive) => //; [exact: inside_refl|lra].
  rewrite /dfi_set_lower_bound_to_zero; case: Z.ltb_spec => h1 /=.
    by have := dyadic_lt (dlog (itv a)) h1; rewrite z0 -/(hi _); lra.
  apply: main => //; [|split|lra]; rewrite ?inIE /lo /hi; cbn [dlo dhi dlog]; rewrite ?z0 -?/(lo _) -?/(hi _); try lra.
  by have := dyadic_lt (dlog (itv a)) h; rewrite z0 -/(lo _); lra.
Qed.

(** * Reciprocal *)
Lemma weakly_strong a x : weakly_denotes a x -> (forall y, inI y (itv a) -> Rt (mp a) y -> y = x) -> denotes a x.
Proof. by case=> h1 h2 h3 h4 h5; split. Qed.

Lemma ratio_new_red n d q : ratio_new n d = Ret q -> Qred q = q.
Proof.
have inj (u v : Q) : Ret (Qred u) = Ret v -> Qred v = v.
  by move=> h; have <- : Qred u = v by [congruence]; apply: Qred_complete; exact: Qred_correct.
by rewrite /ratio_new; case: d => [|d|d] //; exact: inj.
Qed.
Lemma ratio_recip_R q : Qnum q <> 0%ZZ -> exists q', [/\ ratio_recip q = Ret q', Qred q' = q' & Q2R q' = / Q2R q].
Proof.
move=> h; rewrite /ratio_recip; have [q' e] := ratio_new_ret (Zpos (Qden q)) _ h; exists q'; split=> //.
  exact: ratio_new_red e.
have [_ ->] := ratio_new_R _ _ _ e; rewrite /Q2R.
have n0 : IZR (Qnum q) <> 0 by move=> /eq_IZR.
have d0 : 0 < IZR (Zpos (Qden q)) by apply: IZR_lt.
by field; split=> //; lra.
Qed.

Lemma den_root0 a x : denotes a x -> Rt (mp a) 0 -> x = 0.
Proof.
move=> D; have e0 : 0 = Q2R 0 by rewrite /Q2R /= Rmult_0_l.
rewrite e0 root_rat => r0; have s2 := irr_root (den_irr D) r0; rewrite size_intr in s2.
apply: esym; move: r0; rewrite -root_rat -e0 => r0.
have rx := den_root D; have v := lin_value D s2; have p1 := lin_pos D s2.
move: r0; rewrite /root horner_coef0 /real_poly coef_map /= -(coefficient_spec int_sem) intr_zi => /eqP /eq_IZR c0.
by rewrite v c0 /Q2R; cbn [Qnum Qden Z.opp]; rewrite Rmult_0_l.
Qed.

Lemma checked_recip_spec a x : denotes a x ->
  (x = 0 /\ forall f, ra_checked_recip f a = Ret None) \/
  (x <> 0 /\ exists b, [/\ eventually (fun f => ra_checked_recip f a) (Some b), weakly_denotes b (/ x),
     (exists q, x = Q2R q) -> denotes b (/ x) /\ canonical b
   & (forall q, x <> Q2R q) -> exists i, [/\ inI x i, inside i (itv a), ~ inI 0 i & tightest (itv b) (dlog i) (/ hi i) (/ lo i)]]).
Proof.
move=> D; rewrite /ra_checked_recip; case: (to_rational_spec D) => [[q [-> rq xq]]|[-> irr]]; cbn [rbind].
  case: Z.eqb_spec => [e|ne]; first by left; split=> //; rewrite xq /Q2R e Rmult_0_l.
  right; split.
    rewrite xq => e; apply: ne; apply: eq_IZR; have d0 : 0 < IZR (Zpos (Qden q)) by apply: IZR_lt.
    move: e; rewrite /Q2R => /Rmult_integral [//|e]; have := Rinv_0_lt_compat _ d0; lra.
  have [q' [-> r' e']] := ratio_recip_R ne; have [D' C'] := from_ratio_denotes r'.
  rewrite e' -xq in D'; exists (ra_from_ratio q'); split=> //.
  - exact: eventually_const.
  - by case: D' => h1 h2 h3 h4 h5; split.
  - by move=> /(_ q).
have x0 : x <> 0 by move=> e; apply: (irr 0%QQ); rewrite e /Q2R /= Rmult_0_l.
right; split=> //.
case: (remove_zero_spec D) => [[]//|[sg [s' [[N e] h' i' z' _]]]].
have ci : dfi_checked_recip (sh_itv s') = Some (DFI (div_floor (shl 1 (2 * dlog (sh_itv s'))) (dhi (sh_itv s')))
  (div_ceil (shl 1 (2 * dlog (sh_itv s'))) (dlo (sh_itv s'))) (dlog (sh_itv s'))) by rewrite /dfi_checked_recip z'.
set r := DFI _ _ _ in ci.
exists (RA (from_iterator (K := int_coef) (rev (coefficients (mp a)))) r); split.
- by exists N => f; rewrite e; case: ifP => // _; cbn [rbind unwrap]; rewrite /dfi_recip ci.
- have xz : x != GRing.zero R_zmodType by apply/eqP.
  have c0 : (PV (mp a))`_0 != GRing.zero _.
    apply/eqP => c0; apply: x0; apply: (den_root0 D).
    by rewrite /root horner_coef0 /real_poly coef_map /= c0.
  split=> /=; first exact: rev_wf.
  + by apply: (rev_irr (den_wf D) (den_neq0 D) c0); exact: den_irr D.
  + split; last by rewrite -RinvE // (rev_root (den_wf D) (den_neq0 D)) //; exact: den_root D.
    exact: (dfi_checked_recip_in _ _ _ ci (rf_in h')).1.
  + rewrite (rev_size (den_wf D) (den_neq0 D)) // => s2.
    by have [q [_ _ eq]] := to_rational_lin D s2; case: (irr q).
- by case=> q /irr.
- move=> _; exists (sh_itv s'); split=> //; first exact: rf_in h'.
    by move/contains_zero_spec; rewrite z'.
  exact: dfi_recip_tight ci.
Qed.
Lemma recip_spec a x : denotes a x -> x <> 0 ->
  exists b, eventually (fun f => ra_recip f a) b /\ weakly_denotes b (/ x) /\ ((exists q, x = Q2R q) -> denotes b (/ x) /\ canonical b).
Proof.
move=> D x0; case: (checked_recip_spec D) => [[//]|[_ [b [[N e] w1 w2 _]]]].
by exists b; split=> //; exists N => f; rewrite /ra_recip e; case: ifP.
Qed.
Lemma recip_zero a f : denotes a 0 -> ra_recip f a = Panic.
Proof.
move=> D; rewrite /ra_recip; case: (checked_recip_spec D) => [[_ ->]//|[[]]].
by [].
Qed.

(** * Logarithms to base 2 *)
Lemma pow2_IZR k : (0 <= k)%ZZ -> IZR (2 ^ k) = powerRZ 2 k.
Proof. by move=> h; rewrite -[k]Z2Nat.id // IZR_p2 pow_powerRZ. Qed.
Lemma pow2_Q k : exists q, [/\ Qred q = q, Q2R q = powerRZ 2 k,
  (0 <= k)%ZZ -> q = (2 ^ k # 1) & (k < 0)%ZZ -> q = (1 # Z.to_pos (2 ^ (- k)))].
Proof.
case: (Z_lt_le_dec k 0) => h.
  have hp : (0 < 2 ^ (- k))%ZZ by apply: Z.pow_pos_nonneg; lia.
  exists (1 # Z.to_pos (2 ^ (- k))); split=> //; last by lia.
  rewrite /Q2R; cbn [Qnum Qden]; rewrite Z2Pos.id // pow2_IZR; last by lia.
  by rewrite Rmult_1_l -powerRZ_neg' Z.opp_involutive.
exists (2 ^ k # 1); split=> //; last by lia.
- by apply: Qcanon.Qred_identity; exact: Z.gcd_1_r.
- by rewrite /Q2R /= Rinv_1 Rmult_1_r pow2_IZR.
Qed.
Lemma floor_log2_pow k : (0 <= k)%ZZ -> bigint_floor_log2 (2 ^ k) = Some k.
Proof.
move=> k0; have hp : (0 < 2 ^ k)%ZZ by apply: Z.pow_pos_nonneg; lia.
have := bigint_floor_log2_spec (2 ^ k); case: bigint_floor_log2 => [f|]; last by lia.
move=> [_ [f0 [h1 h2]]]; congr Some.
have h3 : (f <= k)%ZZ by apply/(Z.pow_le_mono_r_iff 2); lia.
have h4 : (k < f + 1)%ZZ by apply/(Z.pow_lt_mono_r_iff 2); lia.
lia.
Qed.
Lemma ceil_log2_pow k : (0 <= k)%ZZ -> bigint_ceil_log2 (2 ^ k) = Some k.
Proof.
move=> k0; have hp : (0 < 2 ^ k)%ZZ by apply: Z.pow_pos_nonneg; lia.
have := bigint_ceil_log2_spec (2 ^ k); case: bigint_ceil_log2 => [f|]; last by lia.
move=> [_ [f0 [h1 h2]]]; congr Some.
have h3 : (k <= f)%ZZ by apply/(Z.pow_le_mono_r_iff 2); lia.
case: (Z.eq_dec f k) => // ne; have : (2 ^ k < 2 ^ k)%ZZ by apply: h2; lia.
lia.
Qed.
Lemma log2_eq n f : bigint_floor_log2 n = Some f -> bigint_ceil_log2 n = Some f -> (0 <= f)%ZZ /\ n = (2 ^ f)%ZZ.
Proof.
move=> h1 h2; have := bigint_floor_log2_spec n; have := bigint_ceil_log2_spec n; rewrite h1 h2; lia.
Qed.
Lemma ceil_some n f : bigint_floor_log2 n = Some f -> exists c, bigint_ceil_log2 n = Some c.
Proof.
move=> h; have := bigint_floor_log2_spec n; have := bigint_ceil_log2_spec n; rewrite h.
by case: bigint_ceil_log2 => [c _ _|]; [exists c|lia].
Qed.
Lemma powerRZ2_gt0 k : 0 < powerRZ 2 k.  Proof. by apply: powerRZ_lt; lra. Qed.
Lemma powerRZ2_lt j k : (j < k)%ZZ -> powerRZ 2 j < powerRZ 2 k.
Proof.
move=> h; have -> : k = (j + (k - j))%ZZ by lia.
rewrite powerRZ_add; last by lra.
rewrite -[X in X < _]Rmult_1_r; apply: Rmult_lt_compat_l; first exact: powerRZ2_gt0.
rewrite -pow2_IZR; last by lia.
by apply: IZR_lt; apply: (proj1 (Z.pow_gt_1 2 _ (erefl _))); lia.
Qed.
Lemma powerRZ2_inj j k : powerRZ 2 j = powerRZ 2 k -> j = k.
Proof. by move=> e; case: (Z.lt_total j k) => [/powerRZ2_lt|[//|/powerRZ2_lt]]; lra. Qed.

Lemma to_integer_log2_spec a x : denotes a x ->
  exists e, ra_to_integer_log2 a = Ret e /\ forall k, e = Some k <-> x = powerRZ 2 k.
Proof.
move=> D; rewrite /ra_to_integer_log2; case: (to_rational_spec D) => [[q [-> rq xq]]|[-> irr]]; cbn [rbind]; last first.
  exists None; split=> // k; split=> // e; have [q [_ e' _ _]] := pow2_Q k.
  by case: (irr q); rewrite e'.
have cases k : x = powerRZ 2 k -> ((0 <= k)%ZZ /\ q = (2 ^ k # 1)) \/ ((k < 0)%ZZ /\ q = (1 # Z.to_pos (2 ^ (- k)))).
  move=> e; have [q' [r' e' c1 c2]] := pow2_Q k; have -> : q = q' by apply: Q2R_inj => //; rewrite e' -e.
  by case: (Z_lt_le_dec k 0) => h; [right; split=> //; exact: c2|left; split=> //; exact: c1].
case: Z.eqb_spec => [d1|d1].
  have xn : x = IZR (Qnum q) by rewrite xq /Q2R d1 Rinv_1 Rmult_1_r.
  case Ef: bigint_floor_log2 => [f|]; last first.
    exists None; split=> // k; split=> // e; have := bigint_floor_log2_spec (Qnum q); rewrite Ef => /IZR_le.
    by rewrite -xn e; have := powerRZ2_gt0 k; lra.
  have [c Ec] := ceil_some Ef; rewrite Ec; cbn [unwrap rbind]; eexists; split; first by reflexivity.
  move=> k; split.
    case: Z.eqb_spec => // fc -[<-]; rewrite -fc in Ec; have [f0 en] := log2_eq Ef Ec.
    by rewrite xn en pow2_IZR.
  move=> /cases [[k0 eq]|[k0 eq]].
    by move: Ef Ec; rewrite eq; cbn [Qnum]; rewrite floor_log2_pow // ceil_log2_pow // => -[<-] [<-]; rewrite Z.eqb_refl.
  exfalso; move: d1; rewrite eq; cbn [Qden]; have : (1 < 2 ^ (- k))%ZZ by apply: (proj1 (Z.pow_gt_1 2 _ (erefl _))); lia.
  by move=> h; rewrite Z2Pos.id; lia.
case: Z.eqb_spec => [n1|n1].
  have d0 : (0 < Zpos (Qden q))%ZZ by [].
  have xn : x = / IZR (Zpos (Qden q)) by rewrite xq /Q2R n1 Rmult_1_l.
  have [f Ef] : exists f, bigint_floor_log2 (Zpos (Qden q)) = Some f.
    by case Ef: (bigint_floor_log2 _) (bigint_floor_log2_spec (Zpos (Qden q))) => [f|]; [exists f|lia].
  rewrite Ef.
  have [c Ec] := ceil_some Ef; rewrite Ec; cbn [unwrap rbind]; eexists; split; first by reflexivity.
  move=> k; split.
    case: Z.eqb_spec => // fc -[<-]; rewrite -fc in Ec; have [f0 en] := log2_eq Ef Ec.
    by rewrite xn en pow2_IZR // powerRZ_neg'.
  move=> /cases [[k0 eq]|[k0 eq]]; first by move: d1; rewrite eq.
  have hp : (0 < 2 ^ (- k))%ZZ by apply: Z.pow_pos_nonneg; lia.
  move: Ef Ec; rewrite eq; cbn [Qden]; rewrite Z2Pos.id // floor_log2_pow ?ceil_log2_pow //; try lia.
  by move=> [<-] [<-]; rewrite Z.eqb_refl Z.opp_involutive.
by exists None; split=> // k; split=> // /cases [[_ eq]|[_ eq]]; [case: d1|case: n1]; rewrite eq.
Qed.

(** Loops for the logarithm of an interval that contains one number only. *)
Lemma dyadic_powerRZ m n : dyadic m n = IZR m * powerRZ 2 (- Z.of_nat n).
Proof. by rewrite /dyadic powerRZ_neg' -pow_powerRZ. Qed.
Lemma dfi_floor_log2_pos i : (0 < dlo i)%ZZ -> (dlo i <= dhi i)%ZZ ->
  exists l u, [/\ dfi_floor_log2 i = Some (l, u), is_floor_log2 (lo i) l & is_floor_log2 (hi i) u].
Proof.
have H m : (0 < m)%ZZ -> exists k, bigint_floor_log2 m = Some k /\ is_floor_log2 (dyadic m (dlog i)) (k - Z.of_nat (dlog i)).
  move=> m0; case E: (bigint_floor_log2 m) (bigint_floor_log2_spec m) => [k|]; last by lia.
  move=> [_ [k0 [/IZR_le h1 /IZR_lt h2]]]; exists k; split=> //; rewrite /is_floor_log2 dyadic_powerRZ.
  rewrite pow2_IZR // in h1; rewrite pow2_IZR in h2; last by lia.
  rewrite (_ : (k - Z.of_nat (dlog i) + 1 = k + 1 + - Z.of_nat (dlog i))%ZZ); last by lia.
  rewrite (_ : (k - Z.of_nat (dlog i) = k + - Z.of_nat (dlog i))%ZZ); last by lia.
  have := powerRZ2_gt0 (- Z.of_nat (dlog i)) => p0.
  move: (k + 1)%ZZ h2 => k1 h2; rewrite !powerRZ_add; try lra.
  by split; [apply: Rmult_le_compat_r; [exact: Rlt_le|]|apply: Rmult_lt_compat_r].
move=> h1 h2; have [l [el hl]] := H _ h1; have [|u [eu hu]] := H (dhi i); first by lia.
by rewrite /dfi_floor_log2 el eu /=; eexists _, _; split; first by reflexivity.
Qed.
Lemma dfi_ceil_log2_pos i : (0 < dlo i)%ZZ -> (dlo i <= dhi i)%ZZ ->
  exists l u, [/\ dfi_ceil_log2 i = Some (l, u), is_ceil_log2 (lo i) l & is_ceil_log2 (hi i) u].
Proof.
have H m : (0 < m)%ZZ -> exists k, bigint_ceil_log2 m = Some k /\ is_ceil_log2 (dyadic m (dlog i)) (k - Z.of_nat (dlog i)).
  move=> m0; case E: (bigint_ceil_log2 m) (bigint_ceil_log2_spec m) => [k|]; last by lia.
  move=> [_ [k0 [/IZR_le h1 h2]]]; exists k; split=> //; rewrite /is_ceil_log2 dyadic_powerRZ.
  rewrite pow2_IZR // in h1.
  have {}h2 : powerRZ 2 (k - 1) < IZR m.
    case: (Z.eq_dec k 0) => [->|kn].
      apply: (Rlt_le_trans _ (IZR 1)); last by apply: IZR_le; lia.
      by rewrite -[1]/(powerRZ 2 0); apply: powerRZ2_lt.
    by rewrite -pow2_IZR; [apply: IZR_lt; apply: h2|]; lia.
  rewrite (_ : (k - Z.of_nat (dlog i) - 1 = k - 1 + - Z.of_nat (dlog i))%ZZ); last by lia.
  rewrite (_ : (k - Z.of_nat (dlog i) = k + - Z.of_nat (dlog i))%ZZ); last by lia.
  have := powerRZ2_gt0 (- Z.of_nat (dlog i)) => p0.
  move: (k - 1)%ZZ h2 => k1 h2; rewrite !powerRZ_add; try lra.
  by split; [apply: Rmult_lt_compat_r|apply: Rmult_le_compat_r; [exact: Rlt_le|]].
move=> h1 h2; have [l [el hl]] := H _ h1; have [|u [eu hu]] := H (dhi i); first by lia.
by rewrite /dfi_ceil_log2 el eu /=; eexists _, _; split; first by reflexivity.
Qed.
Lemma powerRZ2_le j k : (j <= k)%ZZ -> powerRZ 2 j <= powerRZ 2 k.
Proof. by case/Z.le_lteq => [/powerRZ2_lt|->]; lra. Qed.
Lemma floor_log2_mono x y j k : is_floor_log2 x j -> is_floor_log2 y k -> x <= y -> (j <= k)%ZZ.
Proof.
move=> [h1 h2] [h3 h4] le; case: (Z_le_gt_dec j k) => // h.
have : powerRZ 2 (k + 1) <= powerRZ 2 j by apply: powerRZ2_le; lia.
lra.
Qed.
Lemma ceil_log2_mono x y j k : is_ceil_log2 x j -> is_ceil_log2 y k -> x <= y -> (j <= k)%ZZ.
Proof.
move=> [h1 h2] [h3 h4] le; case: (Z_le_gt_dec j k) => // h.
have : powerRZ 2 k <= powerRZ 2 (j - 1) by apply: powerRZ2_le; lia.
lra.
Qed.
Lemma floor_log2_open x k : is_floor_log2 x k -> x <> powerRZ 2 k ->
  exists2 eps, 0 < eps & forall y, x - eps < y -> y < x + eps -> is_floor_log2 y k.
Proof.
move=> [h1 h2] ne; exists (Rmin (x - powerRZ 2 k) (powerRZ 2 (k + 1) - x)); first by apply: Rmin_glb_lt; lra.
move=> y; have := Rmin_l (x - powerRZ 2 k) (powerRZ 2 (k + 1) - x); have := Rmin_r (x - powerRZ 2 k) (powerRZ 2 (k + 1) - x).
by rewrite /is_floor_log2; lra.
Qed.
Lemma ceil_log2_open x k : is_ceil_log2 x k -> x <> powerRZ 2 k ->
  exists2 eps, 0 < eps & forall y, x - eps < y -> y < x + eps -> is_ceil_log2 y k.
Proof.
move=> [h1 h2] ne; exists (Rmin (x - powerRZ 2 (k - 1)) (powerRZ 2 k - x)); first by apply: Rmin_glb_lt; lra.
move=> y; have := Rmin_l (x - powerRZ 2 (k - 1)) (powerRZ 2 k - x); have := Rmin_r (x - powerRZ 2 (k - 1)) (powerRZ 2 k - x).
by rewrite /is_ceil_log2; lra.
Qed.

Section Log2.
Variables (fc : dfi -> option (Z * Z)) (isl : R -> Z -> Prop).
Hypothesis fc_pos : forall i, (0 < dlo i)%ZZ -> (dlo i <= dhi i)%ZZ -> exists l u, [/\ fc i = Some (l, u), isl (lo i) l & isl (hi i) u].
Hypothesis mono : forall x y j k, isl x j -> isl y k -> x <= y -> (j <= k)%ZZ.
Hypothesis opn : forall x k, isl x k -> x <> powerRZ 2 k -> exists2 eps, 0 < eps & forall y, x - eps < y -> y < x + eps -> isl y k.
Hypothesis isl_pow : forall k, isl (powerRZ 2 k) k.
Lemma log2_spec a x k : denotes a x -> 0 < x -> isl x k -> eventually (fun f => ra_log2 f fc a) (Some k).
Proof.
move=> D x0 hk; rewrite /ra_log2; have [b [-> hb]] := is_positive_spec D; cbn [rbind].
rewrite (proj2 hb x0); cbn [negb]; have [e [-> he]] := to_integer_log2_spec D; cbn [rbind].
case: e he => [j|] he.
  have ej := proj1 (he j) (erefl _).
  have -> : k = j; last exact: eventually_const.
  have hj : isl x j by rewrite ej; exact: isl_pow.
  exact: Z.le_antisymm (mono hk hj (Rle_refl _)) (mono hj hk (Rle_refl _)).
have np : x <> powerRZ 2 k by move/he.
have [eps eps0 he'] := opn hk np.
case: (remove_zero_spec D) => [[]|[sg [s1 [[N1 e1] h1 i1 z1 sx]]]]; first by lra.
have ok1 := rf_in h1; rewrite inIE in ok1.
have l1 : 0 < lo (sh_itv s1) by case: (contains_zeroE z1); lra.
have pos i : inside i (sh_itv s1) -> inI x i -> (0 < dlo i)%ZZ /\ (dlo i <= dhi i)%ZZ.
  move=> [in1 _] ii; split; last by have := inI_ok _ _ ii.
  case: (Z_lt_le_dec 0 (dlo i)) => // h; have := (dyadic_le (dlo i) 0 (dlog i)).2 h.
  by rewrite dyadic0 -/(lo i); lra.
pose out s := if fc (sh_itv s) is Some lu then lu.1 else 0%ZZ.
pose done s := if fc (sh_itv s) is Some lu then (lu.1 =? lu.2)%ZZ else false.
have [||||s' [[N2 e2] h' _ i' d']] := @loop_conv _ (log2_loop^~ fc) done out (mp a) x (sh_itv s1) eps eps0 _ _ _ s1 h1 _.
- by [].
- move=> f s hs is_; have [p1 p2] := pos _ is_ (rf_in hs); have [l [u [E _ _]]] := fc_pos p1 p2.
  by rewrite /= E; cbn [unwrap rbind]; rewrite /done /out E; cbn [fst snd].
- move=> s hs is_ ws; have [p1 p2] := pos _ is_ (rf_in hs); have [l [u [E hl hu]]] := fc_pos p1 p2.
  have := rf_in hs; rewrite inIE => xi; rewrite /width in ws.
  have hl' : isl (lo (sh_itv s)) k by apply: he'; lra.
  have hu' : isl (hi (sh_itv s)) k by apply: he'; lra.
  rewrite /done E; cbn [fst snd]; apply/Z.eqb_eq.
  have := mono hl hl' (Rle_refl _); have := mono hl' hl (Rle_refl _); have := mono hu hu' (Rle_refl _); have := mono hu' hu (Rle_refl _).
  lia.
- exact: inside_refl.
have [p1 p2] := pos _ i' (rf_in h'); have [l [u [E hl hu]]] := fc_pos p1 p2.
have ek : out s' = k.
  move: d'; rewrite /out /done E; cbn [fst snd] => /Z.eqb_eq eu.
  have := rf_in h'; rewrite inIE => xi.
  have := mono hl hk xi.1; have := mono hk hu xi.2; lia.
exists (maxn N1 N2) => f; rewrite e1 geq_max; case: (N1 <= f)%N => //=.
by rewrite e2 ek; case: ifP.
Qed.
Lemma log2_none a x f : denotes a x -> x <= 0 -> ra_log2 f fc a = Ret None.
Proof.
move=> D x0; rewrite /ra_log2; have [b [-> hb]] := is_positive_spec D; cbn [rbind].
by case: b hb => [[/(_ (erefl _)) h]|//]; lra.
Qed.
End Log2.
Lemma floor_log2_spec a x k : denotes a x -> 0 < x -> is_floor_log2 x k -> eventually (fun f => ra_floor_log2 f a) (Some k).
Proof.
apply: log2_spec; [exact: dfi_floor_log2_pos|exact: floor_log2_mono|exact: floor_log2_open|].
by move=> j; split; [exact: Rle_refl|apply: powerRZ2_lt; lia].
Qed.
Lemma ceil_log2_spec a x k : denotes a x -> 0 < x -> is_ceil_log2 x k -> eventually (fun f => ra_ceil_log2 f a) (Some k).
Proof.
apply: log2_spec; [exact: dfi_ceil_log2_pos|exact: ceil_log2_mono|exact: ceil_log2_open|].
by move=> j; split; [apply: powerRZ2_lt; lia|exact: Rle_refl].
Qed.
