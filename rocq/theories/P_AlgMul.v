(** Products of real algebraic numbers. *)
From Coq Require Import ZArith QArith Qreals Qround Reals Lia Lra.
Set Warnings "-notation-overridden,-ambiguous-paths".
From mathcomp Require Import all_ssreflect all_algebra all_field.
From mathcomp.zify Require Import ssrZ.
From Verif Require Import M_Base M_Traits M_Util M_Interval M_Poly M_PolyCoef P_PolyInst M_PolyAlg M_Factor M_Alg
  S_Poly S_PolyAlg S_Factor S_Interval P_Interval P_IntervalTight P_Poly P_PolyAlgInst P_PolyAlgRef P_FactorAll
  P_Rstruct S_Alg P_AlgBase P_AlgShrink P_AlgBasic P_AlgSign P_AlgNeg P_AlgRecip P_AlgSelect P_AlgRoot P_AlgRes P_AlgIrr P_AlgOps.
Set Implicit Arguments.
Unset Strict Implicit.
Unset Printing Implicit Defensive.
Import Order.TTheory GRing.Theory Num.Theory.
Delimit Scope Z_scope with ZZ.
Delimit Scope R_scope with RR.
Delimit Scope Q_scope with QQ.
Local Open Scope R_scope.
Local Notation Rt p := (root (real_poly p)).
Local Notation PV p := (pval int_sem p).

(** * Products of intervals *)
Lemma dyadic_finer m k k' : (k <= k')%N -> dyadic (shl m (k' - k)) k' = dyadic m k.
Proof. by move=> h; have := dyadic_shl m k (k' - k); rewrite plusE subnKC. Qed.
Definition step (k : nat) : R := dyadic 1 k.
Lemma step_gt0 k : 0 < step k.
Proof. by have := @dyadic_lt 0 1 k erefl; rewrite dyadic0. Qed.
Lemma mul_log i j : dlog (dfi_mul i j) = Nat.max (dlog i) (dlog j).
Proof. by case: (dfi_mul_tight i j). Qed.
Lemma min4_cases a b c d : let m := Rmin4 a b c d in m = a \/ m = b \/ m = c \/ m = d.
Proof. by rewrite /Rmin4 /Rmin /=; repeat case: Rle_dec; lra. Qed.
Lemma max4_cases a b c d : let m := Rmax4 a b c d in m = a \/ m = b \/ m = c \/ m = d.
Proof. by rewrite /Rmax4 /Rmax /=; repeat case: Rle_dec; lra. Qed.

(** The bounds of a product are at most one unit in the last place away from a
    product of bounds. *)
Definition bound_of (u : R) (i : dfi) : Prop := u = lo i \/ u = hi i.
Lemma mul_lo i j : exists u v, [/\ bound_of u i, bound_of v j & u * v - step (Nat.max (dlog i) (dlog j)) < lo (dfi_mul i j)].
Proof.
have [k [l1 [_ [l2 _]]]] := dfi_mul_tight i j.
rewrite -/(lo i) -/(hi i) -/(lo j) -/(hi j) in l1 l2.
have h : Rmin4 (lo i * lo j) (lo i * hi j) (hi i * lo j) (hi i * hi j) - step (Nat.max (dlog i) (dlog j)) < lo (dfi_mul i j).
  rewrite /lo k /step; apply: Rnot_le_lt => h; have := l2 (dlo (dfi_mul i j) + 1)%ZZ; rewrite dyadic_add => h2.
  have /h2 : dyadic (dlo (dfi_mul i j)) (Nat.max (dlog i) (dlog j)) + dyadic 1 (Nat.max (dlog i) (dlog j)) <=
    Rmin4 (lo i * lo j) (lo i * hi j) (hi i * lo j) (hi i * hi j) by rewrite /lo; lra.
  by lia.
by case: (min4_cases (lo i * lo j) (lo i * hi j) (hi i * lo j) (hi i * hi j)) h => [->|[->|[->|->]]] h;
  [exists (lo i), (lo j)|exists (lo i), (hi j)|exists (hi i), (lo j)|exists (hi i), (hi j)]; split=> //; (left; done) || (right; done).
Qed.
Lemma mul_hi i j : exists u v, [/\ bound_of u i, bound_of v j & hi (dfi_mul i j) < u * v + step (Nat.max (dlog i) (dlog j))].
Proof.
have [k [_ [l1 [_ l2]]]] := dfi_mul_tight i j.
rewrite -/(lo i) -/(hi i) -/(lo j) -/(hi j) in l1 l2.
have h : hi (dfi_mul i j) < Rmax4 (lo i * lo j) (lo i * hi j) (hi i * lo j) (hi i * hi j) + step (Nat.max (dlog i) (dlog j)).
  rewrite [hi (dfi_mul i j)]/hi k /step; apply: Rnot_le_lt => h; have := l2 (dhi (dfi_mul i j) - 1)%ZZ; rewrite dyadic_sub => h2.
  have /h2 : Rmax4 (lo i * lo j) (lo i * hi j) (hi i * lo j) (hi i * hi j) <=
    dyadic (dhi (dfi_mul i j)) (Nat.max (dlog i) (dlog j)) - dyadic 1 (Nat.max (dlog i) (dlog j)) by lra.
  by lia.
by case: (max4_cases (lo i * lo j) (lo i * hi j) (hi i * lo j) (hi i * hi j)) h => [->|[->|[->|->]]] h;
  [exists (lo i), (lo j)|exists (lo i), (hi j)|exists (hi i), (lo j)|exists (hi i), (hi j)]; split=> //; (left; done) || (right; done).
Qed.

Lemma mul_nested i j i' j' x y : inside i' i -> inside j' j -> (dlog i <= dlog i')%N -> (dlog j <= dlog j')%N ->
  inI x i' -> inI y j' -> inside (dfi_mul i' j') (dfi_mul i j).
Proof.
move=> [a1 a2] [b1 b2] la lb /inIE xi /inIE yj.
have prod u v : bound_of u i' -> bound_of v j' -> inI (u * v) (dfi_mul i j).
  by move=> [] -> [] ->; apply: dfi_mul_in; apply/inIE; lra.
have [k [l1 [m1 [l2 m2]]]] := dfi_mul_tight i' j'.
rewrite -/(lo i') -/(hi i') -/(lo j') -/(hi j') in l1 l2 m1 m2.
have lk : (Nat.max (dlog i) (dlog j) <= Nat.max (dlog i') (dlog j'))%N by apply/ssrnat.leP; move/ssrnat.leP: la; move/ssrnat.leP: lb; lia.
have p1 := prod _ _ (or_introl erefl) (or_introl erefl); have p2 := prod _ _ (or_introl erefl) (or_intror erefl).
have p3 := prod _ _ (or_intror erefl) (or_introl erefl); have p4 := prod _ _ (or_intror erefl) (or_intror erefl).
move: p1 p2 p3 p4; rewrite !inIE => p1 p2 p3 p4.
split.
- rewrite [lo (dfi_mul i j)]/lo mul_log -(dyadic_finer _ lk) [lo (dfi_mul i' j')]/lo k; apply/dyadic_le; apply: l2.
  rewrite (dyadic_finer _ lk) -(mul_log i j) -/(lo (dfi_mul i j)).
  by case: (min4_cases (lo i' * lo j') (lo i' * hi j') (hi i' * lo j') (hi i' * hi j')) => [->|[->|[->|->]]]; lra.
- rewrite [hi (dfi_mul i j)]/hi mul_log -(dyadic_finer _ lk) [hi (dfi_mul i' j')]/hi k; apply/dyadic_le; apply: m2.
  rewrite (dyadic_finer _ lk) -(mul_log i j) -/(hi (dfi_mul i j)).
  by case: (max4_cases (lo i' * lo j') (lo i' * hi j') (hi i' * lo j') (hi i' * hi j')) => [->|[->|[->|->]]]; lra.
Qed.

(** Width of a product of intervals around [x] and [y]. *)
Lemma mul_width i j x y M : inI x i -> inI y j -> Rabs x <= M -> width i <= 1 -> width j <= 1 -> Rabs y <= M ->
  width (dfi_mul i j) <= 2 * (M + 1) * (width i + width j) + 2 * step (Nat.max (dlog i) (dlog j)).
Proof.
move=> /inIE xi /inIE yj xM wi wj yM.
have [u [v [hu hv hl]]] := mul_lo i j; have [u' [v' [hu' hv' hh]]] := mul_hi i j.
rewrite {1}/width.
have du : Rabs (u' - u) <= width i by rewrite /width; apply: Rabs_le; case: hu hu' => -> [] ->; lra.
have dv : Rabs (v' - v) <= width j by rewrite /width; apply: Rabs_le; case: hv hv' => -> [] ->; lra.
have bu : Rabs u <= M + 1.
  apply: Rabs_le; have := Rle_abs x; have := Rle_abs (- x); rewrite Rabs_Ropp; rewrite /width in wi; case: hu => ->; lra.
have bv : Rabs v' <= M + 1.
  apply: Rabs_le; have := Rle_abs y; have := Rle_abs (- y); rewrite Rabs_Ropp; rewrite /width in wj; case: hv' => ->; lra.
have e : u' * v' - u * v = (u' - u) * v' + u * (v' - v) by ring.
have := Rabs_triang ((u' - u) * v') (u * (v' - v)); rewrite -e !Rabs_mult => tr.
have m1 : Rabs (u' - u) * Rabs v' <= width i * (M + 1) by apply: Rmult_le_compat => //; exact: Rabs_pos.
have m2 : Rabs u * Rabs (v' - v) <= (M + 1) * width j by apply: Rmult_le_compat => //; exact: Rabs_pos.
have := Rle_abs (u' * v' - u * v); have := Rabs_pos u; have := Rabs_pos (u' - u); have := Rabs_pos (v' - v).
nra.
Qed.

Lemma step_le k k' : (k <= k')%N -> step k' <= step k.
Proof.
move=> h; rewrite /step -(dyadic_finer 1 h); apply/dyadic_le; rewrite /shl Z.shiftl_mul_pow2; last exact: Zle_0_nat.
have := Z.pow_pos_nonneg 2 (Z.of_nat (k' - k)); lia.
Qed.
Lemma irr_step i x : inI x i -> (forall q, x <> Q2R q) -> step (dlog i) <= width i.
Proof.
move=> /inIE h irr; rewrite /width /lo /hi -dyadic_sub; apply/dyadic_le.
have h1 : (dlo i <= dhi i)%ZZ by apply/(dyadic_le _ _ (dlog i)); rewrite -/(lo i) -/(hi i); lra.
suff : dlo i <> dhi i by lia.
move=> e; have [b1 _] := bound_Q i; apply: (irr (dfi_lower_bound i)); rewrite -b1.
have : hi i = lo i by rewrite /hi /lo e.
by lra.
Qed.

Section Mul.
Variables (a b : ralg) (x y : R).
Hypotheses (Da : denotes a x) (Db : denotes b y).
Variables (rng : nat -> Z) (ffuel : nat).
Definition prod_itv (st : shrinker * shrinker) : dfi := dfi_mul (sh_itv st.1) (sh_itv st.2).

Lemma prod_conv sa sb : refines (mp a) x sa -> refines (mp b) y sb -> (forall q, x <> Q2R q) \/ (forall q, y <> Q2R q) ->
  forall eps, 0 < eps -> exists N, width (prod_itv (states sa sb N)) < eps.
Proof.
move=> ha hb irr eps e0.
pose M := Rabs x + Rabs y; pose W := width (sh_itv sa) + width (sh_itv sb).
have M0 : 0 <= M by rewrite /M; have := Rabs_pos x; have := Rabs_pos y; lra.
have W1 := width_ge0 ha; have W2 := width_ge0 hb.
have m0 : 0 < Rmin eps 1 by apply: Rmin_pos; lra.
have [n] := small_pow (W * (4 * M + 6)) m0; set t := (17 / 32) ^ n => hn; exists n.
have t0 : 0 <= t by apply: pow_le; lra.
have hn1 : W * (4 * M + 6) * t < eps by apply: Rlt_le_trans hn (Rmin_l _ _).
have hn2 : W * (4 * M + 6) * t < 1 by apply: Rlt_le_trans hn (Rmin_r _ _).
have wa := nexts_width ha n; have wb := nexts_width hb n; rewrite -/t in wa wb.
set i := sh_itv (nexts n sa) in wa; set j := sh_itv (nexts n sb) in wb.
have Wt : 0 <= W * t by apply: Rmult_le_pos => //; rewrite /W; lra.
have wi : width i <= W * t by rewrite /W; nra.
have wj : width j <= W * t by rewrite /W; nra.
have xi : inI x i := rf_in (nexts_ok ha n); have yj : inI y j := rf_in (nexts_ok hb n).
have xM : Rabs x <= M by rewrite /M; have := Rabs_pos y; lra.
have yM : Rabs y <= M by rewrite /M; have := Rabs_pos x; lra.
have Wt1 : W * t <= 1 by nra.
have wi1 : width i <= 1 by lra.
have wj1 : width j <= 1 by lra.
have st : step (Nat.max (dlog i) (dlog j)) <= W * t.
  case: irr => irr.
    by have := irr_step xi irr; have := @step_le (dlog i) (Nat.max (dlog i) (dlog j)) (introT ssrnat.leP (Nat.le_max_l _ _)); lra.
  by have := irr_step yj irr; have := @step_le (dlog j) (Nat.max (dlog i) (dlog j)) (introT ssrnat.leP (Nat.le_max_r _ _)); lra.
have := mul_width xi yj xM wi1 wj1 yM; rewrite /prod_itv /= -/i -/j; nra.
Qed.

Lemma mul_select r c fs sa sb : wf int_sem r -> PV r != 0%R -> Rt r (x * y) -> y <> 0 ->
  (forall q, x <> Q2R q) \/ (forall q, y <> Q2R q) ->
  (forall q, Rt r (Q2R q) -> Rt (mp a) (Q2R q / y)) ->
  refines (mp a) x sa -> refines (mp b) y sb -> sh_itv sa = itv a -> sh_itv sb = itv b ->
  factor_with_rng rng ffuel r = Ret (c, fs) ->
  (forall f n, List.In (f, n) fs -> Rt f (x * y) -> irreducible_over_Q (PV f)) ->
  (forall (x' : R) q, Rt (mp a) x' -> x' * y = Q2R q -> inI (x' * y) (dfi_mul (itv a) (itv b)) -> x' = x) ->
  exists z, [/\ eventually (fun fuel => select_root (fun st => Ret (prod_itv st)) shrink_both rng ffuel fuel (sa, sb) r) z,
    denotes z (x * y) & canonical z].
Proof.
move=> wr r0 rv y0 irrat rq ha hb ia ib ef irr ends.
pose itvs n := prod_itv (states sa sb n).
have v_in n : inI (x * y) (itvs n) by apply: dfi_mul_in; [exact: rf_in (nexts_ok ha n)|exact: rf_in (nexts_ok hb n)].
have conv := prod_conv ha hb irrat.
have [|||z [hz d cz]] := @select_denotes _ (fun st => Ret (prod_itv st)) shrink_both (x * y) (states sa sb) itvs _ _ v_in conv rng ffuel r wr r0 rv c fs ef irr _.
- by [].
- by move=> n; exact: (shrink_states ha hb).
- move=> n q hq rtq; have := ends (Q2R q / y) q (rq q rtq).
  have e : Q2R q / y * y = Q2R q by field.
  rewrite e => /(_ erefl) h; rewrite -h ?e //.
  apply/inIE; have := v_in n; rewrite inIE => v12.
  have [||||||i1 i2] := @mul_nested (itv a) (itv b) (sh_itv (nexts n sa)) (sh_itv (nexts n sb)) x y; rewrite -?ia -?ib.
  + exact: nexts_inside ha n.
  + exact: nexts_inside hb n.
  + exact: nexts_log ha n.
  + exact: nexts_log hb n.
  + exact: rf_in (nexts_ok ha n).
  + exact: rf_in (nexts_ok hb n).
  by rewrite ia ib in i1 i2 *; rewrite /itvs /prod_itv /= in hq v12; lra.
by exists z.
Qed.

Lemma mul_cases (Concl : Prop) :
  (forall z, (forall fuel, ra_mul rng ffuel fuel a b = Ret z) -> denotes z (x * y) -> (canonical a -> canonical b -> canonical z) -> Concl) ->
  (forall r sa sb, mul_resultant (mp a) (mp b) = Ret r -> refines (mp a) x sa -> refines (mp b) y sb -> sh_itv sa = itv a -> sh_itv sb = itv b ->
    (forall fuel, ra_mul rng ffuel fuel a b = select_root (fun st => Ret (prod_itv st)) shrink_both rng ffuel fuel (sa, sb) r) ->
    wf int_sem r -> PV r != 0%R -> Rt r (x * y) -> x <> 0 -> y <> 0 -> (forall q, x <> Q2R q) \/ (forall q, y <> Q2R q) ->
    (forall q, Rt r (Q2R q) -> Rt (mp a) (Q2R q / y)) -> Concl) -> Concl.
Proof.
move=> easy hard.
have [s2|s2] := boolP ((size (PV (mp a)) == 2%N) && (size (PV (mp b)) == 2%N)).
  move/andP: s2 => [/eqP sa /eqP sb].
  have [qa [ea _ xa]] := to_rational_lin Da sa; have [qb [eb _ yb]] := to_rational_lin Db sb.
  have [c1 c2] := ratio_mul_R qa qb; have [d cn] := from_ratio_denotes c1.
  apply: (easy (ra_from_ratio (ratio_mul qa qb))) => //; last by rewrite xa yb -c2.
  move=> fuel; rewrite /ra_mul (den_is_rational Da) sa; cbn [rbind]; rewrite eqxx (den_is_rational Db) sb; cbn [rbind].
  by rewrite eqxx ea; cbn [rbind unwrap]; rewrite eb.
have e1 fuel : ra_mul rng ffuel fuel a b = if ra_is_zero a || ra_is_zero b then Ret ra_zero else
   if ra_is_one b then Ret a else if ra_is_one a then Ret b
   else (r <- mul_resultant (mp a) (mp b) ;; sa <- ra_shrinker a ;; sb <- ra_shrinker b ;;
     select_root (fun st => Ret (prod_itv st)) shrink_both rng ffuel fuel (sa, sb) r)%res.
  rewrite /ra_mul (den_is_rational Da); cbn [rbind]; move: (s2); rewrite negb_and.
  case: (size (PV (mp a)) == 2%N) => //=; rewrite (den_is_rational Db); cbn [rbind].
  by move/negbTE => ->.
case z0: (ra_is_zero a || ra_is_zero b).
  have e : x * y = 0.
    case/orP: z0 => [h|h]; first by rewrite ((is_zero_spec Da).1 h) Rmult_0_l.
    by rewrite ((is_zero_spec Db).1 h) Rmult_0_r.
  have [d c] := from_int_denotes 0; apply: (easy ra_zero) => // [fuel|]; first by rewrite e1 z0.
  by rewrite e.
case zb: (ra_is_one b).
  have e := (is_one_spec Db).1 zb; apply: (easy a) => // [fuel|]; first by rewrite e1 z0 zb.
  by rewrite e Rmult_1_r.
case za: (ra_is_one a).
  have e := (is_one_spec Da).1 za; apply: (easy b) => // [fuel|]; first by rewrite e1 z0 zb za.
  by rewrite e Rmult_1_l.
have x0 : x <> 0 by move=> /(is_zero_spec Da).2 h; rewrite h in z0.
have y0 : y <> 0 by move=> /(is_zero_spec Db).2 h; rewrite h orbT in z0.
have [r [er wr r0 rv rq]] := prod_resultant Da Db x0 y0.
have {}rq q : Rt r (Q2R q) -> Rt (mp a) (Q2R q / y) by rewrite /Rdiv -RinvE; [exact: rq|apply/eqP].
have [sa [ea ha ia]] := den_shrinker Da; have [sb [eb hb ib]] := den_shrinker Db.
apply: (hard r sa sb er ha hb ia ib) => // [fuel|].
  by rewrite e1 z0 zb za er; cbn [rbind]; rewrite ea; cbn [rbind]; rewrite eb.
move: s2; rewrite negb_and => /orP [h|h]; [left; exact: (to_rational_irr Da h).2|right; exact: (to_rational_irr Db h).2].
Qed.

Lemma mul_spec :
  (forall r, mul_resultant (mp a) (mp b) = Ret r -> factored rng ffuel r (x * y)) ->
  (forall (x' : R) q, Rt (mp a) x' -> x' * y = Q2R q -> inI (x' * y) (dfi_mul (itv a) (itv b)) -> x' = x) ->
  result_ok a b (fun fuel => ra_mul rng ffuel fuel a b) (x * y).
Proof.
move=> hf ends; apply: mul_cases.
  by move=> z ez d c; exists z; split=> //; apply: eventually_ext (eventually_const z).
move=> r sa sb er ha hb ia ib ez wr r0 rv x0 y0 irrat rq; have [c [fs [ef irr]]] := hf r er.
have [z [hz d cz]] := mul_select wr r0 rv y0 irrat rq ha hb ia ib ef irr ends.
by exists z; split=> //; apply: eventually_ext hz.
Qed.

Lemma mul_rational_spec q : x = Q2R q \/ y = Q2R q ->
  (forall r, mul_resultant (mp a) (mp b) = Ret r -> exists cfs, factor_with_rng rng ffuel r = Ret cfs) ->
  result_ok a b (fun fuel => ra_mul rng ffuel fuel a b) (x * y).
Proof.
move=> hq hf; apply: mul_cases.
  by move=> z ez d c; exists z; split=> //; apply: eventually_ext (eventually_const z).
move=> r sa sb er ha hb ia ib ez wr r0 rv x0 y0 irrat rq; have [[c fs] ef] := hf r er.
have [f n inf _||z [hz d cz]] := mul_select wr r0 rv y0 irrat rq ha hb ia ib ef.
- exact: (prod_irr Da Db ef x0 y0 hq er inf).
- move=> x' q' rx' e _.
  have lin : size (PV (mp a)) = 2%N.
    case: hq => eq; first exact: (rat_root Da eq).
    have e' : x' = Q2R (q' / q).
      rewrite Q2R_div -?e -?eq; first by field.
      by move=> e0; apply: y0; rewrite eq (Qeq_eqR _ _ e0) /Q2R /= Rmult_0_l.
    have := rx'; rewrite e' root_rat => /(irr_root (den_irr Da)); by rewrite size_intr.
  by apply: (@lin_root_uniq _ (real_poly (mp a))) rx' (den_root Da); rewrite size_real.
by exists z; split=> //; apply: eventually_ext hz.
Qed.
End Mul.
