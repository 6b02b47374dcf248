(** Arithmetic and comparison of real algebraic numbers. *)
From Coq Require Import ZArith QArith Qreals Qround Reals Lia Lra.
Set Warnings "-notation-overridden,-ambiguous-paths".
From mathcomp Require Import all_ssreflect all_algebra all_field.
From mathcomp.zify Require Import ssrZ.
From Verif Require Import M_Base M_Traits M_Util M_Interval M_Poly M_PolyCoef P_PolyInst M_PolyAlg M_Factor M_Alg
  S_Poly S_PolyAlg S_Factor S_Interval P_Interval P_IntervalTight P_Poly P_PolyAlgInst P_PolyAlgRef P_FactorAll
  P_Rstruct S_Alg S_AlgOps P_AlgBase P_AlgShrink P_AlgBasic P_AlgSign P_AlgNeg P_AlgRecip P_AlgSelect P_AlgRoot P_AlgRes P_AlgIrr P_AlgOps P_AlgMul.
Set Implicit Arguments.
Unset Strict Implicit.
Unset Printing Implicit Defensive.
Import Order.TTheory GRing.Theory Num.Theory.
Delimit Scope Z_scope with ZZ.
Delimit Scope R_scope with RR.
Delimit Scope Q_scope with QQ.
Local Open Scope R_scope.
Local Notation Rt p := (root (real_poly p)).
Local Notation PV p := (pval int_sem p).

Lemma eventually_then (T U : Type) (f : nat -> res T) (g : nat -> T -> res U) v w :
  eventually f v -> eventually (fun n => g n v) w -> eventually (fun n => rbind (f n) (g n)) w.
Proof.
move=> [N e1] [M e2]; exists (maxn N M) => n; rewrite e1 geq_max.
by case: ifP => // h; cbn [rbind]; rewrite e2.
Qed.
Lemma rat_opp x : is_rat x -> is_rat (- x).
Proof. by move=> [q ->]; exists (Qopp q); rewrite Q2R_opp. Qed.
Lemma rat_IZR k : is_rat (IZR k).
Proof. by exists (inject_Z k); rewrite /Q2R /= Rinv_1 Rmult_1_r. Qed.
Lemma rat_mul x y : is_rat x -> is_rat y -> is_rat (x * y).
Proof. by move=> [p ->] [q ->]; exists (Qmult p q); rewrite Q2R_mult. Qed.
Lemma rat_inv x : is_rat x -> x <> 0 -> is_rat (/ x).
Proof.
move=> [q ->] h; exists (Qinv q); rewrite Q2R_inv // => e; apply: h.
by rewrite (Qeq_eqR _ _ e) /Q2R /= Rmult_0_l.
Qed.

(** * Sums and differences *)
Section Two.
Variables (a b : ralg) (x y : R).
Hypotheses (Da : denotes a x) (Db : denotes b y).
Variables (rng : nat -> Z) (ffuel : nat).
Local Notation both := (canonical a /\ canonical b).

Lemma result_computes f v : result_ok a b f v -> computes f v both.
Proof. by move=> [z [h1 h2 h3]]; exists z; split=> // -[]. Qed.

Lemma sum_spec : factoring_ok rng ffuel (add_resultant (mp a) (mp b)) (x + y) -> sum_clear a b x y ->
  computes (fun fuel => ra_add rng ffuel fuel a b) (x + y) both.
Proof.
move=> hf hc; apply: result_computes; apply: add_spec => // y' q ry e.
by rewrite inIE e (sum_bounds (itv a) (itv b)).1 (sum_bounds (itv a) (itv b)).2; exact: hc ry e.
Qed.
Lemma sum_rational : is_rat x \/ is_rat y -> factoring_returns rng ffuel (add_resultant (mp a) (mp b)) ->
  computes (fun fuel => ra_add rng ffuel fuel a b) (x + y) both.
Proof.
move=> h hf; apply: result_computes.
case: h => [[q e]|[q e]]; [exact: (add_rational_spec Da Db (or_introl e) hf)|exact: (add_rational_spec Da Db (or_intror e) hf)].
Qed.
Lemma prod_spec : factoring_ok rng ffuel (mul_resultant (mp a) (mp b)) (x * y) -> prod_clear a b x y ->
  computes (fun fuel => ra_mul rng ffuel fuel a b) (x * y) both.
Proof.
move=> hf hc; apply: result_computes; apply: mul_spec => // x' q rx e; rewrite e; exact: hc rx e.
Qed.
Lemma prod_rational : is_rat x \/ is_rat y -> factoring_returns rng ffuel (mul_resultant (mp a) (mp b)) ->
  computes (fun fuel => ra_mul rng ffuel fuel a b) (x * y) both.
Proof.
move=> h hf; apply: result_computes.
case: h => [[q e]|[q e]]; [exact: (mul_rational_spec Da Db (or_introl e) hf)|exact: (mul_rational_spec Da Db (or_intror e) hf)].
Qed.

(** Negating the second operand *)
Lemma neg_facts : exists n, [/\ ra_neg b = Ret n, denotes n (- y), canonical b -> canonical n,
  (forall w : R, Rt (mp n) (- w) = Rt (mp b) w) & lo (itv n) = - hi (itv b) /\ hi (itv n) = - lo (itv b)].
Proof.
have [n [e d c]] := neg_spec Db; exists n; split=> //; move: e; rewrite /ra_neg (den_degree Db) => -[<-].
  by move=> w; exact: (neg_root (mp b) w).
by rewrite /lo /hi /dfi_neg /= !dyadic_opp.
Qed.
Lemma diff_spec : factoring_ok rng ffuel (sub_resultant a b) (x - y) -> diff_clear a b x y ->
  computes (fun fuel => ra_sub rng ffuel fuel a b) (x - y) both.
Proof.
have [n [e d c rn [l h]]] := neg_facts; rewrite /sub_resultant /ra_sub e; cbn [rbind] => hf hc.
have [z [z1 z2 z3]] : result_ok a n (fun fuel => ra_add rng ffuel fuel a n) (x + - y).
  apply: add_spec => // y' q ry eq; rewrite eq inIE (sum_bounds (itv a) (itv n)).1 (sum_bounds (itv a) (itv n)).2 l h => iq.
  have -> : y' = - - y' by rewrite Ropp_involutive.
  congr Ropp; apply: (hc (- y') q); first by rewrite -rn Ropp_involutive.
    by lra.
  by lra.
by exists z; split=> // -[ca cb]; apply: z3 => //; exact: c.
Qed.
Lemma diff_rational : is_rat x \/ is_rat y -> factoring_returns rng ffuel (sub_resultant a b) ->
  computes (fun fuel => ra_sub rng ffuel fuel a b) (x - y) both.
Proof.
have [n [e d c rn [l h]]] := neg_facts; rewrite /sub_resultant /ra_sub e; cbn [rbind] => hr hf.
have [z [z1 z2 z3]] : result_ok a n (fun fuel => ra_add rng ffuel fuel a n) (x + - y).
  case: hr => [[q eq]|/rat_opp [q eq]]; first exact: (add_rational_spec Da d (or_introl eq) hf).
  exact: (add_rational_spec Da d (or_intror eq) hf).
by exists z; split=> // -[ca cb]; apply: z3 => //; exact: c.
Qed.

(** Conjugates do not differ by a rational number other than zero. *)
Lemma conj_shift (u w : R) q : Rt (mp b) u -> Rt (mp b) w -> u - w = Q2R q -> u = w.
Proof.
move=> ru rw e; case: (Req_dec (Q2R q) 0) => [e0|n0]; first by lra.
exfalso.
pose P := map_poly (intr : int -> rat) (PV (mp b)); pose B := (P \Po ('X + (q2rat q)%:P))%R.
have rB v : root (map_poly ratr B) v = Rt (mp b) (v + Q2R q).
  rewrite /B map_comp_poly /P real_rat rmorphD /= map_polyX map_polyC /root horner_comp hornerD hornerX hornerC.
  by rewrite -q2rat_R.
have rP v : root (map_poly ratr P) v = Rt (mp b) v by rewrite /P real_rat.
have g : (1 < size (gcdp P B))%N.
  rewrite -(size_map_poly [rmorphism of (ratr : rat -> R)]) gcdp_map /=; apply: (common_root (w := w)).
  - by rewrite map_poly_eq0 -size_poly_eq0 size_intr size_poly_eq0 (den_neq0 Db).
  - by rewrite rP.
  - by rewrite rB -e (_ : w + (u - w) = u) //; lra.
have nxt v : Rt (mp b) v -> Rt (mp b) (v + Q2R q).
  by move=> rv; rewrite -rB; apply: (irr_share (den_irr Db) g); rewrite rP.
have /eqP := real_n0 (den_neq0 Db); apply; apply: (@many_roots _ (fun n => w + INR n * Q2R q)).
  by move=> m n h; apply: INR_eq; nra.
elim=> [|n IH]; first by rewrite /= Rmult_0_l Rplus_0_r.
by rewrite S_INR (_ : w + (INR n + 1) * Q2R q = w + INR n * Q2R q + Q2R q); [exact: nxt|ring].
Qed.
End Two.

(** * Comparison *)
Section Cmp.
Variables (a b : ralg) (x y : R).
Hypotheses (Da : denotes a x) (Db : denotes b y).
Variables (rng : nat -> Z) (ffuel : nat).
Hypothesis hf : factoring_ok rng ffuel (sub_resultant a b) (x - y) \/
  ((is_rat x \/ is_rat y) /\ factoring_returns rng ffuel (sub_resultant a b)).
Hypothesis hc : diff_clear a b x y \/ x = y \/ is_rat x \/ is_rat y.

Lemma same_clear : x = y -> diff_clear a b x y.
Proof. by move=> e y' q ry eq _; apply: esym; rewrite e in eq; exact: (conj_shift Db (den_root Db) ry eq). Qed.
Lemma rat_clear : is_rat x \/ is_rat y -> diff_clear a b x y.
Proof.
move=> hr y' q ry eq _.
have lin : size (PV (mp b)) = 2%N.
  case: hr => -[p e]; last exact: (rat_root Db e).
  have e' : y' = Q2R (p - q) by rewrite Q2R_minus -eq -e; lra.
  have := ry; rewrite e' root_rat => /(irr_root (den_irr Db)); by rewrite size_intr.
by apply: (@lin_root_uniq _ (real_poly (mp b))) ry (den_root Db); rewrite size_real.
Qed.
Lemma cmp_diff : computes (fun fuel => ra_sub rng ffuel fuel a b) (x - y) (canonical a /\ canonical b).
Proof.
case: hf => [h|[h1 h2]]; last exact: (diff_rational Da Db).
apply: diff_spec => //; case: hc => [//|[/same_clear //|/rat_clear //]].
Qed.
Lemma eq_spec : exists e, eventually (fun fuel => ra_eqb rng ffuel fuel a b) e /\ (e = true <-> x = y).
Proof.
have [z [z1 z2 _]] := cmp_diff; exists (ra_is_zero z); split; first exact: eventually_bind.
by rewrite (is_zero_spec z2); lra.
Qed.
Lemma cmp_spec : exists c, eventually (fun fuel => ra_cmp rng ffuel fuel a b) c /\ order_of x y c.
Proof.
have [z [z1 z2 _]] := cmp_diff; have [c [ec hcmp]] := cmp_with_zero_spec z2; exists c; split.
  by apply: eventually_then z1 _; rewrite ec; exact: eventually_const.
by case: c hcmp {ec} => /=; lra.
Qed.
Lemma abs_sub_spec : computes (fun fuel => ra_abs_sub rng ffuel fuel a b) (Rmax (x - y) 0) (canonical a /\ canonical b).
Proof.
have [z [z1 z2 z3]] := cmp_diff; have [c [ec hcmp]] := is_negative_spec z2.
have [d0 c0] := from_int_denotes 0.
exists (if c then ra_zero else z); split.
- by apply: eventually_then z1 _; rewrite ec; exact: eventually_const.
- case: c hcmp {ec} => hcmp.
    by rewrite Rmax_right //; have := hcmp.1 erefl; lra.
  by rewrite Rmax_left //; apply: Rnot_lt_le => h; have := hcmp.2 h.
- by case: (c) => //; exact: z3.
Qed.
End Cmp.

(** * Fractional part *)
Lemma fract_irrational a x k rng ffuel : denotes a x -> (forall q, x <> Q2R q) -> is_floor x k ->
  factoring_returns rng ffuel (sub_resultant a (ra_from_int k)) ->
  computes (fun fuel => ra_fract rng ffuel fuel a) (x - IZR k) (canonical a).
Proof.
move=> D irr fl hf; rewrite /ra_fract.
case: (to_rational_spec D) => [[q [_ _ /irr]]//|[-> _]]; cbn [rbind].
have [s [-> hs is_]] := den_shrinker D; cbn [rbind].
have nk : x <> IZR k by have [q ->] := rat_IZR k; exact: irr.
have [s' [ev h' _]] := floor_loop_conv hs fl nk.
have D' : denotes (RA (mp a) (sh_itv s')) x.
  case: (D) => h1 h2 h3 h4 h5; split=> //=; first by split; [exact: rf_in h'|exact: rf_root h'].
  exact: rf_uniq h'.
have [Di Ci] := from_int_denotes k.
have [z [z1 z2 z3]] := diff_rational D' Di (or_intror (rat_IZR k)) hf.
exists z; split=> //; first exact: eventually_then ev z1.
by move=> ca; apply: z3.
Qed.

Lemma quot_trunc n d : is_trunc (Q2R (n # d)) (Z.quot n (Zpos d)).
Proof.
have e := Z.quot_rem' n (Zpos d); have d0 : 0 < IZR (Zpos d) by apply: IZR_lt.
have nE : Q2R (n # d) * IZR (Zpos d) = IZR n by rewrite /Q2R; cbn [Qnum Qden]; field; lra.
have rE : IZR n = IZR (Zpos d) * IZR (Z.quot n (Zpos d)) + IZR (Z.rem n (Zpos d)) by rewrite -mult_IZR -plus_IZR -e.
split=> h.
  have n0 : (0 <= n)%ZZ by apply: le_IZR; nra.
  have [h1 h2] := Z.rem_bound_pos n (Zpos d) n0 erefl.
  by have := IZR_le _ _ h1; have := IZR_lt _ _ h2; rewrite /is_floor; nra.
have n0 : (n <= 0)%ZZ by apply: le_IZR; nra.
have h1 : (- Zpos d < Z.rem n (Zpos d) <= 0)%ZZ.
  by have := Z.rem_bound_pos (- n) (Zpos d) ltac:(lia) erefl; rewrite Z.rem_opp_l //; lia.
by have := IZR_le _ _ h1.2; have := IZR_lt _ _ h1.1; rewrite opp_IZR /is_ceil; nra.
Qed.
Lemma trunc_fun x k k' : is_trunc x k -> is_trunc x k' -> k = k'.
Proof.
rewrite /is_trunc /is_floor /is_ceil => -[h1 h2] [h3 h4].
suff : IZR k < IZR k' + 1 /\ IZR k' < IZR k + 1.
  by rewrite -!plus_IZR => -[/lt_IZR ? /lt_IZR ?]; lia.
by case: (Rle_lt_dec 0 x) => h; [have := h1 h; have := h3 h|have := h2 (Rlt_le _ _ h); have := h4 (Rlt_le _ _ h)]; lra.
Qed.
Lemma fract_rational a x k rng ffuel : denotes a x -> is_rat x -> is_trunc x k ->
  computes (fun fuel => ra_fract rng ffuel fuel a) (x - IZR k) True.
Proof.
move=> D [r er] tk; rewrite /ra_fract.
case: (to_rational_spec D) => [[q [-> _ eq]]|[_ /(_ r)/(_ er) //]]; cbn [rbind].
have [D' C'] := from_ratio_denotes (Qcanon.Qred_involutive (Z.rem (Qnum q) (Zpos (Qden q)) # Qden q)).
exists (ra_from_ratio (ratio_fract q)); split=> //; first exact: eventually_const.
suff -> : x - IZR k = Q2R (Qred (Z.rem (Qnum q) (Zpos (Qden q)) # Qden q)) by [].
rewrite (Qeq_eqR _ _ (Qred_correct _)).
have tq := quot_trunc (Qnum q) (Qden q).
have eqq : (Qnum q # Qden q)%QQ = q by case: (q).
rewrite eqq -eq in tq; rewrite (trunc_fun tk tq) eq /Q2R; cbn [Qnum Qden].
have d0 : 0 < IZR (Zpos (Qden q)) by apply: IZR_lt.
rewrite {1}(Z.quot_rem' (Qnum q) (Zpos (Qden q))) plus_IZR mult_IZR; field; lra.
Qed.

(** * Division and remainder *)
Section Div.
Variables (a b : ralg) (x y : R).
Hypotheses (Da : denotes a x) (Db : denotes b y).
Variables (rng : nat -> Z) (ffuel : nat).

Lemma div_by_zero fuel : y = 0 -> ra_checked_div rng ffuel fuel a b = Ret None /\ ra_div rng ffuel fuel a b = Panic.
Proof.
move=> e; rewrite /ra_div /ra_checked_div.
by case: (checked_recip_spec Db) => [[_ ->]|[[]]] //.
Qed.
Hypothesis y0 : y <> 0.
Variable ib : ralg.
Hypothesis recip_b : eventually (fun fuel => ra_checked_recip fuel b) (Some ib).
Hypothesis Di : denotes ib (/ y).

Lemma div_of f v C : f = (fun fuel => ra_mul rng ffuel fuel a ib) -> computes f v C ->
  computes (fun fuel => ra_div rng ffuel fuel a b) v C.
Proof.
move=> -> [z [z1 z2 z3]]; exists z; split=> //.
rewrite /ra_div /ra_checked_div; apply: (eventually_then (v := Some z)); last exact: eventually_const.
by apply: (eventually_then (v := Some ib)) => //; exact: eventually_bind.
Qed.
Lemma div_spec : factoring_ok rng ffuel (mul_resultant (mp a) (mp ib)) (x / y) -> prod_clear a ib x (/ y) ->
  computes (fun fuel => ra_div rng ffuel fuel a b) (x / y) (canonical a /\ canonical ib).
Proof. by move=> h1 h2; exact: (div_of erefl (prod_spec Da Di h1 h2)). Qed.
Lemma div_rational : is_rat x \/ is_rat y -> factoring_returns rng ffuel (mul_resultant (mp a) (mp ib)) ->
  computes (fun fuel => ra_div rng ffuel fuel a b) (x / y) (canonical a /\ canonical ib).
Proof.
move=> h1 h2; apply: (div_of erefl); apply: (prod_rational Da Di _ h2).
by case: h1 => [|h]; [left|right; exact: rat_inv].
Qed.

Lemma rem_range k : is_trunc (x / y) k -> Rabs (x - IZR k * y) < Rabs y /\
  (0 <= x -> 0 <= x - IZR k * y) /\ (x <= 0 -> x - IZR k * y <= 0).
Proof.
have ex : x = x / y * y by field.
move: ex; set t := x / y => ex; clearbody t; rewrite ex => -[h1 h2].
have -> : t * y - IZR k * y = (t - IZR k) * y by ring.
have {}h1 : 0 <= t -> IZR k <= t < IZR k + 1 by move/h1.
have {}h2 : t <= 0 -> IZR k - 1 < t <= IZR k by move/h2.
rewrite Rabs_mult; split.
  rewrite -{2}[Rabs y]Rmult_1_l; apply: Rmult_lt_compat_r; first exact: Rabs_pos_lt.
  by case: (Rle_lt_dec 0 t) => h; [have := h1 h|have := h2 (Rlt_le _ _ h)] => ?; apply: Rabs_def1; lra.
have [yp|yn] : 0 < y \/ y < 0 by lra.
  split=> h.
    have t0 : 0 <= t by apply: Rnot_lt_le => t0; nra.
    by have := h1 t0; nra.
  have t0 : t <= 0 by apply: Rnot_lt_le => t0; nra.
  by have := h2 t0; nra.
split=> h.
  have t0 : t <= 0 by apply: Rnot_lt_le => t0; nra.
  by have := h2 t0; nra.
have t0 : 0 <= t by apply: Rnot_lt_le => t0; nra.
by have := h1 t0; nra.
Qed.

Lemma rem_rational k m : is_rat x \/ is_rat y -> factoring_returns rng ffuel (mul_resultant (mp a) (mp ib)) ->
  is_trunc (x / y) k -> factoring_returns rng ffuel (mul_resultant (mp (ra_from_int k)) (mp b)) ->
  eventually (fun fuel => ra_mul rng ffuel fuel (ra_from_int k) b) m ->
  factoring_returns rng ffuel (sub_resultant a m) ->
  computes (fun fuel => ra_rem rng ffuel fuel a b) (x - IZR k * y) (canonical a /\ canonical b).
Proof.
move=> hr h1 tk h2 em h3.
have [d [d1 d2 _]] := div_rational hr h1.
have [Dk Ck] := from_int_denotes k.
have [m' [m1 m2 m3]] := prod_rational Dk Db (or_introl (rat_IZR k)) h2.
have mm : m' = m.
  have [N eN] := em; have [M eM] := m1; have := eN (maxn N M); rewrite eM leq_maxl leq_maxr; by case.
rewrite mm in m2 m3.
have hr' : is_rat x \/ is_rat (IZR k * y).
  by case: hr; [left|right; apply: rat_mul => //; exact: rat_IZR].
have [z [z1 z2 z3]] := diff_rational Da m2 hr' h3.
exists z; split=> //; last by move=> [ca cb]; apply: z3; split=> //; exact: m3.
apply: (eventually_then d1); apply: (eventually_then (trunc_spec d2 tk)); exact: (eventually_then em).
Qed.
End Div.
