(** The search for a power ends. *)
From Coq Require Import ZArith QArith Qabs Qreals Qround Reals Lia Lra.
Set Warnings "-notation-overridden,-ambiguous-paths".
From mathcomp Require Import all_ssreflect all_algebra all_field.
From mathcomp.zify Require Import ssrZ.
From Verif Require Import M_Base M_Traits M_Util M_Interval M_IntervalExp M_Poly M_PolyCoef P_PolyInst M_PolyAlg M_Factor M_Alg
  S_Poly S_PolyAlg S_Factor S_Interval P_Traits P_Interval P_IntervalExp P_ExpSign P_Poly P_PolyAlgInst P_PolyAlgRef P_FactorZ P_FactorAll P_FactorSF
  P_Rstruct S_Alg S_AlgOps P_AlgBase P_AlgShrink P_AlgBasic P_AlgSign P_AlgNeg P_AlgRecip P_AlgSelect P_AlgRoot P_AlgRes P_AlgRef P_AlgPow P_PowClose S_Pow.
Set Implicit Arguments.
Unset Strict Implicit.
Unset Printing Implicit Defensive.
Import Order.TTheory GRing.Theory Num.Theory.
Delimit Scope Z_scope with ZZ.
Delimit Scope R_scope with RR.
Delimit Scope Q_scope with QQ.
Local Open Scope R_scope.
Local Notation Rt p := (root (real_poly p)).
Local Notation PV p := (pval int_sem p).
Local Notation rp := (map_poly (intr : int -> rat)).

(** * A loop that reaches an interval with a single root *)
Section Finite.
Variables (St : Type) (get : St -> res dfi) (step : St -> res St).
Variables (v : R) (sts : nat -> St) (itvs : nat -> dfi) (N : nat).
Hypotheses (get_sts : forall n, (n <= N)%N -> get (sts n) = Ret (itvs n)) (step_sts : forall n, (n < N)%N -> step (sts n) = Ret (sts n.+1)).
Hypothesis v_in : forall n, (n <= N)%N -> inI v (itvs n).

Lemma loop_ends gs l : (forall w, inI w (itvs N) -> rooted w gs -> w = v) ->
  List.Forall2 seq_of gs l -> apart gs -> rooted v gs ->
  exists z M, (M <= N.+1)%N /\ forall fuel, select_loop get step fuel (sts 0%N) l = if (M <= fuel)%N then Ret z else NoFuel.
Proof.
move=> only H ap rv.
suff L d : forall n gs l, (n + d)%N = N -> (forall w, inI w (itvs N) -> rooted w gs -> w = v) ->
    List.Forall2 seq_of gs l -> apart gs -> rooted v gs ->
    exists z M, (M <= d.+1)%N /\ forall fuel, select_loop get step fuel (sts n) l = if (M <= fuel)%N then Ret z else NoFuel.
  exact: (L N 0%N gs l).
elim: d => [|d IH] n {H rv ap only}gs {}l hn only H ap rv.
all: have nN : (n <= N)%N by rewrite -hn leq_addr.
all: have vn := v_in nN.
all: have ok : lo (itvs n) <= hi (itvs n) by move: vn; rewrite inIE; lra.
all: have := pass_ok ok [::] 0 H ap; case EP: (select_pass _ _ _ _ _) => [q|[k m]].
1,3: by move=> _; exists (ra_from_ratio q), 1%N; split=> // -[|fuel] //; cbn [select_loop]; rewrite (get_sts nN); cbn [rbind]; rewrite EP.
all: case=> gs' [l' [s [ek fl lf [us ms em]]]]; rewrite add0n in em; rewrite /= in ek.
all: have [le1 le2 le3 le4] := lf.
all: have fin : (m <= 1)%N -> exists z M, (M <= 1)%N /\ forall fuel, select_loop get step fuel (sts n) l = if (M <= fuel)%N then Ret z else NoFuel.
1,3: move=> m1; case: fl ek le4 => [|g x gs2 l2 [sg hd] fl2] ek le4; first by have := le4 v vn; rewrite rv.
1,2: by exists (RA (into_factor x) (itvs n)), 1%N; split=> // -[|fuel] //; cbn [select_loop]; rewrite (get_sts nN); cbn [rbind]; rewrite EP m1 ek.
- apply: fin; rewrite em.
  have h w : w \in s -> w = v by move=> /ms [iw rw]; apply: only => //; rewrite -hn addn0.
  case: s us h {ms em} => [|a [|b s]] // /andP[]; rewrite inE negb_or => /andP[/eqP nab _] _ h.
  case: nab; have ha : a = v by apply: h; exact: mem_head.
  by rewrite ha; symmetry; apply: h; rewrite inE mem_head orbT.
- case: (leqP m 1) => m1.
    by have [z [M [hM hz]]] := fin m1; exists z, M; split=> //; exact: leq_trans hM _.
  have [||||z [M [leM hM]]] := IH n.+1 gs' l' _ _ fl _ _.
  + by rewrite addSnnS.
  + by move=> w iw rw; apply: only => //; exact: rooted_sub rw.
  + by move=> w; apply: leq_trans (le2 w) (ap w).
  + by rewrite le4.
  exists z, M.+1; split=> // -[|fuel] //; cbn [select_loop]; rewrite (get_sts nN); cbn [rbind].
  have nN' : (n < N)%N by rewrite -hn addnS ltnS leq_addr.
  by rewrite EP leqNgt m1 /= (step_sts nN') ek; cbn [rbind]; rewrite hM.
Qed.

Lemma select_ends rng ffuel P c fs : wf int_sem P -> PV P != 0%R -> Rt P v -> (forall w, inI w (itvs N) -> Rt P w -> w = v) ->
  factor_with_rng rng ffuel P = Ret (c, fs) ->
  exists z M, (M <= N.+1)%N /\ forall fuel, select_root get step rng ffuel fuel (sts 0%N) P = if (M <= fuel)%N then Ret z else NoFuel.
Proof.
move=> wP P0 Pv only E; have := @factor_all_ok rng ffuel P wP; rewrite E => -[fo EP].
have [l [el fl]] := sturm_map fo.
have rad := factor_rad wP E.
have ap : apart (map fst fs) by apply: sep_apart; rewrite big_map.
have rr w := factor_root w EP P0 fo.
have [||z [M [hM hz]]] := loop_ends _ fl ap.
- by move=> w iw; rewrite -rr; exact: only.
- by rewrite -rr.
by exists z, M; split=> // fuel; rewrite /select_root E; cbn [rbind]; rewrite el; cbn [rbind]; exact: hz.
Qed.
End Finite.

(** * All real roots of the resultant, if the power of the base is rational *)
Lemma power_roots a x n d r w : denotes a x -> (0 < n)%N -> is_rat (x ^ n) -> pow_resultant (mp a) n d = Ret r ->
  Rt r w -> w ^ d = x ^ n.
Proof.
move=> D n0 [q xq] er; have [r' [e w' h]] := pow_resultant_spec d (den_wf D) (den_neq0 D) n0.
move: e; rewrite er => -[{1}->] {w'}; rewrite /real_poly h => sg.
set P := map_poly intr (PV (mp a)) in sg; set c := q2rat q.
have xc : (x ^+ n)%R = ratr c by rewrite powE xq /c q2rat_R.
(* the polynomial of a divides X^n - c *)
pose B : {poly rat} := ('X^n - c%:P)%R.
have rxB : root (map_poly ratr B) x.
  by rewrite /B rmorphB /= map_polyXn map_polyC /root hornerD hornerN hornerC hornerXn xc subrr.
have rx : root (map_poly (ratr : rat -> R) (rp (PV (mp a)))) x by rewrite real_rat; exact: den_root D.
have dvB : (rp (PV (mp a)) %| B)%R.
  have [s1 irr] := den_irr D.
  have sg2 : (1 < size (gcdp (rp (PV (mp a))) B))%N.
    rewrite -(size_map_poly [rmorphism of (ratr : rat -> R)]) gcdp_map; apply: (common_root (w := x)) => //.
    by rewrite map_poly_eq0 -size_poly_gt0; exact: ltn_trans s1.
  have /eqp_dvdl e : (gcdp (rp (PV (mp a))) B %= rp (PV (mp a)))%R by apply: irr; [rewrite neq_ltn sg2 orbT|exact: dvdp_gcdl].
  by rewrite -e dvdp_gcdr.
have dv : (P %| map_poly ratr B)%R by rewrite /P -real_rat dvdp_map.
set G := gcdp P _ in sg.
have g1 : (G %| map_poly ratr B)%R by exact: dvdp_trans (dvdp_gcdl _ _) dv.
have g2 : (G %| (w ^+ d - x ^+ n)%:P)%R.
  rewrite (_ : (w ^+ d - x ^+ n)%:P = map_poly ratr B + pow_at w n d)%R; first by apply: dvdp_add; [exact: g1|exact: dvdp_gcdr].
  have -> : map_poly ratr B = ('X^n - (x ^+ n)%:P)%R by rewrite /B rmorphB /= map_polyXn map_polyC /= -xc.
  by rewrite /pow_at polyCB [RHS]addrC addrA subrK.
case: (Req_dec (w ^ d) (x ^ n)) => // ne; exfalso.
have nz : ((w ^+ d - x ^+ n)%:P)%R != 0%R :> {poly R}.
  by rewrite polyC_eq0 subr_eq0 !powE; apply/eqP.
by have := dvdp_leq nz g2; rewrite size_polyC; move: sg; case: (_ != _) => /=; case: (size G) => [|[]].
Qed.

(** * The intervals *)
Lemma interval_chain ln2 e s : (0 < dlo (dfi_abs (sh_itv s)))%ZZ -> (dlo (dfi_abs (sh_itv s)) < dhi (dfi_abs (sh_itv s)))%ZZ ->
  pow_interval ln2 e Positive s = pow_chain ln2 e (dfi_abs (sh_itv s)).
Proof.
move=> h1 h2; rewrite /pow_interval /pow_chain.
have -> : (dhi (dfi_abs (sh_itv s)) =? 0)%ZZ = false by apply/Z.eqb_neq; lia.
have -> : (dlo (dfi_abs (sh_itv s)) =? 0)%ZZ = false by apply/Z.eqb_neq; lia.
by case: dfi_log => //= i; case: dfi_exp.
Qed.

Lemma ln2_half : / 2 < ln 2.
Proof.
rewrite -(ln_exp (/ 2)); apply: ln_increasing; first exact: exp_pos.
have e : exp (/ 2) = exp (/ 4) * exp (/ 4) by rewrite -exp_plus; congr exp; field.
have := exp_pos (/ 4); have h : exp (/ 4) * exp (- / 4) = 1 by rewrite -exp_plus -exp_0; congr exp; ring.
have := exp_ineq1_le (- / 4); rewrite e => h1 h2.
have h4 : exp (/ 4) <= 4 / 3 by nra.
by nra.
Qed.
(** A refinement that is precise enough *)
Theorem pow_precise ln2 e y s k t : ln2_good ln2 -> 0 < Q2R e -> let j := dfi_abs (sh_itv t) in
  (dlo j < dhi j)%ZZ -> inI (Rabs y) j -> 3 / 2 * powerRZ 2 s <= lo j -> hi j < 3 * powerRZ 2 s ->
  (Z.of_nat (dlog j) <= 2 ^ 60)%ZZ -> (Z.abs k <= 2 ^ 30)%ZZ ->
  let v := Rpower (Rabs y) (Q2R e) in let m := log_slack e s (dlog j) (lo j) (hi j) in
  m <= 3 / 4 -> IZR k * ln 2 + (m + / 2 ^ dlog j) <= ln v <= (IZR k + 1) * ln 2 - (m + / 2 ^ dlog j) ->
  exists i, [/\ pow_interval ln2 e Positive t = Ret i, Rabs (lo i - v) <= pow_slack e s (dlog j) (lo j) (hi j) v &
    Rabs (hi i - v) <= pow_slack e s (dlog j) (lo j) (hi j) v].
Proof.
move=> H2 e0 j lt iy hl hu hd hk v m m1; rewrite /v /Rpower ln_exp => -[k1 k2].
have l0 : (0 < dlo j)%ZZ.
  case: (Z_lt_le_dec 0 (dlo j)) => // /(dyadic_le _ _ (dlog j)); rewrite P_AlgPow.dyadic_0 -/(lo j).
  by have := powerRZ_lt 2 s; lra.
rewrite interval_chain //; rewrite -/j.
have [||r [er [rl [r1 r2]]]] := @pow_close ln2 e (Rabs y) s k j H2 e0 lt iy hl hu hd hk _ _ m1.
- by rewrite -/(lo j) -/(hi j) -/m; lra.
- by rewrite -/(lo j) -/(hi j) -/m; lra.
by exists r; split=> //; rewrite /lo /hi rl.
Qed.

Lemma pow_interval_sign ln2 e s j : pow_interval ln2 e Positive s = Ret j ->
  exists i, [/\ pow_interval ln2 e Negative s = Ret i, lo i = - hi j & hi i = - lo j].
Proof.
rewrite /pow_interval; set k := dfi_abs _; case: Z.eqb_spec => e1.
  case: Z.eqb_spec => e2 //=; case=> <-; exists k; split=> //; rewrite /lo /hi e1 e2 P_AlgPow.dyadic_0; lra.
case: (dfi_log _ _) => [i1| |] //; cbn [rbind].
case: (dfi_exp _ _) => [i2| |] //; cbn [rbind].
case: (if _ then _ else _) => [i3| |] //; cbn [rbind] => -[<-].
by exists (dfi_neg i3); split=> //; rewrite /lo /hi /dfi_neg /= dyadic_opp.
Qed.

(** Intervals on the side of zero of the power *)
Definition side (sign : Sign) (w : R) : Prop := if sign is Positive then 0 <= w else w <= 0.
Lemma pow_interval_side ln2 e sign s i w : ln2_good ln2 -> pow_interval ln2 e sign s = Ret i -> inI w i -> side sign w.
Proof.
move=> H2; rewrite inIE /side; case: sign => h.
  case: (pow_interval_neg h) => [[_ [h1 h2]]|[j [hj h1 h2]]]; first by lra.
  by have := pow_interval_nn H2 hj; lra.
by have := pow_interval_nn H2 h; lra.
Qed.

Theorem search_ends ln2 rng ffuel b y e sign s r v N : ln2_good ln2 -> denotes b y -> y <> 0 -> (0 < Qnum e)%ZZ ->
  let n := Z.to_nat (Qnum e) in let d := Pos.to_nat (Qden e) in
  v ^ d = y ^ n -> (if sign is Positive then 0 < v else v < 0) -> Rabs v = Rpower (Rabs y) (Q2R e) ->
  factoring_returns rng ffuel (Ret r) ->
  pow_resultant (mp b) n d = Ret r -> ra_shrinker b = Ret s ->
  pow_steps ln2 N b y e -> pow_isolates ln2 N b e v ->
    exists z M, (M <= N.+1)%N /\
      forall fuel, select_root (pow_interval ln2 e sign) (fun s => rmap snd (shrink s)) rng ffuel fuel s r = if (M <= fuel)%N then Ret z else NoFuel.
Proof.
move=> H2 D y0 ep n d ev sg av fo er es hs iso.
have n0 : (0 < n)%N by exact: to_nat_pos.
have d0 : (0 < d)%N by exact: (@to_nat_pos (Zpos _)).
have [r' [er' wr r0 rv hq]] := power_resultant D y0 n0 d0 ev; move: er'; rewrite er => -[e']; rewrite -{}e' in wr r0 rv hq.
have [[c fs] E] := fo r erefl.
pose stf k := if refine_steps k b is Ret t then t else s.
pose itf k := if pow_interval ln2 e sign (stf k) is Ret i then i else itv b.
have hst k : refine_steps k b = Ret (stf k) by have [t [et _ _ _]] := refine_steps_ok D k; rewrite /stf et.
have hit k : (k <= N)%N -> exists j, [/\ pow_interval ln2 e Positive (stf k) = Ret j, pow_interval ln2 e sign (stf k) = Ret (itf k), inI v (itf k) &
    forall w, inI w (itf k) -> side sign w /\ inI (Rabs w) j].
  move=> hk; have [_ [j [hj iv]]] := hs k (stf k) hk (hst k); exists j; rewrite -av in iv; have j0 := pow_interval_nn H2 hj.
  rewrite /itf; case: (sign) sg => sg.
    have [i [-> i1 i2]] := pow_interval_sign hj; split=> //.
      by move: iv; rewrite !inIE i1 i2 Rabs_left //; lra.
    by move=> w; rewrite !inIE i1 i2 /side /Rabs; case: Rcase_abs => ? ?; lra.
  rewrite hj; split=> //; first by rewrite Rabs_right in iv => //; lra.
  by move=> w; rewrite !inIE /side /Rabs; case: Rcase_abs => ? ?; lra.
have s0 : stf 0%N = s by rewrite /stf /= es.
rewrite -s0; apply: (select_ends (itvs := itf) (N := N) _ _ _ wr r0 rv _ E).
- by move=> k /hit [j []].
- by move=> k _; have := hst k.+1; cbn [refine_steps]; rewrite hst.
- by move=> k /hit [j []].
move=> w iw rw; have [j [hj hi iv jw]] := hit N (leqnn _); have [sw ij] := jw w iw.
have [sv _] := jw v iv; have := iso r (stf N) j w er (hst N) hj rw ij.
by move: sg sv sw; rewrite /side /Rabs; case: (sign) => ? ? ?; do 2!case: Rcase_abs => ?; lra.
Qed.

Lemma is_neg_eq (P : Prop) n1 n2 : (n1 = true <-> P) -> (n2 = true <-> P) -> n1 = n2.
Proof. by case: n1; case: n2 => // h1 h2; [symmetry|]; tauto. Qed.

Theorem pow_returns a x e b v : denotes a x -> Qred e = e -> ~ pow_undefined x e -> is_pow x e v -> pow_fits e ->
  eventually (fun fuel => pow_base fuel a e) b -> denotes b (pow_arg x e) ->
  forall ln2 rng ffuel N, ln2_good ln2 ->
  factoring_ok rng ffuel (pow_resultant (mp b) (Z.to_nat (Z.abs (Qnum e))) (Pos.to_nat (Qden e))) v ->
  pow_steps ln2 N b (pow_arg x e) (Qabs e) -> pow_isolates ln2 N b (Qabs e) v ->
    exists z, [/\ eventually (fun fuel => ra_checked_pow rng ffuel fuel ln2 a e) (Some z), denotes z v &
      canonical a -> Qnum e <> (-1)%ZZ \/ is_rat x -> canonical z].
Proof.
move=> D re def iv fit [Nb hb] Db ln2 rng ffuel N H2 fo hs iso.
have done_ : pow_computes a e ln2 rng ffuel v -> 
    exists z, [/\ eventually (fun fuel => ra_checked_pow rng ffuel fuel ln2 a e) (Some z), denotes z v &
      canonical a -> Qnum e <> (-1)%ZZ \/ is_rat x -> canonical z].
  by move=> [z [h1 h2 h3]]; exists z; split=> // ca _; exact: h3.
case: (base_cases x) => [h|h|h|nb].
1-3: by apply: done_; apply: (pow_unit_ok D def) => //; rewrite /unit_base; tauto.
have x0 : x <> 0 by move=> h; apply: nb; left.
case: (exp_cases e) => [h0|[hd h1]|[hd h1]|[n0 nu]].
- apply: done_; have [|z [h1 h2 h3]] := @pow_unit_top ln2 rng ffuel a x e v D re def iv; first by right; left.
  by exists z.
- apply: done_; have [|z [h1' h2 h3]] := @pow_unit_top ln2 rng ffuel a x e v D re def iv.
    by right; right; case: (e) h1 hd => /= ? ? -> ->.
  by exists z.
- exists b; have run fuel : ra_checked_pow rng ffuel fuel ln2 a e = if (Nb <= fuel)%N then Ret (Some b) else NoFuel.
    rewrite pow_expN1 //; have := hb fuel; rewrite /pow_base h1 /= /ra_recip.
    case: ra_checked_recip => [[z|]| |] //=; case: ifP => // _.
    by case=> ->.
  have vx : v = / x by move/(is_pow_int v hd x0): iv; rewrite h1 /= Rmult_1_r.
  split; first by exists Nb.
    by move: Db; rewrite /pow_arg h1 /= -vx.
  move=> _ [//|rx].
  case: (checked_recip_spec D) => [[]//|[_ [b' [[M eb] _ /(_ rx) [_ cb] _]]]].
  by have := run (maxn Nb M); rewrite pow_expN1 // eb leq_maxl leq_maxr => -[<-].
have [neg0 [hneg0 _]] := pow_general ln2 rng ffuel 0 D n0 nu nb (undefN def).
have G fuel : ra_checked_pow rng ffuel fuel ln2 a e = pow_rest ln2 rng ffuel fuel a e neg0.
  have [neg [hneg ->]] := pow_general ln2 rng ffuel fuel D n0 nu nb (undefN def).
  by rewrite (is_neg_eq hneg hneg0).
have [fn fd] := fit.
set n := Z.to_nat (Z.abs (Qnum e)) in fo *; set d := Pos.to_nat (Qden e) in fo *.
have un : unwrap (to_usize (Z.abs (Qnum e))) = Ret n by rewrite to_usize_fits //; lia.
have ud : unwrap (to_usize (Zpos (Qden e))) = Ret d by rewrite to_usize_fits //; lia.
have [a1 a2 a3] := arg_pow def x0 iv hneg0; rewrite -/n -/d in a2.
have [br ebr hr] : exists2 br, (if d == 1%N then ra_to_rational a else Ret None) = Ret br & forall q, br = Some q -> Qden e = 1%positive /\ is_rat x.
  case: eqP => d1; last by exists None.
  have hd : Qden e = 1%positive by rewrite /d in d1; lia.
  case: (to_rational_spec D) => [[q [-> _ xq]]|[-> _]]; last by exists None.
  by exists (Some q) => // q' _; split=> //; exists q.
case: br ebr hr => [q|] ebr hr.
  have [hd rx] := hr q erefl; apply: done_; rewrite (proj1 (is_pow_int v hd x0) iv); exact: pow_rational_ok.
have nn : (0 < n)%N by apply: to_nat_pos; lia.
have dd : (0 < d)%N by exact: (@to_nat_pos (Zpos _)).
have y0 := arg_n0 (e := e) x0.
have [r [er wr _ _ _]] := power_resultant Db y0 nn dd a2.
have [s [es _ _]] := den_shrinker Db.
have qe : Qabs e = (Z.abs (Qnum e) # Qden e)%QQ by case: (e).
have eq : ratio_new (Z.of_nat n) (Z.of_nat d) = Ret (Qabs e).
  rewrite /n /d positive_nat_Z ratio_new_pos Z2Nat.id; last by lia.
  congr Ret; rewrite qe; apply/Qcanon.Qred_iff; cbn [Qnum Qden]; rewrite Z.gcd_abs_l; exact: gcd_red re.
have fo' : factoring_returns rng ffuel (Ret r).
  by move=> p [<-]; have [c [fs [E _]]] := fo r er; exists (c, fs).
have [sign esign] : exists sign, sign = if neg0 && Z.odd (Qnum e) then Negative else Positive by eexists.
have ep : (0 < Qnum (Qabs e))%ZZ by rewrite qe; cbn [Qnum]; lia.
have [en ed] : n = Z.to_nat (Qnum (Qabs e)) /\ d = Pos.to_nat (Qden (Qabs e)) by rewrite qe.
have [|||z [M [leM hM]]] := @search_ends ln2 rng ffuel b (pow_arg x e) (Qabs e) sign s r v N H2 Db y0 ep _ _ a1 fo' _ es hs iso.
- by rewrite -en -ed.
- by rewrite esign; move: a3; case: (_ && _).
- by rewrite -en -ed.
have run fuel : ra_checked_pow rng ffuel fuel ln2 a e = if (maxn Nb M <= fuel)%N then Ret (Some z) else NoFuel.
  rewrite G /pow_rest un ud; cbn [rbind]; rewrite ebr; cbn [rbind]; rewrite hb geq_max.
  case: (Nb <= fuel)%N => //; cbn [rbind]; rewrite er; cbn [rbind]; rewrite es; cbn [rbind]; rewrite eq; cbn [rbind].
  by rewrite -esign hM; case: (M <= fuel)%N.
have hz := hM N.+1; rewrite leM in hz.
have [||d1 d2] := @pow_core ln2 rng ffuel N.+1 b (pow_arg x e) n d (Qabs e) sign s r z v H2 Db y0 nn dd a2 _ _ fo er es hz.
- by rewrite esign; move: a3; case: (_ && _).
- move=> k t i hk ht hi; have [_ [j [hj ij]]] := hs k t hk ht; by move: hi; rewrite hj a1 => -[<-].
by exists z; split=> //; exists (maxn Nb M).
Qed.

(** * Intervals that contain a single candidate *)
Lemma isolates_rational ln2 N b y e v : denotes b y -> (0 < Qnum e)%ZZ ->
  v ^ Pos.to_nat (Qden e) = y ^ Z.to_nat (Qnum e) -> is_rat (y ^ Z.to_nat (Qnum e)) -> pow_isolates ln2 N b e v.
Proof.
move=> D ep ev rat r s i w er _ _ rw _; apply: (@pow_abs_inj _ _ (Pos.to_nat (Qden e))); first exact: (@to_nat_pos (Zpos _)).
by rewrite ev; apply: (power_roots D _ rat er rw); exact: to_nat_pos.
Qed.
Lemma isolates_precise ln2 N b e v i t del : refine_steps N b = Ret t -> pow_interval ln2 e Positive t = Ret i ->
  Rabs (lo i - Rabs v) <= del -> Rabs (hi i - Rabs v) <= del ->
  (forall r w, pow_resultant (mp b) (Z.to_nat (Qnum e)) (Pos.to_nat (Qden e)) = Ret r -> Rt r w -> Rabs w <> Rabs v ->
    del < Rabs (Rabs w - Rabs v)) -> pow_isolates ln2 N b e v.
Proof.
move=> ht hi d1 d2 gp r t' i' w er ht' hi' rw iw; move: ht'; rewrite ht => -[et]; move: hi'; rewrite -et hi => -[ei].
rewrite -{}ei inIE in iw; case: (Req_dec (Rabs w) (Rabs v)) => // ne; exfalso; have := gp r w er rw ne.
move: iw d1 d2; move: (Rabs w) (Rabs v) (lo i) (S_Alg.hi i) => W V l u iw; rewrite /Rabs.
by do 3!case: Rcase_abs => ?; lra.
Qed.
Theorem isolates_close ln2 N b y e v s k t : ln2_good ln2 -> 0 < Q2R e -> refine_steps N b = Ret t -> let j := dfi_abs (sh_itv t) in
  (dlo j < dhi j)%ZZ -> inI (Rabs y) j -> 3 / 2 * powerRZ 2 s <= lo j -> hi j < 3 * powerRZ 2 s ->
  (Z.of_nat (dlog j) <= 2 ^ 60)%ZZ -> (Z.abs k <= 2 ^ 30)%ZZ -> Rabs v = Rpower (Rabs y) (Q2R e) ->
  let m := log_slack e s (dlog j) (lo j) (hi j) in
  m <= 3 / 4 -> IZR k * ln 2 + (m + / 2 ^ dlog j) <= ln (Rabs v) <= (IZR k + 1) * ln 2 - (m + / 2 ^ dlog j) ->
  (forall r w, pow_resultant (mp b) (Z.to_nat (Qnum e)) (Pos.to_nat (Qden e)) = Ret r -> Rt r w -> Rabs w <> Rabs v ->
    pow_slack e s (dlog j) (lo j) (hi j) (Rabs v) < Rabs (Rabs w - Rabs v)) ->
  pow_isolates ln2 N b e v.
Proof.
move=> H2 e0 ht j lt iy hl hu hd hk av m m1 mk gp; rewrite av in mk.
have [i [hi' i1 i2]] := @pow_precise ln2 e y s k t H2 e0 lt iy hl hu hd hk m1 mk.
by rewrite -av in i1 i2; exact: isolates_precise ht hi' i1 i2 gp.
Qed.
