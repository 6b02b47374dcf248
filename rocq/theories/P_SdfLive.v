(** Factorisation can always finish: whatever the first N random draws were,
    some continuation of the random stream makes every loop end. *)
From Coq Require Import ZArith Lia List Permutation QArith Qcanon.
Set Warnings "-notation-overridden,-ambiguous-paths".
From mathcomp Require Import all_ssreflect all_fingroup all_algebra.
From mathcomp Require Import finfield.
From mathcomp.zify Require Import ssrZ zify_ssreflect zify_algebra.
From Verif Require Import M_Base M_Traits M_Util M_Poly M_PolyCoef M_PolyAlg M_Factor S_Int S_Poly S_PolyAlg S_Factor
  P_Util P_Poly P_PolyDiv P_PolyInst P_PolyGcd P_PolyField P_PolyAlgInst P_PolyAlgRef P_Yun P_FactorP P_Hensel P_HenselTree P_ExtGcd P_Heap
  P_FactorZ P_FactorTree P_FactorAll P_SameDegree.
Set Implicit Arguments.
Unset Strict Implicit.
Unset Printing Implicit Defensive.
Import GRing.Theory.
Local Open Scope ring_scope.
Delimit Scope Z_scope with ZZ.
Local Notation monic := mathcomp.algebra.poly.monic.

(** * Computations that can finish *)
Definition agree (N : nat) (rng rng' : nat -> Z) : Prop := forall i, (i < N)%N -> rng' i = rng i.
Definition live A (g : (nat -> Z) -> nat -> res A) : Prop := forall rng N, exists rng' F r M,
  [/\ agree N rng rng', r <> NoFuel & forall rng'' fuel, (F <= fuel)%N -> agree M rng' rng'' -> g rng'' fuel = r].

Lemma agree_refl N r : agree N r r.  Proof. by []. Qed.
Lemma agree_trans N M r1 r2 r3 : (N <= M)%N -> agree N r1 r2 -> agree M r2 r3 -> agree N r1 r3.
Proof. by move=> h a b i hi; rewrite b ?a //; exact: leq_trans hi h. Qed.
Lemma agree_le N M r1 r2 : (N <= M)%N -> agree M r1 r2 -> agree N r1 r2.
Proof. by move=> h a i hi; rewrite a //; exact: leq_trans hi h. Qed.

Lemma live_fuel A (g : nat -> res A) F r : r <> NoFuel -> (forall fuel, (F <= fuel)%N -> g fuel = r) ->
  live (fun _ fuel => g fuel).
Proof. by move=> h1 h2 rng N; exists rng, F, r, 0%N; split=> // rng'' fuel hf _; exact: h2. Qed.
Lemma live_const A (r : res A) : r <> NoFuel -> live (fun _ _ => r).
Proof. by move=> h; apply: (@live_fuel _ (fun _ => r) 0%N r). Qed.
Lemma live_ext A (g g' : (nat -> Z) -> nat -> res A) : (forall rng fuel, g' rng fuel = g rng fuel) -> live g -> live g'.
Proof.
move=> E h rng N; have [rng' [F [r [M [h1 h2 h3]]]]] := h rng N.
by exists rng', F, r, M; split=> // rng'' fuel hf ha; rewrite E h3.
Qed.
Lemma live_bind A B (g : (nat -> Z) -> nat -> res A) (h : A -> (nat -> Z) -> nat -> res B) :
  live g -> (forall a rng fuel, g rng fuel = Ret a -> live (h a)) ->
  live (fun rng fuel => rbind (g rng fuel) (fun a => h a rng fuel)).
Proof.
move=> lg lh rng N; have [r1 [F1 [v1 [M1 [a1 n1 e1]]]]] := lg rng N.
case: v1 n1 e1 => [a| |] // n1 e1; last first.
  by exists r1, F1, Panic, M1; split=> // r2 fuel hf ha; rewrite e1.
have [r2 [F2 [v2 [M2 [a2 n2 e2]]]]] := lh a r1 F1 (e1 r1 F1 (leqnn _) (@agree_refl _ _)) r1 (maxn N M1).
exists r2, (maxn F1 F2), v2, (maxn M1 M2); split=> //.
  by apply: agree_trans (leq_maxl N M1) a1 a2.
move=> r3 fuel; rewrite geq_max => /andP[f1 f2] a3.
rewrite (e1 r3 fuel f1) /=; first by apply: e2 f2 _; apply: agree_le a3; exact: leq_maxr.
move=> i hi; rewrite a3 ?a2 //; first by apply: leq_trans hi (leq_maxr _ _).
by apply: leq_trans hi (leq_maxl _ _).
Qed.

(** * Same-degree factorisation *)
Section Fp.
Variable p : positive.
Notation pn := (Pos.to_nat p).
Hypotheses (p_pr : prime pn) (p_odd : (2 < pn)%N).
Notation S := (@modp_sem (Zpos p) pn isT (pnE p) p_pr).
Notation pv := (@pval (mc p) [comUnitRingType of 'F_pn] S).
Notation wf := (@wf (mc p) [comUnitRingType of 'F_pn] S).
Notation F := [finFieldType of 'F_pn].
Variable d : nat.
Hypothesis d0 : (0 < d)%N.
Notation ee := (Z.quot (Zpos p ^ Z.of_nat d - 1) 2)%ZZ.
Notation HX := (@HX p p_pr).
Notation HR := (@HR p p_pr).

Lemma two_neq0 : (2%:R : 'F_pn) != 0.
Proof.
by rewrite -(dvdn_charf (char_Fp p_pr)); apply/negP => /dvdn_leq => /(_ isT); rewrite leqNgt p_odd.
Qed.
Lemma eeE : (#|F| ^ d = (2 * Z.to_nat ee).+1)%N.
Proof.
rewrite cardF //; set E := (pn ^ d)%N.
have -> : (Zpos p ^ Z.of_nat d = Z.of_nat E)%ZZ.
  rewrite /E pnE; elim: (d) => // k IH; rewrite Nat2Z.inj_succ Z.pow_succ_r; last lia.
  by rewrite IH expnS Nat2Z.inj_mul.
have oE : odd E.
  by rewrite /E oddX; have [h|->] := even_prime p_pr; rewrite ?orbT //; move: p_odd; rewrite h.
have := odd_double_half E; rewrite oE -muln2 => <-.
set h := E./2; have -> : (Z.of_nat (true + h * 2) - 1 = Z.of_nat h * 2)%ZZ by lia.
by rewrite Z.quot_mul //; lia.
Qed.
Lemma ee0 : (0 < Z.to_nat ee)%N.
Proof. by have := ee_pos p_pr p_odd d0; lia. Qed.

(** The draw with given coefficients. *)
Definition use (T : {poly 'F_pn}) (rng : nat -> Z) (pos i : nat) : Z :=
  if (i < pos)%N then rng i else Z.of_nat (nat_of_ord (T`_(i - pos))).
Lemma use_agree T rng N pos : (N <= pos)%N -> agree N rng (use T rng pos).
Proof. by move=> h i hi; rewrite /use (leq_trans hi h). Qed.
Lemma use_random T rng pos : T \is monic -> size T = (2 * d)%N ->
  pv (random_polynomial p (use T rng pos) d pos) = T.
Proof.
move=> mT sT; rewrite /random_polynomial (from_iterator_spec S (K := mc p) _).2 map_cat -map_comp.
rewrite -[RHS]polyseqK; congr Poly.
have dd : ((2 * d - 1).+1 = 2 * d)%N by rewrite subn1 prednK // muln_gt0.
apply: (@eq_from_nth _ 0) => [|i]; first by rewrite size_cat /= size_map size_iota addn1 dd sT.
rewrite size_cat /= size_map size_iota addn1 ltnS leq_eqVlt nth_cat size_map size_iota => /orP[/eqP->|hi].
  rewrite ltnn subnn /=; move/monicP: mT; rewrite /lead_coef sT -subn1 => ->.
  by have := vc1 S.
rewrite hi (nth_map 0%N) ?size_iota // nth_iota //=.
rewrite /use ltnNge leq_addr /= addKn.
rewrite -[LHS]/(@rp _ (pdiv pn) (@mk_residue (Zpos p) isT (Z.of_nat (nat_of_ord T`_i)))).
by rewrite (rp_mk _ (pdE (pnE p) p_pr) (pd_gt1 p_pr)) zp_nat; exact: natr_Zp.
Qed.

Lemma random_eq rng rng' pos : agree (pos + (2 * d - 1)) rng rng' ->
  random_polynomial p rng' d pos = random_polynomial p rng d pos.
Proof.
move=> a; rewrite /random_polynomial; congr (from_iterator (_ ++ _)); apply/eq_in_map => i.
by rewrite mem_iota => /andP[_ h]; rewrite a.
Qed.

(** One pass of the inner loop. *)
Lemma try_step f (R : mpoly p) : wf f -> (1 < size (pv f))%N -> wf R ->
  exists g q, pv g %= gcdp (pv f) ((pv R ^+ Z.to_nat ee) %% pv f - 1) /\
   forall rng fuel pos, random_polynomial p rng d pos = R ->
   sdf_try rng fuel.+1 d ee f pos =
     if (1 < size (pv g))%N && (size (pv g) < size (pv f))%N then Ret (g, q, pos + (2 * d - 1))%N
     else sdf_try rng fuel d ee f (pos + (2 * d - 1)).
Proof.
move=> wff f1 wR; have f0 : pv f != 0 by rewrite -size_poly_gt0 ltnW.
have [t [_ Et wt vt]] := powmod_spec HX wR wff f0 (ee_pos p_pr p_odd d0).
have [w1 v1] := sub_single_spec (S := S) t (c_one (mc p)) (fun _ => erefl).
have [g [Eg wg gg mg]] := poly_gcd_ok HX HR wff w1.
have lg : poly_len g = size (pv g) by rewrite size_pval.
have lf : poly_len f = size (pv f) by rewrite size_pval.
have g0 : pv g != 0 by rewrite (eqp_eq0 gg) gcdp_eq0 negb_and f0.
have dg : pv g %| pv f by rewrite (eqp_dvdl _ gg) dvdp_gcdl.
have E : pv f = (pv f %/ pv g) * pv g by rewrite divpK.
have [q [Eq _ wq eq]] := exact_div_ok HX wff wg g0 E.
exists g, q; split; first by move: gg; rewrite v1 vt (vc1 S) polyC1.
move=> rng fuel pos ER; cbn [sdf_try]; rewrite ER Et rbind_Ret' Eg rbind_Ret'.
rewrite /degree_or_0 (degree_spec wg) (negbTE g0) lg lf Eq.
by have -> : (0 < (size (pv g)).-1)%N = (1 < size (pv g))%N by case: (size (pv g)) => [|[]].
Qed.

(** Two distinct factors. *)
Lemma two_factors (f : {poly 'F_pn}) : f \is monic -> (1 < size f)%N -> all_factors_degree f d ->
  square_free f -> size f != d.+1 ->
  exists f1 f2, [/\ irreducible_poly f1 /\ irreducible_poly f2, f1 \is monic /\ f2 \is monic, f1 != f2,
    size f1 = d.+1 /\ size f2 = d.+1 & f1 %| f /\ f2 %| f].
Proof.
move=> mf s1 A sf sd; have f0 : f != 0 by rewrite -size_poly_gt0 ltnW.
have mon (P : {poly 'F_pn}) : (1 < size P)%N -> P %| f -> exists q, [/\ irreducible_poly q, q \is monic, size q = d.+1 & q %| P].
  move=> P1 dP; have [q irr dq] := irr_exists (F := F) P1.
  have lq : lead_coef q != 0 by rewrite lead_coef_eq0 -size_poly_gt0 ltnW // irr_size.
  have eq1 : (lead_coef q)^-1 *: q %= q by rewrite eqp_scale // invr_eq0.
  have sq := A q irr (dvdp_trans dq dP).
  exists ((lead_coef q)^-1 *: q); split.
  - split=> [|r r1 dr]; first by rewrite (eqp_size eq1) sq ltnS.
    by rewrite (eqp_rtrans eq1); apply: (irr.2 r r1); rewrite -(eqp_dvdr _ eq1).
  - by rewrite monicE lead_coefZ mulVf.
  - by rewrite (eqp_size eq1).
  by rewrite (eqp_dvdl _ eq1).
have [f1 [i1 m1 z1 d1]] := mon f s1 (dvdpp f).
have [B EB] := dvdpP _ _ d1.
have B0 : B != 0 by apply: contraNneq f0 => E; rewrite EB E mul0r.
have sB : (1 < size B)%N.
  rewrite ltn_neqAle eq_sym size_poly_gt0 B0 andbT; apply: contra sd => /eqP sB.
  by rewrite EB size_mul // -?size_poly_gt0 ?z1 // sB.
have dB : B %| f by rewrite EB dvdp_mulr.
have [f2 [i2 m2 z2 d2]] := mon B sB dB.
exists f1, f2; split=> //; last by split=> //; exact: dvdp_trans d2 dB.
by apply: contraTneq d2 => <-; exact: sqf_dvd sf f0 i1 EB.
Qed.

Definition sok (f : mpoly p) : Prop :=
  [/\ wf f, pv f \is monic, (1 < size (pv f))%N, all_factors_degree (pv f) d & square_free (pv f)].

(** Some draw splits the polynomial. *)
Lemma lucky f : sok f -> size (pv f) != d.+1 ->
  exists T : {poly 'F_pn}, [/\ T \is monic, size T = (2 * d)%N &
    forall g : {poly 'F_pn}, g %= gcdp (pv f) ((T ^+ Z.to_nat ee) %% pv f - 1) ->
      (1 < size g)%N && (size g < size (pv f))%N].
Proof.
move=> [wff mf s1 A sf] sd; have f0 : pv f != 0 by rewrite -size_poly_gt0 ltnW.
have [f1 [f2 [[i1 i2] [m1 m2] ne [z1 z2] [d1 d2]]]] := two_factors mf s1 A sf sd.
have [T [mT sT nT]] := separate (F := F) two_neq0 d0 ee0 eeE i1 i2 m1 m2 ne z1 z2.
exists T; split=> // g gg; set e := Z.to_nat ee in nT gg *.
have key q : q %| pv f -> (q %| g) = (q %| T ^+ e - 1).
  move=> dq; rewrite (eqp_dvdr _ gg) dvdp_gcd dq /=.
  by rewrite [in RHS](divp_eq (T ^+ e) (pv f)) -addrA [RHS]dvdp_addr // dvdp_mull.
have g0 : g != 0 by rewrite (eqp_eq0 gg) gcdp_eq0 negb_and f0.
have dg : g %| pv f by rewrite (eqp_dvdl _ gg) dvdp_gcdl.
have main q q' : irreducible_poly q -> q %| pv f -> q' %| pv f -> q %| T ^+ e - 1 -> ~~ (q' %| T ^+ e - 1) ->
    (1 < size g)%N && (size g < size (pv f))%N.
  move=> iq dq dq' h h'; apply/andP; split.
    by apply: leq_trans (irr_size iq) _; rewrite dvdp_leq // key.
  rewrite ltn_neqAle dvdp_leq // andbT; apply: contra h' => sz.
  have : g %= pv f by rewrite -dvdp_size_eqp.
  by rewrite -key // => E; rewrite (eqp_dvdr _ E).
case: (boolP (f1 %| _)) nT => h1; case: (boolP (f2 %| _)) => h2 // _.
  exact: main i1 d1 d2 h1 h2.
exact: main i2 d2 d1 h2 h1.
Qed.

Lemma try_live f : sok f -> size (pv f) != d.+1 -> forall pos, live (fun rng fuel => sdf_try rng fuel d ee f pos).
Proof.
move=> ok sd pos rng N; have [wff mf s1 _ _] := ok.
have [k] : exists k, (N <= pos + k)%N by exists N; rewrite leq_addl.
have w1 : (0 < 2 * d - 1)%N by lia.
elim: k pos rng N => [|k IH] pos rng N hN.
  rewrite addn0 in hN; have [T [mT sT luck]] := lucky ok sd.
  set r1 := use T rng pos.
  have [g [q [gg st]]] := try_step wff s1 (random_wf p_pr r1 d pos).
  rewrite use_random // in gg.
  exists r1, 1%N, (Ret (g, q, pos + (2 * d - 1))%N), (pos + (2 * d - 1))%N; split=> //; first exact: use_agree.
  by move=> r2 [|fuel] // _ a; rewrite st ?luck // (random_eq a).
have [g [q [gg st]]] := try_step wff s1 (random_wf p_pr rng d pos).
case C : ((1 < size (pv g))%N && (size (pv g) < size (pv f))%N) in st.
  exists rng, 1%N, (Ret (g, q, pos + (2 * d - 1))%N), (pos + (2 * d - 1))%N; split=> //.
  by move=> r2 [|fuel] // _ a; rewrite st // (random_eq a).
set pos' := (pos + (2 * d - 1))%N in st *.
have [|r1 [F1 [v [M [a1 n1 e1]]]]] := IH pos' rng (maxn N pos').
  rewrite geq_max leq_addr andbT; apply: leq_trans hN _.
  by rewrite /pos' -addnA leq_add2l -addn1 addnC leq_add2r.
exists r1, F1.+1, v, (maxn M pos'); split=> //; first exact: agree_le (leq_maxl _ _) a1.
move=> r2 [|fuel] // hf a2; rewrite st.
  by apply: e1 => //; apply: agree_le a2; exact: leq_maxl.
apply: random_eq => i hi; rewrite a2 ?a1 //; first by apply: leq_trans hi (leq_maxr _ _).
by apply: leq_trans hi (leq_maxr _ _).
Qed.

Lemma sqf_divl (P Q : {poly 'F_pn}) : square_free (P * Q) -> square_free P /\ square_free Q.
Proof.
by move=> sf; split=> h a E; [apply: (sf h (a * Q)); rewrite E mulrAC|apply: (sf h (P * a)); rewrite E !mulrA].
Qed.

Lemma loop_live fuel : forall stack pos, Forall sok stack ->
  (\sum_(f <- stack) (2 * size (pv f) - 3) <= fuel)%N ->
  live (fun rng tries => sdf_loop rng fuel tries d ee stack pos).
Proof.
elim: fuel => [|fuel IH] [|f stack] pos H hf; cbn [sdf_loop]; try exact: live_const.
  exfalso; inversion_clear H as [|? ? [_ _ s1 _ _] _]; move: hf; rewrite big_cons; move: s1; lia.
inversion_clear H as [|? ? ok Hs].
have [wff mf f1 Af sf] := ok; have f0 : pv f != 0 by rewrite -size_poly_gt0 ltnW.
have dle := all_deg_size Af f1.
rewrite /degree_or_0 (degree_spec wff) (negbTE f0).
have -> : (d <= (size (pv f)).-1)%N by rewrite -ltnS (ltn_predK f1).
rewrite /assert_then.
have -> : (Some (size (pv f)).-1 == Some d) = (size (pv f) == d.+1).
  by rewrite -{2}(ltn_predK f1) eqSS.
rewrite big_cons in hf.
case: eqP => [sd|/eqP nsd].
  apply: live_bind; first by apply: IH => //; move: hf f1; lia.
  by move=> [l pos'] _ _ _; apply: live_const.
apply: live_bind; first exact: try_live.
move=> [[g q] pos'] rng tries E.
have := sdf_try_spec (p_pr := p_pr) rng p_odd d0 tries pos wff f1; rewrite E /= => -[[wg wq] Ef mg g1 q1].
have mq : pv q \is monic by move: mf; rewrite Ef monicMr.
have [sq sg] : square_free (pv q) /\ square_free (pv g) by apply: sqf_divl; rewrite -Ef.
apply: IH.
  constructor; [|constructor=> //]; split=> //; apply: all_deg_dvd Af; rewrite Ef ?dvdp_mulIl ?dvdp_mulIr //.
rewrite !big_cons; move: hf; rewrite Ef size_mul -?size_poly_gt0 ?(ltnW g1) ?(ltnW q1) //.
by move: g1 q1; move: (\sum_(j <- stack) _)%N (size (pv q)) (size (pv g)) => s a b; clear; lia.
Qed.

Lemma sdf_live self pos : sok self -> live (fun rng tries => same_degree_factorization rng tries d self pos).
Proof.
move=> ok; have [ws ms s1 As sf] := ok; rewrite /same_degree_factorization d0 /assert_then.
have s0 : pv self != 0 by rewrite -size_poly_gt0 ltnW.
have -> : poly_len self = size (pv self) by rewrite size_pval.
rewrite s1 degree_eqE //; case: eqP => [sd|_]; first exact: live_const.
case: (nonzero_lead self) => [c|]; last exact: live_const.
case: (_ =? _)%ZZ; last exact: live_const.
apply: loop_live; first by constructor.
by rewrite big_seq1; lia.
Qed.
End Fp.
