(** The algebraic algorithms at the coefficient types of the crate: integers,
    rationals, integers modulo a prime. *)
From Coq Require Import ZArith QArith Qcanon Lia.
Set Warnings "-notation-overridden,-ambiguous-paths".
From mathcomp Require Import all_ssreflect all_fingroup all_algebra.
From mathcomp Require Import separable finfield.
From mathcomp.zify Require Import ssrZ zify_ssreflect zify_algebra.
From Verif Require Import M_Base M_Traits S_Int P_Traits M_ModInt M_Poly M_PolyCoef M_PolyAlg S_Poly S_PolyAlg
  P_Poly P_PolyDiv P_PolyInst P_PolyGcd P_PolyField P_PolyContent.
Set Implicit Arguments.
Unset Strict Implicit.
Unset Printing Implicit Defensive.
Import GRing.Theory Num.Theory Order.TTheory.
Local Open Scope ring_scope.
Delimit Scope Z_scope with ZZ.

(** * Order and divisibility of integers and rationals *)
Lemma zi_lt a b : (zi a < zi b) = Z.ltb a b.
Proof. by apply/idP/Z.ltb_spec0; lia. Qed.
Lemma zi_le a b : (zi a <= zi b) = Z.leb a b.
Proof. by apply/idP/Z.leb_spec0; lia. Qed.
Lemma zi_abs a : zi (Z.abs a) = `|zi a|.
Proof. by lia. Qed.
Lemma zi_surj (z : int) : zi (Z_of_int z) = z.
Proof. exact: Z_of_intK. Qed.

Lemma zdvd_int a b : zdvd (zi a) (zi b) <-> Z.divide a b.
Proof.
split=> [[z Ez]|[k ->]].
  by exists (Z_of_int z); apply: zi_inj; rewrite zi_mul zi_surj Ez mulrzz mulrC.
by exists (zi k); rewrite zi_mul mulrzz mulrC.
Qed.

Lemma int_content_sem : @content_sem int_coef [realDomainType of int] int_sem int_content.
Proof.
split=> [a b|a b]; last by rewrite /= zi_lt.
exists (Z.gcd a b); split=> //.
- exact/zdvd_int/Z.gcd_divide_l.
- exact/zdvd_int/Z.gcd_divide_r.
- move=> e; rewrite -(zi_surj e) => /zdvd_int Ha /zdvd_int Hb.
  exact/zdvd_int/Z.gcd_greatest.
Qed.

Lemma int_abs_sem : @abs_sem int_coef [realDomainType of int] int_sem int_abs.
Proof. by split=> [a|a b]; [exact: zi_abs|rewrite /= zi_le]. Qed.

Lemma q2r_le a b : (q2r a <= q2r b) = Qle_bool a b.
Proof.
have P d : 0 < zr (Z.pos d) by rewrite ltr0z; lia.
rewrite /q2r /Qle_bool ler_pdivr_mulr // mulrAC ler_pdivl_mulr //.
by rewrite -!zr_mul /zr ler_int zi_le.
Qed.
Lemma q2r_lt a b : (q2r a < q2r b) = ~~ Qle_bool b a.
Proof. by rewrite ltNge q2r_le. Qed.

Lemma zdvd_rat (a b : Q) : zdvd (q2r a) (q2r b) <-> Qdivides a b.
Proof.
have Z k : q2r (inject_Z k) = (zi k)%:~R by rewrite /q2r /= divr1.
split=> [[z Ez]|[k /q2r_eq Ek]].
  by exists (Z_of_int z); apply/q2r_eq; rewrite Ez q2r_mul Z zi_surj mulrzl.
by exists (zi k); rewrite Ek q2r_mul Z mulrzl.
Qed.

Lemma ratio_content_sem : @content_sem ratio_coef [realDomainType of rat] ratio_sem ratio_content.
Proof.
split=> [a b|a b]; last by rewrite [RHS]q2r_lt.
have [g [l [E [H1 [H2 [H3 _]]]]]] := ratio_gcd_lcm_spec a b.
exists (Q2Qc g); split.
- by rewrite /= E.
- by rewrite /= q2r_red; exact/zdvd_rat.
- by rewrite /= q2r_red; exact/zdvd_rat.
- move=> e; have [c <-] := q2r_surj e => /zdvd_rat Ha /zdvd_rat Hb.
  by rewrite /= q2r_red; apply/zdvd_rat; exact: H3.
Qed.

Lemma ratio_abs_sem : @abs_sem ratio_coef [realDomainType of rat] ratio_sem ratio_abs.
Proof.
split=> [a|a b]; last by rewrite [RHS]q2r_le.
transitivity (q2r (Z.abs (Qnum a) # Qden a)); first exact: q2r_Q2Qc.
rewrite /q2r /= normrM normfV.
have -> : `|zr (Z.pos (Qden a))| = zr (Z.pos (Qden a)) by rewrite ger0_norm // ler0z; lia.
by rewrite /zr zi_abs intr_norm.
Qed.

(** * Reducing factors *)
Lemma last_pval (K : pcoef) (R : comUnitRingType) (Sm : coef_sem K R) (p : poly K) e es :
  wf Sm p -> els p = e :: es -> lead_coef (pval Sm p) = ve Sm (last e es) / vd Sm (dv p).
Proof.
move=> Hp E; rewrite lead_coefE size_pval // E /= coef_pval E.
by rewrite (last_nth (e_zero K)).
Qed.

Lemma ratio_reduce_sem : @reduce_sem ratio_coef [fieldType of rat] ratio_sem ratio_reduce.
Proof.
move=> p Hp; rewrite /nonzero_reducing_factor /=; have Z := is_zeroP Hp; rewrite /poly_is_zero in Z.
case E : (els p) Z => [|e es] /= Z; split=> [p0|p0] //.
- by rewrite -Z in p0.
- by rewrite p0 eqxx in Z.
- by eexists; first reflexivity; rewrite (last_pval Hp E) q2r_Q2Qc.
Qed.

Section ModP.
Variables (m : Z) (p : nat) (m_pos : (0 <? m)%ZZ) (mp : m = Z.of_nat p) (p_pr : prime p).
Lemma modp_reduce_sem : @reduce_sem (mod_coef m_pos) [fieldType of 'F_p] (modp_sem m_pos mp p_pr) (mod_reduce m_pos).
Proof.
move=> q Hq; rewrite /nonzero_reducing_factor /=; have Z := is_zeroP Hq; rewrite /poly_is_zero in Z.
case E : (els q) Z => [|e es] /= Z; split=> [p0|p0] //.
- by rewrite -Z in p0.
- by rewrite p0 eqxx in Z.
- by eexists; first reflexivity; rewrite (last_pval Hq E) /= divr1.
Qed.
End ModP.

(** * Square-free polynomials over perfect fields *)
Lemma square_free_gcd (F : fieldType) (P : {poly F}) :
  (forall u : {poly F}, (1 < size u)%N -> u^`() = 0 -> exists2 w : {poly F}, (1 < size w)%N & w * w %| u) ->
  P != 0 -> ((size (gcdp P P^`()) <= 1)%N <-> square_free P).
Proof.
move=> HF P0.
have -> : (size (gcdp P P^`()) <= 1)%N = separable_poly P.
  rewrite /separable_poly /coprimep eqn_leq; apply/idP/andP => [->|[]//]; split=> //.
  by rewrite lt0n size_poly_eq0 gcdp_eq0 (negbTE P0).
split=> [/separable_polyP [H1 _] h a E|SF].
  have : coprimep h h by apply: H1; rewrite E dvdp_mull.
  by rewrite coprimepp => /eqP ->.
apply/separable_polyP; split=> [|u uP u1].
  apply/poly_square_freeP => u u1; apply/negP => /dvdpP [a E]; rewrite expr2 in E.
  have := SF _ _ E; rewrite leq_eqVlt (negbTE u1) /= ltnS leqn0 size_poly_eq0 => /eqP u0.
  by rewrite E u0 !mulr0 eqxx in P0.
apply/eqP => u'0; have [w w1 wu] := HF u u1 u'0.
have /dvdpP [a E] := dvdp_trans wu uP.
by have := SF _ _ E; rewrite leqNgt w1.
Qed.

Lemma char0_perfect (u : {poly rat}) : (1 < size u)%N -> u^`() = 0 ->
  exists2 w : {poly rat}, (1 < size w)%N & w * w %| u.
Proof.
move=> u1 /(congr1 (fun P : {poly rat} => P`_(size u).-2)); rewrite coef0 coef_deriv => /eqP.
rewrite mulrn_eq0 prednK; last by rewrite -ltnS prednK // ltnW.
by rewrite -lead_coefE lead_coef_eq0 -size_poly_eq0 -!subn1 subn_eq0 leqNgt u1 -leqn0 leqNgt ltnW.
Qed.

Lemma Fp_perfect p (u : {poly 'F_p}) : prime p -> (1 < size u)%N -> u^`() = 0 ->
  exists2 w : {poly 'F_p}, (1 < size w)%N & w * w %| u.
Proof.
move=> pp u1 u'0.
pose w : {poly 'F_p} := \poly_(i < size u) u`_(i * p).
have p1 := prime_gt1 pp; have p0 := prime_gt0 pp.
have pc : p \in [char {poly 'F_p}] by rewrite char_lalg char_Fp.
have Ew : w ^+ p = \sum_(i < size u) u`_(i * p) *: 'X^(i * p).
  rewrite -(Frobenius_autE pc) /w poly_def raddf_sum; apply: eq_bigr => i _.
  rewrite [LHS]Frobenius_autE exprZn -exprM; congr (_ *: _).
  by rewrite -[in X in _ ^+ X](card_Fp pp) expf_card.
have Eu : u = w ^+ p.
  rewrite Ew; apply/polyP => j; rewrite coef_sum.
  have [pj|pj] := boolP (p %| j)%N.
    case/dvdnP: pj => k ->; have [ks|ks] := ltnP k (size u).
      rewrite (bigD1 (Ordinal ks)) //= coefZ coefXn eqxx mulr1 big1 ?addr0 // => i.
      by rewrite coefZ coefXn eqn_pmul2r // eq_sym -val_eqE /= => /negbTE ->; rewrite mulr0.
    rewrite nth_default ?big1 //.
      by move=> i _; rewrite coefZ coefXn eqn_pmul2r // gtn_eqF ?mulr0 //; exact: leq_trans (ltn_ord i) ks.
    by apply: leq_trans ks _; rewrite leq_pmulr.
  rewrite big1 => [|i _]; last first.
    by rewrite coefZ coefXn; case: eqP => [E|_]; rewrite ?mulr0 //; rewrite E dvdn_mull in pj.
  case: j pj => [|j pj]; first by rewrite dvdn0.
  have := coef_deriv u j; rewrite u'0 coef0 => /esym /eqP; rewrite -mulr_natr mulf_eq0 => /orP [/eqP //|].
  by rewrite -(dvdn_charf (char_Fp pp)) (negbTE pj).
exists w; last by rewrite Eu -expr2; exact: dvdp_exp2l.
rewrite ltnNge; apply/negP => /size1_polyC Ec.
by move: u1; rewrite Eu Ec -rmorphX ltnNge size_polyC_leq1.
Qed.

Lemma ratio_square_free p : wf ratio_sem p -> pval ratio_sem p != 0 ->
  exists b, is_square_free ratio_exact ratio_reduce p = Ret b /\
    (b <-> @square_free [fieldType of rat] (pval ratio_sem p)).
Proof.
move=> Hp p0; eexists; split.
  exact: (is_square_free_ok ratio_exact_sem ratio_reduce_sem Hp).
exact: (square_free_gcd char0_perfect p0).
Qed.
Lemma modp_square_free m p (m_pos : (0 <? m)%ZZ) (mp : m = Z.of_nat p) (p_pr : prime p) q :
  wf (modp_sem m_pos mp p_pr) q -> pval (modp_sem m_pos mp p_pr) q != 0 ->
  exists b, is_square_free (mod_exact m_pos) (mod_reduce m_pos) q = Ret b /\
    (b <-> @square_free [fieldType of 'F_p] (pval (modp_sem m_pos mp p_pr) q)).
Proof.
move=> Hp p0.
have E := is_square_free_ok (modp_exact_sem m_pos mp p_pr) (@modp_reduce_sem m p m_pos mp p_pr) Hp.
eexists; split; first exact: E.
by apply: (square_free_gcd _ p0) => u; exact: Fp_perfect.
Qed.
