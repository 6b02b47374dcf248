(** Factors of resultants with one rational operand are irreducible. *)
From Coq Require Import ZArith QArith Qreals Reals Lia Lra.
Set Warnings "-notation-overridden,-ambiguous-paths".
From mathcomp Require Import all_ssreflect all_algebra all_field.
From mathcomp.zify Require Import ssrZ.
From Verif Require Import M_Base M_Traits M_Util M_Poly M_PolyCoef P_PolyInst M_PolyAlg M_Factor M_Alg
  S_Poly S_PolyAlg S_Factor P_Poly P_PolyRes P_PolyAlgInst P_PolyAlgRef P_FactorZ P_FactorAll P_FactorSF
  P_Rstruct S_Alg P_AlgBasic P_AlgRecip P_AlgRoot P_AlgRes.
Set Implicit Arguments.
Unset Strict Implicit.
Unset Printing Implicit Defensive.
Import Order.TTheory GRing.Theory Num.Theory.
Delimit Scope Z_scope with ZZ.
Delimit Scope R_scope with RR.
Local Open Scope ring_scope.
Local Notation Rt p := (root (real_poly p)).
Local Notation PV p := (pval int_sem p).
Local Notation rp := (map_poly (intr : int -> rat)).

(** * Substituting a linear polynomial *)
Lemma lin_size (c d : rat) : c != 0 -> size (c *: 'X + d%:P) = 2%N.
Proof.
move=> c0; rewrite size_addl size_scale // size_polyX //.
by rewrite (leq_ltn_trans (size_polyC_leq1 _)).
Qed.
Lemma irr_comp_lin (P : {poly rat}) (c d : rat) : c != 0 -> irreducible_poly P -> irreducible_poly (P \Po (c *: 'X + d%:P)).
Proof.
move=> c0 [s1 irr]; pose L := c *: 'X + d%:P; pose L' := c^-1 *: 'X + (- (d / c))%:P.
have ci0 : c^-1 != 0 by rewrite invr_eq0.
have sL : size L = 2%N by exact: lin_size.
have sL' : size L' = 2%N by exact: lin_size.
have LL' : L \Po L' = 'X.
  rewrite /L rmorphD /= linearZ /= comp_polyX comp_polyC /L' scalerDr scalerA mulfV // scale1r.
  by rewrite -addrA -mul_polyC -polyCM -polyCD mulrN mulrCA mulfV // mulr1 addNr polyC0 addr0.
have L'L : L' \Po L = 'X.
  rewrite /L' rmorphD /= linearZ /= comp_polyX comp_polyC /L scalerDr scalerA mulVf // scale1r.
  by rewrite -addrA -mul_polyC -polyCM -polyCD mulrC subrr polyC0 addr0.
split=> [|q sq dq]; first by rewrite size_comp_poly2.
have e : P %= q \Po L'.
  rewrite eqp_sym; apply: irr; first by rewrite size_comp_poly2.
  by rewrite -[P]comp_polyXr -LL' comp_polyA dvdp_comp_poly.
have : P \Po L %= (q \Po L') \Po L.
  by rewrite /eqp !dvdp_comp_poly //; case/andP: e.
by rewrite -comp_polyA L'L comp_polyXr eqp_sym.
Qed.

(** * A separable polynomial whose roots are roots of an irreducible one *)
Lemma roots_irr (f G : {poly rat}) : (1 < size f)%N -> separable_poly f -> irreducible_poly G ->
  (forall z : algC, root (map_poly ratr f) z -> root (map_poly ratr G) z) -> irreducible_poly f.
Proof.
move=> s1 sf [sG irr] h.
have f0 : f != 0 by rewrite -size_poly_gt0 ltnW.
have sfC : separable_poly (map_poly (ratr : rat -> algC) f) by rewrite separable_map.
have fd : f %| G.
  rewrite -(dvdp_map [rmorphism of (ratr : rat -> algC)]) /=.
  have [rs Ef] := closed_field_poly_normal (map_poly (ratr : rat -> algC) f).
  have l0 : lead_coef (map_poly (ratr : rat -> algC) f) != 0 by rewrite lead_coef_eq0 map_poly_eq0.
  rewrite Ef dvdpZl //; apply: uniq_roots_dvdp.
    apply/allP => z zs; apply: h; rewrite Ef rootZ // root_prod_XsubC //.
  rewrite uniq_rootsE -separable_prod_XsubC.
  move: sfC; rewrite {1}Ef /separable_poly derivZ coprimepZl // coprimepZr //.
have e : f %= G by apply: irr => //; rewrite neq_ltn s1 orbT.
split=> // q sq qf; have qG : q %| G by rewrite -(eqp_dvdr _ e).
by apply: eqp_trans (irr q sq qG) _; rewrite eqp_sym.
Qed.

Lemma in_dvd (fs : seq (zpoly * nat)) f n (g : zpoly * nat -> {poly rat}) : List.In (f, n) fs -> g (f, n) %| \prod_(h <- fs) g h.
Proof.
elim: fs => //= h fs IH [->|i]; rewrite big_cons; first exact: dvdp_mulIl.
by apply: dvdp_mull; exact: IH.
Qed.
Lemma factor_irr rng ffuel (r : zpoly) c fs G : wf int_sem r -> factor_with_rng rng ffuel r = Ret (c, fs) ->
  irreducible_poly G -> (forall z : algC, root (map_poly intr (PV r)) z -> root (map_poly ratr G) z) ->
  forall f n, List.In (f, n) fs -> irreducible_over_Q (PV f).
Proof.
move=> wr E iG h f n inf.
have := @factor_all_ok rng ffuel r wr; rewrite E => -[fo EP].
have [pf s1 n1] : factor_ok (f, n) by move/List.Forall_forall: fo; apply.
have rad := factor_rad wr E.
have fd : rp (PV f) %| rp (PV r).
  rewrite EP map_polyZ; apply: (dvdp_trans (y := rp (\prod_(fn <- fs) PV fn.1 ^+ fn.2))); last by rewrite -mul_polyC; exact: dvdp_mulIr.
  rewrite rmorph_prod; apply: dvdp_trans (@in_dvd fs f n (fun fn => rp (PV fn.1 ^+ fn.2)) inf).
  by rewrite /= rmorphX /= -[X in X %| _]expr1; apply: dvdp_exp2l.
apply: roots_irr iG _; first by rewrite size_intr.
  by apply: dvdp_separable rad; exact: (@in_dvd fs f n (fun fn => rp (PV fn.1)) inf).
move=> z hz; apply: h.
have eC (P : {poly int}) : map_poly (ratr : rat -> algC) (rp P) = map_poly intr P.
  by rewrite -map_poly_comp; apply: eq_map_poly => k; exact: rmorph_int.
by rewrite -eC; apply: (dvdp_root _ hz) || (move: hz; rewrite !root_factor_theorem => hz; apply: dvdp_trans hz _; rewrite dvdp_map).
Qed.

(** * Sums and products with a rational operand *)
Local Notation CP := (map_poly (intr : int -> algC)).
Lemma share (A B : {poly algC}) : (1 < size (gcdp A B))%N -> exists w, root A w /\ root B w.
Proof.
move=> h; have /closed_rootP [w] : size (gcdp A B) != 1%N by rewrite neq_ltn h orbT.
by rewrite root_gcd => /andP [h1 h2]; exists w.
Qed.
Lemma ratC (P : {poly int}) : map_poly (ratr : rat -> algC) (rp P) = CP P.
Proof. by rewrite -map_poly_comp; apply: eq_map_poly => k; exact: rmorph_int. Qed.
Lemma lin_root_uniq (F : fieldType) (A : {poly F}) u v : size A = 2%N -> root A u -> root A v -> u = v.
Proof.
move=> s ru rv; have d : 'X - u%:P %| A by rewrite dvdp_XsubCl.
have h : 'X - u%:P %= A by rewrite -(dvdp_size_eqp d) size_XsubC s.
by apply/eqP; rewrite eq_sym -root_XsubC (eqp_root h).
Qed.
Lemma rat_rootC a x q w : denotes a x -> x = Q2R q -> root (CP (PV (mp a))) w -> w = ratr (q2rat q).
Proof.
move=> D e rw; apply: lin_root_uniq rw _; first by rewrite -ratC size_map_poly size_intr (rat_root D e).
by rewrite -ratC fmorph_root -root_rat -e; exact: den_root D.
Qed.
Lemma irrat_C (P : {poly rat}) (c d : rat) (z : algC) :
  root (map_poly ratr P) (ratr c * z + ratr d) -> root (map_poly ratr (P \Po (c *: 'X + d%:P))) z.
Proof.
by rewrite /root map_comp_poly horner_comp rmorphD /= map_polyZ map_polyX map_polyC hornerD hornerZ hornerX hornerC.
Qed.

Section Two.
Variables (a b : ralg) (x y : R) (q : Q).
Hypotheses (Da : denotes a x) (Db : denotes b y).
Variables (rng : nat -> Z) (ffuel : nat) (r : zpoly) (c : Z) (fs : seq (zpoly * nat)).
Hypothesis E : factor_with_rng rng ffuel r = Ret (c, fs).
Lemma sum_irr : x = Q2R q \/ y = Q2R q -> add_resultant (mp a) (mp b) = Ret r ->
  forall f n, List.In (f, n) fs -> irreducible_over_Q (PV f).
Proof.
have [r' [-> w h]] := add_resultant_spec (den_wf Da) (den_wf Db) (den_neq0 Da) (den_neq0 Db).
move=> hq [e]; rewrite e in w h.
case: hq => eq.
- apply: (factor_irr w E (irr_comp_lin (- q2rat q) (oner_neq0 _) (den_irr Db))) => z.
  rewrite h => /share [u [ru]]; rewrite (rat_rootC Da eq ru) /sub_at /root horner_comp hornerD hornerN hornerC hornerX => hz.
  by apply: irrat_C; rewrite rmorph1 mul1r rmorphN /= ratC.
- apply: (factor_irr w E (irr_comp_lin (- q2rat q) (oner_neq0 _) (den_irr Da))) => z.
  rewrite h => /share [u [ru]]; rewrite /sub_at /root horner_comp hornerD hornerN hornerC hornerX => /(rat_rootC Db eq) e2.
  apply: irrat_C; rewrite rmorph1 mul1r rmorphN /= ratC.
  by rewrite -e2 opprB addrC subrK.
Qed.
Hypotheses (x0 : x <> 0) (y0 : y <> 0).
Lemma prod_irr : x = Q2R q \/ y = Q2R q -> mul_resultant (mp a) (mp b) = Ret r ->
  forall f n, List.In (f, n) fs -> irreducible_over_Q (PV f).
Proof.
have nz d u : denotes d u -> u <> 0 -> (PV (mp d))`_0 != 0.
  move=> D u0; apply/eqP => c0; apply: u0; apply: (den_root0 D).
  by rewrite /root horner_coef0 /real_poly coef_map /= c0.
have [r' [-> w h]] := mul_resultant_spec (den_wf Da) (den_wf Db) (den_neq0 Da) (den_neq0 Db) (nz _ _ Da x0).
move=> hq [e]; rewrite e in w h.
have q0 : q2rat q != 0.
  apply/eqP => e0; have := q2rat_R q; rewrite e0 rmorph0 => e1.
  by case: hq => eq; [apply: x0|apply: y0]; rewrite eq -e1.
have qC0 : ratr (q2rat q) != 0 :> algC by rewrite fmorph_eq0.
have w0 u : root (CP (PV (mp b))) u -> u != 0.
  move=> ru; apply/eqP => u0; have /negP := nz _ _ Db y0; apply.
  by move: ru; rewrite u0 /root horner_coef0 coef_map /= intr_eq0.
have lin z P : root (CP P) (z / ratr (q2rat q)) -> root (map_poly ratr (rp P \Po ((q2rat q)^-1 *: 'X + 0%:P))) z.
  by move=> hz; apply: irrat_C; rewrite rmorph0 addr0 fmorphV mulrC ratC.
have qi0 : (q2rat q)^-1 != 0 by rewrite invr_eq0.
case: hq => eq.
- apply: (factor_irr w E (irr_comp_lin 0 qi0 (den_irr Db))) => z.
  rewrite h => /share [u [hu ru]]; apply: lin; have u0 := w0 u ru.
  move: hu; rewrite /root scaled_horner // mulf_eq0 expf_eq0 (negbTE u0) andbF /= => /(rat_rootC Da eq) e2; rewrite -e2.
  have z0 : z != 0 by apply: contraNneq qC0 => z0; rewrite -e2 z0 mul0r.
  by rewrite invf_div mulrCA mulfV // mulr1.
- apply: (factor_irr w E (irr_comp_lin 0 qi0 (den_irr Da))) => z.
  rewrite h => /share [u [hu ru]]; apply: lin; have u0 := w0 u ru; rewrite -(rat_rootC Db eq ru).
  by move: hu; rewrite /root scaled_horner // mulf_eq0 expf_eq0 (negbTE u0) andbF.
Qed.
End Two.
