(** Algebraic integers: the resultants are multiples of monic polynomials, so
    factoring them yields irreducible factors. *)
From Coq Require Import ZArith QArith Qreals Qround Reals Lia Lra.
Set Warnings "-notation-overridden,-ambiguous-paths".
From mathcomp Require Import all_ssreflect all_algebra all_field.
From mathcomp.zify Require Import ssrZ.
From Verif Require Import M_Base M_Traits M_Util M_Interval M_Poly M_PolyCoef P_PolyInst M_PolyAlg M_Factor M_Alg
  S_Poly S_PolyAlg S_Factor S_Interval P_Interval P_IntervalTight P_Poly P_PolyAlgInst P_PolyAlgRef P_FactorAll P_ZassenhausC
  P_Rstruct S_Alg S_AlgOps S_AlgInt P_AlgBase P_AlgShrink P_AlgBasic P_AlgSign P_AlgNeg P_AlgRecip P_AlgSelect P_AlgRoot P_AlgRes P_AlgIrr P_AlgOps P_AlgMul P_AlgArith P_AlgPow.
Set Implicit Arguments.
Unset Strict Implicit.
Unset Printing Implicit Defensive.
Import Order.TTheory GRing.Theory Num.Theory.
Delimit Scope Z_scope with ZZ.
Delimit Scope R_scope with RR.
Delimit Scope Q_scope with QQ.
Local Open Scope ring_scope.
Local Notation monic := mathcomp.algebra.poly.monic.
Local Notation Rt p := (root (real_poly p)).
Local Notation PV p := (pval int_sem p).
Local Notation rp := (map_poly (intr : int -> rat)).
Local Notation cp := (map_poly (intr : int -> algC)).

(** All complex roots are algebraic integers. *)
Definition integral (P : {poly int}) : Prop := forall w : algC, root (cp P) w -> w \in Aint.

Lemma cp_neq0 (P : {poly int}) : P != 0 -> cp P != 0.
Proof. by rewrite -!size_poly_gt0 size_FP. Qed.
Lemma monic_integral (P : {poly int}) : P \is monic -> integral P.
Proof.
move=> mP w rw; apply: root_monic_Aint rw _ _; first exact: monic_map.
by apply/polyOverP => i; rewrite coef_map Cint_int.
Qed.
Lemma integral_monic (P : {poly int}) : P != 0 -> integral P ->
  exists c (F : {poly int}), [/\ c != 0, F \is monic & P = c *: F].
Proof.
move=> P0 iP; have [s E] := closed_field_poly_normal (cp P).
set l := lead_coef (cp P) in E; set G := \prod_(z <- s) ('X - z%:P) in E.
have lE : l = (lead_coef P)%:~R by rewrite /l lead_coef_map_inj //; exact: intr_inj.
have l0 : l != 0 by rewrite lead_coef_eq0 cp_neq0.
have mG : G \is monic by exact: monic_prod_XsubC.
have GA : G \is a polyOver Aint.
  rewrite /G big_seq; apply: rpred_prod => z zs; rewrite rpredB ?polyOverX // polyOverC; apply: iP.
  by rewrite E rootZ // root_prod_XsubC.
have GZ i : G`_i \in Cint.
  apply: Cint_rat_Aint; last by move/polyOverP: GA; apply.
  have -> : G`_i = l^-1 * (cp P)`_i by rewrite E coefZ mulKf.
  by rewrite rpredM ?rpredV ?lE ?coef_map ?Crat_rat // rpred_int.
pose F := \poly_(i < size G) floorC G`_i.
have FE : cp F = G.
  apply/polyP => i; rewrite coef_map coef_poly; case: ltnP => h; first exact: floorCK (GZ i).
  by rewrite [RHS]nth_default.
exists (lead_coef P), F; split.
- by rewrite lead_coef_eq0.
- by rewrite monicE -(eqr_int [numDomainType of algC]) -lead_coef_map_inj ?FE ?(monicP mG) //; exact: intr_inj.
apply: (@map_inj_poly _ _ (intr : int -> algC)) => //; first exact: intr_inj.
by rewrite map_polyZ FE E; congr (_ *: _); exact: lE.
Qed.

(** The minimal polynomial of an algebraic integer. *)
Lemma den_integral a x : denotes a x -> algebraic_integer x -> integral (PV (mp a)).
Proof.
move=> Da [M mM rM].
have d : rp (PV (mp a)) %| rp M.
  have [s1 irr] := den_irr Da.
  have sg : (1 < size (gcdp (rp (PV (mp a))) (rp M)))%N.
    rewrite -(size_map_poly [rmorphism of (ratr : rat -> R)]) gcdp_map !real_rat.
    by apply: (common_root (w := x)) => //; [exact: real_n0 (den_neq0 Da)|exact: den_root Da].
  have /eqp_dvdl e : gcdp (rp (PV (mp a))) (rp M) %= rp (PV (mp a)) by apply: irr; [rewrite neq_ltn sg orbT|exact: dvdp_gcdl].
  by rewrite -e dvdp_gcdr.
move=> w rw; apply: (monic_integral mM).
have toC P : map_poly (ratr : rat -> algC) (rp P) = cp P.
  by rewrite -map_poly_comp; apply: eq_map_poly => z; exact: (rmorph_int [rmorphism of (ratr : rat -> algC)]).
case/dvdpP: d => C E; have -> : cp M = map_poly (ratr : rat -> algC) C * cp (PV (mp a)) by rewrite -!toC E [LHS]rmorphM.
by rewrite rootM rw orbT.
Qed.

Lemma gcd_root (A B : {poly algC}) : (1 < size (gcdp A B))%N -> exists2 w, root A w & root B w.
Proof.
move=> h; have /closed_rootP [w] : size (gcdp A B) != 1%N by rewrite neq_ltn h orbT.
by rewrite root_gcd => /andP[]; exists w.
Qed.

Lemma integral_factored rng ffuel (r : zpoly) v : wf int_sem r -> PV r != 0 -> integral (PV r) ->
  (exists cfs, factor_with_rng rng ffuel r = Ret cfs) -> factored rng ffuel r v.
Proof.
move=> wr r0 ir [[c fs] E]; exists c, fs; split=> // f n fl _.
have [c0 [F [n0 mF EF]]] := integral_monic r0 ir.
by have [] := factor_irreducible_monic wr n0 mF EF E fl.
Qed.
Section Two.
Variables (a b : ralg) (x y : R).
Hypotheses (Da : denotes a x) (Db : denotes b y) (ix : algebraic_integer x) (iy : algebraic_integer y).
Variables (rng : nat -> Z) (ffuel : nat).

Lemma sum_integral : factoring_returns rng ffuel (add_resultant (mp a) (mp b)) ->
  forall v, factoring_ok rng ffuel (add_resultant (mp a) (mp b)) v.
Proof.
move=> hf v p Ep; have [r [Er wr r0 _ _]] := sum_resultant Da Db.
have Epr : p = r by move: Er; rewrite Ep => -[].
subst p; apply: integral_factored => //; last exact: hf.
have [r' [Er' _ h]] := add_resultant_spec (den_wf Da) (den_wf Db) (den_neq0 Da) (den_neq0 Db).
have Err : r' = r by move: Er'; rewrite Er => -[].
subst r' => z; rewrite h => /gcd_root [w rw]; rewrite /sub_at /root horner_comp hornerD hornerN hornerC hornerX => rz.
have -> : z = w + (z - w) by rewrite addrC subrK.
by apply: rpredD; [exact: den_integral Da ix w rw|exact: den_integral Db iy _ rz].
Qed.
Lemma prod_integral : x <> 0 -> y <> 0 -> factoring_returns rng ffuel (mul_resultant (mp a) (mp b)) ->
  forall v, factoring_ok rng ffuel (mul_resultant (mp a) (mp b)) v.
Proof.
move=> x0 y0 hf v p Ep; have [r [Er wr r0 _ _]] := prod_resultant Da Db x0 y0.
have Epr : p = r by move: Er; rewrite Ep => -[].
subst p; apply: integral_factored => //; last exact: hf.
have nz u z : denotes u z -> z <> 0 -> (PV (mp u))`_0 != 0.
  move=> D u0; apply/eqP => c0; apply: u0; apply: (den_root0 D).
  by rewrite /root horner_coef0 /real_poly coef_map /= c0.
have [r' [Er' _ h]] := mul_resultant_spec (den_wf Da) (den_wf Db) (den_neq0 Da) (den_neq0 Db) (nz _ _ Da x0).
have Err : r' = r by move: Er'; rewrite Er => -[].
subst r' => z; rewrite h => /gcd_root [w rz rw].
have w0 : w != 0.
  apply: contraTneq rw => ->; rewrite /root horner_coef0 coef_map /=.
  by rewrite intr_eq0; exact: nz Db y0.
have -> : z = z / w * w by rewrite divfK.
apply: rpredM; last exact: den_integral Db iy w rw.
apply: (den_integral Da ix); move: rz; rewrite /root scaled_horner // mulf_eq0 expf_eq0 (negbTE w0) andbF.
by [].
Qed.
End Two.

Lemma Aint_root (z w : algC) n d : (0 < d)%N -> w \in Aint -> z ^+ d = w ^+ n -> z \in Aint.
Proof.
move=> d0 /(rpredX n) iw e; set u := w ^+ n in iw e.
have mon := minCpoly_monic u.
apply: (@root_monic_Aint (minCpoly u \Po 'X^d)).
- by rewrite /root horner_comp hornerXn e; exact: root_minCpoly.
- by rewrite monicE lead_coef_comp ?size_polyXn // lead_coefXn expr1n mulr1; exact: mon.
by rewrite polyOver_comp ?rpredX ?polyOverX.
Qed.
Lemma pow_integral a x v n d rng ffuel : denotes a x -> algebraic_integer x -> x <> 0 -> (0 < n)%N -> (0 < d)%N ->
  factoring_returns rng ffuel (pow_resultant (mp a) n d) ->
  factoring_ok rng ffuel (pow_resultant (mp a) n d) v.
Proof.
move=> D ix x0 n0 d0 hf p Ep.
have [r [Er wr h]] := pow_resultant_spec d (den_wf D) (den_neq0 D) n0.
have Epr : p = r by move: Er; rewrite Ep => -[].
subst p; apply: integral_factored => //; last exact: hf.
  apply/negP => /eqP r0; have := h [numFieldType of algC] 0; rewrite r0 rmorph0 root0.
  move/esym/gcd_root => [w rw]; rewrite /pow_at /root hornerD hornerN hornerC hornerXn expr0n eqn0Ngt d0 sub0r oppr_eq0 expf_eq0 n0 /= => /eqP w0.
  apply: x0; apply: (den_root0 D); move: rw; rewrite w0 /root !horner_coef0 /real_poly !coef_map /=.
  by rewrite !intr_eq0.
move=> z; rewrite h => /gcd_root [w rw]; rewrite /pow_at /root hornerD hornerN hornerC hornerXn subr_eq0 => /eqP e.
exact: Aint_root d0 (den_integral D ix rw) e.
Qed.

(** * Closure *)
Lemma integral_neq0 (P : {poly int}) : integral P -> P != 0.
Proof.
move=> h; apply/eqP => P0; have : (2%:R^-1 : algC) \in Aint by apply: h; rewrite P0 rmorph0 root0.
have hr : (2%:R^-1 : algC) \in Crat by rewrite rpredV rpred_nat.
move/(Cint_rat_Aint hr)/CintP => [m] /(congr1 (fun z => z * 2%:R)); rewrite mulVf ?pnatr_eq0 // -[2%:R]/(2%:~R) -intrM.
move/eqP; rewrite eq_sym -[1]/(1%:~R) eqr_int => /eqP; lia.
Qed.
Lemma integral_root (P : {poly int}) (z : R) : integral P -> root (map_poly (intr : int -> R) P) z -> algebraic_integer z.
Proof.
move=> h; have [c [F [n0 mF ->]]] := integral_monic (integral_neq0 h) h.
by rewrite map_polyZ rootZ ?intr_eq0 // => rF; exists F.
Qed.
Lemma algebraic_integer_add x y : algebraic_integer x -> algebraic_integer y -> algebraic_integer (x + y).
Proof.
move=> [P mP rP] [Q mQ rQ].
have [p wp EP] := pval_surj int_sem P; have [q wq EQ] := pval_surj int_sem Q.
have [||r [_ _ h]] := add_resultant_spec wp wq; rewrite ?EP ?EQ ?monic_neq0 //.
apply: (@integral_root (PV r)).
  move=> z; rewrite h EP EQ => /gcd_root [w rw]; rewrite /sub_at /root horner_comp hornerD hornerN hornerC hornerX => rz.
  have -> : z = w + (z - w) by rewrite addrC subrK.
  by apply: rpredD; [exact: monic_integral mP w rw|exact: monic_integral mQ _ rz].
rewrite h EP EQ; apply: (common_root (w := x)) => //.
  by rewrite -size_poly_gt0 size_FP size_poly_gt0 monic_neq0.
by rewrite /sub_at /root horner_comp hornerD hornerN hornerC hornerX addrAC subrr add0r.
Qed.
Lemma algebraic_integer_IZR k : algebraic_integer (IZR k).
Proof.
exists ('X - (zi k)%:P); first exact: monicXsubC.
by rewrite rmorphB /= map_polyX map_polyC /= intr_zi root_XsubC.
Qed.
Lemma strip n (P : {poly int}) (x : R) : (size P <= n)%N -> P \is monic -> x <> 0 -> root (map_poly intr P) x ->
  exists P', [/\ P' \is monic, root (map_poly (intr : int -> R) P') x & P'`_0 != 0].
Proof.
elim: n P => [|n IH] P hs mP x0 rP; first by move: hs (monic_neq0 mP); rewrite leqn0 size_poly_eq0 => /eqP->; rewrite eqxx.
have [c0|c0] := eqVneq P`_0 0; last by exists P.
have /factor_theorem [Q EQ] : root P 0 by rewrite /root horner_coef0 c0.
rewrite subr0 in EQ; have mQ : Q \is monic by move: mP; rewrite EQ monicMr ?monicX.
apply: (IH Q) => //.
  by move: hs; rewrite EQ size_mulX ?monic_neq0.
move: rP; rewrite EQ rmorphM /= map_polyX rootM => /orP[//|]; rewrite rootX => /eqP; exact.
Qed.
Lemma algebraic_integer_mul x y : algebraic_integer x -> algebraic_integer y -> algebraic_integer (x * y).
Proof.
have zero : algebraic_integer 0 by exact: (algebraic_integer_IZR 0).
move=> [P0 mP0 rP0] [Q0 mQ0 rQ0].
case: (Req_dec x 0) => [->|x0]; first by rewrite Rmult_0_l.
case: (Req_dec y 0) => [->|y0]; first by rewrite Rmult_0_r.
have [P [mP rP cP]] := strip (leqnn _) mP0 x0 rP0; have [Q [mQ rQ cQ]] := strip (leqnn _) mQ0 y0 rQ0.
have [p wp EP] := pval_surj int_sem P; have [q wq EQ] := pval_surj int_sem Q.
have y0' : y != 0 by apply/eqP.
have [|||r [_ _ h]] := mul_resultant_spec wp wq; rewrite ?EP ?EQ ?monic_neq0 //.
apply: (@integral_root (PV r)).
  move=> z; rewrite h EP EQ => /gcd_root [w rz rw].
  have w0 : w != 0.
    by apply: contraTneq rw => ->; rewrite /root horner_coef0 coef_map /= intr_eq0.
  have -> : z = z / w * w by rewrite divfK.
  apply: rpredM; last exact: monic_integral mQ w rw.
  by apply: (monic_integral mP); move: rz; rewrite /root scaled_horner // mulf_eq0 expf_eq0 (negbTE w0) andbF.
rewrite h EP EQ (eqp_size (gcdpC _ _)); apply: (common_root (w := y)) => //.
  by rewrite -size_poly_gt0 size_FP size_poly_gt0 monic_neq0.
by rewrite /root scaled_horner // mulfK // mulf_eq0 expf_eq0 (negbTE y0') andbF.
Qed.
Lemma algebraic_integer_opp x : algebraic_integer x -> algebraic_integer (- x).
Proof.
move=> h; have -> : (- x = -1 * x)%RR by lra.
by apply: algebraic_integer_mul => //; exact: (algebraic_integer_IZR (-1)).
Qed.
Lemma algebraic_integer_pow x n : algebraic_integer x -> algebraic_integer (pow x n).
Proof.
move=> h; elim: n => [|n IH]; first exact: (algebraic_integer_IZR 1).
exact: algebraic_integer_mul.
Qed.
Lemma algebraic_integer_root v d : (0 < d)%N -> algebraic_integer (pow v d) -> algebraic_integer v.
Proof.
move=> d0 [P mP rP]; exists (P \Po 'X^d).
  by rewrite monicE lead_coef_comp ?size_polyXn // lead_coefXn expr1n mulr1; exact: mP.
by rewrite map_comp_poly /= map_polyXn /root horner_comp hornerXn P_AlgPow.powE.
Qed.

(** * Operations on algebraic integers *)
Section Ops.
Variables (a b : ralg) (x y : R).
Hypotheses (Da : denotes a x) (Db : denotes b y) (ix : algebraic_integer x) (iy : algebraic_integer y).
Variables (rng : nat -> Z) (ffuel : nat).
Local Notation both := (canonical a /\ canonical b).

Lemma sum_integers : factoring_returns rng ffuel (add_resultant (mp a) (mp b)) -> sum_clear a b x y ->
  computes (fun fuel => ra_add rng ffuel fuel a b) (x + y) both /\ algebraic_integer (x + y).
Proof.
move=> hf hc; split; last exact: algebraic_integer_add.
exact: (sum_spec Da Db (sum_integral Da Db ix iy hf (x + y)) hc).
Qed.
Lemma diff_integral : factoring_returns rng ffuel (sub_resultant a b) -> forall v, factoring_ok rng ffuel (sub_resultant a b) v.
Proof.
have [n [e d _ _ _]] := neg_facts Db; rewrite /sub_resultant e; cbn [rbind].
move=> hf v; apply: (sum_integral Da d ix _ hf); exact: algebraic_integer_opp.
Qed.
Lemma diff_integers : factoring_returns rng ffuel (sub_resultant a b) -> diff_clear a b x y ->
  computes (fun fuel => ra_sub rng ffuel fuel a b) (x - y) both /\ algebraic_integer (x - y).
Proof.
move=> hf hc; split; last by apply: algebraic_integer_add => //; exact: algebraic_integer_opp.
exact: (diff_spec Da Db (diff_integral hf _) hc).
Qed.
Lemma prod_integers : factoring_returns rng ffuel (mul_resultant (mp a) (mp b)) -> prod_clear a b x y ->
  computes (fun fuel => ra_mul rng ffuel fuel a b) (x * y) both /\ algebraic_integer (x * y).
Proof.
move=> hf hc; split; last exact: algebraic_integer_mul.
have r0 : is_rat 0 by exact: (rat_IZR 0).
case: (Req_dec x 0) => [e|x0]; first by apply: prod_rational => //; left; rewrite e.
case: (Req_dec y 0) => [e|y0]; first by apply: prod_rational => //; right; rewrite e.
exact: (prod_spec Da Db (prod_integral Da Db ix iy x0 y0 hf _) hc).
Qed.
Hypotheses (hf : factoring_returns rng ffuel (sub_resultant a b)) (hc : diff_clear a b x y \/ x = y).
Lemma cmp_integers : exists c, eventually (fun fuel => ra_cmp rng ffuel fuel a b) c /\ order_of x y c.
Proof. by apply: cmp_spec => //; [left; exact: diff_integral|case: hc; tauto]. Qed.
Lemma eq_integers : exists e, eventually (fun fuel => ra_eqb rng ffuel fuel a b) e /\ (e = true <-> x = y).
Proof. by apply: eq_spec => //; [left; exact: diff_integral|case: hc; tauto]. Qed.
End Ops.
Lemma pow_integers a x e : denotes a x -> algebraic_integer x -> x <> 0 -> Qred e = e -> (0 < Qnum e)%ZZ ->
  (x < 0 -> Qden e = 1%positive)%RR ->
  forall ln2 rng ffuel fuel v z, (forall n, exists l, ln2 n = Ret l /\ ln2_ok n l) -> is_pow x e v ->
  factoring_returns rng ffuel (pow_resultant (mp a) (Z.to_nat (Qnum e)) (Pos.to_nat (Qden e))) ->
  pow_encloses ln2 fuel a x e ->
  ra_checked_pow rng ffuel fuel ln2 a e = Ret (Some z) ->
  denotes z v /\ algebraic_integer v /\ (canonical a -> canonical z).
Proof.
move=> D ix x0 re e0 xd ln2 rng ffuel fuel v z h2 iv hf he hz.
have un : ~ pow_undefined x e by move=> [[]//|[h hd]]; exact: hd (xd h).
have en : (Qnum e <? 0)%ZZ = false by apply/Z.ltb_ge; lia.
have ab : Z.abs (Qnum e) = Qnum e by lia.
have qab : Qabs.Qabs e = e by case: (e) e0 => n d /=; cbn; move=> h; rewrite /Qabs.Qabs Z.abs_eq //; lia.
have [neg hneg] : exists neg, neg = true <-> (x < 0)%RR by have [neg [_ h]] := is_negative_spec D; exists neg.
have arg : pow_arg x e = x by rewrite /pow_arg en.
have [_ vd _] := arg_pow un x0 iv hneg; rewrite -/(pow_arg x e) arg ab in vd.
have d0 : (0 < Pos.to_nat (Qden e))%N by apply/ssrnat.ltP; exact: Pos2Nat.is_pos.
have n0 : (0 < Z.to_nat (Qnum e))%N := to_nat_pos e0.
have [|dz cz] := pow_sound D re un h2 iv _ hz.
  move=> b; rewrite /pow_base en => -[<-]; rewrite -/(pow_arg x e) arg ab qab; split=> //.
  exact: pow_integral D ix x0 n0 d0 hf.
split=> //; split; last by move=> ca; apply: cz => //; left; lia.
by apply: (algebraic_integer_root d0); rewrite vd; exact: algebraic_integer_pow.
Qed.
