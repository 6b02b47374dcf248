(** The resultants behind sums, products and powers of algebraic numbers. *)
From Coq Require Import ZArith QArith Qreals Reals Lia Lra.
Set Warnings "-notation-overridden,-ambiguous-paths".
From mathcomp Require Import all_ssreflect all_algebra all_field.
From mathcomp.zify Require Import ssrZ.
From Verif Require Import M_Base M_Traits M_Util M_Poly M_PolyCoef P_PolyInst M_PolyAlg M_Factor M_Alg
  S_Poly S_PolyAlg S_Factor P_Poly P_PolyRes P_PolyAlgInst P_PolyAlgRef P_Rstruct S_Alg P_AlgBasic P_AlgRecip P_AlgRoot.
Set Implicit Arguments.
Unset Strict Implicit.
Unset Printing Implicit Defensive.
Import Order.TTheory GRing.Theory Num.Theory.
Delimit Scope Z_scope with ZZ.
Delimit Scope R_scope with RR.
Local Open Scope ring_scope.
Local Notation Rt p := (root (real_poly p)).
Local Notation PV p := (pval int_sem p).
Local Notation PV2 p := (@pval int2_coef [comUnitRingType of {poly int}] int2_sem p).
Local Notation rp := (map_poly (intr : int -> rat)).

(** * Specialising the inner variable *)
Section Eval.
Variable F : numFieldType.
Definition ev (z : F) : {rmorphism {poly int} -> F} := [rmorphism of horner_eval z \o map_poly intr].
Lemma evE z p : ev z p = (map_poly intr p).[z].  Proof. by []. Qed.
Lemma evC z c : ev z c%:P = c%:~R.  Proof. by rewrite evE map_polyC hornerC. Qed.
Lemma evX z : ev z 'X = z.  Proof. by rewrite evE map_polyX hornerX. Qed.

Lemma map_sylvester (R S : ringType) (f : {rmorphism R -> S}) (A B : {poly R}) :
  size (map_poly f A) = size A -> size (map_poly f B) = size B ->
  f (\det (sylvester A B)) = \det (sylvester (map_poly f A) (map_poly f B)).
Proof.
move=> sA sB; rewrite -det_map_mx.
have h m n m' n' (e : m' = m) (e' : n' = n) :
  \det (map_mx f (\matrix_(i < m + n, j < m + n)
    if (i < n)%N then (if (i <= j <= i + m)%N then A`_(m - (j - i)) else 0)
    else (if (i - n <= j <= i - n + n)%N then B`_(n - (j - (i - n))) else 0))) =
  \det (\matrix_(i < m' + n', j < m' + n')
    if (i < n')%N then (if (i <= j <= i + m')%N then (map_poly f A)`_(m' - (j - i)) else 0)
    else (if (i - n' <= j <= i - n' + n')%N then (map_poly f B)`_(n' - (j - (i - n'))) else 0)).
  rewrite e e'; congr (\det _); apply/matrixP => i j; rewrite !mxE.
  by do 2!case: ifP => _; rewrite ?coef_map ?rmorph0 //; case: ifP; rewrite ?coef_map ?rmorph0.
by apply: h; rewrite ?sA ?sB.
Qed.

Lemma res_root (A B : {poly {poly int}}) z :
  size (map_poly (ev z) A) = size A -> size (map_poly (ev z) B) = size B ->
  root (map_poly intr (\det (sylvester A B))) z = (1 < size (gcdp (map_poly (ev z) A) (map_poly (ev z) B)))%N.
Proof.
move=> sA sB; rewrite /root -evE map_sylvester //; exact: sylvester_eq0.
Qed.
End Eval.

(** * The two-variable polynomials *)
Local Notation PC := (map_poly (polyC : int -> {poly int})).
Lemma mk_val p : vc int2_sem (mk_npoly int_poly_okN p) = PV p.
Proof. exact: pval_normalize. Qed.
Lemma const_val c : vc int2_sem (const_poly c) = (zi c)%:P.
Proof. by rewrite /const_poly mk_val (from_coef_spec int_sem c).2. Qed.
Lemma lift_spec p : wf int2_sem (lift_poly p) /\ PV2 (lift_poly p) = PC (PV p).
Proof.
have [w e] := from_iterator_spec int2_sem [seq const_poly c | c <- coefficients p]; split=> //.
rewrite e /pval map_Poly // -!map_comp; congr Poly; apply: eq_map => c; exact: const_val.
Qed.
Lemma eval_point_val : PV2 add_eval_point = 'X%:P - 'X.
Proof.
rewrite /add_eval_point (from_coefs_spec int2_sem _).2 !map_cons !mk_val.
rewrite !(from_coefs_spec int_sem _).2 /= !cons_poly_def !mul0r !add0r !addr0.
have -> : (-1)%Z%:P%:P = -1 :> {poly {poly int}} by rewrite -[(-1)%Z]/(- 1 : int) !polyCN.
have -> : (Pos.to_nat 1 : int)%:P = 1 :> {poly int} by [].
by rewrite mul1r mulN1r addrC.
Qed.
Definition polyC2 : {rmorphism int -> {poly {poly int}}} := [rmorphism of polyC \o polyC].
Lemma at_sub_spec p : wf int2_sem (eval_at_sub p) /\ PV2 (eval_at_sub p) = PC (PV p) \Po ('X%:P - 'X).
Proof.
split.
  rewrite /eval_at_sub /eval_generic; case/lastP: (rev _) => [|cs c]; first exact: wf_zero.
  have h v : wf int2_sem (poly_add_single (K := int2_coef) v (const_poly c)).
    by have [] := add_single_spec (S := int2_sem) v (const_poly c) (fun _ => erefl).
  by rewrite foldl_rcons; exact: h.
rewrite -eval_point_val /comp_poly -map_poly_comp.
apply: (@eval_generic_spec _ _ int_sem _ _ (fun v => PV2 v) polyC2).
- by move=> a b; rewrite (mul_spec int2_sem a b).2.
- by move=> a c; rewrite (add_single_spec (S := int2_sem) _ _ _).2 // const_val.
exact: pval_zero.
Qed.
Lemma scaled_spec p : wf int_sem p -> wf int2_sem (scaled_poly p) /\
  PV2 (scaled_poly p) = \poly_(i < size (PV p)) ((PV p)`_((size (PV p)).-1 - i) *: 'X^((size (PV p)).-1 - i)).
Proof.
move=> wp; rewrite /scaled_poly; set l := rev _; have [w e] := from_iterator_spec int2_sem l; split=> //.
have sz : size (coefficients p) = size (PV p) by rewrite size_pval // /coefficients size_map.
rewrite {}e; apply/polyP => i; rewrite coef_poly coef_Poly.
have ce k : (k < size (PV p))%N -> (PV p)`_k = zi (nth (c_zero int_coef) (coefficients p) k).
  by move=> h; rewrite {1}/pval coef_Poly (nth_map (c_zero int_coef)) ?sz.
rewrite /l; move: (coefficients p) (PV p) sz ce {l w} => cs P sz ce.
set l := rev _; have sl : size l = size P by rewrite /l size_rev size_map size_zip size_iota minnn.
case: ltnP => h; last by rewrite nth_default // size_map sl.
rewrite (nth_map (c_zero int2_coef)) ?sl // /l nth_rev size_map size_zip size_iota minnn sz //.
have h2 : (size P - i.+1 < size P)%N by lia.
have sz2 : size cs = size (iota 0 (size P)) by rewrite size_iota.
rewrite (nth_map (c_zero int_coef, 0%N)); last by rewrite size_zip size_iota sz minnn.
rewrite mk_val (make_monomial_spec int_sem _ _).2 (@nth_zip _ _ _ _ _ _ _ sz2) nth_iota // add0n.
have -> : ((size P).-1 - i = size P - i.+1)%N by lia.
by rewrite ce // [(_, _).1]/=.
Qed.
Lemma pow_rhs_spec n d : wf int2_sem (pow_rhs n d) /\ PV2 (pow_rhs n d) = ('X^d)%:P - 'X^n.
Proof.
rewrite /pow_rhs; have [//|w ->] := add_single_spec (S := int2_sem) (make_monomial (K := int2_coef) (mk_npoly int_poly_okN (poly_neg (poly_one int_coef))) n) (mk_npoly int_poly_okN (make_monomial (K := int_coef) 1%ZZ d)) _.
split=> //; rewrite (make_monomial_spec int2_sem _ _).2 !mk_val (neg_spec int_sem _).2 pval_one (make_monomial_spec int_sem _ _).2.
by rewrite scaleN1r addrC scale1r.
Qed.

(** * Roots of the resultants *)
Section Roots.
Variable F : numFieldType.
Local Notation FP := (map_poly (intr : int -> F)).
Lemma intr_F_inj : injective (intr : int -> F).  Proof. exact: intr_inj. Qed.
Lemma size_FP (P : {poly int}) : size (FP P) = size P.
Proof. by apply: size_map_inj_poly => //; exact: intr_F_inj. Qed.
Lemma ev_PC (z : F) P : map_poly (ev z) (PC P) = FP P.
Proof. by rewrite -map_poly_comp; apply: eq_map_poly => c; exact: evC. Qed.
Lemma size_PC (P : {poly int}) : size (PC P) = size P.
Proof. by apply: size_map_inj_poly => //; exact: polyC_inj. Qed.
Lemma size_ev_PC (z : F) P : size (map_poly (ev z) (PC P)) = size (PC P).
Proof. by rewrite ev_PC size_FP size_PC. Qed.
Definition sub_at (z : F) (Q : {poly int}) : {poly F} := FP Q \Po (z%:P - 'X).
Lemma ev_sub (z : F) Q : map_poly (ev z) (PC Q \Po ('X%:P - 'X)) = sub_at z Q.
Proof.
rewrite map_comp_poly ev_PC; congr (_ \Po _); rewrite rmorphB /= map_polyC map_polyX; congr (_%:P - _); exact: evX.
Qed.
Lemma size_CsubX (R : idomainType) (c : R) : size (c%:P - 'X : {poly R}) = 2%N.
Proof. by rewrite -opprB size_opp size_XsubC. Qed.
Lemma size_sub_at z Q : size (sub_at z Q) = size Q.
Proof. by rewrite /sub_at size_comp_poly2 ?size_FP // size_CsubX. Qed.
Lemma size_ev_sub (z : F) Q : size (map_poly (ev z) (PC Q \Po ('X%:P - 'X))) = size (PC Q \Po ('X%:P - 'X)).
Proof. by rewrite ev_sub size_sub_at size_comp_poly2 ?size_PC // size_CsubX. Qed.

Definition scaled (R : ringType) (P : {poly int}) (f : nat -> R) : {poly R} :=
  \poly_(i < size P) ((P`_((size P).-1 - i))%:~R * f ((size P).-1 - i)%N).
Lemma size_scaled (R : idomainType) (P : {poly int}) (f : nat -> R) : f 0%N = 1 ->
  (P`_0)%:~R != 0 :> R -> P != 0 -> size (scaled P f) = size P.
Proof.
move=> f0 c0 P0; have s0 : (0 < size P)%N by rewrite size_poly_gt0.
by rewrite /scaled size_poly_eq // subnn f0 mulr1.
Qed.
Lemma ev_monom (z : F) c k : ev z (c *: 'X^k) = c%:~R * z ^+ k.
Proof. by rewrite evE map_polyZ map_polyXn hornerZ hornerXn. Qed.
Lemma ev_scaled (z : F) (P : {poly int}) : map_poly (ev z) (\poly_(i < size P) (P`_((size P).-1 - i) *: 'X^((size P).-1 - i)))
  = scaled P (fun k => z ^+ k).
Proof.
apply/polyP => i; rewrite coef_map !coef_poly; case: ifP => _; last exact: (rmorph0 (ev z)).
exact: ev_monom.
Qed.
Lemma scaledE (P : {poly int}) : \poly_(i < size P) (P`_((size P).-1 - i) *: 'X^((size P).-1 - i)) = scaled P (fun k => 'X^k).
Proof.
apply/polyP => i; rewrite !coef_poly; case: ifP => // _.
by rewrite -mul_polyC; congr (_ * _); rewrite -[in LHS](intz (P`_ _)) rmorph_int.
Qed.
Lemma size_ev_scaled (z : F) (P : {poly int}) : P`_0 != 0 -> P != 0 ->
  let A := \poly_(i < size P) (P`_((size P).-1 - i) *: 'X^((size P).-1 - i)) in size (map_poly (ev z) A) = size A.
Proof.
move=> c0 P0 A; rewrite ev_scaled size_scaled ?expr0 ?intr_eq0 // /A scaledE size_scaled ?expr0 //.
by rewrite -(rmorph_int [rmorphism of (@polyC _)]) intz polyC_eq0.
Qed.
Lemma scaled_horner (P : {poly int}) (z y : F) : y != 0 ->
  (scaled P (fun k => z ^+ k)).[y] = y ^+ (size P).-1 * (FP P).[z / y].
Proof.
move=> y0; rewrite /scaled horner_poly horner_coef size_FP mulr_sumr.
case s: (size P) => [|n]; first by rewrite !big_ord0.
rewrite (reindex_inj rev_ord_inj) /=; apply: eq_bigr => i _.
have hi : (i <= n)%N by rewrite -ltnS.
rewrite subSS subKn // coef_map /= expr_div_n.
rewrite -mulrA [RHS]mulrCA; congr (_ * _).
rewrite [RHS]mulrCA; congr (_ * _).
by rewrite -expfB_cond // (negbTE y0) add0n.
Qed.

Definition pow_at (z : F) (n d : nat) : {poly F} := (z ^+ d)%:P - 'X^n.
Lemma ev_pow (z : F) n d : map_poly (ev z) (('X^d)%:P - 'X^n) = pow_at z n d.
Proof.
rewrite rmorphB /= map_polyC map_polyXn /pow_at; congr (_%:P - _).
by have := ev_monom z 1 d; rewrite scale1r mul1r.
Qed.
Lemma size_pow_at (R : idomainType) (c : R) n : (0 < n)%N -> size (c%:P - 'X^n : {poly R}) = n.+1.
Proof. by move=> n0; rewrite -opprB size_opp size_addl size_polyXn // size_opp ltnS (leq_trans (size_polyC_leq1 _)). Qed.
Lemma size_ev_pow (z : F) n d : (0 < n)%N -> size (map_poly (ev z) (('X^d)%:P - 'X^n)) = size (('X^d)%:P - 'X^n : {poly {poly int}}).
Proof. by move=> n0; rewrite ev_pow /pow_at !size_pow_at. Qed.
End Roots.

Section Resultants.
Local Notation FP F := (map_poly (intr : int -> F)).
Lemma result_of A B : wf int2_sem A -> wf int2_sem B -> PV2 A != 0 -> PV2 B != 0 ->
  exists r : zpoly, [/\ rmap (fun r : cf int2_coef => nv r) (resultant int2_exact A B) = Ret r, wf int_sem r &
    PV r = \det (sylvester (PV2 A) (PV2 B))].
Proof.
move=> wA wB A0 B0; have [H _] := resultant_spec int2_exact_sem wA wB.
have [r [-> e _ _]] := H A0 B0; exists (nv r); split=> //; exact: (np_wf int_poly_okE r).
Qed.

Lemma add_resultant_spec p q : wf int_sem p -> wf int_sem q -> PV p != 0 -> PV q != 0 ->
  exists r, [/\ add_resultant p q = Ret r, wf int_sem r &
    forall (F : numFieldType) (z : F), root (FP F (PV r)) z = (1 < size (gcdp (FP F (PV p)) (sub_at z (PV q))))%N].
Proof.
move=> wp wq p0 q0; have [wA eA] := lift_spec p; have [wB eB] := at_sub_spec q.
have [||r [e w er]] := result_of wA wB.
- by rewrite eA -size_poly_gt0 size_PC size_poly_gt0.
- by rewrite eB -size_poly_gt0 size_comp_poly2 ?size_CsubX // size_PC size_poly_gt0.
exists r; split=> // F z; rewrite er eA eB res_root ?ev_PC ?ev_sub //.
  by rewrite size_FP size_PC.
by rewrite -ev_sub size_ev_sub.
Qed.
Lemma mul_resultant_spec p q : wf int_sem p -> wf int_sem q -> PV p != 0 -> PV q != 0 -> (PV p)`_0 != 0 ->
  exists r, [/\ mul_resultant p q = Ret r, wf int_sem r &
    forall (F : numFieldType) (z : F),
      root (FP F (PV r)) z = (1 < size (gcdp (scaled (PV p) (fun k => z ^+ k)) (FP F (PV q))))%N].
Proof.
move=> wp wq p0 q0 c0; have [wA eA] := scaled_spec wp; have [wB eB] := lift_spec q.
have [||r [e w er]] := result_of wA wB.
- rewrite eA scaledE -size_poly_gt0 size_scaled ?size_poly_gt0 // ?expr0 //.
  by rewrite -(rmorph_int [rmorphism of (@polyC _)]) intz polyC_eq0.
- by rewrite eB -size_poly_gt0 size_PC size_poly_gt0.
exists r; split=> // F z; rewrite er eA eB res_root ?ev_PC ?ev_scaled //.
  by rewrite -ev_scaled size_ev_scaled.
by rewrite size_FP size_PC.
Qed.
Lemma pow_resultant_spec p n d : wf int_sem p -> PV p != 0 -> (0 < n)%N ->
  exists r, [/\ pow_resultant p n d = Ret r, wf int_sem r &
    forall (F : numFieldType) (z : F), root (FP F (PV r)) z = (1 < size (gcdp (FP F (PV p)) (pow_at z n d)))%N].
Proof.
move=> wp p0 n0; have [wA eA] := lift_spec p; have [wB eB] := pow_rhs_spec n d.
have [||r [e w er]] := result_of wA wB.
- by rewrite eA -size_poly_gt0 size_PC size_poly_gt0.
- by rewrite eB -size_poly_gt0 size_pow_at.
exists r; split=> // F z; rewrite er eA eB res_root ?ev_PC ?ev_pow //.
  by rewrite size_FP size_PC.
by rewrite /pow_at !size_pow_at.
Qed.
End Resultants.

(** * Common roots *)
Lemma common_root (F : fieldType) (A B : {poly F}) w : A != 0 -> root A w -> root B w -> (1 < size (gcdp A B))%N.
Proof.
move=> A0 ra rb; have g0 : gcdp A B != 0 by rewrite gcdp_eq0 (negbTE A0).
by apply: (root_size_gt1 g0 (a := w)); rewrite root_gcd ra rb.
Qed.
(** A common factor over the rationals with an irreducible polynomial: all its
    real roots are shared. *)
Lemma irr_share (P B : {poly rat}) (w : R) : irreducible_poly P -> (1 < size (gcdp P B))%N ->
  root (map_poly ratr P) w -> root (map_poly ratr B) w.
Proof.
move=> [s1 irr] sg rw; have /eqp_dvdl e : gcdp P B %= P by apply: irr; [rewrite neq_ltn sg orbT|exact: dvdp_gcdl].
have : P %| B by rewrite -e dvdp_gcdr.
case/dvdpP => C ->; by rewrite rmorphM rootM rw orbT.
Qed.
(** A polynomial that vanishes on infinitely many points is zero. *)
Lemma many_roots (P : {poly R}) (f : nat -> R) : injective f -> (forall n, root P (f n)) -> P = 0.
Proof.
move=> fi rt; apply/eqP; apply: contraT => P0.
have := @max_poly_roots _ P (map f (iota 0 (size P))) P0; rewrite size_map size_iota ltnn; apply.
  by apply/allP => y /mapP [n _ ->].
by rewrite map_inj_uniq ?iota_uniq.
Qed.

(** * For numbers *)
Lemma real_rat (P : {poly int}) : map_poly ratr (rp P) = map_poly (intr : int -> R) P.
Proof. by rewrite -map_poly_comp; apply: eq_map_poly => n /=; rewrite ratr_int. Qed.
Lemma root_sub (z : rat) Q (w : R) : root (map_poly ratr (sub_at z Q)) w = root (map_poly (intr : int -> R) Q) (ratr z - w).
Proof.
by rewrite /sub_at map_comp_poly real_rat rmorphB /= map_polyC map_polyX /root horner_comp hornerD hornerN hornerC hornerX.
Qed.
Lemma root_scaled (z : rat) P (w : R) : w != 0 ->
  root (map_poly ratr (scaled P (fun k => z ^+ k))) w = root (map_poly (intr : int -> R) P) (ratr z / w).
Proof.
move=> w0; have -> : map_poly ratr (scaled P (fun k => z ^+ k)) = scaled P (fun k => (ratr z : R) ^+ k).
  apply/polyP => i; rewrite coef_map /= !coef_poly; case: ifP => _; last by rewrite rmorph0.
  by rewrite rmorphM rmorphX /= ratr_int.
by rewrite /root scaled_horner // mulf_eq0 expf_eq0 (negbTE w0) andbF.
Qed.
Lemma root_pow (z : rat) n d (w : R) : root (map_poly ratr (pow_at z n d)) w = ((ratr z) ^+ d == w ^+ n :> R).
Proof.
by rewrite /pow_at rmorphB /= map_polyC map_polyXn /root hornerD hornerN hornerC hornerXn /= rmorphX /= subr_eq0.
Qed.

Section Two.
Variables (a b : ralg) (x y : R).
Hypotheses (Da : denotes a x) (Db : denotes b y).
Lemma q2rat_all q : exists r : rat, Q2R q = ratr r.  Proof. by exists (q2rat q); rewrite q2rat_R. Qed.

Lemma sum_resultant : exists r, [/\ add_resultant (mp a) (mp b) = Ret r, wf int_sem r, PV r != 0, Rt r (x + y) &
  forall q, Rt r (Q2R q) -> Rt (mp b) (Q2R q - x)].
Proof.
have [r [e w h]] := add_resultant_spec (den_wf Da) (den_wf Db) (den_neq0 Da) (den_neq0 Db).
have hq q : Rt r (Q2R q) -> Rt (mp b) (Q2R q - x).
  rewrite root_rat h => hh.
  have rx : root (map_poly ratr (rp (PV (mp a)))) x by rewrite real_rat; exact: den_root Da.
  by have := irr_share (den_irr Da) hh rx; rewrite root_sub q2rat_R.
exists r; split=> //.
- apply/negP => /eqP r0; have /eqP := real_n0 (den_neq0 Db); apply.
  apply: (@many_roots _ (fun n => n%:R - x)) => [m n /addIr /eqP|n]; first by rewrite eqr_nat => /eqP.
  have := hq (inject_Z (Z.of_nat n)); rewrite /real_poly r0 rmorph0 root0 => /(_ isT).
  suff -> : Q2R (inject_Z (Z.of_nat n)) = n%:R by [].
  by rewrite /Q2R /= Rinv_1 Rmult_1_r -INR_IZR_INZ P_AlgBase.natr_INR.
rewrite /real_poly h; apply: (common_root (w := x)); first exact: real_n0 (den_neq0 Da).
  exact: den_root Da.
rewrite /sub_at /root horner_comp hornerD hornerN hornerC hornerX addrAC subrr add0r.
exact: den_root Db.
Qed.

Hypotheses (x0 : x <> 0) (y0 : y <> 0).
Lemma prod_resultant : exists r, [/\ mul_resultant (mp a) (mp b) = Ret r, wf int_sem r, PV r != 0, Rt r (x * y) &
  forall q, Rt r (Q2R q) -> Rt (mp a) (Q2R q / y)].
Proof.
have c0 : (PV (mp a))`_0 != 0.
  apply/eqP => c0; apply: x0; apply: (den_root0 Da).
  by rewrite /root horner_coef0 /real_poly coef_map /= c0.
have [r [e w h]] := mul_resultant_spec (den_wf Da) (den_wf Db) (den_neq0 Da) (den_neq0 Db) c0.
have y0' : y != 0 by apply/eqP.
have hq q : Rt r (Q2R q) -> Rt (mp a) (Q2R q / y).
  rewrite root_rat h (eqp_size (gcdpC _ _)) => hh.
  have ry : root (map_poly ratr (rp (PV (mp b)))) y by rewrite real_rat; exact: den_root Db.
  by have := irr_share (den_irr Db) hh ry; rewrite root_scaled // q2rat_R.
exists r; split=> //.
- apply/negP => /eqP r0; have /eqP := real_n0 (den_neq0 Da); apply.
  apply: (@many_roots _ (fun n => n%:R / y)) => [m n /(mulIf (invr_neq0 y0')) /eqP|n]; first by rewrite eqr_nat => /eqP.
  have := hq (inject_Z (Z.of_nat n)); rewrite /real_poly r0 rmorph0 root0 => /(_ isT).
  suff -> : Q2R (inject_Z (Z.of_nat n)) = n%:R by [].
  by rewrite /Q2R /= Rinv_1 Rmult_1_r -INR_IZR_INZ P_AlgBase.natr_INR.
rewrite /real_poly h (eqp_size (gcdpC _ _)); apply: (common_root (w := y)); first exact: real_n0 (den_neq0 Db).
  exact: den_root Db.
rewrite /root scaled_horner // mulfK // mulf_eq0 expf_eq0 (negbTE y0') andbF /=.
exact: den_root Da.
Qed.
End Two.
