(** Refinement in terms of values, concrete values, refuted properties. *)
From Coq Require Import ZArith QArith Qreals Qround Reals Lia Lra Psatz.
From Coq Require Qcanon.
Set Warnings "-notation-overridden,-ambiguous-paths".
From mathcomp Require Import all_ssreflect all_algebra.
From mathcomp.zify Require Import ssrZ.
From Verif Require Import P_RingTac M_Base M_Traits M_Util M_Interval M_Poly M_PolyCoef P_PolyInst M_PolyAlg M_Factor M_Alg
  S_Poly S_PolyAlg S_Factor S_Interval P_Traits P_Interval P_IntervalTight P_Poly P_PolyAlgInst P_PolyAlgRef P_Rstruct S_Alg P_AlgBase P_AlgShrink
  P_AlgBasic P_AlgSign P_AlgNeg P_AlgRecip.
Set Implicit Arguments.
Unset Strict Implicit.
Unset Printing Implicit Defensive.
Import Order.TTheory GRing.Theory Num.Theory.
Delimit Scope Z_scope with ZZ.
Delimit Scope R_scope with RR.
Delimit Scope Q_scope with QQ.
Local Open Scope R_scope.
Local Notation Rt p := (root (real_poly p)).
Local Notation PV p := (pval int_sem p).

(** * Refinement *)
Lemma refine_steps_ok a x : denotes a x -> forall n, exists s, [/\ refine_steps n a = Ret s, refines (mp a) x s,
  inside (sh_itv s) (itv a) & width (sh_itv s) <= (17 / 32) ^ n * width (itv a)].
Proof.
move=> D; elim=> [|n [s [e h i w]]] /=.
  have [s [-> h e]] := den_shrinker D; exists s; rewrite e; split=> //; first exact: inside_refl.
  by rewrite Rmult_1_l; exact: Rle_refl.
rewrite e; have [ex [s' [e' h' _ [n1 n2 n3 _]]]] := shrink_ok h.
exists s'; cbn [rbind]; rewrite e'; split=> //; first exact: (inside_trans (conj n1 n2) i).
lra.
Qed.
Lemma refine_denotes a x : denotes a x -> forall n, exists s, [/\ refine_steps n a = Ret s, denotes (RA (mp a) (sh_itv s)) x,
  inside (sh_itv s) (itv a) & width (sh_itv s) <= (17 / 32) ^ n * width (itv a)].
Proof.
move=> D n; have [s [e h i w]] := refine_steps_ok D n; exists s; split=> //.
case: D => d1 d2 [d3 d4] d5 d6; split=> //=; first by split=> //; exact: rf_in h.
exact: rf_uniq h.
Qed.
Lemma refine_exact a x : denotes a x -> forall n s ex s', refine_steps n a = Ret s -> shrink s = Ret (ex, s') -> ex = true ->
  lo (sh_itv s') = x /\ hi (sh_itv s') = x.
Proof.
move=> D n s ex s' e e' ht; have [s0 [e0 h _ _]] := refine_steps_ok D n.
have es : s0 = s by move: e0; rewrite e => -[].
rewrite es in h; have [ex1 [s1 [e1 h1 _ [_ _ _ n4]]]] := shrink_ok h; move: e1; rewrite e' => -[ee es1].
rewrite -ee ht -es1 in n4; have q := n4 isT.
have := rf_in h1; rewrite -es1 inIE /lo /hi q; lra.
Qed.
Lemma refine_total a x : denotes a x -> forall n s, refine_steps n a = Ret s -> exists ex s', shrink s = Ret (ex, s').
Proof.
move=> D n s e; have [s0 [e0 h _ _]] := refine_steps_ok D n.
have es : s0 = s by move: e0; rewrite e => -[].
by rewrite es in h; have [ex [s' [e1 _ _ _]]] := shrink_ok h; exists ex, s'.
Qed.

(** * Square root of two and relatives *)
Lemma sqrt2_irr (r : rat) : (r ^+ 2 == 2%:R)%R = false.
Proof.
apply/negbTE/eqP => h.
have e : (numq r ^+ 2 = 2%:R * denq r ^+ 2)%R.
  have X (z : int) : ((z ^+ 2)%:~R = z%:~R ^+ 2 :> rat)%R by rewrite rmorphX.
  suff /intr_inj : ((numq r ^+ 2)%:~R = (2%:R * denq r ^+ 2)%:~R :> rat)%R by [].
  rewrite intrM !X -[(2%:R)%:~R%R]/(2%:R)%R -h -exprMn.
  by rewrite -{2}(divq_num_den r) divfK // intr_eq0 denq_neq0.
have c := coprime_num_den r.
have {}e : (`|numq r| ^ 2 = 2 * `|denq r| ^ 2)%N by have := congr1 absz e; rewrite abszM !abszX.
have d1 : (2 %| `|numq r|)%N by have : (2 %| `|numq r| ^ 2)%N by [rewrite e dvdn_mulr]; rewrite Euclid_dvdX // andbT.
have d2 : (2 %| `|denq r|)%N.
  case/dvdnP: (d1) => k ek; move: e; rewrite ek expnMn mulnC -[(2 ^ 2)%N]/(2 * 2)%N -mulnA => /eqP.
  rewrite eqn_mul2l /= => /eqP e.
  have : (2 %| `|denq r| ^ 2)%N by rewrite -e dvdn_mulr.
  by rewrite Euclid_dvdX // andbT.
have : (2 %| gcdn `|numq r| `|denq r|)%N by rewrite dvdn_gcd d1 d2.
by rewrite (eqP c).
Qed.

Section QuadId.
Variable T : comRingType.
Add Ring quad_ring : (comring_theory T).
Lemma quad_id (A B r : GRing.Ring.sort T) :
  ((A * (1 + 1) * r + B) * (A * (1 + 1) * r + B) = B * B - (1 + 1) * (1 + 1) * A * - (B * r + A * (r * r)))%R.
Proof. ring. Qed.
End QuadId.

Section Quadratic.
Variables (p : zpoly) (c b a : Z).
Hypothesis e : PV p = [:: zi c; zi b; zi a] :> seq int.
Hypothesis a0 : (0 < a)%ZZ.
Lemma quad_root (y : R) : Rt p y <-> IZR c + IZR b * y + IZR a * (y * y) = 0.
Proof.
rewrite /root horner_coef size_real e /= !big_ord_recl big_ord0 /bump /= /real_poly !coef_map e /=.
rewrite -[intr (int_of_Z c)]/((zi c)%:~R)%R -[intr (int_of_Z b)]/((zi b)%:~R)%R -[intr (int_of_Z a)]/((zi a)%:~R)%R !intr_zi.
rewrite addr0 expr0 mulr1 expr1 exprS expr1 addrA.
by split=> [/eqP h|h]; [exact: h|apply/eqP; exact: h].
Qed.
Lemma quad_irr : (b * b - 4 * a * c = 8)%ZZ -> irreducible_over_Q (PV p).
Proof.
move=> disc; apply: cubic_irreducible; first by rewrite size_intr e.
move=> r; apply/negP; rewrite /root horner_coef size_intr e /= !big_ord_recl big_ord0 /bump /= !coef_map e /=.
rewrite -[intr (int_of_Z c)]/((zi c)%:~R)%R -[intr (int_of_Z b)]/((zi b)%:~R)%R -[intr (int_of_Z a)]/((zi a)%:~R)%R.
rewrite addr0 expr0 mulr1 expr1 exprS expr1 addrA => /eqP h.
have := sqrt2_irr (((zi a)%:~R * 2%:R * r + (zi b)%:~R) / 2%:R).
rewrite expr_div_n.
have dd : ((zi b)%:~R * (zi b)%:~R - 4%:R * (zi a)%:~R * (zi c)%:~R = 8%:R :> rat)%R.
  by rewrite -[8%:R%R]/((zi 8)%:~R)%R -[4%:R%R]/((zi 4)%:~R)%R -!intrM -rmorphB -!zi_mul -zi_sub disc.
have -> : (((zi a)%:~R * 2%:R * r + (zi b)%:~R) ^+ 2 = 8%:R :> rat)%R.
  rewrite -dd; have -> : ((zi c)%:~R = - ((zi b)%:~R * r + (zi a)%:~R * (r * r)) :> rat)%R.
    by apply/eqP; rewrite -addr_eq0 addrA; apply/eqP.
  by rewrite expr2 -[2%:R%R]/(1 + 1)%R quad_id -[(1 + 1)%R]/(2%:R)%R -natrM.
by [].
Qed.
End Quadratic.

Definition zpl (l : seq Z) : zpoly := from_coefs (K := int_coef) l.
Lemma quad_seq c b a : (0 < a)%ZZ -> PV (zpl [:: c; b; a]) = [:: zi c; zi b; zi a] :> seq int.
Proof.
move=> a0; rewrite (from_coefs_spec int_sem _).2 (PolyK (c := GRing.zero _)) //=.
by rewrite -[_ == _]/(zi a == GRing.zero _) zi_eq0; apply/negP => /Z.eqb_eq; lia.
Qed.
Lemma quad_denotes c b a x i : (0 < a)%ZZ -> (b * b - 4 * a * c = 8)%ZZ -> inI x i -> IZR c + IZR b * x + IZR a * (x * x) = 0 ->
  (forall y, inI y i -> IZR c + IZR b * y + IZR a * (y * y) = 0 -> y = x) -> denotes (RA (zpl [:: c; b; a]) i) x.
Proof.
move=> a0 disc ix rx u; have e := quad_seq c b a0; split=> /=; first exact: (from_coefs_spec int_sem _).1.
- exact: quad_irr e disc.
- by split=> //; apply/(quad_root e).
- by move=> y iy /(quad_root e); exact: u.
- by rewrite e.
Qed.

(** Square root of 2, isolated by [1, 3]. *)
Definition root2 : ralg := RA (zpl [:: -2; 0; 1]%ZZ) (DFI 1 3 0).
Lemma root2_denotes : denotes root2 (sqrt 2).
Proof.
have s2 : sqrt 2 * sqrt 2 = 2 by apply: sqrt_sqrt; lra.
have s0 := sqrt_pos 2.
apply: quad_denotes => //; rewrite ?/inI /dyadic; cbn [dlo dhi dlog pow]; try nra.
by move=> y iy e; apply: Rsqr_inj; rewrite /Rsqr; lra.
Qed.
(** 5 + sqrt 2, isolated by [6, 8]. *)
Definition five_root2 : ralg := RA (zpl [:: 23; -10; 1]%ZZ) (DFI 6 8 0).
Lemma five_root2_denotes : denotes five_root2 (5 + sqrt 2).
Proof.
have s2 : sqrt 2 * sqrt 2 = 2 by apply: sqrt_sqrt; lra.
have s0 := sqrt_pos 2.
apply: quad_denotes => //; rewrite ?/inI /dyadic; cbn [dlo dhi dlog pow]; try nra.
move=> y iy e; have : y - 5 = sqrt 2 by apply: Rsqr_inj; rewrite /Rsqr; nra.
lra.
Qed.
(** 1 / sqrt 2, isolated by [0, 3]. *)
Definition half_root2 : ralg := RA (zpl [:: -1; 0; 2]%ZZ) (DFI 0 3 0).
Lemma half_root2_denotes : denotes half_root2 (sqrt 2 / 2).
Proof.
have s2 : sqrt 2 * sqrt 2 = 2 by apply: sqrt_sqrt; lra.
have s0 := sqrt_pos 2.
apply: quad_denotes => //; rewrite ?/inI /dyadic; cbn [dlo dhi dlog pow]; try nra.
by move=> y iy e; apply: Rsqr_inj; rewrite /Rsqr; nra.
Qed.

(** * Refuted properties *)
Lemma denotes_fun a x y : denotes a x -> denotes a y -> x = y.
Proof. by move=> D D'; apply: (den_uniq D'); [exact: den_in D|exact: den_root D]. Qed.

(** The reciprocal of 5 + sqrt 2 is given an interval with two roots. *)
Definition recip_five : ralg := RA (zpl [:: 1; -10; 23]%ZZ) (DFI 0 1 0).
Lemma recip_five_two z : ~ denotes recip_five z.
Proof.
move=> Dz; have s0 := sqrt_pos 2.
have s2 : sqrt 2 * sqrt 2 = 2 by apply: sqrt_sqrt; lra.
have e := @quad_seq 1 (-10) 23 (erefl _).
have R1 y : y * y = 2 -> 0 < 5 + y -> 1 <= 5 + y -> / (5 + y) = z.
  move=> y2 y1 yy; apply: (den_uniq Dz).
    rewrite inIE /lo /hi /dyadic; cbn [itv recip_five dlo dhi dlog pow]; have := Rinv_0_lt_compat _ y1.
    have : / (5 + y) <= / 1 by apply: Rinv_le_contravar; lra.
    by lra.
  apply/(quad_root e); field_simplify_eq; [nra|lra].
have hs : sqrt 2 <= 2 by nra.
have e1 : / (5 + sqrt 2) = z by apply: R1; lra.
have e2 : / (5 + - sqrt 2) = z by apply: R1; nra.
have : 5 + sqrt 2 = 5 + - sqrt 2 by rewrite -[LHS]Rinv_inv e1 -e2 Rinv_inv.
nra.
Qed.
Lemma five_canonical : canonical five_root2.
Proof.
have e := @quad_seq 23 (-10) 1 (erefl _); rewrite /canonical /positive_primitive /= /zcontents lead_coefE e /=.
by rewrite !big_ord_recl big_ord0.
Qed.
Lemma recip_not_isolating : exists a x b, [/\ denotes a x, canonical a, x <> 0,
  eventually (fun f => ra_checked_recip f a) (Some b) &
  (forall z, ~ denotes b z) /\ forall f, (0 < f)%N -> ra_integer_floor f b = Panic].
Proof.
have D := five_root2_denotes; have s0 := sqrt_pos 2.
exists five_root2, (5 + sqrt 2), recip_five; split=> //; first exact: five_canonical.
- lra.
- by exists 1%N; case=> [|f]; vm_compute.
by split=> [z|[//|f] _]; [exact: recip_five_two|vm_compute].
Qed.
(** The reciprocal of sqrt 2 gets a polynomial with negative leading coefficient. *)
Lemma recip_not_canonical : exists a x b, [/\ denotes a x, canonical a,
  eventually (fun f => ra_checked_recip f a) (Some b) & ~ canonical b].
Proof.
exists root2, (sqrt 2), (RA (zpl [:: 1; 0; -2]%ZZ) (DFI 0 1 0)); split.
- exact: root2_denotes.
- have e := @quad_seq (-2) 0 1 (erefl _); rewrite /canonical /positive_primitive /= /zcontents lead_coefE e /=.
  by rewrite !big_ord_recl big_ord0.
- by exists 1%N; case=> [|f]; vm_compute.
have e : PV (zpl [:: 1; 0; -2]%ZZ) = [:: zi 1; zi 0; zi (-2)] :> seq int.
  by rewrite (from_coefs_spec int_sem _).2 (PolyK (c := GRing.zero _)).
rewrite /canonical /positive_primitive /= => h; have := sgz_contents (PV (zpl [:: 1; 0; -2]%ZZ)).
by rewrite h lead_coefE e.
Qed.
(** The fractional part of a negative rational number is negative. *)
Lemma fract_negative : exists a x b y, [/\ denotes a x, canonical a,
  forall rng ffuel fuel, ra_fract rng ffuel fuel a = Ret b, denotes b y & y < 0].
Proof.
have r : Qred (-1 # 2) = (-1 # 2)%QQ by [].
have [D C] := from_ratio_denotes r.
exists (ra_from_ratio (-1 # 2)), (Q2R (-1 # 2)), (ra_from_ratio (-1 # 2)), (Q2R (-1 # 2)); split=> //.
by rewrite /Q2R /=; lra.
Qed.
