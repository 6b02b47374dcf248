(** Adding a single integer to a rational polynomial with integer coefficients. *)
From Coq Require Import ZArith QArith Qcanon Lia.
Set Warnings "-notation-overridden,-ambiguous-paths".
From mathcomp Require Import all_ssreflect all_algebra.
From mathcomp.zify Require Import ssrZ.
From Verif Require Import M_Base M_Traits M_Poly M_PolyCoef S_Poly P_Poly P_PolyDiv P_PolyInst.
Set Implicit Arguments.
Unset Strict Implicit.
Unset Printing Implicit Defensive.
Import GRing.Theory.
Local Open Scope ring_scope.

Section Single.
Variables (K : pcoef) (R : comUnitRingType) (S : coef_sem K R).
Variables (op : elt K -> elt K -> elt K) (s : R).
Hypothesis opE : forall x y, ve S (op x y) = ve S x + s * ve S y.

Lemma single_unit p c : dv p = d_one K -> (coef_to_elt c).2 = d_one K ->
  d_gcd (d_one K) (d_one K) = d_one K -> d_lcm (d_one K) (d_one K) = d_one K -> d_mul (d_one K) (d_one K) = d_one K ->
  pval S (add_sub_assign_single op p c) = pval S p + (s * vc S c)%:P.
Proof.
rewrite /add_sub_assign_single; have V := vc_to_elt S c.
case: (coef_to_elt c) V => rn rd /= V Ed Er G L M; rewrite Er in V *; rewrite Ed G L M.
have E1 : vd S (d_one K) = 1 by exact: vd1.
have Ea : ve S (d_to_elt (d_one K)) = 1 by rewrite ve_dvr.
have Vl : vc S c = ve S rn by rewrite V E1 divr1.
case Ep : (els p) => [|x l] /=; rewrite pval_normalize;
  apply/polyP => i; rewrite coefD coefC !coef_pval Ep /= ?Ed ?E1 ?divr1.
  case: i => [|i] /=; last by rewrite !nth_nil ve0 addr0.
  by rewrite opE !veM Ea ve0 mul0r !mulr1 Vl.
case: i => [|i] /=; last by rewrite addr0.
by rewrite opE !veM Ea !mulr1 Vl.
Qed.
End Single.

Lemma den_one (p : poly ratio_coef) : wf ratio_sem p ->
  (forall i, exists z : int, (pval ratio_sem p)`_i = z%:~R) -> dv p = 1%positive.
Proof.
case=> _ H I; move/rredP: (H : rred (els p) (dv p)) => /(_ (Z.pos (dv p)) (Z.divide_refl _)) D.
suff /Z.divide_1_r_nonneg : Z.divide (Z.pos (dv p)) 1 by lia.
apply: D => x; have nthE : forall (l : seq Z), List.In x l -> exists i, nth 0%ZZ l i = x.
  elim=> [//|y l IH] /= [->|/IH [i Ei]]; [by exists 0%N|by exists i.+1].
case/nthE => i Ei; have [z Ez] := I i; exists (Z_of_int z); apply: zr_inj; rewrite zr_mul.
have := coef_pval ratio_sem p i; rewrite Ez => E.
have Nd : zr (Z.pos (dv p)) != 0 by rewrite zr_pos.
rewrite -Ei; have -> : zr (Z_of_int z) = z%:~R by rewrite /zr Z_of_intK.
by rewrite E /= divfK.
Qed.

Lemma coef_den_one (c : Qc) : (exists z : int, vc ratio_sem c = z%:~R) -> Qden (this c) = 1%positive.
Proof.
case=> z E; have R := rred1 c; move/rredP: R => /(_ (Z.pos (Qden c)) (Z.divide_refl _)) D.
suff /Z.divide_1_r_nonneg : Z.divide (Z.pos (Qden c)) 1 by lia.
apply: D => x /= [<-|//]; exists (Z_of_int z); apply: zr_inj; rewrite zr_mul.
have -> : zr (Z_of_int z) = z%:~R by rewrite /zr Z_of_intK.
by rewrite -E /= /q2r divfK // zr_pos.
Qed.

Lemma add_single_integral (p : poly ratio_coef) (c : Qc) : wf ratio_sem p ->
  (forall i, exists z : int, (pval ratio_sem p)`_i = z%:~R) -> (exists z : int, vc ratio_sem c = z%:~R) ->
  pval ratio_sem (poly_add_single p c) = pval ratio_sem p + (vc ratio_sem c)%:P /\
  pval ratio_sem (poly_sub_single p c) = pval ratio_sem p - (vc ratio_sem c)%:P.
Proof.
move=> w I J; have D := den_one w I; have E := coef_den_one J; split.
  rewrite -[vc ratio_sem c]mul1r; apply: single_unit => // x y; by rewrite veD mul1r.
rewrite -polyCN -[- vc ratio_sem c]mulN1r; apply: single_unit => // x y; by rewrite veB mulN1r.
Qed.
