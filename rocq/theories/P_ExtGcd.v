(** Size bounds for the Bezout coefficients of coprime polynomials. *)
From Coq Require Import ZArith Lia.
Set Warnings "-notation-overridden,-ambiguous-paths".
From mathcomp Require Import all_ssreflect all_algebra.
From Verif Require Import M_Base M_Poly M_PolyAlg S_Poly S_PolyAlg P_Poly P_PolyDiv P_PolyGcd P_PolyField.
Set Implicit Arguments.
Unset Strict Implicit.
Unset Printing Implicit Defensive.
Import GRing.Theory.
Local Open Scope ring_scope.
Local Notation monic := mathcomp.algebra.poly.monic.

Section Bound.
Variables (K : pcoef) (F : fieldType) (S : coef_sem K F) (X : pexact K) (Rd : preduce K).
Hypotheses (HX : exact_sem S X) (HR : reduce_sem S Rd).
Notation vc := (vc S).
Notation pval := (pval S).
Notation wf := (wf S).
Notation poly := (poly K).

(** [zl], [zr]: cofactors; [vl], [vr]: values; [N]: size of the other input. *)
Definition J (N : nat) (zl zr vl vr : {poly F}) : Prop :=
  [/\ zr = 0 \/ (size zr + size vl <= N.+1)%N, zl = 0 \/ (size zl + size vr <= N.+1)%N
    & vr = 0 -> zl = 0 \/ (size zl < N)%N].
Lemma J_step N (zl zr vl vr a b : {poly F}) : J N zl zr vl vr -> vr != 0 -> vl != 0 -> vl = a * vr + b -> (size b < size vr)%N ->
  (size vl > 1)%N \/ (size vr > 1)%N -> (b = 0 -> size vr = 1%N) -> forall c, c != 0 ->
  J N zr (c *: (zl - zr * a)) vr (c *: b).
Proof.
move=> [h1 h2 _] r0 l0 E sb d k c c0; rewrite /J !size_scale //.
have sq : a != 0 -> (size a + size vr = (size vl).+1)%N.
  move=> a0; have -> : size vl = size (a * vr).
    rewrite E size_addl // size_mul // (leq_trans sb) //.
    by rewrite -{1}[size vr]add0n -subn1 -addnBAC ?size_poly_gt0 // leq_add2r.
  by rewrite size_mul // prednK // addn_gt0 size_poly_gt0 a0.
split.
- have [->|z0] := eqVneq (zl - zr * a) 0; first by left; rewrite scaler0.
  right; have : (size (zl - zr * a)%R <= maxn (size zl) (size (zr * a)%R))%N.
    by apply: leq_trans (size_add _ _) _; rewrite size_opp.
  rewrite -(leq_add2r (size vr)) addn_maxl => h; apply: leq_trans h _; rewrite geq_max; apply/andP; split.
    case: h2 => [zl0|//]; rewrite zl0 size_poly0 add0n.
    have [a0|a0] := eqVneq a 0; first by rewrite zl0 a0 mulr0 subrr eqxx in z0.
    case: h1 => [zr0|h1]; first by rewrite zl0 zr0 mul0r subrr eqxx in z0.
    have := sq a0; move: h1; have : (0 < size a)%N by rewrite size_poly_gt0.
    by move: (size a) (size vr) (size vl) (size zr) => *; lia.
  have [a0|a0] := eqVneq a 0.
    rewrite a0 mulr0 size_poly0 add0n; case: h2 => [zl0|h2]; last by apply: leq_trans (leq_addl _ _) h2.
    by rewrite zl0 a0 mulr0 subrr eqxx in z0.
  case: h1 => [zr0|h1].
    rewrite zr0 mul0r size_poly0 add0n; case: h2 => [zl0|h2]; last by apply: leq_trans (leq_addl _ _) h2.
    by rewrite zl0 zr0 mul0r subrr eqxx in z0.
  have [->|zr0] := eqVneq zr 0.
    by rewrite mul0r size_poly0 add0n; apply: leq_trans _ (leq_trans (leq_addl (size zr) _) h1);
       have := sq a0; have : (0 < size a)%N by [rewrite size_poly_gt0]; move: (size a) (size vr) (size vl) => *; lia.
  rewrite size_mul //; have := sq a0; move: h1.
  have : (0 < size a)%N by rewrite size_poly_gt0.
  have : (0 < size zr)%N by rewrite size_poly_gt0.
  by move: (size a) (size vr) (size vl) (size zr) => *; lia.
- case: h1 => [->|h1]; [by left|right]; apply: leq_trans h1; rewrite leq_add2l.
  have [a0|a0] := eqVneq a 0; first by rewrite E a0 mul0r add0r.
  have := sq a0; have : (0 < size a)%N by rewrite size_poly_gt0.
  by move: sb; move: (size a) (size vr) (size vl) (size b) => *; lia.
- move=> /eqP; rewrite scaler_eq0 (negbTE c0) /= => /eqP b0.
  case: h1 => [->|h1]; [by left|right]; have sr := k b0.
  case: d => d; last by rewrite sr in d.
  by move: h1 d; move: (size zr) (size vl) => *; lia.
Qed.

Lemma ext_loop_bound fuel (P Q : nat) (l r s : state K) :
  wf (st_v l) -> wf (st_x l) -> wf (st_y l) -> wf (st_v r) -> wf (st_x r) -> wf (st_y r) ->
  pval (st_v l) != 0 ->
  J Q (pval (st_x l)) (pval (st_x r)) (pval (st_v l)) (pval (st_v r)) ->
  J P (pval (st_y l)) (pval (st_y r)) (pval (st_v l)) (pval (st_v r)) ->
  (pval (st_v r) != 0 -> (size (pval (st_v l)) > 1)%N \/ (size (pval (st_v r)) > 1)%N) ->
  coprimep (pval (st_v l)) (pval (st_v r)) ->
  ext_loop X Rd fuel l r = Ret s ->
  (pval (st_x s) = 0 \/ (size (pval (st_x s)) < Q)%N) /\ (pval (st_y s) = 0 \/ (size (pval (st_y s)) < P)%N).
Proof.
elim: fuel l r => [|fuel IH] l r // Hl1 Hl2 Hl3 Hr1 Hr2 Hr3 l0 Jx Jy d cop.
cbn [ext_loop]; rewrite (is_zeroP Hr1); case: eqP => [r0|/eqP r0].
  by move=> [<-]; split; [case: Jx|case: Jy] => _ _ /(_ r0).
have [a [b [E _ _ [Ha Hb] [Va Vb]]]] := field_div HX Hl1 Hr1 r0.
rewrite E rbind_Ret'.
have [Hm1 Vm1] := mul_spec S (st_x r) a; have [Hm2 Vm2] := mul_spec S (st_y r) a.
have [Hs1 Vs1] := sub_spec (poly_mul (st_x r) a) Hl2; have [Hs2 Vs2] := sub_spec (poly_mul (st_y r) a) Hl3.
rewrite Vm1 in Vs1; rewrite Vm2 in Vs2.
have Ed : pval (st_v l) = pval a * pval (st_v r) + pval b by rewrite Va Vb -divp_eq.
have sb : (size (pval b) < size (pval (st_v r)))%N by rewrite Vb ltn_modp.
have k : pval b = 0 -> size (pval (st_v r)) = 1%N.
  move=> b0; move: cop; rewrite Ed b0 addr0 coprimep_sym coprimepMr => /andP[_].
  by rewrite coprimepp => /eqP.
have cop' c : c != 0 -> coprimep (pval (st_v r)) (c *: pval b).
  move=> c0; rewrite coprimepZr // coprimep_sym.
  by move: cop; rewrite Ed coprimep_sym coprimep_addl_mul coprimep_sym.
have d' c : c *: pval b != 0 -> (1 < size (pval (st_v r)))%N \/ (1 < size (c *: pval b))%N.
  move=> h; left; apply: leq_trans sb; rewrite ltnS size_poly_gt0.
  by apply: contraNneq h => ->; rewrite scaler0.
have [R0 R1] := HR Hb.
have [b0|b0] := eqVneq (pval b) 0.
  rewrite (R0 b0) rbind_Ret'.
  have Jx' := J_step Jx r0 l0 Ed sb (d r0) k (oner_neq0 _).
  have Jy' := J_step Jy r0 l0 Ed sb (d r0) k (oner_neq0 _).
  rewrite !scale1r -Vs1 -Vs2 in Jx' Jy'.
  apply: IH => //=; first by move=> h; have := d' 1; rewrite scale1r; apply.
  by have := cop' 1 (oner_neq0 _); rewrite scale1r.
have [c -> Vc] := R1 b0.
have c0 : vc c != 0 by rewrite Vc lead_coef_eq0.
have ci : (vc c)^-1 != 0 by rewrite invr_eq0.
have [b1 [-> Hb1 Vb1]] := div_field HX Hb c0.
have [x1 [-> Hx1 Vx1]] := div_field HX Hs1 c0.
have [y1 [-> Hy1 Vy1]] := div_field HX Hs2 c0.
rewrite !rbind_Ret'.
have Jx' := J_step Jx r0 l0 Ed sb (d r0) k ci.
have Jy' := J_step Jy r0 l0 Ed sb (d r0) k ci.
rewrite -Vs1 -Vx1 -Vb1 in Jx'; rewrite -Vs2 -Vy1 -Vb1 in Jy'.
by apply: IH => //=; rewrite Vb1; [apply: d'|apply: cop'].
Qed.

Lemma extended_gcd_bound (p q : poly) g x y : wf p -> wf q -> pval p != 0 -> pval q != 0 ->
  coprimep (pval p) (pval q) -> (1 < size (pval p))%N \/ (1 < size (pval q))%N ->
  poly_extended_gcd X Rd p q = Ret (g, x, y) ->
  (size (pval x) < size (pval q))%N /\ (size (pval y) < size (pval p))%N.
Proof.
move=> Hp Hq p0 q0 cop d; rewrite /poly_extended_gcd.
have [_ R1] := HR Hp; have [_ Q1] := HR Hq.
have Hz := wf_zero S; have Vz := pval_zero S.
have [c -> Vc] := R1 p0; have c0 : vc c != 0 by rewrite Vc lead_coef_eq0.
have ci : (vc c)^-1 != 0 by rewrite invr_eq0.
have [v [-> Hv Vv]] := div_field HX Hp c0; have [o -> [Ho Vo]] := to_one_ret Hp p0.
have [x0 [Ex Hx0 Vx0]] := div_field HX Ho c0; rewrite /unwrap !rbind_Ret' Ex rbind_Ret'.
have [e -> Ve] := Q1 q0; have e0 : vc e != 0 by rewrite Ve lead_coef_eq0.
have ei : (vc e)^-1 != 0 by rewrite invr_eq0.
have [w [-> Hw Vw]] := div_field HX Hq e0; have [o' -> [Ho' Vo']] := to_one_ret Hq q0.
have [y0 [Ey Hy0 Vy0]] := div_field HX Ho' e0; rewrite !rbind_Ret' Ey rbind_Ret'.
have v0 : pval v != 0 by rewrite Vv scaler_eq0 negb_or ci.
have w0 : pval w != 0 by rewrite Vw scaler_eq0 negb_or ei.
have sv : size (pval v) = size (pval p) by rewrite Vv size_scale.
have sw : size (pval w) = size (pval q) by rewrite Vw size_scale.
case E : (ext_loop _ _ _ _ _) => [s| |] //; rewrite rbind_Ret' => -[_ <- <-].
have jx : J (size (pval q)) (pval x0) (pval (poly_zero K)) (pval v) (pval w).
  split; [by left|right|by move/eqP; rewrite (negbTE w0)].
  by rewrite Vx0 Vo size_scale // size_poly1 sw.
have jy : J (size (pval p)) (pval (poly_zero K)) (pval y0) (pval v) (pval w).
  split; [right|by left|by move/eqP; rewrite (negbTE w0)].
  by rewrite Vy0 Vo' size_scale // size_poly1 sv.
have dd : pval w != 0 -> (1 < size (pval v))%N \/ (1 < size (pval w))%N by rewrite sv sw.
have cc : coprimep (pval v) (pval w) by rewrite Vv Vw coprimepZl // coprimepZr.
have [h1 h2] := ext_loop_bound (l := St v x0 (poly_zero K)) (r := St w (poly_zero K) y0) Hv Hx0 Hz Hw Hz Hy0 v0 jx jy dd cc E.
split.
  by case: h1 => [->|//]; rewrite size_poly0 size_poly_gt0.
by case: h2 => [->|//]; rewrite size_poly0 size_poly_gt0.
Qed.
End Bound.
