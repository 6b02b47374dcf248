(** Proofs about M_PolyAlg.v over a field: GCD, LCM, extended GCD, monic form. *)
From Coq Require Import ZArith Lia.
Set Warnings "-notation-overridden,-ambiguous-paths".
From mathcomp Require Import all_ssreflect all_fingroup all_algebra.
From mathcomp.zify Require Import zify_ssreflect.
From Verif Require Import M_Base M_Poly M_PolyAlg S_Poly S_PolyAlg P_Poly P_PolyDiv P_PolyGcd.
Set Implicit Arguments.
Unset Strict Implicit.
Unset Printing Implicit Defensive.
Import GRing.Theory.
Local Open Scope ring_scope.

Section GcdSpec.
Variable F : fieldType.
Implicit Types p q g l : {poly F}.

Lemma eqp_eq0 (a b : {poly F}) : a %= b -> (a == 0) = (b == 0).
Proof. by move=> H; rewrite -!size_poly_eq0 (eqp_size H). Qed.

Lemma is_gcdP g p q : g %= gcdp p q -> is_gcd g p q.
Proof.
move=> H; split.
- by apply/dvdpP; rewrite (eqp_dvdl _ H) dvdp_gcdl.
- by apply/dvdpP; rewrite (eqp_dvdl _ H) dvdp_gcdr.
- move=> d a b Ep Eq; apply/dvdpP; rewrite (eqp_dvdr _ H) dvdp_gcd Ep Eq.
  by rewrite !dvdp_mull.
Qed.

Lemma is_gcd_eqp g p q : is_gcd g p q -> g %= gcdp p q.
Proof.
case=> - [a Ea] [b Eb] H; apply/andP; split.
  by rewrite dvdp_gcd; apply/andP; split; apply/dvdpP; [exists a|exists b].
have /dvdpP [a' Ea'] := dvdp_gcdl p q; have /dvdpP [b' Eb'] := dvdp_gcdr p q.
by apply/dvdpP; apply: H Ea' Eb'.
Qed.

Lemma is_lcmP l p q g : g %= gcdp p q -> l * g = p * q -> l = 0 \/ g != 0 -> is_lcm l p q.
Proof.
move=> H E G; have [g0|g0] := eqVneq g 0.
  have l0 : l = 0 by case: G => //; rewrite g0 eqxx.
  have /andP [/eqP p0 /eqP q0] : (p == 0) && (q == 0).
    by rewrite -gcdp_eq0 -(eqp_eq0 H) g0.
  rewrite l0 p0 q0; split; [by exists 0; rewrite mul0r|by exists 0; rewrite mul0r|].
  by move=> m a b -> _; exists 0; rewrite !mulr0.
have gp : g %| p by rewrite (eqp_dvdl _ H) dvdp_gcdl.
have gq : g %| q by rewrite (eqp_dvdl _ H) dvdp_gcdr.
have El : l = p * (q %/ g) by apply: (mulIf g0); rewrite E -mulrA divpK.
have El' : l = q * (p %/ g) by apply: (mulIf g0); rewrite E -mulrA divpK // mulrC.
split.
- by exists (q %/ g); rewrite El mulrC.
- by exists (p %/ g); rewrite El' mulrC.
- move=> m a b Ea Eb.
  apply/dvdpP.
  have M : m * g %= gcdp (m * p) (m * q).
    apply: eqp_trans (_ : m * gcdp p q %= _); first by rewrite eqp_mull.
    exact: mulp_gcdr.
  rewrite -(dvdp_mul2r _ _ g0) E (eqp_dvdr _ M) dvdp_gcd.
  by apply/andP; split; [rewrite Eb -mulrA (mulrC p)|rewrite Ea -mulrA]; rewrite dvdp_mull.
Qed.
End GcdSpec.

Section FieldAlg.
Variables (K : pcoef) (F : fieldType) (S : coef_sem K F) (X : pexact K) (HX : exact_sem S X).
Variables (Rd : preduce K) (HR : reduce_sem S Rd).
Notation vc := (vc S).
Notation pval := (pval S).
Notation wf := (wf S).
Notation poly := (poly K).
Implicit Types (p q u v w : poly) (c : cf K).

Lemma div_field p c : wf p -> vc c != 0 ->
  exists r, [/\ div_single X p c = Ret r, wf r & pval r = (vc c)^-1 *: pval p].
Proof.
move=> Hp c0; have [|r [E _ Hr Vr]] := div_single_ok HX (Q := (vc c)^-1 *: pval p) Hp c0.
  by rewrite scalerA mulfV // scale1r.
by exists r.
Qed.

Lemma to_reduced_spec p : wf p ->
  exists r, [/\ to_reduced X Rd p = Ret r, wf r & pval r = (lead_coef (pval p))^-1 *: pval p].
Proof.
move=> Hp; have [R0 R1] := HR Hp; rewrite /to_reduced.
have [p0|p0] := eqVneq (pval p) 0; first by rewrite (R0 p0); exists p; rewrite p0 scaler0.
have [c -> Vc] := R1 p0; rewrite -Vc; apply: div_field => //.
by rewrite Vc lead_coef_eq0.
Qed.

Lemma reduced_eqp (P : {poly F}) : (lead_coef P)^-1 *: P %= P.
Proof.
have [->|p0] := eqVneq P 0; first by rewrite scaler0 eqpxx.
by rewrite eqp_scale // invr_eq0 lead_coef_eq0.
Qed.

Lemma reduced_monic (P : {poly F}) : monic_or_zero ((lead_coef P)^-1 *: P).
Proof.
have [->|p0] := eqVneq P 0; first by left; rewrite scaler0.
by right; rewrite lead_coefZ mulVf // lead_coef_eq0.
Qed.

Lemma poly_gcd_ok p q : wf p -> wf q ->
  exists g, [/\ poly_gcd X Rd p q = Ret g, wf g, pval g %= gcdp (pval p) (pval q) &
    monic_or_zero (pval g)].
Proof.
move=> Hp Hq; have [p' [Ep Hp' Vp]] := to_reduced_spec Hp.
have [q' [Eq Hq' Vq]] := to_reduced_spec Hq.
have [g [Eg Hg Vg]] := subresultant_gcd_spec HX Hp' Hq'.
have [g' [Eg' Hg' Vg']] := to_reduced_spec Hg.
exists g'; rewrite /poly_gcd Ep /= Eq /= Eg /= Eg' Vg'; split=> //; last exact: reduced_monic.
apply: eqp_trans (reduced_eqp _) _; apply: eqp_trans Vg _; rewrite Vp Vq.
by apply: eqp_gcd; exact: reduced_eqp.
Qed.

Lemma lcm_of_ok g p q : wf g -> wf p -> wf q -> pval g %= gcdp (pval p) (pval q) ->
  exists l, [/\ lcm_of X g p q = Ret l, wf l, pval l * pval g = pval p * pval q &
    pval l = 0 \/ pval g != 0].
Proof.
move=> Hg Hp Hq H; rewrite /lcm_of (is_zeroP Hg).
case: eqP => [g0|/eqP g0].
  exists (poly_zero K); rewrite pval_zero; split=> //; first exact: wf_zero; last by left.
  have /andP [/eqP -> _] : (pval p == 0) && (pval q == 0) by rewrite -gcdp_eq0 -(eqp_eq0 H) g0.
  by rewrite !mul0r.
have gq : pval g %| pval q by rewrite (eqp_dvdl _ H) dvdp_gcdr.
have [|t [Et _ Ht Vt]] := exact_div_ok HX (Q := pval q %/ pval g) Hq Hg g0; first by rewrite divpK.
rewrite Et /=; have [Hm Vm] := mul_spec S p t; exists (poly_mul p t); split=> //; last by right.
by rewrite Vm Vt -mulrA divpK.
Qed.

Lemma poly_gcd_lcm_spec p q : wf p -> wf q ->
  exists g l, [/\ poly_gcd X Rd p q = Ret g /\ poly_gcd_lcm X Rd p q = Ret (g, l), wf g /\ wf l,
    is_gcd (pval g) (pval p) (pval q) /\ monic_or_zero (pval g),
    is_lcm (pval l) (pval p) (pval q) &
    pval g * pval l = pval p * pval q].
Proof.
move=> Hp Hq; have [g [Eg Hg Vg Mg]] := poly_gcd_ok Hp Hq.
have [l [El Hl Vl Cl]] := lcm_of_ok Hg Hp Hq Vg.
exists g, l; rewrite /poly_gcd_lcm Eg /= El; split=> //.
- by split=> //; apply: is_gcdP.
- exact: is_lcmP Vg Vl Cl.
- by rewrite mulrC.
Qed.

(** Extended GCD. *)
Lemma ext_loop_spec fuel (P Q : {poly F}) (l r : state K) :
  wf (st_v l) -> wf (st_x l) -> wf (st_y l) -> wf (st_v r) -> wf (st_x r) -> wf (st_y r) ->
  pval (st_v l) != 0 -> monic_or_zero (pval (st_v l)) -> monic_or_zero (pval (st_v r)) ->
  pval (st_v l) = pval (st_x l) * P + pval (st_y l) * Q ->
  pval (st_v r) = pval (st_x r) * P + pval (st_y r) * Q ->
  (size (pval (st_v r)) < fuel)%N ->
  exists s, [/\ ext_loop X Rd fuel l r = Ret s,
    [/\ wf (st_v s), wf (st_x s) & wf (st_y s)],
    pval (st_v s) = pval (st_x s) * P + pval (st_y s) * Q,
    pval (st_v s) %= gcdp (pval (st_v l)) (pval (st_v r)) & monic_or_zero (pval (st_v s))].
Proof.
elim: fuel l r => [|fuel IH] l r // Hl1 Hl2 Hl3 Hr1 Hr2 Hr3 l0 Ml Mr El Er sz.
rewrite /= (is_zeroP Hr1); case: eqP => [r0|/eqP r0].
  by exists l; rewrite r0 gcdp0 eqpxx.
have [a [b [E _ _ [Ha Hb] [Va Vb]]]] := field_div HX Hl1 Hr1 r0.
rewrite E /=.
have [Hm1 Vm1] := mul_spec S (st_x r) a; have [Hm2 Vm2] := mul_spec S (st_y r) a.
have [Hs1 Vs1] := sub_spec (poly_mul (st_x r) a) Hl2; have [Hs2 Vs2] := sub_spec (poly_mul (st_y r) a) Hl3.
rewrite Vm1 in Vs1; rewrite Vm2 in Vs2.
have Vb' : pval b = pval (poly_sub (st_x l) (poly_mul (st_x r) a)) * P + pval (poly_sub (st_y l) (poly_mul (st_y r) a)) * Q.
  have := divp_eq (pval (st_v l)) (pval (st_v r)); rewrite -Va -Vb => Ed.
  have -> : pval b = pval (st_v l) - pval a * pval (st_v r) by rewrite Ed addrAC subrr add0r.
  rewrite Vs1 Vs2 El Er !mulrBl mulrDr !mulrA !(mulrC (pval a)) opprD !addrA; congr (_ - _).
  by rewrite -!addrA; congr (_ + _); rewrite addrC.
have sb : (size (pval b) < size (pval (st_v r)))%N by rewrite Vb ltn_modp.
have G n : pval n %= pval b -> pval (st_v r) != 0 ->
    gcdp (pval (st_v r)) (pval n) %= gcdp (pval (st_v l)) (pval (st_v r)).
  move=> nb _; apply: eqp_trans (eqp_gcdr _ nb) _; rewrite Vb eqp_sym.
  by apply: eqp_trans (gcdpC _ _) _; rewrite eqp_sym; exact: gcdp_modr.
have [R0 R1] := HR Hb.
have [b0|b0] := eqVneq (pval b) 0.
  rewrite (R0 b0) /=.
  have [||s [Es Hs Vs Gs Ms]] := IH r (St b (poly_sub (st_x l) (poly_mul (st_x r) a)) (poly_sub (st_y l) (poly_mul (st_y r) a))) Hr1 Hr2 Hr3 Hb Hs1 Hs2 r0 Mr _ Er Vb' _.
  - by left.
  - by move: sz sb; rewrite /=; lia.
  exists s; split=> //; apply: eqp_trans Gs _; apply: (G b _ r0); exact: eqpxx.
have [c -> Vc] := R1 b0.
have c0 : vc c != 0 by rewrite Vc lead_coef_eq0.
have [b1 [-> Hb1 Vb1]] := div_field Hb c0.
have [x1 [-> Hx1 Vx1]] := div_field Hs1 c0.
have [y1 [-> Hy1 Vy1]] := div_field Hs2 c0.
rewrite /=.
have [|||s [Es Hs Vs Gs Ms]] := IH r (St b1 x1 y1) Hr1 Hr2 Hr3 Hb1 Hx1 Hy1 r0 Mr _ Er _ _.
- by rewrite Vb1 Vc; exact: reduced_monic.
- by rewrite /= Vb1 Vx1 Vy1 Vb' scalerDr !scalerAl.
- rewrite /= Vb1; apply: leq_ltn_trans (size_scale_leq _ _) _; exact: leq_trans sb sz.
exists s; split=> //; apply: eqp_trans Gs _; apply: (G b1 _ r0).
by rewrite Vb1 eqp_scale // invr_eq0.
Qed.

Lemma one_spec' : wf (poly_one K) /\ pval (poly_one K) = 1.
Proof. by split; [apply: wf_one; exact: oner_neq0|exact: pval_one]. Qed.

Lemma to_one_ret p : wf p -> pval p != 0 ->
  exists2 o, to_one_if_nonzero p = Some o & wf o /\ pval o = 1.
Proof.
move=> Hp; have := is_zeroP Hp; rewrite /to_one_if_nonzero /poly_is_zero.
case: (els p) => [|x l] /= <- // _; exists (poly_one K) => //; exact: one_spec'.
Qed.

Lemma poly_extended_gcd_ok p q : wf p -> wf q ->
  exists g x y, [/\ poly_extended_gcd X Rd p q = Ret (g, x, y), [/\ wf g, wf x & wf y],
    pval x * pval p + pval y * pval q = pval g,
    pval g %= gcdp (pval p) (pval q) & monic_or_zero (pval g)].
Proof.
move=> Hp Hq; rewrite /poly_extended_gcd.
have Hz := wf_zero S; have Vz := pval_zero S.
have [R0 R1] := HR Hp; have [Q0 Q1] := HR Hq.
have [p0|p0] := eqVneq (pval p) 0.
  rewrite (R0 p0).
  have [q0|q0] := eqVneq (pval q) 0.
    rewrite (Q0 q0); exists (poly_zero K), (poly_zero K), (poly_zero K).
    by rewrite p0 q0 Vz gcdp0 eqpxx !mul0r addr0; split=> //; left.
  have [c -> Vc] := Q1 q0; have c0 : vc c != 0 by rewrite Vc lead_coef_eq0.
  have [g [-> Hg Vg]] := div_field Hq c0; have [o -> [Ho Vo]] := to_one_ret Hq q0.
  have [y [/= -> Hy Vy]] := div_field Ho c0.
  exists g, (poly_zero K), y; rewrite /= p0 Vz mul0r add0r Vy Vo Vg alg_polyC mul_polyC gcd0p.
  by split=> //; rewrite Vc; [exact: reduced_eqp|exact: reduced_monic].
have [c -> Vc] := R1 p0; have c0 : vc c != 0 by rewrite Vc lead_coef_eq0.
have [g [-> Hg Vg]] := div_field Hp c0; have [o -> [Ho Vo]] := to_one_ret Hp p0.
have [x [Ex Hx Vx]] := div_field Ho c0; rewrite /unwrap !rbind_Ret' Ex rbind_Ret'.
have [q0|q0] := eqVneq (pval q) 0.
  rewrite (Q0 q0); exists g, x, (poly_zero K).
  rewrite q0 Vz mul0r addr0 Vx Vo Vg alg_polyC mul_polyC gcdp0.
  by split=> //; rewrite Vc; [exact: reduced_eqp|exact: reduced_monic].
have [d -> Vd] := Q1 q0; have d0 : vc d != 0 by rewrite Vd lead_coef_eq0.
have [h [-> Hh Vh]] := div_field Hq d0; have [o' -> [Ho' Vo']] := to_one_ret Hq q0.
have [y [Ey Hy Vy]] := div_field Ho' d0; rewrite !rbind_Ret' Ey rbind_Ret'.
have [||||||s [Es Hs Vs Gs Ms]] := @ext_loop_spec (poly_len q).+2 (pval p) (pval q) (St g x (poly_zero K)) (St h (poly_zero K) y) Hg Hx Hz Hh Hz Hy.
- by rewrite /= Vg scaler_eq0 invr_eq0 (negbTE c0).
- by rewrite /= Vg Vc; exact: reduced_monic.
- by rewrite /= Vh Vd; exact: reduced_monic.
- by rewrite /= Vg Vx Vo Vz mul0r addr0 alg_polyC mul_polyC.
- by rewrite /= Vh Vy Vo' Vz mul0r add0r alg_polyC mul_polyC.
- by rewrite /= Vh /poly_len -(size_pval Hq) (leq_ltn_trans (size_scale_leq _ _)) // ltnW.
rewrite Es rbind_Ret'; exists (st_v s), (st_x s), (st_y s); split=> //.
apply: eqp_trans Gs _; rewrite /= Vg Vh Vc Vd; apply: eqp_gcd; exact: reduced_eqp.
Qed.

Lemma extended_gcd_spec p q : wf p -> wf q ->
  exists g x y l, [/\ poly_extended_gcd X Rd p q = Ret (g, x, y) /\
      poly_extended_gcd_lcm X Rd p q = Ret (g, l, x, y),
    [/\ wf g, wf x, wf y & wf l],
    pval x * pval p + pval y * pval q = pval g,
    is_gcd (pval g) (pval p) (pval q) /\ monic_or_zero (pval g) &
    is_lcm (pval l) (pval p) (pval q) /\ pval g * pval l = pval p * pval q].
Proof.
move=> Hp Hq; have [g [x [y [E [Hg Hx Hy] B G M]]]] := poly_extended_gcd_ok Hp Hq.
have [l [El Hl Vl Cl]] := lcm_of_ok Hg Hp Hq G.
exists g, x, y, l; rewrite /poly_extended_gcd_lcm E rbind_Ret' El; split=> //.
  by split=> //; apply: is_gcdP.
by split; [exact: is_lcmP G Vl Cl|rewrite mulrC].
Qed.

(** gcd and extended gcd agree: both are the monic gcd. *)
Lemma monic_eqp (a b : {poly F}) : monic_or_zero a -> monic_or_zero b -> a %= b -> a = b.
Proof.
move=> Ha Hb E; case: Ha => [a0|a1].
  by apply/esym/eqP; rewrite a0 -(eqp_eq0 E) a0.
case: Hb => [b0|b1]; first by apply/eqP; rewrite b0 (eqp_eq0 E) b0.
by apply/eqP; rewrite -eqp_monic //; apply/eqP.
Qed.

Lemma monic_spec p : wf p ->
  exists r, [/\ monic X p = Ret r, wf r & pval r = (lead_coef (pval p))^-1 *: pval p].
Proof.
move=> Hp; rewrite /monic; have [-> L2] := lead_spec Hp.
case: eqP => [p0|/eqP p0]; first by exists p; rewrite p0 scaler0.
by rewrite -L2; apply: div_field => //; rewrite L2 lead_coef_eq0.
Qed.

Lemma is_square_free_ok p : wf p ->
  is_square_free X Rd p = Ret (size (gcdp (pval p) (pval p)^`()) <= 1)%N.
Proof.
move=> Hp; have [Hd Vd] := derivative_spec Hp.
have [g [Eg Hg G _]] := poly_gcd_ok Hp Hd.
rewrite /is_square_free Eg rbind_Ret' /degree_or_0 (degree_spec Hg) -Vd -(eqp_size G); congr Ret.
case: (eqVneq (pval g) 0) => [->|g0]; first by rewrite size_poly0.
by have := size_poly_gt0 (pval g); rewrite g0 => H; case: (size _) H => [|[|n]].
Qed.

End FieldAlg.
