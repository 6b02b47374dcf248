(** Greatest common divisors of integer polynomials. *)
From Coq Require Import ZArith QArith Qcanon Lia.
Set Warnings "-notation-overridden,-ambiguous-paths".
From mathcomp Require Import all_ssreflect all_algebra.
From mathcomp.zify Require Import ssrZ zify_ssreflect zify_algebra.
From Verif Require Import M_Base M_Traits M_Poly M_PolyCoef M_PolyAlg S_Poly S_PolyAlg S_IntGcd
  P_Poly P_PolyDiv P_PolyInst P_PolyGcd P_PolyField P_PolyContent P_PolyAlgInst P_PolyAlgRef.
Set Implicit Arguments.
Unset Strict Implicit.
Unset Printing Implicit Defensive.
Import GRing.Theory Num.Theory.
Local Open Scope ring_scope.
Notation zv := (pval int_sem).
Notation zwf := (wf int_sem).

Lemma gcd_fold_int (l : seq Z) : forall acc : Z, gcd_fold int_content acc l = Ret (foldl Z.gcd acc l).
Proof. by elim: l => [|c l IH] acc //=; exact: IH. Qed.

Lemma int_coefs (p : poly int_coef) : coefficients p = els p.
Proof. by rewrite /coefficients -[RHS]map_id; apply: eq_map. Qed.

Lemma int_lead (p : poly int_coef) c cs : els p = c :: cs -> nonzero_lead p = Some (last c cs).
Proof.
move=> E; rewrite /nonzero_lead /degree /nonzero_coefficient E /= lastI.
by rewrite -cats1 -[size cs](size_belast c) drop_size_cat.
Qed.

Lemma int_factor p : nonzero_content int_content p = Ret (nonzero_reducing_factor int_reduce p).
Proof.
rewrite /nonzero_content int_coefs /nonzero_reducing_factor /= /int_red_factor.
case E: (els p) => [//|c cs]; rewrite gcd_fold_int (int_lead E) /=.
by congr (Ret (Some _)); case: ifP.
Qed.

Lemma factor_int p : zwf p ->
  nonzero_reducing_factor int_reduce p = None /\ zv p = 0 \/
  exists c, [/\ nonzero_reducing_factor int_reduce p = Some c, zv p != 0 & vc int_sem c = zcontents (zv p)].
Proof.
move=> Hp; have [c [r [_ _ _ E [Ec _ _]]]] := content_int Hp; have {}E : nonzero_reducing_factor int_reduce p = if zv p == 0 then None else Some c.
  by rewrite int_factor in E; case: E => E; exact: E.
rewrite E.
by case: eqP => [p0|/eqP p0]; [left|right; exists c].
Qed.

Lemma reduced_int p : zwf p -> exists r, [/\ to_reduced int_exact int_reduce p = Ret r, zwf r & zv r = zprimitive (zv p)].
Proof.
move=> Hp; rewrite /to_reduced; have [[-> p0]|[c [-> p0 Ec]]] := factor_int Hp.
  by exists p; rewrite p0 zprimitive0.
have c0 : vc int_sem c != 0 by rewrite Ec zcontents_eq0.
have [|r [E _ Hr Vr]] := div_single_ok int_exact_sem (Q := zprimitive (zv p)) Hp c0; first by rewrite Ec -zpolyEprim.
by exists r.
Qed.

Lemma zprimitive_lead (P : {poly int}) : P != 0 -> 0 < lead_coef (zprimitive P).
Proof.
move=> p0; have : 0 < zcontents (zprimitive P) by rewrite zcontents_primitive p0.
by rewrite -sgz_gt0 sgz_contents sgz_gt0.
Qed.

Lemma zprimitive_free (P : {poly int}) : P != 0 -> content_free (zprimitive P).
Proof.
move=> p0 d q /(congr1 zcontents); rewrite zcontents_primitive p0 zcontentsZ => /esym E.
have /eqP : (absz d * absz (zcontents q))%N = 1%N by rewrite -abszM E.
by rewrite muln_eq1 => /andP [/eqP H _]; lia.
Qed.

Lemma zprimitive_eqp (P : {poly int}) : zprimitive P %= P.
Proof.
have [->|p0] := eqVneq P 0; first by rewrite zprimitive0 eqpxx.
by rewrite {2}[P]zpolyEprim eqp_sym eqp_scale // zcontents_eq0.
Qed.

Lemma gcd_int p q : zwf p -> zwf q ->
  exists g, [/\ poly_gcd int_exact int_reduce p q = Ret g, zwf g, zv g %= gcdp (zv p) (zv q) & zv g = zprimitive (zv g)].
Proof.
move=> Hp Hq; have [p' [Ep Hp' Vp]] := reduced_int Hp; have [q' [Eq Hq' Vq]] := reduced_int Hq.
have [g [Eg Hg Vg]] := subresultant_gcd_spec int_exact_sem Hp' Hq'.
have [g' [Eg' Hg' Vg']] := reduced_int Hg.
exists g'; rewrite /poly_gcd Ep /= Eq /= Eg /= Eg' Vg'; split=> //; last by rewrite zprimitive_id.
apply: eqp_trans (zprimitive_eqp _) _; apply: eqp_trans Vg _; rewrite Vp Vq.
by apply: eqp_gcd; exact: zprimitive_eqp.
Qed.

Lemma prim_divides (G P : {poly int}) : G = zprimitive G -> G %| P -> divides G P.
Proof. by move=> E /dvdpP_int [r ->]; exists r; rewrite mulrC -E. Qed.
Lemma divides_dvdp (G P : {poly int}) : divides G P -> G %| P.
Proof. by case=> c ->; rewrite dvdp_mulIr. Qed.

Lemma prim_factor (H G : {poly int}) : G != 0 -> H %| G -> divides (zprimitive H) G.
Proof. by move=> _ /dvdpP_int [r ->]; exists r; rewrite mulrC. Qed.

Lemma unit_divides (H G : {poly int}) : zcontents H = 1 \/ zcontents H = -1 -> divides (zprimitive H) G -> divides H G.
Proof.
move=> E [c ->]; case: E => E; rewrite [H in divides H _]zpolyEprim E; [exists c|exists (- c)].
  by rewrite scale1r.
by rewrite scaleN1r mulrNN.
Qed.

Lemma free_contents (H : {poly int}) : content_free H -> zcontents H = 1 \/ zcontents H = -1.
Proof. by move/(_ (zcontents H) (zprimitive H)); apply; exact: zpolyEprim. Qed.

Lemma gcd_int_spec p q : zwf p -> zwf q ->
  exists g, [/\ poly_gcd int_exact int_reduce p q = Ret g, zwf g,
    divides (zv g) (zv p) /\ divides (zv g) (zv q),
    forall h, content_free h -> divides h (zv p) -> divides h (zv q) -> divides h (zv g) &
    zv g = 0 /\ zv p = 0 /\ zv q = 0 \/ content_free (zv g) /\ 0 < lead_coef (zv g)].
Proof.
move=> Hp Hq; have [g [E Hg Vg Pg]] := gcd_int Hp Hq; exists g; split=> //.
- by split; apply: prim_divides => //; rewrite (eqp_dvdl _ Vg) ?dvdp_gcdl ?dvdp_gcdr.
- move=> h Fh /divides_dvdp hp /divides_dvdp hq; apply: unit_divides; first exact: free_contents.
  have /dvdpP_int [r ->] : h %| zv g by rewrite (eqp_dvdr _ Vg) dvdp_gcd hp hq.
  by exists r; rewrite mulrC.
- have [g0|g0] := eqVneq (zv g) 0; [left|right].
    by have /andP [/eqP -> /eqP ->] : (zv p == 0) && (zv q == 0) by rewrite -gcdp_eq0 -Pdiv.Idomain.eqp0 Pdiv.Idomain.eqp_sym -g0.
  by rewrite Pg; split; [exact: zprimitive_free|exact: zprimitive_lead].
Qed.

Lemma zgcd_iff p q g : zwf p -> zwf q -> zv p != 0 \/ zv q != 0 -> poly_gcd int_exact int_reduce p q = Ret g ->
  (zgcd (zv g) (zv p) (zv q) <-> coprime_contents (zv p) (zv q)).
Proof.
move=> Hp Hq N0 E; have [g' [E' _ [D1 D2] D3 F]] := gcd_int_spec Hp Hq.
move: E'; rewrite E => -[Eg]; move: D1 D2 D3 F; rewrite -Eg {E Eg g'} => D1 D2 D3 F.
have {}F : content_free (zv g) by case: F => [[_ [p0 q0]]|[]//]; case: N0; rewrite ?p0 ?q0 eqxx.
split=> [[_ _ G] d p' q' Ep Eq|C].
  have [c Ec] : divides d%:P (zv g).
    by apply: G; [exists p'|exists q']; rewrite ?Ep ?Eq -mul_polyC mulrC.
  by apply: F (c) _; rewrite Ec -mul_polyC mulrC.
split=> // h [a Ea] [b Eb]; apply: unit_divides.
  apply: C (a * zprimitive h) (b * zprimitive h) _ _; rewrite ?Ea ?Eb {1}[h]zpolyEprim;
  by rewrite -scalerAr.
have h0 : h != 0 by case: N0; apply: contraNneq => h0; rewrite ?Ea ?Eb h0 mulr0.
apply: D3.
- exact: zprimitive_free.
- by exists (zcontents h *: a); rewrite Ea {1}[h]zpolyEprim -scalerAr scalerAl.
- by exists (zcontents h *: b); rewrite Eb {1}[h]zpolyEprim -scalerAr scalerAl.
Qed.

Lemma reduced_int_spec p : zwf p ->
  exists r, [/\ to_reduced int_exact int_reduce p = Ret r, zwf r &
    match nonzero_reducing_factor int_reduce p with
    | Some c => [/\ zv p = vc int_sem c *: zv r, vc int_sem c != 0, content_free (zv r) & 0 < lead_coef (zv r)]
    | None => zv p = 0 /\ r = p
    end].
Proof.
move=> Hp; have [r [E Hr Vr]] := reduced_int Hp; exists r; split=> //.
have [[E0 p0]|[c [E0 p0 Ec]]] := factor_int Hp; rewrite E0.
  by split=> //; move: E; rewrite /to_reduced E0 => -[].
by rewrite Vr Ec; split; [exact: zpolyEprim|rewrite zcontents_eq0|exact: zprimitive_free|exact: zprimitive_lead].
Qed.
