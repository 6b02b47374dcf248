(** Same-degree factorisation can always finish: a draw that splits the
    polynomial exists. *)
From Coq Require Import ZArith Lia.
Set Warnings "-notation-overridden,-ambiguous-paths".
From mathcomp Require Import all_ssreflect fingroup ssralg poly polydiv finalg zmodp vector falgebra fieldext finfield.
From mathcomp Require Import all_algebra.
From Verif Require Import S_Factor P_Ffield P_FactorP.
Set Implicit Arguments.
Unset Strict Implicit.
Unset Printing Implicit Defensive.
Import GRing.Theory.
Local Open Scope ring_scope.
Local Notation monic := mathcomp.algebra.poly.monic.

(** In a field of odd order 2e + 1 the e-th roots of unity (the non-zero
    squares) are not closed under adding a non-zero constant. *)
Lemma no_shift (L : fieldType) (p e : nat) (k : L) : p \in [char L] -> (2%:R : L) != 0 -> (0 < e)%N ->
  (forall x : L, x ^+ (2 * e).+1 = x) -> k != 0 -> ~ (forall a : L, a ^+ e = 1 -> (a + k) ^+ e = 1).
Proof.
move=> cp n2 e0 all k0 sh.
have sq (u : L) : u != 0 -> (u ^+ 2) ^+ e = 1.
  by move=> u0; apply: (mulfI u0); rewrite mulr1 -exprM -exprS all.
have n0 (s : L) : s ^+ e = 1 -> s != 0.
  by move=> h; apply/eqP => E; move/eqP: h; rewrite E expr0n eqn0Ngt e0 eq_sym oner_eq0.
have sh1 (a s : L) : a ^+ e = 1 -> s ^+ e = 1 -> (a + s * k) ^+ e = 1.
  move=> ha hs; have s0 := n0 s hs.
  have -> : a + s * k = s * (a / s + k) by rewrite mulrDr mulrCA mulfV // mulr1.
  by rewrite exprMn hs mul1r sh // exprMn exprVn ha hs invr1 mulr1.
have shn (a s : L) n : a ^+ e = 1 -> s ^+ e = 1 -> (a + (s * k) *+ n) ^+ e = 1.
  move=> ha hs; elim: n => [|n IH]; first by rewrite mulr0n addr0.
  by rewrite mulrSr addrA; apply: sh1.
have shu (a u : L) : a ^+ e = 1 -> (a + u ^+ 2 * k) ^+ e = 1.
  move=> ha; have [->|u0] := eqVneq u 0; first by rewrite expr0n mul0r addr0.
  by apply: sh1 => //; exact: sq.
have shm (a u : L) : a ^+ e = 1 -> (a - u ^+ 2 * k) ^+ e = 1.
  move=> ha; have [->|u0] := eqVneq u 0; first by rewrite expr0n mul0r subr0.
  have := shn a (u ^+ 2) p.-1 ha (sq u u0).
  have p0 : (0 < p)%N by rewrite prime_gt0 // (charf_prime cp).
  suff -> : (u ^+ 2 * k) *+ p.-1 = - (u ^+ 2 * k) by [].
  apply/eqP; rewrite -addr_eq0 -mulrSr prednK // -mulr_natr (charf0 cp) mulr0 //.
pose y := - k^-1; pose u := (y + 1) / 2%:R; pose v := (y - 1) / 2%:R.
have := shm (1 + u ^+ 2 * k) v (shu 1 u (expr1n _ _)).
have -> : 1 + u ^+ 2 * k - v ^+ 2 * k = 0.
  rewrite -addrA -mulrBl subr_sqr.
  have -> : u - v = 1.
    by rewrite /u /v -mulrBl opprB [1 - y]addrC addrACA subrr add0r mulfV.
  have -> : u + v = y.
    by rewrite /u /v -mulrDl addrACA subrr addr0 -mulr2n -[y *+ 2]mulr_natr mulfK.
  by rewrite mul1r /y mulNr mulVf // subrr.
by move/n0; rewrite eqxx.
Qed.

Section Separate.
Variable F : finFieldType.
Hypothesis two0 : (2%:R : F) != 0.
Implicit Types f T : {poly F}.
Variables (d e : nat).
Hypotheses (d0 : (0 < d)%N) (e0 : (0 < e)%N) (eE : (#|F| ^ d = (2 * e).+1)%N).

Section Root.
Variables (f1 : {poly F}) (L : fieldExtType F) (z : L).
Hypotheses (irr : irreducible_poly f1) (rz : root (map_poly (in_alg L) f1) z).
Notation ev T := ((map_poly (in_alg L) T).[z]).
Lemma ev_dvd T : (f1 %| T) = (ev T == 0).
Proof.
apply/idP/eqP => [/dvdpP[h ->]|E]; first by rewrite rmorphM /= hornerM (eqP rz) mulr0.
by apply: (root_irred_dvd irr rz); rewrite /root E.
Qed.
Lemma ev_pow T : (f1 %| T ^+ e - 1) = (ev T ^+ e == 1).
Proof. by rewrite ev_dvd rmorphB rmorphX rmorph1 /= hornerD hornerN hornerC horner_exp subr_eq0. Qed.
End Root.

Lemma monic_add (P R : {poly F}) n : P \is monic -> size P = n -> (size R < n)%N -> P + R \is monic /\ size (P + R) = n.
Proof. by move=> mP sP sR; rewrite monicE lead_coefDl ?size_addl ?sP //; split=> //; apply/eqP/monicP. Qed.

Lemma separate1 f1 f2 : irreducible_poly f1 -> irreducible_poly f2 -> f1 \is monic -> f2 \is monic ->
  f1 != f2 -> size f1 = d.+1 -> size f2 = d.+1 ->
  ~ (forall T, T \is monic -> size T = (2 * d)%N -> (f1 %| T ^+ e - 1) = (f2 %| T ^+ e - 1)).
Proof.
move=> i1 i2 m1 m2 ne s1 s2 H.
have [L dL [z rz gz]] := irredp_FAdjoin i1.
pose ev T := (map_poly (in_alg L) T).[z].
have [p p_pr cp] := finCharP F.
have n2 : (2%:R : L) != 0 by have := fmorph_eq0 [rmorphism of in_alg L] (2%:R); rewrite rmorph_nat (negbTE two0) => ->.
have cL : p \in [char L] by rewrite (fmorph_char [rmorphism of in_alg L]).
have allL (x : L) : x ^+ (2 * e).+1 = x.
  have := Fermat's_little_theorem [aspace of {:L}] x.
  by rewrite memvf /order /= dL s1 /= eE => /esym/eqP.
have surj (a : L) : exists2 A, ev A = a & (size A <= d)%N.
  have : a \in <<1; z>>%VS by rewrite gz memvf.
  move=> /Fadjoin_polyP[g /polyOver1P[h ->] ->].
  exists (h %% f1); last by rewrite -ltnS -s1 ltn_modp -size_poly_gt0 s1.
  by rewrite /ev {2}(divp_eq h f1) rmorphD rmorphM /= hornerD hornerM (eqP rz) mulr0 add0r.
have evP T : (f1 %| T ^+ e - 1) = (ev T ^+ e == 1) := ev_pow i1 rz T.
have evD A B : ev (A + B) = ev A + ev B by rewrite /ev rmorphD hornerD.
have ev1 : ev f1 = 0 := eqP rz.
have nd : ~~ (f1 %| f2).
  apply: contra ne => dv; apply/eqP; exact: monic_eqp_eq m1 m2 (irr_dvd_irr i1 i2 dv).
have [d1|d1] : d = 1%N \/ (1 < d)%N by case: (d) d0 => [|[|k]] //; [left|right].
  have lin f : f \is monic -> size f = d.+1 -> exists r, f = 'X - r%:P.
    move=> /monicP mf sf; rewrite d1 in sf; exists (- f`_0); apply/polyP => i.
    rewrite coefB coefX coefC; case: i => [|[|i]] /=; rewrite ?sub0r ?opprK ?subr0 //.
      by move: mf; rewrite /lead_coef sf.
    by rewrite oppr0 nth_default // sf.
  have [r1 E1] := lin f1 m1 s1; have [r2 E2] := lin f2 m2 s2.
  have pw r T : ('X - r%:P %| T ^+ e - 1) = (T.[r] ^+ e == 1).
    by rewrite dvdp_XsubCl /root hornerD hornerN hornerC horner_exp subr_eq0.
  have allF (x : F) : x ^+ (2 * e).+1 = x by rewrite -eE d1 expn1 expf_card.
  apply: (no_shift cp two0 e0 allF (k := r2 - r1)).
    by rewrite subr_eq0; apply: contra ne => /eqP rr; rewrite E1 E2 rr.
  move=> a Qa; have := H ('X - (r1 - a)%:P) (monicXsubC _).
  rewrite size_XsubC d1 E1 E2 !pw !hornerXsubC => /(_ erefl).
  have -> : r1 - (r1 - a) = a by rewrite opprB addrC subrK.
  have -> : r2 - (r1 - a) = a + (r2 - r1) by rewrite opprB addrCA.
  by rewrite Qa eqxx => /esym/eqP.
apply: (no_shift cL n2 e0 allL (k := ev f2)); first by move: nd; rewrite (ev_dvd i1 rz).
move=> a; have [A <- sA] := surj a => Qa.
pose T := 'X^(d.-1) * f1 + A.
have sT0 : size ('X^(d.-1) * f1) = (2 * d)%N.
  by rewrite size_monicM ?monicXn -?size_poly_gt0 ?s1 // size_polyXn prednK // addnS /= mul2n addnn.
have [mT sT] : T \is monic /\ size T = (2 * d)%N.
  apply: monic_add => //; first by rewrite monicMl // monicXn.
  by apply: leq_ltn_trans sA _; rewrite mul2n -addnn -{1}[d]addn0 ltn_add2l.
have [mT' sT'] : T + f2 \is monic /\ size (T + f2) = (2 * d)%N.
  by apply: monic_add => //; rewrite s2 mul2n -addnn -addn1 ltn_add2l.
have evT : ev T = ev A by rewrite evD /ev rmorphM /= hornerM -/(ev f1) ev1 mulr0 add0r.
apply/eqP; rewrite -evT -evD -evP H //.
have -> : (f2 %| (T + f2) ^+ e - 1) = (f2 %| T ^+ e - 1).
  have dv : f2 %| (T + f2) ^+ e - T ^+ e.
    by rewrite subrXX addrAC subrr add0r dvdp_mulr.
  by rewrite -[(T + f2) ^+ e](subrK (T ^+ e)) -addrA dvdp_addr.
by rewrite -H // evP evT Qa.
Qed.

Lemma separate f1 f2 : irreducible_poly f1 -> irreducible_poly f2 -> f1 \is monic -> f2 \is monic ->
  f1 != f2 -> size f1 = d.+1 -> size f2 = d.+1 ->
  exists T, [/\ T \is monic, size T = (2 * d)%N & (f1 %| T ^+ e - 1) != (f2 %| T ^+ e - 1)].
Proof.
move=> i1 i2 m1 m2 ne s1 s2.
pose mk (v : 'rV[F]_(2 * d).-1) := 'X^((2 * d).-1) + rVpoly v.
have dd : ((2 * d).-1.+1 = 2 * d)%N by rewrite prednK // muln_gt0.
have mkP v : mk v \is monic /\ size (mk v) = (2 * d)%N.
  apply: monic_add; rewrite ?monicXn ?size_polyXn //.
  by apply: leq_ltn_trans (size_poly _ _) _; rewrite dd.
have [/existsP[v hv]|/existsPn no] := boolP [exists v, (f1 %| mk v ^+ e - 1) != (f2 %| mk v ^+ e - 1)].
  by exists (mk v); have [h1 h2] := mkP v.
exfalso; apply: (separate1 i1 i2 m1 m2 ne s1 s2) => T mT sT.
suff ET : mk (poly_rV T) = T by have := no (poly_rV T); rewrite negbK ET => /eqP.
apply/polyP => i; rewrite coefD coefXn coef_rVpoly; case: insubP => [j lj ji|].
  by rewrite mxE ji (ltn_eqF lj) add0r.
rewrite -leqNgt leq_eqVlt => /orP[/eqP Ei|gi]; rewrite addr0.
  by rewrite Ei eqxx; move/monicP: mT; rewrite /lead_coef sT Ei.
by rewrite (gtn_eqF gi) nth_default // sT -dd.
Qed.
End Separate.
