(** Irreducible polynomials over a finite field and X^(q^n) - X. *)
From Coq Require Import ZArith Lia.
Set Warnings "-notation-overridden,-ambiguous-paths".
From mathcomp Require Import all_ssreflect fingroup ssralg poly polydiv finalg zmodp vector falgebra fieldext finfield.
From mathcomp Require Import all_algebra.
Set Implicit Arguments.
Unset Strict Implicit.
Unset Printing Implicit Defensive.
Import GRing.Theory.
Local Open Scope ring_scope.

Section Fp.
Variable F : finFieldType.
Notation q := #|F|.

Lemma root_irred_dvd (L : fieldExtType F) (f g : {poly F}) (z : L) : irreducible_poly f ->
  root (map_poly (in_alg L) f) z -> root (map_poly (in_alg L) g) z -> f %| g.
Proof.
move=> [f1 irr] rf rg; have [//|nd] := boolP (f %| g).
have co : coprimep f g.
  rewrite coprimep_def; apply/negPn/negP => ne1.
  have := irr _ ne1 (dvdp_gcdl f g); rewrite /eqp => /andP[_ H].
  by move/negP: nd; apply; apply: dvdp_trans H (dvdp_gcdr f g).
have := coprimep_root (p := map_poly (in_alg L) f) (q := map_poly (in_alg L) g) _ rf.
by rewrite coprimep_map => /(_ co); move: rg; rewrite /root => ->.
Qed.

Lemma map_XnX (L : fieldExtType F) n : map_poly (in_alg L) ('X^n - 'X) = 'X^n - 'X.
Proof. by rewrite rmorphB /= map_polyXn map_polyX. Qed.

Lemma irred_Fq (f : {poly F}) : irreducible_poly f ->
  f %| 'X^(q ^ (size f).-1) - 'X.
Proof.
move=> irr; have [L dL [z rz gz]] := irredp_FAdjoin irr.
apply: (root_irred_dvd irr rz); rewrite map_XnX /root !hornerE hornerXn.
have := Fermat's_little_theorem [aspace of {:L}] z.
by rewrite memvf /order /= dL => /esym/eqP->; rewrite subrr.
Qed.

(** The q^n-th power map of an extension is additive. *)
Lemma expq_add (L : fieldExtType F) n (x y : L) : (x + y) ^+ (q ^ n) = x ^+ (q ^ n) + y ^+ (q ^ n).
Proof.
have [p p_pr cp] := finCharP F.
have [k qE] : exists k, q = (p ^ k)%N.
  by have := card_primeChar cp => E; eexists; exact: E.
rewrite qE -expnM; apply: exprDn_char.
rewrite pnatX; apply/orP; left; rewrite pnatE //.
by rewrite (fmorph_char [rmorphism of in_alg L]).
Qed.

Lemma irred_Fq_min (f : {poly F}) n : (0 < n)%N -> irreducible_poly f ->
  f %| 'X^(q ^ n) - 'X -> ((size f).-1 <= n)%N.
Proof.
move=> n0 irr dv; have [L dL [z rz gz]] := irredp_FAdjoin irr.
have zq : z ^+ (q ^ n) = z.
  have : root (map_poly (in_alg L) ('X^(q ^ n) - 'X)) z.
    have: map_poly (in_alg L) f %| map_poly (in_alg L) ('X^(q ^ n) - 'X) by rewrite dvdp_map.
    by move: rz; rewrite -!dvdp_XsubCl; exact: dvdp_trans.
  by rewrite map_XnX /root !hornerE hornerXn subr_eq0 => /eqP.
have cq (a : F) : (a%:A : L) ^+ (q ^ n) = a%:A.
  elim: (n) => [|k IH]; first by rewrite expn0 expr1.
  rewrite expnS mulnC exprM IH -in_algE -rmorphX /=; congr (_ %:A); exact: expf_card.
have H0 : (0 : L) ^+ (q ^ n) = 0 by rewrite expr0n eqn0Ngt expn_gt0 (ltnW (finRing_gt1 _)).
have all (y : L) : y ^+ (q ^ n) = y.
  have : y \in <<1; z>>%VS by rewrite gz memvf.
  move=> /Fadjoin_polyP[g /polyOver1P[h ->] ->].
  rewrite horner_coef (big_morph (fun x : L => x ^+ (q ^ n)) (expq_add n) H0).
  apply: eq_bigr => i _; rewrite exprMn coef_map /= cq -exprM mulnC exprM zq //.
pose Lf := FinFieldExtType L.
have cL : #|Lf| = (q ^ (size f).-1)%N.
  have := card_vspacef (T := [finType of Lf]) (FieldExt.base (FieldExt.class L)).
  by rewrite card_vspace => <-; rewrite -dL.
have P0 : ('X^(q ^ n) - 'X : {poly L}) != 0.
  rewrite -size_poly_gt0 size_addl ?size_polyXn // size_opp size_polyX ltnS.
  by rewrite -(exp1n n) ltn_exp2r ?finRing_gt1.
have sz : size ('X^(q ^ n) - 'X : {poly L}) = (q ^ n).+1.
  rewrite size_addl size_polyXn // size_opp size_polyX ltnS.
  by rewrite -(exp1n n) ltn_exp2r ?finRing_gt1.
have ar : seq.all (root ('X^(q ^ n) - 'X : {poly L})) (enum Lf).
  by apply/allP => y _; rewrite /root !hornerE hornerXn all subrr.
have := max_poly_roots P0 ar (enum_uniq Lf).
rewrite sz; have <- : #|Lf| = size (enum Lf) by rewrite cardE.
rewrite cL.
by rewrite ltnS leq_exp2l ?finRing_gt1.
Qed.
End Fp.
