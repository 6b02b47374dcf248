(** Negation, absolute value, ceiling and truncation. *)
From Coq Require Import ZArith QArith Qreals Qround Reals Lia Lra.
Set Warnings "-notation-overridden,-ambiguous-paths".
From mathcomp Require Import all_ssreflect all_algebra.
From mathcomp.zify Require Import ssrZ.
From Verif Require Import M_Base M_Traits M_Util M_Interval M_Poly M_PolyCoef P_PolyInst M_PolyAlg M_Factor M_Alg
  S_Poly S_PolyAlg S_Factor S_Interval P_Interval P_Poly P_PolyAlgInst P_PolyAlgRef P_Rstruct S_Alg P_AlgBase P_AlgShrink P_AlgBasic
  P_AlgSign.
Set Implicit Arguments.
Unset Strict Implicit.
Unset Printing Implicit Defensive.
Import Order.TTheory GRing.Theory Num.Theory.
Delimit Scope Z_scope with ZZ.
Delimit Scope R_scope with RR.
Delimit Scope Q_scope with QQ.
Local Open Scope ring_scope.
Local Notation Rt p := (root (real_poly p)).
Local Notation PV p := (pval int_sem p).

Section Mirror.
Variable A : comRingType.
Implicit Types p q : {poly A}.
Lemma mirrorK p : (p \Po (- 'X)) \Po (- 'X) = p.
Proof. by rewrite -comp_polyA (raddfN [additive of comp_poly _]) /= comp_polyX opprK comp_polyXr. Qed.
Lemma coef_mirror p i : (p \Po (- 'X))`_i = (-1) ^+ i * p`_i.
Proof.
elim/poly_ind: p i => [|p c IH] i; first by rewrite comp_poly0 !coef0 mulr0.
rewrite comp_poly_MXaddC mulrN !coefD coefN !coefMX !coefC IH.
by case: i => [|i] /=; rewrite ?addr0 ?oppr0 ?expr0 ?mul1r // exprS mulN1r mulNr.
Qed.
End Mirror.

Lemma size_mirror (A : idomainType) (p : {poly A}) : size (p \Po (- 'X)) = size p.
Proof. by apply: size_comp_poly2; rewrite size_opp size_polyX. Qed.

Lemma irr_scale (F : fieldType) (c : F) (p : {poly F}) : c != 0 -> irreducible_poly p -> irreducible_poly (c *: p).
Proof.
move=> c0 [s1 irr]; split=> [|q sq]; first by rewrite size_scale.
by rewrite dvdpZr // => /(irr _ sq) /eqp_trans -> //; rewrite eqp_sym eqp_scale.
Qed.
Lemma irr_mirror (F : fieldType) (p : {poly F}) : irreducible_poly p -> irreducible_poly (p \Po (- 'X)).
Proof.
move=> [s1 irr]; split=> [|q sq dq]; first by rewrite size_mirror.
have d' : q \Po (- 'X) %| p by rewrite -[p]mirrorK; case/dvdpP: dq => r ->; rewrite rmorphM /= dvdp_mull.
have /irr/(_ d') : size (q \Po - 'X) != 1%N by rewrite size_mirror.
case/eqpP => -[c1 c2] /= /andP [h1 h2] e; apply/eqpP; exists (c1, c2); rewrite /= ?h1 ?h2 //.
by rewrite -comp_polyZ -e comp_polyZ mirrorK.
Qed.

(** The polynomial of the negation. *)
Section Neg.
Variable p : zpoly.
Let P := PV p.
Let d := (size P).-1.
Let n : zpoly := from_iterator (K := int_coef) (neg_coefs 0 (odd d) (coefficients p)).
Lemma nth_neg_coefs i b l j : nth 0%ZZ (neg_coefs i b l) j =
  if odd (i + j) == b then nth 0%ZZ l j else (- nth 0%ZZ l j)%ZZ.
Proof.
elim: l i j => [|c l IH] i j /=; first by rewrite !nth_nil; case: ifP.
by case: j => [|j] /=; rewrite ?addn0 // IH addSnnS.
Qed.
Lemma nth_zi l j : nth 0 (map zi l) j = zi (nth 0%ZZ l j).
Proof.
case: (ltnP j (size l)) => h; first by rewrite (nth_map 0%ZZ).
by rewrite !nth_default ?size_map.
Qed.
Lemma neg_val : wf int_sem n /\ PV n = (-1) ^+ d *: (P \Po (- 'X)).
Proof.
have [w' e] := from_iterator_spec int_sem (neg_coefs 0 (odd d) (coefficients p)); split=> //.
rewrite e; apply/polyP => i; rewrite coefZ coef_mirror mulrA -exprD.
have -> : P`_i = zi (nth 0%ZZ (coefficients p) i) by rewrite /P /pval coef_Poly -nth_zi.
rewrite coef_Poly -[vc int_sem]/zi nth_zi nth_neg_coefs add0n -signr_odd oddD.
by case: (odd i); case: (odd d); rewrite /= ?expr0 ?expr1 ?mul1r ?mulN1r // zi_opp.
Qed.
Lemma signX_neq0 (A : idomainType) k : (-1) ^+ k != 0 :> A.
Proof. by rewrite expf_neq0 // oppr_eq0 oner_eq0. Qed.
Lemma neg_size : size (PV n) = size P.
Proof. by rewrite neg_val.2 size_scale ?size_mirror ?signX_neq0. Qed.
Lemma neg_irr : irreducible_over_Q P -> irreducible_over_Q (PV n).
Proof.
rewrite /irreducible_over_Q neg_val.2 linearZ /= map_comp_poly rmorphN /= map_polyX => h.
apply: irr_scale; last exact: irr_mirror.
by rewrite rmorphX rmorphN rmorph1 signX_neq0.
Qed.
Lemma neg_root x : Rt n (- x) = Rt p x.
Proof.
rewrite /real_poly neg_val.2 linearZ /= map_comp_poly rmorphN /= map_polyX rootZ; last first.
  by rewrite rmorphX rmorphN rmorph1 signX_neq0.
by rewrite /root horner_comp hornerN hornerX opprK.
Qed.
Lemma neg_content : zcontents (PV n) = zcontents P.
Proof.
rewrite /zcontents; congr (sgz _ * _).
  by rewrite !lead_coefE neg_size neg_val.2 coefZ coef_mirror mulrA -exprD addnn -signr_odd odd_double mul1r.

rewrite neg_size; congr Posz; apply: eq_bigr => i _.
by rewrite neg_val.2 coefZ coef_mirror !abszM !abszX !abszN1 !exp1n !mul1n.
Qed.
End Neg.

Lemma neg_spec a x : denotes a x -> exists b, [/\ ra_neg a = Ret b, denotes b (- x) & canonical a -> canonical b].
Proof.
move=> D; rewrite /ra_neg (den_degree D); have w := den_wf D.
eexists; split; [reflexivity| |by rewrite /canonical /positive_primitive /= neg_content].
split; [exact: (neg_val _).1| | | |] => /=.
- by apply: neg_irr; exact: den_irr D.
- split; last by rewrite neg_root //; exact: den_root D.
  exact: (proj1 (dfi_neg_in _ _) (den_in D)).
- move=> y iy ry; have -> : y = - (- y) by rewrite opprK.
  congr (- _); apply: (den_uniq D); last by rewrite -neg_root opprK.
  by apply: (proj2 (dfi_neg_in _ _)); rewrite -[Ropp _]/(- - y) opprK.
- by rewrite neg_size // /positive_primitive neg_content // => s2; case: D => _ _ _ _ /(_ s2).
Qed.

Local Open Scope R_scope.
Lemma is_positive_spec a x : denotes a x -> exists b, ra_is_positive a = Ret b /\ (b = true <-> 0 < x).
Proof.
move=> /cmp_with_zero_spec [c [e h]]; rewrite /ra_is_positive e.
by eexists; split; [reflexivity|]; case: c h {e} => //= h; split=> //; lra.
Qed.
Lemma is_negative_spec a x : denotes a x -> exists b, ra_is_negative a = Ret b /\ (b = true <-> x < 0).
Proof.
move=> /cmp_with_zero_spec [c [e h]]; rewrite /ra_is_negative e.
by eexists; split; [reflexivity|]; case: c h {e} => //= h; split=> //; lra.
Qed.
Lemma abs_spec a x : denotes a x -> exists b, [/\ ra_abs a = Ret b, denotes b (Rabs x) & canonical a -> canonical b].
Proof.
move=> D; rewrite /ra_abs; have [b [-> hb]] := is_negative_spec D; cbn [rbind].
case: b hb => hb.
  by rewrite Rabs_left; [exact: neg_spec D|apply/hb].
exists a; split=> //; rewrite Rabs_pos_eq //.
by case: (Rlt_le_dec x 0) => // /hb.
Qed.
Lemma signum_spec a x : denotes a x -> exists b, [/\ ra_signum a = Ret b, canonical b &
  (0 < x -> denotes b 1) /\ (x < 0 -> denotes b (-1)) /\ (x = 0 -> denotes b 0)].
Proof.
move=> /cmp_with_zero_spec [c [e h]]; rewrite /ra_signum e; cbn [rbind].
case: c h {e} => /= h.
- by exists ra_zero; have [d c] := from_int_denotes 0; split=> //; split; [lra|split; [lra|]].
- have [d c] := from_int_denotes 1; have [b [-> hb cb]] := neg_spec d.
  by exists b; split=> //; [exact: cb|split; [lra|split; [|lra]]].
- by exists ra_one; have [d c] := from_int_denotes 1; split=> //; split; [|split; lra].
Qed.

(** * Ceiling and truncation *)
Lemma ceil_floor x k : is_ceil x k -> is_floor (- x) (- k)%ZZ.
Proof. by rewrite /is_ceil /is_floor opp_IZR; lra. Qed.
Lemma integer_ceil_spec a x k : denotes a x -> is_ceil x k -> eventually (fun f => ra_integer_ceil f a) k.
Proof.
move=> D c; rewrite /ra_integer_ceil; have [b [-> Db _]] := neg_spec D; cbn [rbind].
have := eventually_bind Z.opp (integer_floor_spec Db (ceil_floor c)).
by rewrite Z.opp_involutive.
Qed.
Lemma neg_from_int k : ra_neg (ra_from_int k) = Ret (ra_from_int (- k)).
Proof.
have [D C] := from_int_denotes k; have [b [E Db Cb]] := neg_spec D.
rewrite E; congr Ret; move: E; rewrite /ra_neg (den_degree D) /= => -[eb].
have D' : denotes b (Q2R ((- k) # 1)) by rewrite /Q2R /= Rinv_1 Rmult_1_r opp_IZR.
have := lin_unique (Z.gcd_1_r _) D'; case: b eb {Db Cb D'} => pb ib [_ <-] /= ->.
by rewrite /ra_from_int; congr RA; rewrite /dfi_neg /= !shl_mul /=; congr DFI; lia.
Qed.
Lemma ceil_spec a x k : denotes a x -> is_ceil x k -> eventually (fun f => ra_ceil f a) (ra_from_int k).
Proof.
move=> D c; rewrite /ra_ceil; have [b [-> Db _]] := neg_spec D; cbn [rbind].
have [N e] := floor_spec Db (ceil_floor c); exists N => f; rewrite e; case: ifP => //= _.
by rewrite neg_from_int Z.opp_involutive.
Qed.
Lemma integer_trunc_spec a x k : denotes a x -> is_trunc x k -> eventually (fun f => ra_integer_trunc f a) k.
Proof.
move=> D [h1 h2]; rewrite /ra_integer_trunc; have [c [-> hc]] := cmp_with_zero_spec D; cbn [rbind].
case: c hc => /= hc.
- have -> : k = 0%ZZ; last exact: eventually_const.
  rewrite hc in h1 h2; case: h1 => [|f1 f2]; first exact: Rle_refl.
  case: h2 => [|g1 g2]; first exact: Rle_refl.
  by apply: eq_IZR; lra.
- by apply: (integer_ceil_spec D); apply: h2; lra.
- by apply: (integer_floor_spec D); apply: h1; lra.
Qed.
Lemma trunc_spec a x k : denotes a x -> is_trunc x k -> eventually (fun f => ra_trunc f a) (ra_from_int k).
Proof. by move=> D t; apply: eventually_bind; exact: integer_trunc_spec D t. Qed.
