(** Factors of monic integer polynomials are irreducible. *)
From Coq Require Import ZArith Lia List Permutation.
Set Warnings "-notation-overridden,-ambiguous-paths".
From mathcomp Require Import all_ssreflect all_fingroup all_algebra.
From mathcomp.zify Require Import ssrZ zify_ssreflect zify_algebra.
From Verif Require Import M_Base M_Traits M_Util M_Poly M_PolyCoef M_PolyAlg M_Factor S_Int S_Poly S_PolyAlg S_Factor
  P_Util P_Poly P_PolyDiv P_PolyInst P_PolyGcd P_PolyField P_PolyAlgInst P_PolyAlgRef P_Yun P_FactorP P_Hensel P_HenselTree P_ExtGcd P_Heap
  P_FactorZ P_FactorTree P_FactorAll P_Mignotte P_Zassenhaus P_ZassenhausB.
Set Implicit Arguments.
Unset Strict Implicit.
Unset Printing Implicit Defensive.
Import GRing.Theory Num.Theory Order.TTheory.
Local Open Scope ring_scope.
Delimit Scope Z_scope with ZZ.
Local Notation monic := mathcomp.algebra.poly.monic.
Local Notation zv := (pval int_sem).
Local Notation zwf := (wf int_sem).
Local Notation rp := (map_poly (intr : int -> rat)).

(** * Lifting keeps the factors monic *)
Lemma hensel_loop_monic (self : zpoly) (needed : bool * Z) fuel : zv self \is monic ->
  forall (m : positive) (n : nat) (mE : Zpos m = Z.of_nat n) (n1 : (1 < n)%N) (t : ftree m) r,
  tree_ok mE n1 t -> product t = to_mod m (coefficients self) ->
  Forall (fun f => pval (gS mE n1) f \is monic) (leaves t) ->
  hensel_loop fuel self needed t = Ret r ->
  exists k (kE : Zpos (projT1 r) = Z.of_nat k) (k1 : (1 < k)%N),
    [/\ tree_ok kE k1 (projT2 r), product (projT2 r) = to_mod (projT1 r) (coefficients self),
        map (set_modulus m) (leaves (projT2 r)) = leaves t,
        Forall (fun f => pval (gS kE k1) f \is monic) (leaves (projT2 r))
      & (exists e, k = (n ^ e.+1)%N) /\ modulus_below (projT1 r) needed = false].
Proof.
move=> ms; elim: fuel => [|fuel IH] m n mE n1 t r ok pt ml /=; case: ifP => mb //.
- move=> [<-]; exists n, mE, n1; split=> //=; first exact: leaves_wf ok.
  by split=> //; exists 0%N; rewrite expn1.
- have qE : Zpos (m * m) = Z.of_nat (n * n) by rewrite Pos2Z.inj_mul mE Nat2Z.inj_mul.
  have nn1 : (1 < n * n)%N by rewrite (ltn_trans n1) // -{1}[n]muln1 ltn_mul2l n1 ltnW.
  have [||t' [-> ok' pt' lt' ml']] := @lift_step_spec _ _ _ _ _ qE nn1 t ok (to_mod (m * m) (coefficients self)).
  + exact: (to_mod_spec qE nn1 _).1.
  + by rewrite pt; apply: (set_to_mod mE n1 qE nn1); rewrite dvdn_mulr.
  rewrite rbind_Ret'.
  have mq : pval (gS qE nn1) (to_mod (m * m) (coefficients self)) \is monic.
    by rewrite (to_mod_spec qE nn1 _).2 -coefs_int; exact: monic_map.
  move=> /(IH _ _ qE nn1 t' r ok' pt' (ml' ml mq)) [k [kE [k1 [h1 h2 h3 h4 [[e h5] h6]]]]].
  exists k, kE, k1; split=> //; last first.
    split=> //; exists (e.+1 + e)%N; by rewrite h5 expnMn -expnD addnS.
  rewrite -lt' -h3 -map_comp; apply: eq_map => f /=; apply/esym.
  by apply: (set_set mE n1 qE nn1); rewrite dvdn_mulr.
by move=> [<-]; exists n, mE, n1; split=> //=; [exact: leaves_wf ok|split=> //; exists 0%N; rewrite expn1].
Qed.

Lemma zi_lt a b : (a < b)%ZZ -> zi a < zi b.
Proof. lia. Qed.
Lemma zi_pow4 d : zi (4 ^ Z.of_nat d) = 4%:R ^+ d.
Proof.
elim: d => [|d IH]; first by [].
by rewrite Nat2Z.inj_succ Z.pow_succ_r ?zi_mul ?IH -?exprS //; lia.
Qed.

(** * The modulus exceeds twice the bound on the coefficients of divisors *)
Lemma modulus_bound (self : zpoly) (m : positive) (k : nat) G H i : zwf self -> zv self \is monic ->
  Zpos m = Z.of_nat k -> modulus_below m (needed_modulus self) = false ->
  zv self = G * H -> `|G`_i| *+ 2 < k%:Z.
Proof.
move=> ws ms mE mb E.
have l1 : lead self = 1%ZZ by apply: zi_inj; have := (lead_spec ws).2; rewrite (monicP ms).
have s0 := monic_neq0 ms.
have [mx _] := max_norm_int ws; set mn := max_norm int_abs self in mx.
have dE : degree_or_0 self = (size (zv self)).-1 by rewrite /degree_or_0 (degree_spec ws) (negbTE s0).
have zmn : 0 <= zi mn := le_trans (normr_ge0 _) (mx 0%N).
have := @mignotte_max (zv self) G H (zi mn) i E s0.
have hb j : (zv self)`_j ^+ 2 <= zi mn ^+ 2.
  rewrite -[X in X <= _]real_normK ?num_real //; apply: ler_expn2r; rewrite ?nnegrE //; exact: mx.
move=> /(_ hb) B.
set d := (size (zv self)).-1 in dE B.
have sz : (size (zv self))%:R = d%:R + 1 :> int by rewrite -mulrSr /d prednK // size_poly_gt0.
rewrite sz in B.
move: mb; rewrite /needed_modulus /modulus_below l1 dE -/mn /exact_inexact_sqrt.
set L := (Z.shiftl _ _ * _ * 4)%ZZ.
have LE : zi L = 4%:R ^+ d * ((d%:R + 1) * zi mn ^+ 2) * 4%:R.
  rewrite /L Z.shiftl_mul_pow2; last lia.
  have -> : (2 ^ Z.of_nat (d * 2) = 4 ^ Z.of_nat d)%ZZ.
    by rewrite -[4%ZZ]/(2 ^ 2)%ZZ -Z.pow_mul_r ?Nat2Z.inj_mul; [congr Z.pow; lia|lia|lia].
  rewrite !zi_mul zi_pow4 zi_add zi_nat zi1 !mulr1 expr2.
  have -> : zi 4 = 4%:R by [].
  by congr (_ * _); rewrite [_ * 4%:R ^+ d]mulrC -mulrA; congr (_ * _); rewrite mulrC.
have LK : (L < Zpos m * Zpos m)%ZZ -> `|G`_i| *+ 2 < k%:Z.
  move=> /zi_lt; rewrite LE zi_mul mE zi_nat -expr2 => H1.
  have H2 : (`|G`_i| *+ 2) ^+ 2 < k%:R ^+ 2.
    apply: le_lt_trans H1; rewrite (exprMn_n `|G`_i|) real_normK ?num_real // -mulr_natr ler_pmul2r //.
  by move: H2; rewrite ltr_pexpn2r ?nnegrE ?mulrn_wge0 // natz.
have L0 : (0 <= L)%ZZ.
  by rewrite /L Z.shiftl_mul_pow2; [apply: Z.mul_nonneg_nonneg => //; apply: Z.mul_nonneg_nonneg; [apply: Z.mul_nonneg_nonneg; [nia|exact: Z.pow_nonneg]|lia]|lia].
clearbody L; clear LE B hb mx; move=> mb; apply: LK.
have [_ hs] := Z.sqrt_spec _ L0; have := Z.sqrt_nonneg L; move: mb hs => /=.
set s := Z.sqrt L; move: s => s; case: ifP => _; clear; nia.
Qed.

(** * Square-free factors *)
Lemma monic_linear (I : {poly int}) : I \is monic -> (size I <= 2)%N -> z_irreducible I.
Proof.
move=> mI s2; split=> // A B E mA.
have mB := monic_cofactor mI E mA.
have := size_monic_mul mA mB; rewrite -E; have := monic_neq0 mA; rewrite -size_poly_gt0.
have := monic_neq0 mB; rewrite -size_poly_gt0.
move: s2; move: (size A) (size B) (size I) => a b c; clear; lia.
Qed.
Lemma factor_square_free_irr rng fuel self pos l pos' : primwf self -> zv self \is monic ->
  factor_square_free rng fuel self pos = Ret (l, pos') -> Forall (fun f => z_irreducible (zv f)) l.
Proof.
move=> ps ms; have [ws cs] := ps; have s0 := primwf_n0 ps; rewrite /factor_square_free.
case: leqP => hd.
  move=> [<- _]; constructor=> //; apply: monic_linear => //.
  by move: hd; rewrite /degree_or_0 (degree_spec ws) (negbTE s0); case: (size _).
have [ct [r [-> _ _ _ [Ec _ _]]]] := content_int ws; rewrite rbind_Ret'.
have {}Ec : ct = 1%ZZ by apply: zi_inj; rewrite -[zi ct]/(vc int_sem ct) Ec cs.
have := @find_prime_spec fuel fuel self 2 ws s0 ltac:(lia) _.
have bz : forall q : nat, prime q -> (2 < q)%N -> (Z.of_nat q <= 2)%ZZ -> bad_prime (zv self) q by move=> q _ h1 h2; exfalso; lia.
move=> /(_ bz); case: (find_prime _ _ _ _) => [p| |] // [p_pr [p2 sz sq]].
cbn [rbind].
have [wt _] := to_mod_F p_pr (els self).
have s3 : (2 < size (zv self))%N.
  by move: hd; rewrite /degree_or_0 (degree_spec ws) (negbTE s0); case: (size _).
have f1 : (1 < size (pval (@modp_sem (Zpos p) _ isT (pnE p) p_pr) (to_mod p (els self))))%N by rewrite sz ltnW.
have f0 : pval (@modp_sem (Zpos p) _ isT (pnE p) p_pr) (to_mod p (els self)) != 0 by rewrite -size_poly_gt0 ltnW.
have := @modular_ok p p_pr p2 rng _ wt f0 f1 sq fuel pos.
have [gs [Eg _ _]] := ddf_spec wt f0 sq; rewrite Eg => /(_ _ erefl); cbn [rbind].
case: (split_degrees _ _ _ _ _) => [[fs pos1]| |] //; cbn [rbind no_panic] => -[t [-> tt pt mt]]; cbn [rbind].
have mf : pval (@modp_sem (Zpos p) _ isT (pnE p) p_pr) (to_mod p (els self)) \is monic.
  by rewrite (to_mod_F p_pr _).2 -els_zv; exact: monic_map.
case El: (hensel_loop _ _ _ _) => [[m t']| |] //; cbn [rbind projT2].
have ptc : product t = to_mod p (coefficients self) by rewrite pt /coefficients map_id.
have mtl := mt mf.
have mtm : Forall (fun f => pval (gS (pdE (pnE p) p_pr) (pd_gt1 p_pr)) f \is monic) (leaves t).
  by apply: Forall_impl mtl => f [].
have [k [kE [k1 [ok' pt' lt' ml' [[e ke] nm]]]]] := hensel_loop_monic ms tt ptc mtm El.
cbn [projT1 projT2] in kE, ok', pt', lt', ml', nm.
subst k; rewrite (bool_irrelevance k1 (pow_gt1 e (pd_gt1 p_pr))) in ok' ml' => {k1}.
set mfs := filter _ _.
have irr : Forall (fun f : mpoly m => @irreducible_poly [fieldType of 'F_(Pos.to_nat p)] (red (pdiv (Pos.to_nat p)) (il f))) (leaves t').
  apply/Forall_forall => f fl.
  have : In (set_modulus p f) (leaves t) by rewrite -lt'; exact: in_map.
  move=> /(proj1 (Forall_forall _ _) mtl) [ir _].
  have [_ <-] := to_mod_spec (pdE (pnE p) p_pr) (pd_gt1 p_pr) (mod_values f).
  exact: ir.
have mE : mfs = leaves t'.
  rewrite /mfs; elim: (leaves t') irr (tree_leaf0 ok') ml' => //= f ls IH ir wl mls.
  inversion_clear ir as [|? ? i1 i2]; inversion_clear wl as [|? ? [w1 w1'] w2]; inversion_clear mls as [|? ? m1 m2].
  rewrite (degree_spec w1) (negbTE w1') IH //; case: eqP => // -[s1]; exfalso.
  have q1 : pval (gS kE (pow_gt1 e (pd_gt1 p_pr))) f = 1.
    move: s1; case E: (size _) (w1') => [|[|k]] // => [|_ _]; first by rewrite -size_poly_gt0 E.
    move: m1; rewrite (size1_polyC (p := pval _ f)) ?E // monicE lead_coefC => /eqP ->; exact: polyC1.
  have : red (pdiv (Pos.to_nat p)) (il f) = red _ 1.
    apply: (red_dvd (pd_gt1 p_pr) (pow_gt1 e (pd_gt1 p_pr)) (pow_dvd _ e)).
    rewrite -(qv_il p_pr kE) q1 /red rmorph1 //.
  case: i1 => + _ => + E; rewrite E /red rmorph1 size_poly1 //.
rewrite mE Ec; cbn [Z.eqb Pos.eqb cat].
case Es: (subset_loop _ _ _ _) => [l'| |] //; cbn [rbind] => -[<- _].
apply: (@subset_loop_irr p p_pr e m kE _ self (leaves t') 1 l' ps _ _ isT Es); last first.
  by move=> b G H _ _ _; case: (size _).
split=> //.
- apply/Forall_forall => f fl; split; first by have /Forall_forall/(_ f fl) [] := tree_leaf0 ok'.
  by move/Forall_forall: ml'; apply.
- rewrite -(tree_prod ok') pt' (to_mod_spec kE (pow_gt1 e (pd_gt1 p_pr)) _).2 -coefs_int //.
split; last by move=> G H i E; exact: modulus_bound ws ms kE nm E.
by have [_ E] := to_mod_F p_pr (els self); rewrite /red els_zv -E; exact: sq.
Qed.
(** * Irreducible over the rationals *)
Lemma unit_lead (A B : {poly int}) : A * B \is monic -> lead_coef A * lead_coef A = 1.
Proof.
rewrite monicE lead_coefM => /eqP E.
have : lead_coef A \is a GRing.unit by apply/unitrP; exists (lead_coef B); rewrite mulrC E.
by rewrite qualifE => /orP[]/eqP->.
Qed.
Lemma z_irreducible_Q (P : {poly int}) : z_irreducible P -> (1 < size P)%N -> irreducible_over_Q P.
Proof.
move=> [mP irr] s1; split; first by rewrite size_rat_int_poly.
move=> q sq qP; have [A [a a0 Eq] [B EP]] := dvdpP_rat_int qP.
have mAB := mP; rewrite EP in mAB.
have uA := unit_lead mAB; have uB := unit_lead (A := B) (B := A); rewrite mulrC in uB; have {}uB := uB mAB.
have lAB : lead_coef A * lead_coef B = 1 by rewrite -lead_coefM (monicP mAB).
have nA : lead_coef A != 0 by apply: contra_eq_neq uA => ->; rewrite mul0r.
have nB : lead_coef B != 0 by apply: contra_eq_neq uB => ->; rewrite mul0r.
have mA : lead_coef A *: A \is monic by rewrite monicE lead_coefZ uA.
have E' : P = (lead_coef A *: A) * (lead_coef B *: B) by rewrite -scalerAl -scalerAr scalerA lAB scale1r.
case: (irr _ _ E' mA); rewrite size_scale // => h.
  move: sq; rewrite Eq size_scale // size_rat_int_poly => sA; exfalso.
  have : (0 < size A)%N by rewrite size_poly_gt0 -lead_coef_eq0.
  by move: sA h; case: (size A) => [|[]].
have Bc : B = (lead_coef B)%:P by rewrite {1}(size1_polyC h) (size1_polyC h) lead_coefC coefC.
rewrite Eq EP Bc rmorphM /= map_polyC /= mulrC mul_polyC.
have nBq : (lead_coef B)%:~R != 0 :> rat by rewrite intr_eq0.
by rewrite (eqp_trans (eqp_scale _ a0)) // eqp_sym eqp_scale.
Qed.

Lemma factor_irreducible_monic rng fuel (self : zpoly) c0 (F0 : {poly int}) c l : zwf self ->
  c0 != 0 -> F0 \is monic -> zv self = c0 *: F0 ->
  factor_with_rng rng fuel self = Ret (c, l) ->
  forall f n, In (f, n) l -> zv f \is monic /\ irreducible_over_Q (zv f).
Proof.
move=> ws n0 mF E0 R f n fl.
have := @factor_all_src rng fuel self ws; rewrite R => -[fo E src].
have [pf sf _] : factor_ok (f, n) by move/Forall_forall: fo; apply.
have [g [pos1 [ls [pos2 [pg [h Eh] Es il']]]]] := proj1 (Forall_forall _ _) src _ fl.
have cc : zi c = c0.
  have : zcontents (zv self) = c0 by rewrite E0 zcontentsZ zcontents_monic // mulr1.
  rewrite E zcontentsZ => <-; rewrite -[LHS]mulr1; congr (_ * _); apply/esym.
  elim: (l) fo => [|fn l' IH] fo; first by rewrite big_nil zcontents_monic ?monic1.
  inversion_clear fo as [|? ? [[_ c1] _ _] fo']; rewrite big_cons zcontentsM IH // mulr1.
  by elim: (fn.2) => [|j IHj]; [rewrite expr0 zcontents_monic ?monic1|rewrite exprS zcontentsM c1 IHj].
have EF : F0 = h * zv g.
  have : c0%:P * F0 = c0%:P * (h * zv g) by rewrite !mul_polyC -E0 Eh cc.
  by apply: mulfI; rewrite polyC_eq0.
have mg : zv g \is monic.
  have ug : lead_coef (zv g) * lead_coef (zv g) = 1 by apply: (unit_lead (B := h)); rewrite mulrC -EF.
  have := sgz_contents (zv g); rewrite (proj2 pg) sgz1 => /esym sg.
  rewrite monicE; move: ug sg; set a := lead_coef _; move: a => a; clear; nia.
have /Forall_forall/(_ _ il') zi' := factor_square_free_irr pg mg Es.
by split; [case: zi'|exact: z_irreducible_Q].
Qed.
