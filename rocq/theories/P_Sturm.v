(** Sturm's theorem for the sequences the program computes. *)
From Coq Require Import ZArith Lia.
Set Warnings "-notation-overridden,-ambiguous-paths".
From mathcomp Require Import all_ssreflect all_fingroup all_algebra.
From mathcomp Require Import polyrcf qe_rcf_th.
From mathcomp.zify Require Import zify_ssreflect.
From Verif Require Import M_Base M_Poly M_PolyAlg S_Poly S_PolyAlg P_Poly P_PolyDiv P_PolyGcd P_PolyContent.
Set Implicit Arguments.
Unset Strict Implicit.
Unset Printing Implicit Defensive.
Import GRing.Theory Num.Theory Order.TTheory Pdiv.Ring Pdiv.ComRing.
Local Open Scope ring_scope.
Local Notation sgr := Num.sg.

Section Sturm.
Variable R : rcfType.
Implicit Types (p q P : {poly R}) (x y a b : R) (s : seq R).

Lemma adj_cons x y s : adjacent_changes [:: x, y & s] = ((x * y < 0)%R + adjacent_changes (y :: s))%N.
Proof. by []. Qed.

Lemma mul_lt0 x y : (x * y < 0) = (sgr x * sgr y == -1).
Proof. by rewrite -sgr_cp0 sgrM. Qed.

Lemma adjacent_sg s t : map sgr s = map sgr t -> adjacent_changes s = adjacent_changes t.
Proof.
elim: s t => [|x s IH] [|y t] //= [E1 E2].
case: s t E2 IH => [|x' s] [|y' t] //= [E3 E4] IH.
by rewrite !mul_lt0 E1 E3; congr addn; apply: (IH (y' :: t)); rewrite /= E3 E4.
Qed.

Lemma variations_sg s t : map sgr s = map sgr t -> sign_variations s = sign_variations t.
Proof.
move=> E; apply: adjacent_sg; elim: s t E => [|x s IH] [|y t] //= [E1 /IH E2].
have -> : (x != 0) = (y != 0) by rewrite -(sgr_eq0 x) -(sgr_eq0 y) E1.
by case: ifP => _ //=; rewrite E1 E2.
Qed.

Lemma variations_nz s : all (fun x => x != 0) s -> sign_variations s = adjacent_changes s.
Proof. by move=> H; rewrite /sign_variations (all_filterP H). Qed.

Lemma variations_changes s : all (fun x => x != 0) s -> sign_variations s = changes s.
Proof.
move=> H; rewrite variations_nz //; elim: s H => [|x s IH] //= /andP [_ H].
by case: s H IH => [|y s] /= H IH; [rewrite mulr0 ltxx|rewrite IH].
Qed.

(** No element of [l] vanishes in the interval from [x] (excluded) to [y] (included). *)
Definition clear x y (l : seq {poly R}) := forall r, r \in l -> forall z, x < z <= y -> r.[z] != 0.

Lemma right_point (l : seq {poly R}) x u : x < u -> all (fun r => r != 0) l ->
  exists2 y, x < y < u & clear x y l.
Proof.
move=> xu; elim: l => [|r l IH] /= ; first by exists ((x + u) / 2); [rewrite !midf_lt|].
case/andP => r0 /IH [y /andP [xy yu] Cy].
have := next_root_gt xu r0; set n := next_root r x u => xn.
exists (Num.min y ((x + n) / 2)).
  by rewrite lt_minr lt_minl yu xy /= !midf_lt.
move=> q; rewrite inE => /orP [/eqP ->|/Cy H] z; rewrite le_minr => /and3P [H1 H2 H3]; last first.
  by apply: H; rewrite H1.
have : z \in `]x, n[ by rewrite in_itv /= H1; apply: le_lt_trans H3 _; rewrite midf_lt.
by move/(@next_noroot _ r x u); rewrite rootE.
Qed.

Lemma clear_sg x y r l : x < y -> clear x y l -> r \in l -> r.[x] != 0 -> sgr r.[y] = sgr r.[x].
Proof.
move=> xy C rl rx; apply: (@polyrN0_itv _ `[x, y]); rewrite ?in_itv /= ?lexx ?(ltW xy) // => z.
rewrite in_itv /= => /andP []; rewrite le_eqVlt => /orP [/eqP <- _|xz zy]; first by rewrite rootE.
by rewrite rootE; apply: (C _ rl); rewrite xz.
Qed.

Lemma next_modE p q : q != 0 -> exists2 c : R, 0 < c & next_mod p q = - c *: (p %% q).
Proof.
move=> q0; have l0 : lead_coef q != 0 by rewrite lead_coef_eq0.
exists (lead_coef q ^+ rscalp p q * lead_coef q ^+ rscalp p q).
  by rewrite -expr2 exprn_even_gt0 //= expf_neq0.
rewrite /next_mod modpE scalerA; congr (_ *: _).
by rewrite mulNr mulfK ?expf_neq0.
Qed.

Lemma mods_chain n p q x y : (size (mods p q) <= n)%N -> x < y ->
  p.[x] != 0 -> (gcdp p q).[x] != 0 -> clear x y (mods p q) ->
  sign_variations (map (fun r => r.[x]) (mods p q)) = sign_variations (map (fun r => r.[y]) (mods p q)).
Proof.
have dnz (z : R) (r : {poly R}) : r.[z] != 0 -> r != 0 by apply: contraNneq => ->; rewrite horner0.
elim: n {-2}n (leqnn n) p q => [|N IH] n nN p q Hn xy px gx C.
  have p0 := dnz _ _ px; move: Hn; move: nN; rewrite leqn0 => /eqP ->.
  by rewrite neq0_mods_rec.
have p0 := dnz _ _ px.
have Em : mods p q = p :: mods q (next_mod p q) by rewrite neq0_mods_rec.
have pin : p \in mods p q by rewrite Em mem_head.
have py : p.[y] != 0 by apply: (C _ pin); rewrite xy lexx.
have sp : sgr p.[y] = sgr p.[x] by exact: clear_sg C pin px.
have [q0|q0] := eqVneq q 0.
  by rewrite Em q0 mods0p /sign_variations /= px py.
have [c c0 Enm] := next_modE p q0.
have Em2 : mods q (next_mod p q) = q :: mods (next_mod p q) (next_mod q (next_mod p q)).
  by rewrite neq0_mods_rec.
have qin : q \in mods p q by rewrite Em Em2 !inE eqxx orbT.
have qy : q.[y] != 0 by apply: (C _ qin); rewrite xy lexx.
have G : gcdp q (next_mod p q) %= gcdp p q.
  rewrite Enm; apply: eqp_trans (eqp_gcdr _ _) _; first by apply: eqp_scale; rewrite oppr_eq0 gt_eqF.
  by apply: eqp_trans (gcdp_modr q p) _; exact: gcdpC.
have gx2 : (gcdp q (next_mod p q)).[x] != 0 by rewrite -rootE (eqp_root G).
have C2 : clear x y (mods q (next_mod p q)) by move=> r Hr; apply: C; rewrite Em inE Hr orbT.
have Hn2 : (size (mods q (next_mod p q)) <= n.-1)%N by move: Hn; rewrite Em /=; case: (n).
have [qx|qx] := eqVneq q.[x] 0; last first.
  have sq : sgr q.[y] = sgr q.[x] by exact: clear_sg C qin qx.
  have n1 : (n.-1 <= N)%N by move: nN; case: (n).
  have := IH _ n1 _ _ Hn2 xy qx gx2 C2.
  rewrite Em Em2 /sign_variations /= px py qx qy !adj_cons => ->.
  by rewrite !mul_lt0 sp sq.
set r := next_mod p q in Enm Em Em2 gx2 C2 Hn2 *.
have rx : r.[x] = - c * p.[x].
  by rewrite Enm hornerZ {2}(divp_eq p q) hornerD hornerM qx mulr0 add0r.
have rx0 : r.[x] != 0 by rewrite rx mulf_neq0 // oppr_eq0 gt_eqF.
have r0 := dnz _ _ rx0.
have Em3 : mods r (next_mod q r) = r :: mods (next_mod q r) (next_mod r (next_mod q r)).
  by rewrite neq0_mods_rec.
have rin : r \in mods p q by rewrite Em Em2 Em3 !inE eqxx !orbT.
have sr : sgr r.[y] = sgr r.[x] by exact: clear_sg C rin rx0.
have ry : r.[y] != 0 by apply: (C _ rin); rewrite xy lexx.
have [c' c'0 Enm'] := next_modE q r0.
have G2 : gcdp r (next_mod q r) %= gcdp q r.
  rewrite Enm'; apply: eqp_trans (eqp_gcdr _ _) _; first by apply: eqp_scale; rewrite oppr_eq0 gt_eqF.
  by apply: eqp_trans (gcdp_modr r q) _; exact: gcdpC.
have gx3 : (gcdp r (next_mod q r)).[x] != 0 by rewrite -rootE (eqp_root G2).
have C3 : clear x y (mods r (next_mod q r)) by move=> t Ht; apply: C2; rewrite Em2 inE Ht orbT.
have Hn3 : (size (mods r (next_mod q r)) <= n.-2)%N by move: Hn2; rewrite Em2 /=; case: (n) => [|[|]].
have n2 : (n.-2 <= N)%N by apply: leq_trans (leq_pred _) _; move: nN; case: (n).
have := IH _ n2 _ _ Hn3 xy rx0 gx3 C3.
rewrite Em Em2 Em3 /sign_variations /= px py qx eqxx qy rx0 ry /= => ->.
have spx : sgr p.[x] \in [:: 1; -1] by rewrite !inE; case: sgrP px => //; rewrite ?eqxx ?orbT.
have spr : sgr r.[x] = - sgr p.[x] by rewrite rx sgrM sgrN gtr0_sg // mulN1r.
rewrite addnA; congr addn; rewrite !mul_lt0 sp sr spr.
have N1 : (1 == -1 :> R) = false by rewrite -subr_eq0 opprK -(natrD _ 1 1) pnatr_eq0.
have sqy : sgr q.[y] \in [:: 1; -1] by rewrite !inE; case: sgrP qy => //; rewrite ?eqxx ?orbT.
move: spx sqy; rewrite !inE => /orP [/eqP ->|/eqP ->] /orP [/eqP ->|/eqP ->];
  by rewrite ?mulN1r ?mul1r ?mulr1 ?opprK ?N1 ?eqxx.
Qed.

Lemma right_variations P x y : x < y -> (P.[x] != 0) || coprimep P P^`() -> clear x y (mods P P^`()) -> P != 0 ->
  sign_variations (map (fun r => r.[x]) (mods P P^`())) = sign_variations (map (fun r => r.[y]) (mods P P^`())).
Proof.
move=> xy H C P0.
have [Px|Px] := eqVneq P.[x] 0; last first.
  apply: (mods_chain (leqnn _)) => //.
  by have /dvdpP [k Ek] := dvdp_gcdl P P^`(); apply: contraNneq Px => g0; rewrite Ek hornerM g0 mulr0.
rewrite Px eqxx /= in H.
have P'x : P^`().[x] != 0.
  by apply: (coprimep_root H); rewrite rootE Px.
have P'0 : P^`() != 0 by apply: contraNneq P'x => ->; rewrite horner0.
have Em : mods P P^`() = P :: mods P^`() (next_mod P P^`()) by rewrite neq0_mods_rec.
have Em2 : mods P^`() (next_mod P P^`()) = P^`() :: mods (next_mod P P^`()) (next_mod P^`() (next_mod P P^`())).
  by rewrite neq0_mods_rec.
have C2 : clear x y (mods P^`() (next_mod P P^`())) by move=> t Ht; apply: C; rewrite Em inE Ht orbT.
have := @mods_chain _ _ _ x y (leqnn _) xy P'x _ C2; rewrite Em Em2 /sign_variations /= Px eqxx /= => ->; last first.
  have [c c0 Enm] := next_modE P P'0.
  have : gcdp P^`() (next_mod P P^`()) %= 1.
    rewrite Enm; apply: eqp_trans (eqp_gcdr _ _) _; first by apply: eqp_scale; rewrite oppr_eq0 gt_eqF.
    by apply: eqp_trans (gcdp_modr P^`() P) _; rewrite gcdp_eqp1 coprimep_sym.
  by move/eqp_root=> E; rewrite -rootE E root1.
have pin : P \in mods P P^`() by rewrite Em mem_head.
have p'in : P^`() \in mods P P^`() by rewrite Em Em2 !inE eqxx orbT.
have Py : P.[y] != 0 by apply: (C _ pin); rewrite xy lexx.
have P'y : P^`().[y] != 0 by apply: (C _ p'in); rewrite xy lexx.
rewrite Py P'y adj_cons.
have [z zxy Ez] := mvt P xy; rewrite Px subr0 in Ez.
have sz : sgr P^`().[z] = sgr P^`().[y].
  move: zxy; rewrite in_itv /= => /andP [xz zy].
  apply: (@polyrN0_itv _ `]x, y]); rewrite ?in_itv /= ?xz ?xy ?lexx ?(ltW zy) // => t.
  by rewrite in_itv /= rootE => Ht; exact: (C _ p'in).
suff -> : (P.[y] * P^`().[y] < 0) = false by [].
rewrite mul_lt0 Ez sgrM sz (@gtr0_sg _ (y - x)) ?subr_gt0 // mulr1 -sgrM -expr2.
rewrite gtr0_sg ?exprn_even_gt0 //; apply/eqP => E.
by have := @ltr01 R; rewrite -oppr_lt0 -E ltr10.
Qed.

Theorem sturm_mods P a b : a < b -> P != 0 ->
  (P.[a] != 0) || coprimep P P^`() -> (P.[b] != 0) || coprimep P P^`() ->
  exists2 s, roots_listed P a b s &
    sign_variations (map (fun r => r.[a]) (mods P P^`())) =
    (sign_variations (map (fun r => r.[b]) (mods P P^`())) + size s)%N.
Proof.
move=> ab P0 Ha Hb.
have nz : all (fun r => r != 0) (mods P P^`()).
  have H n Q p : (size (mods p Q) <= n)%N -> all (fun r => r != 0) (mods p Q).
    elim: n Q p => [|n IH] Q p; first by rewrite leqn0 size_eq0 => /eqP ->.
    have [->|p0] := eqVneq p 0; first by rewrite mods0p.
    by rewrite neq0_mods_rec //= p0 ltnS => /IH.
  exact: H (leqnn _).
have [ya /andP [aya yab] Ca] := right_point ab nz.
have b1 : b < b + 1 by rewrite ltr_addl ltr01.
have [yb /andP [byb _] Cb] := right_point b1 nz.
rewrite (right_variations aya Ha Ca P0) (right_variations byb Hb Cb P0).
have yy : ya < yb by exact: lt_trans yab byb.
have A y (x0 : R) : x0 < y -> clear x0 y (mods P P^`()) -> all (fun r : {poly R} => r.[y] != 0) (mods P (P^`() * 1)).
  by move=> xy C; rewrite mulr1; apply/allP => r Hr; apply: (C _ Hr); rewrite xy lexx.
have := taq_taq_itv yy (A _ _ aya Ca) (A _ _ byb Cb).
have -> : taq (roots P ya yb) 1 = (size (roots P ya yb))%:Z.
  rewrite /taq; elim: (roots P ya yb) => [|x l IH]; first by rewrite big_nil.
  by rewrite big_cons IH hornerC sgz1.
rewrite /taq_itv /changes_itv_mods /changes_itv_poly /changes_horner mulr1 => E.
have pin : P \in mods P P^`() by rewrite neq0_mods_rec // mem_head.
exists (roots P ya yb).
  split; first exact: uniq_roots.
  move=> x; rewrite -roots_on_roots // in_itv /=.
  have [rx|] := boolP (root P x); rewrite ?andbF ?andbT //.
  apply/andP/andP => [[H1 H2]|[H1 H2]]; split.
  - exact: lt_trans aya H1.
  - rewrite leNgt; apply/negP => bx.
    by have := Cb _ pin x; rewrite bx ltW // -rootE rx => /(_ isT).
  - rewrite ltNge; apply/negP => xa.
    by have := Ca _ pin x; rewrite H1 xa -rootE rx => /(_ isT).
  - exact: le_lt_trans H2 byb.
have V y (x0 : R) : x0 < y -> clear x0 y (mods P P^`()) ->
    sign_variations (map (fun r : {poly R} => r.[y]) (mods P P^`())) = changes (map (fun r : {poly R} => r.[y]) (mods P P^`())).
  by move=> xy C; rewrite variations_changes // all_map; apply/allP => r Hr /=; apply: (C _ Hr); rewrite xy lexx.
rewrite (V _ _ aya Ca) (V _ _ byb Cb).
by apply/eqP; rewrite -eqz_nat PoszD E addrC subrK.
Qed.
End Sturm.
