(** The search over subsets of lifted factors is complete for monic
    polynomials. *)
From Coq Require Import ZArith Lia List Permutation.
Set Warnings "-notation-overridden,-ambiguous-paths".
From mathcomp Require Import all_ssreflect all_fingroup all_algebra.
From mathcomp.zify Require Import ssrZ zify_ssreflect zify_algebra.
From Verif Require Import M_Base M_Traits M_Util M_Poly M_PolyCoef M_PolyAlg M_Factor S_Int S_Poly S_PolyAlg S_Factor
  P_Util P_Poly P_PolyDiv P_PolyInst P_PolyGcd P_PolyField P_PolyAlgInst P_PolyAlgRef P_FactorP P_Hensel P_HenselTree P_ExtGcd P_Heap
  P_FactorZ P_FactorTree P_FactorAll P_Mignotte P_Zassenhaus.
Set Implicit Arguments.
Unset Strict Implicit.
Unset Printing Implicit Defensive.
Import GRing.Theory Num.Theory Order.TTheory.
Local Open Scope ring_scope.
Delimit Scope Z_scope with ZZ.
Local Notation monic := mathcomp.algebra.poly.monic.
Local Notation zv := (pval int_sem).
Local Notation zwf := (wf int_sem).

(** * Sublists given by masks *)
Lemma mask_mask T (b b' : bitseq) (l : seq T) :
  exists2 b'', size b'' = size l & mask b'' l = mask b' (mask b l).
Proof.
elim: l b b' => [|x l IH] b b'; first by exists [::]; rewrite // !mask0.
case: b => [|[] b] /=.
- by exists (nseq (size l).+1 false); rewrite ?size_nseq //= mask_false mask0.
- case: b' => [|c b'] /=; first by exists (nseq (size l).+1 false); rewrite ?size_nseq //= mask_false.
  by have [b'' s e] := IH b b'; exists (c :: b'') => /=; rewrite ?s // e; case: c.
by have [b'' s e] := IH b b'; exists (false :: b'') => /=; rewrite ?s.
Qed.
Lemma mask_Permutation T (b : bitseq) (l : seq T) : size b = size l ->
  Permutation l (mask b l ++ mask (map negb b) l).
Proof.
elim: l b => [|x l IH] [|[] b] //= [s]; first by constructor; exact: IH.
by apply: Permutation_trans (Permutation_cons_app _ _ _ (IH _ s)) _.
Qed.
Lemma Forall_mask T (P : T -> Prop) (b : bitseq) (l : seq T) : Forall P l -> Forall P (mask b l).
Proof.
elim: l b => [|x l IH] [|[] b] //= H; inversion_clear H => //; last exact: IH.
by constructor=> //; exact: IH.
Qed.
Lemma prod_mask (R : comRingType) T (v : T -> R) (b : bitseq) (l : seq T) : size b = size l ->
  \prod_(f <- l) v f = \prod_(f <- mask b l) v f * \prod_(f <- mask (map negb b) l) v f.
Proof. by move=> s; rewrite (Perm_prod _ (mask_Permutation s)) big_cat. Qed.
Lemma size_mask_neg T (b : bitseq) (l : seq T) : size b = size l ->
  (size (mask b l) + size (mask (map negb b) l) = size l)%N.
Proof. by move=> s; have := Permutation_length (mask_Permutation s); rewrite -size_cat. Qed.

(** Lists of indexes and masks. *)
Lemma inc_sorted a c idx : increasing_in a c idx -> sorted ltn idx /\ all (fun i => (a <= i < c)%N) idx.
Proof.
elim: idx a => //= i s IH a [[h1 h2] /IH [s1 a1]].
have a2 : all (fun j => (a <= j < c)%N) s.
  by apply: sub_all a1 => j; lia.
split; last by rewrite a2 andbT; lia.
case: s s1 a1 {IH a2} => //= j s -> /andP[h _]; rewrite andbT; lia.
Qed.
Lemma inc_mask T (d : T) (l : seq T) idx : increasing_in 0 (size l) idx ->
  exists2 b, size b = size l & map (nth d l) idx = mask b l.
Proof.
move=> /inc_sorted [so al]; exists [seq i \in idx | i <- iota 0 (size l)]; first by rewrite size_map size_iota.
rewrite -[X in mask _ X](mkseq_nth d) /mkseq -map_mask; congr map.
rewrite -filter_mask; apply: (@irr_sorted_eq _ ltn) => //.
- exact: ltn_trans.
- exact: ltnn.
- by apply: sorted_filter; [exact: ltn_trans|exact: iota_ltn_sorted].
move=> i; rewrite mem_filter mem_iota add0n /=; case: (boolP (i \in idx)) => //= h.
by move/allP: al => /(_ i h) /andP[_ ->].
Qed.
Lemma inc_weaken a c s : increasing_in a.+1 c s -> increasing_in a c s.
Proof. by case: s => //= i s [h1 h2]; split=> //; lia. Qed.
Lemma inc_iota b : forall a k, increasing_in a (a + k)%N (mask b (iota a k)).
Proof.
elim: b => [|c b IH] a [|k] //=; have := IH a.+1 k; rewrite addSnnS => h.
case: c => /=; last exact: inc_weaken.
by split=> //; lia.
Qed.
Lemma mask_inc T (d : T) (l : seq T) b : size b = size l ->
  exists2 idx, increasing_in 0 (size l) idx & map (nth d l) idx = mask b l.
Proof.
move=> s; exists (mask b (iota 0 (size l))); first exact: inc_iota.
by rewrite map_mask -/(mkseq _ _) mkseq_nth.
Qed.

Lemma remove_one T (d : T) (l : seq T) i : (i < size l)%N ->
  Permutation l (nth d l i :: (take i l ++ drop i.+1 l)).
Proof.
move=> h; rewrite -{1}(cat_take_drop i l) (drop_nth d h).
exact/Permutation_sym/Permutation_middle.
Qed.
Lemma remove_mask T (d : T) idx : forall (l : seq T), increasing_in 0 (size l) idx ->
  exists2 b, remove_indexes l idx = mask b l & Permutation l (map (nth d l) idx ++ mask b l).
Proof.
rewrite /remove_indexes; elim/last_ind: idx => [|idx i IH] l.
  by move=> _; exists (nseq (size l) true); rewrite /= mask_true.
move=> /inc_sorted [so al]; rewrite rev_rcons /=.
have hi : (i < size l)%N by move: al; rewrite all_rcons => /andP[/andP[]].
have lt : all (fun j => j < i)%N idx.
  by move: so; rewrite -cats1 sorted_pairwise ?pairwise_cat //; [rewrite allrel1r => /and3P[]|exact: ltn_trans].
have so' : sorted ltn idx by move: so; rewrite -cats1 => /cat_sorted2 [].
set l' := take i l ++ drop i.+1 l.
have sl' : size l' = (size l).-1 by rewrite size_cat size_drop size_take hi; move: hi; lia.
have inc' : increasing_in 0 (size l') idx.
  have {}al : all (fun j => (0 <= j < size l')%N) idx by apply: sub_all lt => j; rewrite sl'; lia.
  move: so' al; clear; move: (size l') 0%N => c; elim: idx => //= j s IH a h /andP[h1 h2].
  split; first by lia.
  apply: IH; first exact: path_sorted h.
  apply/allP => x xs; have /allP/(_ x xs) := h2; have := order_path_min ltn_trans h => /allP/(_ x xs) /=; lia.
have [b Eb Pb] := IH l' inc'.
have [b1 s1 e1] : exists2 b1, size b1 = size l & mask b1 l = l'.
  exists (nseq i true ++ false :: nseq (size l - i.+1) true).
    by rewrite size_cat /= !size_nseq; move: hi; lia.
  rewrite -{2}(cat_take_drop i l) mask_cat ?size_nseq ?size_take ?hi //.
  rewrite (drop_nth d hi) /= !mask_true ?size_take ?hi //; rewrite size_drop; lia.
have [b2 s2 e2] := mask_mask b1 b l; exists b2; first by rewrite e2 e1.
rewrite e2 e1 map_rcons -cats1 -catA /=.
apply: Permutation_trans (remove_one d hi) _.
apply: Permutation_trans (Permutation_middle _ _ _); apply: perm_skip.
apply: Permutation_trans Pb _; apply: Permutation_app_tail.
suff -> : map (nth d l') idx = map (nth d l) idx by [].
apply/eq_in_map => j /(allP lt) h; rewrite /l' nth_cat size_take hi h nth_take //.
Qed.

(** * Divisors of a product of irreducible polynomials over a field *)
Lemma field_mask (F : fieldType) T (v : T -> {poly F}) (l : seq T) (P : {poly F}) :
  Forall (fun f => irreducible_poly (v f) /\ v f \is monic) l -> P \is monic ->
  P %| \prod_(f <- l) v f -> exists2 b, size b = size l & P = \prod_(f <- mask b l) v f.
Proof.
elim: l P => [|f l IH] P H mP.
  rewrite big_nil dvdp1 => s1; exists [::] => //; rewrite big_nil.
  by move: mP; rewrite (size1_polyC (eq_leq (eqP s1))) monicE lead_coefC => /eqP ->; rewrite polyC1.
inversion_clear H as [|? ? [[s1 irr] mf] Hl]; rewrite big_cons.
case: (boolP (v f %| P)) => [/dvdpP [Q EQ]|nd] dv.
  have mQ : Q \is monic by move: mP; rewrite EQ monicMr.
  have [|b s E] := IH Q Hl mQ.
    by move: dv; rewrite EQ mulrC dvdp_mul2l // monic_neq0.
  by exists (true :: b); rewrite /= ?s // big_cons EQ E mulrC.
have cp : coprimep P (v f).
  rewrite coprimep_sym /coprimep; case: (boolP (size (gcdp (v f) P) == 1%N)) => // /irr /(_ (dvdp_gcdl _ _)) /eqp_dvdl.
  by move/(_ P); rewrite dvdp_gcdr (negbTE nd).
have [b s E] := IH P Hl mP (etrans (esym (Gauss_dvdpr _ cp)) dv).
by exists (false :: b); rewrite /= ?s.
Qed.

(** * The search *)
Section Search.
Variable p : positive.
Notation pn := (Pos.to_nat p).
Hypothesis p_pr : prime pn.
Notation n := (pdiv pn).
Notation n1 := (pd_gt1 p_pr).
Notation F := [fieldType of 'F_pn].
Variables (e : nat) (m : positive).
Notation k := (n ^ e.+1)%N.
Notation k1 := (pow_gt1 e n1).
Hypothesis kE : Zpos m = Z.of_nat k.
Notation qS := (gS kE k1).
Notation qv := (pval qS).
Implicit Types (I G H : {poly int}) (mfs : seq (mpoly m)).

(** [mfs] lifts the factorisation of the monic [I] modulo the prime, and the
    divisors of [I] are determined by their residues. *)
Definition search_inv I mfs : Prop :=
  [/\ I \is monic,
      Forall (fun f => wf qS f /\ qv f \is monic) mfs,
      red k I = \prod_(f <- mfs) qv f,
      Forall (fun f => @irreducible_poly F (red n (il f))) mfs
    & @square_free F (red n I) /\ forall G H i, I = G * H -> `|G`_i| *+ 2 < k%:Z].

Lemma monic_red N G : G \is monic -> red N G \is monic.
Proof. exact: monic_map. Qed.
Lemma qv_il f : qv f = red k (il f).
Proof. exact: pv_il. Qed.
Lemma prod_il mfs : \prod_(f <- mfs) qv f = red k (\prod_(f <- mfs) il f).
Proof. by rewrite [RHS]rmorph_prod; apply: eq_bigr => f _; rewrite qv_il. Qed.
Lemma prod_iln mfs : red n (\prod_(f <- mfs) il f) = \prod_(f <- mfs) red n (il f).
Proof. exact: rmorph_prod. Qed.
Lemma monic_prod_qv mfs : Forall (fun f => wf qS f /\ qv f \is monic) mfs -> \prod_(f <- mfs) qv f \is monic.
Proof. by move=> h; apply: Forall_monic; apply: Forall_impl h => f []. Qed.

Lemma divisor_mask I mfs G H : search_inv I mfs -> I = G * H -> G \is monic ->
  exists2 b, size b = size mfs & red k G = \prod_(f <- mask b mfs) qv f.
Proof.
move=> [mI mm EI irr [sq _]] IE mG.
have EIn : red n I = \prod_(f <- mfs) red n (il f).
  rewrite -prod_iln; apply: (red_dvd n1 k1 (pow_dvd n e)); rewrite -prod_il -EI //.
have irr' : Forall (fun f => @irreducible_poly F (red n (il f)) /\ red n (il f) \is monic) mfs.
  elim: {EI EIn} mfs mm irr => // f l IH mm irr; inversion_clear mm as [|? ? [wf' mf] ml]; inversion_clear irr as [|? ? i1 il'].
  constructor; last exact: IH.
  split=> //; rewrite qv_il in mf; exact: (size_red_monic n1 mf).2.
have dv : (red n G : {poly F}) %| \prod_(f <- mfs) (red n (il f) : {poly F}).
  by apply/dvdpP; exists (red n H); rewrite -EIn IE redM mulrC.
have [b sb Eb] := @field_mask F _ (fun f => red n (il f)) mfs (red n G) irr' (monic_red n mG) dv.
exists b => //; rewrite prod_il.
apply: (@lift_unique n e n1 G H _ (\prod_(f <- mask (map negb b) mfs) il f)).
- exact: monic_red.
- rewrite -prod_il; apply: monic_prod_qv; exact: Forall_mask.
- by rewrite -IE EI (prod_mask _ sb) redM -!prod_il.
- by rewrite Eb prod_iln.
have cp : @coprimep F (red n G) (red n (\prod_(f <- mask (map negb b) mfs) il f)).
  apply: (@sqf_coprime F _ _ 1); rewrite mulr1 Eb prod_iln.
  by rewrite -(prod_mask (fun f => red n (il f) : {poly F}) sb) -EIn.
have /Bezout_eq1_coprimepP [[u v] /= B] := cp.
have [u' Eu] := @red_surj n u; have [v' Ev] := @red_surj n v.
by exists u', v'; rewrite redD !redM Eu Ev.
Qed.

(** No divisor of [I] is the product of fewer than [j] of the factors. *)
Definition no_small I mfs (j : nat) : Prop :=
  forall b G H, size b = size mfs -> I = G * H -> G \is monic -> (0 < size (mask b mfs) < j)%N ->
    red k G <> \prod_(f <- mask b mfs) qv f.

Lemma mask_pos mfs G b : G \is monic -> (1 < size G)%N -> red k G = \prod_(f <- mask b mfs) qv f ->
  (0 < size (mask b mfs))%N.
Proof.
move=> mG sG E; rewrite lt0n; apply/negP => /eqP/size0nil h; move: E; rewrite h big_nil => E.
have : size (red k G) = size G.
  rewrite size_map_poly_id0 // (monicP mG) rmorph1; exact: oner_neq0.
by rewrite E size_poly1 => h1; move: sG; rewrite -h1.
Qed.
Lemma mask_neg I mfs G H b : search_inv I mfs -> I = G * H -> G \is monic -> size b = size mfs ->
  red k G = \prod_(f <- mask b mfs) qv f -> red k H = \prod_(f <- mask (map negb b) mfs) qv f.
Proof.
move=> [mI mm EI _ _] IE mG sb E.
apply: (monic_rreg (monic_red k mG)); rewrite /= ![_ * red k G]mulrC -redM -IE EI {1}E.
exact: prod_mask.
Qed.

(** ** One candidate *)
Lemma symmetric_spec (z : Z) : (0 <= z < Zpos m)%ZZ ->
  ((zi (symmetric m z))%:~R = (zi z)%:~R :> 'Z_k) /\
  forall g : int, `|g| *+ 2 < k%:Z -> (g%:~R = (zi z)%:~R :> 'Z_k) -> zi (symmetric m z) = g.
Proof.
move=> hz; have kz : k%:Z = zi (Zpos m) by rewrite kE zi_nat natz.
have d0 : (k%:Z)%:~R = 0 :> 'Z_k by apply/eqP; rewrite intr0_dvd ?dvdzz //; exact: k1.
have E : (zi (symmetric m z))%:~R = (zi z)%:~R :> 'Z_k.
  by rewrite /symmetric; case: ifP => // _; rewrite zi_sub -kz mulrzBr d0 subr0.
split=> // g hg Eg.
have : ((zi (symmetric m z) - g)%:~R == 0 :> 'Z_k) by rewrite rmorphB /= E Eg subrr.
rewrite intr0_dvd; last exact: k1.
move=> /dvdzP [c Ec].
have [gz Eg'] : exists gz, g = zi gz by exists (Z_of_int g); rewrite Z_of_intK.
have [cz Ec'] : exists cz, c = zi cz by exists (Z_of_int c); rewrite Z_of_intK.
rewrite {}Eg' {}Ec' kz in Ec hg *; congr zi.
have {}Ec : (symmetric m z - gz = cz * Zpos m)%ZZ by apply: zi_inj; rewrite zi_sub zi_mul.
have {}hg : (- Zpos m < 2 * gz < Zpos m)%ZZ.
  move: hg; rewrite -normrMn ltr_norml -zi_opp mulr2n -zi_add !zi_lt => /andP[/Z.ltb_lt h1 /Z.ltb_lt h2]; lia.
have hs : (- Zpos m < 2 * symmetric m z <= Zpos m)%ZZ.
  rewrite /symmetric; have := Z_div_mod_eq_full (Zpos m) 2; have := Z.mod_pos_bound (Zpos m) 2 ltac:(lia).
  case: Z.ltb_spec; lia.
have : cz = 0%ZZ by nia.
by move=> h; rewrite h in Ec; lia.
Qed.

Definition cand mfs idx (c : Z) : mpoly m :=
  foldl (fun f i => poly_mul f (nth (poly_zero (mc m)) mfs i)) (from_coef (K := mc m) (@mk_residue (Zpos m) isT c)) idx.
Lemma cand_spec mfs idx : wf qS (cand mfs idx 1) /\
  qv (cand mfs idx 1) = \prod_(f <- map (nth (poly_zero (mc m)) mfs) idx) qv f.
Proof.
have [w0 e0] := from_coef_spec qS (@mk_residue (Zpos m) isT 1).
have {}e0 : qv (from_coef (K := mc m) (@mk_residue (Zpos m) isT 1)) = 1.
  rewrite e0 -polyC1; congr polyC; exact: (rp_mk (m := Zpos m) isT kE k1).
rewrite /cand -[RHS]mul1r -{1}e0; move: (from_coef _) w0 {e0} => c w0.
elim: idx c w0 => [|i idx IH] c w0 /=; first by rewrite big_nil mulr1.
have [w1 e1] := mul_spec qS c (nth (poly_zero (mc m)) mfs i).
by have [w2 e2] := IH _ w1; rewrite e2 e1 big_cons mulrA.
Qed.
Definition sym_poly (f : mpoly m) : zpoly := from_iterator (K := int_coef) [seq symmetric m c | c <- mod_values f].
Lemma symmetric0 : symmetric m 0 = 0%ZZ.
Proof.
rewrite /symmetric; have -> // : (Zpos m / 2 <? 0)%ZZ = false.
by apply/Z.ltb_ge; apply: Z.div_pos; lia.
Qed.
Lemma sym_coef f i : (zv (sym_poly f))`_i = zi (symmetric m (nth 0%ZZ (mod_values f) i)).
Proof.
rewrite (from_iterator_spec int_sem _).2 coef_Poly -map_comp.
have [h|h] := ltnP i (size (mod_values f)); first by rewrite (nth_map 0%ZZ).
have -> : nth 0%ZZ (mod_values f) i = 0%ZZ by exact: nth_default.
rewrite symmetric0; apply: nth_default; rewrite size_map; exact: h.
Qed.
Lemma values_bound (f : mpoly m) i : (0 <= nth 0%ZZ (mod_values f) i < Zpos m)%ZZ.
Proof.
have [h|h] := ltnP i (size (mod_values f)); last by rewrite nth_default.
rewrite (nth_map (c_zero (mc m))); last by rewrite size_map in h.
exact: rvP.
Qed.
Lemma coef_il (f : mpoly m) i : (il f)`_i = zi (nth 0%ZZ (mod_values f) i).
Proof.
rewrite coef_Poly; have [h|h] := ltnP i (size (mod_values f)); first by rewrite (nth_map 0%ZZ).
have -> : nth 0%ZZ (mod_values f) i = 0%ZZ by exact: nth_default.
apply: nth_default; rewrite size_map; exact: h.
Qed.
Lemma sym_spec f : zwf (sym_poly f) /\ red k (zv (sym_poly f)) = qv f /\
  (forall G, (forall i, `|G`_i| *+ 2 < k%:Z) -> red k G = qv f -> zv (sym_poly f) = G) /\
  ((1 < Zpos m)%ZZ -> qv f \is monic -> zv (sym_poly f) \is monic).
Proof.
split; first exact: (from_iterator_spec int_sem _).1.
split.
  apply/polyP => i; rewrite qv_il !coef_red sym_coef coef_il.
  exact: (symmetric_spec (values_bound f i)).1.
split=> [G hG EG|m1 mf].
  apply/polyP => i; rewrite sym_coef; apply: (symmetric_spec (values_bound f i)).2 => //.
  by rewrite -coef_il -!coef_red EG qv_il.
rewrite qv_il in mf.
have [sz ld] := red_small_lead k1 (il_small kE k1 f).
have l1 : lead_coef (il f) = 1.
  have /andP [a b] := il_small kE k1 f (size (il f)).-1; rewrite -lead_coefE in a b.
  have := mf; rewrite monicE ld => E1.
  have z1 : lead_coef (il f) != 0 by apply: contraTneq E1 => ->; rewrite eq_sym oner_eq0.
  have p1 : 0 <= lead_coef (il f) - 1 < k%:Z.
    by rewrite subr_ge0 -gtz0_ge1 lt_def z1 a /=; apply: lt_trans b; rewrite ltr_subl_addr ltr_addl.
  have := small_red0 k1 p1; rewrite rmorphB rmorph1 /= subr_eq0 E1 => /esym; rewrite subr_eq0 => /eqP.
  by [].
have s1 : symmetric m 1 = 1%ZZ.
  rewrite /symmetric; have -> // : (Zpos m / 2 <? 1)%ZZ = false.
  by apply/Z.ltb_ge; apply: Z.div_le_lower_bound; lia.
have hi i : (size (il f) <= i)%N -> (zv (sym_poly f))`_i = 0.
  move=> h; have := coef_il f i; rewrite nth_default // => /esym/eqP; rewrite zi_eq0 => /Z.eqb_spec h0.
  by rewrite sym_coef -h0 symmetric0.
have top : (zv (sym_poly f))`_(size (il f)).-1 = 1.
  have := coef_il f (size (il f)).-1; rewrite -lead_coefE l1 -[1]/(zi 1%ZZ) => /zi_inj h.
  by rewrite sym_coef -h s1.
have i0 : (0 < size (il f))%N.
  by rewrite size_poly_gt0; apply: contra_eq_neq l1 => ->; rewrite lead_coef0 eq_sym oner_eq0.
have sE : size (zv (sym_poly f)) = size (il f).
  apply/eqP; rewrite eqn_leq; apply/andP; split; first by apply/leq_sizeP.
  rewrite leqNgt; apply/negP => h; move: top; rewrite nth_default; first by move/eqP; rewrite eq_sym oner_eq0.
  by rewrite -ltnS prednK.
by rewrite monicE lead_coefE sE top.
Qed.

Lemma m_gt1 : (1 < Zpos m)%ZZ.
Proof. by have := k1; rewrite kE => h; lia. Qed.
Lemma try_subset_monic (input : zpoly) mfs idx : primwf input -> search_inv (zv input) mfs ->
  increasing_in 0 (size mfs) idx ->
  let P := \prod_(f <- map (nth (poly_zero (mc m)) mfs) idx) qv f in
  (try_subset input mfs idx = Ret None /\ forall G H, zv input = G * H -> red k G <> P) \/
  exists f q, [/\ try_subset input mfs idx = Ret (Some (f, q)), primwf f, primwf q, zv input = zv f * zv q
    & red k (zv f) = P /\ zv f \is monic].
Proof.
move=> pi inv inc; set P := \prod_(f <- _) _; have [mI mm EI irr [sq bd]] := inv.
have [wi ci] := pi.
have l1 : lead input = 1%ZZ.
  by apply: zi_inj; have := (lead_spec wi).2; rewrite (monicP mI).
have [wc Ec] := cand_spec mfs idx.
have mP : P \is monic.
  apply: monic_prod_qv; have [b sb ->] := inc_mask (poly_zero (mc m)) inc; exact: Forall_mask.
have [wS [rS [uS mS]]] := sym_spec (cand mfs idx 1).
have {}mS : zv (sym_poly (cand mfs idx 1)) \is monic by apply: mS; [exact: m_gt1|rewrite Ec].
have [_ [pot [_ Epp wp _ [_ Ep _]]]] := content_int wS.
rewrite zprimitive_monic // in Ep.
have Er : red k (zv pot) = P by rewrite Ep rS Ec.
case: (try_subset_spec mfs idx pi) => [E|[f [q [E pf pq Ez]]]].
  move=> P'; left; split=> // G H GH EG; move: E; rewrite /try_subset l1 -/(cand mfs idx 1) -/(sym_poly _) Epp rbind_Ret'.
  have EpG : zv pot = G by rewrite Ep; apply: uS; [move=> i; exact: bd GH|rewrite EG Ec].
  rewrite /checked_exact_pseudo_div; have [_ N1] := pseudo_spec wi wp.
  have mp : zv pot \is monic by rewrite Ep.
  have [r [-> [w1 w2] Ed Ef Es]] := N1 (monic_neq0 mp); rewrite (is_zeroP w2).
  suff -> : zv (pd_rem r) = 0.
    by rewrite eqxx; have [_ [q' [_ -> _ _ _]]] := content_int w1.
  rewrite Ef (monicP mp) expr1n scale1r GH -EpG in Ed.
  have /eqP : zv pot * (H - zv (pd_quo r)) = zv (pd_rem r) by rewrite mulrBr Ed addrC addKr.
  have [->|nz] := eqVneq (H - zv (pd_quo r)) 0; first by rewrite mulr0 => /eqP <-.
  move=> /eqP Eq; move: Es; rewrite -Eq size_monicM // => lt; exfalso; move: lt nz; rewrite -size_poly_gt0.
  move: (size (H - _)) (size (zv pot)) => a b; clear; lia.
move=> P'; right; exists f, q; split=> //.
have Ef : f = pot.
  move: E; rewrite /try_subset l1 -/(cand mfs idx 1) -/(sym_poly _) Epp rbind_Ret'.
  case: (checked_exact_pseudo_div _ _) => // -[q0 c0].
  by case: (primitive_part _ _ _) => //= q1 [-> _].
by rewrite Ef Er Ep.
Qed.

(** ** The loop *)
Definition z_irreducible I : Prop :=
  I \is monic /\ forall A B, I = A * B -> A \is monic -> (size A <= 1)%N \/ (size B <= 1)%N.

Lemma monic_cofactor I G H : I \is monic -> I = G * H -> G \is monic -> H \is monic.
Proof. by move=> mI E mG; move: mI; rewrite E monicMl. Qed.
Lemma bound_sub I G H : I = G * H -> (forall A B i, I = A * B -> `|A`_i| *+ 2 < k%:Z) ->
  forall A B i, G = A * B -> `|A`_i| *+ 2 < k%:Z.
Proof. by move=> E h A B i EG; apply: (h A (B * H)); rewrite E EG mulrA. Qed.
Lemma square_free_sub (P Q R : {poly F}) : P = Q * R -> @square_free F P -> @square_free F Q.
Proof. by move=> E h A B EQ; apply: (h A (B * R)); rewrite E EQ mulrAC. Qed.
Lemma inv_sub I mfs G H b : search_inv I mfs -> I = G * H -> G \is monic ->
  red k G = \prod_(f <- mask b mfs) qv f -> search_inv G (mask b mfs).
Proof.
move=> [mI mm EI irr [sq bd]] E mG EG; split=> //; try exact: Forall_mask.
split; last exact: bound_sub E bd.
by apply: square_free_sub sq; rewrite E redM.
Qed.

Lemma size_monic_mul (A B : {poly int}) : A \is monic -> B \is monic -> size (A * B) = (size A + size B).-1.
Proof. by move=> mA mB; rewrite size_monicM // monic_neq0. Qed.

Lemma search_done I mfs j : search_inv I mfs -> no_small I mfs j -> (size mfs < j * 2)%N -> z_irreducible I.
Proof.
move=> inv ns lt; have [mI _ _ _ _] := inv; split=> // A B E mA.
have mB := monic_cofactor mI E mA.
case: (leqP (size A) 1) => sA; first by left.
case: (leqP (size B) 1) => sB; first by right.
have [b sb EA] := divisor_mask inv E mA; have EB := mask_neg inv E mA sb EA.
have pA := mask_pos mA sA EA; have pB := mask_pos mB sB EB.
have sn := size_mask_neg sb.
have sb' : size (map negb b) = size mfs by rewrite size_map.
have nA := ns b A B sb E mA; have nB := ns (map negb b) B A sb' (etrans E (mulrC _ _)) mB.
case: (ltnP (size (mask b mfs)) j) => h.
  by case: (nA _ EA); rewrite pA h.
by case: (nB _ EB); rewrite pB /=; move: h lt sn; clear; lia.
Qed.

Lemma factor_irreducible I mfs f q b j : search_inv I mfs -> no_small I mfs j -> I = f * q -> f \is monic ->
  size b = size mfs -> red k f = \prod_(g <- mask b mfs) qv g -> (size (mask b mfs) <= j)%N -> z_irreducible f.
Proof.
move=> inv ns E mf sb Ef sj; split=> // A B EAB mA; have mB := monic_cofactor mf EAB mA.
have inv' := inv_sub inv E mf Ef.
case: (leqP (size A) 1) => sA; first by left.
case: (leqP (size B) 1) => sB; first by right.
have [c sc EA] := divisor_mask inv' EAB mA; have EB := mask_neg inv' EAB mA sc EA.
have pA := mask_pos mA sA EA; have pB := mask_pos mB sB EB.
have sn := size_mask_neg sc; have [d sd Ed] := mask_mask b c mfs.
have := ns d A (B * q) sd _ mA; rewrite Ed => h; exfalso.
apply: h EA; first by rewrite E EAB mulrA.
by rewrite pA; move: sn pB sj; clear; lia.
Qed.

Lemma no_small_sub I mfs f q b j : no_small I mfs j -> I = f * q ->
  size b = size mfs -> no_small q (mask b mfs) j.
Proof.
move=> ns E sb c G H sc Eq mG h; have [d sd Ed] := mask_mask b c mfs; rewrite -Ed in h *.
by apply: (ns d G (H * f) sd _ mG h); rewrite E Eq mulrC -mulrA.
Qed.

Lemma subset_loop_irr fuel : forall (input : zpoly) mfs j l, primwf input -> search_inv (zv input) mfs ->
  no_small (zv input) mfs j -> (0 < j)%N -> subset_loop fuel input mfs j = Ret l ->
  Forall (fun f => z_irreducible (zv f)) l.
Proof.
elim: fuel => [|fuel IH] input mfs j l pi inv ns j0; cbn [subset_loop]; case: ltnP => h //.
- by move=> [<-]; constructor=> //; exact: search_done inv ns h.
- by move=> [<-]; constructor=> //; exact: search_done inv ns h.
have m0 : (0 < size mfs)%N by move: h j0; clear; lia.
have [L [HL [_ ->]]] := @subsets_list j 0 (size mfs) (elimT ssrnat.ltP m0).
pose P idx := \prod_(f <- map (nth (poly_zero (mc m)) mfs) idx) qv f.
have : ((run_until_break (subset_callback input mfs) L (Ret None)).1 = Ret None /\
          forall idx, In idx L -> forall G H, zv input = G * H -> red k G <> P idx) \/
       (exists f q idx, [/\ (run_until_break (subset_callback input mfs) L (Ret None)).1 = Ret (Some (f, q, idx)),
          In idx L, primwf f /\ primwf q, zv input = zv f * zv q & red k (zv f) = P idx /\ zv f \is monic]).
  have : forall idx, In idx L -> increasing_in 0 (size mfs) idx by move=> idx /HL [].
  elim: L {HL} => [|idx L IHL] HL /=; first by left.
  rewrite {1 3}/subset_callback; case: (try_subset_monic pi inv (HL idx (or_introl erefl))) => [[E1 E2]|[f [q [E pf pq Ez Er]]]].
    rewrite E1; case: IHL => [i hi|[-> h2]|[f [q [i [-> Hi pf pq Ez]]]]]; first by apply: HL; right.
      by left; split=> // i [<-|hi] //; exact: h2.
    by right; exists f, q, i; split=> //; right.
  by rewrite E; right; exists f, q, idx; split=> //; left.
case=> [[-> hn]|[f [q [idx [-> /HL [sidx inc] [pf pq] E [Er mf]]]]]]; rewrite rbind_Ret'.
  apply: IH => // b G H sb EG mG hj EGb.
  case: (ltnP (size (mask b mfs)) j) => hs; first by apply: (ns b G H) => //; move/andP: hj => [-> _].
  have sj : size (mask b mfs) = j by move: hj hs; clear; lia.
  have [idx inc Ei] := mask_inc (poly_zero (mc m)) sb.
  apply: (hn idx _ G H EG); last by rewrite /P Ei.
  by apply/HL; split=> //; rewrite -sj -Ei size_map.
have [b sb Eb] := inc_mask (poly_zero (mc m)) inc.
have [c Ec Pc] := remove_mask (poly_zero (mc m)) inc.
have [mI mm EI irr [sq bd]] := inv.
have mq := monic_cofactor mI E mf.
have [d sd Ed] := mask_mask c (nseq (size (mask c mfs)) true) mfs; rewrite mask_true // in Ed.
have Eq : red k (zv q) = \prod_(g <- mask d mfs) qv g.
  apply: (monic_rreg (monic_red k mf)); rewrite /= ![_ * red k (zv f)]mulrC -redM -E EI {1}Er.
  by rewrite Ed (Perm_prod _ Pc) big_cat.
case El: (subset_loop _ _ _ _) => [rest| |] //; rewrite rbind_Ret' => -[<-].
rewrite /P Eb in Er.
constructor.
  apply: (@factor_irreducible _ _ _ (zv q) b j inv ns E mf sb Er).
  by rewrite -Eb size_map -[size idx]/(length idx) sidx.
have E' : zv input = zv q * zv f by rewrite mulrC.
apply: (IH q (remove_indexes mfs idx) j rest) => //; rewrite Ec -Ed.
  exact: inv_sub inv E' mq Eq.
exact: no_small_sub ns E sd.
Qed.
End Search.
