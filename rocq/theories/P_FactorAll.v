(** Factorisation of integer polynomials: the whole of
    factorization_over_integers.rs. *)
From Coq Require Import ZArith Lia List Permutation QArith Qcanon.
From mathcomp Require Import all_ssreflect all_fingroup all_algebra.
From mathcomp.zify Require Import ssrZ zify_ssreflect zify_algebra.
From Verif Require Import M_Base M_Traits M_Util M_Poly M_PolyCoef M_PolyAlg M_Factor S_Int S_Poly S_PolyAlg S_Factor
  P_Util P_Poly P_PolyDiv P_PolyInst P_PolyGcd P_PolyField P_PolyAlgInst P_PolyAlgRef P_Yun P_FactorP P_Hensel P_HenselTree P_ExtGcd P_Heap
  P_FactorZ P_FactorTree.
Set Implicit Arguments.
Unset Strict Implicit.
Unset Printing Implicit Defensive.
Import GRing.Theory.
Local Open Scope ring_scope.
Delimit Scope Z_scope with ZZ.
Local Notation monic := mathcomp.algebra.poly.monic.
Local Notation zv := (pval int_sem).
Local Notation zwf := (wf int_sem).

Section Modular.
Variable p : positive.
Notation pn := (Pos.to_nat p).
Hypotheses (p_pr : prime pn) (p_odd : (2 < pn)%N).
Notation S := (@modp_sem (Zpos p) pn isT (pnE p) p_pr).
Notation pv := (@pval (mc p) [comUnitRingType of 'F_pn] S).
Notation wf := (@wf (mc p) [comUnitRingType of 'F_pn] S).
Notation F := [fieldType of 'F_pn].
Notation tok := (tree_ok (pdE (pnE p) p_pr) (pd_gt1 p_pr)).
Variables (rng : nat -> Z) (f : mpoly p).
Hypotheses (wff : wf f) (f0 : pv f != 0) (f1 : (1 < size (pv f))%N) (sf : @square_free F (pv f)).

Lemma modular_ok tries pos ds : distinct_degree_factorization f = Ret ds ->
  no_panic (split_degrees rng tries 0 ds pos) (fun '(fs, _) =>
    exists t, [/\ build_tree (size fs) (heap_from (@tree_le p) [seq Leaf f | f <- fs]) = Ret (Some t),
      tok t, product t = f
    & pv f \is monic -> Forall (fun g => @irreducible_poly F (pv g) /\ pv g \is monic) (leaves t)]).
Proof.
move=> Ed; have [gs [Eg wg [gp g0 gm gi]]] := ddf_spec wff f0 sf.
move: Eg; rewrite Ed => -[Egs]; rewrite -{gs}Egs in wg gp g0 gm gi.
case: ds Ed wg gp g0 gm gi => [|d ds] Ed wg gp g0 gm gi.
  by move: g0; rewrite /= => _; move: gp f1; rewrite big_nil => ->; rewrite size_poly1.
inversion_clear wg as [|? ? wd wds]; cbn [split_degrees].
rewrite /= in g0 gm gi; rewrite big_map big_cons in gp.
set hd := (if poly_is_one d then [::] else [:: d]).
have hp : [/\ Forall wf hd, \prod_(g <- hd) pv g = pv d, Forall (fun g => pv g != 0) hd & (size hd <= 1)%N].
  rewrite /hd (is_oneP wd); case: eqP => [->|_]; first by split=> //; rewrite big_nil.
  by split; rewrite ?big_seq1 //; repeat constructor=> //; rewrite -size_poly_gt0 g0.
have -> : (if poly_is_one d then Ret ([::], pos) else Ret ([:: d], pos)) = Ret (hd, pos) by rewrite /hd; case: ifP.
rewrite rbind_Ret'.
have := @split_spec p p_pr p_odd rng tries ds 1 pos isT wds.
have a1 : forall j, (j < size ds)%N -> nth 1 [seq pv i | i <- ds] j \is monic by move=> j _; exact: (gm j.+1 isT).
have a2 : forall j, (j < size ds)%N -> @all_factors_degree F (nth 1 [seq pv i | i <- ds] j) (1 + j).
  by move=> j _ q iq qd; have := gi j.+1 q isT iq; rewrite /= => -[/(_ qd) []].
move=> /(_ a1 a2); case: (split_degrees _ _ _ _ _) => [[b pos2]| |] //= [wb eb ib].
case: hp => wh eh h0 sh.
set fs := hd ++ b.
have wfs : Forall wf fs by apply/Forall_app.
have pfs : \prod_(g <- fs) pv g = pv f by rewrite big_cat /= eh eb -gp.
set h := heap_from _ _.
have Ph : Permutation h [seq Leaf g | g <- fs] := heap_from_perm _ _.
have [||||t [Et tt lt pt]] := @build_tree_ok p p_pr (size fs) h.
- rewrite Ph; rewrite /fs map_cat; apply/Forall_app; split; apply/Forall_map/Forall_forall => g gi'.
    by split; [move/Forall_forall: wh; apply|move/Forall_forall: h0; apply].
  split; first by move/Forall_forall: wb; apply.
  have [[s2 _] _] : @irreducible_poly F (pv g) /\ pv g \is monic by move/Forall_forall: ib; apply.
  by rewrite -size_poly_gt0 ltnW.
- by rewrite (Perm_prod _ Ph) big_map /= pfs.
- rewrite (Perm_sum _ Ph) big_map /= big_cat /=.
  have -> : (\sum_(i <- b) (size (pv i) <= 1) = 0)%N.
    elim: b ib {wb eb fs wfs pfs h Ph} => [|g b IHb] ib; first by rewrite big_nil.
    inversion_clear ib as [|? ? [[s2 _] _] ib']; rewrite big_cons IHb //.
    by move: s2; rewrite ltnNge => /negbTE ->.
  rewrite addn0; move: sh; case: (hd) => [|g []] //; rewrite ?big_nil ?big_seq1 ?leq_b1 //.
- have -> : size h = size fs by rewrite -(size_map (@Leaf p) fs); exact: Permutation_length Ph.
  rewrite leqnSn andbT lt0n; apply/negP => /eqP/size0nil fs0.
  by move: f1; rewrite -pfs fs0 big_nil size_poly1.
exists t; split=> //.
  apply: (wf_inj (S := S)) => //; first exact: tree_wf tt.
  by rewrite pt (Perm_prod _ Ph) big_map -pfs.
move=> mf.
have mb : \prod_(g <- b) pv g \is monic.
  elim: b ib {wb eb fs wfs pfs h Ph Et tt lt pt} => [|g b IHb] ib; first by rewrite big_nil monic1.
  by inversion_clear ib as [|? ? [_ mg] ib']; rewrite big_cons monicMl // IHb.
have d1 : pv d = 1.
  have [c dE] : exists c, pv d = c%:P by exists (pv d)`_0; apply: size1_polyC; rewrite g0.
  have := mf; rewrite -pfs big_cat /= eh dE mul_polyC monicE lead_coefZ (monicP mb) mulr1 => /eqP ->.
  by rewrite polyC1.
have hd0 : hd = [::] by rewrite /hd (is_oneP wd) d1 eqxx.
rewrite lt (Permutation_flat_map (@leaves p) Ph) /fs hd0 /=.
have -> : flat_map (@leaves p) [seq Leaf g | g <- b] = b.
  by elim: (b) => //= g b' ->.
exact: ib.
Qed.
End Modular.

Lemma primwf_n0 f : primwf f -> zv f != 0.
Proof. by move=> [_]; apply: contra_eq_neq => ->; rewrite zcontents0. Qed.
(** [P] of the value returned, [B] if there is a panic. *)
Definition outcome A (r : res A) (P : A -> Prop) (B : Prop) : Prop :=
  match r with Ret a => P a | Panic => B | NoFuel => True end.

Lemma factor_square_free_ok rng fuel self pos : primwf self ->
  outcome (factor_square_free rng fuel self pos) (fun '(l, _) =>
    Forall primwf l /\ zv self = \prod_(f <- l) zv f) (no_usable_prime (zv self)).
Proof.
move=> ps; have [ws cs] := ps; have s0 := primwf_n0 ps; rewrite /factor_square_free.
case: leqP => hd; first by split; [constructor|rewrite big_seq1].
have [ct [r [-> _ _ _ [Ec _ _]]]] := content_int ws; rewrite rbind_Ret'.
have {}Ec : ct = 1%ZZ by apply: zi_inj; rewrite -[zi ct]/(vc int_sem ct) Ec cs.
have := @find_prime_spec fuel fuel self 2 ws s0 ltac:(lia) _.
have bz : forall q : nat, prime q -> (2 < q)%N -> (Z.of_nat q <= 2)%ZZ -> bad_prime (zv self) q by move=> q _ h1 h2; exfalso; lia.
move=> /(_ bz); case: (find_prime _ _ _ _) => [p| |] // [p_pr [p2 sz sq]].
cbn [rbind].
have [wt _] := to_mod_F p_pr (els self).
have s3 : (2 < size (zv self))%N.
  by move: hd; rewrite /degree_or_0 (degree_spec ws) (negbTE s0); case: (size _).
have f1 : (1 < size (pval (@modp_sem (Zpos p) _ isT (pnE p) p_pr) (to_mod p (els self))))%N by rewrite sz ltnW.
have f0 : pval (@modp_sem (Zpos p) _ isT (pnE p) p_pr) (to_mod p (els self)) != 0 by rewrite -size_poly_gt0 ltnW.
have := @modular_ok p p_pr p2 rng _ wt f0 f1 sq fuel pos.
have [gs [Eg _ _]] := ddf_spec wt f0 sq; rewrite Eg => /(_ _ erefl); cbn [rbind].
case: (split_degrees _ _ _ _ _) => [[fs pos']| |] //; cbn [rbind no_panic] => -[t [-> tt pt _]]; cbn [rbind].
have := @hensel_loop_spec self (needed_modulus self) fuel p _ (pdE (pnE p) p_pr) (pd_gt1 p_pr) t tt.
case=> [|[[m t'] -> _]|[-> _]] //; first by rewrite pt /coefficients map_id.
cbn [rbind projT2].
set mfs := filter _ _.
have [|l [-> fl el]] := @subset_loop_spec (2 * size mfs).+1 m self mfs 1 ps isT; first by rewrite mulnC addn1 ltnS leqnSn.
by rewrite Ec /=.
Qed.

(** * Rational square-free factors are integer polynomials *)
Local Notation qv := (pval ratio_sem).
Local Notation qwf := (wf ratio_sem).
Definition zof (f : poly ratio_coef) : zpoly := from_coefs (K := int_coef) (els f).
Lemma zof_ok f (W : {poly int}) : qwf f -> qv f = map_poly intr W -> zwf (zof f) /\ zv (zof f) = W.
Proof.
move=> wf' E; have [h wh Eh] := pval_surj int_sem W.
suff -> : zof f = h by [].
have -> : f = MkPoly (K := ratio_coef) (els h) 1%positive.
  apply: (wf_inj (S := ratio_sem)) => //.
    split; first exact: (proj1 wh).
    by apply/rredP => k hk _; exact: hk.
  rewrite E -Eh els_zv pvalE /vlist /= map_Poly //; congr Poly.
  by rewrite -map_comp; apply: eq_map => x /=; rewrite /zr divr1.
by rewrite /zof /= -[RHS](from_coefs_coefficients wh) /coefficients map_id.
Qed.

Lemma nth_In' A (d : A) l i : (i < size l)%N -> In (nth d l i) l.
Proof. by elim: l i => // a l IH [|i] h; [left|right; exact: IH]. Qed.
Definition factor_ok (fn : zpoly * nat) : Prop := [/\ primwf fn.1, (1 < size (zv fn.1))%N & (0 < fn.2)%N].
Lemma prim_size1 (P : {poly int}) : zcontents P = 1 -> (size P <= 1)%N -> P = 1.
Proof.
move=> c1 s1; move: c1; rewrite (size1_polyC s1) -alg_polyC zcontentsZ zcontents_monic ?monic1 //.
by rewrite mulr1 => ->; rewrite scale1r.
Qed.
Lemma filter_one l i : Forall primwf l ->
  Forall factor_ok [seq (g, i.+1) | g <- filter (fun g => ~~ poly_is_one g) l] /\
  \prod_(fn <- [seq (g, i.+1) | g <- filter (fun g => ~~ poly_is_one g) l]) zv fn.1 ^+ fn.2
    = (\prod_(f <- l) zv f) ^+ i.+1.
Proof.
elim: l => [|g l IH] H; first by split; [constructor|rewrite !big_nil expr1n].
inversion_clear H as [|? ? pg pl]; have [IH1 IH2] := IH pl.
rewrite big_cons exprMn -IH2 /= (is_oneP (proj1 pg)); case: eqP => [->|g1] /=; first by rewrite expr1n mul1r.
split; last by rewrite big_cons.
constructor=> //; split=> //=; rewrite ltnNge; apply/negP => s1.
by apply: g1; apply: prim_size1 (proj2 pg) s1.
Qed.
Lemma factor_powers_ok rng fuel l : forall i pos, Forall (fun f => primwf (zof f)) l ->
  outcome (factor_powers rng fuel i l pos) (fun fs => Forall factor_ok fs /\
    \prod_(fn <- fs) zv fn.1 ^+ fn.2 = \prod_(j < size l) zv (zof (nth (poly_zero ratio_coef) l j)) ^+ (i + j).+1)
    (exists2 f, In f l & no_usable_prime (zv (zof f))).
Proof.
elim: l => [|f l IH] i pos H; cbn [factor_powers]; first by split; [constructor|rewrite !big_nil big_ord0].
inversion_clear H as [|? ? pf pl].
have := @factor_square_free_ok rng fuel (zof f) pos pf; rewrite -/(zof f).
case: (factor_square_free _ _ _ _) => [[fs pos']| |] //; last by move=> h; exists f => //; left.
move=> [fl el]; cbn [rbind].
have := IH i.+1 pos' pl; case: (factor_powers _ _ _ _ _) => [rest| |] //; last by move=> -[g gl h]; exists g => //; right.
move=> [fr er]; cbn [rbind].
have [f1 f2] := filter_one i fl; split; first exact/Forall_app.
rewrite big_cat /= f2 er big_ord_recl /= addn0 el; congr (_ * _).
by apply: eq_bigr => j _; rewrite /bump /= add1n addnS.
Qed.

(** Each factor is produced from one of the square-free factors. *)
Lemma factor_powers_src rng fuel l : forall i pos fs, factor_powers rng fuel i l pos = Ret fs ->
  Forall (fun fn => exists f pos1 ls pos2,
    [/\ In f l, factor_square_free rng fuel (zof f) pos1 = Ret (ls, pos2) & In fn.1 ls]) fs.
Proof.
elim: l => [|f l IH] i pos fs; cbn [factor_powers]; first by move=> [<-].
rewrite -/(zof f); case E: (factor_square_free _ _ _ _) => [[ls pos']| |] //; cbn [rbind].
case Er: (factor_powers _ _ _ _ _) => [rest| |] //; cbn [rbind] => -[<-].
apply/Forall_app; split; last first.
  by apply: Forall_impl (IH _ _ _ Er) => fn [g [p1 [l1 [p2 [h1 h2 h3]]]]]; exists g, p1, l1, p2; split=> //; right.
apply/Forall_map/Forall_forall => g gi; exists f, pos, ls, pos'; split=> //; first by left.
by elim: {E} ls gi => //= a ls IHl; case: ifP => _; [move=> [->|/IHl]; [left|right]|move/IHl; right].
Qed.
Lemma In_nth' A (d : A) l x : In x l -> exists2 i, (i < size l)%N & nth d l i = x.
Proof. by elim: l => // a l IH [->|/IH [i h e]]; [exists 0%N|exists i.+1]. Qed.
Lemma factor_all_src rng fuel (self : zpoly) : zwf self ->
  outcome (factor_with_rng rng fuel self) (fun '(c, fs) => [/\ Forall factor_ok fs,
    zv self = zi c *: \prod_(fn <- fs) zv fn.1 ^+ fn.2
    & Forall (fun fn => exists g pos1 ls pos2, [/\ primwf g, exists h, zv self = zi c *: (h * zv g),
        factor_square_free rng fuel g pos1 = Ret (ls, pos2) & In fn.1 ls]) fs])
    (exists f, [/\ positive_primitive f, exists h, zv self = h * f & no_usable_prime f]).
Proof.
move=> ws; rewrite /factor_with_rng.
have [ct [r [-> _ wr _ [Ec Er Es]]]] := content_int ws; rewrite rbind_Ret'.
have Ect : vc int_sem ct = zi ct by [].
have yun_ok l : Forall qwf l -> (forall q, In q l -> square_free (qv q) /\ exists2 W : {poly int}, qv q = map_poly intr W & zcontents W = 1) ->
  Forall (fun f => primwf (zof f) /\ qv f = map_poly intr (zv (zof f))) l.
  move=> wl pl; apply/Forall_forall => g gl; have [_ [W EW cW]] := pl g gl.
  have wg : qwf g by move/Forall_forall: wl; apply.
  by have [w1 w2] := zof_ok wg EW; split; [split=> //; rewrite w2|rewrite w2].
have [s0|s0] := eqVneq (zv self) 0.
  have c0 : zi ct = 0 by rewrite -Ect Ec s0 zcontents0.
  have -> : coefficients self = [::] by apply: size0nil; rewrite /coefficients size_map -(size_pval ws) s0 size_poly0.
  cbn [map_res rbind]; set cs := [::].
  have [] := from_iterator_spec ratio_sem [seq Q2Qc (inject_Z c) | c <- cs].
  set q := from_iterator _ => wq _.
  have [c [l [-> wl _ pl _]]] := yun_spec wq; cbn [rbind].
  have {}pl := yun_ok l wl pl.
  have := @factor_powers_ok rng fuel l 0 0; case E: (factor_powers _ _ _ _ _) => [fs| |] //.
    case=> [|fo _]; [by apply: Forall_impl pl => f []|split=> //; first by rewrite s0 c0 scale0r].
    apply: Forall_impl (factor_powers_src E) => fn [g [p1 [ls [p2 [h1 h2 h3]]]]].
    exists (zof g), p1, ls, p2; split=> //; last by exists 0; rewrite s0 c0 scale0r.
    by move/Forall_forall: pl => /(_ g h1) [].
  case=> [|f fl bf]; first by apply: Forall_impl pl => f [].
  exists (zv (zof f)); split=> //; last by exists 0; rewrite s0 mul0r.
  by move/Forall_forall: pl => /(_ f fl) [[]].
have c0 : vc int_sem ct != 0 by rewrite Ec zcontents_eq0.
have [|rs Ers [-> _]] := map_div_ok int_exact_sem (cs := coefficients self) (qs := zv r) c0.
  rewrite vcoefs -(pval_seq ws); apply: (@eq_from_nth _ 0) => [|i hi].
    by rewrite size_map Es size_scale.
  by rewrite (nth_map 0) ?Es ?coefZ 1?mulrC //; move: hi; rewrite Es size_scale.
cbn [rbind].
have [] := from_iterator_spec ratio_sem [seq Q2Qc (inject_Z c) | c <- rs].
set q := from_iterator _ => wq Eq.
have {}Eq : qv q = map_poly intr (zv r).
  rewrite Eq -[zv r]polyseqK -Ers map_Poly // -!map_comp; congr Poly; apply: eq_map => x.
  by rewrite -[LHS]/(q2r (Q2Qc (inject_Z x))) q2r_Q2Qc /q2r /= divr1.
have [c [l [-> wl El pl _]]] := yun_spec wq; cbn [rbind].
have {}pl := yun_ok l wl pl.
suff ER : zv r = \prod_(j < size l) zv (zof (nth (poly_zero ratio_coef) l j)) ^+ (0 + j).+1.
  have dvd f : In f l -> exists h, zv self = zi ct *: (h * zv (zof f)).
    move=> fl; have [j hj Ej] := In_nth' (poly_zero ratio_coef) fl.
    rewrite Es ER (bigD1 (Ordinal hj)) //= Ej exprS; set B := \prod_(i < _ | _) _; set C := _ ^+ (0 + j).
    by exists (C * B); rewrite [X in _ = _ *: X]mulrC mulrA.
  have := @factor_powers_ok rng fuel l 0 0; case E: (factor_powers _ _ _ _ _) => [fs| |] //.
    case=> [|fo efs]; [by apply: Forall_impl pl => f []|split=> //; first by rewrite Es efs ER].
    apply: Forall_impl (factor_powers_src E) => fn [g [p1 [ls [p2 [h1 h2 h3]]]]].
    exists (zof g), p1, ls, p2; split=> //; last exact: dvd.
    by move/Forall_forall: pl => /(_ g h1) [].
  case=> [|f fl bf]; first by apply: Forall_impl pl => f [].
  exists (zv (zof f)); split=> //; first by move/Forall_forall: pl => /(_ f fl) [[]].
  by have [h Eh] := dvd f fl; exists (zi ct *: h); rewrite -scalerAl.
apply: (@map_inj_poly _ _ (intr : int -> rat)) => //; first exact: intr_inj.
have ew : map_poly intr (\prod_(j < size l) zv (zof (nth (poly_zero ratio_coef) l j)) ^+ (0 + j).+1)
    = \prod_(j < size l) (nth 0 (map qv l) j) ^+ j.+1 :> {poly rat}.
  rewrite rmorph_prod; apply: eq_bigr => j _; rewrite rmorphX (nth_map (poly_zero ratio_coef)) //.
  have [_ ->] // : primwf (zof (nth (poly_zero ratio_coef) l j)) /\ qv (nth (poly_zero ratio_coef) l j) = map_poly intr (zv (zof (nth (poly_zero ratio_coef) l j))).
  by move/Forall_forall: pl; apply; apply/nth_In'.
have pp : prim (\prod_(j < size l) (nth 0 (map qv l) j) ^+ j.+1).
  rewrite -ew; eexists; [reflexivity|].
  have H n : (n <= size l)%N -> zcontents (\prod_(j < n) zv (zof (nth (poly_zero ratio_coef) l j)) ^+ (0 + j).+1) = 1.
    elim: n => [|n IH] hn; first by rewrite big_ord0 zcontents_monic ?monic1.
    rewrite big_ord_recr /= zcontentsM IH ?mul1r 1?ltnW // add0n.
    have [[_ h] _] : primwf (zof (nth (poly_zero ratio_coef) l n)) /\ qv (nth (poly_zero ratio_coef) l n) = map_poly intr (zv (zof (nth (poly_zero ratio_coef) l n))).
      by move/Forall_forall: pl; apply; apply/nth_In'.
    by elim: {hn IH} n.+1 => [|k IHk]; [rewrite expr0 zcontents_monic ?monic1|rewrite exprS zcontentsM h IHk].
  exact: H.
rewrite ew; apply: prim_eq => //.
  by eexists; [reflexivity|rewrite Er zcontents_primitive s0].
rewrite -Eq El /power_product size_map; apply: eqp_scale.
apply: contraTneq (s0) => z; rewrite negbK Es.
suff -> : zv r = 0 by rewrite scaler0.
apply: (@map_inj_poly _ _ (intr : int -> rat)) => //; first exact: intr_inj.
by rewrite -Eq El /power_product z scale0r rmorph0.
Qed.

Lemma factor_all_ok rng fuel (self : zpoly) : zwf self ->
  outcome (factor_with_rng rng fuel self) (fun '(c, fs) => Forall factor_ok fs /\
    zv self = zi c *: \prod_(fn <- fs) zv fn.1 ^+ fn.2)
    (exists f, [/\ positive_primitive f, exists h, zv self = h * f & no_usable_prime f]).
Proof. by move=> ws; have := @factor_all_src rng fuel self ws; case: (factor_with_rng _ _ _) => [[c l]| |] // []. Qed.

(** * In the terms of the specification *)
Lemma factor_spec rng fuel (self : zpoly) : zwf self ->
  match factor_with_rng rng fuel self with
  | Ret (c, l) => factor_list (zv self) (zi c) [seq (zv fn.1, fn.2) | fn <- l]
  | Panic => exists f, [/\ positive_primitive f, exists h, zv self = h * f & no_usable_prime f]
  | NoFuel => True
  end.
Proof.
move=> ws; have := @factor_all_ok rng fuel self ws.
case: (factor_with_rng _ _ _) => [[c l]| |] // [fo E].
have mem f n : (f, n) \in [seq (zv fn.1, fn.2) | fn <- l] -> exists2 g, In g l & (f, n) = (zv g.1, g.2).
  elim: {fo E} l => // g l IH; rewrite inE => /orP[/eqP->|/IH [h hl e]]; first by exists g => //; left.
  by exists h => //; right.
split; first by rewrite big_map.
- by move=> f n /mem [g gl [_ ->]]; move/Forall_forall: fo => /(_ g gl) [].
by move=> f n /mem [g gl [-> _]]; move/Forall_forall: fo => /(_ g gl) [[_ ?] ? _].
Qed.
