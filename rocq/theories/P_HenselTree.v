(** Proofs about Hensel lifting of factor trees. *)
From Coq Require Import ZArith Lia.
Set Warnings "-notation-overridden,-ambiguous-paths".
From mathcomp Require Import all_ssreflect all_fingroup all_algebra.
From mathcomp.zify Require Import ssrZ zify_ssreflect zify_algebra.
From Verif Require Import M_Base M_Traits M_ModInt M_Poly M_PolyCoef M_PolyAlg M_Factor S_Poly S_PolyAlg S_Factor
  P_RingTac P_ModInt P_Poly P_PolyDiv P_PolyInst P_PolyGcd P_PolyAlgInst P_Hensel P_FactorP.
Set Implicit Arguments.
Unset Strict Implicit.
Unset Printing Implicit Defensive.
Import GRing.Theory Num.Theory Order.POrderTheory Order.TotalTheory.
Local Open Scope ring_scope.
Delimit Scope Z_scope with ZZ.
Local Notation monic := mathcomp.algebra.poly.monic.

(** * Factor trees *)
Section Tree.
Variables (q : positive) (n : nat).
Hypotheses (qE : Zpos q = Z.of_nat n) (n1 : (1 < n)%N).
Notation pv := (pval (gS qE n1)).
Notation wf := (wf (gS qE n1)).
(** Products, Bezout coefficients and leading coefficients are right. *)
Fixpoint tree_ok (t : ftree q) : Prop :=
  match t with
  | Leaf f => wf f /\ pv f != 0
  | Node l r _ f lb rb =>
      [/\ tree_ok l /\ tree_ok r, [/\ wf f, wf lb & wf rb], pv f = pv (product l) * pv (product r),
          pv lb * pv (product l) + pv rb * pv (product r) = 1
        & lead_coef (pv (product r)) \is a GRing.unit]
  end.
Lemma tree_wf t : tree_ok t -> wf (product t).
Proof. by case: t => [f []|l r k f lb rb [_ []]]. Qed.
Lemma tree_prod t : tree_ok t -> pv (product t) = \prod_(f <- leaves t) pv f.
Proof.
elim: t => [f|l IHl r IHr k f lb rb] /=; first by rewrite big_seq1.
by move=> [[/IHl El /IHr Er] _ -> _ _]; rewrite big_cat /= -El -Er.
Qed.
Lemma tree_leaf0 t : tree_ok t -> List.Forall (fun f => wf f /\ pv f != 0) (leaves t).
Proof.
elim: t => [f|l IHl r IHr k f lb rb] /=; first by constructor.
by move=> [[/IHl Hl /IHr Hr] _ _ _ _]; apply/List.Forall_app.
Qed.
Lemma tree_degree t : tree_ok t -> exists d, total_degree t = Ret d.
Proof.
case: t => [f [w f0]|l r k f lb rb _] /=; last by exists k.
by rewrite (degree_spec w) (negbTE f0); eexists.
Qed.
End Tree.

Section LiftTree.
Variables (p q : positive) (n : nat).
Hypotheses (pE : Zpos p = Z.of_nat n) (n1 : (1 < n)%N) (qE : Zpos q = Z.of_nat (n * n)) (nn1 : (1 < n * n)%N).
Notation nn := (n * n)%N.
Notation pS := (gS pE n1).
Notation qS := (gS qE nn1).
Notation pv := (pval pS).
Notation qv := (pval qS).

Lemma Forall_monic (R : ringType) T (v : T -> {poly R}) (l : seq T) :
  List.Forall (fun f => v f \is monic) l -> \prod_(f <- l) v f \is monic.
Proof.
elim: l => [|a l IH] H; first by rewrite big_nil monic1.
by inversion_clear H as [|? ? Ha Hl]; rewrite big_cons monicMl // IH.
Qed.
Lemma lead_up1 (f : mpoly p) : pv f \is monic -> lead_coef (red nn (il f)) = 1.
Proof.
rewrite pv_il qualifE => m1.
have [_ l1] := red_small_lead n1 (il_small pE n1 f).
have sm i : (0 <= (il f)`_i < (nn)%:Z)%R.
  have /andP [a b] := il_small pE n1 f i; rewrite a (lt_le_trans b) //.
  by rewrite lez_nat leq_pmulr // ltnW.
have [_ l2] := red_small_lead nn1 sm.
rewrite l1 in m1; rewrite l2.
suff -> : lead_coef (il f) = 1 by rewrite rmorph1.
have /andP [a b] := il_small pE n1 f (size (il f)).-1; rewrite -lead_coefE in a b.
have z1 : lead_coef (il f) != 0 by apply: contraTneq m1 => ->; rewrite eq_sym oner_eq0.
have p1 : 0 <= lead_coef (il f) - 1 < n%:Z.
  by rewrite subr_ge0 -gtz0_ge1 lt_def z1 a /=; apply: lt_trans b; rewrite ltr_subl_addr ltr_addl.
have := small_red0 n1 p1; rewrite rmorphB rmorph1 /= subr_eq0 m1 => /esym; rewrite subr_eq0 => /eqP.
by [].
Qed.
Lemma lift_step_spec (t : ftree p) : tree_ok pE n1 t -> forall F : mpoly q, wf qS F ->
  set_modulus p F = product t ->
  exists t', [/\ hensel_lift_step t F = Ret t', tree_ok qE nn1 t', product t' = F,
      map (set_modulus p) (leaves t') = leaves t
    & List.Forall (fun f => pv f \is monic) (leaves t) -> qv F \is monic ->
      List.Forall (fun f => qv f \is monic) (leaves t')].
Proof.
elim: t => [f|l IHl r IHr k f lb rb]; cbn [hensel_lift_step tree_ok product leaves].
  move=> [wf' f0] F wF E; exists (Leaf F); split=> //=; [|by rewrite E|by move=> _ mF; constructor].
  split=> //; apply: contraNneq f0 => F0.
  rewrite -E (set_down pE n1 F).2; apply/eqP; apply/(red0_dvd n1).
  move: F0; rewrite pv_il => /(red0_dvd nn1) [H ->]; exists (n%:Z *: H).
  by rewrite scalerA -PoszM.
move=> [[tl tr] [wff wlb wrb] Ef Eb ur] F wF E.
have [wolp Eolp] := set_up qE nn1 (product l); set olp := set_modulus q (product l) in wolp Eolp *.
have [worp Eorp] := set_up qE nn1 (product r); set orp := set_modulus q (product r) in worp Eorp *.
have [wolb Eolb] := set_up qE nn1 lb; set olb := set_modulus q lb in wolb Eolb *.
have [worb Eorb] := set_up qE nn1 rb; set orb := set_modulus q rb in worb Eorb *.
have [uorp sorp] := lead_up nn1 ur; rewrite -Eorp in uorp sorp.
have wm a b : wf qS a -> wf qS b -> wf qS (poly_mul a b) /\ qv (poly_mul a b) = qv a * qv b.
  by move=> wa wb; exact: mul_spec.
have [w1 e1] := wm _ _ wolp worp.
have [w2 e2] := sub_spec (S := qS) (poly_mul olp orp) wF; rewrite e1 in e2.
set error := poly_sub F _ in w2 e2 *.
have [w3 e3] := wm _ _ wolb w2.
have [quo [rem [-> wquo wrem D sr]]] := unit_div_rem w3 worp uorp; rewrite rbind_Ret'.
have [w4 e4] := wm _ _ worb w2; have [w5 e5] := wm _ _ wquo wolp.
have [w6 e6] := add_spec (S := qS) (poly_mul orb error) wolp.
have [wlp elp] := add_spec (S := qS) (poly_mul quo olp) w6.
set lp := poly_add (poly_add _ _) _ in wlp elp *.
have [wrp erp] := add_spec (S := qS) rem worp; set rp := poly_add orp rem in wrp erp *.
have [w7 e7] := wm _ _ wolb wlp; have [w8 e8] := wm _ _ worb wrp.
have [w9 e9] := add_spec (S := qS) (poly_mul orb rp) w7.
have [wbe ebe] := sub_single_spec (S := qS) (poly_add (poly_mul olb lp) (poly_mul orb rp)) (c_one (mc q)) (fun _ => erefl).
set berr := poly_sub_single _ _ in wbe ebe *.
have EI : inI (n%:R : 'Z_nn) (qv F - qv olp * qv orp).
  rewrite pv_il Eolp Eorp -redM; apply: lift_I => //.
  by rewrite -(set_down pE n1 F).2 E Ef redM -!pv_il.
have BI : inI (n%:R : 'Z_nn) (qv olb * qv olp + qv orb * qv orp - 1).
  rewrite Eolb Eolp Eorb Eorp -!redM -redD -red1; apply: lift_I => //.
  by rewrite redD !redM red1 -!pv_il.
rewrite e3 e2 in D.
have elp' : qv lp = qv olp + qv orb * (qv F - qv olp * qv orp) + qv quo * qv olp.
  by rewrite elp e6 e5 e4 e2.
have [lR sR] := step_leadR sr.
have urp : lead_coef (qv rp) \is a GRing.unit by rewrite erp lR.
have [w10 e10] := wm _ _ wolb wbe.
have [quo2 [rem2 [-> wquo2 wrem2 D2 sr2]]] := unit_div_rem w10 wrp urp; rewrite rbind_Ret'.
have ebe' : qv berr = qv olb * qv lp + qv orb * qv rp - 1 by rewrite ebe e9 e7 e8 vc1.
rewrite e10 ebe' in D2.
have [wnlb enlb] := sub_spec (S := qS) rem2 wolb; set nlb := poly_sub olb rem2 in wnlb enlb *.
have [w11 e11] := wm _ _ worb wbe; have [w12 e12] := wm _ _ wquo2 wlp.
have [w13 e13] := sub_spec (S := qS) (poly_mul orb berr) worb.
have [wnrb enrb] := sub_spec (S := qS) (poly_mul quo2 lp) w13; set nrb := poly_sub (poly_sub _ _) _ in wnrb enrb *.
have ee := lift_ee nn1.
have PL := step_prod ee EI BI uorp D sr; rewrite -elp' -erp in PL.
have IL := step_L (qv orb) EI uorp D sr; rewrite -elp' in IL.
have IR := step_R EI uorp D sr; rewrite -erp in IR.
have BZ : qv nlb * qv lp + qv nrb * qv rp = 1.
  have := @step_bezout _ _ ee (qv F) (qv olp) (qv orp) (qv olb) (qv orb) (qv quo) (qv rem) EI BI uorp D sr (qv quo2) (qv rem2).
  rewrite -elp' -erp => /(_ D2).
  by rewrite enlb enrb e13 e12 e11 ebe'.
have Sl : set_modulus p lp = product l.
  apply: (wf_inj (S := pS)); [exact: (set_down pE n1 lp).1|exact: tree_wf tl|].
  by rewrite (set_down pE n1 lp).2 pv_il; apply: (I_lift n1 nn1); rewrite -pv_il -Eolp.
have Sr : set_modulus p rp = product r.
  apply: (wf_inj (S := pS)); [exact: (set_down pE n1 rp).1|exact: tree_wf tr|].
  by rewrite (set_down pE n1 rp).2 pv_il; apply: (I_lift n1 nn1); rewrite -pv_il -Eorp.
have [wpr epr] := wm _ _ wlp wrp.
have Pr : poly_mul lp rp = F by apply: (wf_inj (S := qS)) => //; rewrite epr PL.
have [wa ea] := wm _ _ wnlb wlp; have [wb eb] := wm _ _ wnrb wrp.
have [ws es] := add_spec (S := qS) (poly_mul nrb rp) wa.
have One : poly_is_one (poly_add (poly_mul nlb lp) (poly_mul nrb rp)).
  by rewrite (is_oneP ws) es ea eb BZ.
rewrite Sl Sr One Pr !mpoly_eqb_refl /assert_then.
have [l' [-> okl El Ll Ml]] := IHl tl lp wlp Sl; rewrite rbind_Ret'.
have [r' [-> okr Er Lr Mr]] := IHr tr rp wrp Sr; rewrite rbind_Ret'.
have [dl ->] := tree_degree okl; have [dr ->] := tree_degree okr; rewrite !rbind_Ret'.
eexists; split; [reflexivity| |by []|by rewrite /= map_cat Ll Lr|].
  by rewrite /= El Er -Pr epr Pr; split.
move=> /List.Forall_app [ml mr] mF.
have mrp : qv rp \is monic.
  have mr0 : pv (product r) \is monic by rewrite (tree_prod tr); exact: Forall_monic.
  by rewrite qualifE erp lR Eorp lead_up1.
have mlp : qv lp \is monic.
  move: mF; rewrite !qualifE -PL lead_mul_unit //; by rewrite (eqP mrp) mulr1.
by apply/List.Forall_app; split; [exact: Ml|exact: Mr].
Qed.
End LiftTree.

(** * The lifting loop *)
Lemma red_dvd (n k : nat) A B : (1 < n)%N -> (1 < k)%N -> (n %| k)%N ->
  red k A = red k B -> red n A = red n B.
Proof.
move=> n1 k1 /dvdnP [c E] /(red_eqmod k1) [H ->]; apply/(red_eqmod n1).
by exists (c%:Z *: H); rewrite scalerA -PoszM mulnC -E.
Qed.
Section Comp.
Variables (p m q : positive) (n k : nat).
Hypotheses (pE : Zpos p = Z.of_nat n) (n1 : (1 < n)%N) (mE : Zpos m = Z.of_nat k) (k1 : (1 < k)%N).
Hypothesis nk : (n %| k)%N.
Lemma set_to_mod l : set_modulus p (to_mod m l) = to_mod p l.
Proof.
have [w e] := to_mod_spec pE n1 l; have [w' e'] := to_mod_spec pE n1 (mod_values (to_mod m l)).
apply: (wf_inj (S := gS pE n1)) => //; rewrite e e'.
have [_ e2] := to_mod_spec mE k1 l; rewrite pv_il in e2.
exact: red_dvd n1 k1 nk e2.
Qed.
Lemma set_set (f : mpoly q) : set_modulus p (set_modulus m f) = set_modulus p f.
Proof. exact: set_to_mod. Qed.
End Comp.
Section SetId.
Variables (p : positive) (n : nat).
Hypotheses (pE : Zpos p = Z.of_nat n) (n1 : (1 < n)%N).
Lemma set_id (f : mpoly p) : wf (gS pE n1) f -> set_modulus p f = f.
Proof.
move=> w; have [w' e'] := to_mod_spec pE n1 (mod_values f).
by apply: (wf_inj (S := gS pE n1)) => //; rewrite e' pv_il.
Qed.
End SetId.

(** What the loop returns. *)
Definition lifted (self : zpoly) (needed : bool * Z) (m : positive) (n : nat) (t : ftree m)
    (r : {m' : positive & ftree m'}) : Prop :=
  exists k (kE : Zpos (projT1 r) = Z.of_nat k) (k1 : (1 < k)%N),
    [/\ tree_ok kE k1 (projT2 r), product (projT2 r) = to_mod (projT1 r) (coefficients self),
        (n %| k)%N, map (set_modulus m) (leaves (projT2 r)) = leaves t
      & modulus_below (projT1 r) needed = false].
Lemma leaves_wf (m : positive) (n : nat) (mE : Zpos m = Z.of_nat n) (n1 : (1 < n)%N) (t : ftree m) :
  tree_ok mE n1 t -> map (set_modulus m) (leaves t) = leaves t.
Proof.
move=> ok; have := tree_leaf0 ok; elim: (leaves t) => //= f l IH H.
by inversion_clear H as [|? ? [w _] Hl]; rewrite (set_id w) IH.
Qed.
Lemma hensel_loop_spec (self : zpoly) (needed : bool * Z) fuel : forall (m : positive) (n : nat) (mE : Zpos m = Z.of_nat n)
    (n1 : (1 < n)%N) (t : ftree m),
  tree_ok mE n1 t -> product t = to_mod m (coefficients self) ->
  (exists2 r, hensel_loop fuel self needed t = Ret r & lifted self needed n t r) \/
  (hensel_loop fuel self needed t = NoFuel /\ (Z.of_nat fuel + Zpos m <= needed.2)%ZZ).
Proof.
elim: fuel => [|fuel IH] m n mE n1 t ok pt /=; case: ifP => mb; try by left; eexists; [reflexivity|];
  exists n, mE, n1; split=> //=; exact: leaves_wf ok.
  right; split=> //; move: mb; rewrite /modulus_below; case: needed.1.
    by move/Z.ltb_lt; lia.
  by move/Z.leb_le; lia.
have qE : Zpos (m * m) = Z.of_nat (n * n) by rewrite Pos2Z.inj_mul mE Nat2Z.inj_mul.
have nn1 : (1 < n * n)%N by rewrite (ltn_trans n1) // -{1}[n]muln1 ltn_mul2l n1 ltnW.
have [||t' [-> ok' pt' lt' _]] := @lift_step_spec _ _ _ _ _ qE nn1 t ok (to_mod (m * m) (coefficients self)).
- exact: (to_mod_spec qE nn1 _).1.
- by rewrite pt; apply: (set_to_mod mE n1 qE nn1); rewrite dvdn_mulr.
rewrite rbind_Ret'.
case: (IH _ _ qE nn1 t' ok' pt') => [[r -> [k [kE [k1 [h1 h2 h3 h4 h5]]]]]|[-> h]].
  left; exists r => //; exists k, kE, k1; split=> //.
    by apply: dvdn_trans h3; rewrite dvdn_mulr.
  rewrite -lt' -h4 -map_comp; apply: eq_map => f /=; apply/esym.
  by apply: (set_set mE n1 qE nn1); rewrite dvdn_mulr.
right; split=> //.
have : (Zpos m + 1 <= Zpos (m * m))%ZZ by rewrite Pos2Z.inj_mul mE; move: (n1); clear; nia.
move: h; clear; lia.
Qed.

(** * The same in terms of integer polynomials *)
Section Bridge.
Variables (q : positive) (n : nat).
Hypotheses (qE : Zpos q = Z.of_nat n) (n1 : (1 < n)%N).
Notation pv := (pval (gS qE n1)).
Notation wf := (wf (gS qE n1)).
Lemma zi_mod : zi (Zpos q) = n%:Z.
Proof. by rewrite qE zi_nat natz. Qed.
Lemma normalP (f : mpoly q) : wf f <-> normal f.
Proof.
have lastE (l : seq (elt (mc q))) :
  last_ok (@e_is_zero (mc q)) l = (last 1 (map zi [seq @rv (Zpos q) c | c <- [seq make_coef e (d_one (mc q)) | e <- l]]) != 0).
  case/lastP: l => [|l x] //; rewrite /last_ok rev_rcons !map_rcons last_rcons /=.
  by congr (~~ _); apply/Z.eqb_spec/eqP => [->|] //; rewrite -[0]/(zi Z0) => /zi_inj.
rewrite /normal /S_Poly.wf /mod_values /coefficients lastE; split; first by case.
by move=> H; split.
Qed.
Lemma eqmodP A B : poly_eqmod (zi (Zpos q)) A B <-> red n A = red n B.
Proof. by rewrite zi_mod; split=> /(red_eqmod n1). Qed.
Lemma unit_coprime (z : int) : 0 <= z -> ((z%:~R : 'Z_n) \is a GRing.unit) = coprimez z (zi (Zpos q)).
Proof.
by case: z => // k _; rewrite zi_mod -pmulrn unitZpE // /coprimez gcdzC.
Qed.
Lemma lead_unitP (f : mpoly q) :
  (lead_coef (pv f) \is a GRing.unit) = coprimez (lead_coef (ival f)) (zi (Zpos q)).
Proof.
rewrite pv_il (red_small_lead n1 (il_small qE n1 f)).2 unit_coprime //.
by have /andP[] := il_small qE n1 f (size (il f)).-1.
Qed.
Lemma consistentP (t : ftree q) : consistent t <-> tree_ok qE n1 t.
Proof.
elim: t => [f|l IHl r IHr k f lb rb]; cbn [consistent tree_ok].
  rewrite normalP eqmodP -[red n (ival f)](pv_il qE n1) /red rmorph0.
  by split=> -[h1 h2]; split=> //; [apply/eqP|apply/eqP].
have e1 : poly_eqmod (zi (Zpos q)) (ival f) (ival (product l) * ival (product r))
   <-> pv f = pv (product l) * pv (product r) by rewrite eqmodP redM !pv_il.
have e2 : poly_eqmod (zi (Zpos q)) (ival lb * ival (product l) + ival rb * ival (product r)) 1
   <-> pv lb * pv (product l) + pv rb * pv (product r) = 1 by rewrite eqmodP redD !redM red1 !pv_il.
rewrite lead_unitP; split=> -[[/IHl h1 /IHr h2] [/normalP h3 /normalP h4 /normalP h5] /e1 h6 /e2 h7 h8] //.
Qed.
End Bridge.
Lemma pos_nat (p : positive) : Zpos p = Z.of_nat (Pos.to_nat p).
Proof. by rewrite positive_nat_Z. Qed.
Lemma pos_gt1 (p : positive) : (1 < p)%positive -> (1 < Pos.to_nat p)%N.
Proof. by move=> h; apply/ssrnat.ltP; lia. Qed.
Lemma prod_red n (l : seq {poly int}) : red n (\prod_(f <- l) f) = \prod_(f <- l) red n f.
Proof. exact: rmorph_prod. Qed.

Lemma agree_of_map (m p q : positive) (n : nat) (mE : Zpos m = Z.of_nat n) (n1 : (1 < n)%N)
    (l : seq (mpoly p)) (l' : seq (mpoly q)) :
  map (set_modulus m) l' = map (set_modulus m) l -> agree_mod (Zpos m) l l'.
Proof.
move=> E; have S : size l' = size l by have := congr1 size E; rewrite !size_map.
split=> // i h; rewrite (nth_map (poly_zero (mc q))) ?S // (nth_map (poly_zero (mc p))) //.
rewrite (eqmodP mE n1).
have := congr1 (fun l => nth (poly_zero (mc m)) l i) E.
rewrite (nth_map (poly_zero (mc q))) ?S // (nth_map (poly_zero (mc p))) // => /(congr1 (pval (gS mE n1))).
by rewrite !(to_mod_spec mE n1 _).2.
Qed.

Lemma hensel_step_ok (p : positive) (t : ftree p) (F : mpoly (p * p)) :
  (1 < p)%positive -> consistent t -> normal F -> poly_eqmod (zi (Zpos p)) (ival F) (ival (product t)) ->
  exists t', [/\ hensel_lift_step t F = Ret t', consistent t', product t' = F,
    agree_mod (Zpos p) (leaves t) (leaves t')
    & poly_eqmod (zi (Zpos (p * p))) (ival F) (\prod_(f <- map (@ival _) (leaves t')) f)].
Proof.
move=> p1; have pE := pos_nat p; have n1 := pos_gt1 p1; set n := Pos.to_nat p in pE n1.
have qE : Zpos (p * p) = Z.of_nat (n * n) by rewrite Pos2Z.inj_mul pE Nat2Z.inj_mul.
have nn1 : (1 < n * n)%N by rewrite (ltn_trans n1) // -{1}[n]muln1 ltn_mul2l n1 ltnW.
move=> /(consistentP pE n1) ok /(normalP qE nn1) wF /(eqmodP pE n1) E.
have [|t' [E1 ok' E2 E3 _]] := lift_step_spec (nn1 := nn1) ok wF.
  apply: (wf_inj (S := gS pE n1)); [exact: (set_down pE n1 F).1|exact: tree_wf ok|].
  by rewrite (set_down pE n1 F).2 pv_il.
exists t'; split=> //; first exact/(consistentP qE nn1).
  by apply: (agree_of_map pE n1); rewrite E3 (leaves_wf ok).
rewrite (eqmodP qE nn1) prod_red -[red _ (ival F)](pv_il qE nn1) -E2 (tree_prod ok') big_map.
by apply: eq_bigr => f _; rewrite pv_il.
Qed.

(** The integer polynomial. *)
Lemma coefs_int (self : zpoly) : pval int_sem self = Poly (map zi (coefficients self)).
Proof. by []. Qed.
Lemma hensel_loop_ok (p : positive) (t : ftree p) (self : zpoly) (needed : bool * Z) (fuel : nat) :
  (1 < p)%positive -> consistent t ->
  poly_eqmod (zi (Zpos p)) (pval int_sem self) (ival (product t)) ->
  match hensel_loop fuel self needed t with
  | Ret (existT m t') =>
      [/\ consistent t', agree_mod (Zpos p) (leaves t) (leaves t'), Z.divide (Zpos p) (Zpos m),
          (if needed.1 then needed.2 <= Zpos m else needed.2 < Zpos m)%ZZ
        & poly_eqmod (zi (Zpos m)) (pval int_sem self) (\prod_(f <- map (@ival _) (leaves t')) f)]
  | Panic => False
  | NoFuel => (Z.of_nat fuel + Zpos p <= needed.2)%ZZ
  end.
Proof.
move=> p1; have pE := pos_nat p; have n1 := pos_gt1 p1; set n := Pos.to_nat p in pE n1.
move=> /(consistentP pE n1) ok /(eqmodP pE n1) E.
have E1 : product t = to_mod p (coefficients self).
  have [w e] := to_mod_spec pE n1 (coefficients self).
  by apply: (wf_inj (S := gS pE n1)) => //; [exact: tree_wf ok|rewrite e pv_il -E coefs_int].
case: (hensel_loop_spec needed fuel ok E1) => [[[m t'] -> [k [kE [k1 [h1 h2 h3 h4 h5]]]]]|[-> h]] //.
rewrite /= in kE h1 h2 h4 h5; split=> //.
- exact/(consistentP kE k1).
- by apply: (agree_of_map pE n1); rewrite h4 (leaves_wf ok).
- by move/dvdnP: h3 => [c Ec]; exists (Z.of_nat c); rewrite kE pE Ec Nat2Z.inj_mul.
- move: h5; rewrite /modulus_below; case: needed.1.
    by move/Z.ltb_ge.
  by move/Z.leb_gt.
rewrite (eqmodP kE k1) prod_red coefs_int -(to_mod_spec kE k1 _).2 -h2 (tree_prod h1) big_map.
by apply: eq_bigr => f _; rewrite pv_il.
Qed.
