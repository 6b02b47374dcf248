(** Proofs about M_Poly.v: normal forms, ring operations, evaluation,
    derivative and division. *)
From Coq Require Import ZArith NArith Nnat.
Set Warnings "-notation-overridden,-ambiguous-paths".
From mathcomp Require Import all_ssreflect ssralg poly.
From Verif Require Import M_Base M_Poly S_Poly.
Set Implicit Arguments.
Unset Strict Implicit.
Unset Printing Implicit Defensive.
Import GRing.Theory.
Local Open Scope ring_scope.

(** * Lists *)

Lemma strip_rcons A isz (l : seq A) x :
  strip isz (rcons l x) = if isz x then strip isz l else rcons l x.
Proof. by rewrite /strip rev_rcons /=; case: ifP => // _; rewrite rev_cons revK. Qed.

Lemma strip_nil A isz : strip isz [::] = [::] :> seq A.
Proof. by []. Qed.

Lemma last_ok_rcons A isz (l : seq A) x : last_ok isz (rcons l x) = ~~ isz x.
Proof. by rewrite /last_ok rev_rcons. Qed.

Lemma strip_last_ok A isz (l : seq A) : last_ok isz (strip isz l).
Proof.
elim/last_ind: l => [//|l x IH]; rewrite strip_rcons.
by case: ifP => // H; rewrite last_ok_rcons H.
Qed.

Lemma strip_id A isz (l : seq A) : last_ok isz l -> strip isz l = l.
Proof.
case/lastP: l => [//|l x]; rewrite last_ok_rcons strip_rcons.
by move/negbTE => ->.
Qed.

Lemma Poly_rcons0 (R : ringType) (l : seq R) : Poly (rcons l 0) = Poly l.
Proof.
apply/polyP => i; rewrite !coef_Poly nth_rcons.
case: ltngtP => // H; first by rewrite nth_default // ltnW.
by rewrite nth_default ?H.
Qed.

Lemma Poly_strip A (R : ringType) (f : A -> R) isz (l : seq A) :
  (forall x, isz x = (f x == 0)) -> Poly (map f (strip isz l)) = Poly (map f l).
Proof.
move=> H; elim/last_ind: l => [//|l x IH]; rewrite strip_rcons.
case: ifP => // /idP; rewrite H => /eqP E.
by rewrite map_rcons E Poly_rcons0.
Qed.

Lemma last_ok_map A B (isz : A -> bool) (isz' : B -> bool) (f : A -> B) l :
  (forall x, isz x = isz' (f x)) -> last_ok isz l = last_ok isz' (map f l).
Proof.
move=> H; case/lastP: l => [//|l x].
by rewrite map_rcons !last_ok_rcons H.
Qed.

Lemma PolyK_ok (R : ringType) (l : seq R) :
  last_ok (fun x => x == 0) l -> Poly l = l :> seq R.
Proof.
case/lastP: l => [_|l x]; first by rewrite polyseq0.
by rewrite last_ok_rcons => H; rewrite (@PolyK _ 0) // last_rcons.
Qed.

Section Sem.
Variables (K : pcoef) (R : comUnitRingType) (S : coef_sem K R).
Notation ve := (ve S).
Notation vd := (vd S).
Notation vc := (vc S).
Notation pval := (pval S).
Notation wf := (wf S).
Notation poly := (poly K).
Implicit Types (p q m : poly) (c : cf K).

Definition vlist (es : seq (elt K)) (d : dvr K) : seq R := [seq ve e / vd d | e <- es].

Lemma vd_unit' d : vd d \is a GRing.unit.  Proof. exact: vd_unit. Qed.
Local Hint Resolve vd_unit' : core.

Lemma vcoefs (p : poly) : map vc (coefficients p) = vlist (els p) (dv p).
Proof. by rewrite /coefficients -map_comp; apply: eq_map => e /=; rewrite vc_make. Qed.

Lemma pvalE (p : poly) : pval p = Poly (vlist (els p) (dv p)).
Proof. by rewrite /pval vcoefs. Qed.

Lemma ediv0 e d : (ve e / vd d == 0) = e_is_zero e.
Proof.
rewrite (ve_is_zero S); apply/eqP/eqP => [H|->]; last by rewrite mul0r.
by rewrite -(mulrVK (vd_unit S d) (ve e)) H mul0r.
Qed.

Lemma coef_pval (p : poly) i : (pval p)`_i = ve (nth (e_zero K) (els p) i) / vd (dv p).
Proof.
rewrite pvalE coef_Poly /vlist.
case: (ltnP i (size (els p))) => H.
  by rewrite (nth_map (e_zero K)).
by rewrite !nth_default ?size_map // ve0 mul0r.
Qed.

Lemma pval_scale (es : seq (elt K)) d :
  pval (MkPoly es d) = (vd d)^-1 *: Poly (map ve es).
Proof.
apply/polyP => i; rewrite coef_pval coefZ coef_Poly /= mulrC; congr (_ * _).
case: (ltnP i (size es)) => H; first by rewrite (nth_map (e_zero K)).
by rewrite !nth_default ?size_map // ve0.
Qed.

Lemma pval_scale' (es : seq (elt K)) d :
  vd d *: pval (MkPoly es d) = Poly (map ve es).
Proof. by rewrite pval_scale scalerA mulrV // scale1r. Qed.

Lemma wf_last p : wf p -> last_ok (fun x => x == 0) (vlist (els p) (dv p)).
Proof.
case=> H _; rewrite -(@last_ok_map _ _ (@e_is_zero K)); first exact: H.
by move=> x; rewrite ediv0.
Qed.

Lemma pval_seq p : wf p -> pval p = vlist (els p) (dv p) :> seq R.
Proof. by move=> H; rewrite pvalE PolyK_ok // wf_last. Qed.

Lemma size_pval p : wf p -> size (pval p) = size (els p).
Proof. by move=> H; rewrite pval_seq // size_map. Qed.

Lemma size_pval_le p : (size (pval p) <= size (els p))%N.
Proof. by rewrite pvalE (leq_trans (size_Poly _)) // size_map. Qed.

(** Canonical representation: equal values, equal representations. *)
Lemma wf_inj p q : wf p -> wf q -> pval p = pval q -> p = q.
Proof.
move=> Hp Hq E.
have : vlist (els p) (dv p) = vlist (els q) (dv q) by rewrite -!pval_seq // E.
case: Hp Hq => _ Hp [_ Hq] /(red_uniq Hp Hq) [].
by case: p {E Hp} => a b; case: q {Hq} => c d /= -> ->.
Qed.

Lemma normalize_spec p : wf (normalize p) /\ pval (normalize p) = pval p.
Proof.
rewrite /normalize; case E: (reduce_divisor _ _) => [es d].
set l := strip _ _ in E.
have V := red_val S l (dv p); have D := red_red S l (dv p).
rewrite E /= in V D.
split; last first.
  rewrite !pvalE /= /vlist V /l; apply: Poly_strip => x; by rewrite ediv0.
split=> //=; change (last_ok (@e_is_zero K) es).
rewrite (@last_ok_map _ _ _ (fun x => x == 0) (fun e => ve e / vd d)); last first.
  by move=> x; rewrite ediv0.
rewrite V -(@last_ok_map _ _ (@e_is_zero K)); last by move=> x; rewrite ediv0.
exact: strip_last_ok.
Qed.

Lemma wf_normalize p : wf (normalize p).  Proof. by case: (normalize_spec p). Qed.
Lemma pval_normalize p : pval (normalize p) = pval p.
Proof. by case: (normalize_spec p). Qed.
Local Hint Resolve wf_normalize : core.

Lemma from_coefs_spec cs : wf (from_coefs cs) /\ pval (from_coefs cs) = Poly (map vc cs).
Proof.
rewrite /from_coefs; case E: (coefs_to_elts _) => [es d].
set l := strip _ _ in E.
have V := vc_to_elts S l; have D := vc_to_elts_red S l.
rewrite E /= in V D.
split; last first.
  rewrite !pvalE /= /vlist V /l; apply: Poly_strip => x; exact: vc_is_zero.
split=> //=; change (last_ok (@e_is_zero K) es).
rewrite (@last_ok_map _ _ _ (fun x => x == 0) (fun e => ve e / vd d)); last first.
  by move=> x; rewrite ediv0.
rewrite V -(@last_ok_map _ _ (@c_is_zero K)); last by move=> x; rewrite (vc_is_zero S).
exact: strip_last_ok.
Qed.
Lemma wf_from_coefs cs : wf (from_coefs cs).  Proof. by case: (from_coefs_spec cs). Qed.
Lemma pval_from_coefs cs : pval (from_coefs cs) = Poly (map vc cs).
Proof. by case: (from_coefs_spec cs). Qed.
Local Hint Resolve wf_from_coefs : core.

Lemma from_coefs_coefficients p : wf p -> from_coefs (coefficients p) = p.
Proof. by move=> H; apply: wf_inj => //; rewrite pval_from_coefs. Qed.

Lemma pval_surj (P : {poly R}) : exists2 p, wf p & pval p = P.
Proof.
have [cs E] : exists cs, map vc cs = P :> seq R.
  elim: (P : seq R) => [|x l [cs IH]]; first by exists [::].
  by case: (vc_surj S x) => c Ec; exists (c :: cs); rewrite /= Ec IH.
by exists (from_coefs cs) => //; rewrite pval_from_coefs E polyseqK.
Qed.

Lemma wf_zero : wf (poly_zero K).
Proof. by split=> //; exact: red_nil. Qed.
Lemma pval_zero : pval (poly_zero K) = 0.
Proof. by rewrite pvalE. Qed.
Local Hint Resolve wf_zero : core.

Lemma is_zeroP p : wf p -> poly_is_zero p = (pval p == 0).
Proof. by move=> H; rewrite -size_poly_eq0 size_pval. Qed.

Lemma wf_one : (1 : R) != 0 -> wf (poly_one K).
Proof.
by move=> N; split; [rewrite /last_ok /= (ve_is_zero S) ve1 | exact: red_one].
Qed.
Lemma pval_one : pval (poly_one K) = 1.
Proof. by rewrite pvalE /vlist /= ve1 vd1 divr1 cons_poly_def mul0r add0r. Qed.

Lemma is_oneP p : wf p -> poly_is_one p = (pval p == 1).
Proof.
move=> H; apply/idP/eqP.
  rewrite /poly_is_one pvalE; case: p {H} => [[|e [|? ?]] d] //=.
  rewrite (ve_is_one S) (vd_is_one S) => /andP [/eqP -> /eqP ->].
  by rewrite divr1 cons_poly_def mul0r add0r.
move=> E.
have -> : p = poly_one K.
  by apply: wf_inj => //; [apply: wf_one; exact: oner_neq0 | rewrite pval_one].
by rewrite /poly_is_one /= (ve_is_one S) (vd_is_one S) ve1 vd1 !eqxx.
Qed.

Lemma from_coef_spec c : wf (from_coef c) /\ pval (from_coef c) = (vc c)%:P.
Proof.
rewrite /from_coef; have V := vc_to_elt S c; have D := vc_to_elt_red S c.
case: (coef_to_elt c) V D => e d /= V D.
case: ifP => H.
  split=> //; rewrite pval_zero V.
  by move: H; rewrite (ve_is_zero S) => /eqP ->; rewrite mul0r.
split; first by split; rewrite // /last_ok /= H.
by rewrite pvalE /= cons_poly_def mul0r add0r V.
Qed.

Lemma from_parts_spec es d :
  wf (from_parts es d) /\ pval (from_parts es d) = (vd d)^-1 *: Poly (map ve es).
Proof. by rewrite /from_parts; split=> //; rewrite pval_normalize pval_scale. Qed.

Lemma from_iterator_spec cs : wf (from_iterator cs) /\ pval (from_iterator cs) = Poly (map vc cs).
Proof.
rewrite /from_iterator; have V := vc_to_elts S cs.
case: (coefs_to_elts cs) V => es d /= V.
by rewrite /from_parts; split=> //; rewrite pval_normalize pvalE /= /vlist V.
Qed.

Lemma make_monomial_spec c n :
  wf (make_monomial c n) /\ pval (make_monomial c n) = vc c *: 'X^n.
Proof.
rewrite /make_monomial (vc_is_zero S).
case: eqP => [->|/eqP H].
  by split=> //; rewrite pval_zero scale0r.
have V := vc_to_elt S c; have D := vc_to_elt_red S c.
case: (coef_to_elt c) V D => e d /= V D.
have Ne : ~~ e_is_zero e by rewrite -(ediv0 e d) -V.
split.
  by split; [rewrite /= cats1 last_ok_rcons | apply: red_pad].
apply/polyP => i; rewrite coef_pval /= coefZ coefXn V nth_cat size_nseq nth_nseq.
case: ltngtP => Hi; rewrite ?mulr1 ?mulr0 ?ve0 ?mul0r //.
  by rewrite nth_default ?ve0 ?mul0r //= subn_gt0.
by rewrite Hi subnn.
Qed.

(** * Coefficient access *)
Lemma coefficient_spec p i : vc (coefficient p i) = (pval p)`_i.
Proof.
rewrite /coefficient /nonzero_coefficient coef_pval.
case: (ltnP i (size (els p))) => H; last first.
  by rewrite drop_oversize // vc0 nth_default // ve0 mul0r.
by rewrite (drop_nth (e_zero K)) //= vc_make.
Qed.

Lemma nonzero_coefficient_spec p i :
  nonzero_coefficient p i = if (i < size (els p))%N then Some (coefficient p i) else None.
Proof.
rewrite /coefficient /nonzero_coefficient.
case: (ltnP i (size (els p))) => H; last by rewrite drop_oversize.
by rewrite (drop_nth (e_zero K)).
Qed.

Lemma degree_spec p : wf p ->
  degree p = if pval p == 0 then None else Some (size (pval p)).-1.
Proof.
move=> H; rewrite -size_poly_eq0 size_pval // /degree.
by case: (size _).
Qed.

Lemma lead_spec p : wf p ->
  nonzero_lead p = (if pval p == 0 then None else Some (lead p)) /\
  vc (lead p) = lead_coef (pval p).
Proof.
move=> H; rewrite /lead /nonzero_lead degree_spec //.
case: eqP => [->|/eqP N]; first by rewrite vc0 lead_coef0.
rewrite nonzero_coefficient_spec -size_pval //.
have P : (0 < size (pval p))%N by rewrite size_poly_gt0.
by rewrite prednK // leqnn coefficient_spec lead_coefE.
Qed.

(** * Negation, addition, subtraction *)
Lemma neg_spec p : wf (poly_neg p) /\ pval (poly_neg p) = - pval p.
Proof.
split=> //; first exact: wf_from_coefs.
rewrite /poly_neg pval_from_coefs -map_comp.
apply/polyP => i; rewrite coefN /pval !coef_Poly.
case: (ltnP i (size (coefficients p))) => H.
  by rewrite !(nth_map (c_zero K)) //= vcN.
by rewrite size_map in H; rewrite !nth_default ?size_map // oppr0.
Qed.

Lemma negate_spec p : wf p -> wf (negate p) /\ pval (negate p) = - pval p.
Proof.
move=> [L D]; split; last first.
  rewrite !pvalE /vlist /= -map_comp.
  apply/polyP => i; rewrite coefN !coef_Poly.
  case: (ltnP i (size (els p))) => H.
    by rewrite !(nth_map (e_zero K)) //= veN mulNr.
  by rewrite !nth_default ?size_map // oppr0.
split; last exact: red_neg.
move: L; rewrite /last_ok /= -map_rev; case: (rev (els p)) => //= e _.
by rewrite !(ve_is_zero S) veN oppr_eq0.
Qed.

Lemma frac_simp (x a c : R) : a \is a GRing.unit -> c \is a GRing.unit ->
  x * a / (a * c) = x / c.
Proof. by move=> Ha Hc; rewrite invrM // (mulrC c^-1) mulrA mulrK. Qed.

Section AddSub.
Variables (op : elt K -> elt K -> elt K) (s : R).
Hypothesis opE : forall x y, ve (op x y) = ve x + s * ve y.

Lemma add_sub_loop_nth lm rm l r i : (size r <= size l)%N ->
  ve (nth (e_zero K) (add_sub_loop op lm rm l r) i)
  = ve (nth (e_zero K) l i) * ve lm + s * (ve (nth (e_zero K) r i) * ve rm).
Proof.
elim: l r i => [|x l IH] [|y r] i //= H.
- by rewrite !nth_nil !ve0 !mul0r mulr0 addr0.
- case: i => [|i] /=; first by rewrite veM ve0 mul0r mulr0 addr0.
  by rewrite (IH [::]) ?nth_nil // ve0.
- case: i => [|i] /=; first by rewrite opE !veM.
  exact: IH.
Qed.

Lemma add_sub_spec p q : wf p ->
  wf (add_sub_assign op p q) /\
  pval (add_sub_assign op p q) = pval p + s *: pval q.
Proof.
move=> Hp; rewrite /add_sub_assign; case: ifP => [/andP [Np Nq]|_].
  split=> //; rewrite [pval q](_ : _ = 0) ?scaler0 ?addr0 //.
  by apply/eqP; rewrite -size_poly_leq0 (leq_trans (size_pval_le q)) // (eqP Nq).
split=> //; rewrite pval_normalize.
apply/polyP => i; rewrite coefD coefZ !coef_pval /=.
rewrite add_sub_loop_nth; last first.
  by rewrite size_cat size_nseq -maxnE leq_maxr.
rewrite !ve_dvr nth_cat nth_nseq.
have -> : ve (if (i < size (els p))%N then nth (e_zero K) (els p) i
   else if (i - size (els p) < size (els q) - size (els p))%N then e_zero K else e_zero K)
   = ve (nth (e_zero K) (els p) i).
  by case: ltnP => // H; rewrite if_same nth_default.
set x := ve (nth _ (els p) i); set y := ve (nth _ (els q) i).
set g := d_gcd _ _; set a := vd (d_exact_div _ g); set b := vd (d_exact_div _ g).
have Ea : vd (dv q) = a * vd g by rewrite vd_gcdr.
have Eb : vd (dv p) = b * vd g by rewrite vd_gcdl.
have El : vd (d_lcm (dv p) (dv q)) = a * b * vd g.
  apply: (mulIr (vd_unit S g)); rewrite vd_lcm -/g Ea Eb.
  by rewrite mulrA (mulrAC b) (mulrC b).
have Ua : a \is a GRing.unit by apply: vd_unit.
have Ub : b \is a GRing.unit by apply: vd_unit.
have Ug : vd g \is a GRing.unit by [].
rewrite El Ea Eb mulrDl; congr (_ + _).
  by rewrite -(mulrA a) frac_simp // unitrM Ub.
by rewrite (mulrC a) -(mulrA b) -mulrA (frac_simp y) // unitrM Ua.
Qed.
End AddSub.

Lemma add_spec p q : wf p -> wf (poly_add p q) /\ pval (poly_add p q) = pval p + pval q.
Proof.
move=> Hp; rewrite -[pval q]scale1r; apply: add_sub_spec => // x y.
by rewrite veD mul1r.
Qed.
Lemma sub_spec p q : wf p -> wf (poly_sub p q) /\ pval (poly_sub p q) = pval p - pval q.
Proof.
move=> Hp; rewrite -[- pval q]scaleN1r; apply: add_sub_spec => // x y.
by rewrite veB mulN1r.
Qed.


(** Adding a single coefficient, for coefficient types without divisor. *)
Section Single.
Variables (op : elt K -> elt K -> elt K) (s : R).
Hypothesis opE : forall x y, ve (op x y) = ve x + s * ve y.
Hypothesis vdE : forall d, vd d = 1.

Lemma add_sub_single_spec p c :
  wf (add_sub_assign_single op p c) /\
  pval (add_sub_assign_single op p c) = pval p + (s * vc c)%:P.
Proof.
rewrite /add_sub_assign_single; have V := vc_to_elt S c.
case: (coef_to_elt c) V => rn rd /= V.
set g := d_gcd _ _; set a := d_to_elt _; set b := d_to_elt _.
have Ea : ve a = 1 by rewrite ve_dvr vdE.
have Eb : ve b = 1 by rewrite ve_dvr vdE.
have Vl : vc c = ve rn by rewrite V vdE divr1.
case Ep : (els p) => [|x l] /=; split=> //; rewrite pval_normalize;
  apply/polyP => i; rewrite coefD coefC !coef_pval Ep /= !vdE !divr1.
  case: i => [|i] /=; last by rewrite !nth_nil ve0 addr0.
  by rewrite opE !veM Ea Eb ve0 mul0r !mulr1 Vl.
case: i => [|i] /=; last by rewrite addr0.
by rewrite opE !veM Ea Eb !mulr1 Vl.
Qed.
End Single.

Lemma add_single_spec p c : (forall d, vd d = 1) ->
  wf (poly_add_single p c) /\ pval (poly_add_single p c) = pval p + (vc c)%:P.
Proof.
move=> E; rewrite -[vc c]mul1r; apply: add_sub_single_spec => // x y.
by rewrite veD mul1r.
Qed.
Lemma sub_single_spec p c : (forall d, vd d = 1) ->
  wf (poly_sub_single p c) /\ pval (poly_sub_single p c) = pval p - (vc c)%:P.
Proof.
move=> E; rewrite -polyCN -[- vc c]mulN1r; apply: add_sub_single_spec => // x y.
by rewrite veB mulN1r.
Qed.

(** * Multiplication *)

Lemma coef_Pve (l : seq (elt K)) i : (Poly (map ve l))`_i = ve (nth (e_zero K) l i).
Proof.
rewrite coef_Poly; case: (ltnP i (size l)) => H; first by rewrite (nth_map (e_zero K)).
by rewrite !nth_default ?size_map // ve0.
Qed.

Lemma mul_step_spec acc i v : (i <= size acc)%N ->
  Poly (map ve (mul_step acc i v)) = Poly (map ve acc) + ve v *: 'X^i /\
  size (mul_step acc i v) = maxn (size acc) i.+1.
Proof.
rewrite leq_eqVlt /mul_step; case: eqP => [E _|/eqP N] /=.
  split; last by rewrite size_rcons E; apply/esym/maxn_idPr.
  apply/polyP => j; rewrite coefD coefZ coefXn !coef_Pve nth_rcons -E.
  case: (ltngtP j i) => H; rewrite ?mulr0 ?mulr1 ?addr0 //.
    by rewrite nth_default ?E 1?ltnW // -E.
  by rewrite H nth_default ?E // ve0 add0r.
move=> L; split; last by rewrite size_set_nth maxnC.
apply/polyP => j; rewrite coefD coefZ coefXn !coef_Pve nth_set_nth /=.
by case: eqP => [->|_]; rewrite ?mulr0 ?mulr1 ?addr0 // veD.
Qed.

Lemma mul_inner_spec x r acc i : (i <= size acc)%N ->
  Poly (map ve (mul_inner acc i x r)) =
    Poly (map ve acc) + ve x *: 'X^i * Poly (map ve r) /\
  size (mul_inner acc i x r) = maxn (size acc) (i + size r).
Proof.
elim: r acc i => [|y r IH] acc i H /=.
  by rewrite mulr0 addr0 addn0; split=> //; apply/esym/maxn_idPl.
have [E1 E2] := mul_step_spec (e_mul x y) H.
have [] := IH (mul_step acc i (e_mul x y)) i.+1 _.
  by rewrite E2 leq_maxr.
move=> -> ->; rewrite E1 E2; split.
  rewrite cons_poly_def -addrA; congr (_ + _).
  rewrite addrC mulrDr exprS veM; congr (_ + _).
    by rewrite mulrA -!scalerAl; congr (_ *: _); rewrite [RHS]mulrC mulrA.
  by rewrite -[RHS]mulrC mul_polyC scalerA mulrC.
by rewrite addSn addnS -maxnA (maxn_idPr (_ : i.+1 <= (i + size r).+1)%N) // ltnS leq_addr.
Qed.

Lemma mul_outer_spec l r acc i : (i <= size acc)%N -> ~~ nilp r ->
  Poly (map ve (mul_outer acc i l r)) =
    Poly (map ve acc) + 'X^i * Poly (map ve l) * Poly (map ve r).
Proof.
move=> H Nr; have {Nr} Pr : (0 < size r)%N by rewrite lt0n.
elim: l acc i H => [|x l IH] acc i H /=; first by rewrite mulr0 mul0r addr0.
have [E1 E2] := mul_inner_spec x r H.
rewrite IH; last by rewrite E2 leq_max -(addn1 i) leq_add2l Pr orbT.
rewrite E1 cons_poly_def -addrA; congr (_ + _).
rewrite mulrDr mulrDl addrC exprS; congr (_ + _).
  by congr (_ * _); rewrite [RHS]mulrA [RHS]mulrC mulrA.
by rewrite -!scalerAl [_ * (ve x)%:P]mulrC mul_polyC -scalerAl.
Qed.

Lemma mul_spec p q : wf (poly_mul p q) /\ pval (poly_mul p q) = pval p * pval q.
Proof.
rewrite /poly_mul; case: ifP => H.
  split=> //; rewrite pval_zero; case/orP: H => H.
    by rewrite [pval p]pvalE (size0nil (eqP H)) /= mul0r.
  by rewrite [pval q]pvalE (size0nil (eqP H)) /= mulr0.
move/negbT: H; rewrite negb_or => /andP [Hp Hq].
split=> //; rewrite pval_normalize pval_scale mul_outer_spec //= add0r expr0 mul1r.
case: p q Hp Hq => [a d] [b e] /= _ _.
by rewrite !pval_scale vdM -scalerAl -scalerAr scalerA invrM // mulrC.
Qed.

Lemma mul_single_spec p c :
  wf (poly_mul_single p c) /\ pval (poly_mul_single p c) = vc c *: pval p.
Proof.
rewrite /poly_mul_single; have V := vc_to_elt S c.
case: (coef_to_elt c) V => rn rd /= V.
split=> //; rewrite pval_normalize; apply/polyP => i.
rewrite coefZ !coef_pval /= vdM V.
have -> : ve (nth (e_zero K) [seq e_mul e rn | e <- els p] i)
          = ve rn * ve (nth (e_zero K) (els p) i).
  case: (ltnP i (size (els p))) => H; first by rewrite (nth_map (e_zero K)) // veM mulrC.
  by rewrite !nth_default ?size_map // ve0 mulr0.
by rewrite invrM // [_^-1 * _^-1]mulrC !mulrA; congr (_ / _); rewrite mulrAC.
Qed.

(** * Powers *)
Section Pow.
Variables (A : Type) (T : comRingType) (v : A -> T) (P : A -> Prop) (mul : A -> A -> A).
Hypothesis mulE : forall a b, P a -> P b -> P (mul a b) /\ v (mul a b) = v a * v b.

Lemma pow_pos_loop_spec e : forall retval base,
  (match retval with None => True | Some r => P r end) -> P base ->
  P (pow_pos_loop mul retval base e) /\
  v (pow_pos_loop mul retval base e)
  = (match retval with None => 1 | Some r => v r end) * v base ^+ Pos.to_nat e.
Proof.
have acc retval base :
  (match retval with None => True | Some r => P r end) -> P base ->
  P (pow_acc mul retval base) /\
  v (pow_acc mul retval base) = (match retval with None => 1 | Some r => v r end) * v base.
  by case: retval => [r|] Hr Hb /=; [apply: mulE | split=> //; rewrite mul1r].
elim: e => [e IH|e IH|] retval base Hr Hb /=.
- have [P1 E1] := acc retval base Hr Hb; have [P2 E2] := mulE Hb Hb.
  have [P3 ->] := IH (Some (pow_acc mul retval base)) (mul base base) P1 P2.
  split=> //; rewrite E1 E2 Pos2Nat.inj_xI multE mul2n -addnn exprS exprD.
  by rewrite -!mulrA; congr (_ * (_ * _)); rewrite -expr2 exprAC expr2.
- have [P2 E2] := mulE Hb Hb; have [P3 ->] := IH retval (mul base base) Hr P2.
  split=> //; rewrite E2 Pos2Nat.inj_xO multE mul2n -addnn exprD.
  by congr (_ * _); rewrite -expr2 exprAC expr2.
- exact: acc.
Qed.

Lemma pow_usize_spec one base n : P one -> v one = 1 -> P base ->
  P (pow_usize one mul base n) /\ v (pow_usize one mul base n) = v base ^+ n.
Proof.
move=> H1 E1 Hb; rewrite /pow_usize.
case En : (N.of_nat n) => [|e].
  have -> : n = 0%N by case: n En.
  by rewrite E1 expr0.
have -> : n = Pos.to_nat e by rewrite -(Nat2N.id n) En.
by have [? ->] := @pow_pos_loop_spec e None base I Hb; rewrite mul1r.
Qed.
End Pow.

Lemma checked_pow_spec p (e : Z) : wf p ->
  (((e < 0)%Z \/ (e = 0%Z /\ pval p = 0)) -> poly_checked_pow p e = None) /\
  ((0 <= e)%Z -> ~ (e = 0%Z /\ pval p = 0) ->
   exists r, poly_checked_pow p e = Some r /\ wf r /\ pval r = pval p ^+ Z.to_nat e).
Proof.
move=> Hp; case: e => [|e|e] /=.
- rewrite /poly_checked_pow /to_one_if_nonzero.
  have Z := is_zeroP Hp; rewrite /poly_is_zero in Z.
  case Ep : (els p) Z => [|x l] //= /esym Z; split=> //.
  + by move=> _ H; case: H; split=> //; apply/eqP.
  + by case=> // -[_ H]; rewrite H eqxx in Z.
  have N1 : (1 : R) != 0 by exact: oner_neq0.
  by exists (poly_one K); rewrite pval_one expr0; split=> //; split=> //; apply: wf_one.
- split; first by case=> [|[]].
  move=> _ _; rewrite /poly_checked_pow.
  have [W E] := @pow_pos_loop_spec poly _ pval wf (@poly_mul K) (fun a b _ _ => mul_spec a b) e None p I Hp.
  rewrite mul1r in E.
  by case: e W E => [e|e|] W E; eexists; split; [reflexivity| |reflexivity| |reflexivity|].
- by split=> // H; exfalso; apply: H.
Qed.

(** * Derivative and evaluation *)
Lemma derivative_loop_nth i j l :
  ve (nth (e_zero K) (derivative_loop i l) j) = ve (nth (e_zero K) l j) *+ (i + j).+1.
Proof.
elim: l i j => [|x l IH] i j; first by rewrite !nth_nil ve0 mul0rn.
case: j => [|j] /=; first by rewrite veMn addn0.
by rewrite IH addSnnS.
Qed.

Lemma derivative_spec p : wf p -> wf (derivative p) /\ pval (derivative p) = (pval p)^`().
Proof.
rewrite /derivative; case Ep : (els p) => [|x l] Hp.
  split=> //; suff -> : pval p = 0 by rewrite deriv0.
  by rewrite pvalE Ep.
split=> //; rewrite pval_normalize; apply/polyP => i.
rewrite coef_deriv !coef_pval /= Ep /= derivative_loop_nth add0n.
by rewrite mulrnAl.
Qed.

Lemma eval_generic_spec (T : comRingType) V (vv : V -> T) (f : {rmorphism R -> T}) vmul vadd
    p (at_ zero : V) :
  (forall a b, vv (vmul a b) = vv a * vv b) ->
  (forall a c, vv (vadd a c) = vv a + f (vc c)) -> vv zero = 0 ->
  vv (eval_generic vmul vadd p at_ zero) = (map_poly f (pval p)).[vv at_].
Proof.
move=> HM HA H0; rewrite /eval_generic foldl_rev /pval.
elim: (coefficients p) => [|c cs IH] /=; first by rewrite rmorph0 horner0.
rewrite HA HM IH cons_poly_def rmorphD rmorphM /= map_polyC map_polyX.
by rewrite hornerD hornerM hornerX hornerC.
Qed.

Lemma eval_spec p x : vc (eval p x) = (pval p).[vc x].
Proof.
have := @eval_generic_spec R (cf K) vc [rmorphism of idfun] (@c_mul K) (@c_add K) p x (c_zero K).
rewrite map_poly_id // => -> //; [exact: vcM|exact: vcD|exact: vc0].
Qed.

End Sem.
