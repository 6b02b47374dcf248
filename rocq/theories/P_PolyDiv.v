(** Proofs about M_Poly.v: pseudo-division, exact division, division with
    remainder, modular powers. *)
From Coq Require Import ZArith Ring.
Set Warnings "-notation-overridden,-ambiguous-paths".
From mathcomp Require Import all_ssreflect ssralg poly polydiv.
From Verif Require Import P_RingTac M_Base M_Poly S_Poly P_Poly.
Set Implicit Arguments.
Unset Strict Implicit.
Unset Printing Implicit Defensive.
Import GRing.Theory.
Local Open Scope ring_scope.

Section Ids.
Variable T : comRingType.
Notation C := (GRing.Ring.sort T).
Add Ring Tring : (comring_theory T).
Lemma pdr_id (P A B X Y D : C) : P * A * B * X * Y =
  - (P * B * X * D) + (D * B * P * X + A * Y * B * P * X).
Proof. ring. Qed.
End Ids.

Section Pseudo.
Variables (K : pcoef) (R : comUnitRingType) (S : coef_sem K R).
Notation ve := (ve S).
Notation vd := (vd S).
Notation vc := (vc S).
Notation pval := (pval S).
Notation wf := (wf S).
Notation poly := (poly K).
Implicit Types (p q m : poly) (c : cf K) (qc dl : elt K) (rem den qs : seq (elt K)).
Notation z0 := (e_zero K).
Notation Pv l := (Poly (map ve l)).

Lemma nth_map_ve (f : elt K -> elt K) l i : ve (f z0) = 0 ->
  ve (nth z0 (map f l) i) = ve (f (nth z0 l i)).
Proof.
move=> H; case: (ltnP i (size l)) => L; first by rewrite (nth_map z0).
by rewrite !nth_default ?size_map // H ve0.
Qed.

Lemma sub_scaled_nth qc rem den i : (size den <= size rem)%N ->
  ve (nth z0 (sub_scaled qc rem den) i) = ve (nth z0 rem i) - ve qc * ve (nth z0 den i).
Proof.
elim: rem den i => [|x rem IH] [|y den] i //= H; rewrite ?nth_nil ?ve0 ?mulr0 ?subr0 //.
case: i => [|i] /=; first by rewrite veB veM.
exact: IH.
Qed.

Lemma sub_scaled_size qc rem den : size (sub_scaled qc rem den) = size rem.
Proof. by elim: rem den => [|x rem IH] [|y den] //=; rewrite IH. Qed.

Lemma Pv_rcons l x : Pv (rcons l x) = Pv l + ve x *: 'X^(size l).
Proof.
apply/polyP => i; rewrite coefD coefZ coefXn !coef_Pve nth_rcons.
case: (ltngtP i (size l)) => H; rewrite ?mulr0 ?mulr1 ?addr0 //.
  by rewrite nth_default // 1?ltnW.
by rewrite H nth_default // ve0 add0r.
Qed.

Lemma pdr_loop_spec n rem den dl (q : seq (elt K)) :
  size rem = (n + size den)%N ->
  exists qs rem',
    [/\ pdr_loop n rem den dl q = (qs ++ q, rem'), size qs = n, size rem' = size den
      & ve dl ^+ n *: Pv rem =
        (Pv den + ve dl *: 'X^(size den)) *
          (\poly_(j < n) (ve (nth z0 qs j) * ve dl ^+ j)) + Pv rem'].
Proof.
elim: n rem q => [|n IH] rem q Hs /=.
  exists [::], rem; split=> //.
  by rewrite expr0 scale1r [\poly_(j < 0) _](_ : _ = 0) ?mulr0 ?add0r // poly_def big_ord0.
case/lastP: rem Hs => [//|rem qc]; rewrite size_rcons addSn => -[Hs].
rewrite last_rcons -(cats1 rem) take_size_cat // -?Hs //.
set rem1 := [seq e_mul e dl | e <- rem].
set rem2 := _ ++ _.
have S1 : size rem1 = (n + size den)%N by rewrite size_map.
have E2 : Pv rem2 = ve dl *: Pv rem - ve qc *: 'X^n * Pv den.
  apply/polyP => i; rewrite coefB coefZ -scalerAl coefZ coefXnM !coef_Pve /rem2.
  have T : size (take n rem1) = n by rewrite size_takel // S1 leq_addr.
  rewrite nth_cat T.
  have N1 : ve (nth z0 rem1 i) = ve dl * ve (nth z0 rem i).
    by rewrite nth_map_ve ?veM ?ve0 ?mul0r // mulrC.
  case: ltnP => H; first by rewrite nth_take // N1 mulr0 subr0.
  rewrite sub_scaled_nth; last by rewrite size_drop S1 addKn.
  by rewrite nth_drop subnKC // N1.
have S2 : size rem2 = (n + size den)%N.
  by rewrite size_cat sub_scaled_size -size_cat cat_take_drop.
have [qs [rem' [-> Sq Sr E]]] := IH rem2 (qc :: q) S2.
exists (rcons qs qc), rem'; split=> //.
- by rewrite cat_rcons.
- by rewrite size_rcons Sq.
have -> : (\poly_(j < n.+1) (ve (nth z0 (rcons qs qc) j) * ve dl ^+ j)) =
          (\poly_(j < n) (ve (nth z0 qs j) * ve dl ^+ j)) + (ve qc * ve dl ^+ n) *: 'X^n.
  apply/polyP => j; rewrite coefD coefZ coefXn !coef_poly nth_rcons Sq ltnS.
  by case: (ltngtP j n) => H; rewrite ?mulr0 ?mulr1 ?addr0 ?add0r //= H.
rewrite mulrDr -addrA [_ + Pv rem']addrC addrA -E cats1 Pv_rcons E2 Hs.
rewrite exprSr -!mul_polyC !polyCM !rmorphX /= exprD.
set A := (ve dl)%:P; set B := (ve qc)%:P; set X := 'X^n; set Y := 'X^(size den).
rewrite !mulrDr mulrN !mulrDl !mulrA -!addrA; congr (_ + _).
exact: pdr_id.
Qed.

Lemma scale_quotient_spec f dl qs :
  size (scale_quotient f dl qs).1 = size qs /\
  (forall j, ve (nth z0 (scale_quotient f dl qs).1 j) = ve (nth z0 qs j) * (ve f * ve dl ^+ j)) /\
  ve (scale_quotient f dl qs).2 = ve f * ve dl ^+ size qs.
Proof.
elim: qs f => [|x qs IH] f /=.
  by split=> //; split=> [j|]; rewrite ?nth_nil ?ve0 ?mul0r // expr0 mulr1.
case: (scale_quotient _ _ qs) (IH (e_mul f dl)) => r g /= [Sz [Hn Hf]].
split; first by rewrite Sz.
split; last by rewrite Hf veM exprS mulrA.
case=> [|j] /=; first by rewrite veM expr0 mulr1.
by rewrite Hn veM exprS -!mulrA.
Qed.

Lemma element_pdr_spec (num den : seq (elt K)) n :
  (0 < size den)%N -> size num = (n + (size den).-1)%N -> (0 < n)%N ->
  let r := element_pseudo_div_rem num den n in
  [/\ ve r.2 *: Pv num = Pv den * Pv r.1.1 + Pv r.1.2,
      ve r.2 = ve (last z0 den) ^+ n
    & size r.1.2 = (size den).-1].
Proof.
case/lastP: den => [//|den dl] _; rewrite size_rcons /= => Hs Hn.
rewrite /element_pseudo_div_rem size_rcons /= last_rcons.
have -> : take (size den) (rcons den dl) = den by rewrite -cats1 take_size_cat.
have [qs [rem [-> Sq Sr E]]] := @pdr_loop_spec n num den dl [::] Hs.
rewrite cats0; case: qs Sq E => [|q0 qs] /=; first by move=> Sn; rewrite -Sn in Hn.
move=> Sq E; have [Sz [Hq Hf]] := scale_quotient_spec dl dl qs.
case: (scale_quotient dl dl qs) Sz Hq Hf => r f /= Sz Hq Hf.
have Ef : ve f = ve dl ^+ n by rewrite Hf -exprS Sq.
split=> //; rewrite Ef E Pv_rcons; congr (_ * _ + _).
rewrite -[cons_poly _ _]/(Pv (q0 :: r)).
apply/polyP => j; rewrite coef_poly coef_Pve.
case: ltnP => H; last by rewrite nth_default ?ve0 //= Sz Sq.
by case: j H => [|j] H /=; rewrite ?expr0 ?mulr1 // Hq exprS.
Qed.

Lemma scale_inj (u : R) (a b : {poly R}) : u \is a GRing.unit -> u *: a = u *: b -> a = b.
Proof. by move=> U E; rewrite -[a]scale1r -(mulVr U) -scalerA E scalerA mulVr // scale1r. Qed.

Lemma last_nth_size (l : seq (elt K)) : last z0 l = nth z0 l (size l).-1.
Proof. by rewrite nth_last. Qed.

Lemma pval_els p : vd (dv p) *: pval p = Pv (els p).
Proof. by case: p => es d; rewrite pval_scale'. Qed.

Lemma lead_els p : wf p -> ve (last z0 (els p)) = vd (dv p) * lead_coef (pval p).
Proof.
move=> H; rewrite lead_coefE size_pval // coef_pval last_nth_size.
by rewrite mulrCA mulrV ?mulr1 // vd_unit.
Qed.

Lemma pval_smalls (es : seq (elt K)) d : (size (pval (from_parts es d)) <= size es)%N.
Proof.
have [_ ->] := from_parts_spec S es d.
by rewrite (leq_trans (size_scale_leq _ _)) // (leq_trans (size_Poly _)) // size_map.
Qed.

(** Pseudo-division: factor * p = q * quotient + remainder. *)
Definition pd_steps (p q : poly) : nat := ((size (pval p)).+1 - size (pval q))%N.

Lemma pseudo_spec p q : wf p -> wf q ->
  (pval q = 0 -> checked_pseudo_div_rem p q = None) /\
  (pval q != 0 -> exists r, [/\ checked_pseudo_div_rem p q = Some r,
     wf (pd_quo r) /\ wf (pd_rem r),
     vc (pd_fac r) *: pval p = pval q * pval (pd_quo r) + pval (pd_rem r),
     vc (pd_fac r) = lead_coef (pval q) ^+ pd_steps p q
   & (size (pval (pd_rem r)) < size (pval q))%N]).
Proof.
move=> Hp Hq; rewrite /checked_pseudo_div_rem (is_zeroP Hq) /pd_steps.
split=> [->|/negbTE Nq]; first by rewrite eqxx.
have Sq0 : (0 < size (els q))%N by rewrite -(size_pval Hq) size_poly_gt0 Nq.
rewrite Nq !size_pval //; case: ltnP => L.
  eexists; split; [reflexivity|split=> //; exact: wf_zero| | |] => /=.
  - by rewrite vc_make ve1 vd1 divr1 scale1r pval_zero mulr0 add0r.
  - by rewrite vc_make ve1 vd1 divr1 (eqP (_ : _ - _ == 0)%N) ?expr0 // subn_eq0.
  - by rewrite !size_pval.
set n := (_ - _)%N.
have Hn : (0 < n)%N by rewrite subn_gt0 ltnS.
have Hs : size (els p) = (n + (size (els q)).-1)%N.
  by rewrite /n; case: (size (els q)) Sq0 L => // k _ L; rewrite subSS subnK // ltnW.
have [E Ef Sr] := element_pdr_spec Sq0 Hs Hn.
case: (element_pseudo_div_rem _ _ _) E Ef Sr => [[qn rn] fn] /= E Ef Sr.
have [_ Edp] := @pow_usize_spec (dvr K) R vd (fun _ => True) (@d_mul K)
  (fun a b _ _ => conj I (vdM S a b)) (d_one K) (dv q) n.-1 I (vd1 S) I.
set dp1 := pow_usize _ _ _ _ in Edp *.
set dq := vd (dv q) in Edp *; have Uq : dq \is a GRing.unit by apply: vd_unit.
have Up : vd (dv p) \is a GRing.unit by apply: vd_unit.
have Edp' : vd (d_mul dp1 (dv q)) = dq ^+ n by rewrite vdM Edp -/dq -exprSr prednK.
eexists; split; first reflexivity; rewrite /=.
- by split; case: (from_parts_spec S qn (d_mul dp1 (dv p))) (from_parts_spec S rn (d_mul (d_mul dp1 (dv q)) (dv p))) => ? _ [].
- rewrite vc_make Edp'.
  have [_ ->] := from_parts_spec S qn (d_mul dp1 (dv p)).
  have [_ ->] := from_parts_spec S rn (d_mul (d_mul dp1 (dv q)) (dv p)).
  rewrite !vdM Edp -/dq.
  apply: (@scale_inj (dq ^+ n * vd (dv p))); first by rewrite unitrM unitrX.
  rewrite scalerDr !scalerA.
  rewrite -Edp' vdM Edp -/dq.
  have Udn : dq ^+ n.-1 \is a GRing.unit by rewrite unitrX.
  rewrite [X in X *: Pv rn]mulrV ?unitrM ?Udn ?Uq ?Up // scale1r.
  rewrite -scalerAr scalerA.
  have -> : dq ^+ n.-1 * dq * vd (dv p) * (ve fn / (dq ^+ n.-1 * dq)) = ve fn * vd (dv p).
    set u := dq ^+ n.-1 * dq; have Uu : u \is a GRing.unit by rewrite unitrM Udn.
    by rewrite mulrC -[LHS]mulrA mulKr.
  have -> : dq ^+ n.-1 * dq * vd (dv p) / (dq ^+ n.-1 * vd (dv p)) = dq.
    rewrite (mulrC (dq ^+ _)) -(mulrA dq) mulrK //.
    by rewrite unitrM Udn.
  by rewrite -scalerA pval_els E scalerAl pval_els.
- by rewrite vc_make Edp' Ef lead_els // exprMn -/dq mulrAC mulrV ?mul1r // unitrX.
by rewrite (leq_ltn_trans (pval_smalls _ _)) // Sr prednK.
Qed.

End Pseudo.

(** * Exact division *)
Lemma size_lt_mul0 (R : idomainType) (A B C : {poly R}) :
  (size C < size A)%N -> C = A * B -> B = 0 /\ C = 0.
Proof.
move=> L E; suff B0 : B = 0 by rewrite E B0 mulr0.
apply/eqP/negPn/negP => N.
have NA : A != 0 by rewrite -size_poly_gt0 (leq_ltn_trans _ L).
move: L; rewrite E size_mul // -subn1 ltnNge leq_subRL.
  by rewrite addnC leq_add2l size_poly_gt0 N.
by rewrite (leq_trans _ (leq_addr _ _)) // size_poly_gt0.
Qed.

Section Exact.
Variables (K : pcoef) (R : idomainType) (S : coef_sem K R) (X : pexact K).
Hypothesis XS : exact_sem S X.
Notation ve := (ve S).
Notation vc := (vc S).
Notation pval := (pval S).
Notation wf := (wf S).
Notation poly := (poly K).
Implicit Types (p m : poly) (c : cf K).

Lemma ex_dec a b : vc b != 0 ->
  (exists q, vc a = vc q * vc b) \/ (forall q, vc a != vc q * vc b).
Proof.
move=> Nb; case E : (ex_div X a b) => [q| |].
- case: (vc a =P vc q * vc b) => H; first by left; exists q.
  right=> q'; apply/eqP => E'; move: (ex_divP XS Nb E').
  by rewrite E => -[Eq]; rewrite Eq in H.
- by right=> q'; apply/eqP => E'; move: (ex_divP XS Nb E'); rewrite E.
- by right=> q'; apply/eqP => E'; move: (ex_divP XS Nb E'); rewrite E.
Qed.

Lemma map_div_ok c cs qs : vc c != 0 -> map vc cs = [seq x * vc c | x <- qs] ->
  exists2 rs, map vc rs = qs &
    map_res (fun x => ex_div X x c) cs = Ret rs /\
    map_res_opt (fun x => ex_checked X x c) cs = Ret (Some rs).
Proof.
move=> Nc; elim: cs qs => [|x cs IH] [|y qs] //=; first by exists [::].
case=> Ex /IH [rs Er [E1 E2]]; case: (vc_surj S y) => r Ey; rewrite -Ey in Ex *.
exists (r :: rs); first by rewrite /= Er.
by rewrite (ex_divP XS Nc Ex) (ex_chkP XS Nc Ex) /= E1 E2.
Qed.

Lemma map_div_bad c cs x :
  (forall i, (i < size cs)%N -> vc c = 0 \/
     (exists q, vc (nth x cs i) = vc q * vc c) \/ (forall q, vc (nth x cs i) != vc q * vc c)) ->
  (exists2 i, (i < size cs)%N &
     vc c = 0 \/ forall q, vc (nth x cs i) != vc q * vc c) ->
  map_res (fun x => ex_div X x c) cs = Panic /\
  map_res_opt (fun x => ex_checked X x c) cs = Ret None.
Proof.
elim: cs => [|y cs IH] Hd [i Hi H] //=.
case: (Hd 0%N isT) => [H0|H0].
  by rewrite (ex_divN XS) ?(ex_chkN XS) //; left.
case: (vc c =P 0) => [Z|/eqP Nc].
  by rewrite (ex_divN XS) ?(ex_chkN XS) //; left.
case: H0 => /= [[q Eq]|Ny]; last by rewrite (ex_divN XS) ?(ex_chkN XS) //; right.
rewrite (ex_divP XS Nc Eq) (ex_chkP XS Nc Eq) /=.
case: i Hi H => [|i] /= Hi H.
  by case: H => [Z|H]; [rewrite Z eqxx in Nc|move: (H q); rewrite Eq eqxx].
have [-> ->] // : map_res (fun x => ex_div X x c) cs = Panic /\
   map_res_opt (fun x => ex_checked X x c) cs = Ret None.
apply: IH; last by exists i.
by move=> j Hj; exact: (Hd j.+1).
Qed.

Lemma coefs_val p i : (i < size (coefficients p))%N ->
  vc (nth (c_zero K) (coefficients p) i) = (pval p)`_i.
Proof. by move=> H; rewrite /pval coef_Poly (nth_map (c_zero K)). Qed.

Lemma size_coefs p : size (coefficients p) = size (els p).
Proof. by rewrite size_map. Qed.

Lemma div_single_ok p c (Q : {poly R}) : wf p -> vc c != 0 -> pval p = vc c *: Q ->
  exists r, [/\ div_single X p c = Ret r, checked_div_single X p c = Ret (Some r),
                wf r & pval r = Q].
Proof.
move=> Hp Nc E.
have Sz : size Q = size (pval p) by rewrite E size_scale.
have Hm : map vc (coefficients p) = [seq x * vc c | x <- (Q : seq R)].
  have -> : map vc (coefficients p) = pval p :> seq R by rewrite pval_seq // vcoefs.
  apply: (@eq_from_nth _ 0); first by rewrite size_map Sz.
  move=> i Hi; rewrite -Sz in Hi.
  by rewrite (nth_map 0) // E coefZ mulrC.
have [rs Er [E1 E2]] := map_div_ok Nc Hm.
exists (from_coefs rs); rewrite /div_single /checked_div_single E1 E2.
by split=> //; [exact: wf_from_coefs | rewrite pval_from_coefs Er polyseqK].
Qed.

Lemma div_single_cases p c : vc c != 0 ->
  (exists cs, map vc (coefficients p) = [seq vc x * vc c | x <- cs]) \/
  (exists2 i, (i < size (coefficients p))%N &
          forall q, vc (nth (c_zero K) (coefficients p) i) != vc q * vc c).
Proof.
move=> Nc; elim: (coefficients p) => [|x cs IH]; first by left; exists [::].
case: (ex_dec x Nc) => [[q E]|H]; last by right; exists 0%N.
case: IH => [[l El]|[i Hi Ei]]; last by right; exists i.+1.
by left; exists (q :: l); rewrite /= E El.
Qed.

Lemma div_single_dec p c : wf p -> vc c != 0 ->
  (exists Q, pval p = vc c *: Q) \/
  ((exists2 i, (i < size (coefficients p))%N &
          forall q, vc (nth (c_zero K) (coefficients p) i) != vc q * vc c) /\
   forall Q, pval p != vc c *: Q).
Proof.
move=> Hp Nc; case: (div_single_cases p Nc) => [[l El]|[i Hi Ei]];
   [left; exists (Poly (map vc l))|right].
  rewrite /pval El; apply/polyP => i; rewrite coefZ !coef_Poly.
  case: (ltnP i (size l)) => Hi; first by rewrite !(nth_map (c_zero K)) // mulrC.
  by rewrite !nth_default ?size_map // mulr0.
split=> [|Q]; first by exists i.
apply/eqP => E; case: (vc_surj S Q`_i) => q Eq; case/eqP: (Ei q).
by rewrite coefs_val // E coefZ mulrC Eq.
Qed.

Lemma div_single_bad p c : wf p ->
  (pval p != 0 /\ vc c = 0) \/ (forall Q, pval p != vc c *: Q) ->
  div_single X p c = Panic /\ checked_div_single X p c = Ret None.
Proof.
move=> Hp H; rewrite /div_single /checked_div_single.
suff: map_res (fun x => ex_div X x c) (coefficients p) = Panic /\
   map_res_opt (fun x => ex_checked X x c) (coefficients p) = Ret None.
  by case=> -> ->; split; reflexivity.
apply: (@map_div_bad c _ (c_zero K)).
  move=> i _; case: (vc c =P 0) => [|/eqP N]; first by left.
  by right; apply: ex_dec.
have Np : pval p != 0.
  by case: H => [[]//|H]; move: (H 0); rewrite scaler0.
case: (vc c =P 0) => [Z|/eqP Nc].
  exists 0%N; last by left.
  by rewrite size_coefs -(size_pval Hp) size_poly_gt0.
case: H => [[_ Z]|H]; first by rewrite Z eqxx in Nc.
case: (div_single_dec Hp Nc) => [[Q E]|[[i Hi Ei] _]]; first by case/eqP: (H Q).
by exists i => //; right.
Qed.

Lemma div_single_nil p c : pval p = 0 -> wf p ->
  div_single X p c = Ret (poly_zero K) /\ checked_div_single X p c = Ret (Some (poly_zero K)).
Proof.
move=> E Hp; have E0 : els p = [::] by apply: size0nil; rewrite -(size_pval Hp) E size_poly0.
have F0 : from_coefs [::] = poly_zero K.
  apply: (wf_inj (S := S)); [exact: wf_from_coefs|exact: wf_zero|].
  by rewrite pval_from_coefs pval_zero.
by rewrite /div_single /checked_div_single /coefficients E0 /= F0.
Qed.

(** Exact division by a polynomial. *)
Lemma exact_div_ok (p q : poly) (Q : {poly R}) : wf p -> wf q -> pval q != 0 ->
  pval p = Q * pval q ->
  exists r, [/\ exact_div X p q = Ret r, checked_exact_div X p q = Ret (Some r),
                wf r & pval r = Q].
Proof.
move=> Hp Hq Nq E.
have [_ /(_ Nq) [r [Er [W1 W2] Ed Ef L]]] := pseudo_spec Hp Hq.
have Nf : vc (pd_fac r) != 0 by rewrite Ef expf_neq0 // lead_coef_eq0.
have E1 : pval (pd_rem r) = pval q * (vc (pd_fac r) *: Q - pval (pd_quo r)).
  apply: (addrI (pval q * pval (pd_quo r))); rewrite -Ed E mulrBr addrC subrK.
  by rewrite -scalerAr mulrC.
have [Z1 Z2] := size_lt_mul0 L E1.
have E2 : pval (pd_quo r) = vc (pd_fac r) *: Q by apply/esym/eqP; rewrite -subr_eq0 Z1.
have [s [S1 S2 S3 S4]] := div_single_ok W1 Nf E2.
exists s; rewrite /exact_div /checked_exact_div /exact_pseudo_div /checked_exact_pseudo_div.
by rewrite /pseudo_div_rem Er /= (is_zeroP W2) Z2 eqxx /= S1 S2.
Qed.

Lemma exact_div_bad (p q : poly) : wf p -> wf q ->
  pval q = 0 \/ (forall Q, pval p != Q * pval q) ->
  exact_div X p q = Panic /\ checked_exact_div X p q = Ret None.
Proof.
move=> Hp Hq H.
rewrite /exact_div /checked_exact_div /exact_pseudo_div /checked_exact_pseudo_div /pseudo_div_rem.
have [H0 H1] := pseudo_spec Hp Hq.
case: (pval q =P 0) => [Z|/eqP Nq]; first by rewrite H0.
case: (H1 Nq) => r [Er [W1 W2] Ed Ef L]; rewrite Er /= (is_zeroP W2).
case: eqP => Z //=.
have Nf : vc (pd_fac r) != 0 by rewrite Ef expf_neq0 // lead_coef_eq0.
apply: div_single_bad => //.
right=> Q; apply/eqP => E; case: H => [Zq|H]; first by rewrite Zq eqxx in Nq.
case/eqP: (H Q).
have : vc (pd_fac r) *: pval p = vc (pd_fac r) *: (Q * pval q).
  by rewrite Ed Z addr0 E -scalerAr mulrC.
move/eqP; rewrite -subr_eq0 -scalerBr scale_poly_eq0 (negbTE Nf) /= subr_eq0.
by move/eqP.
Qed.

Lemma exact_div_dec (p q : poly) : wf p -> wf q -> pval q != 0 ->
  (exists Q, pval p = Q * pval q) \/ (forall Q, pval p != Q * pval q).
Proof.
move=> Hp Hq Nq.
case E : (exact_div X p q) => [r| |].
- case: (pval p =P pval r * pval q) => H; first by left; exists (pval r).
  right=> Q; apply/eqP => E'; case: (exact_div_ok Hp Hq Nq E') => s [S1 S2 S3 S4].
  by rewrite E in S1; case: S1 H => ->; rewrite S4.
- by right=> Q; apply/eqP => E'; case: (exact_div_ok Hp Hq Nq E') => s [S1]; rewrite E in S1.
- by right=> Q; apply/eqP => E'; case: (exact_div_ok Hp Hq Nq E') => s [S1]; rewrite E in S1.
Qed.

(** Euclidean division over a domain: it succeeds when a quotient and a
    remainder exist. *)
Lemma div_rem_ok (p q : poly) (A B : {poly R}) : wf p -> wf q -> pval q != 0 ->
  pval p = A * pval q + B -> (size B < size (pval q))%N ->
  exists a b, [/\ div_rem X p q = Ret (a, b), checked_div_rem X p q = Ret (Some (a, b)),
    [/\ poly_div X p q = Ret a, checked_div X p q = Ret (Some a),
    poly_rem X p q = Ret b & checked_rem X p q = Ret (Some b)],
    wf a /\ wf b & pval a = A /\ pval b = B].
Proof.
move=> Hp Hq Nq E LB.
have [_ /(_ Nq) [r [Er [W1 W2] Ed Ef L]]] := pseudo_spec Hp Hq.
set f := vc (pd_fac r) in Ed Ef.
have Nf : f != 0 by rewrite Ef expf_neq0 // lead_coef_eq0.
have E1 : pval (pd_rem r) - f *: B = pval q * (f *: A - pval (pd_quo r)).
  apply: (addrI (pval q * pval (pd_quo r))); rewrite addrA -Ed E mulrBr addrCA subrr addr0.
  by rewrite scalerDr addrK -scalerAr mulrC.
have L1 : (size (pval (pd_rem r) - f *: B)%R < size (pval q))%N.
  by rewrite (leq_ltn_trans (size_add _ _)) // gtn_max L size_opp size_scale.
have [Z1 Z2] := size_lt_mul0 L1 E1.
have E2 : pval (pd_quo r) = f *: A by apply/esym/eqP; rewrite -subr_eq0 Z1.
have E3 : pval (pd_rem r) = f *: B by apply/eqP; rewrite -subr_eq0 Z2.
have [s [S1 S2 S3 S4]] := div_single_ok W1 Nf E2.
have [t [T1 T2 T3 T4]] := div_single_ok W2 Nf E3.
exists s, t; rewrite /div_rem /checked_div_rem /poly_div /checked_div /poly_rem /checked_rem.
by rewrite /pseudo_div_rem Er /= S1 S2 /= T1 T2.
Qed.

Lemma div_rem_bad (p q : poly) : wf p -> wf q ->
  pval q = 0 \/ (forall A B : {poly R}, (size B < size (pval q))%N -> pval p != A * pval q + B) ->
  [/\ div_rem X p q = Panic, checked_div_rem X p q = Ret None,
      poly_div X p q = Panic & checked_div X p q = Ret None].
Proof.
move=> Hp Hq H.
rewrite /div_rem /checked_div_rem /poly_div /checked_div /pseudo_div_rem.
have [H0 H1] := pseudo_spec Hp Hq.
case: (pval q =P 0) => [Z|/eqP Nq]; first by rewrite H0.
case: (H1 Nq) => r [Er [W1 W2] Ed Ef L]; rewrite Er /=.
have Nf : vc (pd_fac r) != 0 by rewrite Ef expf_neq0 // lead_coef_eq0.
suff [-> ->] : div_single X (pd_quo r) (pd_fac r) = Panic /\
    checked_div_single X (pd_quo r) (pd_fac r) = Ret None by [].
apply: div_single_bad => //.
right=> Q; apply/eqP => E; case: H => [Zq|H]; first by rewrite Zq eqxx in Nq.
have E1 : vc (pd_fac r) *: (pval p - Q * pval q) = pval (pd_rem r).
  by rewrite scalerBr Ed E mulrC -scalerAl addrC addKr.
have L2 : (size (pval p - Q * pval q)%R < size (pval q))%N by rewrite -(size_scale _ Nf) E1.
by case/eqP: (H Q _ L2); rewrite addrCA subrr addr0.
Qed.

Lemma div_rem_zero (p q : poly) : wf p -> wf q -> pval q = 0 ->
  poly_rem X p q = Panic /\ checked_rem X p q = Ret None.
Proof.
move=> Hp Hq Z; have [H0 _] := pseudo_spec Hp Hq.
by rewrite /poly_rem /checked_rem /pseudo_div_rem H0.
Qed.

End Exact.

(** * Division over a field *)
Section Field.
Variables (K : pcoef) (F : fieldType) (S : coef_sem K F) (X : pexact K).
Hypothesis XS : exact_sem S X.
Notation pval := (pval S).
Notation wf := (wf S).
Notation poly := (poly K).
Implicit Types (p q m : poly).

Lemma field_div p q : wf p -> wf q -> pval q != 0 ->
  exists a b, [/\ div_rem X p q = Ret (a, b), checked_div_rem X p q = Ret (Some (a, b)),
    [/\ poly_div X p q = Ret a, checked_div X p q = Ret (Some a),
    poly_rem X p q = Ret b & checked_rem X p q = Ret (Some b)],
    wf a /\ wf b & pval a = pval p %/ pval q /\ pval b = pval p %% pval q].
Proof.
move=> Hp Hq Nq; apply: div_rem_ok => //; first exact: divp_eq.
by rewrite ltn_modp.
Qed.

Lemma powmod_acc_spec m retval base : wf m -> pval m != 0 ->
  (forall r, retval = Some r -> wf r) -> wf base ->
  (retval = None -> pval base %% pval m = pval base) ->
  exists r, [/\ powmod_acc X m retval base = Ret (Some r), wf r &
     pval r = ((match retval with None => 1 | Some r => pval r end) * pval base) %% pval m].
Proof.
case: retval => [r|] Hm Nm Hr Hb Hs /=; last first.
  by exists base; rewrite mul1r Hs.
have [W E] := mul_spec S r base.
have [a [b [_ _ [_ _ _ ->] [_ Wb] [_ Eb]]]] := field_div W Hm Nm.
by exists b; rewrite -E.
Qed.

Lemma modp_congM (m a a' b b' : {poly F}) :
  a %% m = a' %% m -> b %% m = b' %% m -> (a * b) %% m = (a' * b') %% m.
Proof. by move=> Ea Eb; rewrite -(modp_mul a) Eb modp_mul mulrC -(modp_mul b') Ea modp_mul mulrC. Qed.

Lemma modp_congX (m a a' : {poly F}) n :
  a %% m = a' %% m -> (a ^+ n) %% m = (a' ^+ n) %% m.
Proof. by move=> E; elim: n => [//|n IH]; rewrite !exprS; apply: modp_congM. Qed.

Lemma powmod_loop_spec m : wf m -> pval m != 0 ->
  forall e retval base,
  (forall r, retval = Some r -> wf r) -> wf base ->
  pval base %% pval m = pval base ->
  exists r, [/\ powmod_loop X m retval base e = Ret (Some r), wf r &
     pval r = ((match retval with None => 1 | Some r => pval r end)
               * pval base ^+ Pos.to_nat e) %% pval m].
Proof.
move=> Hm Nm; elim=> [e IH|e IH|] retval base Hr Hb Hs /=.
- have [r [-> Wr Er]] := powmod_acc_spec Hm Nm Hr Hb (fun _ => Hs).
  have [W E] := mul_spec S base base.
  have [a [b [_ _ [_ _ _ Ec] [_ Wb] [_ Eb]]]] := field_div W Hm Nm.
  have [||s [Es Ws Vs]] := IH (Some r) b _ Wb; [by move=> _ [<-]|by rewrite Eb modp_mod|].
  exists s; split=> //; first by rewrite /= Ec /= Es.
  rewrite Vs Pos2Nat.inj_xI multE mul2n -addnn exprS exprD mulrA.
  apply: modp_congM; first by rewrite Er modp_mod.
  by rewrite -exprMn; apply: modp_congX; rewrite Eb modp_mod E.
- have [W E] := mul_spec S base base.
  have [a [b [_ _ [_ _ _ Ec] [_ Wb] [_ Eb]]]] := field_div W Hm Nm.
  have [|s [Es Ws Vs]] := IH retval b Hr Wb; first by rewrite Eb modp_mod.
  exists s; split=> //; first by rewrite /= Ec /= Es.
  rewrite Vs Pos2Nat.inj_xO multE mul2n -addnn exprD.
  apply: modp_congM => //.
  by rewrite -exprMn; apply: modp_congX; rewrite Eb modp_mod E.
- exact: powmod_acc_spec.
Qed.

Lemma powmod_spec p (e : Z) m : wf p -> wf m -> pval m != 0 -> (0 < e)%Z ->
  exists r, [/\ checked_powmod X p e m = Ret (Some r), powmod X p e m = Ret r, wf r &
     pval r = (pval p ^+ Z.to_nat e) %% pval m].
Proof.
move=> Hp Hm Nm; rewrite /powmod; case: e => [//|e _|//].
have [a [b [_ _ [_ _ _ Ec] [_ Wb] [_ Eb]]]] := field_div Hp Hm Nm.
have [//||s [Es Ws Vs]] := @powmod_loop_spec m Hm Nm e None b _ Wb.
  by rewrite Eb modp_mod.
have V : pval s = (pval p ^+ Pos.to_nat e) %% pval m.
  by rewrite Vs mul1r; apply: modp_congX; rewrite Eb modp_mod.
have C : checked_powmod X p (Z.pos e) m = Ret (Some s).
  by case: e Es {Vs V} => [e|e|] Es; rewrite /checked_powmod Ec //=; case: Es => ->.
by exists s; rewrite C.
Qed.

Lemma powmod_0 p m : wf p ->
  checked_powmod X p 0 m = Ret (if pval p == 0 then None else Some (poly_one K)) /\
  powmod X p 0 m = if pval p == 0 then Panic else Ret (poly_one K).
Proof.
move=> Hp; rewrite /powmod /checked_powmod /to_one_if_nonzero.
by rewrite -(is_zeroP Hp) /poly_is_zero; case: (els p).
Qed.

Lemma powmod_neg p (e : Z) m : (e < 0)%Z ->
  checked_powmod X p e m = Ret None /\ powmod X p e m = Panic.
Proof. by case: e. Qed.

Lemma powmod_zero p (e : Z) m : wf p -> wf m -> pval m = 0 -> (0 < e)%Z ->
  checked_powmod X p e m = Ret None /\ powmod X p e m = Panic.
Proof.
move=> Hp Hm Z; case: e => [//|e _|//].
have [_ Ec] := div_rem_zero X Hp Hm Z.
by rewrite /powmod; case: e => [e|e|]; rewrite /checked_powmod Ec.
Qed.
End Field.
