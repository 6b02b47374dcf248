(** Content, primitive part and norms. *)
From Coq Require Import ZArith Lia.
Set Warnings "-notation-overridden,-ambiguous-paths".
From mathcomp Require Import all_ssreflect all_fingroup all_algebra.
From mathcomp.zify Require Import zify_ssreflect.
From Verif Require Import M_Base M_Poly M_PolyAlg S_Poly S_PolyAlg P_Poly P_PolyDiv P_PolyGcd.
Set Implicit Arguments.
Unset Strict Implicit.
Unset Printing Implicit Defensive.
Import GRing.Theory Num.Theory Order.TTheory.
Local Open Scope ring_scope.

Section Content.
Variables (K : pcoef) (R : realDomainType) (S : coef_sem K R) (X : pexact K) (HX : exact_sem S X).
Notation vc := (vc S).
Notation pval := (pval S).
Notation wf := (wf S).
Notation poly := (poly K).
Implicit Types (p q u v w : poly) (c : cf K).

Lemma zdvd_trans (a b c : R) : zdvd a b -> zdvd b c -> zdvd a c.
Proof. by move=> [x ->] [y ->]; exists (x * y); rewrite mulrzA. Qed.
Lemma zdvd_refl (a : R) : zdvd a a.
Proof. by exists 1. Qed.
Lemma zdvdN (a b : R) : zdvd a b -> zdvd (- a) b.
Proof. by move=> [x ->]; exists (- x); rewrite mulrNz mulNrz opprK. Qed.
Lemma zdvdNr (a b : R) : zdvd a b -> zdvd a (- b).
Proof. by move=> [x ->]; exists (- x); rewrite mulrNz. Qed.

Section C.
Variables (C : pcontent K) (HC : content_sem S C).

Lemma gcd_fold_ok acc l : exists g, [/\ gcd_fold C acc l = Ret g, zdvd (vc g) (vc acc),
   (forall c, List.In c l -> zdvd (vc g) (vc c)) &
   forall e, zdvd e (vc acc) -> (forall c, List.In c l -> zdvd e (vc c)) -> zdvd e (vc g)].
Proof.
elim: l acc => [|c l IH] acc /=; first by exists acc; split=> //; exact: zdvd_refl.
have [g [-> G1 G2 G3]] := HC.1 acc c; rewrite rbind_Ret'.
have [h [-> H1 H2 H3]] := IH g; exists h; split=> //.
- exact: zdvd_trans H1 G1.
- by move=> d [<-|/H2 //]; exact: zdvd_trans H1 G2.
- move=> e Ha Hl; apply: H3; first by apply: G3 => //; apply: Hl; left.
  by move=> d Hd; apply: Hl; right.
Qed.

(** The sign of the content is that of the leading coefficient. *)
Lemma content_ok p : wf p -> pval p != 0 ->
  exists c, [/\ nonzero_content C p = Ret (Some c),
    vc c != 0, (vc c < 0) = (lead_coef (pval p) < 0),
    (forall i, zdvd (vc c) (pval p)`_i) &
    forall e, (forall i, zdvd e (pval p)`_i) -> zdvd e (vc c)].
Proof.
move=> Hp p0; have L0 : lead_coef (pval p) != 0 by rewrite lead_coef_eq0.
have Hin c : List.In c (coefficients p) -> exists i, (pval p)`_i = vc c.
  move=> H; have [i [Hi Ei]] : exists i, (i < size (coefficients p))%N /\ nth (c_zero K) (coefficients p) i = c.
    elim: (coefficients p) H => [|x l IH] //= [->|/IH [i [H1 H2]]]; first by exists 0%N.
    by exists i.+1.
  by exists i; rewrite /S_Poly.pval coef_Poly (nth_map (c_zero K)) // Ei.
have Hnth i : (pval p)`_i = 0 \/ exists2 c, List.In c (coefficients p) & (pval p)`_i = vc c.
  rewrite /S_Poly.pval coef_Poly.
  case: (ltnP i (size (coefficients p))) => Hi; last by left; apply: nth_default; rewrite size_map.
  right; exists (nth (c_zero K) (coefficients p) i); last by rewrite (nth_map (c_zero K)).
  by elim: (coefficients p) i Hi => [|x l IH] [|i] //= Hi; [left|right; exact: IH].
have [L1 L2] := lead_spec Hp; rewrite (negbTE p0) in L1.
rewrite /nonzero_content L1.
case Ec : (coefficients p) Hin Hnth => [|c0 cs] Hin Hnth.
  by exfalso; move/eqP: p0; apply; apply/polyP => i; rewrite coef0; case: (Hnth i) => [//|[c []]].
have [g [-> G1 G2 G3]] := gcd_fold_ok c0 cs; rewrite /unwrap !rbind_Ret'.
have D i : zdvd (vc g) (pval p)`_i.
  by case: (Hnth i) => [->|[c [<-|Hc] ->]] //; [exists 0; rewrite mulr0z|exact: G2].
have Gr e : (forall i, zdvd e (pval p)`_i) -> zdvd e (vc g).
  move=> He; apply: G3; first by have [|i <-] := Hin c0; [left|exact: He].
  by move=> c Hc; have [|i <-] := Hin c; [right|exact: He].
have g0 : vc g != 0.
  apply: contraNneq L0 => E; have [z] := D (size (pval p)).-1; rewrite -lead_coefE E mul0rz => ->.
  by rewrite eqxx.
rewrite !(HC.2) vc0 L2.
exists (if (lead_coef (pval p) < 0) != (vc g < 0) then c_add (c_zero K) (c_neg g) else g).
have Vn : vc (c_add (c_zero K) (c_neg g)) = - vc g by rewrite vcD vc0 vcN add0r.
split=> //.
- by case: ifP => _ //; rewrite Vn oppr_eq0.
- case: ifP => [|/negbFE /eqP -> //]; rewrite Vn oppr_lt0.
  by case: (ltrgt0P (vc g)) g0 => // _ _; case: (_ < 0).
- by move=> i; case: ifP => _ //; rewrite Vn; exact: zdvdN.
- by move=> e He; case: ifP => _; [rewrite Vn; apply: zdvdNr|]; exact: Gr.
Qed.

Lemma map_intr_inj (W W' : {poly int}) : map_poly (intr : int -> R) W = map_poly intr W' -> W = W'.
Proof. by move=> E; apply/polyP => i; move/(congr1 (fun P : {poly R} => P`_i)): E; rewrite !coef_map /= => /intr_inj. Qed.

Lemma content_primitive p : wf p -> pval p != 0 ->
  exists c r (W : {poly int}),
    [/\ nonzero_content C p = Ret (Some c) /\ content C p = Ret c,
      primitive_part X C p = Ret r /\ div_single X p c = Ret r, wf r,
      pval r = map_poly intr W /\ zcontents W = 1 & pval p = vc c *: pval r].
Proof.
move=> Hp p0; have [c [Ec c0 Sc D G]] := content_ok Hp p0.
have [W EW] : exists W : {poly int}, pval p = vc c *: map_poly intr W.
  have [w Hw] : exists w : seq int, map (fun z : int => vc c *~ z) w = pval p.
    elim: (polyseq (pval p) : seq R) D => [|a l IH] D; first by exists [::].
    have [x Hx] := D 0%N; have [w Hw] := IH (fun t => D t.+1).
    by exists (x :: w); rewrite /= Hw -Hx.
  exists (Poly w); apply/polyP => i; rewrite coefZ coef_map /=.
  have -> : (pval p)`_i = [seq vc c *~ z | z <- w]`_i by rewrite Hw.
  rewrite coef_Poly.
  case: (ltnP i (size w)) => Hi; first by rewrite (nth_map 0) // mulrzr.
  by rewrite !nth_default ?mulr0 ?size_map.
have [r [Er _ Hr Vr]] := div_single_ok HX Hp c0 EW.
have W0 : W != 0 by apply: contraNneq p0 => W0; rewrite EW W0 rmorph0 scaler0.
have LW : lead_coef (pval p) = vc c * (lead_coef W)%:~R.
  by rewrite EW lead_coefZ lead_coef_map_inj // => x y /intr_inj.
have LWp : 0 < lead_coef W.
  have l0 : lead_coef W != 0 by rewrite lead_coef_eq0.
  move: Sc; rewrite LW; case: (ltrgt0P (vc c)) c0 => // c_sgn _.
    by rewrite pmulr_rlt0 // ltrz0 => /esym /negbT; rewrite -leNgt le_eqVlt eq_sym (negbTE l0).
  by rewrite nmulr_rlt0 // ltr0z.
have ZW : zcontents W = 1.
  have [z Ez] : zdvd (vc c *~ zcontents W) (vc c).
    apply: G => i; rewrite EW coefZ coef_map /= [in W`_i](zpolyEprim W) coefZ.
    by exists (zprimitive W)`_i; rewrite -mulrzA -[in RHS]mulrzr.
  have E1 : zcontents W * z = 1.
    apply: (@intr_inj R); apply: (mulfI c0); rewrite mulrzr mulrzA -Ez.
    by rewrite mulr1.
  have : 0 < zcontents W by rewrite -sgz_gt0 sgz_contents sgz_gt0.
  have : zcontents W \is a GRing.unit by apply/unitrPr; exists z.
  by rewrite qualifE => /orP [/eqP //|/eqP ->].
exists c, r, W; rewrite /content Ec rbind_Ret'; split=> //; last by rewrite Vr.
split=> //; rewrite /primitive_part Ec rbind_Ret' Er rbind_Ret' /assert_then.
have r0 : pval r != 0 by rewrite Vr map_poly_eq0_id0 ?intr_eq0 ?lead_coef_eq0.
have [-> L2] := lead_spec Hr; rewrite (negbTE r0) HC.2 L2 vc0 Vr lead_coef_map_inj ?ltrz0 //; last first.
  by move=> x y /intr_inj.
by rewrite ltNge ltW.
Qed.

Lemma content_zero p : wf p -> pval p = 0 ->
  [/\ nonzero_content C p = Ret None, content C p = Ret (c_zero K) & primitive_part X C p = Ret p].
Proof.
move=> Hp p0; have s0 : size (els p) = 0%N by rewrite -(size_pval Hp) p0 size_poly0.
have E : coefficients p = [::] by apply: size0nil; rewrite size_coefs.
by rewrite /content /primitive_part /nonzero_content E.
Qed.
End C.

Section N.
Variables (A : pabs K) (HA : abs_sem S A).

Lemma norm_coefs p : map vc (map (c_abs A) (coefficients p)) = [seq `|x| | x <- map vc (coefficients p)].
Proof. by rewrite -!map_comp; apply: eq_map => c /=; rewrite HA.1. Qed.

Lemma coefs_pval p : wf p -> map vc (coefficients p) = pval p.
Proof. by move=> Hp; rewrite vcoefs -pval_seq. Qed.

Lemma max_fold c cs : let m := vc (foldl (c_max A) c cs) in
  (forall d, d \in vc c :: map vc cs -> d <= m) /\ m \in vc c :: map vc cs.
Proof.
elim: cs c => [|e cs IH] c /=.
  by rewrite mem_head; split=> // d; rewrite inE => /eqP ->.
have [H1 H2] := IH (c_max A c e).
have [M1 M2 M3] : [/\ vc c <= vc (c_max A c e), vc e <= vc (c_max A c e) & vc (c_max A c e) \in [:: vc c; vc e]].
  by rewrite /c_max HA.2; case: (leP (vc c) (vc e)) => H; rewrite !inE eqxx ?orbT ?lexx ?H //; split=> //; exact: ltW.
split=> [d|].
  rewrite !inE => /or3P [/eqP ->|/eqP ->|Hd].
  - by apply: le_trans M1 _; apply: H1; exact: mem_head.
  - by apply: le_trans M2 _; apply: H1; exact: mem_head.
  - by apply: H1; rewrite inE Hd orbT.
move: H2; rewrite inE => /orP [/eqP ->|H]; last by rewrite !inE H !orbT.
by move: M3; rewrite !inE => /orP [-> //|->]; rewrite orbT.
Qed.

Lemma max_norm_spec p : wf p ->
  (forall i, `|(pval p)`_i| <= vc (max_norm A p)) /\
  (exists i, `|(pval p)`_i| = vc (max_norm A p)) /\
  nonzero_max_norm A p = if pval p == 0 then None else Some (max_norm A p).
Proof.
move=> Hp; rewrite /max_norm /nonzero_max_norm.
have E := norm_coefs p; rewrite coefs_pval // in E.
have E0 : (pval p == 0) = nilp (map (c_abs A) (coefficients p)).
  by rewrite -size_poly_eq0 /nilp -[in RHS](size_map vc) E size_map.
have Ei i : `|(pval p)`_i| = 0 \/ `|(pval p)`_i| \in map vc (map (c_abs A) (coefficients p)).
  rewrite E; case: (ltnP i (size (pval p))) => Hi; last by left; rewrite nth_default ?normr0.
  by right; apply: map_f; exact: mem_nth.
have Im x : x \in map vc (map (c_abs A) (coefficients p)) -> exists i, `|(pval p)`_i| = x.
  by rewrite E => /mapP [y /(nthP 0) [i Hi <-] ->]; exists i.
rewrite E0; case: (map (c_abs A) (coefficients p)) Ei Im => [|c cs] Ei Im /=.
  rewrite vc0; split; last by split=> //; exists (size (pval p)); rewrite nth_default ?normr0.
  by move=> i; case: (Ei i) => [->|].
have [M1 M2] := max_fold c cs; split; last by split=> //; exact: Im.
move=> i; case: (Ei i) => [->|H]; last exact: M1.
by have [j <-] := Im _ M2; exact: normr_ge0.
Qed.

Lemma manhattan_fold l : let r := foldl (fun sum c => match sum with
                      | None => Some (c_abs A c)
                      | Some s => Some (c_add s (c_abs A c))
                      end) None l in
  vc (odflt (c_zero K) r) = \sum_(x <- map vc l) `|x| /\ ~~ isSome r = nilp l.
Proof.
have H s cs : exists2 t, foldl (fun sum c => match sum with
                      | None => Some (c_abs A c)
                      | Some s => Some (c_add s (c_abs A c))
                      end) (Some s) cs = Some t & vc t = vc s + \sum_(x <- map vc cs) `|x|.
  elim: cs s => [|c cs IH] s; first by exists s; rewrite // big_nil addr0.
  by have [t /= -> E] := IH (c_add s (c_abs A c)); exists t; rewrite // E big_cons vcD HA.1 addrA.
case: l => [|c cs] /=; first by rewrite big_nil vc0.
by have [t -> /= ->] := H (c_abs A c) cs; rewrite big_cons HA.1.
Qed.

Lemma manhattan_norm_spec p : wf p ->
  vc (manhattan_norm A p) = \sum_(i < size (pval p)) `|(pval p)`_i| /\
  nonzero_manhattan_norm A p = if pval p == 0 then None else Some (manhattan_norm A p).
Proof.
move=> Hp; have [E1 E2] := manhattan_fold (coefficients p).
rewrite /manhattan_norm /nonzero_manhattan_norm E1 coefs_pval // (big_nth 0) big_mkord; split=> //.
rewrite -size_poly_eq0 -coefs_pval // size_map -/(nilp _) -E2.
by case: foldl.
Qed.
End N.
End Content.
