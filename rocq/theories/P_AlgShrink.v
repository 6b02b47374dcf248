(** Interval refinement: one step keeps the root, keeps it isolated, and
    narrows the interval. *)
From Coq Require Import ZArith QArith Qreals Reals Lia Lra.
Set Warnings "-notation-overridden,-ambiguous-paths".
From mathcomp Require Import all_ssreflect all_algebra.
From mathcomp.zify Require Import ssrZ.
From Verif Require Import M_Base M_Traits M_Util M_Interval M_Poly M_PolyCoef P_PolyInst M_PolyAlg M_Factor M_Alg
  S_Poly S_PolyAlg S_Factor S_Interval P_Interval P_Poly P_PolyAlgRef P_Rstruct S_Alg P_AlgBase.
Set Implicit Arguments.
Unset Strict Implicit.
Unset Printing Implicit Defensive.
Import Order.TTheory GRing.Theory Num.Theory.
Delimit Scope Z_scope with ZZ.
Delimit Scope R_scope with RR.
Local Open Scope R_scope.
Local Notation Rt p := (root (real_poly p)).

(** * Counting, in terms of the order of R *)
Section Count.
Variables (p : zpoly) (l : seq zpoly).
Hypothesis S : sturm_ok p l.
Local Notation cnt at_ := (sc_count (sign_changes_at l at_)).
Lemma root_at at_ x : pt_ok at_ x -> sc_root (sign_changes_at l at_) = Rt p x.
Proof. exact: S.1. Qed.
Variables (A B : point) (a b : R).
Hypothesis (pa : pt_ok A a) (pb : pt_ok B b) (ab : a < b) (na : ~~ Rt p a) (nb : ~~ Rt p b).
Lemma count_ex : exists s, [/\ uniq s, forall x, (x \in s) <-> [/\ a < x, x < b & Rt p x] & cnt A = (cnt B + size s)%N].
Proof.
have [|s [us hs hc]] := S.2 A B a b pa pb _ na nb; first by apply/RltE.
exists s; split=> // x; rewrite hs /between; split.
  by case/and3P => /RltE h1 /RltE h2 h3.
by case=> /RltE h1 /RltE h2 h3; apply/and3P.
Qed.
Lemma count_le : (cnt B <= cnt A)%N.
Proof. by have [s [_ _ ->]] := count_ex; exact: leq_addr. Qed.
Lemma count_none : (forall y, a < y -> y < b -> ~ Rt p y) -> cnt A = cnt B.
Proof.
move=> h; have [[|y s] [_ hs ->]] := count_ex; first by rewrite addn0.
by have [h1 h2 h3] := (hs y).1 (mem_head _ _); case: (h y).
Qed.
Lemma count_some y : a < y -> y < b -> Rt p y -> (cnt B < cnt A)%N.
Proof.
move=> h1 h2 h3; have [[|z s] [_ hs ->]] := count_ex; last by rewrite /= addnS ltnS leq_addr.
by have := (hs y).2 (And3 h1 h2 h3).
Qed.
Lemma count_one x : a < x -> x < b -> Rt p x -> (forall y, a < y -> y < b -> Rt p y -> y = x) -> cnt A = (cnt B).+1.
Proof.
move=> h1 h2 h3 u; have [s [us hs ->]] := count_ex.
have -> : s = [:: x].
  have xs : x \in s by apply/hs.
  case: s us hs xs => // y [|z s] /= us hs; first by rewrite inE => /eqP ->.
  have [y1 y2 y3] := (hs y).1 (mem_head _ _).
  have [z1 z2 z3] : [/\ a < z, z < b & Rt p z] by apply/hs; rewrite !inE eqxx orbT.
  by move: us; rewrite !inE (u y) // (u z) // eqxx.
by rewrite addn1.
Qed.
End Count.

(** * Bounds of intervals *)
Lemma pt_lo i : pt_ok (At (dfi_lower_bound i)) (lo i).
Proof. by rewrite /lo -(dfi_bounds_ok i).1; exact: pt_At. Qed.
Lemma pt_hi i : pt_ok (At (dfi_upper_bound i)) (hi i).
Proof. by rewrite /hi -(dfi_bounds_ok i).2; exact: pt_At. Qed.
Lemma inIE x i : inI x i <-> lo i <= x <= hi i.  Proof. by []. Qed.
Lemma dyadic_lt m n k : (m < n)%ZZ -> dyadic m k < dyadic n k.
Proof.
move=> h; rewrite /dyadic; apply: Rmult_lt_compat_r; last exact: IZR_lt.
by apply: Rinv_0_lt_compat; exact: p2_pos.
Qed.
Lemma dyadic_inj m n k : dyadic m k = dyadic n k -> m = n.
Proof.
move=> h; case: (Z.lt_total m n) => [/(dyadic_lt k)|[//|/(dyadic_lt k)]]; rewrite h => /Rlt_irrefl [].
Qed.

(** * Refinement steps *)
(** [s] refines towards the root [x] of [p]. *)
Record refines (p : zpoly) (x : R) (s : shrinker) : Prop := Refines {
  rf_sturm : sturm_ok p (sh_seq s);
  rf_root : Rt p x;
  rf_in : inI x (sh_itv s);
  rf_uniq : forall y, inI y (sh_itv s) -> Rt p y -> y = x;
  rf_lo : forall c, sh_lo s = Some c -> exists2 P, pt_ok P (lo (sh_itv s)) & c = sign_changes_at (sh_seq s) P;
  rf_hi : forall c, sh_hi s = Some c -> exists2 P, pt_ok P (hi (sh_itv s)) & c = sign_changes_at (sh_seq s) P }.

Lemma convert_same i n : (dlog i <= n)%nat -> lo (dfi_convert i n) = lo i /\ hi (dfi_convert i n) = hi i.
Proof. by move=> h; have [h1 h2] := dfi_convert_up_exact _ _ (elimT ssrnat.leP h); split. Qed.

Lemma refines_convert p x s n : (dlog (sh_itv s) <= n)%nat -> refines p x s ->
  refines p x (Shr (sh_seq s) (dfi_convert (sh_itv s) n) (sh_lo s) (sh_hi s)).
Proof.
move=> h [h1 h2 h3 h4 h5 h6]; have [e1 e2] := convert_same h.
by split=> //=; rewrite ?inIE ?e1 ?e2 // => y; rewrite inIE e1 e2; exact: h4.
Qed.

Lemma get_lower_ok p x s : refines p x s -> exists c s', [/\ get_lower s = (c, s'), refines p x s',
  sh_itv s' = sh_itv s /\ sh_seq s' = sh_seq s & exists2 P, pt_ok P (lo (sh_itv s)) & c = sign_changes_at (sh_seq s) P].
Proof.
move=> h; rewrite /get_lower; case E: (sh_lo s) => [c|].
  by exists c, s; split=> //; exact: (rf_lo h E).
eexists _, _; split; [by []| |by []|by exists (At (dfi_lower_bound (sh_itv s))); [exact: pt_lo|]].
case: h => h1 h2 h3 h4 h5 h6; split=> //= c [<-]; exists (At (dfi_lower_bound (sh_itv s))) => //; exact: pt_lo.
Qed.
Lemma get_upper_ok p x s : refines p x s -> exists c s', [/\ get_upper s = (c, s'), refines p x s',
  sh_itv s' = sh_itv s /\ sh_seq s' = sh_seq s & exists2 P, pt_ok P (hi (sh_itv s)) & c = sign_changes_at (sh_seq s) P].
Proof.
move=> h; rewrite /get_upper; case E: (sh_hi s) => [c|].
  by exists c, s; split=> //; exact: (rf_hi h E).
eexists _, _; split; [by []| |by []|by exists (At (dfi_upper_bound (sh_itv s))); [exact: pt_hi|]].
case: h => h1 h2 h3 h4 h5 h6; split=> //= c [<-]; exists (At (dfi_upper_bound (sh_itv s))) => //; exact: pt_hi.
Qed.

Lemma set_upper_ok p x s v c P : refines p x s -> (dlo (sh_itv s) <= v <= dhi (sh_itv s))%ZZ ->
  pt_ok P (dyadic v (dlog (sh_itv s))) -> c = sign_changes_at (sh_seq s) P -> x <= dyadic v (dlog (sh_itv s)) ->
  exists s', [/\ set_upper s v c = Ret s', refines p x s', sh_seq s' = sh_seq s &
    sh_itv s' = DFI (dlo (sh_itv s)) v (dlog (sh_itv s))].
Proof.
move=> [h1 h2 h3 h4 h5 h6] [v1 v2] pP -> xv.
rewrite /set_upper /dfi_set_upper_bound_numer; have -> : (dlo (sh_itv s) <=? v)%ZZ = true by apply/Z.leb_le.
have vh := (dyadic_le v (dhi (sh_itv s)) (dlog (sh_itv s))).2 v2.
eexists; split; [reflexivity| |by []|by []]; split=> //=.
- by split=> //=; case: h3.
- by move=> y [y1 y2]; apply: h4; split=> //; apply: Rle_trans vh.
- by move=> c0 [<-]; exists P.
Qed.
Lemma set_lower_ok p x s v c P : refines p x s -> (dlo (sh_itv s) <= v <= dhi (sh_itv s))%ZZ ->
  pt_ok P (dyadic v (dlog (sh_itv s))) -> c = sign_changes_at (sh_seq s) P -> dyadic v (dlog (sh_itv s)) <= x ->
  exists s', [/\ set_lower s v c = Ret s', refines p x s', sh_seq s' = sh_seq s &
    sh_itv s' = DFI v (dhi (sh_itv s)) (dlog (sh_itv s))].
Proof.
move=> [h1 h2 h3 h4 h5 h6] [v1 v2] pP -> xv.
rewrite /set_lower /dfi_set_lower_bound_numer; have -> : (v <=? dhi (sh_itv s))%ZZ = true by apply/Z.leb_le.
have vh := (dyadic_le (dlo (sh_itv s)) v (dlog (sh_itv s))).2 v1.
eexists; split; [reflexivity| |by []|by []]; split=> //=.
- by split=> //=; case: h3.
- by move=> y [y1 y2]; apply: h4; split=> //; apply: Rle_trans y1.
- by move=> c0 [<-]; exists P.
Qed.
Lemma set_upper_ok' p x s i q v P : refines p x s -> sh_itv s = i -> sh_seq s = q -> (dlo i <= v <= dhi i)%ZZ ->
  pt_ok P (dyadic v (dlog i)) -> x <= dyadic v (dlog i) ->
  exists s', [/\ set_upper s v (sign_changes_at q P) = Ret s', refines p x s', sh_seq s' = q & sh_itv s' = DFI (dlo i) v (dlog i)].
Proof. by move=> h <- <- hv pP hx; exact: (set_upper_ok h hv pP). Qed.
Lemma set_lower_ok' p x s i q v P : refines p x s -> sh_itv s = i -> sh_seq s = q -> (dlo i <= v <= dhi i)%ZZ ->
  pt_ok P (dyadic v (dlog i)) -> dyadic v (dlog i) <= x ->
  exists s', [/\ set_lower s v (sign_changes_at q P) = Ret s', refines p x s', sh_seq s' = q & sh_itv s' = DFI v (dhi i) (dlog i)].
Proof. by move=> h <- <- hv pP hx; exact: (set_lower_ok h hv pP). Qed.

(** The result of a step from interval [i] to interval [j]. *)
Definition narrows (ex : bool) (i j : dfi) : Prop :=
  [/\ lo i <= lo j, hi j <= hi i, 32 * width j <= 17 * width i & ex -> dlo j = dhi j].

Lemma quot_mid l u m : (2 <= u - l)%ZZ -> m = Z.quot (l + u) 2 ->
  (l < m < u /\ 2 * (m - l) <= u - l + 1 /\ 2 * (u - m) <= u - l + 1)%ZZ.
Proof. by move=> h ->; Z.to_euclidean_division_equations; lia. Qed.

Lemma narrow_num l u l' u' k : (l <= l')%ZZ -> (u' <= u)%ZZ -> (32 * (u' - l') <= 17 * (u - l))%ZZ ->
  [/\ dyadic l k <= dyadic l' k, dyadic u' k <= dyadic u k & 32 * (dyadic u' k - dyadic l' k) <= 17 * (dyadic u k - dyadic l k)].
Proof.
move=> h1 h2 h3; split; try by apply/dyadic_le.
rewrite -!dyadic_sub; have := (dyadic_le (32 * (u' - l')) (17 * (u - l)) k).2 h3.
by rewrite /dyadic !mult_IZR; have := p2_pos k => hk; lra.
Qed.

Lemma middle_at m k : exists2 q, ratio_new m (shl 1 k) = Ret q & pt_ok (At q) (dyadic m k).
Proof.
have hp : (0 < 2 ^ Z.of_nat k)%ZZ by apply: Z.pow_pos_nonneg; lia.
have h : shl 1 k <> 0%ZZ by rewrite shl_mul; lia.
have [q hq] := ratio_new_ret m _ h; exists q => //.
by have [_ e] := ratio_new_R _ _ _ hq; rewrite -[dyadic m k]/(IZR m / 2 ^ k) -shl1_R -e; exact: pt_At.
Qed.

Lemma shrink_step p x s : refines p x s -> (2 <= dhi (sh_itv s) - dlo (sh_itv s))%ZZ ->
  exists ex s',
  (let '(cl, s) := get_lower s in
   if sc_root cl then rmap (pair true) (set_upper s (dlo (sh_itv s)) cl)
   else
     let '(cu, s) := get_upper s in
     if sc_root cu then rmap (pair true) (set_lower s (dhi (sh_itv s)) cu)
     else
       assert_then (distance (sc_count cl) (sc_count cu) == 1%N)
       (let m := Z.quot (dlo (sh_itv s) + dhi (sh_itv s)) 2 in
        (middle <- ratio_new m (shl 1 (dlog (sh_itv s))) ;;
         let cm := sign_changes_at (sh_seq s) (At middle) in
         if sc_root cm then Ret (true, set_to_dyadic s m cm)
         else if sc_count cm == sc_count cl then rmap (pair false) (set_lower s m cm)
         else assert_then (sc_count cm == sc_count cu) (rmap (pair false) (set_upper s m cm)))%res))
  = Ret (ex, s') /\ [/\ refines p x s' /\ sh_seq s' = sh_seq s, dlog (sh_itv s') = dlog (sh_itv s),
    (dlo (sh_itv s) <= dlo (sh_itv s'))%ZZ /\ (dhi (sh_itv s') <= dhi (sh_itv s))%ZZ,
    (2 * (dhi (sh_itv s') - dlo (sh_itv s')) <= dhi (sh_itv s) - dlo (sh_itv s) + 1)%ZZ
    & ex -> dlo (sh_itv s') = dhi (sh_itv s')].
Proof.
move=> h r2; set i := sh_itv s in r2 *.
have [cl [s1 [-> h1 [i1 q1] [P1 pP1 e1]]]] := get_lower_ok h.
rewrite e1 (root_at (rf_sturm h) pP1).
have x1 := rf_in h; rewrite inIE -/i in x1.
have ab : lo i < hi i by apply: dyadic_lt; lia.
case: ifP => [rl|nl].
  have el : lo i = x by apply: (rf_uniq h) => //; split; [exact: Rle_refl|exact: Rlt_le].
  rewrite i1 -/i; have [|||s' [-> h' q' i']] := @set_upper_ok' p x s1 i _ (dlo i) P1 h1 i1 q1 _ _ _ => //.
  - by split; [exact: Z.le_refl|lia].
  - by rewrite -[dyadic _ _]/(lo i) el; exact: Rle_refl.
  by exists true, s'; split=> //; rewrite i' q'; cbn [dlo dhi dlog]; split=> //; lia.
have [cu [s2 [-> h2 [i2 q2] [P2 pP2 e2]]]] := get_upper_ok h1.
rewrite i1 -/i in pP2; rewrite i1 in i2; rewrite q1 in e2 q2.
rewrite e2 (root_at (rf_sturm h) pP2).
case: ifP => [ru|nu].
  have el : hi i = x by apply: (rf_uniq h) => //; split; [exact: Rlt_le|exact: Rle_refl].
  rewrite i2 -/i; have [|||s' [-> h' q' i']] := @set_lower_ok' p x s2 i _ (dhi i) P2 h2 i2 q2 _ _ _ => //.
  - by split; [lia|exact: Z.le_refl].
  - by rewrite -[dyadic _ _]/(hi i) el; exact: Rle_refl.
  by exists true, s'; split=> //; rewrite i' q'; cbn [dlo dhi dlog]; split=> //; lia.
have nl' : ~~ Rt p (lo i) by rewrite nl.
have nu' : ~~ Rt p (hi i) by rewrite nu.
have lx : lo i < x by case: x1 => -[//|e] _; case/negP: nl'; rewrite e; exact: rf_root h.
have xu : x < hi i by case: x1 => _ [//|e]; case/negP: nu'; rewrite -e; exact: rf_root h.
have sok := rf_sturm h.
have one : sc_count (sign_changes_at (sh_seq s) P1) = (sc_count (sign_changes_at (sh_seq s) P2)).+1.
  apply: (count_one sok pP1 pP2 ab nl' nu' lx xu (rf_root h)) => y y1 y2 ry.
  by apply: (rf_uniq h) => //; split; exact: Rlt_le.
have -> : distance (sc_count (sign_changes_at (sh_seq s) P1)) (sc_count (sign_changes_at (sh_seq s) P2)) == 1%N.
  by rewrite one /distance ltnNge leqnSn /= subSnn.
rewrite /assert_then i2 q2 -/i.
set m := Z.quot _ _; have [[m1 m2] [m3 m4]] := quot_mid r2 (erefl m); rewrite -/m.
have [q -> pq] := middle_at m (dlog i); cbn [rbind].
rewrite (root_at sok pq).
have lm : lo i < dyadic m (dlog i) by exact: dyadic_lt.
have mu : dyadic m (dlog i) < hi i by exact: dyadic_lt.
case: ifP => [rm|nm].
  have em : dyadic m (dlog i) = x by apply: (rf_uniq h) => //; split; exact: Rlt_le.
  exists true, (set_to_dyadic s2 m (sign_changes_at (sh_seq s) (At q))); split=> //.
  rewrite /set_to_dyadic i2 q2 -/i; cbn [dlo dhi dlog sh_itv sh_seq dfi_from_dyadic_fraction]; split=> //; try lia.
  split=> //; split=> //=.
  - exact: rf_root h.
  - by rewrite /inI /= em; split; exact: Rle_refl.
  - by move=> y; rewrite /inI /= em => -[y1 y2] _; exact: Rle_antisym.
  - by move=> c [<-]; exists (At q).
  - by move=> c [<-]; exists (At q).
have nm' : ~~ Rt p (dyadic m (dlog i)) by rewrite nm.
case: eqP => [ec|nc].
  have mx : dyadic m (dlog i) <= x.
    apply: Rnot_lt_le => hx; have := count_some sok pP1 pq lm nl' nm' lx hx (rf_root h).
    by rewrite ec ltnn.
  have [|||s' [-> h' q' i']] := @set_lower_ok' p x s2 i _ m (At q) h2 i2 q2 _ _ _ => //.
  - by split; lia.
  by exists false, s'; split=> //; rewrite i' q'; cbn [dlo dhi dlog]; split=> //; lia.
have xm : x < dyadic m (dlog i).
  case: (Rlt_le_dec x (dyadic m (dlog i))) => // mx; case: nc; symmetry.
  apply: (count_none sok pP1 pq lm nl' nm') => y y1 y2 ry.
  have ey : y = x by apply: (rf_uniq h) => //; split; [exact: Rlt_le|apply: Rlt_le; exact: Rlt_trans mu].
  by move: y2; rewrite ey; apply: Rle_not_lt.
have ec2 : sc_count (sign_changes_at (sh_seq s) (At q)) = sc_count (sign_changes_at (sh_seq s) P2).
  apply: (count_none sok pq pP2 mu nm' nu') => y y1 y2 ry.
  have ey : y = x by apply: (rf_uniq h) => //; split; [apply: Rlt_le; exact: Rlt_trans y1|exact: Rlt_le].
  by move: y1; rewrite ey; apply: Rle_not_lt; exact: Rlt_le.
rewrite ec2 eqxx.
have [|||s' [-> h' q' i']] := @set_upper_ok' p x s2 i _ m (At q) h2 i2 q2 _ _ _ => //.
- by split; lia.
- exact: Rlt_le.
by exists false, s'; split=> //; rewrite i' q'; cbn [dlo dhi dlog]; split=> //; lia.
Qed.

Lemma convert_S i : dlo (dfi_convert i (dlog i).+1) = (2 * dlo i)%ZZ /\ dhi (dfi_convert i (dlog i).+1) = (2 * dhi i)%ZZ.
Proof.
rewrite /dfi_convert /convert_log2_denom_floor /convert_log2_denom_ceil; cbn [dlo dhi].
have -> : Nat.leb (dlog i) (dlog i).+1 = true by apply/Nat.leb_le; lia.
have -> : ((dlog i).+1 - dlog i)%coq_nat = 1%nat by lia.
by rewrite !shl_mul -[(2 ^ Z.of_nat 1)%ZZ]/2%ZZ; split; ring.
Qed.

Lemma shrink_ok p x s : refines p x s ->
  exists ex s', [/\ shrink s = Ret (ex, s'), refines p x s', sh_seq s' = sh_seq s & narrows ex (sh_itv s) (sh_itv s')].
Proof.
move=> h; rewrite /shrink; set i := sh_itv s.
have ok := inI_ok _ _ (rf_in h); rewrite /dfi_ok -/i in ok.
have -> : (0 <=? dhi i - dlo i)%ZZ = true by apply/Z.leb_le; lia.
cbn [assert_then]; case: Z.eqb_spec => [e|ne].
  exists true, s; split=> //; rewrite -/i; split; try exact: Rle_refl; last by move=> _; lia.
  have -> : width i = 0 by rewrite /width /hi /lo (_ : dhi i = dlo i); [ring|lia].
  by rewrite !Rmult_0_r; exact: Rle_refl.
case: Z.ltb_spec => [small|big]; last first.
  have [|ex [s' [-> [[h' q'] k' [l' u'] w' e']]]] := shrink_step h; first by rewrite -/i; lia.
  exists ex, s'; split=> //; rewrite -/i in k' l' u' w' *.
  have [] := @narrow_num (dlo i) (dhi i) (dlo (sh_itv s')) (dhi (sh_itv s')) (dlog i) l' u' _; first by lia.
  by move=> n1 n2 n3; split=> //; rewrite /width /lo /hi k'.
have hc := refines_convert (leqnSn _) h; rewrite -/i in hc.
set s1 := Shr _ _ _ _ in hc *; set j := sh_itv s1.
have [ej1 ej2] : dlo j = (2 * dlo i)%ZZ /\ dhi j = (2 * dhi i)%ZZ.
  exact: convert_S.
have [|ex [s' [-> [[h' q'] k' [l' u'] w' e']]]] := shrink_step hc; first by rewrite -/j; lia.
exists ex, s'; split=> //; rewrite -/j in k' l' u' w'.
have [] := @narrow_num (dlo j) (dhi j) (dlo (sh_itv s')) (dhi (sh_itv s')) (dlog j) l' u' _; first by lia.
have [e1 e2] := convert_same (leqnSn (dlog i)).
rewrite -[dfi_convert _ _]/j in e1 e2; rewrite -[dyadic (dlo j) _]/(lo j) -[dyadic (dhi j) _]/(hi j) e1 e2.
by move=> n1 n2 n3; split=> //; rewrite /width /lo /hi k'.
Qed.
