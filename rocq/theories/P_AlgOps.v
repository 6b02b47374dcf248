(** Sums of real algebraic numbers. *)
From Coq Require Import ZArith QArith Qreals Qround Reals Lia Lra.
Set Warnings "-notation-overridden,-ambiguous-paths".
From mathcomp Require Import all_ssreflect all_algebra all_field.
From mathcomp.zify Require Import ssrZ.
From Verif Require Import M_Base M_Traits M_Util M_Interval M_Poly M_PolyCoef P_PolyInst M_PolyAlg M_Factor M_Alg
  S_Poly S_PolyAlg S_Factor S_Interval P_Interval P_IntervalTight P_Poly P_PolyAlgInst P_PolyAlgRef P_FactorAll
  P_Rstruct S_Alg P_AlgBase P_AlgShrink P_AlgBasic P_AlgSign P_AlgNeg P_AlgRecip P_AlgSelect P_AlgRoot P_AlgRes P_AlgIrr.
Set Implicit Arguments.
Unset Strict Implicit.
Unset Printing Implicit Defensive.
Import Order.TTheory GRing.Theory Num.Theory.
Delimit Scope Z_scope with ZZ.
Delimit Scope R_scope with RR.
Delimit Scope Q_scope with QQ.
Local Open Scope R_scope.
Local Notation Rt p := (root (real_poly p)).
Local Notation PV p := (pval int_sem p).

(** * Repeated refinement as a function *)
Definition next (s : shrinker) : shrinker := match shrink s with Ret (_, s') => s' | _ => s end.
Lemma next_ok p x s : refines p x s -> exists ex, [/\ shrink s = Ret (ex, next s), refines p x (next s) & narrows ex (sh_itv s) (sh_itv (next s))].
Proof. by move=> h; have [ex [s' [e h' _ n]]] := shrink_ok h; exists ex; rewrite /next e. Qed.
Lemma next_log p x s : refines p x s -> (dlog (sh_itv s) <= dlog (sh_itv (next s)))%N.
Proof.
move=> h; rewrite /next /shrink; set i := sh_itv s.
have ok := inI_ok _ _ (rf_in h); rewrite /dfi_ok -/i in ok.
have -> : (0 <=? dhi i - dlo i)%ZZ = true by apply/Z.leb_le; lia.
cbn [assert_then]; case: Z.eqb_spec => [e|ne]; first exact: leqnn.
case: Z.ltb_spec => [small|big]; last first.
  have [|ex [s' [-> [_ k' _ _ _]]]] := shrink_step h; first by rewrite -/i; lia.
  by rewrite k'.
have hc := refines_convert (leqnSn _) h; rewrite -/i in hc.
set s1 := Shr _ _ _ _ in hc *; set j := sh_itv s1.
have [ej1 ej2] : dlo j = (2 * dlo i)%ZZ /\ dhi j = (2 * dhi i)%ZZ by exact: convert_S.
have [|ex [s' [-> [_ k' _ _ _]]]] := shrink_step hc; first by rewrite -/j; lia.
by rewrite k' /= leqnSn.
Qed.
Fixpoint nexts (n : nat) (s : shrinker) : shrinker := if n is n'.+1 then next (nexts n' s) else s.
Section Nexts.
Variables (p : zpoly) (x : R) (s : shrinker).
Hypothesis h : refines p x s.
Lemma nexts_ok n : refines p x (nexts n s).
Proof. by elim: n => //= n IH; have [ex []] := next_ok IH. Qed.
Lemma nexts_inside n : inside (sh_itv (nexts n s)) (sh_itv s).
Proof.
elim: n => [|n IH] /=; first exact: inside_refl.
by have [ex [_ _ [n1 n2 _ _]]] := next_ok (nexts_ok n); exact: (inside_trans (conj n1 n2)).
Qed.
Lemma nexts_width n : width (sh_itv (nexts n s)) <= width (sh_itv s) * (17 / 32) ^ n.
Proof.
elim: n => [|n IH] /=; first by rewrite Rmult_1_r; exact: Rle_refl.
by have [ex [_ _ [_ _ n3 _]]] := next_ok (nexts_ok n); lra.
Qed.
Lemma nexts_log n : (dlog (sh_itv s) <= dlog (sh_itv (nexts n s)))%N.
Proof. by elim: n => //= n IH; apply: leq_trans IH _; exact: next_log (nexts_ok n). Qed.
End Nexts.

Section Two.
Variables (a b : ralg) (x y : R) (sa sb : shrinker).
Hypotheses (ha : refines (mp a) x sa) (hb : refines (mp b) y sb).
Definition states n := (nexts n sa, nexts n sb).
Lemma shrink_states n : shrink_both (states n) = Ret (states n.+1).
Proof.
have [ea [e1 _ _]] := next_ok (nexts_ok ha n); have [eb [e2 _ _]] := next_ok (nexts_ok hb n).
by rewrite /shrink_both /states /= e1; cbn [rbind]; rewrite e2.
Qed.
End Two.

(** * Addition *)
Section Add.
Variables (a b : ralg) (x y : R).
Hypotheses (Da : denotes a x) (Db : denotes b y).
Variables (rng : nat -> Z) (ffuel : nat).

Definition sum_itv (st : shrinker * shrinker) : dfi := dfi_add (sh_itv st.1) (sh_itv st.2).
Lemma sum_bounds i j : lo (dfi_add i j) = lo i + lo j /\ hi (dfi_add i j) = hi i + hi j.
Proof. by have [_ [h1 h2]] := dfi_add_bounds i j. Qed.

Lemma add_select r c fs sa sb : wf int_sem r -> PV r != 0%R -> Rt r (x + y) ->
  (forall q, Rt r (Q2R q) -> Rt (mp b) (Q2R q - x)) ->
  refines (mp a) x sa -> refines (mp b) y sb -> sh_itv sa = itv a -> sh_itv sb = itv b ->
  factor_with_rng rng ffuel r = Ret (c, fs) ->
  (forall f n, List.In (f, n) fs -> Rt f (x + y) -> irreducible_over_Q (PV f)) ->
  (forall (y' : R) q, Rt (mp b) y' -> x + y' = Q2R q -> inI (x + y') (dfi_add (itv a) (itv b)) -> y' = y) ->
  exists z, [/\ eventually (fun fuel => select_root (fun st => Ret (sum_itv st)) shrink_both rng ffuel fuel (sa, sb) r) z,
    denotes z (x + y) & canonical z].
Proof.
move=> wr r0 rv rq ha hb ia ib ef irr ends.
pose itvs n := sum_itv (states sa sb n).
have bd n : lo (itvs n) = lo (sh_itv (nexts n sa)) + lo (sh_itv (nexts n sb)) /\
    hi (itvs n) = hi (sh_itv (nexts n sa)) + hi (sh_itv (nexts n sb)) by exact: sum_bounds.
have v_in n : inI (x + y) (itvs n) by apply: dfi_add_in; [exact: rf_in (nexts_ok ha n)|exact: rf_in (nexts_ok hb n)].
have conv eps : 0 < eps -> exists N, width (itvs N) < eps.
  move=> e0; have [n hn] := small_pow (width (itv a) + width (itv b)) e0; exists n.
  have [b1 b2] := bd n; rewrite /width b1 b2.
  have := nexts_width ha n; have := nexts_width hb n; rewrite /width ia ib; move: hn; rewrite /width; lra.
have [|||z [hz d cz]] := @select_denotes _ (fun st => Ret (sum_itv st)) shrink_both (x + y) (states sa sb) itvs _ _ v_in conv rng ffuel r wr r0 rv c fs ef irr _.
- by [].
- by move=> n; exact: (shrink_states ha hb).
- move=> n q hq rtq; have := ends (Q2R q - x) q (rq q rtq).
  have e : x + (Q2R q - x) = Q2R q by ring.
  rewrite e => /(_ erefl) h; rewrite -h; first by ring.
  apply/inIE; have [-> ->] := sum_bounds (itv a) (itv b).
  have [b1 b2] := bd n; have [i1 i2] := nexts_inside ha n; have [i3 i4] := nexts_inside hb n.
  have := v_in n; rewrite inIE b1 b2 => v12; rewrite b1 b2 in hq; rewrite ia ib in i1 i2 i3 i4.
  have := rf_in (nexts_ok ha n); have := rf_in (nexts_ok hb n); rewrite !inIE; lra.
by exists z.
Qed.
End Add.

Lemma ratio_add_R p q : Qred (ratio_add p q) = ratio_add p q /\ Q2R (ratio_add p q) = Q2R p + Q2R q.
Proof.
split; first by rewrite /ratio_add; apply: Qcanon.Qred_involutive.
by rewrite -Q2R_plus; apply: Qeq_eqR; exact: Qred_correct.
Qed.
Lemma ratio_mul_R p q : Qred (ratio_mul p q) = ratio_mul p q /\ Q2R (ratio_mul p q) = Q2R p * Q2R q.
Proof.
split; first by rewrite /ratio_mul; apply: Qcanon.Qred_involutive.
by rewrite -Q2R_mult; apply: Qeq_eqR; exact: Qred_correct.
Qed.

Section AddAll.
Variables (a b : ralg) (x y : R).
Hypotheses (Da : denotes a x) (Db : denotes b y).
Variables (rng : nat -> Z) (ffuel : nat).

(** The case distinction of [ra_add]: everything but the resultant. *)
Lemma add_cases (Concl : Prop) :
  (forall z, (forall fuel, ra_add rng ffuel fuel a b = Ret z) -> denotes z (x + y) -> (canonical a -> canonical b -> canonical z) -> Concl) ->
  (forall r sa sb, add_resultant (mp a) (mp b) = Ret r -> refines (mp a) x sa -> refines (mp b) y sb -> sh_itv sa = itv a -> sh_itv sb = itv b ->
    (forall fuel, ra_add rng ffuel fuel a b = select_root (fun st => Ret (sum_itv st)) shrink_both rng ffuel fuel (sa, sb) r) ->
    wf int_sem r -> PV r != 0%R -> Rt r (x + y) -> (forall q, Rt r (Q2R q) -> Rt (mp b) (Q2R q - x)) -> Concl) -> Concl.
Proof.
move=> easy hard.
have [s2|s2] := boolP ((size (PV (mp a)) == 2%N) && (size (PV (mp b)) == 2%N)).
  move/andP: s2 => [/eqP sa /eqP sb].
  have [qa [ea _ xa]] := to_rational_lin Da sa; have [qb [eb _ yb]] := to_rational_lin Db sb.
  have [c1 c2] := ratio_add_R qa qb; have [d cn] := from_ratio_denotes c1.
  apply: (easy (ra_from_ratio (ratio_add qa qb))) => //; last by rewrite xa yb -c2.
  move=> fuel; rewrite /ra_add (den_is_rational Da) sa; cbn [rbind]; rewrite eqxx (den_is_rational Db) sb; cbn [rbind].
  by rewrite eqxx ea; cbn [rbind unwrap]; rewrite eb.
have e1 fuel : ra_add rng ffuel fuel a b = if ra_is_zero b then Ret a else if ra_is_zero a then Ret b
   else (r <- add_resultant (mp a) (mp b) ;; sa <- ra_shrinker a ;; sb <- ra_shrinker b ;;
     select_root (fun st => Ret (sum_itv st)) shrink_both rng ffuel fuel (sa, sb) r)%res.
  rewrite /ra_add (den_is_rational Da); cbn [rbind]; move: s2; rewrite negb_and.
  case: (size (PV (mp a)) == 2%N) => //=; rewrite (den_is_rational Db); cbn [rbind].
  by move/negbTE => ->.
case zb: (ra_is_zero b).
  have e := (is_zero_spec Db).1 zb; apply: (easy a) => // [fuel|]; first by rewrite e1 zb.
  by rewrite e Rplus_0_r.
case za: (ra_is_zero a).
  have e := (is_zero_spec Da).1 za; apply: (easy b) => // [fuel|]; first by rewrite e1 zb za.
  by rewrite e Rplus_0_l.
have [r [er wr r0 rv rq]] := sum_resultant Da Db.
have [sa [ea ha ia]] := den_shrinker Da; have [sb [eb hb ib]] := den_shrinker Db.
apply: (hard r sa sb er ha hb ia ib) => // fuel.
by rewrite e1 zb za er; cbn [rbind]; rewrite ea; cbn [rbind]; rewrite eb.
Qed.

Definition result_ok (f : nat -> res ralg) (v : R) : Prop :=
  exists z, [/\ eventually f z, denotes z v & canonical a -> canonical b -> canonical z].

Lemma add_spec :
  (forall r, add_resultant (mp a) (mp b) = Ret r -> factored rng ffuel r (x + y)) ->
  (forall (y' : R) q, Rt (mp b) y' -> x + y' = Q2R q -> inI (x + y') (dfi_add (itv a) (itv b)) -> y' = y) ->
  result_ok (fun fuel => ra_add rng ffuel fuel a b) (x + y).
Proof.
move=> hf ends; apply: add_cases.
  by move=> z ez d c; exists z; split=> //; apply: eventually_ext (eventually_const z).
move=> r sa sb er ha hb ia ib ez wr r0 rv rq; have [c [fs [ef irr]]] := hf r er.
have [z [hz d cz]] := add_select wr r0 rv rq ha hb ia ib ef irr ends.
by exists z; split=> //; apply: eventually_ext hz.
Qed.

Lemma add_rational_spec q : x = Q2R q \/ y = Q2R q ->
  (forall r, add_resultant (mp a) (mp b) = Ret r -> exists cfs, factor_with_rng rng ffuel r = Ret cfs) ->
  result_ok (fun fuel => ra_add rng ffuel fuel a b) (x + y).
Proof.
move=> hq hf; apply: add_spec.
  move=> r er; have [[c fs] ef] := hf r er; exists c, fs; split=> // f n inf _.
  exact: (sum_irr Da Db ef hq er inf).
move=> y' q' ry' e _.
have lin : size (PV (mp b)) = 2%N.
  case: hq => eq; last exact: (rat_root Db eq).
  have e' : y' = Q2R (q' - q) by rewrite Q2R_minus -e eq; lra.
  have := ry'; rewrite e' root_rat => /(irr_root (den_irr Db)); by rewrite size_intr.
by apply: (@lin_root_uniq _ (real_poly (mp b))) ry' (den_root Db); rewrite size_real.
Qed.
End AddAll.
