(** Proofs about factorisation over the integers. *)
From Coq Require Import ZArith Lia List Permutation.
Set Warnings "-notation-overridden,-ambiguous-paths".
From mathcomp Require Import all_ssreflect all_fingroup all_algebra.
From mathcomp.zify Require Import ssrZ zify_ssreflect zify_algebra.
From Verif Require Import M_Base M_Traits M_Util M_Poly M_PolyCoef M_PolyAlg M_Factor S_Int S_Poly S_PolyAlg S_Factor
  P_Util P_Poly P_PolyDiv P_PolyInst P_PolyGcd P_PolyField P_PolyAlgInst P_PolyAlgRef P_FactorP P_Hensel P_HenselTree P_ExtGcd P_Heap.
Set Implicit Arguments.
Unset Strict Implicit.
Unset Printing Implicit Defensive.
Import GRing.Theory.
Local Open Scope ring_scope.
Delimit Scope Z_scope with ZZ.
Local Notation monic := mathcomp.algebra.poly.monic.
Notation zv := (pval int_sem).
Notation zwf := (wf int_sem).

(** * The subset search *)
Lemma prim_neq0 (P : {poly int}) : zcontents P = 1 -> P != 0.
Proof. by move=> h; apply/eqP => E; move: h; rewrite E zcontents0. Qed.
Definition primwf (f : zpoly) : Prop := zwf f /\ zcontents (zv f) = 1.

Lemma try_subset_spec (m : positive) (input : zpoly) (mfs : seq (mpoly m)) idx : primwf input ->
  (try_subset input mfs idx = Ret None) \/
  (exists f q, [/\ try_subset input mfs idx = Ret (Some (f, q)), primwf f, primwf q & zv input = zv f * zv q]).
Proof.
move=> [wi ci]; rewrite /try_subset; set g := from_iterator _.
have [wg _] := from_iterator_spec int_sem [seq symmetric m c | c <- mod_values (foldl (fun f i => poly_mul f (nth (poly_zero (mc m)) mfs i)) (from_coef (K := mc m) (@mk_residue (Zpos m) isT (lead input))) idx)].
have [_ [pot [_ -> wp _ [_ Ep _]]]] := content_int wg; rewrite rbind_Ret'.
rewrite /checked_exact_pseudo_div; have [N0 N1] := pseudo_spec wi wp.
have [p0|p0] := eqVneq (zv pot) 0; first by left; rewrite N0.
have [r [-> [w1 w2] Ed Ef _]] := N1 p0; rewrite (is_zeroP w2).
case: eqP => [r0|_]; last by left.
have [_ [q' [_ Eq wq' _ [_ Eq' _]]]] := content_int w1; rewrite Eq rbind_Ret'.
right; exists pot, q'.
have cp : zcontents (zv pot) = 1.
  by apply/eqP; rewrite Ep; rewrite zcontents_primitive -zprimitive_eq0 -Ep p0.
rewrite r0 addr0 Ef in Ed; set k := lead_coef _ ^+ _ in Ed.
have k0 : k != 0 by rewrite expf_neq0 // lead_coef_eq0.
have q0 : zv (pd_quo r) != 0.
  apply: contraTneq k0 => q0; move/eqP: Ed; rewrite q0 mulr0 scale_poly_eq0 (negbTE (prim_neq0 ci)) orbF negbK //.
have cq : zcontents (zv (pd_quo r)) = k.
  by have := congr1 zcontents Ed; rewrite zcontentsZ zcontentsM ci cp mulr1 mul1r => <-.
split=> //; first by split=> //; rewrite Eq' zcontents_primitive q0.
have kp0 : k%:P != 0 by rewrite polyC_eq0.
apply: (mulfI kp0); rewrite !mul_polyC Ed [in LHS](zpolyEprim (zv (pd_quo r))) cq Eq' -scalerAr //.
Qed.

Lemma size_remove_le A (l : seq A) i : (size (take i l ++ drop i.+1 l) <= size l)%N.
Proof.
rewrite size_cat size_drop size_take; case: ltnP => h; first by lia.
by rewrite (eqP (_ : size l - i.+1 == 0)%N) ?addn0 // subn_eq0 ltnW.
Qed.
Lemma size_remove_lt A (l : seq A) idx : idx != [::] -> all (fun i => i < size l)%N idx ->
  (size (remove_indexes l idx) < size l)%N.
Proof.
rewrite /remove_indexes; case/lastP: idx => // idx i _; rewrite rev_rcons all_rcons /= => /andP[h _].
have : (size (take i l ++ drop i.+1 l) < size l)%N.
  by rewrite size_cat size_drop size_take h; lia.
move: (_ ++ _) => l1; elim: (rev idx) l1 => //= j r IH l1 h1.
by apply: IH; apply: leq_ltn_trans (size_remove_le _ _) h1.
Qed.

Lemma inc_all a b idx : increasing_in a b idx -> all (fun i => i < b)%N idx.
Proof. by elim: idx a => //= i s IH a [[_ /ssrnat.ltP ->] /IH]. Qed.
Lemma subset_loop_spec fuel : forall (m : positive) input (mfs : seq (mpoly m)) k, primwf input ->
  (0 < k)%N -> (size mfs * 2 < fuel + k)%N ->
  exists l, [/\ subset_loop fuel input mfs k = Ret l, Forall primwf l & zv input = \prod_(f <- l) zv f].
Proof.
have triv input : primwf input -> exists l, [/\ Ret [:: input] = Ret l, Forall primwf l & zv input = \prod_(f <- l) zv f].
  by move=> h; eexists; split; [reflexivity|constructor; [exact: h|constructor]|rewrite big_seq1].
elim: fuel => [|fuel IH] m input mfs k pi k0 hf; cbn [subset_loop]; case: ltnP => h; try exact: triv input pi.
  by exfalso; move: h hf k0; rewrite !muln2 -!addnn; lia.
have m0 : (0 < size mfs)%N by move: h k0; case: (size mfs) => //; case: k {hf}.
have [L [HL [_ ->]]] := @subsets_list k 0 (size mfs) (elimT ssrnat.ltP m0).
have [L0 HL0] : exists L0, L0 = L by exists L.
suff : (run_until_break (subset_callback input mfs) L (Ret None)).1 = Ret None \/
       (exists f q idx, [/\ (run_until_break (subset_callback input mfs) L (Ret None)).1 = Ret (Some (f, q, idx)),
          In idx L, primwf f, primwf q & zv input = zv f * zv q]).
  case=> [->|[f [q [idx [-> /HL [sidx inc] pf pq E]]]]]; rewrite rbind_Ret'.
    by apply: IH => //; move: hf; clear; lia.
  have [|l [-> Fl El]] := IH m q (remove_indexes mfs idx) k pq k0.
    have ne : idx != [::] by apply: contraTneq k0 => E0; rewrite -sidx E0.
    have al : all (fun i => i < size mfs)%N idx.
      exact: inc_all inc.
    have := size_remove_lt ne al; move: hf; clear; lia.
  rewrite rbind_Ret'; eexists; split; [reflexivity|by constructor|by rewrite big_cons -El].
clear HL HL0 L0.
elim: L => [|idx L IHL] /=; first by left.
rewrite {1 3}/subset_callback; case: (try_subset_spec mfs idx pi) => [E|[f [q [E pf pq Ez]]]]; rewrite E.
  case: IHL => [->|[f [q [i [-> Hi pf pq Ez]]]]]; first by left.
  by right; exists f, q, i; split=> //; right.
by right; exists f, q, idx; split=> //; left.
Qed.

(** * The prime *)
Lemma Z_of_prime (q : nat) : prime q -> Znumtheory.prime (Z.of_nat q).
Proof.
move=> pq; have q1 := prime_gt1 pq; apply/Znumtheory.prime_alt; split; first lia.
move=> n hn [k hk]; have n0 : (0 <= k)%ZZ by nia.
have /(primeP pq).2 : (Z.to_nat n %| q)%N.
  by apply/dvdnP; exists (Z.to_nat k); apply: Nat2Z.inj; rewrite hk Nat2Z.inj_mul !Z2Nat.id //; lia.
by move=> /orP[/eqP h|/eqP h]; lia.
Qed.
Lemma prime_of_Z (z : Z) : Znumtheory.prime z -> prime (Z.to_nat z).
Proof.
move=> pz; have z2 := Znumtheory.prime_ge_2 _ pz; apply/primeP; split; first by apply/ssrnat.ltP; lia.
move=> d /dvdnP [k E].
have /(Znumtheory.prime_divisors _ pz) : Z.divide (Z.of_nat d) z.
  by exists (Z.of_nat k); rewrite -Nat2Z.inj_mul -[(k * d)%coq_nat]/(k * d)%N -E Z2Nat.id //; lia.
case=> [h|[h|[h|h]]]; try by exfalso; lia.
  by apply/orP; left; apply/eqP; lia.
by apply/orP; right; apply/eqP; lia.
Qed.

Section Stage.
Variable p : positive.
Notation pn := (Pos.to_nat p).
Hypothesis p_pr : prime pn.
Notation S := (@modp_sem (Zpos p) pn isT (pnE p) p_pr).
Notation pv := (@pval (mc p) [comUnitRingType of 'F_pn] S).
Notation wf := (@wf (mc p) [comUnitRingType of 'F_pn] S).
Lemma SgS : S = gS (pdE (pnE p) p_pr) (pd_gt1 p_pr).
Proof. by []. Qed.
Lemma to_mod_F l : wf (to_mod p l) /\ pv (to_mod p l) = map_poly intr (Poly (map zi l)).
Proof. exact: (to_mod_spec (pdE (pnE p) p_pr) (pd_gt1 p_pr)). Qed.
Lemma dvd_F (z : Z) : ((zi z)%:~R == 0 :> 'F_pn) = (Z.rem z (Zpos p) =? 0)%ZZ.
Proof.
rewrite (intr0_dvd (pd_gt1 p_pr)) pdiv_id //.
have -> : (pn : int) = zi (Zpos p) by rewrite pnE zi_nat natz.
apply/dvdzP/Z.eqb_spec => [[k E]|h].
  apply/Z.rem_divide => //; exists (Z_of_int k); apply: zi_inj; rewrite zi_mul zi_surj //.
by move/Z.rem_divide: h => /(_ ltac:(by [])) [k ->]; exists (zi k); rewrite zi_mul.
Qed.
Lemma els_zv (self : zpoly) : zv self = Poly (map zi (els self)).
Proof. by rewrite /pval /coefficients map_id. Qed.
Lemma size_F (self : zpoly) : zwf self -> (Z.rem (lead self) (Zpos p) =? 0)%ZZ = false -> zv self != 0 ->
  size (pv (to_mod p (els self))) = size (zv self).
Proof.
move=> ws h s0; rewrite (to_mod_F _).2 -els_zv; apply: size_map_poly_id0.
by have [_ <-] := lead_spec ws; rewrite dvd_F h.
Qed.
End Stage.

Definition good_prime (self : zpoly) (p : positive) : Prop :=
  exists p_pr : prime (Pos.to_nat p),
    [/\ (2 < Pos.to_nat p)%N,
        size (@pval (mc p) [comUnitRingType of 'F_(Pos.to_nat p)] (@modp_sem (Zpos p) _ isT (pnE p) p_pr) (to_mod p (els self))) = size (zv self)
      & @square_free [fieldType of 'F_(Pos.to_nat p)] (pval (@modp_sem (Zpos p) _ isT (pnE p) p_pr) (to_mod p (els self)))].

Lemma find_prime_spec fuel pfuel (self : zpoly) : forall v, zwf self -> zv self != 0 -> (2 <= v < 2 ^ 31)%ZZ ->
  (forall q : nat, prime q -> (2 < q)%N -> (Z.of_nat q <= v)%ZZ -> bad_prime (zv self) q) ->
  match find_prime fuel pfuel self v with Ret p => good_prime self p | Panic => no_usable_prime (zv self) | NoFuel => True end.
Proof.
elim: fuel => [|fuel IH] v ws s0 hv hb //; cbn [find_prime].
have := next_prime_i32_spec pfuel v hv.
case: (next_prime_i32 pfuel v) => [[v'|]| |] //=.
  move=> [pz [hv' hn]].
  have IH' := IH v' ws s0 _; have {}IH' := IH' ltac:(lia).
  set p := Z.to_pos v'.
  have Ev : Zpos p = v' by rewrite Z2Pos.id //; lia.
  have p_pr : prime (Pos.to_nat p) by have := prime_of_Z pz; rewrite -Ev.
  have EP : pval (@modp_sem (Zpos p) _ isT (pnE p) p_pr) (to_mod p (els self)) = map_poly intr (zv self).
    by rewrite (to_mod_F p_pr _).2 -els_zv.
  have bad : bad_prime (zv self) (Pos.to_nat p) -> forall q : nat, prime q -> (2 < q)%N -> (Z.of_nat q <= v')%ZZ -> bad_prime (zv self) q.
    move=> hp q qp q2 qv; case: (Z.le_gt_cases (Z.of_nat q) v) => [h|h]; first exact: hb.
    case: (Z.eq_dec (Z.of_nat q) v') => [e|e].
      by have -> : q = Pos.to_nat p by lia.
    by have := hn (Z.of_nat q) (Z_of_prime qp) ltac:(lia); lia.
  case: ifP => hr; first by apply/IH'/bad; left; have [_ <-] := lead_spec ws; apply/eqP; rewrite dvd_F // Ev.
  rewrite -Ev in hr; have sF := size_F p_pr ws hr s0.
  have [wf' _] := to_mod_F p_pr (els self).
  have -> : degree (to_mod p (els self)) == degree self.
    by rewrite (degree_spec wf') (degree_spec ws) -!size_poly_eq0 sF.
  rewrite /assert_then.
  have f0 : pval (@modp_sem (Zpos p) _ isT (pnE p) p_pr) (to_mod p (els self)) != 0.
    by rewrite -size_poly_gt0 sF size_poly_gt0.
  have [b [-> Hb]] := modp_square_free (m_pos := (isT : (0 <? Zpos p)%ZZ)) wf' f0; rewrite rbind_Ret'.
  case: b Hb => [[sf _]|[_ sf]]; last by apply/IH'/bad; right; rewrite -EP; move=> /sf.
  exists p_pr; split=> //; last by apply: sf.
  by apply/ssrnat.ltP; lia.
move=> hn q qp q2 q31; case: (Z.le_gt_cases (Z.of_nat q) v) => [h|h]; first exact: hb.
by have := hn (Z.of_nat q) (Z_of_prime qp) ltac:(lia); lia.
Qed.
