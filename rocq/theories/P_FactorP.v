(** Proofs about factorisation over a prime field. *)
From Coq Require Import ZArith Lia.
Set Warnings "-notation-overridden,-ambiguous-paths".
From mathcomp Require Import all_ssreflect all_fingroup all_algebra.
From mathcomp Require Import finfield.
From mathcomp.zify Require Import ssrZ zify_ssreflect zify_algebra.
From Verif Require Import M_Base M_Traits M_Poly M_PolyCoef M_PolyAlg M_Factor S_Poly S_PolyAlg S_Factor
  P_Poly P_PolyDiv P_PolyInst P_PolyGcd P_PolyField P_PolyAlgInst P_Ffield.
Set Implicit Arguments.
Unset Strict Implicit.
Unset Printing Implicit Defensive.
Import GRing.Theory.
Local Open Scope ring_scope.
Delimit Scope Z_scope with ZZ.
Local Notation monic := mathcomp.algebra.poly.monic.

(** * Irreducible polynomials *)
Section Irr.
Variable F : fieldType.
Implicit Types P Q q g : {poly F}.

Lemma irr_coprime q P : irreducible_poly q -> ~~ (q %| P) -> coprimep q P.
Proof.
move=> [q1 irr] nd; rewrite coprimep_def; apply/negPn/negP => ne1.
have := irr _ ne1 (dvdp_gcdl q P); rewrite /eqp => /andP[_ H].
by move/negP: nd; apply; apply: dvdp_trans H (dvdp_gcdr q P).
Qed.
Lemma irr_mul q P Q : irreducible_poly q -> (q %| P * Q) = (q %| P) || (q %| Q).
Proof.
move=> irr; have [d|nd] /= := boolP (q %| P); first by rewrite dvdp_mulr.
by rewrite Gauss_dvdpr // irr_coprime.
Qed.
Lemma irr_size q : irreducible_poly q -> (1 < size q)%N.
Proof. by case. Qed.
Lemma irr_prod q l : irreducible_poly q -> (q %| \prod_(g <- l) g) = has (fun g => q %| g) l.
Proof.
move=> irr; elim: l => [|g l IH] /=; first by rewrite big_nil dvdp1; apply/negbTE; rewrite neq_ltn irr_size ?orbT.
by rewrite big_cons irr_mul // IH.
Qed.
Lemma irr_dvd_irr q g : irreducible_poly q -> irreducible_poly g -> q %| g -> q %= g.
Proof. by move=> [q1 _] [_ irr]; apply: irr; rewrite neq_ltn q1 orbT. Qed.
Lemma monic_eqp_eq q g : q \is monic -> g \is monic -> q %= g -> q = g.
Proof.
move=> /monicP mq /monicP mg /eqp_eq; rewrite mq mg !scale1r => ->//.
Qed.
End Irr.

(** A non-constant polynomial over a finite field has an irreducible divisor. *)
Lemma irr_exists (F : finFieldType) (P : {poly F}) : (1 < size P)%N ->
  exists2 q, irreducible_poly q & q %| P.
Proof.
have [n] := ubnP (size P); elim: n P => // n IH P; rewrite ltnS => sP P1.
have P0 : P != 0 by rewrite -size_poly_gt0 ltnW.
have [/existsP[v /and3P[v1 vP dv]]|no] :=
  boolP [exists v : 'rV[F]_(size P).-1, [&& (1 < size (rVpoly v))%N, (size (rVpoly v) < size P)%N & rVpoly v %| P]].
  have [|q irr dq] := IH (rVpoly v) _ v1; first by apply: leq_trans vP _.
  by exists q => //; apply: dvdp_trans dq dv.
exists P => //; split=> // q q1 dq.
have q0 : q != 0 by apply: contraTneq dq => ->; rewrite dvd0p.
rewrite -dvdp_size_eqp //; apply/negPn/negP => ne.
have lt : (size q < size P)%N by rewrite ltn_neqAle ne dvdp_leq.
move/existsPn: no => /(_ (poly_rV q)); rewrite poly_rV_K; last by rewrite -ltnS (ltn_predK P1).
by rewrite lt dq andbT /= ltn_neqAle eq_sym q1 size_poly_gt0 q0.
Qed.

Lemma sqf_dvd (F : fieldType) (P q : {poly F}) A : square_free P -> P != 0 -> irreducible_poly q ->
  P = A * q -> ~~ (q %| A).
Proof.
move=> sf P0 irr E; apply/negP => /dvdpP[B EB].
have := sf q B; rewrite E EB mulrA => /(_ erefl); rewrite leqNgt => /negP; apply; exact: irr_size irr.
Qed.

Section Fp.
Variable p : positive.
Notation pn := (Pos.to_nat p).
Hypothesis p_pr : prime pn.
Lemma pnE : Zpos p = Z.of_nat pn.  Proof. by rewrite positive_nat_Z. Qed.
Notation S := (@modp_sem (Zpos p) pn isT pnE p_pr).
Notation X := (mx p).
Notation Rd := (mr p).
Lemma HX : @exact_sem (mc p) [idomainType of 'F_pn] S X.
Proof. exact: modp_exact_sem. Qed.
Lemma HR : @reduce_sem (mc p) [fieldType of 'F_pn] S Rd.
Proof. exact: modp_reduce_sem. Qed.
Notation pv := (@pval (mc p) [comUnitRingType of 'F_pn] S).
Notation wf := (@wf (mc p) [comUnitRingType of 'F_pn] S).
Notation F := [finFieldType of 'F_pn].

Lemma cardF : #|F| = pn.
Proof. by rewrite card_Fp. Qed.

Lemma irredFp (q : {poly 'F_pn}) : irreducible_poly q -> q %| 'X^(pn ^ (size q).-1) - 'X.
Proof. by move/(irred_Fq (F := F)); rewrite cardF. Qed.
Lemma irredFp_min (q : {poly 'F_pn}) n : (0 < n)%N -> irreducible_poly q ->
  q %| 'X^(pn ^ n) - 'X -> ((size q).-1 <= n)%N.
Proof. by move=> n0 irr; have := @irred_Fq_min F q n n0 irr; rewrite cardF. Qed.

Lemma mod_dvd_mod (A G G' : {poly 'F_pn}) : G' %| G -> (A %% G) %% G' = A %% G'.
Proof.
move=> d; rewrite [in RHS](divp_eq A G) modpD; have /eqP-> : (A %/ G * G) %% G' == 0.
  by rewrite -/(dvdp _ _) dvdp_mull.
by rewrite add0r.
Qed.

Definition ddf_rest (i : nat) (G : {poly 'F_pn}) (l : seq {poly 'F_pn}) : Prop :=
  [/\ G = \prod_(g <- l) g, (forall j, nth 1 l j \is monic) &
    forall j q, irreducible_poly q -> (q %| nth 1 l j) <-> (q %| G /\ size q = (i + j).+1)].

Lemma ddf_loop_spec n : forall i x self power,
  wf x -> pv x = 'X -> wf self -> wf power -> (0 < i)%N ->
  pv self \is monic -> square_free (pv self) ->
  pv power = 'X^(pn ^ i) %% pv self ->
  (forall q : {poly 'F_pn}, irreducible_poly q -> q %| pv self -> (i < size q)%N) ->
  (0 < n)%N -> ((1 < size (pv self))%N -> (size (pv self) < n + i)%N) ->
  exists gs, [/\ ddf_loop n x self power = Ret gs, List.Forall wf gs &
    ddf_rest i (pv self) (map pv gs)].
Proof.
elim: n => // n IH i x self power wx ex ws wp i0 mon sf ep dmin _ fuel.
have s0 : pv self != 0 by exact: monic_neq0.
rewrite /=; have -> : poly_len self = size (pv self) by rewrite size_pval.
case: leqP => [le1|gt1].
  exists [::]; split=> //; split=> [||j q irr]; first 2 last.
  - rewrite nth_nil dvdp1 (gtn_eqF (irr_size irr)); split=> // -[d _].
    by have := leq_trans (irr_size irr) (leq_trans (dvdp_leq s0 d) le1).
  - rewrite big_nil; apply/eqP; have : size (pv self) = 1%N.
      by apply/eqP; rewrite eqn_leq le1 size_poly_gt0.
    move/eqP/size_poly1P => [c c0 E]; move: mon; rewrite E monicE lead_coefC => /eqP->.
    by [].
  - by move=> j; rewrite nth_nil monic1.
have {}fuel := fuel gt1.
have [wd ed] := sub_spec x wp; rewrite ex in ed.
have [g [Eg wg gg mg]] := poly_gcd_ok HX HR wd ws.
rewrite Eg rbind_Ret'.
have g0 : pv g != 0 by rewrite (eqp_eq0 gg) gcdp_eq0 negb_and s0 orbT.
have gm : pv g \is monic by case: mg => [E|/monicP//]; rewrite E eqxx in g0.
have gd : pv g %| pv self by rewrite (eqp_dvdl _ gg) dvdp_gcdr.
have [self' [rem' [_ _ [Ed _ _ _] [ws' _] [es' _]]]] := field_div HX ws wg g0.
rewrite Ed rbind_Ret'.
have EG : pv self = pv self' * pv g by rewrite es' divpK.
have s0' : pv self' != 0 by apply: contraNneq s0 => E; rewrite EG E mul0r.
have m' : pv self' \is monic by move: mon; rewrite EG monicMr.
have [power' [_ Ep wp' ep']] := powmod_spec HX (e := Zpos p) wp ws' s0' (Pos2Z.is_pos p).
rewrite Ep rbind_Ret'.
have key q : irreducible_poly q -> q %| pv self -> (q %| pv g) = (size q == i.+1).
  move=> irr dq; rewrite (eqp_dvdr _ gg) dvdp_gcd dq andbT ed.
  have -> : (q %| pv power - 'X) = (q %| 'X^(pn ^ i) - 'X).
    have E : 'X^(pn ^ i) - 'X = ('X^(pn ^ i) %/ pv self) * pv self + (pv power - 'X).
      by rewrite ep addrA -divp_eq.
    by rewrite E [RHS]dvdp_addr // dvdp_mull.
  have lo := dmin q irr dq.
  apply/idP/eqP => [d|E].
    apply/eqP; rewrite eqn_leq lo andbT.
    by have := irredFp_min i0 irr d; rewrite -ltnS (ltn_predK lo).
  by have := irredFp irr; rewrite E.
have sf' : square_free (pv self').
  by move=> h a E; apply: (sf h (a * pv g)); rewrite EG E mulrAC.
have nodup q : irreducible_poly q -> q %| pv g -> ~~ (q %| pv self').
  move=> irr dq; apply/negP => d2; have [A EA] := dvdpP _ _ dq; have [B EB] := dvdpP _ _ d2.
  have := sf q (B * A); rewrite EG EA EB mulrACA => /(_ erefl); by rewrite leqNgt irr_size.
have dself q : irreducible_poly q -> (q %| pv self') = (q %| pv self) && (size q != i.+1).
  move=> irr; apply/idP/andP => [d|[d ne]].
    have d2 : q %| pv self by rewrite EG dvdp_mulr.
    by split=> //; rewrite -key //; apply/negP => /(nodup q irr); rewrite d.
  by move: (d); rewrite EG irr_mul // key // (negbTE ne) orbF.
have dmin' q : irreducible_poly q -> q %| pv self' -> (i.+1 < size q)%N.
  move=> irr; rewrite dself // => /andP[d ne]; have := dmin q irr d.
  by move=> h; rewrite ltn_neqAle eq_sym ne.
have ssz : (size (pv self') <= size (pv self))%N.
  by rewrite dvdp_leq // EG dvdp_mulr.
have big : (1 < size (pv self'))%N -> (i.+2 <= size (pv self'))%N.
  move=> h; have [q irr d] := irr_exists (F := F) h.
  exact: leq_trans (dmin' q irr d) (dvdp_leq s0' d).
have big0 : (i.+1 <= size (pv self))%N.
  have [q irr d] := irr_exists (F := F) gt1.
  exact: leq_trans (dmin q irr d) (dvdp_leq s0 d).
have [|||rest [Er wr [r1 r2 r3]]] := IH i.+1 x self' power' wx ex ws' wp' isT m' sf' _ dmin'.
- rewrite ep' ep; apply: etrans (modp_congX _ (mod_dvd_mod _ _)) _.
    by rewrite EG dvdp_mulr.
  by rewrite -exprM -expnSr.
- by have := leq_ltn_trans big0 fuel; rewrite addSn ltnS -{1}[i]add0n ltn_add2r.
- by move=> _; rewrite addnS -addSn; exact: leq_ltn_trans ssz fuel.
rewrite Er rbind_Ret'; exists (g :: rest); split=> //; first by constructor.
split=> [||[|j] q irr] /=.
- by rewrite big_cons -r1 EG mulrC.
- by case.
- rewrite addn0; split=> [d|[d /eqP]]; last by rewrite key.
  have d2 : q %| pv self := dvdp_trans d gd.
  by split=> //; apply/eqP; rewrite -key.
- rewrite r3 // addSnnS dself //; split=> [[/andP[]]|[-> ->]] //.
  by split=> //; rewrite eqSS -{2}[i]addn0 eqn_add2l.
Qed.

Lemma const_size1 c : S_Poly.vc S c != 0 -> size (S_Poly.vc S c)%:P = 1%N.
Proof. by rewrite size_polyC => ->. Qed.

Lemma ddf_spec self : wf self -> pv self != 0 -> square_free (pv self) ->
  exists gs, [/\ distinct_degree_factorization self = Ret gs, List.Forall wf gs &
    distinct_degree_parts (pv self) (map pv gs)].
Proof.
move=> ws s0 sf; rewrite /distinct_degree_factorization.
have [lE lv] := lead_spec ws; rewrite lE (negbTE s0).
set c := lead self in lv *.
have c0 : S_Poly.vc S c != 0 by rewrite lv lead_coef_eq0.
have [self' [Ed ws' es']] := div_field HX ws c0; rewrite Ed rbind_Ret'.
have [wx ex] := make_monomial_spec S (c_one (mc p)) 1.
have {}ex : pv (make_monomial (c_one (mc p)) 1) = 'X by rewrite ex vc1 scale1r expr1.
set x := make_monomial _ _ in wx ex *.
have e0 : pv self = (S_Poly.vc S c) *: pv self' by rewrite es' scalerA mulfV // scale1r.
have s0' : pv self' != 0 by apply: contraNneq s0 => E; rewrite e0 E scaler0.
have mon : pv self' \is monic.
  by rewrite monicE es' lead_coefZ -lv mulVf.
have eqs : pv self' %= pv self by rewrite e0 eqp_sym eqp_scale.
have sf' : square_free (pv self').
  by move=> h a E; apply: (sf h (S_Poly.vc S c *: a)); rewrite e0 E scalerAl.
have [power [_ Ep wp ep]] := powmod_spec HX (e := Zpos p) wx ws' s0' (Pos2Z.is_pos p).
rewrite Ep rbind_Ret'; rewrite ex in ep.
have len : poly_len self' = size (pv self') by rewrite size_pval.
have [||||gs [Eg wg [g1 g2 g3]]] := @ddf_loop_spec (poly_len self') 1 x self' power wx ex ws' wp isT mon sf'.
- by rewrite expn1.
- by move=> q /irr_size.
- by rewrite len size_poly_gt0.
- by rewrite len addn1.
rewrite Eg rbind_Ret'; have [wc ec] := from_coef_spec S (K := mc p) c.
eexists; split; [reflexivity|by constructor|].
have P : pv self = \prod_(g <- pv (from_coef c) :: map pv gs) g.
  by rewrite big_cons -g1 ec mul_polyC.
split=> //=.
- by rewrite ec const_size1.
- by case=> // i _; exact: g2.
- case=> //= i q _ irr; by rewrite g3 // add1n (eqp_dvdr _ eqs); split.
Qed.

Lemma ddf_zero self : wf self -> pv self = 0 ->
  distinct_degree_factorization self = Ret [:: poly_zero (mc p)].
Proof.
by move=> ws s0; rewrite /distinct_degree_factorization; have [-> _] := lead_spec ws; rewrite s0 eqxx.
Qed.

(** * Same-degree factorisation *)
Variables (rng : nat -> Z) (d : nat).
Hypotheses (p_odd : (2 < pn)%N) (d0 : (0 < d)%N).
Notation ee := (Z.quot (Zpos p ^ Z.of_nat d - 1) 2)%ZZ.

Lemma ee_pos : (0 < ee)%ZZ.
Proof.
apply: Z.quot_str_pos; split=> //.
have : (Zpos p ^ 1 <= Zpos p ^ Z.of_nat d)%ZZ by apply: Z.pow_le_mono_r; lia.
by rewrite Z.pow_1_r; lia.
Qed.

Lemma random_wf pos : wf (random_polynomial p rng d pos).
Proof. exact: (from_iterator_spec S (K := mc p) _).1. Qed.

Definition no_panic {A} (r : res A) (P : A -> Prop) : Prop :=
  match r with Ret a => P a | Panic => False | NoFuel => True end.

Lemma sdf_try_spec fuel : forall f pos, wf f -> (1 < size (pv f))%N ->
  no_panic (sdf_try rng fuel d ee f pos) (fun '(g, q, pos') =>
    [/\ wf g /\ wf q, pv f = pv q * pv g, pv g \is monic, (1 < size (pv g))%N & (1 < size (pv q))%N]).
Proof.
elim: fuel => //= fuel IH f pos wff f1.
have f0 : pv f != 0 by rewrite -size_poly_gt0 ltnW.
have [t [_ Et wt _]] := powmod_spec HX (random_wf pos) wff f0 ee_pos.
rewrite Et rbind_Ret'.
have [w1 _] := sub_single_spec (S := S) t (c_one (mc p)) (fun _ => erefl).
have [g [Eg wg gg mg]] := poly_gcd_ok HX HR wff w1.
rewrite Eg rbind_Ret'.
have lg : poly_len g = size (pv g) by rewrite size_pval.
have lf : poly_len f = size (pv f) by rewrite size_pval.
have g0 : pv g != 0 by rewrite (eqp_eq0 gg) gcdp_eq0 negb_and f0.
rewrite /degree_or_0 (degree_spec wg) (negbTE g0) lg lf.
case: ifP => [/andP[h1 h2]|_]; last exact: IH.
have dg : pv g %| pv f by rewrite (eqp_dvdl _ gg) dvdp_gcdl.
have E : pv f = (pv f %/ pv g) * pv g by rewrite divpK.
have [q [Eq _ wq eq]] := exact_div_ok HX wff wg g0 E.
rewrite Eq rbind_Ret' /=; split=> //.
- by rewrite eq.
- by case: mg => [E2|/monicP//]; rewrite E2 eqxx in g0.
- by move: h1; case: (size _) => [|[]].
- rewrite eq size_divp //; move: h1 h2; move: (size (pv f)) (size (pv g)) => a b; clear; lia.
Qed.

Lemma degree_eqE f : wf f -> pv f != 0 -> (degree f == Some d) = (size (pv f) == d.+1).
Proof.
move=> wff f0; rewrite (degree_spec wff) (negbTE f0).
by move: f0; rewrite -size_poly_gt0; case: (size _).
Qed.

Lemma all_deg_irr (P : {poly 'F_pn}) : all_factors_degree P d -> size P = d.+1 -> irreducible_poly P.
Proof.
move=> A sP; split=> [|q q1 dq]; first by rewrite sP.
have P0 : P != 0 by rewrite -size_poly_gt0 sP.
have q0 : q != 0 by apply: contraTneq dq => ->; rewrite dvd0p.
have q2 : (1 < size q)%N by rewrite ltn_neqAle eq_sym q1 size_poly_gt0.
have [r irr dr] := irr_exists (F := F) q2.
have sr := A r irr (dvdp_trans dr dq).
rewrite -dvdp_size_eqp // eqn_leq dvdp_leq //= sP -sr dvdp_leq //.
Qed.

Lemma all_deg_dvd (P Q : {poly 'F_pn}) : Q %| P -> all_factors_degree P d -> all_factors_degree Q d.
Proof. by move=> dv A q irr dq; apply: A irr (dvdp_trans dq dv). Qed.
Lemma all_deg_size (P : {poly 'F_pn}) : all_factors_degree P d -> (1 < size P)%N -> (d < size P)%N.
Proof.
move=> A P1; have [r irr dr] := irr_exists (F := F) P1.
by rewrite -(A r irr dr) dvdp_leq // -size_poly_gt0 ltnW.
Qed.

Definition stack_ok (f : mpoly p) : Prop :=
  [/\ wf f, pv f \is monic, (1 < size (pv f))%N & all_factors_degree (pv f) d].

Lemma sdf_loop_spec tries fuel : forall stack pos, List.Forall stack_ok stack ->
  no_panic (sdf_loop rng fuel tries d ee stack pos) (fun '(l, pos') =>
    [/\ List.Forall wf l, \prod_(g <- map pv l) g = \prod_(g <- map pv stack) g &
        forall g, g \in map pv l -> [/\ irreducible_poly g, g \is monic & size g = d.+1]]).
Proof.
elim: fuel => [|fuel IH] [|f stack] pos //= H.
have [wff mf f1 Af] := List.Forall_inv H; have Hs := List.Forall_inv_tail H.
have f0 : pv f != 0 by rewrite -size_poly_gt0 ltnW.
have dle := all_deg_size Af f1.
rewrite /degree_or_0 (degree_spec wff) (negbTE f0).
have -> : (d <= (size (pv f)).-1)%N by rewrite -ltnS (ltn_predK f1).
rewrite /assert_then.
have -> : (Some (size (pv f)).-1 == Some d) = (size (pv f) == d.+1).
  by rewrite -{2}(ltn_predK f1) eqSS.
case: eqP => [sf|nsf].
  have := IH stack pos Hs; case: (sdf_loop _ _ _ _ _ _ _) => [[l pos']| |] //= [wl pl il].
  split=> [|| g]; first by constructor.
    by rewrite !big_cons pl.
  rewrite inE => /orP[/eqP->|/il//]; split=> //; exact: all_deg_irr.
have := sdf_try_spec tries pos wff f1.
case: (sdf_try _ _ _ _ _ _) => [[[g q] pos']| |] //= [[wg wq] E mg g1 q1].
have mq : pv q \is monic by move: mf; rewrite E monicMr.
have okg : stack_ok g by split=> //; apply: all_deg_dvd Af; rewrite E dvdp_mull.
have okq : stack_ok q by split=> //; apply: all_deg_dvd Af; rewrite E dvdp_mulr.
have ok2 : List.Forall stack_ok [:: q, g & stack] by do 2 constructor=> //.
have := IH [:: q, g & stack] pos' ok2; case: (sdf_loop _ _ _ _ _ _ _) => [[l pos2]| |] //= [wl pl il].
split=> //; by rewrite pl !big_cons E mulrA.
Qed.

Lemma irr_list (P : {poly 'F_pn}) l : P = \prod_(g <- l) g ->
  (forall g, g \in l -> irreducible_poly g /\ g \is monic) -> irreducible_factors P l.
Proof.
move=> E H; split=> // q irr mq; rewrite E irr_prod //; apply/idP/hasP => [ql|[g gl dv]].
  by exists q.
have [ig mg] := H g gl.
by rewrite (monic_eqp_eq mq mg (irr_dvd_irr irr ig dv)).
Qed.

Lemma sdf_spec tries self pos : wf self -> pv self \is monic -> (1 < size (pv self))%N ->
  all_factors_degree (pv self) d ->
  no_panic (same_degree_factorization rng tries d self pos) (fun '(l, pos') =>
    List.Forall wf l /\ irreducible_factors (pv self) (map pv l)).
Proof.
move=> ws ms s1 As; rewrite /same_degree_factorization d0 /=.
have s0 : pv self != 0 by rewrite -size_poly_gt0 ltnW.
have -> : poly_len self = size (pv self) by rewrite size_pval.
rewrite s1 /= degree_eqE //; case: eqP => [sd|_] /=.
  split; first by constructor.
  apply: irr_list => [|g]; first by rewrite big_seq1.
  by rewrite inE => /eqP->; split=> //; exact: all_deg_irr.
have [-> lv] := lead_spec ws; rewrite (negbTE s0).
have -> : (rv (lead self) =? 1)%ZZ = true.
  have := ve_is_one S (lead self); rewrite /= => ->.
  by move: lv; rewrite /= => ->; move/monicP: ms => ->.
rewrite /assert_then.
have ok : List.Forall stack_ok [:: self] by constructor.
have := sdf_loop_spec tries (2 * size (pv self))%N pos ok.
case: (sdf_loop _ _ _ _ _ _ _) => [[l pos']| |] //= [wl pl il].
split=> //; apply: irr_list => [|g /il[]//].
by rewrite pl /= big_seq1.
Qed.
End Fp.
