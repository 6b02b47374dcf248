(** Powers of real algebraic numbers. *)
From Coq Require Import ZArith QArith Qabs Qreals Qround Reals Lia Lra.
Set Warnings "-notation-overridden,-ambiguous-paths".
From mathcomp Require Import all_ssreflect all_algebra all_field.
From mathcomp.zify Require Import ssrZ.
From Verif Require Import M_Base M_Traits M_Util M_Interval M_IntervalExp M_Poly M_PolyCoef P_PolyInst M_PolyAlg M_Factor M_Alg
  S_Poly S_PolyAlg S_Factor S_Interval P_Traits P_Interval P_IntervalExp P_ExpSign P_Poly P_PolyAlgInst P_PolyAlgRef P_FactorZ P_FactorAll P_FactorSF
  P_Rstruct S_Alg S_AlgOps P_AlgBase P_AlgShrink P_AlgBasic P_AlgSign P_AlgNeg P_AlgRecip P_AlgSelect P_AlgRoot P_AlgRes.
Set Implicit Arguments.
Unset Strict Implicit.
Unset Printing Implicit Defensive.
Import Order.TTheory GRing.Theory Num.Theory.
Delimit Scope Z_scope with ZZ.
Delimit Scope R_scope with RR.
Delimit Scope Q_scope with QQ.
Local Open Scope R_scope.
Local Notation Rt p := (root (real_poly p)).
Local Notation PV p := (pval int_sem p).

(** * What the selection loop returns, if it returns *)
Section Sound.
Variables (St : Type) (get : St -> res dfi) (step : St -> res St) (v : R) (vis : nat -> St -> Prop).
Hypothesis vis_step : forall n s s', vis n s -> step s = Ret s' -> vis n.+1 s'.
Definition end_found (gs : seq zpoly) (z : ralg) : Prop :=
  exists s i q, [/\ get s = Ret i, inI v i, z = ra_from_ratio q, Qred q = q & (Q2R q = lo i \/ Q2R q = hi i) /\ rooted (Q2R q) gs].
Definition root_found (gs : seq zpoly) (z : ralg) : Prop :=
  exists i g, [/\ z = RA g i, inI v i, List.In g gs, Rt g v & forall w, inI w i -> Rt g w -> w = v].
Lemma found_sub gs gs' z : (forall P : zpoly -> Prop, List.Forall P gs -> List.Forall P gs') ->
  end_found gs' z \/ root_found gs' z -> end_found gs z \/ root_found gs z.
Proof.
move=> h [[s [i [q [e1 e2 e3 e4 [e5 e6]]]]]|[i [g [e1 e2 e3 e4 e5]]]]; [left|right].
  by exists s, i, q; split=> //; split=> //; exact: rooted_sub e6.
exists i, g; split=> //; have : List.Forall (fun g => List.In g gs) gs by apply/List.Forall_forall.
by move/h/List.Forall_forall; exact.
Qed.
Lemma select_loop_sound fuel : forall k s gs l z, vis k s ->
  (forall n s i, (n < k + fuel)%N -> vis n s -> get s = Ret i -> inI v i) ->
  List.Forall2 seq_of gs l -> apart gs -> rooted v gs ->
  select_loop get step fuel s l = Ret z -> end_found gs z \/ root_found gs z.
Proof.
elim: fuel => // fuel IH k s gs l z vk vin H ap rv; cbn [select_loop].
case eg: (get s) => [i| |] //; cbn [rbind].
have iv : inI v i by apply: (vin k s) => //; rewrite addnS ltnS leq_addr.
have ok : lo i <= hi i by move: iv; rewrite inIE; lra.
have := pass_ok ok [::] 0 H ap; case EP: (select_pass _ _ _ _ _) => [q|[kp m]].
  by case=> h1 h2 h3 [<-]; left; exists s, i, q; split.
case=> gs' [l' [t [ek fl [le1 le2 le3 le4] [us ms em]]]]; rewrite add0n in em; rewrite /= in ek.
case: (leqP m 1) => m1; last first.
  case es: (step s) => [s'| |] //; cbn [rbind]; rewrite ek => E.
  apply: (found_sub le1); apply: (IH k.+1 s' gs' l' z) => //.
  - exact: vis_step es.
  - by move=> n s2 i2 hn; apply: vin; rewrite addnS -addSn.
  - by move=> w; apply: leq_trans (le2 w) (ap w).
  - by rewrite le4.
rewrite em in m1; have vs : v \in t by apply/ms.
have only w : w \in t -> w = v by case: t m1 vs {ms us em} => [|c []] // _; rewrite !inE => /eqP -> /eqP.
case: fl le1 le2 le3 le4 ek => [|g x gs2 l2 [sg hd] fl2] le1 le2 le3 le4 -> // [<-]; right.
have ing : List.In g gs.
  have : List.Forall (fun g => List.In g gs) gs by apply/List.Forall_forall.
  by move/le1 => H'; inversion_clear H'.
have u w : inI w i -> Rt g w -> w = v.
  by move=> iw rw; apply: only; apply/ms; split=> //; rewrite -le4 // /rooted /= rw.
exists i, g; split=> //; first by rewrite hd.
inversion_clear le3 as [|? ? [w iw rw] _]; by rewrite -(u w iw rw).
Qed.

Lemma select_sound rng ffuel fuel s P c fs z : wf int_sem P -> PV P != 0%R -> Rt P v -> vis 0 s ->
  (forall n s i, (n < fuel)%N -> vis n s -> get s = Ret i -> inI v i) ->
  (forall s i q, get s = Ret i -> inI v i -> Q2R q = lo i \/ Q2R q = hi i -> Rt P (Q2R q) -> Q2R q = v) ->
  factor_with_rng rng ffuel P = Ret (c, fs) ->
  (forall f n, List.In (f, n) fs -> Rt f v -> irreducible_over_Q (PV f)) ->
  select_root get step rng ffuel fuel s P = Ret z -> denotes z v /\ canonical z.
Proof.
move=> wP P0 Pv v0 vin ends E irr; rewrite /select_root E; cbn [rbind].
have := @factor_all_ok rng ffuel P wP; rewrite E => -[fo EP].
have [l [el fl]] := sturm_map fo; rewrite el; cbn [rbind].
have rad := factor_rad wP E.
have ap : apart (map fst fs) by apply: sep_apart; rewrite big_map.
have rr w := factor_root w EP P0 fo.
move=> L; have := select_loop_sound (k := 0) v0 vin fl ap _ L; rewrite -rr => /(_ Pv).
case=> [[s2 [i [q [e1 e2 -> e4 [e5 e6]]]]]|[i [g [-> iv ig rg u]]]].
  have [d c1] := from_ratio_denotes e4; split=> //.
  by rewrite -(ends s2 i q) // rr.
have /List.in_map_iff [f [ef inf]] := ig.
have [pf s1 _] : factor_ok f by move/List.Forall_forall: fo; exact.
rewrite -ef in rg u *; split; last exact: (proj2 pf).
split=> //=; first exact: (proj1 pf).
- by case: f inf rg {ef pf s1 u} => f k; exact: irr.
- by move=> _; exact: (proj2 pf).
Qed.
End Sound.

(** * The intervals *)
Definition ln2_good (ln2 : nat -> res dfi) : Prop := forall n, exists l, ln2 n = Ret l /\ ln2_ok n l.
Lemma dyadic_0 k : dyadic 0 k = 0.
Proof. by rewrite /dyadic /Rdiv Rmult_0_l. Qed.
Lemma pow_interval_nn ln2 e s i : ln2_good ln2 -> pow_interval ln2 e Positive s = Ret i -> 0 <= lo i.
Proof.
move=> H; rewrite /pow_interval; set j := dfi_abs _.
have nn k : (0 <= dlo k)%ZZ -> 0 <= lo k.
  by move=> h; rewrite /lo -(dyadic_0 (dlog k)); apply/dyadic_le.
case: Z.eqb_spec => e1.
  by case: Z.eqb_spec => e2 //=; case=> <-; apply: nn; rewrite e2; exact: Z.le_refl.
case: (dfi_log _ _) => [i1| |] //; cbn [rbind].
case E: (dfi_exp _ _) => [i2| |] //; cbn [rbind].
have h2 := dfi_exp_nn _ _ _ H E.
case: ifP => _; cbn [rbind]; last by case=> <-; exact: nn.
rewrite /dfi_set_lower_bound_to_zero; case: negb; cbn [assert_then rbind] => //.
by case=> <-; apply: nn; cbn [dlo]; exact: Z.le_refl.
Qed.
Lemma pow_interval_neg ln2 e s i : pow_interval ln2 e Negative s = Ret i ->
  pow_interval ln2 e Positive s = Ret i /\ lo i = 0 /\ hi i = 0 \/
  exists j, [/\ pow_interval ln2 e Positive s = Ret j, lo i = - hi j & hi i = - lo j].
Proof.
rewrite /pow_interval; set j := dfi_abs _; case: Z.eqb_spec => e1.
  case: Z.eqb_spec => e2 //=; case=> <-; left; split=> //.
  by rewrite /lo /hi e1 e2 dyadic_0.
case: (dfi_log _ _) => [i1| |] //; cbn [rbind].
case: (dfi_exp _ _) => [i2| |] //; cbn [rbind].
case: (if _ then _ else _) => [i3| |] //; cbn [rbind] => -[<-]; right.
by exists i3; split=> //; rewrite /lo /hi /dfi_neg /= dyadic_opp.
Qed.

Lemma powE (x : R) n : (x ^+ n)%R = x ^ n.
Proof. by elim: n => // n IH; rewrite exprS IH. Qed.
Lemma pow_abs_inj (u w : R) d : (0 < d)%N -> u ^ d = w ^ d -> Rabs u = Rabs w.
Proof.
move=> d0 e; have e' : Rabs u ^ d = Rabs w ^ d by rewrite !RPow_abs e.
have d0' : d <> 0%N by case: (d) d0.
have lt p q : 0 <= p -> p < q -> p ^ d < q ^ d.
  move=> p0 pq; case: d d0 {e e' d0'} => // d _.
  have h : p ^ d <= q ^ d by apply: pow_incr; lra.
  have qd : 0 < q ^ d by apply: pow_lt; lra.
  by have pd := pow_le p d p0; rewrite /=; nra.
case: (Rtotal_order (Rabs u) (Rabs w)) => [h|[//|h]].
  by have := lt _ _ (Rabs_pos u) h; lra.
by have := lt _ _ (Rabs_pos w) h; lra.
Qed.

(** * The polynomial of the power *)
Lemma power_resultant a x n d v : denotes a x -> x <> 0 -> (0 < n)%N -> (0 < d)%N -> v ^ d = x ^ n ->
  exists r, [/\ pow_resultant (mp a) n d = Ret r, wf int_sem r, PV r != 0%R, Rt r v &
    forall q, Rt r (Q2R q) -> Q2R q ^ d = x ^ n].
Proof.
move=> D x0 n0 d0 ev; have [r [e w h]] := pow_resultant_spec d (den_wf D) (den_neq0 D) n0.
have hq q : Rt r (Q2R q) -> Q2R q ^ d = x ^ n.
  rewrite root_rat h => hh.
  have rx : root (map_poly ratr (map_poly intr (PV (mp a)))) x by rewrite real_rat; exact: den_root D.
  by have := irr_share (den_irr D) hh rx; rewrite root_pow q2rat_R !powE => /eqP.
exists r; split=> //.
- apply/negP => /eqP r0; have := hq 0%QQ; rewrite /real_poly r0 rmorph0 root0 => /(_ isT).
  rewrite (_ : Q2R 0%QQ = 0); last by rewrite /Q2R /= Rmult_0_l.
  rewrite pow_i; last by apply/ssrnat.ltP.
  by move=> h0; exact: (pow_nonzero x n x0).
rewrite /real_poly h; apply: (common_root (w := x)); first exact: real_n0 (den_neq0 D).
  exact: den_root D.
by rewrite /pow_at /root hornerD hornerN hornerC hornerXn !powE ev subrr.
Qed.

Lemma pow_core ln2 rng ffuel fuel a x n d e sign s r z v : ln2_good ln2 -> denotes a x -> x <> 0 -> (0 < n)%N -> (0 < d)%N ->
  v ^ d = x ^ n -> (if sign is Positive then 0 < v else v < 0) ->
  (forall k s i, (k < fuel)%N -> refine_steps k a = Ret s -> pow_interval ln2 e Positive s = Ret i -> inI (Rabs v) i) ->
  factoring_ok rng ffuel (pow_resultant (mp a) n d) v ->
  pow_resultant (mp a) n d = Ret r -> ra_shrinker a = Ret s ->
  select_root (pow_interval ln2 e sign) (fun s => rmap snd (shrink s)) rng ffuel fuel s r = Ret z ->
  denotes z v /\ canonical z.
Proof.
move=> H2 D x0 n0 d0 ev sg enc fo er es.
have [r' [er' wr r0 rv hq]] := power_resultant D x0 n0 d0 ev; move: er'; rewrite er => -[e']; rewrite -{}e' in wr r0 rv hq.
have [c [fs [E irr]]] := fo r er.
apply: (select_sound (vis := fun n s => refine_steps n a = Ret s) _ wr r0 rv _ _ _ E irr) => //.
- by move=> k t t' /= -> h.
- move=> k t i hk ht; case: sign sg => sg; last first.
    by move=> h; have := enc k t i hk ht h; rewrite Rabs_right //; lra.
  case/pow_interval_neg => [[h [h1 h2]]|[j [h h1 h2]]].
    by have := enc k t i hk ht h; rewrite inIE h1 h2 Rabs_left //; lra.
  by have := enc k t j hk ht h; rewrite !inIE h1 h2 Rabs_left //; lra.
move=> t i q gi iv en /hq eq; move: iv; rewrite inIE => iv.
have : Rabs (Q2R q) = Rabs v by apply: (pow_abs_inj d0); rewrite eq.
suff : if sign is Positive then 0 <= Q2R q else Q2R q <= 0.
  by case: sign sg {gi} => sg s0; rewrite /Rabs; do 2!case: Rcase_abs => ?; lra.
case: sign sg gi => sg gi; last by have := pow_interval_nn H2 gi; lra.
case: (pow_interval_neg gi) => [[_ [h1 h2]]|[j [h h1 h2]]]; first by lra.
by have := pow_interval_nn H2 h; lra.
Qed.

(** * checked_pow *)
Lemma to_usize_fits z : (0 <= z < 2 ^ 64)%ZZ -> to_usize z = Some (Z.to_nat z).
Proof. by move=> h; rewrite /to_usize; case: Z.leb_spec => ?; case: Z.leb_spec; rewrite /usize_max => ?; try lia. Qed.
Lemma to_usize_big z : (2 ^ 64 <= z)%ZZ -> to_usize z = None.
Proof. by move=> h; rewrite /to_usize; case: Z.leb_spec => ?; case: Z.leb_spec; rewrite /usize_max => ? //; try lia. Qed.
Lemma integerP e : ratio_is_integer e = true <-> Qden e = 1%positive.
Proof. by rewrite /ratio_is_integer Z.eqb_eq; split=> [[]|->]. Qed.
Lemma Q2R_int e : Qden e = 1%positive -> Q2R e = IZR (Qnum e).
Proof. by move=> h; rewrite /Q2R h Rinv_1 Rmult_1_r. Qed.

Section Pow.
Variables (ln2 : nat -> res dfi) (rng : nat -> Z) (ffuel fuel : nat).
Local Notation cpow := (ra_checked_pow rng ffuel fuel ln2).

(** The last branch *)
Definition pow_rest (a : ralg) (e : Q) (neg : bool) : res (option ralg) :=
  (n <- unwrap (to_usize (Z.abs (Qnum e))) ;;
   d <- unwrap (to_usize (Zpos (Qden e))) ;;
   br <- (if d == 1%N then ra_to_rational a else Ret None) ;;
   match br with
   | Some q =>
       let '(nu, de) := if (Qnum e <? 0)%ZZ then (Zpos (Qden q), Qnum q) else (Qnum q, Zpos (Qden q)) in
       rmap (fun q' => Some (ra_from_ratio q')) (ratio_new (nu ^ Z.of_nat n)%ZZ (de ^ Z.of_nat n)%ZZ)
   | None =>
       base <- pow_base fuel a e ;;
       r <- pow_resultant (mp base) n d ;;
       s <- ra_shrinker base ;;
       e' <- ratio_new (Z.of_nat n) (Z.of_nat d) ;;
       rmap Some (select_root (pow_interval ln2 e' (if neg && Z.odd (Qnum e) then Negative else Positive))
         (fun s => rmap snd (shrink s)) rng ffuel fuel s r)
   end)%res.

Variables (a : ralg) (x : R) (e : Q).
Hypothesis D : denotes a x.
Definition unit_exp : Prop := Qden e = 1%positive /\ (Qnum e = 1%ZZ \/ Qnum e = (-1)%ZZ).
Definition unit_base : Prop := x = 0 \/ x = 1 \/ x = -1.

Lemma unit_expP : ((Qnum e =? 1)%ZZ && ratio_is_integer e = true \/ (Qnum e =? -1)%ZZ && ratio_is_integer e = true) <-> unit_exp.
Proof.
split.
  by case=> /andP[/Z.eqb_eq h /integerP h2]; split=> //; [left|right].
by case=> /integerP -> [->|->]; [left|right].
Qed.
Lemma pow_exp0 : Qnum e = 0%ZZ -> cpow a e = Ret (if ra_is_zero a then None else Some ra_one).
Proof. by move=> h; rewrite /ra_checked_pow h. Qed.
Lemma pow_exp1 : Qnum e = 1%ZZ -> Qden e = 1%positive -> cpow a e = Ret (Some a).
Proof. by move=> h /integerP h2; rewrite /ra_checked_pow h h2. Qed.
Lemma pow_expN1 : Qnum e = (-1)%ZZ -> Qden e = 1%positive -> cpow a e = ra_checked_recip fuel a.
Proof. by move=> h /integerP h2; rewrite /ra_checked_pow h h2. Qed.
Lemma not_unit_exp : ~ unit_exp -> ((Qnum e =? 1)%ZZ && ratio_is_integer e = false) /\ ((Qnum e =? -1)%ZZ && ratio_is_integer e = false).
Proof.
move=> nu; split; apply/negP => h; apply: nu; apply/unit_expP; [by left|by right].
Qed.
Lemma pow_base0 : Qnum e <> 0%ZZ -> ~ unit_exp -> x = 0 -> cpow a e = Ret (if (Qnum e <? 0)%ZZ then None else Some ra_zero).
Proof.
move=> n0 /not_unit_exp [h1 h2] /(is_zero_spec D) z; rewrite /ra_checked_pow h1 h2 z.
by case: Z.eqb_spec.
Qed.
Lemma pow_base1 : Qnum e <> 0%ZZ -> ~ unit_exp -> x = 1 -> cpow a e = Ret (Some ra_one).
Proof.
move=> n0 /not_unit_exp [h1 h2] ex; have /(is_one_spec D) o := ex; rewrite /ra_checked_pow h1 h2 o.
case: Z.eqb_spec => // _; case z: (ra_is_zero a) => //; move/(is_zero_spec D): z; lra.
Qed.
Lemma pow_baseN1 : Qnum e <> 0%ZZ -> ~ unit_exp -> x = -1 ->
  cpow a e = Ret (if ratio_is_integer e then Some (if Z.odd (Qnum e) then ra_negative_one else ra_one) else None).
Proof.
move=> n0 /not_unit_exp [h1 h2] ex; have /(is_negative_one_spec D) o := ex; rewrite /ra_checked_pow h1 h2 o.
case: Z.eqb_spec => // _; case z: (ra_is_zero a); first by move/(is_zero_spec D): z; lra.
by case z1: (ra_is_one a) => //; move/(is_one_spec D): z1; lra.
Qed.
Lemma pow_negative : Qnum e <> 0%ZZ -> x < 0 -> Qden e <> 1%positive -> cpow a e = Ret None.
Proof.
move=> n0 hx hd; have i : ratio_is_integer e = false by apply/negP => /integerP.
rewrite /ra_checked_pow i !andbF; case: Z.eqb_spec => // _.
case z: (ra_is_zero a); first by move/(is_zero_spec D): z; lra.
case z1: (ra_is_one a); first by move/(is_one_spec D): z1; lra.
case: (ra_is_negative_one a) => //.
have [neg [-> hn]] := is_negative_spec D; cbn [rbind].
by have -> : neg = true by apply/hn.
Qed.
Lemma pow_general : Qnum e <> 0%ZZ -> ~ unit_exp -> ~ unit_base -> (x < 0 -> Qden e = 1%positive) ->
  exists neg, (neg = true <-> x < 0) /\ cpow a e = pow_rest a e neg.
Proof.
move=> n0 /not_unit_exp [h1 h2] ub hx; rewrite /ra_checked_pow h1 h2; case: Z.eqb_spec => // _.
case Z0: (ra_is_zero a); first by case: ub; left; apply/(is_zero_spec D).
case O1: (ra_is_one a); first by case: ub; right; left; apply/(is_one_spec D).
case N1: (ra_is_negative_one a); first by case: ub; right; right; apply/(is_negative_one_spec D).
have [neg [-> hn]] := is_negative_spec D; exists neg; split=> //; cbn [rbind].
have -> : neg && ~~ ratio_is_integer e = false.
  by apply/negP => /andP[/hn /hx /integerP ->].
by [].
Qed.
Lemma exp_cases : [\/ Qnum e = 0%ZZ, Qden e = 1%positive /\ Qnum e = 1%ZZ, Qden e = 1%positive /\ Qnum e = (-1)%ZZ |
  Qnum e <> 0%ZZ /\ ~ unit_exp].
Proof.
case: (Z.eq_dec (Qnum e) 0) => [h|h]; first by constructor 1.
case: (Pos.eq_dec (Qden e) 1) => hd; last by constructor 4; split=> // -[].
case: (Z.eq_dec (Qnum e) 1) => h1; first by constructor 2.
case: (Z.eq_dec (Qnum e) (-1)) => h2; first by constructor 3.
by constructor 4; split=> // -[_ []].
Qed.
Lemma base_cases : [\/ x = 0, x = 1, x = -1 | ~ unit_base].
Proof.
case: (Req_dec x 0) => h0; first by constructor 1.
case: (Req_dec x 1) => h1; first by constructor 2.
case: (Req_dec x (-1)) => h2; first by constructor 3.
by constructor 4 => -[|[]].
Qed.

(** None exactly where there is no power *)
Lemma pow_rest_some neg : pow_rest a e neg <> Ret None.
Proof.
rewrite /pow_rest; do 2!(case: (to_usize _) => [?|] //; cbn [unwrap rbind]).
case: (if _ then _ else _) => [[q|]| |] //; cbn [rbind].
  by case: ifP => _; case: (ratio_new _ _).
case: pow_base => [b| |] //; cbn [rbind]; case: pow_resultant => [r| |] //; cbn [rbind].
case: ra_shrinker => [s| |] //; cbn [rbind]; case: ratio_new => [e'| |] //; cbn [rbind].
by case: select_root.
Qed.
Lemma recip_none : ra_checked_recip fuel a = Ret None <-> x = 0.
Proof.
case: (checked_recip_spec D) => [[-> h]|[x0 [b [[N h] _ _ _]]]]; first by rewrite h.
by split=> // ; rewrite h; case: ifP.
Qed.
Lemma pow_none : Qred e = e -> cpow a e = Ret None <-> pow_undefined x e.
Proof.
move=> re; rewrite /pow_undefined; case: exp_cases => [h0|[hd h1]|[hd h1]|[n0 nu]].
- have d1 : Qden e = 1%positive.
    by have := gcd_red re; rewrite h0 Z.gcd_0_l; cbn; case.
  rewrite pow_exp0 // h0 d1; split.
    by case z: ra_is_zero => // _; left; split; [exact/(is_zero_spec D)|exact: Z.le_refl].
  by case=> [[/(is_zero_spec D) -> _]//|[]].
- by rewrite pow_exp1 // hd h1; split=> // -[[_ h]|[]//]; lia.
- by rewrite pow_expN1 // recip_none hd h1; split=> [->|[[]//|[]//]]; left; split.
case: base_cases => [hx|hx|hx|nb].
- rewrite pow_base0 // hx; case: Z.ltb_spec => h; split=> //; first by move=> _; left; split=> //; lia.
  by case=> [[_ h']|[h' _]]; [lia|lra].
- by rewrite pow_base1 // hx; split=> // -[[]|[]]; lra.
- rewrite pow_baseN1 // hx; case i: ratio_is_integer.
    by move/integerP: i => ->; split=> // -[[]|[]//]; lra.
  by split=> // _; right; split; [lra|move/integerP; rewrite i].
case: (Rlt_le_dec x 0) => hx; last first.
  have [|neg [_ ->]] := pow_general n0 nu nb; first by lra.
  split=> [/pow_rest_some //|[[h _]|[h _]]]; last by lra.
  by case: nb; left.
case: (Pos.eq_dec (Qden e) 1) => hd; last by rewrite pow_negative //; split=> // _; right.
have [|neg [_ ->]] := pow_general n0 nu nb; first by [].
split=> [/pow_rest_some //|[[h _]|[_ /(_ hd)//]]].
by case: nb; left.
Qed.

(** * Unconditional cases *)
Lemma pow_nonzero_is v : is_pow x e v -> 0 < x -> v = Rpower x (Q2R e).
Proof. by case=> h _ _; exact: h. Qed.
Lemma is_pow_int v : Qden e = 1%positive -> x <> 0 -> is_pow x e v <-> v = powerRZ x (Qnum e).
Proof.
move=> hd x0; rewrite /is_pow (Q2R_int hd); split.
  case=> h1 h2 _; case: (Rlt_le_dec x 0) => hx; first exact: h2.
  by rewrite powerRZ_Rpower; [apply: h1; lra|lra].
by move=> ->; split=> // h; rewrite powerRZ_Rpower.
Qed.
Lemma rat_pow q k : 0 < Rabs (Q2R q) -> (0 <= k)%ZZ ->
  IZR (Qnum q ^ k) / IZR (Zpos (Qden q) ^ k) = powerRZ (Q2R q) k.
Proof.
move=> q0 k0; have d0 : IZR (Zpos (Qden q)) <> 0 by have : 0 < IZR (Zpos (Qden q)) by [apply: IZR_lt]; lra.
rewrite -(Z2Nat.id k k0) -!pow_IZR -pow_powerRZ /Q2R Rpow_mult_distr pow_inv //.
Qed.
Lemma rest_rat neg : Qden e = 1%positive -> (Z.abs (Qnum e) < 2 ^ 64)%ZZ -> is_rat x -> x <> 0 ->
  exists2 q, pow_rest a e neg = Ret (Some (ra_from_ratio q)) & Qred q = q /\ Q2R q = powerRZ x (Qnum e).
Proof.
move=> hd hn [r er] x0; rewrite /pow_rest hd (@to_usize_fits (Z.abs _)); last by split=> //; lia.
rewrite to_usize_fits //; cbn [unwrap rbind]; rewrite (_ : Z.to_nat 1 == 1%N) //.
case: (to_rational_spec D) => [[q [-> rq xq]]|[_ /(_ r)/(_ er) //]]; cbn [rbind].
have q0 : Qnum q <> 0%ZZ by move=> h; apply: x0; rewrite xq /Q2R h Rmult_0_l.
have xa : 0 < Rabs (Q2R q) by rewrite -xq; exact: Rabs_pos_lt.
rewrite Z2Nat.id; last by lia.
have ok k : k <> 0%ZZ -> (k ^ Z.abs (Qnum e))%ZZ <> 0%ZZ by move=> k0; apply: Z.pow_nonzero => //; lia.
have E := rat_pow xa (Z.abs_nonneg (Qnum e)).
case: Z.ltb_spec => h.
  have [q' hq'] := ratio_new_ret (Zpos (Qden q) ^ Z.abs (Qnum e)) _ (ok _ q0).
  exists q'; first by rewrite hq'.
  split; first exact: ratio_new_red hq'.
  have [_ ->] := ratio_new_R _ _ _ hq'.
  have En : Qnum e = (- Z.abs (Qnum e))%ZZ by lia.
  rewrite [in RHS]En powerRZ_neg' xq -E.
  have d0 : IZR (Zpos (Qden q) ^ Z.abs (Qnum e)) <> 0 by move/eq_IZR; exact: ok.
  have n0 : IZR (Qnum q ^ Z.abs (Qnum e)) <> 0 by move/eq_IZR; exact: ok.
  by field.
have [q' hq'] := ratio_new_ret (Qnum q ^ Z.abs (Qnum e)) _ (ok (Zpos (Qden q)) ltac:(done)).
exists q'; first by rewrite hq'.
split; first exact: ratio_new_red hq'.
by have [_ ->] := ratio_new_R _ _ _ hq'; rewrite E xq (Z.abs_eq _ h).
Qed.
Lemma rest_big neg : (2 ^ 64 <= Z.abs (Qnum e))%ZZ \/ (2 ^ 64 <= Zpos (Qden e))%ZZ -> pow_rest a e neg = Panic.
Proof.
rewrite /pow_rest; case=> h; first by rewrite to_usize_big.
by case: (to_usize (Z.abs _)) => [n|] //; cbn [unwrap rbind]; rewrite to_usize_big.
Qed.
End Pow.

Section Top.
Variables (a : ralg) (x : R) (e : Q).
Hypotheses (D : denotes a x) (re : Qred e = e) (def : ~ pow_undefined x e).
Variables (ln2 : nat -> res dfi) (rng : nat -> Z) (ffuel : nat).
Local Notation cpow := (fun fuel => ra_checked_pow rng ffuel fuel ln2 a e).
(** The result is valid once the fuel suffices. *)
Definition pow_computes (v : R) : Prop :=
  exists z, [/\ eventually cpow (Some z), denotes z v & canonical a -> canonical z].

Lemma computes_const z v : (forall fuel, cpow fuel = Ret (Some z)) -> denotes z v -> (canonical a -> canonical z) -> pow_computes v.
Proof. by move=> h d c; exists z; split=> //; exists 0%N => fuel; rewrite h. Qed.
Lemma ones : (denotes ra_one 1 /\ canonical ra_one) /\ (denotes ra_negative_one (-1) /\ canonical ra_negative_one) /\ (denotes ra_zero 0 /\ canonical ra_zero).
Proof. by have := from_int_denotes 1; have := from_int_denotes (-1); have := from_int_denotes 0. Qed.

Lemma pow_exp0_ok : Qnum e = 0%ZZ -> pow_computes 1.
Proof.
move=> h; have [[d c] _] := ones; apply: (computes_const _ d) => // fuel; rewrite pow_exp0 //.
case z: ra_is_zero => //; case: def; left; split; first exact/(is_zero_spec D).
by rewrite h; exact: Z.le_refl.
Qed.
Lemma pow_exp1_ok : Qden e = 1%positive -> Qnum e = 1%ZZ -> pow_computes x.
Proof. by move=> h1 h2; apply: (@computes_const a) => // fuel; rewrite pow_exp1. Qed.
Lemma odd_pow k : powerRZ (-1) k = if Z.odd k then -1 else 1.
Proof.
have sq n : (-1) ^ n = if Z.odd (Z.of_nat n) then -1 else 1.
  elim: n => // n IH; rewrite Nat2Z.inj_succ Z.odd_succ -Z.negb_odd -tech_pow_Rmult IH; case: (Z.odd _) => /=; lra.
case: (Z_le_gt_dec 0 k) => h; first by rewrite -(Z2Nat.id k h) -pow_powerRZ.
rewrite -(Z.opp_involutive k) powerRZ_neg' Z.odd_opp -(Z2Nat.id (- k)); last by lia.
by rewrite -pow_powerRZ sq; case: Z.odd; [field|rewrite Rinv_1].
Qed.
Lemma undefN : x < 0 -> Qden e = 1%positive.
Proof. by move=> h; case: (Pos.eq_dec (Qden e) 1) => // hd; case: def; right. Qed.
(** Bases 0, 1 and -1 *)
Lemma pow_unit_ok v : unit_base x -> is_pow x e v -> pow_computes v.
Proof.
move=> ub iv; have [[d1 c1] [[dN cN] [d0 c0]]] := ones.
have Rp1 y : Rpower 1 y = 1 by rewrite /Rpower ln_1 Rmult_0_r exp_0.
case: (exp_cases e) => [h0|[hd h1]|[hd h1]|[n0 nu]].
- have -> : v = 1; last exact: pow_exp0_ok.
  case: iv => i1 i2 i3; case: ub => [h|[h|h]].
  + by case: def; left; rewrite h0; split=> //; exact: Z.le_refl.
  + by rewrite i1 ?h //; lra.
  + by rewrite i2 ?h0 //; [lra|apply: undefN; lra].
- have -> : v = x; last exact: pow_exp1_ok.
  case: iv => i1 i2 i3; case: ub => [h|[h|h]]; first by rewrite i3.
  + by rewrite i1 ?h //; lra.
  + by rewrite i2 ?h1 //=; lra.
- have x0 : x <> 0 by move=> h; apply: def; left; rewrite h1.
  have rx : exists q, x = Q2R q.
    case: ub => [//|[->|->]]; [exists 1%QQ|exists (-1 # 1)%QQ]; by rewrite /Q2R /= Rinv_1 Rmult_1_r.
  case: (checked_recip_spec D) => [[]//|[_ [b [[N eb] _ /(_ rx) [db cb] _]]]].
  exists b; split=> //; first by exists N => fuel; rewrite pow_expN1.
  have -> : v = / x; last by [].
  by move/(is_pow_int v hd x0): iv => ->; rewrite h1 /= Rmult_1_r.
case: ub => [h|[h|h]].
- apply: (computes_const (z := ra_zero)) => // [fuel|]; last by case: iv => _ _ ->.
  rewrite (pow_base0 _ _ _ _ D) //; case: Z.ltb_spec => // hn; case: def; left; split=> //; lia.
- apply: (computes_const (z := ra_one)) => // [fuel|]; first by rewrite (pow_base1 _ _ _ _ D).
  by case: iv => -> //; rewrite ?h ?Rp1 //; lra.
have hd : Qden e = 1%positive by apply: undefN; lra.
apply: (computes_const (z := if Z.odd (Qnum e) then ra_negative_one else ra_one)) => [fuel||].
- by rewrite (pow_baseN1 _ _ _ _ D) //; move/integerP: hd => ->.
- case: iv => _ -> //; last by lra.
  by rewrite h odd_pow; case: Z.odd.
by case: Z.odd.
Qed.
(** Rational bases, integer exponents *)
Lemma pow_rational_ok : is_rat x -> Qden e = 1%positive -> (Z.abs (Qnum e) < 2 ^ 64)%ZZ -> pow_computes (powerRZ x (Qnum e)).
Proof.
move=> rx hd hn; case: (Req_dec x 0) => [x0|x0].
  apply: pow_unit_ok; first by left.
  split=> [h|h _|h]; [lra|lra|rewrite x0].
  have : (0 < Qnum e)%ZZ by case: (Z_le_gt_dec (Qnum e) 0) => h'; [case: def; left|lia].
  by case: (Qnum e) => // p _; rewrite /= pow_i //; lia.
have iv : is_pow x e (powerRZ x (Qnum e)) by apply/is_pow_int.
case: (base_cases x) => [h|h|h|nb].
1-3: by apply: pow_unit_ok => //; rewrite /unit_base; tauto.
case: (exp_cases e) => [h0|[_ h1]|[_ h1]|[n0 nu]].
- by rewrite h0; exact: pow_exp0_ok.
- by rewrite h1 /= Rmult_1_r; exact: pow_exp1_ok.
- rewrite h1 /= Rmult_1_r; case: (checked_recip_spec D) => [[]//|[_ [b [[N eb] _ /(_ rx) [db cb] _]]]].
  by exists b; split=> //; exists N => fuel; rewrite pow_expN1.
have [q E [rq vq]] := rest_rat ln2 rng 0 0 D false hd hn rx x0.
have [dq cq] := from_ratio_denotes rq; rewrite vq in dq.
apply: (computes_const _ dq) => // fuel.
have [|neg [_ ->]] := pow_general ln2 rng ffuel fuel D n0 nu nb; first by move=> _.
have [q2 -> [rq2 vq2]] := rest_rat ln2 rng ffuel fuel D neg hd hn rx x0.
by congr (Ret (Some (ra_from_ratio _))); apply: Q2R_inj => //; rewrite vq.
Qed.
Lemma pow_big_panics fuel : ~ unit_base x -> (2 ^ 64 <= Z.abs (Qnum e))%ZZ \/ (2 ^ 64 <= Zpos (Qden e))%ZZ -> cpow fuel = Panic.
Proof.
move=> nb h; have [||neg [_ ->]] := pow_general ln2 rng ffuel fuel D _ _ nb undefN; last exact: rest_big.
- move=> n0; have := gcd_red re; move: h; rewrite n0 Z.gcd_0_l; cbn [Z.abs] => -[//|h] h'; lia.
by case=> hd hn; move: h; rewrite hd; case: hn => -> [|]; lia.
Qed.

(** * Soundness of the general case *)
Local Notation pow_arg := (pow_arg x e).
Lemma arg_n0 : x <> 0 -> pow_arg <> 0.
Proof. by move=> x0; rewrite /pow_arg; case: ifP => // _; exact: Rinv_neq_0_compat. Qed.
Lemma Qabs_R : Q2R (Qabs e) * INR (Pos.to_nat (Qden e)) = INR (Z.to_nat (Z.abs (Qnum e))).
Proof.
have -> : Qabs e = (Z.abs (Qnum e) # Qden e)%QQ by case: (e).
rewrite /Q2R; cbn [Qnum Qden]; rewrite !INR_IZR_INZ positive_nat_Z Z2Nat.id; last by lia.
by field; have : 0 < IZR (Zpos (Qden e)) by [apply: IZR_lt]; lra.
Qed.
Lemma odd_abs k : Z.odd (Z.abs k) = Z.odd k.
Proof. by case: k. Qed.
Lemma arg_pow v neg : x <> 0 -> is_pow x e v -> (neg = true <-> x < 0) ->
  [/\ Rabs v = Rpower (Rabs pow_arg) (Q2R (Qabs e)),
      v ^ Pos.to_nat (Qden e) = pow_arg ^ Z.to_nat (Z.abs (Qnum e))
    & if neg && Z.odd (Qnum e) then v < 0 else 0 < v].
Proof.
move=> x0 iv hneg; set y := pow_arg; set n := Z.to_nat _; set d := Pos.to_nat _.
have y0 : y <> 0 := arg_n0 x0.
case: (Rlt_le_dec x 0) => hx.
  have hd := undefN hx; have [_ /(_ hx hd) ev _] := iv.
  have -> : neg = true by apply/hneg.
  have vy : v = y ^ n.
    rewrite ev /y /pow_arg /n; case: Z.ltb_spec => h.
      rewrite pow_inv pow_powerRZ Z2Nat.id; last by lia.
      by rewrite -powerRZ_neg'; congr powerRZ; lia.
    by rewrite pow_powerRZ Z2Nat.id; [congr powerRZ|]; lia.
  have yn : y < 0 by rewrite /y /pow_arg; case: ifP => // _; exact: Rinv_lt_0_compat.
  have a0 := Rabs_pos_lt _ y0.
  have qn : Q2R (Qabs e) = INR n by have := Qabs_R; rewrite hd Rmult_1_r.
  split.
  - by rewrite vy -RPow_abs qn Rpower_pow.
  - by rewrite /d hd /= Rmult_1_r.
  have -> : v = (if Z.odd (Qnum e) then -1 else 1) * Rabs y ^ n.
    rewrite vy {1}(_ : y = -1 * Rabs y); last by rewrite Rabs_left //; lra.
    rewrite Rpow_mult_distr; congr (_ * _); rewrite pow_powerRZ odd_pow /n Z2Nat.id; last by lia.
    by rewrite odd_abs.
  have p0 := pow_lt _ n a0; by case: Z.odd => /=; lra.
have hx' : 0 < x by lra.
have [/(_ hx') ev _ _] := iv.
have -> : neg = false by apply/negP => /hneg; lra.
have yp : 0 < y by rewrite /y /pow_arg; case: ifP => // _; exact: Rinv_0_lt_compat.
have vp : 0 < v by rewrite ev /Rpower; exact: exp_pos.
have vy : v = Rpower y (Q2R (Qabs e)).
  have -> : Qabs e = (Z.abs (Qnum e) # Qden e)%QQ by case: (e).
  rewrite ev /y /pow_arg; case: Z.ltb_spec => h; last first.
    by rewrite Z.abs_eq //; case: (e).
  rewrite /Rpower ln_Rinv // Z.abs_neq; last by lia.
  congr exp; rewrite /Q2R; cbn [Qnum Qden]; rewrite opp_IZR; ring.
split=> //.
  by rewrite !Rabs_right; lra.
by rewrite -!Rpower_pow // {1}vy Rpower_mult Qabs_R.
Qed.

Lemma to_nat_pos z : (0 < z)%ZZ -> (0 < Z.to_nat z)%N.
Proof. by move=> h; apply/ssrnat.ltP; lia. Qed.
Lemma pow_sound fuel v z : ln2_good ln2 -> is_pow x e v ->
  (forall b, pow_base fuel a e = Ret b -> [/\ denotes b pow_arg,
     factoring_ok rng ffuel (pow_resultant (mp b) (Z.to_nat (Z.abs (Qnum e))) (Pos.to_nat (Qden e))) v &
     pow_encloses ln2 fuel b pow_arg (Qabs e)]) ->
  cpow fuel = Ret (Some z) -> denotes z v /\ (canonical a -> Qnum e <> (-1)%ZZ \/ is_rat x -> canonical z).
Proof.
move=> H2 iv hb E.
have done_ : pow_computes v -> denotes z v /\ (canonical a -> Qnum e <> (-1)%ZZ \/ is_rat x -> canonical z).
  move=> [z' [[N h] h1 h2]]; move: E; rewrite h; case: ifP => // _ [<-]; split=> // ca _; exact: h2.
case: (base_cases x) => [h|h|h|nb].
1-3: by apply: done_; apply: pow_unit_ok => //; rewrite /unit_base; tauto.
have x0 : x <> 0 by move=> h; apply: nb; left.
case: (exp_cases e) => [h0|[hd h1]|[hd h1]|[n0 nu]].
- apply: done_; rewrite (_ : v = 1); first exact: pow_exp0_ok.
  have [neg hneg] : exists neg, neg = true <-> x < 0.
    by have [neg [_ h]] := is_negative_spec D; exists neg.
  have [_ e1 e2] := arg_pow x0 iv hneg; move: e1 e2; rewrite h0 andbF /= => e1 e2.
  have d1 : Qden e = 1%positive by have := gcd_red re; rewrite h0 Z.gcd_0_l; cbn; case.
  by move: e1; rewrite d1 /= Rmult_1_r.
- apply: done_; rewrite (_ : v = x); first exact: pow_exp1_ok.
  by move/(is_pow_int v hd x0): iv; rewrite h1 /= Rmult_1_r.
- move: E; rewrite pow_expN1 // => E; have vx : v = / x.
    by move/(is_pow_int v hd x0): iv; rewrite h1 /= Rmult_1_r.
  have [|db _ _] := hb z; first by rewrite /pow_base h1 /ra_recip E.
  move: db; rewrite /pow_arg h1 /= -vx => db; split=> // _ [//|rx].
  case: (checked_recip_spec D) => [[]//|[_ [b [[N eb] _ /(_ rx) [_ cb] _]]]].
  by move: E; rewrite eb; case: ifP => // _ [<-].
have [neg [hneg G]] := pow_general ln2 rng ffuel fuel D n0 nu nb undefN.
have hn : (Z.abs (Qnum e) < 2 ^ 64)%ZZ.
  case: (Z_lt_le_dec (Z.abs (Qnum e)) (2 ^ 64)) => // h.
  by move: E; rewrite (pow_big_panics fuel nb (or_introl h)).
move: E; rewrite G /pow_rest.
have fit k : exists n, unwrap (to_usize k) = Ret n /\ n = Z.to_nat k \/ unwrap (to_usize k) = Panic.
  rewrite /to_usize; case: ifP => _; last by exists 0%N; right.
  by exists (Z.to_nat k); left.
have [n [[-> en]|->]] := fit (Z.abs (Qnum e)); last by [].
have [d [[-> ed]|->]] := fit (Zpos (Qden e)); last by [].
have ed' : d = Pos.to_nat (Qden e) by rewrite ed.
cbn [rbind]; have [a1 a2 a3] := arg_pow x0 iv hneg.
have general : (base <- pow_base fuel a e ;; r <- pow_resultant (mp base) n d ;; s <- ra_shrinker base ;;
       e' <- ratio_new (Z.of_nat n) (Z.of_nat d) ;;
       rmap Some (select_root (pow_interval ln2 e' (if neg && Z.odd (Qnum e) then Negative else Positive))
         (fun s => rmap snd (shrink s)) rng ffuel fuel s r))%res = Ret (Some z) ->
     denotes z v /\ (canonical a -> Qnum e <> (-1)%ZZ \/ is_rat x -> canonical z).
  case eb: pow_base => [b| |] //; cbn [rbind]; have [db fo enc] := hb b eb.
  case er: pow_resultant => [r| |] //; cbn [rbind].
  case es: ra_shrinker => [s| |] //; cbn [rbind].
  have -> : ratio_new (Z.of_nat n) (Z.of_nat d) = Ret (Qabs e).
    rewrite en ed' positive_nat_Z ratio_new_pos Z2Nat.id; last by lia.
    congr Ret; have q1 : (Z.abs (Qnum e) # Qden e)%QQ = Qabs e by case: (e).
    rewrite -q1; apply/Qcanon.Qred_iff; cbn [Qnum Qden]; rewrite Z.gcd_abs_l; exact: gcd_red re.
  cbn [rbind]; case es2: select_root => [z'| |] //; cbn [rmap] => -[ez]; rewrite {}ez in es2.
  have [||||||dz cz] := @pow_core ln2 rng ffuel fuel b pow_arg n d (Qabs e)
    (if neg && Z.odd (Qnum e) then Negative else Positive) s r z v H2 db (arg_n0 x0) _ _ _ _ _ _ er es es2.
  - by rewrite en; apply: to_nat_pos; lia.
  - by rewrite ed'; exact: (@to_nat_pos (Zpos _)).
  - by rewrite en ed'.
  - by move: a3; case: (_ && _).
  - by move=> k t i hk ht hi; rewrite a1; exact: (enc k t i).
  - by rewrite en ed'.
  by [].
have [br ebr hr] : exists2 br, (if d == 1%N then ra_to_rational a else Ret None) = Ret br & forall q, br = Some q -> Qden e = 1%positive /\ is_rat x.
  case: eqP => d1; last by exists None.
  have hd : Qden e = 1%positive by rewrite ed' in d1; lia.
  case: (to_rational_spec D) => [[q [-> _ xq]]|[-> _]]; last by exists None.
  by exists (Some q) => // q' _; split=> //; exists q.
rewrite ebr; cbn [rbind]; case: br ebr hr => [q|] ebr hr; last exact: general.
have [hd rx] := hr q erefl => E.
apply: done_; rewrite (proj1 (is_pow_int v hd x0) iv); exact: pow_rational_ok.
Qed.
End Top.

(** Statements for the property theorems *)
Lemma pow_unit_top ln2 rng ffuel a x e v : denotes a x -> Qred e = e -> ~ pow_undefined x e -> is_pow x e v ->
  (x = 0 \/ x = 1 \/ x = -1) \/ Qnum e = 0%ZZ \/ e = 1%QQ ->
  exists z, [/\ eventually (fun fuel => ra_checked_pow rng ffuel fuel ln2 a e) (Some z), denotes z v & canonical a -> canonical z].
Proof.
move=> D re def iv; case=> [ub|h]; first exact: (pow_unit_ok D def).
case: (base_cases x) => [hx|hx|hx|nb].
1-3: by apply: (pow_unit_ok D def) => //; rewrite /unit_base; tauto.
have x0 : x <> 0 by move=> hx; apply: nb; left.
have hd : Qden e = 1%positive.
  by case: h => [h|->//]; have := gcd_red re; rewrite h Z.gcd_0_l; cbn; case.
have -> : v = powerRZ x (Qnum e) by apply/(is_pow_int v hd x0).
case: h => h; first by rewrite h; exact: (pow_exp0_ok D def).
by rewrite h; cbn [Qnum]; rewrite powerRZ_1; rewrite h in D def *; exact: (pow_exp1_ok D).
Qed.
Lemma pow_rational_top ln2 rng ffuel a x e : denotes a x -> Qred e = e -> ~ pow_undefined x e ->
  is_rat x -> Qden e = 1%positive -> pow_fits e ->
  exists z, [/\ eventually (fun fuel => ra_checked_pow rng ffuel fuel ln2 a e) (Some z),
    denotes z (powerRZ x (Qnum e)) & canonical a -> canonical z].
Proof. by move=> D re def rx hd [hn _]; exact: (pow_rational_ok D def). Qed.
Lemma pow_big_top ln2 rng ffuel fuel a x e : denotes a x -> Qred e = e -> ~ pow_undefined x e ->
  x <> 0 -> x <> 1 -> x <> -1 -> ~ pow_fits e -> ra_checked_pow rng ffuel fuel ln2 a e = Panic.
Proof.
move=> D re def h0 h1 h2 h; apply: (pow_big_panics D re def); first by case=> [|[]].
rewrite /pow_fits in h; lia.
Qed.
Lemma pow_unwrap ln2 rng ffuel fuel a x e : denotes a x -> Qred e = e ->
  (pow_undefined x e -> ra_pow rng ffuel fuel ln2 a e = Panic) /\
  forall z, ra_pow rng ffuel fuel ln2 a e = Ret z <-> ra_checked_pow rng ffuel fuel ln2 a e = Ret (Some z).
Proof.
move=> D re; rewrite /ra_pow; split=> [/(pow_none ln2 rng ffuel fuel D re) -> //|z].
by case: ra_checked_pow => [[z'|]| |] //; cbn [rbind unwrap]; split=> [[->]|[->]].
Qed.
