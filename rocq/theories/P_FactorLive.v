(** Factorisation can always finish: whatever the first N random draws were,
    some continuation of the random stream makes every loop end. *)
From Coq Require Import ZArith Lia List Permutation QArith Qcanon.
Set Warnings "-notation-overridden,-ambiguous-paths".
From mathcomp Require Import all_ssreflect all_fingroup all_algebra.
From mathcomp Require Import finfield.
From mathcomp.zify Require Import ssrZ zify_ssreflect zify_algebra.
From Verif Require Import M_Base M_Traits M_Util M_Poly M_PolyCoef M_PolyAlg M_Factor S_Int S_Poly S_PolyAlg S_Factor
  P_Util P_Poly P_PolyDiv P_PolyInst P_PolyGcd P_PolyField P_PolyAlgInst P_PolyAlgRef P_Yun P_FactorP P_Hensel P_HenselTree P_ExtGcd P_Heap
  P_FactorZ P_FactorTree P_FactorAll P_SameDegree P_SdfLive.
Set Implicit Arguments.
Unset Strict Implicit.
Unset Printing Implicit Defensive.
Import GRing.Theory.
Local Open Scope ring_scope.
Delimit Scope Z_scope with ZZ.
Local Notation monic := mathcomp.algebra.poly.monic.

(** * Factorisation over the integers *)
Lemma next_prime_loop_mono f1 : forall f2 v r, (f1 <= f2)%N -> next_prime_loop f1 v = r -> r <> NoFuel ->
  next_prime_loop f2 v = r.
Proof.
elim: f1 => [|f1 IH] [|f2] v r h //=; case: (is_prime_u32 v) => //; first by move=> <-.
by case: (_ <=? _)%ZZ => //; apply: IH.
Qed.
Lemma next_prime_i32_mono f1 f2 v r : (f1 <= f2)%N -> next_prime_i32 f1 v = r -> r <> NoFuel ->
  next_prime_i32 f2 v = r.
Proof.
move=> h; rewrite /next_prime_i32; case: (_ <=? _)%ZZ => //; rewrite /next_prime_u32.
case: (_ <? _)%ZZ => //; case: (_ <=? _)%ZZ => //; set w := (if _ then _ else _).
case E : (next_prime_loop f1 w) => [x| |] //= <- nf; try (by exfalso; apply: nf).
  by rewrite (next_prime_loop_mono h E).
by rewrite (next_prime_loop_mono h E).
Qed.
Lemma find_prime_mono self f1 : forall f2 g1 g2 v r, (f1 <= f2)%N -> (g1 <= g2)%N ->
  find_prime f1 g1 self v = r -> r <> NoFuel -> find_prime f2 g2 self v = r.
Proof.
elim: f1 => [|f1 IH] [|f2] g1 g2 v r h hg //; cbn [find_prime]; first by move=> <-.
case E : (next_prime_i32 g1 v) => [o| |]; cbn [rbind]; last by move=> <-.
  rewrite (next_prime_i32_mono hg E) //; cbn [rbind]; case: o E => [v'|] // E; cbn [unwrap rbind].
  case: (_ =? _)%ZZ; first exact: IH.
  rewrite /assert_then; case: (_ == _) => //.
  by case: (is_square_free _ _ _) => [b| |] //; cbn [rbind]; case: b => //; exact: IH.
by move=> <- _; rewrite (next_prime_i32_mono hg E).
Qed.
Lemma find_prime_fin fuel pfuel (self : zpoly) : forall v, zwf self -> zv self != 0 -> (2 <= v < 2 ^ 31)%ZZ ->
  (2 ^ 32 <= Z.of_nat pfuel)%ZZ -> (2 ^ 31 - v < Z.of_nat fuel)%ZZ -> find_prime fuel pfuel self v <> NoFuel.
Proof.
elim: fuel => [|fuel IH] v ws s0 hv hp hf; first by exfalso; lia.
cbn [find_prime].
have := next_prime_i32_spec pfuel v hv.
case: (next_prime_i32 pfuel v) => [[v'|]| |] //; last by lia.
cbn [rbind unwrap] => -[pz [hv' hn]].
have IH' : find_prime fuel pfuel self v' <> NoFuel by apply: IH => //; lia.
set p := Z.to_pos v'.
have Ev : Zpos p = v' by rewrite Z2Pos.id //; lia.
have p_pr : prime (Pos.to_nat p) by have := prime_of_Z pz; rewrite -Ev.
case: ifP => hr //.
rewrite -Ev in hr; have sF := size_F p_pr ws hr s0.
have [wf' _] := to_mod_F p_pr (els self).
rewrite /assert_then; case: (_ == _) => //.
have f0 : pval (@modp_sem (Zpos p) _ isT (pnE p) p_pr) (to_mod p (els self)) != 0.
  by rewrite -size_poly_gt0 sF size_poly_gt0.
have [b [-> Hb]] := modp_square_free (m_pos := (isT : (0 <? Zpos p)%ZZ)) wf' f0; rewrite rbind_Ret'.
by case: (b).
Qed.
Lemma find_prime_live (self : zpoly) : zwf self -> zv self != 0 ->
  live (fun _ fuel => find_prime fuel fuel self 2).
Proof.
move=> ws s0.
have [B EB] : exists B, Z.of_nat B = (2 ^ 32)%ZZ.
  exists (Z.to_nat (2 ^ 32)); exact: (Z2Nat.id (2 ^ 32) (Z.pow_nonneg 2 32 (Zle_bool_imp_le 0 2 erefl))).
have nf : find_prime B B self 2 <> NoFuel.
  apply: find_prime_fin ws s0 _ _ _; move: EB; move: (Z.of_nat B) => b; clear; lia.
apply: (live_fuel (F := B) nf) => fuel hf; exact (find_prime_mono hf hf erefl nf).
Qed.

Lemma hensel_mono (self : zpoly) (needed : bool * Z) f1 : forall f2 m (t : ftree m) r, (f1 <= f2)%N ->
  hensel_loop f1 self needed t = r -> r <> NoFuel -> hensel_loop f2 self needed t = r.
Proof.
elim: f1 => [|f1 IH] [|f2] m t r h //; cbn [hensel_loop]; case: (modulus_below _ _) => //; try by move=> <-.
by case: (hensel_lift_step _ _) => [t'| |] //; cbn [rbind]; exact: IH.
Qed.
Lemma hensel_live (self : zpoly) (needed : bool * Z) (m : positive) n (mE : Zpos m = Z.of_nat n) (n1 : (1 < n)%N) (t : ftree m) :
  tree_ok mE n1 t -> product t = to_mod m (coefficients self) ->
  live (fun _ fuel => hensel_loop fuel self needed t).
Proof.
move=> ok E; set B := Z.to_nat (Z.max 0 needed.2).
have nf : hensel_loop B self needed t <> NoFuel.
  case: (hensel_loop_spec needed B ok E) => [[r -> _] //|[_ h]]; exfalso.
  by move: h; rewrite /B Z2Nat.id; lia.
apply: (live_fuel (F := B) nf) => fuel hf; exact (hensel_mono hf erefl nf).
Qed.

Section Split.
Variable p : positive.
Notation pn := (Pos.to_nat p).
Hypotheses (p_pr : prime pn) (p_odd : (2 < pn)%N).
Notation S := (@modp_sem (Zpos p) pn isT (pnE p) p_pr).
Notation pv := (@pval (mc p) [comUnitRingType of 'F_pn] S).
Notation wf := (@wf (mc p) [comUnitRingType of 'F_pn] S).
Notation F := [fieldType of 'F_pn].

Lemma split_live l : forall i pos, (0 < i)%N -> Forall wf l ->
  (forall j, (j < size l)%N -> nth 1 (map pv l) j \is monic) ->
  (forall j, (j < size l)%N -> @all_factors_degree F (nth 1 (map pv l) j) (i + j)) ->
  (forall j, (j < size l)%N -> @square_free F (nth 1 (map pv l) j)) ->
  live (fun rng tries => split_degrees rng tries i l pos).
Proof.
elim: l => [|f l IH] i pos i0 wl ml al sl; cbn [split_degrees]; first exact: live_const.
inversion_clear wl as [|? ? wf' wl'].
have mf := ml 0%N isT; have af := al 0%N isT; have sf := sl 0%N isT; rewrite addn0 /= in mf af sf.
apply: live_bind.
  rewrite (is_oneP wf'); case: eqP => [_|/eqP n1]; first exact: live_const.
  rewrite (negbTE (lt0n_neq0 i0)).
  apply: (sdf_live (p_pr := p_pr) p_odd i0); split=> //.
  rewrite ltnNge; apply: contra n1 => s1; rewrite (size1_polyC s1) in mf *.
  by move: mf; rewrite monicE lead_coefC => /eqP ->.
move=> [a pos1] _ _ _; apply: live_bind; last by move=> [b pos2] _ _ _; apply: live_const.
apply: IH => // j h; [exact: (ml j.+1 h)| |exact: (sl j.+1 h)].
by rewrite addSnnS; exact: (al j.+1 h).
Qed.

Lemma prod_sqf (l : seq {poly F}) j : square_free (\prod_(g <- l) g) -> (j < size l)%N -> square_free (nth 1 l j).
Proof.
elim: l j => // g l IH [|j]; rewrite big_cons => /sqf_divl[h1 h2] //= hj; exact: IH.
Qed.

Lemma modular_live (f : mpoly p) ds pos : wf f -> pv f != 0 -> @square_free F (pv f) ->
  distinct_degree_factorization f = Ret ds -> live (fun rng tries => split_degrees rng tries 0 ds pos).
Proof.
move=> wff f0 sf Ed; have [gs [Eg wg [gp g0 gm gi]]] := ddf_spec wff f0 sf.
move: Eg; rewrite Ed => -[Egs]; rewrite -{gs}Egs in wg gp g0 gm gi.
have sl j : (j < size ds)%N -> square_free (nth 1 [seq pv i | i <- ds] j).
  by move=> hj; apply: prod_sqf; rewrite -?gp ?size_map.
case: ds {Ed} wg gp g0 gm gi sl => [|d ds] wg gp g0 gm gi sl; cbn [split_degrees]; first exact: live_const.
inversion_clear wg as [|? ? wd wds].
apply: live_bind; first by case: ifP => _; exact: live_const.
move=> [a pos1] _ _ _; apply: live_bind; last by move=> [b pos2] _ _ _; apply: live_const.
apply: split_live => //.
- by move=> j h; exact: (gm j.+1 isT).
- by move=> j h q iq qd; have := gi j.+1 q isT iq; rewrite /= => -[/(_ qd) []].
- by move=> j h; exact: (sl j.+1 h).
Qed.
End Split.

Lemma factor_square_free_live self pos : primwf self -> live (fun rng fuel => factor_square_free rng fuel self pos).
Proof.
move=> ps; have [ws cs] := ps; have s0 := primwf_n0 ps; rewrite /factor_square_free.
case: leqP => hd; first exact: live_const.
have [ct [r [-> _ _ _ [Ec _ _]]]] := content_int ws.
have {}Ec : ct = 1%ZZ by apply: zi_inj; rewrite -[zi ct]/(vc int_sem ct) Ec cs.
apply: live_ext (fun _ _ => erefl) _; cbn [rbind].
apply: live_bind; first exact: find_prime_live.
move=> p _ fuel E.
have := @find_prime_spec fuel fuel self 2 ws s0 ltac:(lia) _.
have bz : forall q : nat, prime q -> (2 < q)%N -> (Z.of_nat q <= 2)%ZZ -> bad_prime (zv self) q by move=> q _ h1 h2; exfalso; lia.
move=> /(_ bz); rewrite E => -[p_pr [p2 sz sq]].
have [wt _] := to_mod_F p_pr (els self).
have s3 : (2 < size (zv self))%N.
  by move: hd; rewrite /degree_or_0 (degree_spec ws) (negbTE s0); case: (size _).
have f1 : (1 < size (pval (@modp_sem (Zpos p) _ isT (pnE p) p_pr) (to_mod p (els self))))%N by rewrite sz ltnW.
have f0 : pval (@modp_sem (Zpos p) _ isT (pnE p) p_pr) (to_mod p (els self)) != 0 by rewrite -size_poly_gt0 ltnW.
have [gs [Eg _ _]] := ddf_spec wt f0 sq; rewrite Eg; cbn [rbind].
apply: live_bind; first exact: modular_live wt f0 sq Eg.
move=> [fs pos'] rng tries Es.
have := @modular_ok p p_pr p2 rng _ wt f0 f1 sq tries pos _ Eg; rewrite Es; cbn [no_panic] => -[t [-> tt pt _]]; cbn [rbind].
apply: live_bind.
  by apply: hensel_live tt _; rewrite pt /coefficients map_id.
move=> [m t'] _ _ _; cbn [projT2].
set mfs := filter _ _.
have [|l [-> fl el]] := @subset_loop_spec (2 * size mfs).+1 m self mfs 1 ps isT; first by rewrite mulnC addn1 ltnS leqnSn.
exact: live_const.
Qed.

Lemma factor_powers_live l : forall i pos, Forall (fun f => primwf (zof f)) l ->
  live (fun rng fuel => factor_powers rng fuel i l pos).
Proof.
elim: l => [|f l IH] i pos H; cbn [factor_powers]; first exact: live_const.
inversion_clear H as [|? ? pf pl].
apply: live_bind; first exact: factor_square_free_live.
move=> [fs pos'] _ _ _; apply: live_bind; first exact: IH.
by move=> rest _ _ _; exact: live_const.
Qed.

Local Notation qv := (pval ratio_sem).
Local Notation qwf := (wf ratio_sem).
Lemma factor_live (self : zpoly) : zwf self -> live (fun rng fuel => factor_with_rng rng fuel self).
Proof.
move=> ws; rewrite /factor_with_rng.
have [ct [r [-> _ wr _ [Ec Er Es]]]] := content_int ws; cbn [rbind].
have yun_ok l : Forall qwf l -> (forall q, In q l -> square_free (qv q) /\ exists2 W : {poly int}, qv q = map_poly intr W & zcontents W = 1) ->
  Forall (fun f => primwf (zof f)) l.
  move=> wl pl; apply/Forall_forall => g gl; have [_ [W EW cW]] := pl g gl.
  have wg : qwf g by move/Forall_forall: wl; apply.
  by have [w1 w2] := zof_ok wg EW; split=> //; rewrite w2.
have [rs ->] : exists rs, map_res (fun c => bigint_exact_div c ct) (coefficients self) = Ret rs.
  have [s0|s0] := eqVneq (zv self) 0.
    have -> : coefficients self = [::] by apply: size0nil; rewrite /coefficients size_map -(size_pval ws) s0 size_poly0.
    by exists [::].
  have c0 : vc int_sem ct != 0 by rewrite Ec zcontents_eq0.
  have [|rs _ [E _]] := map_div_ok int_exact_sem (cs := coefficients self) (qs := zv r) c0; last by exists rs.
  rewrite vcoefs -(pval_seq ws); apply: (@eq_from_nth _ 0) => [|i hi].
    by rewrite size_map Es size_scale.
  by rewrite (nth_map 0) ?Es ?coefZ 1?mulrC //; move: hi; rewrite Es size_scale.
cbn [rbind].
have [] := from_iterator_spec ratio_sem [seq Q2Qc (inject_Z c) | c <- rs].
set q := from_iterator _ => wq _.
have [c [l [-> wl El pl _]]] := yun_spec wq; cbn [rbind].
have {}pl := yun_ok l wl pl.
apply: live_bind; first exact: factor_powers_live.
by move=> fs _ _ _; exact: live_const.
Qed.

(** * In the terms of the properties *)
Lemma sdf_can_finish (p : positive) (p_pr : prime (Pos.to_nat p)) (d : nat) :
  (2 < Pos.to_nat p)%N -> (0 < d)%N -> forall (f : mpoly p) (pos : nat),
  let S := @modp_sem (Zpos p) _ isT (pnE p) p_pr in
  wf S f -> pval S f \is monic -> (1 < size (pval S f))%N ->
  @all_factors_degree [fieldType of 'F_(Pos.to_nat p)] (pval S f) d ->
  @square_free [fieldType of 'F_(Pos.to_nat p)] (pval S f) ->
  forall (rng : nat -> Z) (N : nat), exists (rng' : nat -> Z) (n : nat) r,
    (forall i, (i < N)%N -> rng' i = rng i) /\
    forall tries, (n <= tries)%N -> same_degree_factorization rng' tries d f pos = Ret r.
Proof.
move=> p2 d0 f pos S wf' mf s1 A sf rng N.
have ok : sok p_pr d f by [].
have [rng' [n [r [M [h1 h2 h3]]]]] := sdf_live p2 d0 pos ok rng N.
have := sdf_spec (p_pr := p_pr) rng' p2 d0 n pos wf' mf s1 A.
rewrite h3 //; case: r h2 h3 => [r| |] // h2 h3 _.
by exists rng', n, r; split=> // tries ht; rewrite h3.
Qed.
Lemma factor_can_finish (p : poly int_coef) : wf int_sem p ->
  forall (rng : nat -> Z) (N : nat), exists (rng' : nat -> Z) (n : nat) r,
    [/\ forall i, (i < N)%N -> rng' i = rng i,
        forall fuel, (n <= fuel)%N -> factor_with_rng rng' fuel p = r
      & match r with
        | Ret (c, l) => factor_list (pval int_sem p) (zi c) [seq (pval int_sem fn.1, fn.2) | fn <- l]
        | Panic => exists f, [/\ positive_primitive f, exists h, pval int_sem p = h * f & no_usable_prime f]
        | NoFuel => False
        end].
Proof.
move=> wp rng N; have [rng' [n [r [M [h1 h2 h3]]]]] := factor_live wp rng N.
exists rng', n, r; split=> // [fuel hf|]; first by rewrite h3.
by have := factor_spec rng' n wp; rewrite h3 //; case: (r) h2.
Qed.
