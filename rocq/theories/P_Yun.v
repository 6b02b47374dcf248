(** Yun's square-free factorisation over the rationals. *)
From Coq Require Import ZArith QArith Qcanon Lia.
Set Warnings "-notation-overridden,-ambiguous-paths".
From mathcomp Require Import all_ssreflect all_fingroup all_algebra.
From mathcomp Require Import separable algC polyorder.
From mathcomp.zify Require Import ssrZ zify_ssreflect zify_algebra.
From Verif Require Import M_Base M_Traits M_Poly M_PolyCoef M_PolyAlg S_Poly S_PolyAlg
  P_Poly P_PolyDiv P_PolyInst P_PolyGcd P_PolyField P_PolyContent P_PolyAlgInst.
Set Implicit Arguments.
Unset Strict Implicit.
Unset Printing Implicit Defensive.
Import GRing.Theory Num.Theory Order.TTheory.
Local Open Scope ring_scope.
Delimit Scope Z_scope with ZZ.

(** * Multiplicities over an algebraically closed field of characteristic 0 *)
Section Closed.
Variable L : numClosedFieldType.
Implicit Types (P Q : {poly L}) (x : L).

Lemma mu_dvd P Q x : Q != 0 -> P %| Q -> (\mu_x P <= \mu_x Q)%N.
Proof. by move=> Q0 /dvdpP [k E]; rewrite E in Q0 *; rewrite mu_mul // leq_addl. Qed.

Lemma dvd_mu P Q : P != 0 -> Q != 0 -> (forall x, (\mu_x P <= \mu_x Q)%N) -> P %| Q.
Proof.
move: {2}(size P) (leqnn (size P)) => n; elim: n P Q => [|n IH] P Q Hn P0 Q0 H.
  by move: Hn; rewrite leqn0 size_poly_eq0 (negbTE P0).
have [P1|P1] := eqVneq (size P) 1%N.
  by move/eqP: P1; rewrite size_poly_eq1 => /eqp_dvdl ->; exact: dvd1p.
have /closed_rootP [x rx] := P1.
have : (0 < \mu_x Q)%N by apply: leq_trans (H x); rewrite mu_gt0.
rewrite mu_gt0 // => rqx.
case/factor_theorem: rx => p1 E1; case/factor_theorem: rqx => q1 E2.
have X0 : 'X - x%:P != 0 by rewrite polyXsubC_eq0.
have p10 : p1 != 0 by apply: contraNneq P0 => p10; rewrite E1 p10 mul0r.
have q10 : q1 != 0 by apply: contraNneq Q0 => q10; rewrite E2 q10 mul0r.
rewrite E1 E2 dvdp_mul2r //; apply: IH => //.
  by move: Hn; rewrite E1 size_mul // size_XsubC addn2.
by move=> y; have := H y; rewrite E1 E2 !mu_mul ?mulf_neq0 // leq_add2r.
Qed.

Lemma mu_gcd P Q x : P != 0 -> Q != 0 -> \mu_x (gcdp P Q) = minn (\mu_x P) (\mu_x Q).
Proof.
move=> P0 Q0; have g0 : gcdp P Q != 0 by rewrite gcdp_eq0 negb_and P0.
apply/eqP; rewrite eqn_leq leq_min !mu_dvd ?dvdp_gcdl ?dvdp_gcdr //=.
by rewrite -root_le_mu // dvdp_gcd !root_le_mu // geq_minl geq_minr.
Qed.

Lemma mu_deriv P x : root P x -> \mu_x P^`() = (\mu_x P).-1.
Proof.
move=> px0; have [-> | nz_p] := eqVneq P 0; first by rewrite derivC mu0.
have [q nz_qx Dp] := mu_spec x nz_p.
case Dm: (\mu_x P) => [|m]; first by rewrite Dp Dm mulr1 (negPf nz_qx) in px0.
rewrite Dp Dm !derivCE exprS mul1r mulrnAr -mulrnAl mulrA -mulrDl.
rewrite cofactor_XsubC_mu // rootE !(hornerE, hornerMn) subrr mulr0 add0r.
by rewrite mulrn_eq0.
Qed.
End Closed.

(** * Multiplicities of rational polynomials at complex points *)
Definition M (x : algC) (P : {poly rat}) : nat := \mu_x (map_poly ratr P).
Implicit Types (P Q B D U V : {poly rat}) (x : algC).

Lemma mp0 P : (map_poly (ratr : rat -> algC) P == 0) = (P == 0).
Proof. exact: map_poly_eq0. Qed.
Lemma M_mul P Q x : P * Q != 0 -> M x (P * Q) = (M x P + M x Q)%N.
Proof. by move=> H; rewrite /M rmorphM mu_mul // -rmorphM mp0. Qed.
Lemma M_exp P n x : M x (P ^+ n) = (M x P * n)%N.
Proof. by rewrite /M rmorphX mu_exp. Qed.
Lemma M_gcd P Q x : P != 0 -> Q != 0 -> M x (gcdp P Q) = minn (M x P) (M x Q).
Proof. by move=> P0 Q0; rewrite /M gcdp_map mu_gcd ?mp0. Qed.
Lemma M_dvd P Q : P != 0 -> Q != 0 -> (forall x, (M x P <= M x Q)%N) -> P %| Q.
Proof. by move=> P0 Q0 H; rewrite -(dvdp_map [rmorphism of (ratr : rat -> algC)]); apply: dvd_mu; rewrite ?mp0. Qed.
Lemma M_eqp P Q : P != 0 -> Q != 0 -> (forall x, M x P = M x Q) -> P %= Q.
Proof. by move=> P0 Q0 H; rewrite /eqp !M_dvd // => x; rewrite H. Qed.
Lemma eqp_M P Q x : P %= Q -> M x P = M x Q.
Proof.
have [->|Q0] := eqVneq Q 0; first by rewrite eqp0 => /eqP ->.
move=> E; have P0 : P != 0 by rewrite (eqp_eq0 E).
move: E; rewrite -(eqp_map [rmorphism of (ratr : rat -> algC)]) => /andP [H1 H2].
by apply/eqP; rewrite eqn_leq !mu_dvd // mp0.
Qed.
Lemma M_deriv P x : P != 0 -> (0 < M x P)%N -> M x P^`() = (M x P).-1.
Proof. by move=> P0; rewrite /M mu_gt0 ?mp0 // => r; rewrite -deriv_map mu_deriv. Qed.
Lemma M_size1 P x : (size P <= 1)%N -> M x P = 0%N.
Proof. by move=> /size1_polyC ->; rewrite /M map_polyC mu_polyC. Qed.
Lemma M_const P : P != 0 -> (forall x, M x P = 0%N) -> size P = 1%N.
Proof.
move=> P0 H; apply/eqP; rewrite -(size_map_poly [rmorphism of (ratr : rat -> algC)]).
apply/negPn/negP => /closed_rootP [x]; rewrite -mu_gt0 ?mp0 //; by have := H x; rewrite /M => ->.
Qed.
Lemma M_root P : (1 < size P)%N -> exists x, (0 < M x P)%N.
Proof.
move=> H; have P0 : P != 0 by rewrite -size_poly_gt0 ltnW.
have /closed_rootP [x] : size (map_poly (ratr : rat -> algC) P) != 1%N by rewrite size_map_poly neq_ltn H orbT.
by rewrite -mu_gt0 ?mp0 //; exists x.
Qed.
Lemma deriv_eq0 P : (P^`() == 0) = (size P <= 1)%N.
Proof. by rewrite -size_poly_eq0 size_deriv; case: (size P) => [|[]]. Qed.

(** The multiplicity of [V / gcd(V, V')]. *)
Lemma M_rad B U x : B * U != 0 -> U %= gcdp (B * U) (B * U)^`() -> M x B = (0 < M x (B * U))%N.
Proof.
move=> V0 E; have EM := eqp_M x E.
have [V1|V1] := leqP (size (B * U)) 1.
  by have := M_size1 x V1; rewrite M_mul // => /eqP; rewrite addn_eq0 => /andP [/eqP -> /eqP ->].
have D0 : (B * U)^`() != 0 by rewrite deriv_eq0 leqNgt V1.
rewrite M_gcd // in EM; have EV := M_mul x V0.
case: (posnP (M x (B * U))) => [V00|Vp]; first by move: EV; rewrite V00 => /esym /eqP; rewrite addn_eq0 => /andP [/eqP -> _].
by rewrite M_deriv // in EM; lia.
Qed.

Lemma rad_M B U : B * U != 0 -> (forall x, M x B = (0 < M x (B * U))%N) -> U %= gcdp (B * U) (B * U)^`().
Proof.
move=> V0 H; have U0 : U != 0 by apply: contraNneq V0 => ->; rewrite mulr0.
apply: M_eqp => //; first by rewrite gcdp_eq0 negb_and V0.
move=> x; have EV := M_mul x V0; have Hx := H x.
have [V1|V1] := leqP (size (B * U)) 1.
  have -> : (B * U)^`() = 0 by apply/eqP; rewrite deriv_eq0.
  by rewrite gcdp0; have := M_size1 x V1; lia.
have D0 : (B * U)^`() != 0 by rewrite deriv_eq0 leqNgt V1.
rewrite M_gcd //; case: (posnP (M x (B * U))) => [V00|Vp]; first by lia.
by rewrite M_deriv //; lia.
Qed.

(** * The program *)
Notation S := ratio_sem.
Notation pv := (pval ratio_sem).
Notation Wf := (wf ratio_sem).

(** A primitive integer polynomial with a positive leading coefficient. *)
Definition prim (P : {poly rat}) : Prop := exists2 W : {poly int}, P = map_poly intr W & zcontents W = 1.

Lemma pp_ok p : Wf p -> pv p != 0 ->
  exists r, [/\ primitive_part ratio_exact ratio_content p = Ret r, Wf r, prim (pv r) & pv r %= pv p].
Proof.
move=> Hp p0; have [c [r [W [_ [E3 _] Hr [Er ZW] Ep]]]] :=
  @content_primitive ratio_coef [realDomainType of rat] ratio_sem ratio_exact ratio_exact_sem ratio_content ratio_content_sem p Hp p0.
exists r; split=> //; first by exists W.
rewrite Ep eqp_sym; apply: eqp_scale.
by apply: contraNneq p0 => c0; rewrite Ep c0 scale0r.
Qed.

Lemma div_ok p q (Q : {poly rat}) : Wf p -> Wf q -> pv q != 0 -> pv p = Q * pv q ->
  exists r, [/\ poly_div ratio_exact p q = Ret r, Wf r & pv r = Q].
Proof.
move=> Hp Hq q0 E.
have [a [b [_ _ [Ed _ _ _] [Ha Hb] [Va Vb]]]] :=
  @field_div _ [fieldType of rat] S ratio_exact ratio_exact_sem p q Hp Hq q0.
by exists a; split=> //; rewrite Va E mulpK.
Qed.

Lemma gcd_pp p q : Wf p -> Wf q -> pv p != 0 ->
  exists g r, [/\ poly_gcd ratio_exact ratio_reduce p q = Ret g,
    primitive_part ratio_exact ratio_content g = Ret r, Wf r, prim (pv r) & pv r %= gcdp (pv p) (pv q)].
Proof.
move=> Hp Hq p0.
have [g [Eg Hg G _]] := @poly_gcd_ok _ [fieldType of rat] S ratio_exact ratio_exact_sem ratio_reduce ratio_reduce_sem p q Hp Hq.
have g0 : pv g != 0 by rewrite (eqp_eq0 G) gcdp_eq0 negb_and p0.
have [r [Er Hr Pr Er2]] := pp_ok Hg g0.
by exists g, r; split=> //; exact: eqp_trans Er2 G.
Qed.

(** Arithmetic of multiplicities: [v = b + u] and [b = (0 < v)]. *)
Lemma arith1 (b u d u' v : nat) : b = (0 < v)%N :> nat -> v = (b + u)%N -> (d + u = b + u')%N ->
  (0 < u -> u = u'.+1)%N -> minn b d = (v == 1%N).
Proof.
have b1 : (b <= 1)%N -> b = (0 < v)%N :> nat -> b = 0%N \/ b = 1%N by case: b => [|[|]] //; [left|right].
move=> Hb; have {}b1 := b1 _ Hb; rewrite Hb leq_b1 in b1; have {b1} := b1 isT; rewrite -Hb.
case: u => [|u] Hbb Hv E Hu; last have {Hu} [Hu] := Hu isT.
  by rewrite Hv addn0 in Hb *; case: Hbb => B; rewrite B ?min0n //; move: E; rewrite B addn0 => ->; rewrite /minn; case: (u').
by case: Hbb => B; rewrite B in Hv E Hb *; move: Hb; rewrite Hv // => _; rewrite Hu in E; have -> : d = 0%N by lia.
Qed.

Lemma arith_v (b u v : nat) : b = (0 < v)%N :> nat -> v = (b + u)%N -> u = v.-1.
Proof. by move=> ->; case: v => [|v] //= [->]. Qed.

Lemma arith2 (b b' a u v : nat) : b = (0 < v)%N :> nat -> v = (b + u)%N -> b = (b' + a)%N ->
  a = (v == 1%N) :> nat -> b' = (0 < u)%N.
Proof.
move=> Hb Hv; rewrite (arith_v Hb Hv) Hb => {Hv}.
by case: v Hb => [|[|v]] /= _ E Ha; rewrite Ha ?addn0 ?addn1 in E; move: E => // [].
Qed.

Lemma yun_loop_ok fuel b d U : Wf b -> Wf d -> (1 < size (pv b))%N -> U != 0 ->
  U %= gcdp (pv b * U) (pv b * U)^`() -> pv d * U = pv b * U^`() -> (size (pv b * U)%R <= fuel)%N ->
  exists l, [/\ yun_loop ratio_exact ratio_content ratio_reduce fuel b d = Ret l,
    List.Forall Wf l, (forall i, (i < size l)%N -> prim (pv (nth (poly_zero ratio_coef) l i))),
    (forall i x, (i < size l)%N -> M x (pv (nth (poly_zero ratio_coef) l i)) = (M x (pv b * U) == i.+1)) &
    forall x, (M x (pv b * U) <= size l)%N].
Proof.
elim: fuel b d U => [|fuel IH] b d U Hb Hd b1 U0 I1 I2 Hf.
  move: Hf; rewrite leqn0 size_poly_eq0 mulf_eq0 (negbTE U0) orbF => /eqP b0.
  by rewrite b0 size_poly0 in b1.
have b0 : pv b != 0 by rewrite -size_poly_gt0 ltnW.
have V0 : pv b * U != 0 by rewrite mulf_neq0.
have RM x := M_rad x V0 I1.
have VM x : M x (pv b * U) = (M x (pv b) + M x U)%N by exact: M_mul.
rewrite [yun_loop _ _ _ _ _ _]/=.
have [g [a [Eg Ea' Ha Pa Ea]]] := gcd_pp Hb Hd b0; rewrite Eg rbind_Ret' Ea' rbind_Ret'.
have a0 : pv a != 0 by rewrite (eqp_eq0 Ea) gcdp_eq0 negb_and b0.
have adb : pv a %| pv b by rewrite (eqp_dvdl _ Ea) dvdp_gcdl.
have add : pv a %| pv d by rewrite (eqp_dvdl _ Ea) dvdp_gcdr.
have [b' [Eb' Hb' Vb']] := div_ok Hb Ha a0 (esym (divpK adb)).
have [c [Ec Hc Vc]] := div_ok Hd Ha a0 (esym (divpK add)).
have Bb : pv b = pv b' * pv a by rewrite Vb' divpK.
have Dd : pv d = pv c * pv a by rewrite Vc divpK.
rewrite Eb' rbind_Ret' Ec rbind_Ret'.
have b'0 : pv b' != 0 by apply: contraNneq b0 => E; rewrite Bb E mul0r.
have MB x : M x (pv b) = (M x (pv b') + M x (pv a))%N by rewrite Bb M_mul // -Bb.
(* multiplicities of a *)
have MA x : M x (pv a) = (M x (pv b * U) == 1%N).
  rewrite (eqp_M x Ea); have [d0|d0] := eqVneq (pv d) 0.
    have U1 : (size U <= 1)%N.
      rewrite -deriv_eq0; move/eqP: I2; rewrite d0 mul0r eq_sym mulf_eq0 (negbTE b0).
      by [].
    by rewrite d0 gcdp0; have := RM x; rewrite (VM x) (M_size1 x U1) addn0; case: (M x (pv b)) => [|[]].
  have U'0 : U^`() != 0 by apply: contraNneq d0 => E; move/eqP: I2; rewrite E mulr0 mulf_eq0 (negbTE U0) orbF.
  rewrite M_gcd //; have : (M x (pv d) + M x U = M x (pv b) + M x U^`())%N.
    by rewrite -!M_mul ?mulf_neq0 // I2.
  move=> E; apply: arith1 (RM x) (VM x) E _ => Up.
  by rewrite M_deriv // prednK.
have MB' x : M x (pv b') = (0 < M x U)%N by exact: arith2 (RM x) (VM x) (MB x) (MA x).
have b'U : pv b' %| U.
  by apply: M_dvd => // x; rewrite MB'; case: (M x U).
have [Hb'd Vb'd] := derivative_spec Hb'.
have [Hd' Vd'] := sub_spec (derivative b') Hc.
rewrite (is_zeroP Hb') (negbTE b'0).
have Lb' : poly_len b' = size (pv b') by rewrite size_pval.
rewrite Lb'; case: eqP => [b'1|/eqP b'1].
  eexists; split; first reflexivity.
  - by constructor.
  - by case.
  - by case=> // x _ /=; rewrite MA.
  - by move=> x; have := M_size1 x (eq_leq b'1); rewrite MB' /= (arith_v (RM x) (VM x)); case: (M x _) => [|[]].
set U2 := U %/ pv b'.
have EU : pv b' * U2 = U by rewrite mulrC divpK.
have U20 : U2 != 0 by apply: contraNneq U0 => E; rewrite -EU E mulr0.
have b'2 : (1 < size (pv b'))%N by move: b'1 b'0; rewrite -size_poly_eq0; case: (size _) => [|[]].
have [|||l [-> Hl Pl Ml Mm]] := IH b' (poly_sub c (derivative b')) U2 Hb' Hd' b'2 U20.
- by apply: rad_M; rewrite EU.
- rewrite Vd' Vb'd mulrBl; apply/eqP; rewrite subr_eq addrC -derivM; apply/eqP.
  rewrite EU; apply: (mulfI a0); apply: (mulfI b'0).
  transitivity (pv d * U); first by rewrite Dd -[in RHS]EU !mulrA; congr (_ * U2); rewrite [RHS]mulrC [pv c * _]mulrC mulrA.
  by rewrite I2 Bb -mulrA.
- rewrite EU -ltnS; apply: leq_trans Hf; rewrite size_mul //; move: b1; case: (size (pv b)) => [|[|n]] //= _.
  by rewrite ltnS leq_addl.
rewrite rbind_Ret'; eexists; split; first reflexivity.
- by constructor.
- by case=> [|i] //= Hi; exact: Pl.
- case=> [|i] x /= Hi; first exact: MA.
  by rewrite Ml // EU (arith_v (RM x) (VM x)); case: (M x _).
- by move=> x; have := Mm x; rewrite EU /= (arith_v (RM x) (VM x)); case: (M x _).
Qed.

(** * Assembling the product *)
Lemma prim_neq0 P : prim P -> P != 0.
Proof.
move=> [W -> ZW]; have W0 : W != 0 by apply/eqP => W0; rewrite W0 zcontents0 in ZW.
by rewrite map_poly_eq0_id0 // intr_eq0 lead_coef_eq0.
Qed.

Lemma prim_eq P Q : prim P -> prim Q -> P %= Q -> P = Q.
Proof.
move=> [V EV ZV] [W EW ZW] /eqpP [[a b] /= /andP [a0 b0] E]; rewrite EV EW.
have [m [n [m0 n0 H]]] : exists m n : int, [/\ m != 0, n != 0 & m *: V = n *: W].
  exists (numq a * denq b), (numq b * denq a); split; rewrite ?mulf_neq0 ?numq_eq0 ?denq_neq0 //.
  apply: (@map_inj_poly _ _ (intr : int -> rat)) => //; first exact: intr_inj.
  rewrite !map_polyZ -EV -EW !rmorphM /=.
  have nq (x : rat) : (numq x)%:~R = x * (denq x)%:~R :> rat by rewrite -{2}[x]divq_num_den divfK ?intr_eq0 ?denq_neq0.
  transitivity (((denq a)%:~R * (denq b)%:~R) *: (a *: P)).
    by rewrite scalerA nq [X in _ = X *: _]mulrC mulrA.
  by rewrite E scalerA nq; congr (_ *: _); rewrite [LHS]mulrC -[RHS]mulrA; congr (_ * _); exact: mulrC.
have mn : m = n by rewrite -[m]mulr1 -ZV -zcontentsZ H zcontentsZ ZW mulr1.
by congr (map_poly _ _); move: H; rewrite mn -!mul_polyC; apply: mulfI; rewrite polyC_eq0.
Qed.

Lemma prim_mul P Q : prim P -> prim Q -> prim (P * Q).
Proof. by move=> [V -> ZV] [W -> ZW]; exists (V * W); rewrite ?rmorphM ?zcontentsM ?ZV ?ZW. Qed.
Lemma prim1 : prim 1.
Proof. by exists 1; rewrite ?rmorph1 // zcontents_monic ?monic1. Qed.
Lemma prim_exp P n : prim P -> prim (P ^+ n).
Proof. by move=> HP; elim: n => [|n IH]; [exact: prim1|rewrite exprS; exact: prim_mul]. Qed.

Lemma M_prod x n (f : nat -> {poly rat}) (m : nat -> nat) :
  (forall i, (i < n)%N -> f i != 0 /\ M x (f i) = m i) ->
  \prod_(i < n) f i != 0 /\ M x (\prod_(i < n) f i) = (\sum_(i < n) m i)%N.
Proof.
elim: n => [|n IH] H; first by rewrite !big_ord0 oner_eq0 M_size1 // size_poly1.
have [|P0 E] := IH; first by move=> i Hi; apply: H; apply: ltnW.
have [f0 Ef] := H n (ltnSn n).
by rewrite !big_ord_recr /= mulf_neq0 // M_mul ?mulf_neq0 // E Ef.
Qed.

Lemma sum_pick n v : (v <= n)%N -> (\sum_(i < n) (v == i.+1) * i.+1 = v)%N.
Proof.
elim: n => [|n IH] Hv; first by rewrite big_ord0; move: Hv; rewrite leqn0 => /eqP.
rewrite big_ord_recr /=; have [->|E] := eqVneq v n.+1.
  rewrite big1 ?mul1n // => i _; rewrite eqSS gtn_eqF // mul0n.
by rewrite mul0n addn0 IH // -ltnS ltn_neqAle E.
Qed.

Lemma coprime_M (P Q : {poly rat}) : P != 0 -> Q != 0 -> (forall x, (M x P == 0) || (M x Q == 0))%N -> coprimep P Q.
Proof.
move=> P0 Q0 H; rewrite /coprimep; apply/eqP; apply: M_const; first by rewrite gcdp_eq0 negb_and P0.
by move=> x; rewrite M_gcd //; case/orP: (H x) => /eqP ->; rewrite ?min0n ?minn0.
Qed.

Lemma sqf_M (P : {poly rat}) : P != 0 -> (forall x, M x P <= 1)%N -> square_free P.
Proof.
move=> P0 H h a E; rewrite leqNgt; apply/negP => /M_root [x Hx].
have := H x; rewrite E in P0 *; rewrite M_mul // M_mul; last by apply: contraNneq P0 => ->; rewrite mulr0.
by rewrite leqNgt; move/negP; apply; rewrite ltn_addl // -[2%N]/(1 + 1)%N leq_add.
Qed.

Lemma yun_spec p : Wf p ->
  exists c l, [/\ yun ratio_exact ratio_content ratio_reduce p = Ret (c, l), List.Forall Wf l,
    pv p = power_product (vc S c) (map pv l),
    (forall q, List.In q l -> square_free (pv q) /\ exists2 W : {poly int}, pv q = map_poly intr W & zcontents W = 1) &
    forall i j, (i < j < size l)%N ->
      coprimep (pv (nth (poly_zero ratio_coef) l i)) (pv (nth (poly_zero ratio_coef) l j))].
Proof.
move=> Hp; rewrite /yun /degree_or_0 (degree_spec Hp).
have [L1 L2] := lead_spec Hp.
have [p1|p1] := leqP (size (pv p)) 1.
  have -> : match (if pv p == 0 then None else Some (size (pv p)).-1) with Some n => n | None => 0%N end = 0%N.
    by case: eqP => // _; case: (size (pv p)) p1 => [|[]].
  rewrite eqxx; eexists _, [::]; split; [reflexivity|by constructor| |by []|by move=> i j /andP [_]].
  rewrite /power_product big_ord0 L1.
  case: eqP => [->|_]; rewrite /odflt /oapp; first by rewrite (vc0 S) scale0r.
  by rewrite L2 [in LHS](size1_polyC p1) [in RHS](size1_polyC p1) lead_coefC alg_polyC.
have p0 : pv p != 0 by rewrite -size_poly_gt0 ltnW.
rewrite (negbTE p0); have -> : ((size (pv p)).-1 == 0%N) = false by case: (size (pv p)) p1 => [|[]].
have [c [f [W [[_ Ec] [_ Ef] Hf [EW ZW] Epf]]]] :=
  @content_primitive ratio_coef [realDomainType of rat] ratio_sem ratio_exact ratio_exact_sem ratio_content ratio_content_sem p Hp p0.
have Pf : prim (pv f) by exists W.
have f0 := prim_neq0 Pf.
have c0 : vc S c != 0 by apply: contraNneq p0 => E; rewrite Epf E scale0r.
have sf : size (pv f) = size (pv p) by rewrite Epf size_scale.
have f1 : (1 < size (pv f))%N by rewrite sf.
rewrite Ec rbind_Ret' Ef rbind_Ret'.
have [Hf' Vf'] := derivative_spec Hf.
have [g [a [Eg Ea' Ha Pa Ea]]] := gcd_pp Hf Hf' f0; rewrite Eg rbind_Ret' Ea' rbind_Ret'.
have a0 := prim_neq0 Pa.
have adf : pv a %| pv f by rewrite (eqp_dvdl _ Ea) dvdp_gcdl.
have adf' : pv a %| pv (derivative f) by rewrite (eqp_dvdl _ Ea) dvdp_gcdr.
have [b [Eb Hb Vb]] := div_ok Hf Ha a0 (esym (divpK adf)).
have [d [Ed Hd Vd]] := div_ok Hf' Ha a0 (esym (divpK adf')).
rewrite Eb rbind_Ret' Ed rbind_Ret'.
have Fb : pv f = pv b * pv a by rewrite Vb divpK.
have Fd : (pv f)^`() = pv d * pv a by rewrite -Vf' Vd divpK.
have [Hb' Vb'] := derivative_spec Hb.
have [Hs Vs] := sub_spec (derivative b) Hd.
have b0 : pv b != 0 by apply: contraNneq f0 => E; rewrite Fb E mul0r.
have I1 : pv a %= gcdp (pv b * pv a) (pv b * pv a)^`() by rewrite -Fb -Vf'.
have V0 : pv b * pv a != 0 by rewrite mulf_neq0.
have b1 : (1 < size (pv b))%N.
  rewrite ltnNge; apply/negP => bs; have [x Hx] := M_root f1.
  by have := M_rad x V0 I1; rewrite -Fb Hx M_size1.
have [||l [-> Hl Pl Ml Mm]] := yun_loop_ok (fuel := poly_len p) Hb Hs b1 a0 I1.
- by rewrite Vs Vb' mulrBl -Fd Fb derivM addrC addKr.
- by rewrite -Fb sf size_pval.
rewrite rbind_Ret' -Fb in Ml Mm *.
have N0 i : (i < size l)%N -> pv (nth (poly_zero ratio_coef) l i) != 0 by move=> Hi; apply: prim_neq0; apply: Pl.
exists c, l; split=> //.
- rewrite Epf /power_product; congr (_ *: _); apply: prim_eq => //.
    rewrite size_map; have H n : (n <= size l)%N -> prim (\prod_(i < n) nth 0 (map pv l) i ^+ i.+1).
      elim: n => [|n IH] Hn; first by rewrite big_ord0; exact: prim1.
      rewrite big_ord_recr /=; apply: prim_mul; first by apply: IH; apply: ltnW.
      by apply: prim_exp; rewrite (nth_map (poly_zero ratio_coef)) //; apply: Pl.
    exact: H.
  have H x : \prod_(i < size l) nth 0 (map pv l) i ^+ i.+1 != 0 /\
      M x (\prod_(i < size l) nth 0 (map pv l) i ^+ i.+1) = M x (pv f).
    have [|Q0 EQ] := @M_prod x (size l) (fun i => nth 0 (map pv l) i ^+ i.+1) (fun i => (M x (pv f) == i.+1) * i.+1)%N.
      by move=> i Hi; rewrite (nth_map (poly_zero ratio_coef)) // expf_neq0 ?N0 // M_exp Ml.
    by split=> //; rewrite EQ sum_pick.
  rewrite size_map; apply: M_eqp => //; first by have [] := H 0.
  by move=> x; have [_ ->] := H x.
- move=> q /(@List.In_nth _ l q (poly_zero ratio_coef)) [i [/ssrnat.ltP Hi Eq]].
  have {Eq} Eq : nth (poly_zero ratio_coef) l i = q.
    by rewrite -Eq; elim: (l) (i) => [|y s IH] [|j] //=.
  by rewrite -Eq; split; [apply: sqf_M; [exact: N0|move=> x; rewrite Ml //; case: eqP]|exact: Pl].
- move=> i j /andP [ij jl]; have il := ltn_trans ij jl; apply: coprime_M; rewrite ?N0 // => x.
  by rewrite !Ml //; have [->|//] := eqVneq (M x (pv f)) i.+1; rewrite eqSS (ltn_eqF ij).
Qed.
