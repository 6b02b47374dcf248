(** Bounds on the coefficients of the divisors of an integer polynomial
    (Landau and Mignotte), used for the factorisation over the integers. *)
From Coq Require Import ZArith.
Set Warnings "-notation-overridden,-ambiguous-paths".
From mathcomp Require Import all_ssreflect all_algebra all_field.
From Verif Require Import P_RingTac.
Set Implicit Arguments.
Unset Strict Implicit.
Unset Printing Implicit Defensive.
Import GRing.Theory Num.Theory Order.TTheory.
Local Open Scope ring_scope.

Section Ids.
Variable T : comRingType.
Notation K := (GRing.Ring.sort T).
Add Ring T_ring : (comring_theory T).
Lemma id_flip (a a' b b' c c' : K) :
  (b - a * c) * (b' - a' * c') - (a' * b - c) * (a * b' - c') = (1 - a * a') * (b * b' - c * c') :> K.
Proof. rewrite -[LHS]mul1r; ring. Qed.
End Ids.

Section Landau.
Notation C := algC.
Implicit Types (p q : {poly C}) (s : seq C) (a : C).

(** Sum of the squared absolute values of the first [n] coefficients. *)
Definition nsq (n : nat) p : C := \sum_(i < n) `|p`_i| ^+ 2.

Lemma nsq_wide n p : (size p <= n)%N -> nsq n p = nsq (size p) p.
Proof.
rewrite /nsq => le; rewrite -(subnKC le) big_split_ord /= [X in _ + X]big1 ?addr0 // => i _.
by rewrite nth_default ?leq_addr // normr0 expr0n.
Qed.

Lemma nsq_X n q : (size q < n)%N -> nsq n ('X * q) = nsq n q.
Proof.
case: n => // n le; rewrite /nsq big_ord_recl big_ord_recr /= coefXM eqxx normr0 expr0n add0r.
rewrite [X in _ = _ + X](_ : _ = 0) ?addr0; last by rewrite nth_default // normr0 expr0n.
by apply: eq_bigr => i _; rewrite coefXM.
Qed.

Lemma norm_flip a (b c : C) :
  `|b - a * c| ^+ 2 - `|a^* * b - c| ^+ 2 = (1 - a * a^*) * (`|b| ^+ 2 - `|c| ^+ 2).
Proof. by rewrite !normCK !rmorphB !rmorphM /= conjCK; apply: id_flip. Qed.

Lemma nsq_flip n a q : (size q < n)%N ->
  nsq n (('X - a%:P) * q) = nsq n ((a^* *: 'X - 1) * q).
Proof.
move=> le; apply/eqP; rewrite -subr_eq0 /nsq -sumrB; apply/eqP.
rewrite (eq_bigr (fun i : 'I_n => (1 - a * a^*) * (`|('X * q)`_i| ^+ 2 - `|q`_i| ^+ 2))).
  by rewrite -mulr_sumr sumrB -/(nsq n ('X * q)) -/(nsq n q) nsq_X // subrr mulr0.
by move=> i _; rewrite -norm_flip !mulrBl !coefB coefCM mul1r -scalerAl coefZ.
Qed.

(** max(1, |a|) and its product: the Mahler measure of a monic polynomial. *)
Definition mx a : C := if `|a| <= 1 then 1 else `|a|.
Definition mah s : C := \prod_(a <- s) mx a.
Lemma mx_ge1 a : 1 <= mx a.
Proof.
rewrite /mx; case: ifP => // /negbT; rewrite -real_ltNge ?normr_real ?real1 //; exact: ltW.
Qed.
Lemma mx_ge a : `|a| <= mx a.
Proof. by rewrite /mx; case: ifP. Qed.
Lemma mx_ge0 a : 0 <= mx a.
Proof. exact: le_trans ler01 (mx_ge1 a). Qed.
Lemma mah_ge1 s : 1 <= mah s.
Proof.
elim: s => [|a s IH]; first by rewrite /mah big_nil.
rewrite /mah big_cons -{1}[1]mulr1; apply: ler_pmul; [exact: ler01|exact: ler01|exact: mx_ge1|exact: IH].
Qed.
Lemma mah_ge0 s : 0 <= mah s.
Proof. exact: le_trans ler01 (mah_ge1 s). Qed.

Lemma nsq_lead q : `|lead_coef q| ^+ 2 <= nsq (size q) q.
Proof.
have [->|q0] := eqVneq q 0; first by rewrite lead_coef0 normr0 expr0n /nsq sumr_ge0 // => i _; rewrite exprn_ge0.
rewrite lead_coefE /nsq; have: (0 < size q)%N by rewrite size_poly_gt0.
case: (size q) => // n _; rewrite big_ord_recr /= ler_addr sumr_ge0 // => i _.
by rewrite exprn_ge0.
Qed.

Lemma landau s : forall q, (`|lead_coef q| * mah s) ^+ 2
  <= nsq (size (\prod_(a <- s) ('X - a%:P) * q)) (\prod_(a <- s) ('X - a%:P) * q).
Proof.
elim: s => [|a s IH] q; first by rewrite /mah !big_nil mulr1 mul1r nsq_lead.
have [->|q0] := eqVneq q 0.
  rewrite lead_coef0 normr0 mul0r expr0n /= mulr0 /nsq sumr_ge0 // => i _; exact: exprn_ge0.
rewrite [mah _]big_cons -/(mah s) big_cons {1}/mx; case: ifP => [le1|/negbT gt1].
  have := IH (('X - a%:P) * q); rewrite lead_coefM lead_coefXsubC !mul1r mulrA.
  by rewrite [X in X * q]mulrC.
have a0 : a^* != 0.
  by rewrite conjC_eq0 -normr_eq0; apply: contraNneq gt1 => ->; rewrite ler01.
set P := \prod_(a0 <- s) _.
have P0 : P \is monic by apply: monic_prod => i _; exact: monicXsubC.
rewrite -mulrA.
have s1 : size (('X - a%:P) * (P * q)) = (size (P * q)).+1.
  by rewrite size_mul ?mulf_neq0 ?(monic_neq0 P0) ?polyXsubC_eq0 // size_XsubC.
have sx : size (a^* *: 'X - 1 : {poly C}) = 2%N.
  rewrite size_addl size_scale ?size_polyX // size_opp size_poly1 //.
have s2 : size ((a^* *: 'X - 1) * (P * q)) = (size (P * q)).+1.
  rewrite size_mul ?mulf_neq0 ?(monic_neq0 P0) //; last by rewrite -size_poly_gt0 sx.
  by rewrite sx.
rewrite s1 nsq_flip // -s2.
have -> : (a^* *: 'X - 1) * (P * q) = P * ((a^* *: 'X - 1) * q) by rewrite mulrCA.
have := IH ((a^* *: 'X - 1) * q); rewrite lead_coefM.
have -> : lead_coef (a^* *: 'X - 1 : {poly C}) = a^*.
  by rewrite lead_coefDl ?lead_coefZ ?lead_coefX ?mulr1 // size_opp size_poly1 size_scale ?size_polyX.
by rewrite normrM norm_conjC -/P -[`|a| * _ * _]mulrA [`|a| * (_ * _)]mulrCA.
Qed.

Lemma coef_prod_bound s i : `|(\prod_(a <- s) ('X - a%:P) : {poly C})`_i| <= 2 ^+ size s * mah s.
Proof.
elim: s i => [|a s IH] i.
  rewrite /mah !big_nil expr0 mulr1 coef1; case: (i == 0%N); rewrite ?normr1 ?normr0 ?lexx ?ler01 //.
rewrite /mah !big_cons -/(mah s) mulrBl coefB coefXM coefCM.
apply: (le_trans (ler_norm_sub _ _)).
have B0 : 0 <= 2 ^+ size s * mah s by rewrite mulr_ge0 ?mah_ge0 ?exprn_ge0 ?ler0n.
have -> : 2 ^+ size (a :: s) * (mx a * mah s) = mx a * (2 ^+ size s * mah s) + mx a * (2 ^+ size s * mah s).
  by rewrite [size _]/= exprS mulr_natl mulr2n mulrDl !(mulrCA (2 ^+ size s)).
apply: ler_add.
  apply: (@le_trans _ _ (2 ^+ size s * mah s)); last by rewrite ler_pemull ?mx_ge1.
  by case: ifP => // _; rewrite normr0.
by rewrite normrM ler_pmul ?normr_ge0 ?mx_ge.
Qed.
End Landau.

(** Mignotte: a divisor of [f] has small coefficients. *)
Lemma mignotte (f g h : {poly int}) i : f = g * h -> f != 0 ->
  g`_i ^+ 2 <= 4%:R ^+ (size f).-1 * \sum_(j < size f) f`_j ^+ 2.
Proof.
move=> fE f0.
have g0 : g != 0 by apply: contraNneq f0; rewrite fE => ->; rewrite mul0r.
have h0 : h != 0 by apply: contraNneq f0; rewrite fE => ->; rewrite mulr0.
pose c := map_poly (intr : int -> algC).
have [sg gE] := closed_field_poly_normal (c g).
have [sh hE] := closed_field_poly_normal (c h).
have injc : injective (intr : int -> algC) by exact: intr_inj.
have szc (P : {poly int}) : size (c P) = size P by rewrite size_map_inj_poly ?rmorph0.
have lcc (P : {poly int}) : lead_coef (c P) = (lead_coef P)%:~R by rewrite lead_coef_map_inj ?rmorph0.
have lz (z : int) : z != 0 -> 1 <= `|z%:~R : algC|.
  by move=> z0; rewrite -intr_norm -[1]/(1%:~R) ler_int -gtz0_ge1 normr_gt0.
have lcm : lead_coef (c f) = lead_coef (c g) * lead_coef (c h) by rewrite !lcc fE lead_coefM rmorphM.
have cfE : \prod_(a <- sg ++ sh) ('X - a%:P) * (lead_coef (c f))%:P = c f.
  rewrite big_cat /= mulrC mul_polyC lcm -scalerA scalerAr -hE scalerAl -gE.
  by rewrite -rmorphM -fE.
have := @landau (sg ++ sh) (lead_coef (c f))%:P; rewrite cfE lead_coefC szc => H.
have cg0 : lead_coef (c g) != 0 by rewrite lead_coef_eq0 -size_poly_gt0 szc size_poly_gt0.
have sgs : (size sg = (size g).-1)%N by rewrite -szc gE size_scale // size_prod_XsubC.
have bg : `|(g`_i)%:~R : algC| <= `|lead_coef (c g)| * (2 ^+ size sg * mah sg).
  have -> : (g`_i)%:~R = (c g)`_i by rewrite coef_map.
  by rewrite {1}gE coefZ normrM ler_wpmul2l // coef_prod_bound.
have lef : `|lead_coef (c g)| * mah sg <= `|lead_coef (c f)| * mah (sg ++ sh).
  rewrite /mah big_cat /= -/(mah sg) -/(mah sh) lcm normrM mulrACA.
  rewrite ler_pemulr ?mulr_ge0 ?mah_ge0 // -[1]mulr1 ler_pmul ?ler01 ?mah_ge1 // lcc lz // lead_coef_eq0 //.
have szgf : (size sg <= (size f).-1)%N.
  by rewrite sgs fE size_mul //; move: h0; rewrite -size_poly_gt0; case: (size h) => // k _; rewrite addnS /= -!subn1 leq_sub2r // leq_addr.
rewrite -(ler_int [numDomainType of algC]) rmorphX /= -[_ ^+ 2]real_normK ?realz //.
apply: (@le_trans _ _ ((2 ^+ (size f).-1 * (`|lead_coef (c f)| * mah (sg ++ sh))) ^+ 2)).
  rewrite ler_expn2r ?nnegrE //; first by rewrite !mulr_ge0 ?exprn_ge0 ?mah_ge0 ?ler0n.
  apply: (le_trans bg); rewrite mulrCA ler_pmul ?mulr_ge0 ?exprn_ge0 ?mah_ge0 ?ler0n //.
  by rewrite ler_eexpn2l // ?ler1n ltr1n.
rewrite exprMn rmorphM rmorphX /= exprAC -natrX ler_pmul2l ?exprn_gt0 ?ltr0n //.
apply: (le_trans H); rewrite /nsq rmorph_sum /=; apply: ler_sum => j _.
by rewrite coef_map /= real_normK ?realz // rmorphX.
Qed.

(** The same in terms of a bound [B] for the coefficients of [f]. *)
Lemma mignotte_max (f g h : {poly int}) (B : int) i : f = g * h -> f != 0 ->
  (forall j, f`_j ^+ 2 <= B ^+ 2) ->
  g`_i ^+ 2 <= 4%:R ^+ (size f).-1 * ((size f)%:R * B ^+ 2).
Proof.
move=> fE f0 HB; apply: (le_trans (mignotte i fE f0)).
rewrite ler_pmul2l ?exprn_gt0 //; apply: (@le_trans _ _ (\sum_(j < size f) B ^+ 2)).
  by apply: ler_sum => j _; exact: HB.
by rewrite sumr_const card_ord mulr_natl.
Qed.
