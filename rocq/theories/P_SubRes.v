(** Determinants of Sylvester-like matrices: the theory of subresultants used
    to justify the exact divisions in gcd.rs. *)
Set Warnings "-notation-overridden,-ambiguous-paths".
From Coq Require Import ZArith Lia.
From mathcomp Require Import all_ssreflect all_fingroup all_algebra.
From mathcomp.zify Require Import zify_ssreflect.
From Verif Require Import P_RingTac.
Set Implicit Arguments.
Unset Strict Implicit.
Unset Printing Implicit Defensive.
Import GRing.Theory.
Local Open Scope ring_scope.

Section Sub.
Variable R : comRingType.
Implicit Types f g h q : {poly R}.

(** Row [x] of the matrix with [a] shifted copies of [f] and [k - a] of [g]. *)
Definition rowp (k a : nat) f g (x : nat) : {poly R} :=
  if (x < a)%N then f * 'X^(a.-1 - x) else g * 'X^(k.-1 - x).
(** Column [y] holds the coefficients of degree j+k-1, ..., j+1, and last t. *)
Definition colp (k j t y : nat) : nat := if (y.+1 < k)%N then (j + (k.-1 - y))%N else t.
Definition submx (k a j t : nat) f g : 'M[R]_k :=
  \matrix_(x, y) (rowp k a f g x)`_(colp k j t y).
Definition sub k a j t f g : R := \det (submx k a j t f g).

Lemma coef_MXn f n i : (f * 'X^n)`_i = if (i < n)%N then 0 else f`_(i - n).
Proof. by rewrite coefMXn. Qed.

(** Expansion along the first column when only the first [g] row reaches the
    top degree. *)
Lemma sub_expand k a j t f g : (a <= k)%N -> (0 < k)%N ->
  (size f <= j + k.+1 - a)%N -> (size g <= (a + j).+1)%N ->
  sub k.+1 a j t f g = (-1) ^+ a * g`_(a + j) * sub k a j t f g.
Proof.
move=> ak k0 sf sg; rewrite /sub (expand_det_col _ 0).
have ak' : (a < k.+1)%N by rewrite ltnS.
have col0 (x : 'I_k.+1) : submx k.+1 a j t f g x 0 = if x == Ordinal ak' then g`_(a + j) else 0.
  rewrite mxE /colp /= ltnS k0 subn0 /rowp -val_eqE /=.
  case: ltngtP => [xa|ax|->].
  - rewrite coef_MXn; case: ltnP => // H; apply: nth_default.
    by apply: leq_trans sf _; lia.
  - rewrite coef_MXn; case: ltnP => // H; apply: nth_default.
    by apply: leq_trans sg _; have := ltn_ord x; lia.
  - by rewrite coef_MXn ifF; [congr (g`_ _)|]; lia.
rewrite (bigD1 (Ordinal ak')) //= big1 ?addr0 => [|x Nx]; last by rewrite col0 (negbTE Nx) mul0r.
rewrite col0 eqxx /cofactor /= addn0 mulrCA mulrA; congr (_ * \det _).
apply/matrixP => x y; rewrite !mxE /colp /rowp /= /bump /= add1n.
have -> : (y.+2 < k.+1)%N = (y.+1 < k)%N by [].
congr (_`_ _); last by case: ltnP => // H; lia.
case: (leqP a x) => H; last by rewrite add0n H.
by rewrite add1n ifF; [congr (_ * 'X^_)|]; lia.
Qed.

Lemma sub_expandn c k a j t f g : (a <= k)%N -> (0 < k)%N ->
  (size f <= j + k.+1 - a)%N -> (size g <= (a + j).+1)%N ->
  sub (c + k) a j t f g = ((-1) ^+ a * g`_(a + j)) ^+ c * sub k a j t f g.
Proof.
move=> ak k0 sf sg; elim: c => [|c IH]; first by rewrite add0n expr0 mul1r.
rewrite addSn sub_expand ?IH ?exprS ?mulrA //; lia.
Qed.

(** Only shifted copies of [f], of degree at most [j]. *)
Lemma sub_full k j t f g : (size f <= j.+1)%N ->
  sub k.+1 k.+1 j t f g = f`_j ^+ k * f`_t.
Proof.
move=> sf; elim: k => [|k IH].
  rewrite expr0 mul1r /sub (expand_det_col _ 0) big_ord1 /cofactor /= det_mx00 !mulr1.
  by rewrite mxE /colp /rowp /= mulr1.
rewrite /sub (expand_det_col _ 0) big_ord_recl big1 ?addr0 => [|x _]; last first.
  rewrite mxE /colp /rowp /= ltnS ltn_ord coef_MXn /bump /= add1n.
  case: ltnP => H; first by rewrite mul0r.
  by rewrite nth_default ?mul0r //; apply: leq_trans sf _; have := ltn_ord x; lia.
rewrite mxE /colp /rowp /= coef_MXn ifF; last by lia.
have -> : (j + (k.+1 - 0) - (k.+1 - 0))%N = j by lia.
rewrite /cofactor /= addn0 expr0 mul1r exprS -mulrA; congr (_ * _).
rewrite -[RHS]IH; congr (\det _); apply/matrixP => x y; rewrite !mxE /colp /rowp /= /bump /= !add1n.
by rewrite !subSS.
Qed.

(** Row operations: replacing f by alpha f + q g. *)
Lemma sub_rowop k a j t f g q al : (a <= k)%N -> (q != 0 -> (size q + a.-1 <= k - a)%N) ->
  sub k a j t (al *: f + q * g) g = al ^+ a * sub k a j t f g.
Proof.
move=> ak sq.
pose T : 'M[R]_k := \matrix_(x, z)
  if (z < a)%N then al *+ (z == x) else if (x < a)%N then (q * 'X^(a.-1 - x))`_(k.-1 - z) else (z == x)%:R.
have dT : \det T = al ^+ a.
  rewrite -det_tr det_trig; last first.
    apply/is_trig_mxP => x z xz; rewrite !mxE; case: ltnP => xa.
      by rewrite -val_eqE /= ltn_eqF.
    by rewrite ltnNge (leq_trans xa (ltnW xz)) /= -val_eqE /= ltn_eqF.
  rewrite (eq_bigr (fun x : 'I_k => if (x < a)%N then al else 1)); last first.
    by move=> x _; rewrite !mxE eqxx mulr1n; case: ifP => // ->.
  rewrite -big_mkcond /= big_ord_narrow // big_const card_ord.
  by elim: (a) => [|n IH] //=; rewrite IH exprS.
rewrite -dT -det_mulmx; congr (\det _).
apply/matrixP => x y; rewrite !mxE; set c := colp _ _ _ _.
have Trow : rowp k a (al *: f + q * g) g x = \sum_z T x z *: rowp k a f g z.
  rewrite {1}/rowp; case: ltnP => xa; last first.
    rewrite (bigD1 x) //= big1 ?addr0 => [|z zx].
      by rewrite mxE ltnNge xa /= eqxx scale1r /rowp ltnNge xa.
    by rewrite mxE [(x < a)%N]ltnNge xa /= (negbTE zx) mulr0n if_same scale0r.
  rewrite mulrDl -scalerAl mulrAC.
  rewrite (bigID (fun z : 'I_k => (z < a)%N)) /=; congr (_ + _).
    rewrite (bigD1 x) //= big1 ?addr0 => [|z /andP [za zx]].
      by rewrite mxE xa eqxx mulr1n /rowp xa.
    by rewrite mxE za (negbTE zx) mulr0n scale0r.
  set Q := q * _; have sQ : (size Q <= k - a)%N.
    case: (q =P 0) => [q0|/eqP Nq]; first by rewrite /Q q0 mul0r size_poly0.
    apply: leq_trans (sq Nq); apply: leq_trans (size_mul_leq _ _) _.
    by rewrite size_polyXn addnS /=; lia.
  have -> : Q * g = \sum_(i < k - a) Q`_i *: 'X^i * g.
    rewrite -mulr_suml; congr (_ * _); rewrite -poly_def; apply/polyP => i.
    rewrite coef_poly; case: ltnP => // H; rewrite nth_default //; exact: leq_trans sQ H.
  rewrite (eq_bigr (fun z : 'I_k => Q`_(k.-1 - z) *: 'X^(k.-1 - z) * g)); last first.
    by move=> z za; rewrite mxE (negbTE za) xa /rowp (negbTE za) -scalerAl [g * _]mulrC.
  rewrite -(big_mkord (fun z => ~~ (z < a)%N) (fun z => Q`_(k.-1 - z) *: 'X^(k.-1 - z) * g)).
  under eq_bigl do rewrite -leqNgt.
  rewrite -(big_mkord xpredT (fun i => Q`_i *: 'X^i * g)).
  rewrite -[RHS](@big_nat_widenl _ _ _ a 0 k xpredT) // big_nat_rev /=.
  have := @big_addn _ 0 +%R 0 k a xpredT (fun i => Q`_(k.-1 - i) *: 'X^(k.-1 - i) * g).
  rewrite add0n => ->; apply: eq_big_nat => i /andP [_ Hi].
  by have -> : (0 + (k - a) - i.+1)%N = (k.-1 - (i + a))%N by lia.
rewrite Trow coef_sum; apply: eq_bigr => z _.
by rewrite mxE coefZ mxE.
Qed.

Lemma sub_scale k a j t f g al : (a <= k)%N ->
  sub k a j t (al *: f) g = al ^+ a * sub k a j t f g.
Proof.
move=> ak; have := @sub_rowop k a j t f g 0 al ak; rewrite mul0r addr0; apply.
by rewrite eqxx.
Qed.

End Sub.

(** Swapping the two blocks. *)
Lemma sub_swap k a : (a <= k)%N -> exists b : bool, forall (R : comRingType) j t (f g : {poly R}),
  sub k a j t f g = (-1) ^+ b * sub k (k - a) j t g f.
Proof.
move=> ak.
have P (x : 'I_k) : ((if (x < a)%N then x + (k - a) else x - a) < k)%N.
  by case: (ltnP x a); have := ltn_ord x; lia.
pose s (x : 'I_k) : 'I_k := Ordinal (P x).
have si : injective s.
  move=> x y /(congr1 val) /=; have := ltn_ord x; have := ltn_ord y.
  by case: (ltnP x a) => H1; case: (ltnP y a) => H2 H3 H4 E; apply: val_inj => /=; lia.
exists (perm si) => R j t f g; rewrite /sub -[X in X * _](@det_perm R) -det_mulmx -row_permE.
congr (\det _); apply/matrixP => x y; rewrite !mxE permE /rowp /=; congr (_`_ _).
have := ltn_ord x; case: (ltnP x a) => H1 H2; first by rewrite ifF; [congr (_ * 'X^_)|]; lia.
by rewrite ifT; [congr (_ * 'X^_)|]; lia.
Qed.
(** The sign of the swap, found on one instance. *)
Lemma sub_swap_sign (R : comRingType) k a : (a <= k)%N -> forall j t (f g : {poly R}),
  sub k a j t f g = (-1) ^+ (a * (k - a)) * sub k (k - a) j t g f.
Proof.
move=> ak; case: (ltnP a k) => [ak'|ka]; last first.
  move=> j t f g; have -> : a = k by lia.
  rewrite subnn muln0 expr0 mul1r; congr (\det _); apply/matrixP => x y.
  by rewrite !mxE /rowp ltn_ord.
case: (sub_swap ak) => b H j t f g; rewrite H; congr (_ * _).
have := H [comRingType of int] 0%N 0%N 'X^(k - a) 1.
have [n En] : exists n, (k - a = n.+1)%N by exists (k - a).-1; lia.
have -> : sub k (k - a) 0 0 1 'X^(k - a) = (-1) ^+ ((k - a) * a) :> int.
  rewrite -{1}(subnKC ak) sub_expandn ?size_poly1 ?size_polyXn ?addn0 //; try lia.
  by rewrite En sub_full ?size_poly1 // coefXn eqxx coef1 eqxx expr1n !mulr1 -exprM.
have -> : sub k a 0 0 'X^(k - a) 1 = 1 :> int.
  rewrite /sub -[RHS](det1 _ k); congr (\det _); apply/matrixP => x y; rewrite !mxE /colp /rowp.
  have -> : (if (y.+1 < k)%N then (0 + (k.-1 - y))%N else 0%N) = (k.-1 - y)%N.
    by have := ltn_ord y; case: (ltnP y.+1 k) => H1 H2; lia.
  have -> : (if (x < a)%N then 'X^(k - a) * 'X^(a.-1 - x) else 1 * 'X^(k.-1 - x)) = 'X^(k.-1 - x) :> {poly int}.
    by case: (ltnP x a) => H'; rewrite ?mul1r // -exprD; congr ('X^_); lia.
  rewrite coefXn; congr (nat_of_bool _)%:R; rewrite -val_eqE /=.
  by have := ltn_ord x; have := ltn_ord y; lia.
rewrite -[in X in _ -> X]signr_odd -[X in _ -> _ = X]signr_odd oddb mulnC -[X in _ = _ * X]signr_odd.
by case: b {H}; case: odd; rewrite // ?expr0 ?expr1 ?mulr1 ?mul1r => E.
Qed.

(** The coefficient of degree [t] in the [j]-th subresultant of two polynomials
    of formal degrees [d] and [e]. *)
Definition sres (R : comRingType) d e j t (u v : {poly R}) :=
  sub (d + e - j.*2) (e - j) j t u v.

Section Reduce.
Variable R : comRingType.
Implicit Types u v w q : {poly R}.

Lemma sres_top d e t u v : (e < d)%N -> (size v <= e.+1)%N ->
  sres d e e t u v = v`_e ^+ (d - e.+1) * v`_t.
Proof.
move=> ed sv; rewrite /sres subnn sub_swap_sign ?leq0n // mul0n expr0 mul1r subn0.
have -> : (d + e - e.*2 = (d - e.+1).+1)%N by lia.
by rewrite sub_full.
Qed.

Lemma sres_reduce d e s j t u v w q al be :
  (j <= s)%N -> (s < e)%N -> (e <= d)%N -> (size v <= e.+1)%N -> (size w <= s.+1)%N ->
  (size q <= (d - e).+1)%N -> al *: u = q * v + be *: w ->
  al ^+ (e - j) * sres d e j t u v
  = (-1) ^+ ((e - j) * (d - j)) * v`_e ^+ (d - s) * be ^+ (e - j) * sres e s j t v w.
Proof.
move=> js se ed sv sw sq E; rewrite /sres.
have ak : (e - j <= d + e - j.*2)%N by lia.
rewrite -(@sub_rowop _ _ _ j t u v (- q) al ak); last by rewrite size_opp; lia.
have -> : al *: u + - q * v = be *: w by rewrite E mulNr addrAC subrr add0r.
rewrite sub_scale //.
have -> : (d + e - j.*2 = (d - s) + (e + s - j.*2))%N by lia.
rewrite sub_expandn; try lia.
have -> : (e - j + j = e)%N by lia.
rewrite [X in _ * (_ * X) = _]sub_swap_sign; last by lia.
have -> : (e + s - j.*2 - (e - j) = s - j)%N by lia.
rewrite exprMn -exprM.
have -> : ((e - j) * (d - j) = (e - j) * (d - s) + (e - j) * (s - j))%N.
  by rewrite -mulnDr; congr (_ * _)%N; lia.
rewrite [in RHS]exprD; move: (_ ^+ ((e - j) * (d - s))) (_ ^+ ((e - j) * (s - j))) => x y.
rewrite [LHS]mulrC -!mulrA; congr (x * _); rewrite [LHS]mulrA [LHS]mulrC.
move: (sub _ _ _ _ _ _) (v`_e ^+ _) (be ^+ _) => a b c.
by rewrite (mulrC b) (mulrC a) mulrC -!mulrA.
Qed.
End Reduce.

Section RingAux.
Variable T : comRingType.
Notation C := (GRing.Ring.sort T).
Add Ring Tring : (comring_theory T).
Lemma ring_aux1 (L x y z : C) : L * (y * x) * z = x * (L * (z * y)).
Proof. ring. Qed.
Lemma ring_aux2 (x h y s : C) : x * (h * y * s) = h * s * (x * y).
Proof. ring. Qed.
Lemma ring_aux3 (z a b k h s : C) :
  z * (h * b) * (a * k * s) = h * s * (z * a * b * k).
Proof. ring. Qed.
End RingAux.

(** The invariant of the subresultant remainder sequence of [f] and [g]: the
    subresultants of the current pair [u], [v] are, up to sign, those of [f] and
    [g] times known powers of [A] and [c]. *)
Section Prs.
Variable R : idomainType.
Implicit Types u v w q f g : {poly R}.
Local Notation C := (GRing.Ring.sort R).

Definition prs_inv m n f g d e u v (A c : R) :=
  [/\ (e <= d)%N, size u = d.+1, size v = e.+1, A != 0 /\ c != 0 &
   forall j t, (j <= e)%N -> (j < d)%N ->
     sres d e j t u v ^+ 2 = (A ^+ (e - j) * c ^+ (d - j.+1) * sres m n j t f g) ^+ 2].

Lemma sq_aux k (x y z S : R) : z ^+ 2 = y ^+ 2 ->
  ((-1) ^+ k * x * z * S) ^+ 2 = (x * y) ^+ 2 * S ^+ 2.
Proof. by rewrite !(@exprMn R) sqrr_sign mul1r => ->. Qed.

Lemma prs_start m n f g c : (n <= m)%N -> size f = m.+1 -> size g = n.+1 -> c ^+ 2 = 1 ->
  prs_inv m n f g m n f g 1 c.
Proof.
move=> nm sf sg c1; split=> //.
  by rewrite oner_neq0; split=> //; apply: contraTneq (oner_neq0 R) => c0; rewrite -c1 c0 expr0n eqxx.
by move=> j t _ _; rewrite expr1n mul1r [in RHS]exprMn exprAC c1 expr1n mul1r.
Qed.

Variables (m n d e : nat) (f g u v : {poly R}) (A c : R).
Hypothesis I : prs_inv m n f g d e u v A c.

Lemma prs_c_div : (e < d)%N -> exists x, lead_coef v ^+ (d - e) = c ^+ (d - e).-1 * x.
Proof.
case: I => ed su sv [A0 c0] H lt; have := H e e (leqnn _) lt.
rewrite sres_top ?sv // subnn expr0 mul1r lead_coefE sv /= -exprSr.
have -> : (d - e.+1).+1 = (d - e)%N by lia.
have -> : (d - e.+1)%N = (d - e).-1 by lia.
move/eqP; rewrite eqf_sqr => /orP [] /eqP ->; first by exists (sres m n e e f g).
by exists (- sres m n e e f g); rewrite mulrN.
Qed.

Lemma prs_be_neq0 be : be ^+ 2 = (A * c ^+ (d - e)) ^+ 2 -> be != 0.
Proof.
case: I => _ _ _ [A0 c0] _ B; have : be ^+ 2 != 0 by rewrite B expf_neq0 ?mulf_neq0 ?expf_neq0.
by rewrite expf_eq0.
Qed.

Lemma prs_rem_div q (r : {poly R}) be :
  (size q <= (d - e).+1)%N -> (size r <= e)%N ->
  lead_coef v ^+ (d - e).+1 *: u = q * v + r -> be ^+ 2 = (A * c ^+ (d - e)) ^+ 2 ->
  exists w, r = be *: w.
Proof.
case: I => ed su sv [A0 c0] H sq sr E B.
have v0 : v`_e != 0 by have : lead_coef v != 0 by [rewrite lead_coef_eq0 -size_poly_eq0 sv]; rewrite lead_coefE sv.
case: (posnP e) => [e0|e1].
  by exists 0; rewrite scaler0; apply/eqP; rewrite -size_poly_leq0; move: sr; rewrite e0.
have X t : exists x, r`_t = be * x.
  have Hj : (e.-1 <= e)%N by lia.
  have Hd : (e.-1 < d)%N by lia.
  have := H e.-1 t Hj Hd.
  have E1 : lead_coef v ^+ (d - e).+1 *: u = q * v + 1 *: r by rewrite scale1r.
  have := @sres_reduce R d e e.-1 e.-1 t u v r q _ _ (leqnn _) _ ed _ _ sq E1.
  rewrite prednK // => /(_ (leqnn _)); rewrite sv => /(_ (leqnn _) sr).
  have -> : (e - e.-1 = 1)%N by lia.
  have -> : (d - e.-1 = (d - e).+1)%N by lia.
  rewrite expr1 expr1n mulr1 (@sres_top _ e) ?prednK // subnn expr0 mul1r.
  rewrite lead_coefE sv /= => E2 E3.
  have E4 : sres d e e.-1 t u v ^+ 2 = r`_t ^+ 2.
    apply: (mulfI (expf_neq0 2 (expf_neq0 (d - e).+1 v0))).
    by rewrite -!exprMn E2 -mulrA exprMn sqrr_sign mul1r.
  have : r`_t ^+ 2 = (be * sres m n e.-1 t f g) ^+ 2.
    by rewrite -E4 E3 expr1 exprMn -B -exprMn.
  move/eqP; rewrite eqf_sqr => /orP [] /eqP ->; first by exists (sres m n e.-1 t f g).
  by exists (- sres m n e.-1 t f g); rewrite mulrN.
have [w Hw] : exists w : seq R, map (fun x => be * x) w = r.
  elim: (polyseq r : seq R) X => [|a l IH] X'; first by exists [::].
  have [x Hx] := X' 0%N; have [w Hw] := IH (fun t => X' t.+1).
  by exists (x :: w); rewrite /= Hw -Hx.
exists (Poly w); apply/polyP => i; rewrite coefZ coef_Poly -Hw.
case: (ltnP i (size w)) => Hi; first by rewrite (nth_map 0).
by rewrite !nth_default ?mulr0 ?size_map.
Qed.

Lemma prs_next q w be c' s :
  (size q <= (d - e).+1)%N -> size w = s.+1 -> (s < e)%N ->
  lead_coef v ^+ (d - e).+1 *: u = q * v + be *: w -> be ^+ 2 = (A * c ^+ (d - e)) ^+ 2 ->
  (if (e < d)%N then (c' * c ^+ (d - e).-1) ^+ 2 = (lead_coef v ^+ (d - e)) ^+ 2
   else c' ^+ 2 = c ^+ 2) ->
  prs_inv m n f g e s v w (lead_coef v) c'.
Proof.
case: I => ed su sv [A0 c0] H sq sw se E B Ec.
have l0 : lead_coef v != 0 by rewrite lead_coef_eq0 -size_poly_eq0 sv.
have c'0 : c' != 0.
  move: Ec; case: ifP => _ Ec; apply: contraNneq l0 => c'0; move: Ec.
    by rewrite c'0 mul0r expr0n => /esym /eqP; rewrite !expf_eq0 => /andP [_ /andP [_ ->]].
  by rewrite c'0 expr0n => /esym /eqP; rewrite expf_eq0 (negbTE c0).
split=> //; first exact: ltnW.
move=> j t js je.
have := @sres_reduce R d e s j t u v w q _ _ js se ed _ _ sq E.
rewrite sv sw => /(_ (leqnn _) (leqnn _)) E2.
have E3 := H j t (ltnW je) (leq_trans je ed).
have lv : v`_e = lead_coef v by rewrite lead_coefE sv.
move: E2 E3; rewrite lv; move: (lead_coef v) l0 Ec => l l0 Ec E2 E3.
apply: (mulfI (expf_neq0 2 (mulf_neq0 (expf_neq0 (d - s) l0)
   (mulf_neq0 (expf_neq0 (e - j) A0) (expf_neq0 ((d - e) * (e - j)) c0))))).
move: (congr1 (fun x => x ^+ 2) E2); rewrite exprMn E3.
move: (sres d e j t u v) (sres e s j t v w) (sres m n j t f g) {E E2 E3} => S1 S2 S3 E.
have {}E : (l ^+ (d - s) * (A ^+ (e - j) * c ^+ ((d - e) * (e - j)))) ^+ 2 * S2 ^+ 2
  = ((l ^+ (d - e).+1) ^+ (e - j)) ^+ 2 * (A ^+ (e - j) * c ^+ (d - j.+1) * S3) ^+ 2.
  have Bk : (be ^+ (e - j)) ^+ 2 = (A ^+ (e - j) * c ^+ ((d - e) * (e - j))) ^+ 2.
    by rewrite exprAC B exprAC exprMn -exprM.
  by rewrite E (sq_aux _ _ _ Bk).
rewrite E -!exprMn.
suff -> : ((l ^+ (d - e).+1) ^+ (e - j) * (A ^+ (e - j) * c ^+ (d - j.+1) * S3)) ^+ 2 =
  (l ^+ (d - s) * (A ^+ (e - j) * c ^+ ((d - e) * (e - j))) * (l ^+ (s - j) * c' ^+ (e - j.+1) * S3)) ^+ 2 by [].
have Z : ((l ^+ (d - e).+1) ^+ (e - j) * c ^+ (d - j.+1)) ^+ 2 =
   (l ^+ (d - s) * l ^+ (s - j) * c ^+ ((d - e) * (e - j)) * c' ^+ (e - j.+1)) ^+ 2.
  rewrite -exprD; have -> : (d - s + (s - j) = d - j)%N by lia.
  rewrite -exprM; move: Ec; case: ltnP => [lt|ge] Ec; last first.
    have -> : d = e by lia.
    by rewrite subnn mul1n mul0n expr0 mulr1 !(@exprMn R) (exprAC c) (exprAC c') Ec.
  have {}Ec : (c' ^+ (e - j.+1) * c ^+ ((d - e).-1 * (e - j.+1))) ^+ 2 = (l ^+ ((d - e) * (e - j.+1))) ^+ 2.
    by rewrite (exprM c) (exprM l) -exprMn [LHS]exprAC Ec [LHS]exprAC.
  have -> : ((d - e) * (e - j) = (d - e).-1 * (e - j.+1) + (d - j.+1))%N.
    have -> : (d - j.+1 = (d - e) + (e - j.+1))%N by lia.
    have -> : (e - j = (e - j.+1).+1)%N by lia.
    have -> : (d - e = (d - e).-1.+1)%N by lia.
    by rewrite /=; move: (d - e).-1 (e - j.+1)%N => a b; rewrite mulSn mulnS; lia.
  rewrite (exprD c); move: (c ^+ (d - j.+1)) (c ^+ _) (c' ^+ _) Ec => x y z Ec.
  rewrite (@ring_aux1 R (l ^+ (d - j)) x y z).
  rewrite (mulrC _ x) [LHS]exprMn [RHS]exprMn; congr (_ * _).
  rewrite [RHS]exprMn Ec -exprMn -exprD; congr ((l ^+ _) ^+ 2).
  have -> : (d - j = (d - e) + (e - j.+1).+1)%N by lia.
  have -> : (e - j = (e - j.+1).+1)%N by lia.
  by move: (d - e)%N (e - j.+1)%N => a b; rewrite mulSn mulnS; lia.
move: Z; move: ((l ^+ (d - e).+1) ^+ (e - j)) (c ^+ (d - j.+1)) (l ^+ (d - s)) (l ^+ (s - j)) (c ^+ ((d - e) * (e - j))) (c' ^+ _) (A ^+ _) => x y z a b k h Z.
by rewrite (@ring_aux2 R x h y S3) (@ring_aux3 R z a b k h S3) exprMn Z -exprMn.
Qed.

End Prs.
