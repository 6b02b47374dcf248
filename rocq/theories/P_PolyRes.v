(** The determinant computed by the subresultant proof is that of the Sylvester
    matrix, and it vanishes exactly when there is a common factor. *)
From Coq Require Import ZArith Lia.
Set Warnings "-notation-overridden,-ambiguous-paths".
From mathcomp Require Import all_ssreflect all_fingroup all_algebra.
From mathcomp.zify Require Import zify_ssreflect.
From Verif Require Import M_Base M_Poly M_PolyAlg S_Poly S_PolyAlg P_Poly P_PolyDiv P_SubRes P_PolyGcd.
Set Implicit Arguments.
Unset Strict Implicit.
Unset Printing Implicit Defensive.
Import GRing.Theory.
Local Open Scope ring_scope.

Section Syl.
Variable R : idomainType.
Implicit Types f g : {poly R}.

Lemma res0_sylvester f g : res0 f g = \det (sylvester f g).
Proof.
rewrite /res0 /sres !subn0 /sub; congr (\det _); apply/matrixP => x y; rewrite !mxE /colp /rowp.
set m := (size f).-1; set n := (size g).-1.
have := ltn_ord x; have := ltn_ord y; rewrite -/m -/n => Hy Hx.
have -> : (if (y.+1 < m + n)%N then (0 + ((m + n).-1 - y))%N else 0%N) = ((m + n).-1 - y)%N.
  by case: (ltnP y.+1 (m + n)) => H; lia.
have sf : (size f <= m.+1)%N by rewrite /m; lia.
have sg : (size g <= n.+1)%N by rewrite /n; lia.
have aux (x' y' m' n' : nat) : (size f <= m'.+1)%N -> (size g <= n'.+1)%N -> (x' < m' + n')%N -> (y' < m' + n')%N ->
  (if (x' < n')%N then f * 'X^(n'.-1 - x') else g * 'X^((m' + n').-1 - x'))`_((m' + n').-1 - y') =
  (if (x' < n')%N
   then if (x' <= y' <= x' + m')%N then f`_(m' - (y' - x')) else 0
   else if (x' - n' <= y' <= x' - n' + n')%N then g`_(n' - (y' - (x' - n'))) else 0); last exact: aux.
move=> {}sf {}sg {}Hx {}Hy; move: x' y' m' n' sf sg Hx Hy => {m n}{}x {}y m n sf sg Hx Hy.
case: (ltnP x n) => H; rewrite coef_MXn.
  case: (ltnP _ (n.-1 - x)) => H1; first by rewrite ifF; [|lia].
  case: ifP => H2; first by congr (f`_ _); lia.
  by apply: nth_default; apply: leq_trans sf _; lia.
case: (ltnP _ ((m + n).-1 - x)) => H1; first by rewrite ifF; [|lia].
case: ifP => H2; first by congr (g`_ _); lia.
by apply: nth_default; apply: leq_trans sg _; lia.
Qed.

Lemma res0_resultant f g : exists b : bool, res0 f g = (-1) ^+ b * mxpoly.resultant f g.
Proof.
rewrite /res0 /sres !subn0 addnC /mxpoly.resultant.
set m := (size f).-1; set n := (size g).-1.
have P (x : 'I_(n + m)) : ((if (x < n)%N then n.-1 - x else n + ((n + m).-1 - x)) < n + m)%N.
  by have := ltn_ord x; case: (ltnP x n); lia.
pose s (x : 'I_(n + m)) : 'I_(n + m) := Ordinal (P x).
have si : injective s.
  move=> x y /(congr1 val) /=; have := ltn_ord x; have := ltn_ord y.
  by case: (ltnP x n) => H1; case: (ltnP y n) => H2 H3 H4 E; apply: val_inj => /=; lia.
pose r := perm (@rev_ord_inj (n + m)).
exists (odd_perm (perm si) (+) odd_perm r).
have -> : sub (n + m) n 0 0 f g = \det (row_perm (perm si) (col_perm r (Sylvester_mx f g))).
  congr (\det _); apply/matrixP => x y; rewrite [LHS]mxE [RHS]mxE [RHS]mxE !permE Sylvester_mxE /colp /rowp.
  have Hx := ltn_ord x; have Hy := ltn_ord y.
  have -> : (if (y.+1 < n + m)%N then (0 + ((n + m).-1 - y))%N else 0%N) = ((n + m) - y.+1)%N.
    by case: (ltnP y.+1 (n + m)) => H; lia.
  case: (split_ordP (s x)) => j /(congr1 val) /=; have := ltn_ord j => Hj.
    case: (ltnP x n) => H E; last by move: E; rewrite /=; lia.
    by rewrite -E coef_MXn; case: (ltnP _ (n.-1 - x)).
  case: (ltnP x n) => H E; first by move: E; rewrite /=; lia.
  have -> : ((n + m).-1 - x = j)%N by move: E; rewrite /=; lia.
  by rewrite coef_MXn; case: (ltnP _ j).
rewrite row_permE col_permE !det_mulmx !det_perm signr_addb mulrA -mulrA (mulrC (\det _)) odd_permV // mulrA.
by [].
Qed.

Lemma sylvester_eq0 f g : (\det (sylvester f g) == 0) = (size (gcdp f g) > 1)%N.
Proof.
rewrite -res0_sylvester; have [b ->] := res0_resultant f g.
by rewrite mulf_eq0 signr_eq0 resultant_eq0.
Qed.
End Syl.

Lemma common_factor (R : idomainType) (f g : {poly R}) : f != 0 ->
  (1 < size (gcdp f g))%N <-> exists h : {poly R}, [/\ (1 < size h)%N, h %| f & h %| g].
Proof.
move=> f0; split=> [H|[h [sh hf hg]]].
  by exists (gcdp f g); rewrite dvdp_gcdl dvdp_gcdr.
apply: leq_trans sh _; apply: dvdp_leq; first by rewrite gcdp_eq0 (negbTE f0).
by rewrite dvdp_gcd hf hg.
Qed.

(** Over the integers a common factor in the sense of [gcdp] is a factor with
    integer coefficients. *)
Lemma common_factor_int (f g : {poly int}) : f != 0 -> (1 < size (gcdp f g))%N <->
  exists h a b : {poly int}, [/\ (1 < size h)%N, f = a * h & g = b * h].
Proof.
move=> f0; split=> [H|[h [a [b [sh Ef Eg]]]]]; last first.
  by apply/common_factor => //; exists h; rewrite Ef Eg !dvdp_mull.
have [a Ea] := dvdpP_int (dvdp_gcdl f g); have [b Eb] := dvdpP_int (dvdp_gcdr f g).
exists (zprimitive (gcdp f g)), a, b; rewrite size_zprimitive; split=> //.
  by rewrite {1}Ea mulrC.
by rewrite {1}Eb mulrC.
Qed.

Section Res.
Variables (K : pcoef) (R : idomainType) (S : coef_sem K R) (X : pexact K) (HX : exact_sem S X).
Notation vc := (vc S).
Notation pval := (pval S).
Notation wf := (wf S).

Lemma resultant_spec p q : wf p -> wf q ->
  (pval p != 0 -> pval q != 0 ->
    exists r, [/\ M_PolyAlg.resultant X p q = Ret r,
      vc r = \det (sylvester (pval p) (pval q)),
      nonzero_resultant X p q = Ret (if vc r == 0 then None else Some r) &
      vc r = 0 <-> exists h : {poly R}, [/\ (1 < size h)%N, h %| pval p & h %| pval q]]) /\
  (pval p = 0 \/ pval q = 0 ->
    nonzero_resultant X p q = Ret None /\
    exists2 r, M_PolyAlg.resultant X p q = Ret r & vc r = 0).
Proof.
move=> Hp Hq; have [o [E N So]] := nonzero_resultant_spec HX Hp Hq.
have [r Er Vr] := resultant_res0 HX Hp Hq.
split=> [p0 q0|z]; last first.
  split; first by rewrite E; congr Ret; apply/N; case: z; [left|right; left].
  by exists r => //; rewrite Vr; case: z => ->; rewrite eqxx ?orbT.
rewrite (negbTE p0) (negbTE q0) /= in Vr.
exists r; split=> //; first by rewrite Vr res0_sylvester.
  rewrite E; congr Ret; rewrite Vr; case: eqP => z; first by apply/N; right; right.
  case: o E N So => [t|] E N So; last first.
    by case: N => /(_ erefl) [/eqP|[/eqP|//]]; rewrite ?(negbTE p0) ?(negbTE q0).
  by congr Some; apply: (@vc_inj _ _ S); rewrite Vr (So t erefl).
rewrite Vr res0_sylvester -common_factor // -sylvester_eq0; split=> [->|/eqP //].
by rewrite eqxx.
Qed.
End Res.
