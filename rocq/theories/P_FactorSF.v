(** The factors returned by the factorisation over the integers multiply to a
    square-free polynomial: they are square-free and pairwise coprime. *)
From Coq Require Import ZArith Lia List QArith Qcanon.
From mathcomp Require Import all_ssreflect all_fingroup all_algebra all_field.
From mathcomp.zify Require Import ssrZ zify_ssreflect zify_algebra.
From Verif Require Import M_Base M_Traits M_Util M_Poly M_PolyCoef M_PolyAlg M_Factor S_Int S_Poly S_PolyAlg S_Factor
  P_Util P_Poly P_PolyDiv P_PolyInst P_PolyGcd P_PolyField P_PolyAlgInst P_PolyAlgRef P_Yun P_FactorP P_FactorZ P_FactorAll.
Set Implicit Arguments.
Unset Strict Implicit.
Unset Printing Implicit Defensive.
Import GRing.Theory.
Local Open Scope ring_scope.
Delimit Scope Z_scope with ZZ.
Local Notation zv := (pval int_sem).
Local Notation zwf := (wf int_sem).
Local Notation qv := (pval ratio_sem).
Local Notation qwf := (wf ratio_sem).
Local Notation rp := (map_poly (intr : int -> rat)).

Lemma sqf_sep (P : {poly rat}) : P != 0 -> square_free P <-> separable_poly P.
Proof.
move=> P0; rewrite -(square_free_gcd char0_perfect P0) /separable_poly /coprimep eqn_leq size_poly_gt0 gcdp_eq0 (negbTE P0) andbT.
by [].
Qed.

Lemma prod_filter_one l : Forall primwf l -> \prod_(g <- filter (fun g => ~~ poly_is_one g) l) zv g = \prod_(g <- l) zv g.
Proof.
elim: l => // g l IH H; inversion_clear H as [|? ? pg pl].
rewrite big_cons -(IH pl) /= (is_oneP (proj1 pg)); case: eqP => [->|_] /=; first by rewrite mul1r.
by rewrite big_cons.
Qed.
Lemma factor_powers_rad rng fuel l : forall i pos fs, Forall (fun f => primwf (zof f)) l ->
  factor_powers rng fuel i l pos = Ret fs -> \prod_(fn <- fs) zv fn.1 = \prod_(f <- l) zv (zof f).
Proof.
elim: l => [|f l IH] i pos fs H; cbn [factor_powers]; first by move=> [<-]; rewrite !big_nil.
inversion_clear H as [|? ? pf pl].
have := @factor_square_free_ok rng fuel (zof f) pos pf; rewrite -/(zof f).
case: (factor_square_free _ _ _ _) => [[gs pos']| |] // [fl el]; cbn [rbind].
have := IH i.+1 pos' _ pl; case: (factor_powers _ _ _ _ _) => [rest| |] // /(_ _ erefl) er; cbn [rbind] => -[<-].
by rewrite big_cat /= er big_map /= big_cons prod_filter_one // el.
Qed.

Lemma sep_prod (l : seq (poly ratio_coef)) : (forall q, In q l -> separable_poly (qv q)) ->
  (forall i j, (i < j < size l)%N -> coprimep (qv (nth (poly_zero ratio_coef) l i)) (qv (nth (poly_zero ratio_coef) l j))) ->
  separable_poly (\prod_(q <- l) qv q).
Proof.
elim: l => [|q l IH] hs hc; first by rewrite big_nil /separable_poly coprime1p.
rewrite big_cons separable_mul hs /=; last by left.
rewrite IH /=; last first.
- by move=> i j h; exact: (hc i.+1 j.+1).
- by move=> r rl; apply: hs; right.
have {}hc j : (j < size l)%N -> coprimep (qv q) (qv (nth (poly_zero ratio_coef) l j)) by move=> h; exact: (hc 0%N j.+1).
elim: l hc {IH hs} => [|r l IH] hc; first by rewrite big_nil coprimep1.
by rewrite big_cons coprimepMr (hc 0%N) //= IH // => j h; exact: (hc j.+1).
Qed.

Lemma factor_rad rng fuel (self : zpoly) c fs : zwf self -> factor_with_rng rng fuel self = Ret (c, fs) ->
  separable_poly (\prod_(fn <- fs) rp (zv fn.1)).
Proof.
move=> ws; rewrite /factor_with_rng.
case: (content int_content self) => [ct| |] //; cbn [rbind]; case: (map_res _ _) => [rs| |] //; cbn [rbind].
have [wq _] := from_iterator_spec ratio_sem [seq Q2Qc (inject_Z c) | c <- rs].
have [c1 [l [-> wl _ pl cl]]] := yun_spec wq; cbn [rbind].
have zl : Forall (fun f => primwf (zof f) /\ qv f = rp (zv (zof f))) l.
  apply/Forall_forall => g gl; have [_ [W EW cW]] := pl g gl.
  have wg : qwf g by move/Forall_forall: wl; apply.
  by have [w1 w2] := zof_ok wg EW; split; [split=> //; rewrite w2|rewrite w2].
case E: (factor_powers _ _ _ _ _) => [gs| |] //; cbn [rbind] => -[_ <-].
rewrite -rmorph_prod (factor_powers_rad _ E); last by apply: Forall_impl zl => f [].
have ep : rp (\prod_(f <- l) zv (zof f)) = \prod_(f <- l) qv f.
  rewrite rmorph_prod; elim: l zl {wl pl cl E} => [|f l IH] zl; first by rewrite !big_nil.
  by inversion_clear zl as [|? ? [_ e] zl']; rewrite !big_cons e IH.
rewrite [X in separable_poly X]ep; apply: sep_prod cl => q ql; have [h _] := pl q ql; apply/sqf_sep => //.
move/Forall_forall: zl => /(_ q ql) [pq ->]; rewrite map_poly_eq0_id0; first exact: primwf_n0.
by rewrite intr_eq0 lead_coef_eq0 primwf_n0.
Qed.

Lemma factor_square_free rng fuel (p : poly int_coef) c fs : wf int_sem p -> factor_with_rng rng fuel p = Ret (c, fs) ->
  square_free (\prod_(fn <- fs) map_poly (intr : int -> rat) (pval int_sem fn.1)).
Proof.
move=> wp e; have s := factor_rad wp e; apply/sqf_sep => //.
exact: separable_poly_neq0 s.
Qed.
