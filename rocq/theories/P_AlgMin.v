(** The polynomial of a number is its minimal polynomial. *)
From Coq Require Import ZArith Znumtheory QArith Qreals Reals Lia Lra.
Set Warnings "-notation-overridden,-ambiguous-paths".
From mathcomp Require Import all_ssreflect all_algebra.
From mathcomp.zify Require Import ssrZ zify.
From Verif Require Import M_Base M_Traits M_Util M_Interval M_Poly M_PolyCoef P_PolyInst M_PolyAlg M_Factor M_Alg
  S_Poly S_PolyAlg S_Factor S_Interval P_Interval P_Poly P_PolyAlgInst P_PolyAlgRef P_Rstruct S_Alg S_AlgMin P_AlgBase P_AlgShrink P_AlgBasic.
Set Implicit Arguments.
Unset Strict Implicit.
Unset Printing Implicit Defensive.
Import Order.TTheory GRing.Theory Num.Theory.
Delimit Scope Z_scope with ZZ.
Delimit Scope R_scope with RR.
Local Open Scope ring_scope.
Local Notation PV p := (pval int_sem p).

Definition zpoly_of (l : seq Z) : {poly int} := Poly (map zi l).

Lemma eval_atE l (x : R) : eval_at l x = (map_poly (intr : int -> R) (zpoly_of l)).[x].
Proof.
elim: l => [|c l IH]; first by rewrite /zpoly_of /= map_poly0 horner0.
rewrite /zpoly_of /= cons_poly_def rmorphD rmorphM /= map_polyX map_polyC /= hornerMXaddC IH -/(zpoly_of l).
by rewrite intr_zi addrC mulrC.
Qed.

Lemma list_gcdE l : list_gcd l = Z.of_nat (\big[gcdn/0%N]_(c <- l) `|zi c|%N).
Proof.
elim: l => [|c l IH]; first by rewrite big_nil.
rewrite big_cons /= -/(list_gcd l) IH.
move: (\big[_/_]_(_ <- _) _) => n; rewrite -Z.gcd_abs_l.
have -> : Z.abs c = Z.of_nat `|zi c|%N by lia.
by move: (`|zi c|%N) => k; lia.
Qed.

Lemma zpoly_zero l : zpoly_of l = 0 -> forall c, List.In c l -> c = 0%ZZ.
Proof.
move=> e c; have h i : zi (nth 0%ZZ l i) = 0.
  have := congr1 (fun p : {poly int} => p`_i) e; rewrite /zpoly_of coef_Poly coef0.
  by case: (ltnP i (size l)) => hi; [rewrite (nth_map 0%ZZ)|rewrite (nth_default 0%ZZ)].
elim: l h {e} => [|d l IH] //= h [<-|/IH ->] //.
  by apply: zi_inj; exact: (h 0%N).
by move=> i; exact: (h i.+1).
Qed.

Lemma last_zi (l : seq Z) : last 0 (map zi l) = zi (List.last l 0%ZZ).
Proof. by elim: l => [|c [|d l] IH] //=; rewrite -IH. Qed.

Section Min.
Variables (a : ralg) (x : R).
Hypothesis D : denotes a x.
Let L := coefficients (mp a).
Lemma coefs_val : map zi L = PV (mp a) :> seq int.
Proof. by rewrite (vcoefs int_sem) -(pval_seq (den_wf D)). Qed.
Lemma zpoly_L : zpoly_of L = PV (mp a).
Proof. by rewrite /zpoly_of coefs_val polyseqK. Qed.

Lemma canonical_iff : canonical a <-> (0 < List.last L 0)%ZZ /\ list_gcd L = 1%ZZ.
Proof.
have n0 := den_neq0 D; have l0 : lead_coef (PV (mp a)) != 0 by rewrite lead_coef_eq0.
have el : zi (List.last L 0%ZZ) = lead_coef (PV (mp a)) by rewrite -last_zi coefs_val lead_coefE nth_last.
have eg : list_gcd L = Z.of_nat (\big[gcdn/0%N]_(i < size (PV (mp a))) `|((PV (mp a))`_i)%R|%N).
  rewrite list_gcdE -(big_map zi xpredT (fun z => `|z|%N)) coefs_val.
  by rewrite (big_nth 0) big_mkord.
rewrite /canonical /positive_primitive eg; move: el.
have := sgz_contents (PV (mp a)); rewrite /zcontents; move: (\big[_/_]_(_ < _) _) => g.
move=> _ el; have {}el : (0 < List.last L 0)%ZZ <-> 0 < lead_coef (PV (mp a)).
  by rewrite -el -zi0 zi_lt; split=> [/Z.ltb_lt|/Z.ltb_lt].
rewrite el; case: sgzP l0 {el} => // _ _; split; try by case.
- by move=> h; split=> //; lia.
- by case=> _; lia.
- by lia.
Qed.

Lemma minimal l' : (length l' < length L)%coq_nat -> eval_at l' x = 0 -> forall c, List.In c l' -> c = 0%ZZ.
Proof.
move=> sz e; apply: zpoly_zero; apply/eqP; apply/negPn/negP => n0.
have [s1 irr] := den_irr D; set P := map_poly _ _ in s1 irr; pose Q := map_poly (intr : int -> rat) (zpoly_of l').
have Q0 : Q != 0 by rewrite -size_poly_gt0 size_intr size_poly_gt0.
have sQ : (size Q < size P)%N.
  rewrite !size_intr -coefs_val size_map; apply: leq_ltn_trans (size_Poly _) _.
  by rewrite size_map; apply/ssrnat.ltP.
have cop : coprimep P Q.
  rewrite -gcdp_eqp1; apply/negPn/negP => h.
  have [h1 h2] : gcdp P Q %| P /\ gcdp P Q %| Q by rewrite dvdp_gcdl dvdp_gcdr.
  have := irr _ _ h1; rewrite -size_poly_eq1 in h.
  move/(_ h) => /eqp_size es; have := dvdp_leq Q0 h2; rewrite es leqNgt sQ //.
have [[u v] /= uv] := Bezout_coprimepP _ _ cop.
have rP : (map_poly ratr P).[x] = 0 :> R by rewrite -real_poly_rat; exact/rootP/(den_root D).
have rQ : (map_poly ratr Q).[x] = 0 :> R.
  rewrite -e eval_atE /Q -map_poly_comp; congr (_.[_]); apply: eq_map_poly => n /=; exact: ratr_int.
have [c c0 ec] : exists2 c : rat, c != 0 & u * P + v * Q = c%:P.
  by move: uv; rewrite -size_poly_eq1 => /size_poly1P.
have := congr1 (fun p => (map_poly (ratr : rat -> R) p).[x]) ec.
rewrite /= rmorphD !rmorphM /= hornerD !hornerM rP rQ !mulr0 addr0 map_polyC hornerC /= => /esym/eqP.
by rewrite fmorph_eq0 (negbTE c0).
Qed.

Lemma minimal_iff : canonical a <-> minimal_polynomial_of x L.
Proof.
rewrite canonical_iff /minimal_polynomial_of; split; last by case=> _ [h1 [h2 _]].
move=> [h1 h2]; split; last by split=> //; split=> //; exact: minimal.
rewrite eval_atE zpoly_L; exact/rootP/(den_root D).
Qed.
End Min.

(** * There is only one minimal polynomial *)
Lemma minimal_size x l l' : minimal_polynomial_of x l -> minimal_polynomial_of x l' -> (length l' <= length l)%coq_nat.
Proof.
move=> [e [h _]] [_ [_ [_ m]]]; apply/ssrnat.leP; rewrite leqNgt; apply/negP => /ssrnat.ltP s.
have := m l s e (List.last l 0%ZZ); case: l h {e s} => [|c l] // h.
have hin : List.In (List.last (c :: l) 0%ZZ) (c :: l).
  elim: l c {h} => [|d l IH] c; first by left.
  by right; exact: IH.
by move/(_ hin); lia.
Qed.
Lemma last_rcons_coq (l : seq Z) c : List.last (rcons l c) 0%ZZ = c.
Proof. by elim: l => [|d [|d' l] IH]. Qed.
Lemma eval_rcons l c (x : R) : eval_at (rcons l c) x = (eval_at l x + IZR c * x ^ size l)%RR.
Proof.
elim: l => [|d l IH]; rewrite /=; first by lra.
by rewrite -/(eval_at (rcons l c) x) IH -/(eval_at l x); lra.
Qed.
Lemma gcd_scale t l : (0 <= t)%ZZ -> list_gcd (map (Z.mul t) l) = (t * list_gcd l)%ZZ.
Proof.
move=> t0; elim: l => [|c l IH] /=; first by rewrite Z.mul_0_r.
by rewrite -/(list_gcd (map (Z.mul t) l)) IH -/(list_gcd l) Z.gcd_mul_mono_l Z.abs_eq.
Qed.
Lemma eval_comb s t l l' (x : R) : size l = size l' ->
  eval_at [seq (t * p.1 - s * p.2)%ZZ | p <- zip l l'] x = (IZR t * eval_at l x - IZR s * eval_at l' x)%RR.
Proof.
elim: l l' => [|c l IH] [|c' l'] //=; first by move=> _; lra.
move=> [/IH e]; rewrite -/(eval_at _ x) e minus_IZR !mult_IZR -/(eval_at l x) -/(eval_at l' x); lra.
Qed.
Lemma comb_zero s t l l' : size l = size l' ->
  (forall c, List.In c [seq (t * p.1 - s * p.2)%ZZ | p <- zip l l'] -> c = 0%ZZ) -> map (Z.mul t) l = map (Z.mul s) l'.
Proof.
elim: l l' => [|c l IH] [|c' l'] //= [/IH e] h; rewrite e; last by move=> d hd; apply: h; right.
by have := h _ (or_introl (erefl _)) => h0; congr (_ :: _); lia.
Qed.
Lemma minimal_unique x l l' : minimal_polynomial_of x l -> minimal_polynomial_of x l' -> l = l'.
Proof.
move=> M M'; have s1 := minimal_size M M'; have s2 := minimal_size M' M.
have es : size l = size l' by change (length l = length l'); lia.
have [e [h [g m]]] := M; have [e' [h' [g' m']]] := M'.
case/lastP: l es e h g m {M M' s1 s2} => [|l s]; first by move=> _ _; cbn; lia.
case/lastP: l' e' h' g' m' => [|l' t]; first by move=> _; cbn; lia.
rewrite !last_rcons_coq !eval_rcons !size_rcons => e' t0 g' _ [es] e s0 g m.
have E : map (Z.mul t) l = map (Z.mul s) l'.
  apply: comb_zero => //; apply: m.
    change (size [seq (t * p.1 - s * p.2)%ZZ | p <- zip l l'] < size (rcons l s))%coq_nat.
    by rewrite size_map size_zip es minnn size_rcons es; apply/ssrnat.ltP.
  rewrite eval_comb // -es in e' *.
  have -> : eval_at l x = (- (IZR s * x ^ size l))%RR by lra.
  have -> : eval_at l' x = (- (IZR t * x ^ size l))%RR by lra.
  by rewrite -/(0%RR); lra.
have E' : map (Z.mul t) (rcons l s) = map (Z.mul s) (rcons l' t) by rewrite !map_rcons E Z.mul_comm.
have st : s = t.
  have := congr1 list_gcd E'; rewrite !gcd_scale ?g ?g'; try lia.
by rewrite -st in E' *; apply: (inj_map _ E') => u v; nia.
Qed.
