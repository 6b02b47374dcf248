(** Meaning of algebraic numbers: rationality, conversions, uniqueness. *)
From Coq Require Import ZArith Znumtheory QArith Qreals Qround Reals Lia Lra.
From Coq Require Qcanon.
Set Warnings "-notation-overridden,-ambiguous-paths".
From mathcomp Require Import all_ssreflect all_algebra.
From mathcomp.zify Require Import ssrZ.
From Verif Require Import M_Base M_Traits M_Util M_Interval M_Poly M_PolyCoef P_PolyInst M_PolyAlg M_Factor M_Alg
  S_Poly S_PolyAlg S_Factor S_Interval P_Interval P_Poly P_PolyAlgInst P_PolyAlgRef P_Rstruct S_Alg P_AlgBase P_AlgShrink.
Set Implicit Arguments.
Unset Strict Implicit.
Unset Printing Implicit Defensive.
Import Order.TTheory GRing.Theory Num.Theory.
Delimit Scope Z_scope with ZZ.
Delimit Scope R_scope with RR.
Delimit Scope Q_scope with QQ.
Local Open Scope ring_scope.
Local Notation Rt p := (root (real_poly p)).
Local Notation PV p := (pval int_sem p).

(** * Rationals: Q, rat and R *)
Definition q2rat (q : Q) : rat := (zi (Qnum q))%:~R / (zi (Zpos (Qden q)))%:~R.
Lemma ratr_int (n : int) : ratr n%:~R = n%:~R :> R.
Proof. by rewrite ratr_int. Qed.
Lemma zi_pos p : zi (Zpos p) != 0.
Proof. by rewrite (_ : 0 = zi 0) //; apply/eqP => /zi_inj. Qed.
Lemma q2rat_R q : ratr (q2rat q) = Q2R q :> R.
Proof.
have rd (u v : rat) : ratr (u / v) = ratr u / ratr v :> R by exact: fmorph_div.
rewrite /q2rat rd !ratr_int !intr_zi -[RHS]/(_ * Rinv _) -RinvE //.
by apply/eqP => /eq_IZR.
Qed.
Lemma ratr_R_inj : injective (ratr : rat -> R).
Proof. exact: fmorph_inj. Qed.
Lemma real_poly_rat p : real_poly p = map_poly ratr (map_poly (intr : int -> rat) (PV p)).
Proof. by rewrite /real_poly -map_poly_comp; apply: eq_map_poly => n /=; rewrite ratr_int. Qed.
Lemma root_rat p q : Rt p (Q2R q) = root (map_poly (intr : int -> rat) (PV p)) (q2rat q).
Proof. by rewrite real_poly_rat -q2rat_R fmorph_root. Qed.
Lemma size_intr (P : {poly int}) : size (map_poly (intr : int -> rat) P) = size P.
Proof. by apply: size_map_inj_poly => //; exact: intr_inj. Qed.
Lemma size_real p : size (real_poly p) = size (PV p).
Proof. by rewrite real_poly_rat size_map_poly size_intr. Qed.

(** An irreducible polynomial with a rational root is linear. *)
Lemma irr_root (P : {poly rat}) (r : rat) : irreducible_poly P -> root P r -> size P = 2%N.
Proof.
move=> [s1 irr] rt; have : 'X - r%:P %| P by rewrite dvdp_XsubCl.
by move/irr; rewrite size_XsubC => /(_ isT) /eqp_size <-; rewrite size_XsubC.
Qed.

Section Den.
Variables (a : ralg) (x : R).
Hypothesis D : denotes a x.
Let P := PV (mp a).
Lemma den_wf : wf int_sem (mp a).  Proof. by case: D. Qed.
Lemma den_irr : irreducible_over_Q P.  Proof. by case: D. Qed.
Lemma den_in : inI x (itv a).  Proof. by case: D => _ _ []. Qed.
Lemma den_root : Rt (mp a) x.  Proof. by case: D => _ _ []. Qed.
Lemma den_uniq y : inI y (itv a) -> Rt (mp a) y -> y = x.  Proof. by case: D => _ _ _ h _; exact: h. Qed.
Lemma den_size : (1 < size P)%N.
Proof. by have [h _] := den_irr; rewrite size_intr in h. Qed.
Lemma den_neq0 : P != 0.
Proof. by rewrite -size_poly_gt0; apply: ltn_trans den_size. Qed.
Lemma den_degree : ra_degree a = Ret (size P).-1.
Proof. by rewrite /ra_degree (degree_spec (S := int_sem) den_wf) (negbTE den_neq0). Qed.
Lemma den_is_rational : ra_is_rational a = Ret (size P == 2%N).
Proof.
rewrite /ra_is_rational den_degree /=; congr Ret.
by have := den_size; case: (size P) => [|[|[|n]]].
Qed.

(** The linear case. *)
Lemma coef_zi i : zi (coefficient (mp a) i) = P`_i.
Proof. exact: (coefficient_spec int_sem). Qed.
Lemma lin_pos : size P = 2%N -> (0 < coefficient (mp a) 1)%ZZ.
Proof.
move=> s2; have [_ _ _ _ /(_ s2)] := D; rewrite /positive_primitive -/P => h.
have : 0 < lead_coef P by rewrite -sgz_gt0 -sgz_contents h.
by rewrite lead_coefE -/P s2 -coef_zi -[0]/(zi 0%ZZ) zi_lt => /Z.ltb_lt.
Qed.
Lemma lin_coprime : size P = 2%N -> Z.gcd (coefficient (mp a) 0) (coefficient (mp a) 1) = 1%ZZ.
Proof.
move=> s2; have [_ _ _ _ /(_ s2)] := D; rewrite /positive_primitive -/P => h.
have : gcdz (P`_0) (P`_1) = 1.
  have : `|zcontents P|%N = 1%N by rewrite h.
  have sg : `|sgz (lead_coef P)|%N = 1%N by rewrite -sgz_contents h.
  by rewrite /zcontents abszM sg mul1n absz_nat s2 !big_ord_recl big_ord0 gcdn0 /gcdz => ->.
rewrite -!coef_zi => g.
have [u [v e]] := Bezoutz (zi (coefficient (mp a) 0)) (zi (coefficient (mp a) 1)).
rewrite g -(zi_surj u) -(zi_surj v) -!zi_mul -zi_add -zi1 in e; move/zi_inj: e => e.
apply: Zis_gcd_gcd; first by [].
by split; [exact: Z.divide_1_l|exact: Z.divide_1_l|move=> w h1 h2; rewrite -e; apply: Z.divide_add_r; apply: Z.divide_mul_r].
Qed.

Lemma rat_root q : x = Q2R q -> size P = 2%N.
Proof. by move=> e; have := den_root; rewrite e root_rat => /(irr_root den_irr); rewrite size_intr. Qed.

Lemma lin_value : size P = 2%N -> x = Q2R (- coefficient (mp a) 0 # Z.to_pos (coefficient (mp a) 1)).
Proof.
move=> s2; have p1 := lin_pos s2; have := den_root; rewrite /root horner_coef size_real -/P s2.
rewrite !big_ord_recl big_ord0 addr0 expr0 mulr1 expr1 /real_poly !coef_map /= -/P -!coef_zi !intr_zi => /eqP e.
rewrite /Q2R /= Z2Pos.id // opp_IZR; have := IZR_lt _ _ p1 => q1.
have {}e : (IZR (coefficient (K := int_coef) (mp a) 0) + IZR (coefficient (K := int_coef) (mp a) 1) * x = 0)%RR := e.
by field_simplify_eq; lra.
Qed.

Lemma to_rational_lin : size P = 2%N -> exists q, [/\ ra_to_rational a = Ret (Some q), Qred q = q & x = Q2R q].
Proof.
move=> s2; have p1 := lin_pos s2; have g1 := lin_coprime s2; have v := lin_value s2.
rewrite /ra_to_rational den_is_rational s2 /=; move: p1 g1 v.
case: (coefficient (mp a) 1) => // d _ g1 v; eexists; split; [reflexivity| |exact: v].
apply: Qcanon.Qred_identity; cbn [Qnum Qden]; by rewrite Z.gcd_opp_l.
Qed.
Lemma to_rational_irr : size P != 2%N -> ra_to_rational a = Ret None /\ forall q, x <> Q2R q.
Proof.
move=> s2; rewrite /ra_to_rational den_is_rational (negbTE s2); split=> // q /rat_root e.
by rewrite e in s2.
Qed.
End Den.

(** * Conversions from integers and rationals *)
Lemma irr_lin (P : {poly rat}) : size P = 2%N -> irreducible_poly P.
Proof.
move=> s2; split=> [|q sq dq]; first by rewrite s2.
have P0 : P != 0 by rewrite -size_poly_eq0 s2.
rewrite -dvdp_size_eqp // eqn_leq dvdp_leq //= s2.
have q0 : q != 0 by apply: contraTneq dq => ->; rewrite dvd0p.
by rewrite -size_poly_gt0 in q0; case: (size q) sq q0 => [|[|n]].
Qed.
Lemma Q2R_inj q r : Qred q = q -> Qred r = r -> Q2R q = Q2R r -> q = r.
Proof. by move=> <- <- h; apply: Qred_complete; apply: eqR_Qeq; rewrite -(Q2R_red q) -(Q2R_red r). Qed.

Section FromRatio.
Variables (n : Z) (d : positive).
Hypothesis g : Z.gcd n (Zpos d) = 1%ZZ.
Let p : zpoly := from_coefs (K := int_coef) [:: (- n)%ZZ; Zpos d].
Lemma lin_wf : wf int_sem p.  Proof. exact: (from_coefs_spec int_sem _).1. Qed.
Lemma lin_seq : PV p = [:: zi (- n); zi (Zpos d)] :> seq int.
Proof.
rewrite (from_coefs_spec int_sem _).2 (PolyK (c := 0)) //=.
by rewrite -[_ == _]/(zi (Zpos d) == 0) zi_pos.
Qed.
Lemma lin_size : size (PV p) = 2%N.  Proof. by rewrite lin_seq. Qed.
Lemma lin_irr : irreducible_over_Q (PV p).
Proof. by apply: irr_lin; rewrite size_intr lin_size. Qed.
Lemma lin_rootE (x : R) : Rt p x <-> x = Q2R (n # d).
Proof.
rewrite /root horner_coef size_real lin_size !big_ord_recl big_ord0 addr0 expr0 mulr1 expr1 /real_poly !coef_map /=.
rewrite lin_seq /nth -[intr _]/((zi _)%:~R) -[X in _ + X * _]/((zi (Zpos d))%:~R) !intr_zi opp_IZR /Q2R; cbn [Qnum Qden].
have d0 : (0 < IZR (Zpos d))%RR by apply: IZR_lt.
split=> [/eqP e|->].
  have {}e : (- IZR n + IZR (Zpos d) * x = 0)%RR := e.
  by field_simplify_eq; lra.
have e : (- IZR n + IZR (Zpos d) * (IZR n * / IZR (Zpos d)) = 0)%RR by field; lra.
by apply/eqP; exact: e.
Qed.
Lemma lin_content : positive_primitive (PV p).
Proof.
have sg : sgz (lead_coef (PV p)) = 1.
  by apply/eqP; rewrite sgz_cp0 lead_coefE lin_size lin_seq -[0]/(zi 0%ZZ) zi_lt.
have cg : gcdz (zi n) (zi (Zpos d)) = 1.
  have [u [v e]] := Z.gcd_bezout _ _ _ g.
  have {}e : zi u * zi n + zi v * zi (Zpos d) = 1 by rewrite -!zi_mul -zi_add e.
  by apply/eqP/coprimezP; exists (zi u, zi v).
rewrite /positive_primitive /zcontents sg mul1r lin_size !big_ord_recl big_ord0 gcdn0 lin_seq /=.
by rewrite -[RHS]cg zi_opp abszN.
Qed.
End FromRatio.

Lemma gcd_red q : Qred q = q -> Z.gcd (Qnum q) (Zpos (Qden q)) = 1%ZZ.
Proof. by move/Qcanon.Qred_iff. Qed.

Lemma from_int_denotes v : denotes (ra_from_int v) (IZR v) /\ canonical (ra_from_int v).
Proof.
have g : Z.gcd v 1 = 1%ZZ by rewrite Z.gcd_1_r.
have e : Q2R (v # 1) = IZR v by rewrite /Q2R /= Rinv_1 Rmult_1_r.
split; last exact: (lin_content g).
split; first exact: lin_wf.
- exact: lin_irr.
- by split; [apply/dfi_from_int_in|apply/lin_rootE].
- by move=> y /dfi_from_int_in.
- by move=> _; exact: (lin_content g).
Qed.
Lemma from_ratio_denotes q : Qred q = q -> denotes (ra_from_ratio q) (Q2R q) /\ canonical (ra_from_ratio q).
Proof.
move=> /gcd_red g; rewrite /ra_from_ratio; case: Z.eqb_spec => [e|_].
  have -> : Q2R q = IZR (Qnum q) by rewrite /Q2R e Rinv_1 Rmult_1_r.
  exact: from_int_denotes.
case: q g => n d; cbn [Qnum Qden] => g.
split; last exact: (lin_content g).
split; first exact: lin_wf.
- exact: lin_irr.
- by split; [exact: dfi_from_ratio_in|apply/lin_rootE].
- by move=> y _ /lin_rootE.
- by move=> _; exact: (lin_content g).
Qed.

(** A rational value has exactly one polynomial. *)
Lemma lin_unique a n d : Z.gcd n (Zpos d) = 1%ZZ -> denotes a (Q2R (n # d)) ->
  mp a = from_coefs (K := int_coef) [:: (- n)%ZZ; Zpos d].
Proof.
move=> g D; have s2 := rat_root D (erefl _).
have [q [_ hq e]] := to_rational_lin D s2; have vl := lin_value D s2; have ps := lin_pos D s2.
have gc := lin_coprime D s2.
have [e0 e1] : (n # d) = (- coefficient (K := int_coef) (mp a) 0 # Z.to_pos (coefficient (K := int_coef) (mp a) 1)).
  apply: Q2R_inj vl.
  - by apply: Qcanon.Qred_identity.
  - by apply: Qcanon.Qred_identity; cbn [Qnum Qden]; rewrite Z2Pos.id // Z.gcd_opp_l.
apply: (wf_inj (S := int_sem)); [exact: den_wf D|exact: lin_wf|].
apply/polyP => i; rewrite lin_seq.
case: i => [|[|i]] /=; rewrite -?[nth _ _ _]/((PV (mp a))`_ _).
- by rewrite -coef_zi e0 Z.opp_involutive.
- by rewrite -coef_zi e1 -[X in _ = X]/(zi (Z.pos _)) Z2Pos.id.
- by rewrite nth_default ?s2 //= nth_nil.
Qed.
Lemma eqb_seqP l r : eqb_seq l r = true <-> l = r.
Proof.
elim: l r => [|x l IH] [|y r] //=; rewrite andb_true_iff Z.eqb_eq IH.
by split=> [[-> ->]|[-> ->]].
Qed.
Lemma zpoly_eqbP (p q : zpoly) : zpoly_eqb p q = true <-> p = q.
Proof.
rewrite /zpoly_eqb eqb_seqP; split=> [|-> //].
by case: p => l [] ; case: q => r [] /= ->.
Qed.
Lemma is_int_spec a x v : denotes a x -> (zpoly_eqb (mp a) (mp (ra_from_int v)) = true <-> x = IZR v).
Proof.
move=> D; have g : Z.gcd v 1 = 1%ZZ by rewrite Z.gcd_1_r.
have e : Q2R (v # 1) = IZR v by rewrite /Q2R /= Rinv_1 Rmult_1_r.
rewrite zpoly_eqbP; split=> [h|h]; last by rewrite h -e in D; exact: (lin_unique g D).
have := den_root D; rewrite h => /lin_rootE ->; exact: e.
Qed.
Lemma is_zero_spec a x : denotes a x -> (ra_is_zero a = true <-> x = 0%RR).
Proof. exact: is_int_spec. Qed.
Lemma is_one_spec a x : denotes a x -> (ra_is_one a = true <-> x = 1%RR).
Proof. exact: is_int_spec. Qed.
Lemma is_negative_one_spec a x : denotes a x -> (ra_is_negative_one a = true <-> x = (-1)%RR).
Proof. exact: is_int_spec. Qed.

(** The conversions to rationals and integers. *)
Lemma to_rational_spec a x : denotes a x ->
  (exists q, [/\ ra_to_rational a = Ret (Some q), Qred q = q & x = Q2R q]) \/
  (ra_to_rational a = Ret None /\ forall q, x <> Q2R q).
Proof.
move=> D; case: (boolP (size (PV (mp a)) == 2%N)) => [/eqP s2|s2].
  by left; exact: to_rational_lin D s2.
by right; exact: to_rational_irr D s2.
Qed.
Lemma is_rational_spec a x : denotes a x ->
  exists b, ra_is_rational a = Ret b /\ (b = true <-> exists q, x = Q2R q).
Proof.
move=> D; rewrite (den_is_rational D); eexists; split; first by [].
split=> [/eqP s2|[q e]]; last by rewrite (rat_root D e).
by have [q [_ _ e]] := to_rational_lin D s2; exists q.
Qed.
Lemma to_integer_spec a x : denotes a x ->
  (exists v, ra_to_integer a = Ret (Some v) /\ x = IZR v) \/
  (ra_to_integer a = Ret None /\ forall v, x <> IZR v).
Proof.
move=> D; rewrite /ra_to_integer /ra_is_integer (den_is_rational D).
have eI v : IZR v = Q2R (v # 1) by rewrite /Q2R /= Rinv_1 Rmult_1_r.
case: (boolP (size (PV (mp a)) == 2%N)) => [/eqP s2|s2] /=; last first.
  by right; split=> // v; rewrite eI => /(rat_root D) e; rewrite e in s2.
have vl := lin_value D s2; have ps := lin_pos D s2; case: Z.eqb_spec => [e1|n1].
  by left; eexists; split; [reflexivity|rewrite vl e1 -eI].
right; split=> // v ev; case: n1.
rewrite ev eI in D; have := lin_unique (n := v) (d := 1) (Z.gcd_1_r _) D => emp.
by apply: zi_inj; rewrite coef_zi emp (lin_seq v 1).
Qed.
Lemma is_integer_spec a x : denotes a x ->
  exists b, ra_is_integer a = Ret b /\ (b = true <-> exists v, x = IZR v).
Proof.
move=> D; have := to_integer_spec D; rewrite /ra_to_integer.
case: (ra_is_integer a) => [b||]; [|by case=> [[v []]|[]]..].
move=> h; exists b; split=> //; case: h => [[v [/= e ->]]|[/= e nv]]; case: b e => // e.
- by split=> // _; exists v.
- by split=> // -[v /nv].
Qed.

(** The Sturm sequence of the polynomial of a value. *)
Lemma den_sturm a x : denotes a x ->
  exists l, to_primitive_sturm (mp a) = Ret (mp a :: l) /\ sturm_ok (mp a) (mp a :: l).
Proof. by move=> D; apply: sturm_total; [exact: den_wf D|exact: den_neq0 D]. Qed.
Lemma refines_new p x l i : sturm_ok p l -> Rt p x -> inI x i -> (forall y, inI y i -> Rt p y -> y = x) ->
  refines p x (shrinker_with l i).
Proof. by []. Qed.
Lemma den_shrinker a x : denotes a x -> exists s, [/\ ra_shrinker a = Ret s, refines (mp a) x s & sh_itv s = itv a].
Proof.
move=> D; have [l [e h]] := den_sturm D; rewrite /ra_shrinker /shrinker_new e.
by eexists; split; [reflexivity| |by []]; apply: refines_new => //; case: D => // _ _ [].
Qed.
