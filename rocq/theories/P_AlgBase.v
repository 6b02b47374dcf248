(** Signs of integer polynomials at rational points, and what the Sturm
    sequence counts between two rational points, over the real numbers. *)
From Coq Require Import ZArith QArith Qreals Reals Lia Lra.
Set Warnings "-notation-overridden,-ambiguous-paths".
From mathcomp Require Import all_ssreflect all_algebra.
From mathcomp.zify Require Import ssrZ.
From Verif Require Import M_Base M_Traits M_Util M_Interval M_Poly M_PolyCoef P_PolyInst M_PolyAlg M_Factor M_Alg
  S_Poly S_PolyAlg S_Factor S_Interval P_Interval P_Poly P_PolyAlgRef P_Rstruct S_Alg.
Set Implicit Arguments.
Unset Strict Implicit.
Unset Printing Implicit Defensive.
Import Order.TTheory GRing.Theory Num.Theory.
Local Open Scope ring_scope.
Delimit Scope Z_scope with ZZ.

Lemma natr_INR n : n%:R = INR n :> R.
Proof. by elim: n => // n IH; rewrite S_INR -IH -addn1 natrD. Qed.
Lemma intr_zi z : (zi z)%:~R = IZR z :> R.
Proof.
case: z => [|p|p] //=.
  by rewrite -pmulrn natr_INR INR_IPR.
rewrite -[Z.neg p]/(- Z.pos p)%ZZ opp_IZR.
have -> : Negz (Pos.to_nat p).-1 = - (Pos.to_nat p : int) by rewrite NegzE prednK //; lia.
by rewrite rmorphN /= -pmulrn natr_INR INR_IPR.
Qed.

Lemma ratio_eval_R p q : Q2R (ratio_eval p q) = (real_poly p).[Q2R q].
Proof.
apply: (@eval_generic_spec _ _ int_sem _ _ Q2R [rmorphism of intr]).
- by move=> a b; rewrite Q2R_red Q2R_mult.
- move=> a c; rewrite Q2R_red Q2R_plus; congr Rplus.
  by rewrite /= intr_zi /Q2R /= Rinv_1 Rmult_1_r.
- by rewrite /Q2R /= Rmult_0_l.
Qed.
Lemma coef0_R (p : zpoly) : IZR (coefficient (K := int_coef) p 0) = (real_poly p).[0].
Proof. by rewrite horner_coef0 /real_poly coef_map /= -(coefficient_spec int_sem p 0) intr_zi. Qed.

(** The sign of a real number as the code represents it. *)
Definition rsign (x : R) : option Sign :=
  if x == 0 then None else Some (if x < 0 then Negative else Positive).
Lemma sign_new_IZR z : sign_new z = rsign (IZR z).
Proof.
rewrite /sign_new /rsign; case: Z.compare_spec => h.
- by rewrite h eqxx.
- have h' : Rlt (IZR z) (IZR 0) by apply: IZR_lt.
  by rewrite lt_eqF; [rewrite ifT //|]; apply/RltE.
- have h' : Rlt (IZR 0) (IZR z) by apply: IZR_lt.
  have h2 : 0 < IZR z by apply/RltE.
  by rewrite gt_eqF // ltNge ltW.
Qed.
Lemma rsign_scale (c x : R) : 0 < c -> rsign (x * c) = rsign x.
Proof. by move=> c0; rewrite /rsign mulf_eq0 (gt_eqF c0) orbF pmulr_llt0. Qed.
Lemma sign_new_Q q : sign_new (Qnum q) = rsign (Q2R q).
Proof.
rewrite sign_new_IZR /Q2R -[RHS]/(rsign (IZR (Qnum q) * Rinv (IZR (Z.pos (Qden q))))).
rewrite rsign_scale //; apply/RltE; apply: Rinv_0_lt_compat; exact: IZR_lt.
Qed.
Lemma sign_at_At p q : sign_at p (At q) = rsign (real_poly p).[Q2R q].
Proof. by rewrite /sign_at sign_new_Q ratio_eval_R. Qed.
Lemma sign_at_Zero p : sign_at p AtZero = rsign (real_poly p).[0].
Proof. by rewrite /sign_at sign_new_IZR coef0_R. Qed.

(** * Counting sign changes *)
Lemma rsign_None x : rsign x = None <-> x = 0.
Proof. by rewrite /rsign; case: eqP. Qed.
Lemma rsign_same (x y : R) s t : rsign x = Some s -> rsign y = Some t -> (x * y < 0) = ~~ sign_eqb s t.
Proof.
rewrite /rsign; case: eqP => // /eqP x0 [<-]; case: eqP => // /eqP y0 [<-].
case: (ltrP x 0) => hx; case: (ltrP y 0) => hy /=.
- by rewrite nmulr_llt0 // lt_gtF.
- by rewrite nmulr_rlt0 // lt_def y0 hy.
- by rewrite pmulr_rlt0 // lt_def x0 hx.
- by rewrite ltNge mulr_ge0.
Qed.
Section Loop.
Variables (at_ : point) (x : R).
Hypothesis sgn : forall p, sign_at p at_ = rsign (real_poly p).[x].
Lemma loop_some l : forall count y s b, rsign y = Some s ->
  sign_changes_loop l at_ count (Some s) b =
  SC (count + adjacent_changes (y :: filter (fun z => z != 0) (map (fun u => (real_poly u).[x]) l))) b.
Proof.
elim: l => [|p l IH] count y s b ys /=; first by rewrite addn0.
rewrite sgn; case E: (rsign _) => [t|].
  have n0 : (real_poly p).[x] != 0 by apply/eqP => e; move: E; rewrite e /rsign eqxx.
  rewrite (IH _ _ _ _ E) n0 /= (rsign_same ys E); congr SC.
  by case: sign_eqb; rewrite /= ?add0n // addnA addn1.
by move/rsign_None: E => ->; rewrite eqxx /= (IH _ _ _ _ ys).
Qed.
Lemma changes_spec p l : (real_poly p).[x] != 0 ->
  sign_changes_at (p :: l) at_ = SC (sign_variations (map (fun u => (real_poly u).[x]) (p :: l))).+1 false.
Proof.
move=> h; rewrite /sign_changes_at /= sgn; case E: (rsign _) => [t|].
  by rewrite (loop_some _ _ _ E) /sign_variations /= h add1n.
by move/rsign_None: E h => ->; rewrite eqxx.
Qed.
Lemma loop_root l : forall count last, sc_root (sign_changes_loop l at_ count last true).
Proof. by elim: l => //= p l IH count last; case: sign_at => [s|]; [exact: IH|case: last]. Qed.
Lemma changes_root p l : sc_root (sign_changes_at (p :: l) at_) = root (real_poly p) x.
Proof.
case h: (root _ _); last by rewrite changes_spec //=; move: h; rewrite /root => ->.
rewrite /sign_changes_at /= sgn; have -> : rsign (real_poly p).[x] = None by apply/rsign_None/eqP.
exact: loop_root.
Qed.
End Loop.

(** * The Sturm sequence of an integer polynomial *)
(** [x] is one of the roots strictly between [a] and [b]. *)
Definition between (p : zpoly) (a b x : R) : bool := [&& a < x, x < b & root (real_poly p) x].

Definition pt_ok (at_ : point) (x : R) : Prop := forall p, sign_at p at_ = rsign (real_poly p).[x].
Lemma pt_At q : pt_ok (At q) (Q2R q).  Proof. by move=> p; exact: sign_at_At. Qed.
Lemma pt_Zero : pt_ok AtZero 0.  Proof. by move=> p; exact: sign_at_Zero. Qed.

(** What the sequence [l] of [p] is good for. *)
Definition sturm_ok (p : zpoly) (l : seq zpoly) : Prop :=
  (forall at_ x, pt_ok at_ x -> sc_root (sign_changes_at l at_) = root (real_poly p) x) /\
  forall at_a at_b a b, pt_ok at_a a -> pt_ok at_b b -> a < b ->
    ~~ root (real_poly p) a -> ~~ root (real_poly p) b ->
    exists s, [/\ uniq s, forall x, (x \in s) = between p a b x &
      sc_count (sign_changes_at l at_a) = (sc_count (sign_changes_at l at_b) + size s)%N].

Lemma sturm_total p : wf int_sem p -> pval int_sem p != 0 ->
  exists l, to_primitive_sturm p = Ret (p :: l) /\ sturm_ok p (p :: l).
Proof.
move=> wp p0; have [l [E H]] := @primitive_sturm_int R_rcfType p wp p0.
exists l; split=> //; split=> [at_ x sx|at_a at_b a b sa sb ab ra rb]; first exact: changes_root.
have [|s [us hs] hc] := H a b ab; first by left.
exists s; split=> //.
  move=> x; rewrite hs /between; case: (a < x) => //=.
  rewrite le_eqVlt; case: eqP => //= ->; rewrite -[root _ _]/(root (real_poly p) b) (negbTE rb) andbF //.
rewrite (changes_spec sa l ra) (changes_spec sb l rb) [sc_count _]/= [X in (X + _)%N]/= addSn; congr S; exact: hc.
Qed.
