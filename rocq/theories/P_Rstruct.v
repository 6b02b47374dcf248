(** The standard library's real numbers as a real closed field of mathcomp, so
    that the Sturm theory applies to them.  The choice operator required by
    mathcomp comes from the standard library's indefinite description. *)
From Coq Require Import Reals Lra ClassicalEpsilon.
Set Warnings "-notation-overridden,-ambiguous-paths".
From mathcomp Require Import all_ssreflect all_algebra.
Set Implicit Arguments.
Unset Strict Implicit.
Unset Printing Implicit Defensive.
Import Order.TTheory GRing.Theory Num.Theory.
Delimit Scope R_scope with RR.

Definition Reqb (x y : R) : bool := if Req_EM_T x y then true else false.
Lemma ReqP : Equality.axiom Reqb.
Proof. by rewrite /Reqb => x y; case: Req_EM_T => h; constructor. Qed.
Canonical R_eqMixin := EqMixin ReqP.
Canonical R_eqType := Eval hnf in EqType R R_eqMixin.

Definition Rpick (P : pred R) (n : nat) : option R :=
  match excluded_middle_informative (exists x, P x) with
  | left h => Some (proj1_sig (constructive_indefinite_description (fun x => P x) h))
  | right _ => None
  end.
Lemma Rpick_some P n x : Rpick P n = Some x -> P x.
Proof.
by rewrite /Rpick; case: excluded_middle_informative => // h [<-]; case: constructive_indefinite_description.
Qed.
Lemma Rpick_ex (P : pred R) : (exists x, P x) -> exists n, Rpick P n.
Proof. by move=> h; exists 0%N; rewrite /Rpick; case: excluded_middle_informative. Qed.
Lemma Rpick_ext (P Q : pred R) : P =1 Q -> Rpick P =1 Rpick Q.
Proof. by move=> e n; have -> : P = Q by apply: FunctionalExtensionality.functional_extensionality. Qed.
Definition R_choiceMixin : Choice.mixin_of R := Choice.Mixin Rpick_some Rpick_ex Rpick_ext.
Canonical R_choiceType := Eval hnf in ChoiceType R R_choiceMixin.

Lemma RplusA : associative Rplus.  Proof. by move=> x y z; rewrite Rplus_assoc. Qed.
Lemma Rplus_opp_l' : left_inverse 0%RR Ropp Rplus.  Proof. exact: Rplus_opp_l. Qed.
Definition R_zmodMixin := ZmodMixin RplusA Rplus_comm Rplus_0_l Rplus_opp_l'.
Canonical R_zmodType := Eval hnf in ZmodType R R_zmodMixin.
Lemma RmultA : associative Rmult.  Proof. by move=> x y z; rewrite Rmult_assoc. Qed.
Lemma R1_neq0 : R1 != R0.  Proof. by apply/eqP; exact: R1_neq_R0. Qed.
Definition R_ringMixin := RingMixin RmultA Rmult_1_l Rmult_1_r Rmult_plus_distr_r Rmult_plus_distr_l R1_neq0.
Canonical R_ringType := Eval hnf in RingType R R_ringMixin.
Canonical R_comRingType := Eval hnf in ComRingType R Rmult_comm.

Definition Rinvx (r : R) : R := if r == 0%R then r else Rinv r.
Definition Runit : pred R := fun r => r != 0%R.
Lemma RmulVx : {in Runit, left_inverse 1%R Rinvx Rmult}.
Proof. by move=> r; rewrite -topredE /Runit /Rinvx => /= h; rewrite (negbTE h); apply: Rinv_l; apply/eqP. Qed.
Lemma RmulxV : {in Runit, right_inverse 1%R Rinvx Rmult}.
Proof. by move=> r; rewrite -topredE /Runit /Rinvx => /= h; rewrite (negbTE h); apply: Rinv_r; apply/eqP. Qed.
Lemma Runitx x y : (y * x = 1)%R /\ (x * y = 1)%R -> Runit x.
Proof. by move=> [h _]; apply/eqP => x0; move: h; rewrite x0 mulr0 => /eqP; rewrite eq_sym oner_eq0. Qed.
Lemma Rinv_out : {in [predC Runit], Rinvx =1 id}.
Proof. by move=> x; rewrite inE /= -topredE /Runit /Rinvx /= negbK => ->. Qed.
Definition R_unitRingMixin := UnitRingMixin RmulVx RmulxV Runitx Rinv_out.
Canonical R_unitRingType := Eval hnf in UnitRingType R R_unitRingMixin.
Canonical R_comUnitRingType := Eval hnf in [comUnitRingType of R].
Lemma R_idomainMixin (x y : R) : (x * y = 0)%R -> (x == 0%R) || (y == 0%R).
Proof. by move=> /Rmult_integral [->|->]; rewrite eqxx ?orbT. Qed.
Canonical R_idomainType := Eval hnf in IdomainType R R_idomainMixin.
Lemma R_fieldMixin : GRing.Field.mixin_of [unitRingType of R].
Proof. by []. Qed.
Canonical R_fieldType := Eval hnf in FieldType R R_fieldMixin.

Definition Rleb (x y : R) : bool := if Rle_dec x y then true else false.
Definition Rltb (x y : R) : bool := if Rlt_dec x y then true else false.
Lemma RlebP x y : reflect (x <= y)%RR (Rleb x y).
Proof. by rewrite /Rleb; case: Rle_dec => h; constructor. Qed.
Lemma RltbP x y : reflect (x < y)%RR (Rltb x y).
Proof. by rewrite /Rltb; case: Rlt_dec => h; constructor. Qed.

Lemma Rnorm_add x y : Rleb (Rabs (x + y)%RR) (Rabs x + Rabs y)%RR.
Proof. by apply/RlebP; exact: Rabs_triang. Qed.
Lemma Radd_gt0 x y : Rltb R0 x -> Rltb R0 y -> Rltb R0 (x + y)%RR.
Proof. by move=> /RltbP hx /RltbP hy; apply/RltbP; exact: Rplus_lt_0_compat. Qed.
Lemma Rnorm0 x : Rabs x = R0 -> x = R0.
Proof. by move=> h; case: (Req_EM_T x R0) => // n; case: (Rabs_no_R0 _ n). Qed.
Lemma RleVge x y : Rleb R0 x -> Rleb R0 y -> Rleb x y || Rleb y x.
Proof.
move=> _ _; case: (Rle_lt_dec x y) => h; apply/orP; [left|right]; apply/RlebP => //; lra.
Qed.
Lemma RnormM : {morph Rabs : x y / (x * y)%RR}.
Proof. exact: Rabs_mult. Qed.
Lemma Rle_def x y : Rleb x y = (Rabs (y - x)%RR == (y - x)%RR).
Proof.
apply/RlebP/eqP => [h|h]; first by apply: Rabs_pos_eq; lra.
have := Rabs_pos (y - x)%RR; lra.
Qed.
Lemma Rlt_def x y : Rltb x y = (y != x) && Rleb x y.
Proof.
apply/RltbP/andP => [h|[/eqP h /RlebP h']]; last by case: h' => // e; case: h.
by split; [apply/eqP; lra|apply/RlebP; lra].
Qed.
Definition R_numMixin := NumMixin Rnorm_add Radd_gt0 Rnorm0 RleVge RnormM Rle_def Rlt_def.
Canonical R_porderType := Eval hnf in POrderType ring_display R R_numMixin.
Canonical R_numDomainType := Eval hnf in NumDomainType R R_numMixin.
Canonical R_normedZmodType := Eval hnf in NormedZmodType R R R_numMixin.
Canonical R_numFieldType := Eval hnf in [numFieldType of R].

Lemma Rtotal : totalPOrderMixin R_porderType.
Proof. by move=> x y; case: (Rle_lt_dec x y) => h; apply/orP; [left|right]; apply/RlebP => //; lra. Qed.
Canonical R_latticeType := Eval hnf in LatticeType R Rtotal.
Canonical R_distrLatticeType := Eval hnf in DistrLatticeType R Rtotal.
Canonical R_orderType := Eval hnf in OrderType R Rtotal.
Canonical R_realDomainType := Eval hnf in [realDomainType of R].
Canonical R_realFieldType := Eval hnf in [realFieldType of R].

(** * Reading mathcomp operations on R *)
Lemma RleE (x y : R) : reflect (Rle x y) (x <= y :> R)%O.
Proof. exact: RlebP. Qed.
Lemma RltE (x y : R) : reflect (Rlt x y) (x < y :> R)%O.
Proof. exact: RltbP. Qed.
Lemma Radd_E (x y : R) : (x + y = Rplus x y)%R.  Proof. by []. Qed.
Lemma Rmul_E (x y : R) : (x * y = Rmult x y)%R.  Proof. by []. Qed.

Local Open Scope ring_scope.
Lemma RinvE (x : R) : x != 0 -> x^-1 = Rinv x :> R.
Proof. by move=> /negbTE h; rewrite /GRing.inv /= /Rinvx -[(x == 0%R)]/(x == 0) h. Qed.

(** * Polynomials are continuous *)
Lemma horner_cont (p : {poly R}) : continuity (fun x => p.[x]).
Proof.
elim/poly_ind: p => [|p c IH].
  rewrite (_ : (fun _ => _) = fct_cte 0); first exact: continuity_const.
  by apply: FunctionalExtensionality.functional_extensionality => x; rewrite horner0.
rewrite (_ : (fun _ => _) = plus_fct (mult_fct (fun x => p.[x]) Ranalysis1.id) (fct_cte c)).
  apply: continuity_plus; last exact: continuity_const.
  apply: continuity_mult => //; exact: derivable_continuous derivable_id.
by apply: FunctionalExtensionality.functional_extensionality => x; rewrite hornerMXaddC.
Qed.
Lemma R_rcf : Num.real_closed_axiom R_numDomainType.
Proof.
move=> p a b /RleE ab /andP [/RleE pa /RleE pb].
case: (Req_dec p.[a] 0) => [e|na]; first by exists a; [rewrite lexx; apply/RleE|apply/eqP].
case: (Req_dec p.[b] 0) => [e|nb]; first by exists b; [rewrite lexx andbT; apply/RleE|apply/eqP].
case: ab => ab; last by case: nb; apply: Rle_antisym => //; rewrite -ab.
have [||x [[h1 h2] h]] := IVT (fun x => p.[x]) a b (horner_cont p) ab.
- by case: pa.
- by case: pb => // e; case: nb.
by exists x; [apply/andP; split; apply/RleE|apply/eqP].
Qed.
Canonical R_rcfType := Eval hnf in RcfType R R_rcf.
