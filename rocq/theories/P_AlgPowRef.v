(** Powers: examples, and a power that is not a valid number. *)
From Coq Require Import ZArith QArith Qabs Qreals Reals Lia Lra.
Set Warnings "-notation-overridden,-ambiguous-paths".
From mathcomp Require Import all_ssreflect all_algebra all_field.
From mathcomp.zify Require Import ssrZ.
From Verif Require Import M_Base M_Traits M_Util M_Interval M_IntervalExp M_Poly M_PolyCoef P_PolyInst M_PolyAlg M_Factor M_Alg
  S_Poly S_PolyAlg S_Factor S_Interval P_Interval P_Poly P_FactorAll P_Rstruct S_Alg S_AlgOps
  P_AlgBase P_AlgShrink P_AlgBasic P_AlgRecip P_AlgRef P_AlgOpsRef P_AlgPow.
Set Implicit Arguments.
Unset Strict Implicit.
Unset Printing Implicit Defensive.
Delimit Scope Z_scope with ZZ.
Delimit Scope R_scope with RR.
Delimit Scope Q_scope with QQ.
Local Open Scope R_scope.
Local Notation Rt p := (root (real_poly p)).
Local Notation PV p := (pval int_sem p).

Lemma pow_refuted : exists a x z, [/\ denotes a x, canonical a, 0 < x,
  eventually (fun fuel => ra_checked_pow rng0 50 fuel ln2_0 a (-1 # 1)) (Some z) & forall v, ~ denotes z v].
Proof.
exists five_root2, (5 + sqrt 2), recip_five; split; [exact: five_root2_denotes|exact: five_canonical| | |exact: recip_five_two].
  by have := sqrt_pos 2; lra.
by exists 1%N; case=> [|f]; vm_compute.
Qed.

(** (sqrt 2)^(-3) *)
Lemma ex_pow_base : pow_base 1 root2 (-3 # 1) = Ret recip_root2.
Proof. by vm_compute. Qed.
Lemma ex_pow_factoring v : factoring_ok rng0 50 (pow_resultant (mp recip_root2) 3 1) v.
Proof.
eapply factoring_ok_run; [by vm_compute; reflexivity|by vm_compute; reflexivity|].
move=> f n; cbn [List.In] => -[|//] [<- _] _.
by apply: (quad_irr2 (c := -1) (b := 0) (a := 8) (k := 2)); [exact: (@quad_seq (-1) 0 8 (erefl _))| |].
Qed.
Lemma ex_pow_small : 0 < Rpower (Rabs (/ sqrt 2)) (Q2R (3 # 1)) <= 1.
Proof.
have [s1 s2] := ex_sqrt2; have i0 : 0 < / sqrt 2 by apply: Rinv_0_lt_compat; lra.
have i1 : / sqrt 2 < 1 by rewrite -[X in _ < X]Rinv_1; apply: Rinv_lt_contravar; lra.
have -> : Q2R (3 # 1) = INR 3 by rewrite /Q2R /= Rinv_1; ring.
rewrite Rabs_right; last by lra.
rewrite Rpower_pow // /= Rmult_1_r.
set u := / sqrt 2 in i0 i1 *; split; first by apply: Rmult_lt_0_compat => //; nra.
nra.
Qed.
Lemma ex_pow_interval : rbind (refine_steps 0 recip_root2) (pow_interval ln2_0 (3 # 1) Positive) = Ret (DFI 0 26 0).
Proof. by vm_compute. Qed.
Lemma ret_inj (T : Type) (u w : T) : Ret u = Ret w -> u = w.
Proof. by case. Qed.
Lemma ex_pow_encloses : pow_encloses ln2_0 1 recip_root2 (/ sqrt 2) (3 # 1).
Proof.
move=> n s i hn h e; have n0 : n = 0%N by move: hn; rewrite ltnS leqn0 => /eqP.
rewrite {}n0 in h; have e0 := ex_pow_interval; rewrite {}h in e0; cbn [rbind] in e0; rewrite {}e in e0.
rewrite (ret_inj e0); have := ex_pow_small; rewrite inIE /lo /hi /dyadic; cbn [dlo dhi dlog pow]; lra.
Qed.
Lemma ex_pow_run : ra_checked_pow rng0 50 1 ln2_0 root2 (-3 # 1) = Ret (Some (RA (zpl [:: -1; 0; 8]%ZZ) (DFI 0 26 0))).
Proof. by vm_compute. Qed.
