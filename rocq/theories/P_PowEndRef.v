(** The search for a power: examples. *)
From Coq Require Import ZArith QArith Qabs Qreals Reals Lia Lra.
Set Warnings "-notation-overridden,-ambiguous-paths".
From mathcomp Require Import all_ssreflect all_algebra all_field.
From mathcomp.zify Require Import ssrZ.
From Verif Require Import M_Base M_Traits M_Util M_Interval M_IntervalExp M_Poly M_PolyCoef P_PolyInst M_PolyAlg M_Factor M_Alg
  S_Poly S_PolyAlg S_Factor S_Interval P_Interval P_Poly P_FactorAll P_Rstruct S_Alg S_AlgOps S_Pow
  P_AlgBase P_AlgShrink P_AlgBasic P_AlgRecip P_AlgRef P_AlgOpsRef P_AlgPow P_AlgPowRef P_PowEnd P_Cache.
Set Implicit Arguments.
Unset Strict Implicit.
Unset Printing Implicit Defensive.
Delimit Scope Z_scope with ZZ.
Delimit Scope R_scope with RR.
Delimit Scope Q_scope with QQ.
Local Open Scope R_scope.
Local Notation Rt p := (root (real_poly p)).

(** The base of (sqrt 2)^(-3), and its first interval *)
Lemma ex_pow_base_all : eventually (fun fuel => pow_base fuel root2 (-3 # 1)) recip_root2.
Proof. by exists 1%N; case=> [|f]; vm_compute. Qed.
Lemma ex_pow_steps : pow_steps ln2_0 0 recip_root2 (/ sqrt 2) (3 # 1).
Proof.
move=> n s; rewrite leqn0 => /eqP -> h; split.
  by have : rmap (fun s => (Z.of_nat (dlog (sh_itv s)) <=? 2 ^ 60)%ZZ) (refine_steps 0 recip_root2) = Ret true; [vm_compute|rewrite h => -[/Z.leb_le]].
have e0 := ex_pow_interval; rewrite h in e0; cbn [rbind] in e0.
exists (DFI 0 26 0); split; first exact: e0.
by have := ex_pow_encloses; apply; [|exact: h|exact: e0].
Qed.
Lemma ex_pow_resultant : pow_resultant (mp recip_root2) 3 1 = Ret (zpl [:: 1; 0; -8]%ZZ).
Proof. by vm_compute. Qed.
Lemma ex_pow_isolates v : 8 * (v * v) = 1 -> pow_isolates ln2_0 0 recip_root2 (3 # 1) v.
Proof.
move=> hv r s i w er _ _; rewrite (ret_inj (etrans (esym er) ex_pow_resultant)) => rw _.
have e : pval int_sem (zpl [:: 1; 0; -8]%ZZ) = [:: zi 1; zi 0; zi (-8)] :> seq int.
  by rewrite (from_coefs_spec int_sem _).2 (PolyK (c := GRing.zero _)).
have /(quad_root e) hw := rw; rewrite /Rabs; do 2!case: Rcase_abs => ?; nra.
Qed.

(** 2^(1/2), the base between 2047/1024 and 2049/1024 *)
Definition ex_two : shrinker := shrinker_with [::] (DFI 2047 2049 10).
Lemma ex_two_precise : exists i, [/\ pow_interval ln2_0 (1 # 2) Positive ex_two = Ret i,
  Rabs (lo i - Rpower (Rabs 2) (Q2R (1 # 2))) <= pow_slack (1 # 2) 0 10 (2047 / 1024) (2049 / 1024) (Rpower (Rabs 2) (Q2R (1 # 2))) &
  Rabs (hi i - Rpower (Rabs 2) (Q2R (1 # 2))) <= pow_slack (1 # 2) 0 10 (2047 / 1024) (2049 / 1024) (Rpower (Rabs 2) (Q2R (1 # 2)))].
Proof.
have e10 : 2 ^ 10 = 1024 by cbn; ring.
have ej : dfi_abs (sh_itv ex_two) = DFI 2047 2049 10 by [].
have el : lo (DFI 2047 2049 10) = 2047 / 1024 by rewrite /lo /dyadic; cbn [dlo dlog]; rewrite e10.
have eh : hi (DFI 2047 2049 10) = 2049 / 1024 by rewrite /hi /dyadic; cbn [dhi dlog]; rewrite e10.
have eq : Q2R (1 # 2) = / 2 by rewrite /Q2R /=; field.
have em : log_slack (1 # 2) 0 10 (2047 / 1024) (2049 / 1024) <= 1 / 256.
  rewrite /log_slack eq e10 Rabs_R0; lra.
have := @pow_precise ln2_0 (1 # 2) 2 0 0 ex_two ln2_oracle_exists.
cbv zeta; rewrite ej el eh; cbn [dlo dhi dlog powerRZ]; rewrite inIE el eh e10; apply.
- by rewrite eq; lra.
- by [].
- by rewrite Rabs_right; lra.
- by lra.
- by lra.
- by vm_compute.
- by vm_compute.
- by lra.
rewrite /Rpower ln_exp eq Rabs_right; last by lra.
by have := ln2_half; lra.
Qed.
(** The square of (sqrt 2)^(-3) is 1/8. *)
Lemma ex_eighth : 8 * (Rpower (sqrt 2) (Q2R (-3 # 1)) * Rpower (sqrt 2) (Q2R (-3 # 1))) = 1.
Proof.
have [s1 s2] := ex_sqrt2; have s0 : 0 < sqrt 2 by lra.
rewrite -Rpower_plus (_ : Q2R (-3 # 1) + Q2R (-3 # 1) = - INR 6); last by rewrite /Q2R /=; field.
rewrite Rpower_Ropp Rpower_pow //.
have q : sqrt 2 * sqrt 2 = 2 by apply: sqrt_sqrt; lra.
have -> : sqrt 2 ^ 6 = 8 by rewrite (_ : sqrt 2 ^ 6 = (sqrt 2 * sqrt 2) ^ 3); [rewrite q|]; cbn; ring.
by field.
Qed.
