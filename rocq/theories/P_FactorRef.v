(** The factorisation returns a reducible factor: witness for C31. *)
From Coq Require Import ZArith Lia List.
From mathcomp Require Import all_ssreflect all_fingroup all_algebra.
From mathcomp.zify Require Import ssrZ zify_ssreflect zify_algebra.
From Verif Require Import M_Base M_Traits M_Util M_Poly M_PolyCoef M_PolyAlg M_Factor S_Poly S_PolyAlg S_Factor
  P_Poly P_PolyInst P_PolyAlgInst P_FactorP.
Set Implicit Arguments.
Unset Strict Implicit.
Unset Printing Implicit Defensive.
Import GRing.Theory.
Local Open Scope ring_scope.
Delimit Scope Z_scope with ZZ.

Lemma sdf_match (p : positive) (p_pr : prime (Pos.to_nat p)) (rng : nat -> Z) (d : nat) :
  (2 < Pos.to_nat p)%N -> (0 < d)%N ->
  forall (tries : nat) (f : mpoly p) (pos : nat),
  let S := @modp_sem (Zpos p) _ isT (pnE p) p_pr in
  wf S f -> pval S f \is mathcomp.algebra.poly.monic -> (1 < size (pval S f))%N ->
  @all_factors_degree [fieldType of 'F_(Pos.to_nat p)] (pval S f) d ->
  match same_degree_factorization rng tries d f pos with
  | Ret (l, _) => List.Forall (wf S) l /\
      @irreducible_factors [fieldType of 'F_(Pos.to_nat p)] (pval S f) (map (pval S) l)
  | Panic => False
  | NoFuel => True
  end.
Proof.
move=> p2 d0 tries f pos S w m s a.
have := sdf_spec rng p2 d0 tries pos w m s a.
by case: (same_degree_factorization _ _ _ _ _) => [[l pos']| |].
Qed.

Definition ref_rng (n : nat) : Z := nth 0%ZZ [:: 0; 2; 1; 1; 2; 0; 1; 2; 0; 0; 1]%ZZ (n %% 11).
Definition ref_p : zpoly := from_coefs (K := int_coef) [:: 3; 10; 11; 16; 5]%ZZ.
Definition ref_a : zpoly := from_coefs (K := int_coef) [:: 1; 3; 1]%ZZ.
Definition ref_b : zpoly := from_coefs (K := int_coef) [:: 3; 1; 5]%ZZ.
Lemma ref_run : factor_with_rng ref_rng 100 ref_p = Ret (1%ZZ, [:: (ref_p, 1%N)]).
Proof. vm_compute. reflexivity. Qed.
Lemma ref_mul : poly_mul ref_a ref_b = ref_p.
Proof. vm_compute. reflexivity. Qed.

Lemma factor_not_irreducible : exists (rng : nat -> Z) (fuel : nat) (p : poly int_coef) c l f n,
  [/\ wf int_sem p, factor_with_rng rng fuel p = Ret (c, l), List.In (f, n) l
    & ~ irreducible_over_Q (pval int_sem f)].
Proof.
have [wa _] := from_coefs_spec int_sem [:: 1; 3; 1]%ZZ; have [wb _] := from_coefs_spec int_sem [:: 3; 1; 5]%ZZ.
have [wp Vp] := mul_spec int_sem ref_a ref_b; rewrite ref_mul in wp Vp.
exists ref_rng, 100%N, ref_p, 1%ZZ, [:: (ref_p, 1%N)], ref_p, 1%N.
split; [exact: wp|exact: ref_run|by left|]; rewrite /irreducible_over_Q Vp rmorphM.
have sz q : size (map_poly intr (pval int_sem q) : {poly rat}) = size (pval int_sem q).
  by apply: size_map_inj_poly => //; exact: intr_inj.
have sa : size (pval int_sem ref_a) = 3%N by rewrite size_pval.
have sb : size (pval int_sem ref_b) = 3%N by rewrite size_pval.
move=> [_ /(_ (map_poly intr (pval int_sem ref_a)))].
rewrite sz sa => /(_ isT (dvdp_mulr _ (dvdpp _))) /eqp_size.
rewrite size_mul ?sz ?sa ?sb //; by rewrite -size_poly_gt0 sz ?sa ?sb.
Qed.
