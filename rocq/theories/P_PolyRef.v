(** Counterexamples and collected statements about polynomials. *)
From Coq Require Import ZArith QArith Qcanon Lia.
Set Warnings "-notation-overridden,-ambiguous-paths".
From mathcomp Require Import all_ssreflect all_algebra.
From mathcomp.zify Require Import ssrZ.
From Verif Require Import M_Base M_Traits M_Poly M_PolyCoef S_Poly P_Poly P_PolyDiv P_PolyInst.
Set Implicit Arguments.
Unset Strict Implicit.
Unset Printing Implicit Defensive.
Import GRing.Theory.
Local Open Scope ring_scope.

Lemma add_single_ratio_refuted : exists (p : poly ratio_coef) (c : Qc),
  wf ratio_sem p /\
  pval ratio_sem (poly_add_single p c) <> pval ratio_sem p + (vc ratio_sem c)%:P /\
  pval ratio_sem (poly_sub_single p c) <> pval ratio_sem p - (vc ratio_sem c)%:P.
Proof.
pose h : Qc := Q2Qc (1 # 2); pose g : Qc := Q2Qc (1 # 3); pose p : poly ratio_coef := from_coefs (K := ratio_coef) [:: h; h].
have ne (a b : Qc) : Qeq_bool a b = false -> vc ratio_sem a <> vc ratio_sem b.
  by move=> H /vc_inj E; rewrite E Qeq_bool_refl in H.
exists p, g; split; first exact: wf_from_coefs.
have E0 (q : poly ratio_coef) (y : Qc) : pval ratio_sem q = pval ratio_sem p + (vc ratio_sem y)%:P ->
    vc ratio_sem (coefficient q 1) = vc ratio_sem (coefficient p 1).
  by move=> E; rewrite !coefficient_spec E coefD coefC addr0.
split; first by move/E0; apply: ne; vm_compute.
rewrite -polyCN -vcN; move/E0; apply: ne; by vm_compute.
Qed.

Lemma div_assign_single_refuted : exists (p r : poly int_coef) (c : Z),
  wf int_sem p /\ checked_div_assign_single int_exact p c = Ret (r, false) /\ r <> p.
Proof.
exists (from_coefs (K := int_coef) [:: 1%ZZ]), (poly_zero int_coef), 2%ZZ.
by split; [exact: wf_from_coefs|split].
Qed.

Section Collected.
Variables (K : pcoef) (R : comUnitRingType) (S : coef_sem K R).

Lemma poly_eq_iff p q : wf S p -> wf S q -> p = q <-> pval S p = pval S q.
Proof. by move=> Hp Hq; split=> [->//|]; exact: wf_inj. Qed.

Lemma access_spec p : wf S p ->
  (forall i, vc S (coefficient p i) = (pval S p)`_i) /\
  (forall i, nonzero_coefficient p i =
     if (i < size (pval S p))%N then Some (coefficient p i) else None) /\
  poly_len p = size (pval S p) /\
  poly_is_zero p = (pval S p == 0) /\
  poly_is_one p = (pval S p == 1) /\
  degree p = (if pval S p == 0 then None else Some (size (pval S p)).-1) /\
  nonzero_lead p = (if pval S p == 0 then None else Some (lead p)) /\
  vc S (lead p) = lead_coef (pval S p) /\
  map (vc S) (coefficients p) = pval S p /\
  from_coefs (coefficients p) = p.
Proof.
move=> H; have [L1 L2] := lead_spec H.
split; first by move=> i; exact: coefficient_spec.
split; first by move=> i; rewrite size_pval // nonzero_coefficient_spec.
split; first by rewrite size_pval.
split; first exact: is_zeroP.
split; first exact: is_oneP.
split; first exact: degree_spec.
split; first exact: L1.
split; first exact: L2.
split; last exact: (from_coefs_coefficients H).
by rewrite pval_seq // vcoefs.
Qed.

Lemma constructors_spec :
  (forall cs, wf S (from_coefs cs) /\ pval S (from_coefs cs) = Poly (map (vc S) cs)) /\
  (forall cs, wf S (from_iterator cs) /\ pval S (from_iterator cs) = Poly (map (vc S) cs)) /\
  (forall c, wf S (from_coef c) /\ pval S (from_coef c) = (vc S c)%:P) /\
  (forall es d, wf S (from_parts es d) /\
     pval S (from_parts es d) = (vd S d)^-1 *: Poly (map (ve S) es)) /\
  (forall c n, wf S (make_monomial c n) /\ pval S (make_monomial c n) = vc S c *: 'X^n) /\
  (wf S (poly_zero K) /\ pval S (poly_zero K) = 0) /\
  (wf S (poly_one K) /\ pval S (poly_one K) = 1).
Proof.
split; first exact: from_coefs_spec.
split; first exact: from_iterator_spec.
split; first exact: from_coef_spec.
split; first exact: from_parts_spec.
split; first exact: make_monomial_spec.
split; first by split; [exact: wf_zero|exact: pval_zero].
by split; [apply: wf_one; exact: oner_neq0|exact: pval_one].
Qed.

Lemma pow_spec p (e : Z) : wf S p ->
  match poly_checked_pow p e with
  | Some r => (0 <= e)%ZZ /\ wf S r /\ pval S r = pval S p ^+ Z.to_nat e /\ poly_pow p e = Ret r
  | None => ((e < 0)%ZZ \/ (e = 0%ZZ /\ pval S p = 0)) /\ poly_pow p e = Panic
  end.
Proof.
move=> Hp; have [H1 H2] := checked_pow_spec e Hp; rewrite /poly_pow.
have Dec : ((e < 0)%ZZ \/ (e = 0%ZZ /\ pval S p = 0)) \/ ((0 <= e)%ZZ /\ ~ (e = 0%ZZ /\ pval S p = 0)).
  case: (Z.lt_ge_cases e 0) => L; first by left; left.
  case: (Z.eq_dec e 0) => E; last by right; split=> // -[].
  case: (pval S p =P 0) => Z; first by left; right.
  by right; split=> // -[].
case: Dec => [D|[D1 D2]]; first by rewrite (H1 D).
by have [r [-> [W E]]] := H2 D1 D2.
Qed.

Lemma pseudo_div_rem_spec p q : wf S p -> wf S q ->
  match checked_pseudo_div_rem p q with
  | None => pval S q = 0 /\ pseudo_div_rem p q = Panic
  | Some (PDR a b f) =>
      [/\ pval S q != 0, pseudo_div_rem p q = Ret (PDR a b f), wf S a /\ wf S b,
          vc S f *: pval S p = pval S q * pval S a + pval S b
        & (size (pval S b) < size (pval S q))%N /\
          vc S f = lead_coef (pval S q) ^+ ((size (pval S p)).+1 - size (pval S q))]
  end.
Proof.
move=> Hp Hq; have [H1 H2] := pseudo_spec Hp Hq; rewrite /pseudo_div_rem.
case: (pval S q =P 0) => [Z|/eqP N]; first by rewrite (H1 Z).
by case: (H2 N) => [[a b f]] [-> W E1 E2 L].
Qed.
End Collected.

Section CollectedExact.
Variables (K : pcoef) (R : idomainType) (S : coef_sem K R) (X : pexact K).
Hypothesis XS : exact_sem S X.

Lemma exact_div_spec p q : wf S p -> wf S q ->
  match checked_exact_div X p q with
  | Ret (Some s) => [/\ wf S s, pval S q != 0, pval S s * pval S q = pval S p & exact_div X p q = Ret s]
  | Ret None => (pval S q = 0 \/ forall Q, Q * pval S q != pval S p) /\ exact_div X p q = Panic
  | _ => False
  end.
Proof.
move=> Hp Hq; case: (pval S q =P 0) => [Z|/eqP N].
  by have [-> ->] := exact_div_bad XS Hp Hq (or_introl Z); split=> //; left.
case: (exact_div_dec XS Hp Hq N) => [[Q E]|H].
  by have [r [-> -> W ->]] := exact_div_ok XS Hp Hq N E.
have [-> ->] := exact_div_bad XS Hp Hq (or_intror H); split=> //.
by right=> Q; rewrite eq_sym.
Qed.

Lemma div_single_spec p c : wf S p ->
  match checked_div_single X p c with
  | Ret (Some s) => [/\ wf S s, vc S c *: pval S s = pval S p & div_single X p c = Ret s]
  | Ret None => ((vc S c = 0 /\ pval S p != 0) \/ forall Q, vc S c *: Q != pval S p) /\
                div_single X p c = Panic
  | _ => False
  end.
Proof.
move=> Hp; case: (pval S p =P 0) => [Z|/eqP N].
  have [-> ->] := div_single_nil X c Z Hp; split=> //; first exact: wf_zero.
  by rewrite pval_zero scaler0.
case: (vc S c =P 0) => [Zc|/eqP Nc].
  by have [-> ->] := div_single_bad XS Hp (or_introl (conj N Zc)); split=> //; left.
case: (div_single_dec XS Hp Nc) => [[Q E]|[_ H]].
  by have [r [-> -> W ->]] := div_single_ok XS Hp Nc E.
have [-> ->] := div_single_bad XS Hp (or_intror H); split=> //.
by right=> Q; rewrite eq_sym.
Qed.

Lemma div_assign_spec p q : wf S p -> wf S q ->
  exists r b, checked_exact_div_assign X p q = Ret (r, b) /\
    (if b then pval S r * pval S q = pval S p else r = p).
Proof.
move=> Hp Hq; rewrite /checked_exact_div_assign; have := exact_div_spec Hp Hq.
case: (checked_exact_div X p q) => [[s|]| |] //=.
  by case=> _ _ E _; exists s, true.
by move=> _; exists p, false.
Qed.

Lemma div_assign_single_spec p c : wf S p ->
  exists r b, checked_div_assign_single X p c = Ret (r, b) /\
    (if b then vc S c *: pval S r = pval S p else r = poly_zero K).
Proof.
move=> Hp; rewrite /checked_div_assign_single; have := div_single_spec c Hp.
case: (checked_div_single X p c) => [[s|]| |] //=.
  by case=> _ E _; exists s, true.
by move=> _; exists (poly_zero K), false.
Qed.

(** Division with remainder over a domain fails when no quotient exists. *)
Lemma div_rem_spec p q : wf S p -> wf S q ->
  match checked_div_rem X p q with
  | Ret (Some (a, b)) =>
      [/\ wf S a /\ wf S b, pval S p = pval S a * pval S q + pval S b,
          (size (pval S b) < size (pval S q))%N,
          div_rem X p q = Ret (a, b)
        & [/\ poly_div X p q = Ret a, poly_rem X p q = Ret b,
              checked_div X p q = Ret (Some a) & checked_rem X p q = Ret (Some b)]]
  | Ret None =>
      [/\ pval S q = 0 \/ (forall A B : {poly R}, (size B < size (pval S q))%N ->
                             A * pval S q + B != pval S p),
          div_rem X p q = Panic, poly_div X p q = Panic & checked_div X p q = Ret None]
  | _ => False
  end.
Proof.
move=> Hp Hq; case: (pval S q =P 0) => [Z|/eqP N].
  have [-> -> -> ->] := div_rem_bad XS Hp Hq (or_introl Z); split=> //; by left.
have [_ /(_ N) [r [Er [W1 W2] Ed Ef L]]] := pseudo_spec Hp Hq.
have Nf : vc S (pd_fac r) != 0 by rewrite Ef expf_neq0 // lead_coef_eq0.
case: (div_single_dec XS W1 Nf) => [[A EA]|[_ H]].
  have E : pval S p = A * pval S q + (pval S p - A * pval S q) by rewrite addrCA subrr addr0.
  have LB : (size (pval S p - A * pval S q)%R < size (pval S q))%N.
    by rewrite -(size_scale _ Nf) scalerBr Ed EA mulrC -scalerAl addrC addKr.
  have [a [b [E1 -> [E3 E4 E5 E6] [Wa Wb] [Ea Eb]]]] := div_rem_ok XS Hp Hq N E LB.
  by split=> //; rewrite ?Ea ?Eb.
have B : pval S q = 0 \/ (forall A B : {poly R}, (size B < size (pval S q))%N ->
                             pval S p != A * pval S q + B).
  right=> A B LB; apply/eqP => E.
  have [a [b [E1 _ _ _ [Ea Eb]]]] := div_rem_ok XS Hp Hq N E LB.
  move: E1; rewrite /div_rem /pseudo_div_rem Er /=.
  by have [-> _] := div_single_bad XS W1 (or_intror H).
have [-> -> -> ->] := div_rem_bad XS Hp Hq B; split=> //.
by right=> A C LC; rewrite eq_sym; case: B => [Z|/(_ A C LC)//]; rewrite Z eqxx in N.
Qed.
End CollectedExact.

Section CollectedField.
Variables (K : pcoef) (F : fieldType) (S : coef_sem K F) (X : pexact K).
Hypothesis XS : exact_sem S X.

Lemma field_division p q : wf S p -> wf S q ->
  if pval S q == 0 then
    [/\ div_rem X p q = Panic, poly_div X p q = Panic, poly_rem X p q = Panic,
        checked_div_rem X p q = Ret None
      & checked_div X p q = Ret None /\ checked_rem X p q = Ret None]
  else exists a b,
    [/\ div_rem X p q = Ret (a, b), poly_div X p q = Ret a, poly_rem X p q = Ret b,
        checked_div_rem X p q = Ret (Some (a, b)) /\
        checked_div X p q = Ret (Some a) /\ checked_rem X p q = Ret (Some b)
      & [/\ wf S a, wf S b, pval S p = pval S a * pval S q + pval S b
          & (size (pval S b) < size (pval S q))%N]].
Proof.
move=> Hp Hq; case: (pval S q =P 0) => [Z|/eqP N].
  have [-> -> -> ->] := div_rem_bad XS Hp Hq (or_introl Z).
  by have [-> ->] := div_rem_zero X Hp Hq Z.
have [a [b [E1 E2 [E3 E4 E5 E6] [Wa Wb] [Ea Eb]]]] := field_div XS Hp Hq N.
exists a, b; split=> //; split=> //; first by rewrite Ea Eb; exact: divp_eq.
by rewrite Eb ltn_modp.
Qed.

Lemma powmod_all p (e : Z) m : wf S p -> wf S m ->
  match checked_powmod X p e m with
  | Ret (Some r) =>
      [/\ powmod X p e m = Ret r, wf S r, (0 <= e)%ZZ,
          pval S r %% pval S m = (pval S p ^+ Z.to_nat e) %% pval S m
        & (1 < size (pval S m))%N || ((0 <? e)%ZZ && (pval S m != 0)) ->
            (size (pval S r) < size (pval S m))%N]
  | Ret None => powmod X p e m = Panic /\
      ((e < 0)%ZZ \/ (e = 0%ZZ /\ pval S p = 0) \/ ((0 < e)%ZZ /\ pval S m = 0))
  | _ => False
  end.
Proof.
move=> Hp Hm; case: (Z.lt_trichotomy e 0) => [L|[E|L]].
- by have [-> ->] := powmod_neg X p m L; split=> //; left.
- rewrite E; have [-> ->] := powmod_0 X m Hp; case: eqP => Z.
    by split=> //; right; left.
  split=> //; [by apply: wf_one; exact: oner_neq0 | by rewrite pval_one expr0 |].
  by rewrite /= pval_one size_poly1 orbF.
- case: (pval S m =P 0) => [Z|/eqP N].
    by have [-> ->] := powmod_zero X Hp Hm Z L; split=> //; right; right.
  have [r [-> -> W E]] := powmod_spec XS Hp Hm N L.
  by split=> //; [lia|rewrite E modp_mod|rewrite E ltn_modp].
Qed.
End CollectedField.

(** The coefficient types. *)
Lemma int_coef_ok : exists S : coef_sem int_coef [idomainType of int],
  (forall z, vc S z = int_of_Z z) /\ exact_sem S int_exact.
Proof. by exists int_sem; split=> //; exact: int_exact_sem. Qed.
Lemma ratio_coef_ok : exists S : coef_sem ratio_coef [fieldType of rat],
  (forall c : Qc, vc S c = (int_of_Z (Qnum c))%:~R / (int_of_Z (Z.pos (Qden c)))%:~R) /\
  @exact_sem _ [idomainType of rat] S ratio_exact.
Proof. by exists ratio_sem; split=> //; exact: ratio_exact_sem. Qed.
Lemma modp_coef_ok (p : nat) (H : (0 <? Z.of_nat p)%ZZ) : prime.prime p ->
  exists S : coef_sem (mod_coef H) [fieldType of 'F_p],
  (forall c : residue (Z.of_nat p), vc S c = (int_of_Z (rv c))%:~R) /\
  @exact_sem _ [idomainType of 'F_p] S (mod_exact H).
Proof. by move=> Hp; exists (modp_sem H erefl Hp); split=> //; exact: modp_exact_sem. Qed.
Lemma modn_coef_ok (n : nat) (H : (0 <? Z.of_nat n)%ZZ) : (1 < n)%N ->
  exists S : coef_sem (mod_coef H) [comUnitRingType of 'Z_n],
  (forall c : residue (Z.of_nat n), vc S c = (int_of_Z (rv c))%:~R).
Proof. by move=> Hn; exists (mod_sem H erefl Hn). Qed.
Lemma int2_coef_ok : exists S : coef_sem int2_coef [idomainType of {poly int}],
  (forall c : npoly int_poly_ok, vc S c = pval int_sem (nv c)) /\ exact_sem S int2_exact.
Proof. by exists int2_sem; split=> //; exact: int2_exact_sem. Qed.
