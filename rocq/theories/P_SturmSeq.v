(** The program's Sturm sequences have the sign variations of the remainder
    sequence of Sturm's theorem. *)
From Coq Require Import ZArith Lia.
Set Warnings "-notation-overridden,-ambiguous-paths".
From mathcomp Require Import all_ssreflect all_fingroup all_algebra.
From mathcomp Require Import polyrcf qe_rcf_th.
From mathcomp.zify Require Import zify_ssreflect.
From Verif Require Import M_Base M_Poly M_PolyAlg S_Poly S_PolyAlg P_Poly P_PolyDiv P_PolyGcd P_PolyContent P_Sturm.
Set Implicit Arguments.
Unset Strict Implicit.
Unset Printing Implicit Defensive.
Import GRing.Theory Num.Theory Order.TTheory.
Local Open Scope ring_scope.
Local Notation sgr := Num.sg.

Section Seq.
Variables (K : pcoef) (R : realDomainType) (S : coef_sem K R) (X : pexact K) (HX : exact_sem S X).
Variables (RR : rcfType) (f : {rmorphism R -> RR}) (f_mono : {mono f : x y / x <= y}).
Notation vc := (vc S).
Notation pval := (pval S).
Notation wf := (wf S).
Notation poly := (poly K).
Implicit Types (a b p q u v w : poly) (c : cf K).
Notation F p := (map_poly f (pval p)).

Lemma f_inj : injective f.
Proof. by move=> x y E; apply/eqP; rewrite eq_le -!f_mono E lexx. Qed.
Lemma f_lt x y : (f x < f y) = (x < y).
Proof. by rewrite !ltNge f_mono. Qed.
Lemma f_pos x : (0 < f x) = (0 < x).
Proof. by rewrite -(rmorph0 f) f_lt. Qed.
Lemma sizeF p : size (F p) = size (pval p).
Proof. by rewrite size_map_inj_poly // ?rmorph0 //; exact: f_inj. Qed.
Lemma F_eq0 p : (F p == 0) = (pval p == 0).
Proof. by rewrite -!size_poly_eq0 sizeF. Qed.

Lemma fmorph_eq0' x : (f x == 0) = (x == 0).
Proof. by rewrite -(inj_eq f_inj) rmorph0. Qed.

Definition sgs (x : RR) (l : seq {poly RR}) : seq RR :=
  filter (fun y => y != 0) (map (fun P : {poly RR} => sgr P.[x]) l).

Lemma sgs_cons x P l : sgs x (P :: l) = (if P.[x] == 0 then [::] else [:: sgr P.[x]]) ++ sgs x l.
Proof. by rewrite /sgs /= sgr_eq0; case: eqP. Qed.

Lemma sgs_variations x l m : sgs x l = sgs x m ->
  sign_variations (map (fun P : {poly RR} => P.[x]) l) = sign_variations (map (fun P : {poly RR} => P.[x]) m).
Proof.
have H t : map sgr (filter (fun y => y != 0) (map (fun P : {poly RR} => P.[x]) t)) = sgs x t.
  elim: t => [|P t IH] //=; rewrite sgs_cons -IH; by case: eqP.
by move=> E; apply: adjacent_sg; rewrite !H.
Qed.

(** A positive multiple. *)
Definition posm (P Q : {poly RR}) := exists2 c : RR, 0 < c & P = c *: Q.
Lemma posm_refl P : posm P P.
Proof. by exists 1; rewrite ?scale1r ?ltr01. Qed.
Lemma posm_sg P Q x : posm P Q -> sgr P.[x] = sgr Q.[x].
Proof. by case=> c c0 ->; rewrite hornerZ sgrM gtr0_sg // mul1r. Qed.
Lemma posm_root P Q x : posm P Q -> (P.[x] == 0) = (Q.[x] == 0).
Proof. by move=> H; rewrite -sgr_eq0 (posm_sg x H) sgr_eq0. Qed.
Lemma posm_eq0 P Q : posm P Q -> (P == 0) = (Q == 0).
Proof. by case=> c c0 ->; rewrite scaler_eq0 gt_eqF. Qed.

Section Gen.
Variables (deriv : poly -> res poly) (remainder : poly -> poly -> res poly).
Hypothesis Hderiv : forall p, wf p ->
  exists d, [/\ deriv p = Ret d, wf d & posm (F d) (F p)^`()].
Hypothesis Hrem : forall a b, wf a -> wf b -> pval b != 0 ->
  (size (pval b) < size (pval a))%N ->
  exists r, [/\ remainder a b = Ret r, wf r & posm (F r) (F a %% F b)].

Lemma loop_spec n a b A B : wf a -> wf b -> posm (F a) A -> posm (F b) B ->
  (size (pval b) < size (pval a))%N -> (size (pval b) <= n.+1)%N ->
  exists l, [/\ sturm_loop remainder n a b = Ret l, List.Forall wf l &
    forall x, sgs x (F b :: [seq F u | u <- l]) = sgs x (mods B (next_mod A B))].
Proof.
elim: n a b A B => [|n IH] a b A B Ha Hb PA PB Lab Lb /=.
  exists [::]; split=> // x.
  have [b0|b0] := eqVneq (pval b) 0.
    have B0 : B = 0 by apply/eqP; rewrite -(posm_eq0 PB) F_eq0 b0.
    by rewrite B0 mods0p sgs_cons b0 rmorph0 horner0 eqxx.
  have B0 : B != 0 by rewrite -(posm_eq0 PB) F_eq0.
  have B1 : size B = 1%N.
    apply/eqP; rewrite eqn_leq lt0n size_poly_eq0 B0 andbT.
    by case: PB => c c0 E; rewrite -(size_scale B (lt0r_neq0 c0)) -E sizeF.
  have -> : next_mod A B = 0.
    have [c _ ->] := next_modE A B0; suff -> : A %% B = 0 by rewrite scaler0.
    by apply/eqP; rewrite -size_poly_leq0 -ltnS -B1 ltn_modp.
  by rewrite modsp0 (negbTE B0) !sgs_cons (posm_root x PB) (posm_sg x PB).
rewrite (is_zeroP Hb); have [b0|b0] := eqVneq (pval b) 0.
  exists [::]; split=> // x.
  have B0 : B = 0 by apply/eqP; rewrite -(posm_eq0 PB) F_eq0 b0.
  by rewrite B0 mods0p sgs_cons b0 rmorph0 horner0 eqxx.
have B0 : B != 0 by rewrite -(posm_eq0 PB) F_eq0.
have [r [-> Hr Pr]] := Hrem Ha Hb b0 Lab; rewrite rbind_Ret'.
have [Hn Vn] := neg_spec S r.
have PN : posm (F (poly_neg r)) (next_mod A B).
  have [k k0 Ek] := next_modE A B0; rewrite Ek.
  have -> : F (poly_neg r) = - F r by rewrite Vn rmorphN.
  case: Pr => c c0 ->; case: PA => d d0 ->; case: PB => e e0 ->.
  rewrite modpZl modpZr ?lt0r_neq0 //; exists (c * d / k); first by rewrite divr_gt0 ?mulr_gt0.
  by rewrite !scalerA mulrN mulfVK ?lt0r_neq0 // scaleNr.
have sr : (size (pval (poly_neg r)) < size (pval b))%N.
  rewrite Vn size_opp -!sizeF; case: Pr => c c0 ->; rewrite size_scale ?lt0r_neq0 //.
  by rewrite ltn_modp F_eq0.
have [l [-> Hl El]] := IH b (poly_neg r) B (next_mod A B) Hb Hn PB PN sr (leq_trans sr Lb).
rewrite rbind_Ret'; eexists; split; first reflexivity.
  by constructor.
move=> x; rewrite neq0_mods_rec // sgs_cons [map _ _]/= El [RHS]sgs_cons.
by rewrite (posm_root x PB) (posm_sg x PB).
Qed.

Lemma generic_sturm_spec p : wf p -> pval p != 0 ->
  exists l, [/\ generic_sturm deriv remainder p = Ret (p :: l), List.Forall wf (p :: l) &
    forall x, sign_variations (map (fun u => (F u).[x]) (p :: l)) =
              sign_variations (map (fun P : {poly RR} => P.[x]) (mods (F p) (F p)^`()))].
Proof.
move=> Hp p0; have Fp0 : F p != 0 by rewrite F_eq0.
have El : poly_len p = size (F p) by rewrite sizeF size_pval.
rewrite /generic_sturm El.
have : (0 < size (F p))%N by rewrite size_poly_gt0.
case Es : (size (F p)) => [|[|n]] // _.
  exists [::]; split=> // [|x]; first by constructor.
  have -> : (F p)^`() = 0.
    have S1 : (size (F p) <= 1)%N by rewrite Es.
    by rewrite (size1_polyC S1) derivC.
  by rewrite modsp0 (negbTE Fp0).
have [d [-> Hd Pd]] := Hderiv Hp; rewrite rbind_Ret'.
have sd : (size (pval d) < size (pval p))%N.
  rewrite -!sizeF; case: Pd => c c0 ->; rewrite size_scale ?lt0r_neq0 //.
  exact: lt_size_deriv.
have [|l [-> Hl E]] := @loop_spec (n.+2 - 2) p d (F p) (F p)^`() Hp Hd (posm_refl _) Pd sd.
  by rewrite subn2 -ltnS -Es /= sizeF.
rewrite rbind_Ret'; exists (d :: l); split=> //; first by apply: List.Forall_cons => //; apply: List.Forall_cons.
move=> x; transitivity (sign_variations (map (fun P : {poly RR} => P.[x]) (F p :: F d :: [seq F u | u <- l]))).
  by congr sign_variations; rewrite /= -map_comp.
apply: sgs_variations; rewrite neq0_mods_rec // [RHS]sgs_cons -E [LHS]sgs_cons.
done.
Qed.
End Gen.

(** ** The instances *)
Lemma mapF_mod (A B Q T : {poly RR}) k : k != 0 -> k *: A = Q * B + T -> (size T < size B)%N -> T = k *: (A %% B).
Proof.
move=> k0 E L; rewrite -modpZl E.
by rewrite modp_addl_mul_small.
Qed.

Section Prim.
Variables (C : pcontent K) (HC : content_sem S C).

Lemma prim_deriv_ok p : wf p -> exists d, [/\ prim_deriv X C p = Ret d, wf d & posm (F d) (F p)^`()].
Proof.
move=> Hp; have [Hd Vd] := derivative_spec Hp; rewrite /prim_deriv deriv_map -Vd.
have [d0|d0] := eqVneq (pval (derivative p)) 0.
  have [-> _ _] := content_zero X C Hd d0; rewrite rbind_Ret'.
  by eexists; split; [reflexivity|done|exact: posm_refl].
have [c [r [W [[-> _] [_ Er] Hr [_ _] Ep]]]] := content_primitive HX HC Hd d0.
rewrite rbind_Ret' HC.2 vc0.
have c0 : vc c != 0 by apply: contraNneq d0 => c0; rewrite Ep c0 scale0r.
case: ifP => Hc.
  have [||t [-> _ Ht Vt]] := div_single_ok HX (c := c_neg c) (Q := - pval r) Hd.
  - by rewrite vcN oppr_eq0.
  - by rewrite vcN Ep scaleNr scalerN opprK.
  eexists; split; [reflexivity|done|]; rewrite Ep Vt.
  exists (- (f (vc c)))^-1; first by rewrite invr_gt0 oppr_gt0 -(rmorph0 f) f_lt.
  by rewrite map_polyZ rmorphN invrN scaleNr scalerA mulVf ?scale1r // fmorph_eq0'.
eexists; split; [exact: Er|done|]; rewrite Ep.
exists (f (vc c))^-1; first by rewrite invr_gt0 f_pos lt_neqAle eq_sym c0 leNgt Hc.
by rewrite map_polyZ scalerA mulVf ?scale1r // fmorph_eq0'.
Qed.

Lemma prim_rem_ok a b : wf a -> wf b -> pval b != 0 -> (size (pval b) < size (pval a))%N ->
  exists r, [/\ prim_rem X C a b = Ret r, wf r & posm (F r) (F a %% F b)].
Proof.
move=> Ha Hb b0 _; rewrite /prim_rem /pseudo_div_rem.
have [_ /(_ b0) [r [Er [W1 W2] Ed Ef Lr]]] := pseudo_spec Ha Hb.
rewrite Er /unwrap !rbind_Ret'.
have k0 : vc (pd_fac r) != 0 by rewrite Ef expf_neq0 // lead_coef_eq0.
have ER : F (pd_rem r) = f (vc (pd_fac r)) *: (F a %% F b).
  apply: (@mapF_mod _ _ (F (pd_quo r))); rewrite ?fmorph_eq0' ?sizeF //.
  by rewrite -map_polyZ Ed rmorphD rmorphM [F (pd_quo r) * _]mulrC.
have [d0|d0] := eqVneq (pval (pd_rem r)) 0.
  have [-> _ _] := content_zero X C W2 d0; rewrite rbind_Ret'.
  eexists; split; [reflexivity|done|]; rewrite d0 rmorph0 in ER *.
  exists 1; first exact: ltr01.
  by move/esym/eqP: ER; rewrite scaler_eq0 fmorph_eq0' (negbTE k0) => /eqP ->; rewrite scaler0.
have [c [t [W [[-> _] [_ Et] Ht [_ _] Ep]]]] := content_primitive HX HC W2 d0.
rewrite rbind_Ret' Et rbind_Ret' !HC.2 !vc0.
have c0 : vc c != 0 by apply: contraNneq d0 => c0; rewrite Ep c0 scale0r.
have Et2 : F t = (f (vc c))^-1 *: F (pd_rem r).
  by rewrite Ep map_polyZ scalerA mulVf ?scale1r // fmorph_eq0'.
rewrite ER scalerA in Et2.
have fs x : x != 0 -> (x < 0) = ~~ (0 < f x).
  by move=> x0; rewrite f_pos -leNgt le_eqVlt (negbTE x0).
rewrite !fs //.
have P1 : 0 < (f (vc c))^-1 * f (vc (pd_fac r)) = ~~ ((~~ (0 < f (vc (pd_fac r)))) != ~~ (0 < f (vc c))).
  have fc : f (vc c) != 0 by rewrite fmorph_eq0'.
  have fk : f (vc (pd_fac r)) != 0 by rewrite fmorph_eq0'.
  case: (ltrgt0P (f (vc c))) fc => // Hc _; case: (ltrgt0P (f (vc (pd_fac r)))) fk => // Hk _ /=.
  - by rewrite mulr_gt0 ?invr_gt0.
  - by rewrite pmulr_rgt0 ?invr_gt0 // ltNge ltW.
  - by rewrite nmulr_rgt0 ?invr_lt0 // ltNge ltW.
  - by rewrite nmulr_rgt0 ?invr_lt0.
case Hs : (~~ (0 < f (vc (pd_fac r))) != ~~ (0 < f (vc c))); last first.
  by exists t; split=> //; exists ((f (vc c))^-1 * f (vc (pd_fac r))); rewrite // P1 Hs.
have [Hnt Vnt] := neg_spec S t; exists (poly_neg t); split=> //.
rewrite Vnt rmorphN /= Et2 -scaleNr; eexists; last reflexivity.
rewrite oppr_gt0 lt_neqAle mulf_neq0 ?invr_eq0 ?fmorph_eq0' //=.
by rewrite leNgt P1 Hs.
Qed.

Lemma primitive_sturm_spec p : wf p -> pval p != 0 ->
  exists l, [/\ primitive_sturm_sequence X C p = Ret (p :: l), List.Forall wf (p :: l) &
    forall x, sign_variations (map (fun u => (F u).[x]) (p :: l)) =
              sign_variations (map (fun P : {poly RR} => P.[x]) (mods (F p) (F p)^`()))].
Proof. exact: (generic_sturm_spec prim_deriv_ok prim_rem_ok). Qed.
End Prim.
End Seq.

(** The generic variant, over a field. *)
Section Field.
Variables (K : pcoef) (R : realFieldType) (S : coef_sem K R) (X : pexact K) (HX : exact_sem S X).
Variables (RR : rcfType) (f : {rmorphism R -> RR}) (f_mono : {mono f : x y / x <= y}).
Lemma sturm_spec p : wf S p -> pval S p != 0 ->
  exists l, [/\ sturm_sequence X p = Ret (p :: l), List.Forall (wf S) (p :: l) &
    forall x, sign_variations (map (fun u => (map_poly f (pval S u)).[x]) (p :: l)) =
              sign_variations (map (fun P : {poly RR} => P.[x])
                (mods (map_poly f (pval S p)) (map_poly f (pval S p))^`()))].
Proof.
apply: (@generic_sturm_spec K R S RR f f_mono) => [{}p Hp|a b Ha Hb b0 _].
  have [Hd Vd] := derivative_spec Hp.
  by eexists; split; [reflexivity|done|rewrite Vd deriv_map; exact: posm_refl].
have [u [v [_ _ [_ _ -> _] [_ Hv] [_ Vv]]]] := field_div HX Ha Hb b0.
by eexists; split; [reflexivity|done|rewrite Vv map_modp; exact: posm_refl].
Qed.
End Field.
