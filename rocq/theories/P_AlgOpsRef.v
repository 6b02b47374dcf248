(** Sums and comparisons that go wrong, and examples for the operations on two
    numbers. *)
From Coq Require Import ZArith QArith Qreals Reals Lia Lra.
Set Warnings "-notation-overridden,-ambiguous-paths".
From mathcomp Require Import all_ssreflect all_algebra all_field.
From mathcomp.zify Require Import ssrZ.
From Verif Require Import M_Base M_Traits M_Util M_Interval M_IntervalExp M_Poly M_PolyCoef P_PolyInst M_PolyAlg M_Factor M_Alg
  S_Poly S_PolyAlg S_Factor S_Interval P_Interval P_Poly P_PolyAlgInst P_PolyAlgRef P_FactorAll P_Rstruct S_Alg S_AlgOps
  P_AlgBase P_AlgShrink P_AlgBasic P_AlgSign P_AlgNeg P_AlgRecip P_AlgRef P_AlgRoot P_AlgRes P_AlgIrr P_AlgOps P_AlgMul P_AlgArith.
Set Implicit Arguments.
Unset Strict Implicit.
Unset Printing Implicit Defensive.
Import Order.TTheory GRing.Theory Num.Theory.
Delimit Scope Z_scope with ZZ.
Delimit Scope R_scope with RR.
Delimit Scope Q_scope with QQ.
Local Open Scope R_scope.
Local Notation Rt p := (root (real_poly p)).
Local Notation PV p := (pval int_sem p).

Lemma quad_irr2 p (c b a k : Z) : PV p = [:: zi c; zi b; zi a] :> seq int -> k <> 0%ZZ ->
  (b * b - 4 * a * c = 2 * ((2 * k) * (2 * k)))%ZZ -> irreducible_over_Q (PV p).
Proof.
move=> e k0 disc; apply: cubic_irreducible; first by rewrite size_intr e.
move=> r; apply/negP; rewrite /root horner_coef size_intr e /= !big_ord_recl big_ord0 /bump /= !coef_map e /=.
rewrite -[intr (int_of_Z c)]/((zi c)%:~R)%R -[intr (int_of_Z b)]/((zi b)%:~R)%R -[intr (int_of_Z a)]/((zi a)%:~R)%R.
rewrite addr0 expr0 mulr1 expr1 exprS expr1 addrA => /eqP h.
have := sqrt2_irr (((zi a)%:~R * 2%:R * r + (zi b)%:~R) / (zi (2 * k))%:~R).
rewrite expr_div_n.
have dd : ((zi b)%:~R * (zi b)%:~R - 4%:R * (zi a)%:~R * (zi c)%:~R = 2%:R * (zi (2 * k))%:~R ^+ 2 :> rat)%R.
  by rewrite expr2 -[2%:R%R]/((zi 2)%:~R)%R -[4%:R%R]/((zi 4)%:~R)%R -!intrM -rmorphB -!zi_mul -zi_sub disc.
have -> : (((zi a)%:~R * 2%:R * r + (zi b)%:~R) ^+ 2 = 2%:R * (zi (2 * k))%:~R ^+ 2 :> rat)%R.
  rewrite -dd; have -> : ((zi c)%:~R = - ((zi b)%:~R * r + (zi a)%:~R * (r * r)) :> rat)%R.
    by apply/eqP; rewrite -addr_eq0 addrA; apply/eqP.
  by rewrite expr2 -[2%:R%R]/(1 + 1)%R quad_id -[(1 + 1)%R]/(2%:R)%R -natrM.
rewrite mulfK // expf_neq0 // intr_eq0 zi_eq0; apply/negP => /Z.eqb_eq; lia.
Qed.

(** * Wrong sums *)
Definition rng0 (n : nat) : Z := Z.of_nat n.
Definition ln2_0 (n : nat) : res dfi := rmap (fun i => dfi_convert i n) (ln2_compute n).
(** 1 / sqrt 2 as computed by pow and recip *)
Definition recip_root2 : ralg := RA (zpl [:: 1; 0; -2]%ZZ) (DFI 0 1 0).
Lemma pow_root2 : eventually (fun fuel => ra_pow rng0 50 fuel ln2_0 (ra_from_int 2) (1 # 2)) root2.
Proof. by exists 1%N; case=> [|f]; vm_compute. Qed.
Lemma recip_root2_run : eventually (fun fuel => ra_recip fuel root2) recip_root2.
Proof. by exists 1%N; case=> [|f]; vm_compute. Qed.
Lemma recip_root2_denotes : denotes recip_root2 (/ sqrt 2).
Proof.
have s2 : sqrt 2 * sqrt 2 = 2 by apply: sqrt_sqrt; lra.
have s0 := sqrt_pos 2; have sn : sqrt 2 <> 0 by move=> h; rewrite h in s2; lra.
have [b [[N eN] [w _]]] := recip_spec root2_denotes sn.
have [M eM] := recip_root2_run.
have eb : recip_root2 = b.
  by have := eN (maxn N M); rewrite eM leq_maxl leq_maxr => -[].
rewrite -eb in w; apply: (weakly_strong w) => y.
have e : PV (zpl [:: 1; 0; -2]%ZZ) = [:: zi 1; zi 0; zi (-2)] :> seq int.
  by rewrite (from_coefs_spec int_sem _).2 (PolyK (c := GRing.zero _)).
rewrite inIE /lo /hi /dyadic; cbn [itv mp recip_root2 dlo dhi dlog pow] => iy.
move/(quad_root e) => h.
have y2 : y * sqrt 2 = 1 by apply: Rsqr_inj; rewrite /Rsqr; nra.
by apply: (Rmult_eq_reg_r (sqrt 2)) => //; rewrite y2; field.
Qed.
Lemma add_wrong_run : eventually (fun fuel => ra_add rng0 50 fuel recip_root2 recip_root2) ra_zero.
Proof. by exists 1%N; case=> [|f]; vm_compute. Qed.
Definition neg_recip_root2 : ralg := RA (zpl [:: 1; 0; -2]%ZZ) (DFI (-1) 0 0).
Lemma neg_recip_run : ra_neg recip_root2 = Ret neg_recip_root2.
Proof. by vm_compute. Qed.
Lemma eq_wrong_run : eventually (fun fuel => ra_eqb rng0 50 fuel recip_root2 neg_recip_root2) true.
Proof. by exists 1%N; case=> [|f]; vm_compute. Qed.
Lemma cmp_wrong_run : eventually (fun fuel => ra_cmp rng0 50 fuel recip_root2 neg_recip_root2) Eq.
Proof. by exists 1%N; case=> [|f]; vm_compute. Qed.

(** * Examples *)
Lemma factoring_ok_run r v p c fs : r = Ret p -> factor_with_rng rng0 50 p = Ret (c, fs) ->
  (forall f n, List.In (f, n) fs -> Rt f v -> irreducible_over_Q (PV f)) -> factoring_ok rng0 50 r v.
Proof. by move=> -> e h p' [<-]; exists c, fs. Qed.
Lemma factoring_returns_run r p cfs : r = Ret p -> factor_with_rng rng0 50 p = Ret cfs -> factoring_returns rng0 50 r.
Proof. by move=> -> e p' [<-]; exists cfs. Qed.

Lemma lin_poly_irr c d : d <> 0%ZZ -> irreducible_over_Q (PV (zpl [:: c; d])).
Proof.
move=> d0; apply: irr_lin; rewrite size_intr (from_coefs_spec int_sem _).2 (PolyK (c := GRing.zero _)) //=.
by rewrite zi_eq0; apply/negP => /Z.eqb_eq; lia.
Qed.

Lemma ex_root2 (y : R) : Rt (mp root2) y -> y = sqrt 2 \/ y = - sqrt 2.
Proof.
have e := quad_seq (-2) 0 (a := 1) erefl; move/(quad_root e) => h.
have s2 : sqrt 2 * sqrt 2 = 2 by apply: sqrt_sqrt; lra.
have : (y - sqrt 2) * (y + sqrt 2) = 0 by nra.
by case/Rmult_integral => ?; [left|right]; lra.
Qed.
Lemma ex_sqrt2 : 1 < sqrt 2 < 3 / 2.
Proof.
have s2 : sqrt 2 * sqrt 2 = 2 by apply: sqrt_sqrt; lra.
have s0 := sqrt_pos 2; nra.
Qed.

Lemma sqrt2_irrational q : sqrt 2 <> Q2R q.
Proof.
case: (to_rational_spec root2_denotes) => [[r [e _ _]]|[_ h]]; last exact: h.
by move: e; vm_compute.
Qed.

(** sqrt 2 + sqrt 2 *)
Lemma ex_sum : factoring_ok rng0 50 (add_resultant (mp root2) (mp root2)) (sqrt 2 + sqrt 2) /\
  sum_clear root2 root2 (sqrt 2) (sqrt 2).
Proof.
split.
  eapply factoring_ok_run; [by vm_compute; reflexivity|by vm_compute; reflexivity|].
  move=> f n; cbn [List.In] => -[|[|//]] [<- _] _.
    by apply: (quad_irr2 (c := -8) (b := 0) (a := 1) (k := 2)); [exact: (@quad_seq (-8) 0 1 (erefl _))| |].
  exact: (lin_poly_irr 0 (d := 1)).
move=> y' q /ex_root2 [//|->] e; have -> : Q2R q = 0 by lra.
by rewrite /lo /hi /dyadic; cbn [itv root2 dlo dhi dlog pow]; lra.
Qed.
(** sqrt 2 - (5 + sqrt 2) *)
Lemma ex_diff : factoring_ok rng0 50 (sub_resultant root2 five_root2) (sqrt 2 - (5 + sqrt 2)).
Proof.
eapply factoring_ok_run; [by vm_compute; reflexivity|by vm_compute; reflexivity|].
move=> f n; cbn [List.In] => -[|[|//]] [<- _] _.
  by apply: (quad_irr2 (c := 17) (b := 10) (a := 1) (k := 2)); [exact: (@quad_seq 17 10 1 (erefl _))| |].
exact: (lin_poly_irr 5 (d := 1)).
Qed.
Lemma ex_diff_clear : diff_clear root2 five_root2 (sqrt 2) (5 + sqrt 2).
Proof.
have e5 := quad_seq 23 (-10) (a := 1) erefl; have s2 : sqrt 2 * sqrt 2 = 2 by apply: sqrt_sqrt; lra.
move=> y' q /(quad_root e5) h e.
have : (y' - 5 - sqrt 2) * (y' - 5 + sqrt 2) = 0 by nra.
case/Rmult_integral => h'; first by lra.
have [s0 s1] := ex_sqrt2.
have {}e : Q2R q = 2 * sqrt 2 - 5 by lra.
move=> _; exfalso; have := @sqrt2_irrational (Qdiv (Qplus q (5 # 1)) (2 # 1)); apply.
rewrite Q2R_div //; rewrite Q2R_plus e /Q2R; cbn [Qnum Qden]; field.
Qed.
(** two representations of sqrt 2 *)
Definition root2' : ralg := RA (mp root2) (DFI 0 5 1).
Lemma root2'_denotes : denotes root2' (sqrt 2).
Proof.
have s2 : sqrt 2 * sqrt 2 = 2 by apply: sqrt_sqrt; lra.
have s0 := ex_sqrt2.
apply: quad_denotes => //; rewrite ?/inI /dyadic; cbn [dlo dhi dlog pow]; try nra.
by move=> y iy e; apply: Rsqr_inj; rewrite /Rsqr; lra.
Qed.
Lemma ex_same : factoring_ok rng0 50 (sub_resultant root2 root2') (sqrt 2 - sqrt 2).
Proof.
eapply factoring_ok_run; [by vm_compute; reflexivity|by vm_compute; reflexivity|].
move=> f n; cbn [List.In] => -[|[|//]] [<- _] _.
  by apply: (quad_irr2 (c := -8) (b := 0) (a := 1) (k := 2)); [exact: (@quad_seq (-8) 0 1 (erefl _))| |].
exact: (lin_poly_irr 0 (d := 1)).
Qed.
(** sqrt 2 * sqrt 2 *)
Lemma ex_prod : factoring_ok rng0 50 (mul_resultant (mp root2) (mp root2)) (sqrt 2 * sqrt 2) /\
  prod_clear root2 root2 (sqrt 2) (sqrt 2).
Proof.
have s2 : sqrt 2 * sqrt 2 = 2 by apply: sqrt_sqrt; lra.
split.
  eapply factoring_ok_run; [by vm_compute; reflexivity|by vm_compute; reflexivity|].
  move=> f n; cbn [List.In] => -[|[|//]] [<- _] _; [exact: (lin_poly_irr (-2) (d := 1))|exact: (lin_poly_irr 2 (d := 1))].
move=> x' q /ex_root2 [//|->] e; have -> : Q2R q = -2 by lra.
have -> : dfi_mul (itv root2) (itv root2) = DFI 1 9 0 by vm_compute.
by rewrite inIE /lo /hi /dyadic; cbn [dlo dhi dlog pow]; lra.
Qed.

(** * Refuted properties *)
(** Starting from the number 2, a power, a reciprocal and a sum give 0 for
    1/sqrt 2 + 1/sqrt 2. *)
Lemma add_refuted : exists r h x z, [/\ eventually (fun fuel => ra_pow rng0 50 fuel ln2_0 (ra_from_int 2) (1 # 2)) r,
  eventually (fun fuel => ra_recip fuel r) h, denotes h x,
  eventually (fun fuel => ra_add rng0 50 fuel h h) z & denotes z 0 /\ x + x <> 0].
Proof.
exists root2, recip_root2, (/ sqrt 2), ra_zero; split; [exact: pow_root2|exact: recip_root2_run|exact: recip_root2_denotes|exact: add_wrong_run|].
have [s0 s1] := ex_sqrt2; have := Rinv_0_lt_compat (sqrt 2) ltac:(lra) => h.
by split; [exact: (proj1 (from_int_denotes 0))|lra].
Qed.
(** A number and its negation, both non-zero, compare as equal. *)
Lemma eq_refuted : exists h n x, [/\ denotes h x, denotes n (- x), x <> - x &
  eventually (fun fuel => ra_eqb rng0 50 fuel h n) true /\ eventually (fun fuel => ra_cmp rng0 50 fuel h n) Eq].
Proof.
have e := neg_recip_run; exists recip_root2, neg_recip_root2, (/ sqrt 2).
have [n' [e' d _]] := neg_spec recip_root2_denotes.
have [s0 s1] := ex_sqrt2; have := Rinv_0_lt_compat (sqrt 2) ltac:(lra) => h.
split; [exact: recip_root2_denotes|by move: e'; rewrite e => -[->]|lra|].
exact: (conj eq_wrong_run cmp_wrong_run).
Qed.
(** sqrt 2 / 2 with the interval [-1/2, 1]. *)
Definition half_root2_w : ralg := RA (zpl [:: -1; 0; 2]%ZZ) (DFI (-1) 2 1).
Lemma half_root2_w_denotes : denotes half_root2_w (sqrt 2 / 2).
Proof.
have s2 : sqrt 2 * sqrt 2 = 2 by apply: sqrt_sqrt; lra.
have s0 := ex_sqrt2.
apply: quad_denotes => //; rewrite ?/inI /dyadic; cbn [dlo dhi dlog pow]; try nra.
by move=> y iy e; apply: Rsqr_inj; rewrite /Rsqr; nra.
Qed.
Lemma mul_refuted : exists a x z, [/\ denotes a x, canonical a,
  eventually (fun fuel => ra_mul rng0 50 fuel a a) z & denotes z (Q2R (-1 # 2)) /\ x * x <> Q2R (-1 # 2)].
Proof.
exists half_root2_w, (sqrt 2 / 2), (ra_from_ratio (-1 # 2)); split; first exact: half_root2_w_denotes.
- have e := @quad_seq (-1) 0 2 (erefl _); rewrite /canonical /positive_primitive /= /zcontents lead_coefE e /=.
  by rewrite !big_ord_recl big_ord0.
- by exists 1%N; case=> [|f]; vm_compute.
split; first by apply: (proj1 (from_ratio_denotes _)).
have s2 : sqrt 2 * sqrt 2 = 2 by apply: sqrt_sqrt; lra.
by rewrite /Q2R; cbn [Qnum Qden]; nra.
Qed.
(** 1 / (5 + sqrt 2) is not a valid number, 1 % (5 + sqrt 2) panics. *)
Lemma div_rem_refuted : exists b y, [/\ denotes b y, canonical b, y <> 0,
  (exists z, eventually (fun fuel => ra_div rng0 50 fuel (ra_from_int 1) b) z /\ forall v, ~ denotes z v) &
  forall fuel, (0 < fuel)%N -> ra_rem rng0 50 fuel (ra_from_int 1) b = Panic].
Proof.
exists five_root2, (5 + sqrt 2); have [s0 s1] := ex_sqrt2; split; [exact: five_root2_denotes|exact: five_canonical|lra| |].
  exists recip_five; split; last exact: recip_five_two.
  by exists 1%N; case=> [|f]; vm_compute.
by case=> [//|f] _; vm_compute.
Qed.

(** 7 / sqrt 2, sqrt 2 - 1, 7 % sqrt 2 *)
Lemma rat7 : is_rat 7.
Proof. exact: (rat_IZR 7). Qed.
Lemma checked_recip_root2 : eventually (fun fuel => ra_checked_recip fuel root2) (Some recip_root2).
Proof. by exists 1%N; case=> [|f]; vm_compute. Qed.
Lemma ex_div : eventually (fun fuel => ra_checked_recip fuel root2) (Some recip_root2) /\
  denotes recip_root2 (/ sqrt 2) /\ is_rat 7 /\ factoring_returns rng0 50 (mul_resultant (mp (ra_from_int 7)) (mp recip_root2)).
Proof.
split; first exact: checked_recip_root2.
split; first exact: recip_root2_denotes.
split; first exact: rat7.
by eapply factoring_returns_run; [vm_compute; reflexivity|vm_compute; reflexivity].
Qed.
Lemma ex_fract : denotes root2 (sqrt 2) /\ (forall q, sqrt 2 <> Q2R q) /\ is_floor (sqrt 2) 1 /\
  factoring_returns rng0 50 (sub_resultant root2 (ra_from_int 1)).
Proof.
split; first exact: root2_denotes.
split; first exact: sqrt2_irrational.
split; first by have := ex_sqrt2; rewrite /is_floor; lra.
by eapply factoring_returns_run; [vm_compute; reflexivity|vm_compute; reflexivity].
Qed.
Definition four_root2 : ralg := RA (zpl [:: -32; 0; 1]%ZZ) (DFI 4 12 0).
Lemma ex_rem : eventually (fun fuel => ra_checked_recip fuel root2) (Some recip_root2) /\
  denotes recip_root2 (/ sqrt 2) /\ is_rat 7 /\ factoring_returns rng0 50 (mul_resultant (mp (ra_from_int 7)) (mp recip_root2)) /\
  is_trunc (7 / sqrt 2) 4 /\ factoring_returns rng0 50 (mul_resultant (mp (ra_from_int 4)) (mp root2)) /\
  exists m, eventually (fun fuel => ra_mul rng0 50 fuel (ra_from_int 4) root2) m /\
    factoring_returns rng0 50 (sub_resultant (ra_from_int 7) m).
Proof.
have [h1 [h2 [h3 h4]]] := ex_div; do 4 (split; first by []).
split.
  have s2 : sqrt 2 * sqrt 2 = 2 by apply: sqrt_sqrt; lra.
  have [s0 s1] := ex_sqrt2.
  have -> : 7 / sqrt 2 = 7 / 2 * sqrt 2 by field_simplify_eq; [nra|lra].
  by split=> h; rewrite /is_floor /is_ceil; nra.
split; first by eapply factoring_returns_run; [vm_compute; reflexivity|vm_compute; reflexivity].
exists four_root2; split; first by exists 1%N; case=> [|f]; vm_compute.
by eapply factoring_returns_run; [vm_compute; reflexivity|vm_compute; reflexivity].
Qed.
