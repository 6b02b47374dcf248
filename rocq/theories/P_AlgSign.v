(** Sign, negation, floor, ceiling and truncation. *)
From Coq Require Import ZArith QArith Qreals Qround Reals Lia Lra.
Set Warnings "-notation-overridden,-ambiguous-paths".
From mathcomp Require Import all_ssreflect all_algebra.
From mathcomp.zify Require Import ssrZ.
From Verif Require Import M_Base M_Traits M_Util M_Interval M_Poly M_PolyCoef P_PolyInst M_PolyAlg M_Factor M_Alg
  S_Poly S_PolyAlg S_Factor S_Interval P_Interval P_Poly P_PolyAlgInst P_PolyAlgRef P_Rstruct S_Alg P_AlgBase P_AlgShrink P_AlgBasic.
Set Implicit Arguments.
Unset Strict Implicit.
Unset Printing Implicit Defensive.
Import Order.TTheory GRing.Theory Num.Theory.
Delimit Scope Z_scope with ZZ.
Delimit Scope R_scope with RR.
Delimit Scope Q_scope with QQ.
Local Open Scope R_scope.
Local Notation Rt p := (root (real_poly p)).
Local Notation PV p := (pval int_sem p).

Lemma changes_ext l A B x : pt_ok A x -> pt_ok B x -> sign_changes_at l A = sign_changes_at l B.
Proof.
move=> pA pB; rewrite /sign_changes_at; elim: l 0%N None false => //= p l IH c t b.
by rewrite pA pB; case: rsign => [s|]; exact: IH.
Qed.

Lemma dyadic0 k : dyadic 0 k = 0.
Proof. by rewrite /dyadic; unfold Rdiv; rewrite Rmult_0_l. Qed.

Definition rcmp (x : R) (c : comparison) : Prop :=
  match c with Eq => x = 0 | Lt => x < 0 | Gt => 0 < x end.

Lemma Qcmp_R q : rcmp (Q2R q) (q ?= 0)%QQ.
Proof.
case: Qcompare_spec => h /=.
- by rewrite (Qeq_eqR _ _ h) /Q2R /= Rmult_0_l.
- by have := Qlt_Rlt _ _ h; rewrite /(Q2R 0) /= Rmult_0_l.
- by have := Qlt_Rlt _ _ h; rewrite /(Q2R 0) /= Rmult_0_l.
Qed.

Lemma bound_Q i : lo i = Q2R (dfi_lower_bound i) /\ hi i = Q2R (dfi_upper_bound i).
Proof. by have [-> ->] := dfi_bounds_ok i. Qed.

Lemma cmp_with_zero_spec a x : denotes a x -> exists c, ra_cmp_with_zero a = Ret c /\ rcmp x c.
Proof.
move=> D; rewrite /ra_cmp_with_zero; case E: (ra_is_zero a).
  by exists Eq; split=> //; apply/(is_zero_spec D).
have x1 := den_in D; rewrite inIE in x1.
case: Z.ltb_spec => [l0|l0].
  exists Gt; split=> //=; apply: Rlt_le_trans x1.1.
  by rewrite -(dyadic0 (dlog (itv a))); exact: dyadic_lt.
case: Z.ltb_spec => [h0|h0].
  exists Lt; split=> //=; apply: Rle_lt_trans x1.2 _.
  by rewrite -(dyadic0 (dlog (itv a))); exact: dyadic_lt.
have lo0 : lo (itv a) <= 0 by rewrite -(dyadic0 (dlog (itv a))); apply/dyadic_le.
have hi0 : 0 <= hi (itv a) by rewrite -(dyadic0 (dlog (itv a))); apply/dyadic_le.
case: (to_rational_spec D) => [[q [-> _ ->]]|[-> irr]]; first by eexists; split; [reflexivity|exact: Qcmp_R].
cbn [rbind].
have nr q : ~~ Rt (mp a) (Q2R q).
  apply/negP; rewrite root_rat => /(irr_root (den_irr D)); rewrite size_intr => s2.
  by have [r [_ _ e]] := to_rational_lin D s2; exact: irr e.
have [l [-> sok]] := den_sturm D; cbn [rbind].
have pl := pt_lo (itv a); have ph := pt_hi (itv a).
have nl : ~~ Rt (mp a) (lo (itv a)) by rewrite (bound_Q _).1; exact: nr.
have nh : ~~ Rt (mp a) (hi (itv a)) by rewrite (bound_Q _).2; exact: nr.
have e0 : 0 = Q2R 0 by rewrite /Q2R /= Rmult_0_l.
have n0 : ~~ Rt (mp a) 0 by rewrite e0; exact: nr.
rewrite (root_at sok pl) (root_at sok ph) (root_at sok pt_Zero) nl nh n0; cbn [assert_then].
have xn0 : x <> 0 by rewrite e0; exact: irr.
have uq := fun y => den_uniq D (y := y).
have rx := den_root D.
have lx : lo (itv a) < x by case: x1 => -[//|e] _; move: nl; rewrite e rx.
have xh : x < hi (itv a) by case: x1 => _ [//|e]; move: nh; rewrite -e rx.
case: (Rlt_le_dec 0 x) => sx.
  have -> : sc_count (sign_changes_at (mp a :: l) (At (dfi_lower_bound (itv a)))) = sc_count (sign_changes_at (mp a :: l) AtZero).
    case: lo0 => [l1|e]; last by rewrite (@changes_ext _ _ AtZero 0) //; [rewrite -e|exact: pt_Zero].
    apply: (count_none sok pl pt_Zero l1 nl n0) => y y1 y2 ry.
    have e : y = x by apply: uq => //; apply/inIE; lra.
    lra.
  by rewrite eqxx; exists Gt.
have {}sx : x < 0 by lra.
have sm := count_some sok pl pt_Zero (Rlt_trans _ _ _ lx sx) nl n0 lx sx rx.
rewrite (gtn_eqF sm).
have -> : sc_count (sign_changes_at (mp a :: l) (At (dfi_upper_bound (itv a)))) = sc_count (sign_changes_at (mp a :: l) AtZero).
  case: hi0 => [l1|e]; last by rewrite (@changes_ext _ _ AtZero 0) //; [rewrite e|exact: pt_Zero].
  symmetry; apply: (count_none sok pt_Zero ph l1 n0 nh) => y y1 y2 ry.
  have e : y = x by apply: uq => //; apply/inIE; lra.
  lra.
by rewrite eqxx; exists Lt.
Qed.

(** * Loops that refine until a condition holds *)
Lemma inside_refl i : inside i i.  Proof. by split; exact: Rle_refl. Qed.
Lemma inside_trans i j k : inside i j -> inside j k -> inside i k.
Proof. by move=> [h1 h2] [h3 h4]; split; lra. Qed.

Lemma small_pow w eps : 0 < eps -> exists n, w * (17 / 32) ^ n < eps.
Proof.
move=> e0; case: (Rle_lt_dec w 0) => w0.
  by exists 0%N; rewrite /= Rmult_1_r; lra.
have [||n hn] := pow_lt_1_zero (17 / 32) _ (eps / w) _; first by rewrite Rabs_pos_eq; lra.
  by apply: Rdiv_lt_0_compat.
exists n; have := hn n (Nat.le_refl _); rewrite Rabs_pos_eq; last by apply: pow_le; lra.
move=> h; apply: (Rmult_lt_reg_r (/ w)); first exact: Rinv_0_lt_compat.
by rewrite Rmult_comm -Rmult_assoc Rinv_l ?Rmult_1_l //; lra.
Qed.

Lemma width_ge0 p x s : refines p x s -> 0 <= width (sh_itv s).
Proof. by move=> h; have := rf_in h; rewrite inIE /width; lra. Qed.

Section Loop.
Variables (T : Type) (L : nat -> shrinker -> res T) (done : shrinker -> bool) (out : shrinker -> T).
Variables (p : zpoly) (x : R) (i0 : dfi) (eps : R).
Hypothesis (eps0 : 0 < eps).
Hypothesis L0 : forall s, L 0 s = NoFuel.
Hypothesis LS : forall f s, refines p x s -> inside (sh_itv s) i0 ->
  L f.+1 s = if done s then Ret (out s) else ('(_, s') <- shrink s ;; L f s')%res.
Hypothesis fin : forall s, refines p x s -> inside (sh_itv s) i0 -> width (sh_itv s) < eps -> done s.
Lemma loop_conv s : refines p x s -> inside (sh_itv s) i0 ->
  exists s', [/\ eventually (fun f => L f s) (out s'), refines p x s', sh_seq s' = sh_seq s, inside (sh_itv s') (sh_itv s) & done s'].
Proof.
move=> h hi; have [n hn] := small_pow (width (sh_itv s)) eps0.
elim: n s h hi hn => [|n IH] s h hi hn; case E: (done s).
- exists s; split=> //; last exact: inside_refl.
  by exists 1%N; case=> [|f]; [rewrite L0|rewrite LS // E].
- by rewrite fin in E => //; move: hn; rewrite /= Rmult_1_r.
- exists s; split=> //; last exact: inside_refl.
  by exists 1%N; case=> [|f]; [rewrite L0|rewrite LS // E].
have [ex [s1 [e1 h1 q1 [n1 n2 n3 _]]]] := shrink_ok h.
have in1 : inside (sh_itv s1) (sh_itv s) by [].
have [||s' [[N e] h' q' i' d']] := IH s1 h1.
- exact: inside_trans in1 hi.
- move: hn; rewrite /= => hn; apply: Rle_lt_trans hn; rewrite -Rmult_assoc; apply: Rmult_le_compat_r; [apply: pow_le; lra|lra].
exists s'; split=> //; [|by rewrite q'|exact: inside_trans i' in1].
exists N.+1; case=> [|f]; first by rewrite L0.
by rewrite LS // E e1; cbn [rbind]; rewrite e.
Qed.
End Loop.

(** * Floor *)
Lemma floor_ex x : exists k, is_floor x k.
Proof. by exists (up x - 1)%ZZ; have [h1 h2] := archimed x; rewrite /is_floor minus_IZR; lra. Qed.

Lemma dfi_floor0 i : dlo (dfi_floor i 0) = shr (dlo i) (dlog i) /\ dhi (dfi_floor i 0) = shr (dhi i) (dlog i).
Proof. by rewrite /dfi_floor /dfi_convert /convert_log2_denom_floor /convert_log2_denom_ceil /= !shl_mul /= !Z.mul_1_r. Qed.

Lemma shr_floor m k n : IZR k <= dyadic m n -> dyadic m n < IZR k + 1 -> shr m n = k.
Proof.
move=> h1 h2; have [g1 g2] := shr_R m n; have hp := p2_pos n; rewrite -(dyadic_mul m n) in g1 g2.
apply/Z.le_antisymm.
- suff : (shr m n < k + 1)%ZZ by lia.
  apply: lt_IZR; rewrite plus_IZR; apply: Rle_lt_trans h2; exact: (Rmult_le_reg_r _ _ _ hp g1).
- suff : (k < shr m n + 1)%ZZ by lia.
  apply: lt_IZR; rewrite plus_IZR; apply: Rle_lt_trans h1 _; exact: (Rmult_lt_reg_r _ _ _ hp g2).
Qed.
Lemma floor_loop_conv p x k s : refines p x s -> is_floor x k -> x <> IZR k ->
  exists s', [/\ eventually (fun f => floor_loop f s) (k, s'), refines p x s' & inside (sh_itv s') (sh_itv s)].
Proof.
move=> h [k1 k2] nk.
pose done s := (dlo (dfi_floor (sh_itv s) 0) =? dhi (dfi_floor (sh_itv s) 0))%ZZ.
pose out s := (dlo (dfi_floor (sh_itv s) 0), s).
have [|||||s' [[N e] h' _ i' d']] := @loop_conv _ floor_loop done out p x (sh_itv s) (Rmin (x - IZR k) (IZR k + 1 - x)) _ _ _ _ s h _.
- by apply: Rmin_glb_lt; lra.
- by [].
- by [].
- move=> t ht it wt; have := rf_in ht; rewrite inIE /done => ti.
  have := Rmin_l (x - IZR k) (IZR k + 1 - x); have := Rmin_r (x - IZR k) (IZR k + 1 - x); rewrite /width in wt => m1 m2.
  have [-> ->] := dfi_floor0 (sh_itv t); rewrite (@shr_floor _ k) ?(@shr_floor _ k) ?Z.eqb_refl //; rewrite -?/(lo _) -?/(hi _); lra.
- exact: inside_refl.
exists s'; split=> //; exists N => f; rewrite e /out.
suff -> : dlo (dfi_floor (sh_itv s') 0) = k by [].
have [h1 h2] := dfi_floor_ok (sh_itv s') 0 x k (rf_in h') (conj k1 k2).
move: d' h1 h2; rewrite /done => /Z.eqb_eq <-.
have -> : dyadic (dlo (dfi_floor (sh_itv s') 0)) (dlog (dfi_floor (sh_itv s') 0)) = IZR (dlo (dfi_floor (sh_itv s') 0)).
  by rewrite /dyadic /=; unfold Rdiv; rewrite Rinv_1 Rmult_1_r.
by move=> h1 h2; apply: eq_IZR; lra.
Qed.

Lemma eventually_const (T : Type) (v : T) : eventually (fun _ => Ret v) v.
Proof. by exists 0%N. Qed.
Lemma eventually_bind (T U : Type) (f : nat -> res T) (g : T -> U) v : eventually f v -> eventually (fun n => rmap g (f n)) (g v).
Proof. by move=> [N e]; exists N => n; rewrite e; case: ifP. Qed.
Lemma eventually_ext (T : Type) (f g : nat -> res T) v : (forall n, f n = g n) -> eventually g v -> eventually f v.
Proof. by move=> E [N e]; exists N => n; rewrite E. Qed.

Lemma integer_floor_spec a x k : denotes a x -> is_floor x k -> eventually (fun f => ra_integer_floor f a) k.
Proof.
move=> D fl; rewrite /ra_integer_floor; case: (to_rational_spec D) => [[q [-> _ e]]|[-> irr]]; cbn [rbind].
  have -> : k = Qfloor q; last exact: eventually_const.
  have := Qfloor_R q; rewrite -e; move: fl => [f1 f2] [g1 g2].
  have : (k < Qfloor q + 1)%ZZ by apply: lt_IZR; rewrite plus_IZR; lra.
  have : (Qfloor q < k + 1)%ZZ by apply: lt_IZR; rewrite plus_IZR; lra.
  lia.
have [s [-> hs _]] := den_shrinker D; cbn [rbind].
have nk : x <> IZR k by move=> e; apply: (irr (k # 1)); rewrite e /Q2R /= Rinv_1 Rmult_1_r.
have [s' [ev _ _]] := floor_loop_conv hs fl nk.
exact: (eventually_bind fst ev).
Qed.
Lemma floor_spec a x k : denotes a x -> is_floor x k -> eventually (fun f => ra_floor f a) (ra_from_int k).
Proof. by move=> D fl; apply: eventually_bind; exact: integer_floor_spec D fl. Qed.
