(** Proofs about M_PolyAlg.v: subresultant GCD and resultants. *)
From Coq Require Import ZArith Lia.
Set Warnings "-notation-overridden,-ambiguous-paths".
From mathcomp Require Import all_ssreflect all_fingroup all_algebra.
From mathcomp.zify Require Import zify_ssreflect.
From Verif Require Import M_Base M_Poly M_PolyAlg S_Poly P_Poly P_PolyDiv P_SubRes.
Set Implicit Arguments.
Unset Strict Implicit.
Unset Printing Implicit Defensive.
Import GRing.Theory.
Local Open Scope ring_scope.

Lemma rbind_Ret' A B (x : A) (f : A -> res B) : rbind (Ret x) f = f x.
Proof. by []. Qed.

Section Gcd.
Variables (K : pcoef) (R : idomainType) (S : coef_sem K R) (X : pexact K) (HX : exact_sem S X).
Notation vc := (vc S).
Notation pval := (pval S).
Notation wf := (wf S).
Notation poly := (poly K).
Implicit Types (p q u v w : poly) (c : cf K).

Lemma pow_ret c n : (0 < n)%N || (vc c != 0) ->
  exists2 r, c_pow_usize c n = Ret r & vc r = vc c ^+ n.
Proof. exact: vc_pow. Qed.

Lemma size_pos v : pval v != 0 -> size (pval v) = (size (pval v)).-1.+1.
Proof. by move=> v0; rewrite prednK // size_poly_gt0. Qed.

Lemma size_quo (U V Q W : {poly R}) a : V != 0 -> (size W < size V)%N ->
  (size V <= size U)%N -> a *: U = Q * V + W -> (size Q <= ((size U).-1 - (size V).-1).+1)%N.
Proof.
move=> V0 sW sV E; have [->|q0] := eqVneq Q 0; first by rewrite size_poly0.
have : (size (Q * V)%R <= size U)%N.
  have -> : Q * V = a *: U - W by rewrite E addrK.
  apply: leq_trans (size_add _ _) _; rewrite geq_max size_opp (leq_trans (size_scale_leq _ _)) //=.
  by apply: leq_trans sV; exact: ltnW.
by rewrite size_mul //; have : (0 < size V)%N by [rewrite size_poly_gt0]; lia.
Qed.

Lemma pseudo_ok u v : wf u -> wf v -> pval v != 0 -> (size (pval v) <= size (pval u))%N ->
  exists r, [/\ pseudo_div_rem u v = Ret r, wf (pd_rem r),
    (size (pval (pd_rem r)) < size (pval v))%N &
    exists q : {poly R},
     (size q <= ((size (pval u)).-1 - (size (pval v)).-1).+1)%N /\
     lead_coef (pval v) ^+ ((size (pval u)).-1 - (size (pval v)).-1).+1 *: pval u
     = q * pval v + pval (pd_rem r)].
Proof.
move=> Hu Hv v0 vu; have [_ H] := pseudo_spec Hu Hv.
have [r [E [Hq Hr] Eq Ef sr]] := H v0.
have v1 := size_pos v0.
have D : (pd_steps S u v = ((size (pval u)).-1 - (size (pval v)).-1).+1)%N by rewrite /pd_steps; lia.
exists r; split=> //; first by rewrite /pseudo_div_rem E.
exists (pval (pd_quo r)); rewrite -D -Ef Eq mulrC; split=> //.
by rewrite D; apply: (size_quo (a := vc (pd_fac r)) v0 sr vu); rewrite mulrC.
Qed.

Lemma gcdp_prem (a be : R) (u v w q : {poly R}) : a != 0 -> be != 0 ->
  a *: u = q * v + be *: w -> gcdp u v %= gcdp v w.
Proof.
move=> a0 be0 E.
apply: eqp_trans (eqp_gcdl v _) _; last first.
  apply: eqp_trans (_ : gcdp (a *: u) v %= _); first exact: eqpxx.
  rewrite E; apply: eqp_trans (gcdpC _ _) _.
  apply: eqp_trans (gcdp_addl_mul _ _ _) _; apply: eqp_gcdr; exact: eqp_scale.
by rewrite eqp_sym eqp_scale.
Qed.

Lemma subres_loop_spec fuel m n (f g : {poly R}) f2 f1 a2 c2 :
  wf f2 -> wf f1 -> prs_inv m n f g (size (pval f2)).-1 (size (pval f1)).-1 (pval f2) (pval f1) (vc a2) (vc c2) ->
  (size (pval f1) <= fuel)%N ->
  exists r, [/\ subresultant_loop X fuel f2 (size (pval f2)).-1 a2 c2 f1 (size (pval f1)).-1 = Ret r,
    wf r, pval r != 0 & pval r %= gcdp (pval f2) (pval f1)].
Proof.
elim: fuel f2 f1 a2 c2 => [|fuel IH] f2 f1 a2 c2 H2 H1 I sf.
  by case: I => _ _; rewrite (leqn0 _) in sf; rewrite (eqP sf).
have [ed s2 s1 [A0 c0] _] := I.
set d := (size (pval f2)).-1 in s2 ed I *; set e := (size (pval f1)).-1 in s1 ed I *.
have v0 : pval f1 != 0 by rewrite -size_poly_eq0 s1.
have vu : (size (pval f1) <= size (pval f2))%N by rewrite s1 s2 ltnS.
have [r [Er Hr sr [q [sq Eq]]]] := pseudo_ok H2 H1 v0 vu.
rewrite -/d -/e in sq Eq.
have [t Et Vt] : exists2 t, c_pow_usize (c_neg c2) (d - e) = Ret t & vc t = vc (c_neg c2) ^+ (d - e).
  by apply: pow_ret; rewrite vcN oppr_eq0 c0 orbT.
pose be := c_mul (c_neg a2) t.
have B : vc be ^+ 2 = (vc a2 * vc c2 ^+ (d - e)) ^+ 2.
  by rewrite vcM vcN Vt vcN !exprMn sqrrN -!(exprAC _ 2) sqrrN.
have sr' : (size (pval (pd_rem r)) <= e)%N by move: sr; rewrite s1 ltnS.
have [w Ew] := prs_rem_div I sq sr' Eq B.
have be0 := prs_be_neq0 I B.
have [f' [Ef _ Hf Vf]] := div_single_ok HX Hr be0 Ew.
rewrite /= Er /= Et /= -/be Ef /= (degree_spec Hf).
case: eqP => [f0|/eqP f0] /=.
  exists f1; split=> //.
  rewrite Ew -Vf f0 scaler0 addr0 in Eq.
  apply: eqp_trans (_ : pval f1 %= gcdp (pval f1) 0) _; first by rewrite gcdp0 eqpxx.
  rewrite eqp_sym; apply: (gcdp_prem (a := lead_coef (pval f1) ^+ (d - e).+1) (be := 1) (q := q)).
  - by rewrite expf_neq0 // lead_coef_eq0.
  - exact: oner_neq0.
  - by rewrite Eq scaler0 addr0.
have [L1 L2] := lead_spec H1; rewrite L1 (negbTE v0) /=.
have [t1 Et1 Vt1] : exists2 t1, c_pow_usize (lead f1) (d - e) = Ret t1 & vc t1 = lead_coef (pval f1) ^+ (d - e).
  by rewrite -L2; apply: pow_ret; rewrite L2 lead_coef_eq0 v0 orbT.
rewrite Et1 /=.
have [c1 Ec Hc] : exists2 c1, exact_mul_by_signed_power X t1 c2 (e + 1) d = Ret c1 &
   (if (e < d)%N then (vc c1 * vc c2 ^+ (d - e).-1) ^+ 2 = (lead_coef (pval f1) ^+ (d - e)) ^+ 2
    else vc c1 ^+ 2 = vc c2 ^+ 2).
  rewrite /exact_mul_by_signed_power; case: ifP => de.
    have [t2 Et2 Vt2] : exists2 t2, c_pow_usize c2 (e + 1 - d) = Ret t2 & vc t2 = vc c2 ^+ (e + 1 - d).
      by apply: pow_ret; rewrite c0 orbT.
    rewrite Et2 /=; exists (c_mul t1 t2) => //; rewrite vcM Vt1 Vt2; case: ltnP => lt.
      have -> : (e + 1 - d = 0)%N by lia.
      have -> : (d - e).-1 = 0%N by lia.
      by rewrite !expr0 !mulr1.
    have -> : (e + 1 - d = 1)%N by lia.
    have -> : (d - e = 0)%N by lia.
    by rewrite expr0 mul1r expr1.
  have lt : (e < d)%N by lia.
  rewrite lt; have [x Ex] := prs_c_div I lt.
  have [t2 Et2 Vt2] : exists2 t2, c_pow_usize c2 (d - (e + 1)) = Ret t2 & vc t2 = vc c2 ^+ (d - e).-1.
    have -> : (d - e).-1 = (d - (e + 1))%N by lia.
    by apply: pow_ret; rewrite c0 orbT.
  have [x' Vx] := vc_surj S x.
  rewrite Et2 /=; exists x'; first by apply: (ex_divP HX); rewrite Vt2 ?expf_neq0 // Vt1 Ex Vx mulrC.
  by rewrite Vx Ex mulrC.
rewrite Ec /=.
have sf' : (size (pval f') = (size (pval f')).-1.+1)%N by exact: size_pos.
have lt : ((size (pval f')).-1 < e)%N.
  have : (size (pval f') <= e)%N; last by rewrite -ltnS -sf'; lia.
  by move: sr; rewrite s1 ltnS Ew size_scale // Vf.
have I' : prs_inv m n f g e (size (pval f')).-1 (pval f1) (pval f') (vc (lead f1)) (vc c1).
  rewrite L2; apply: (prs_next I sq sf' lt (be := vc be)) => //.
  by rewrite Vf -Ew.
have [|o [Eo Ho o0 Vo]] := IH f1 f' (lead f1) c1 H1 Hf I'.
  by move: sf; rewrite s1 sf'; lia.
exists o; split=> //; apply: eqp_trans Vo _; rewrite eqp_sym.
apply: (gcdp_prem (a := lead_coef (pval f1) ^+ (d - e).+1) (be := vc be) (q := q)) => //.
  by rewrite expf_neq0 // lead_coef_eq0.
by rewrite Vf -Ew.
Qed.

Lemma subresultant_gcd_spec p q : wf p -> wf q ->
  exists r, [/\ subresultant_gcd X p q = Ret r, wf r & pval r %= gcdp (pval p) (pval q)].
Proof.
move=> Hp Hq.
have main (b : bool) p1 q1 : wf p1 -> wf q1 -> (size (pval q1) <= size (pval p1))%N ->
   exists r, [/\ (if poly_is_zero q1 then Ret p1
    else
    (n2 <- unwrap (degree p1) ;;
     n1 <- unwrap (degree q1) ;;
     f <- subresultant_loop X (poly_len q1).+1 p1 n2 (c_one K) (c_one K) q1 n1 ;;
     Ret (if b then poly_neg f else f))%res) = Ret r, wf r & pval r %= gcdp (pval p1) (pval q1)].
  move=> {Hp Hq} Hp Hq s.
  rewrite (is_zeroP Hq); case: eqP => [->|/eqP q0]; first by exists p1; rewrite gcdp0 eqpxx.
  have p0 : pval p1 != 0 by rewrite -size_poly_gt0; apply: leq_trans s; rewrite size_poly_gt0.
  rewrite (degree_spec Hp) (negbTE p0) (degree_spec Hq) (negbTE q0) /unwrap !rbind_Ret'.
  have I : prs_inv (size (pval p1)).-1 (size (pval q1)).-1 (pval p1) (pval q1)
     (size (pval p1)).-1 (size (pval q1)).-1 (pval p1) (pval q1) (vc (c_one K)) (vc (c_one K)).
    by rewrite vc1; apply: prs_start; rewrite ?expr1n ?prednK ?size_poly_gt0 //; lia.
  have [|r [Er Hr r0 Vr]] := subres_loop_spec (fuel := (poly_len q1).+1) Hp Hq I.
    by rewrite /poly_len -(size_pval Hq) leqnSn.
  rewrite Er rbind_Ret'; case: b; last by exists r.
  by have [Hn Vn] := neg_spec S r; exists (poly_neg r); rewrite Vn; split=> //; apply: eqp_trans Vr; rewrite -scaleN1r eqp_scale // oppr_eq0 oner_eq0.
rewrite /subresultant_gcd /poly_len -!(size_pval Hp) -!(size_pval Hq).
case: ltnP => lt; last first.
  by have := main false p q Hp Hq lt; rewrite /poly_len -(size_pval Hq).
have := main (odd (degree_or_0 q) && odd (degree_or_0 p)) q p Hq Hp (ltnW lt).
rewrite /poly_len -(size_pval Hp) => - [r [E Hr Vr]]; exists r; rewrite /= E; split=> //.
by apply: eqp_trans Vr _; exact: gcdpC.
Qed.

(** Resultants. *)
Definition res0 (f g : {poly R}) : R := sres (size f).-1 (size g).-1 0 0 f g.

Lemma res0_swap f g : res0 f g = (-1) ^+ ((size f).-1 * (size g).-1) * res0 g f.
Proof.
rewrite /res0 /sres !subn0 sub_swap_sign; last by lia.
by rewrite addnK (addnC (size g).-1) mulnC.
Qed.

Lemma res0_const (f g : {poly R}) : size g = 1%N -> f != 0 -> res0 f g = g`_0 ^+ (size f).-1.
Proof.
move=> sg f0; rewrite /res0 sg /=; case E: (size f).-1 => [|m].
  by rewrite /sres /= /sub det_mx00.
by rewrite sres_top ?sg // subn1 -exprSr.
Qed.

Definition psi_of (f : cf K) (delta_p : nat) (psi_p : cf K) : res (cf K) :=
  match delta_p with
  | 0 => Panic
  | 1 => Ret psi_p
  | _ => (t <- c_pow_usize (c_neg f) (delta_p - 1) ;;
          t' <- c_pow_usize psi_p (delta_p - 2) ;;
          ex_div X t t')%res
  end.

Lemma rr_spec fuel m n (f g : {poly R}) u v (i1 : bool) dp pp psi A :
  wf u -> wf v -> pval v != 0 -> (size (pval v) <= size (pval u))%N ->
  (size (pval v) <= fuel)%N ->
  prs_inv m n f g (size (pval u)).-1 (size (pval v)).-1 (pval u) (pval v) A (vc psi) ->
  (if i1 then psi = c_neg (c_one K) /\ A = 1 else psi_of (lead u) dp pp = Ret psi /\ A = lead_coef (pval u)) ->
  exists o, [/\ recursive_resultant X fuel u v i1 dp pp = Ret o,
    o = None -> res0 (pval u) (pval v) = 0 &
    forall t, o = Some t -> vc t = res0 (pval u) (pval v) /\ res0 (pval u) (pval v) != 0].
Proof.
elim: fuel u v i1 dp pp psi A => [|fuel IH] u v i1 dp pp psi A Hu Hv v0 vu sf I HA.
  by move: sf; rewrite leqn0 size_poly_eq0 (negbTE v0).
have [ed s2 s1 [A0 c0] _] := I.
have u0 : pval u != 0 by rewrite -size_poly_eq0 s2.
rewrite [recursive_resultant _ _ _ _ _ _ _]/= (degree_spec Hu) (negbTE u0) (degree_spec Hv) (negbTE v0) /unwrap !rbind_Ret'.
rewrite ltnNge ed /=; case: eqP => [e0|/eqP e0].
  have sv : size (pval v) = 1%N by rewrite s1 e0.
  have vc0 : vc (coefficient v 0) = (pval v)`_0 by exact: coefficient_spec.
  have vn0 : (pval v)`_0 != 0.
    by have := v0; rewrite -lead_coef_eq0 lead_coefE sv.
  have [t -> Vt] : exists2 t, c_pow_usize (coefficient v 0) (size (pval u)).-1 = Ret t & vc t = (pval v)`_0 ^+ (size (pval u)).-1.
    by rewrite -vc0; apply: pow_ret; rewrite vc0 vn0 orbT.
  exists (Some t); split=> // _ [<-].
  by rewrite Vt res0_const // expf_neq0.
have [r [Er Hr sr [q [sq Eq]]]] := pseudo_ok Hu Hv v0 vu.
rewrite Er rbind_Ret' (is_zeroP Hr).
set d := (size (pval u)).-1 in s2 ed I sq Eq *; set e := (size (pval v)).-1 in s1 ed I sq Eq e0 *.
have l0 : lead_coef (pval v) != 0 by rewrite lead_coef_eq0.
have e1 : (0 < e)%N by rewrite lt0n.
case: eqP => [r0|/eqP r0].
  exists None; split=> // _; rewrite r0 in Eq.
  have E0 : lead_coef (pval v) ^+ (d - e).+1 *: pval u = q * pval v + 0 *: 0 by rewrite scale0r.
  have := @sres_reduce R d e 0 0 0 _ _ 0 _ _ _ (leqnn _) e1 ed _ _ sq E0.
  rewrite s1 size_poly0 => /(_ (leqnn _) isT); rewrite subn0 expr0n (negbTE e0) mulr0 mul0r.
  by move/eqP; rewrite mulf_eq0 !expf_eq0 (negbTE l0) !andbF /= => /eqP.
pose beta_of := (if i1 then Ret (c_neg (c_one K), if odd (d + 1 - e) then c_neg (c_one K) else c_one K)
  else (f <- unwrap (nonzero_lead u) ;; psi <- psi_of f dp pp ;;
        t <- c_pow_usize psi (d + 1 - e - 1) ;; Ret (psi, c_mul (c_neg f) t))%res).
have [be Eb B] : exists2 be, beta_of = Ret (psi, be) & vc be ^+ 2 = (A * vc psi ^+ (d - e)) ^+ 2.
  rewrite /beta_of; case: i1 HA {beta_of} => [[-> ->]|[Ep ->]].
    exists (if odd (d + 1 - e) then c_neg (c_one K) else c_one K) => //.
    by rewrite mul1r vcN vc1 exprAC sqrrN !expr1n; case: ifP; rewrite ?vcN vc1 ?sqrrN expr1n.
  have [L1 L2] := lead_spec Hu; rewrite L1 (negbTE u0) /= Ep /=.
  have [t -> Vt] : exists2 t, c_pow_usize psi (d + 1 - e - 1) = Ret t & vc t = vc psi ^+ (d - e).
    have -> : (d + 1 - e - 1 = d - e)%N by lia.
    by apply: pow_ret; rewrite c0 orbT.
  exists (c_mul (c_neg (lead u)) t) => //.
  by rewrite vcM vcN Vt L2 mulNr sqrrN.
rewrite -/(psi_of _ _ _) -/beta_of Eb rbind_Ret'.
have be0 := prs_be_neq0 I B.
have sr' : (size (pval (pd_rem r)) <= e)%N by move: sr; rewrite s1 ltnS.
have [w Ew] := prs_rem_div I sq sr' Eq B.
have [r' [Ef _ Hf Vf]] := div_single_ok HX Hr be0 Ew.
have f0 : pval r' != 0 by apply: contraNneq r0; rewrite Ew -Vf => ->; rewrite scaler0.
have [L1 L2] := lead_spec Hv.
rewrite Ef rbind_Ret' L1 (negbTE v0) rbind_Ret' (degree_spec Hf) (negbTE f0) rbind_Ret'.
have [w1 -> Vw] : exists2 w1, c_pow_usize be e = Ret w1 & vc w1 = vc be ^+ e.
  by apply: pow_ret; rewrite be0 orbT.
rewrite rbind_Ret'.
have [psi' Ep Hc] : exists2 psi', psi_of (lead v) (d + 1 - e) psi = Ret psi' &
   (if (e < d)%N then (vc psi' * vc psi ^+ (d - e).-1) ^+ 2 = (lead_coef (pval v) ^+ (d - e)) ^+ 2
    else vc psi' ^+ 2 = vc psi ^+ 2).
  case: ltnP => lt; last first.
    by have -> : (d + 1 - e = 1)%N by [lia]; exists psi.
  have [x Ex] := prs_c_div I lt.
  have [k Ek] : exists k, (d - e = k.+1)%N by exists (d - e).-1; lia.
  have -> : (d + 1 - e = k.+2)%N by lia.
  rewrite /psi_of subn1 subn2 /=; rewrite Ek /= in Ex *.
  have [t1 -> Vt1] : exists2 t1, c_pow_usize (c_neg (lead v)) k.+1 = Ret t1 & vc t1 = vc (c_neg (lead v)) ^+ k.+1.
    exact: pow_ret.
  have [t2 -> Vt2] : exists2 t2, c_pow_usize psi k = Ret t2 & vc t2 = vc psi ^+ k.
    by apply: pow_ret; rewrite c0 orbT.
  have [x' Vx] := vc_surj S ((-1) ^+ k.+1 * x).
  exists x'.
    apply: (ex_divP HX); first by rewrite Vt2 expf_neq0.
    rewrite Vt1 Vt2 Vx vcN L2.
    transitivity ((-1) ^+ k.+1 * (lead_coef (pval v) ^+ k.+1)); first exact: exprNn.
    by rewrite Ex -mulrA (mulrC x).
  by rewrite Vx Ex -mulrA exprMn sqrr_sign mul1r mulrC.
have sf' : (size (pval r') = (size (pval r')).-1.+1)%N by exact: size_pos.
have lt : ((size (pval r')).-1 < e)%N.
  have : (size (pval r') <= e)%N; last by rewrite -ltnS -sf'; lia.
  by move: sr'; rewrite Ew size_scale // Vf.
have Eq' : lead_coef (pval v) ^+ (d - e).+1 *: pval u = q * pval v + vc be *: pval r'.
  by rewrite Vf -Ew.
have I' : prs_inv m n f g e (size (pval r')).-1 (pval v) (pval r') (lead_coef (pval v)) (vc psi').
  exact: (prs_next I sq sf' lt Eq' B).
have sm : (size (pval r') <= fuel)%N by move: sf; rewrite s1 sf'; lia.
have rv : (size (pval r') <= size (pval v))%N by rewrite s1 sf' ltnS ltnW.
have [o [Eo No So]] := IH v r' false (d + 1 - e)%N psi psi' _ Hv Hf f0 rv sm I' (conj Ep erefl).
rewrite Eo rbind_Ret'.
have V : lead_coef (pval v) ^+ (e * (d + 1 - e) + (size (pval r')).-1 - d) * res0 (pval u) (pval v)
   = (-1) ^+ (e * d) * vc be ^+ e * res0 (pval v) (pval r').
  have := @sres_reduce R d e (size (pval r')).-1 0 0 _ _ _ _ _ _ (leq0n _) lt ed _ _ sq Eq'.
  rewrite s1 sf' => /(_ (leqnn _) (leqnn _)); rewrite !subn0 /= -/(res0 _ _) -/(res0 _ _) -exprM.
  rewrite lead_coefE s1 /= -/e.
  have -> : ((d - e).+1 * e = (d - (size (pval r')).-1) + (e * (d + 1 - e) + (size (pval r')).-1 - d))%N.
    have -> : (d + 1 - e = (d - e).+1)%N by lia.
    have : ((d - e).+1 * e >= d)%N; last by rewrite mulnC; lia.
    by rewrite mulSn; have := leq_pmulr (d - e) e1; lia.
  have v1 : (pval v)`_e ^+ (d - (size (pval r')).-1) != 0.
    by rewrite expf_neq0 //; move: l0; rewrite lead_coefE s1.
  rewrite exprD -mulrA => E; apply: (mulfI v1); rewrite E.
  by rewrite -!mulrA mulrCA.
have [k1 Ek1 Vk1] : exists2 k1, c_pow_usize (lead v) (e * (d + 1 - e) + (size (pval r')).-1 - d) = Ret k1 &
   vc k1 = lead_coef (pval v) ^+ (e * (d + 1 - e) + (size (pval r')).-1 - d).
  by rewrite -L2; apply: pow_ret; rewrite L2 l0 orbT.
case: o Eo No So => [t|] Eo No So; last first.
  exists None; split=> // _; move: V; rewrite (No erefl) mulr0 => /eqP.
  by rewrite mulf_eq0 expf_eq0 (negbTE l0) andbF /= => /eqP.
have [Vt t0] := So t erefl.
have [x Vx] := vc_surj S (res0 (pval u) (pval v)).
have Ed : ex_div X (c_mul (if odd d && odd e then c_neg w1 else w1) t) k1 = Ret x.
  apply: (ex_divP HX); first by rewrite Vk1 expf_neq0.
  rewrite Vk1 Vx vcM Vt [RHS]mulrC V mulnC -[in RHS]signr_odd oddM.
  by case: ifP => _; rewrite ?expr1 ?expr0 ?mulN1r ?mul1r ?vcN Vw.
rewrite Ek1 rbind_Ret' Ed /=; exists (Some x); split=> // _ [<-]; rewrite Vx; split=> //.
apply: contraNneq t0 => z; move: V; rewrite z mulr0 => /esym /eqP.
by rewrite !mulf_eq0 signr_eq0 expf_eq0 (negbTE be0) andbF /= => ->.
Qed.

Lemma nonzero_resultant_spec p q : wf p -> wf q ->
  exists o, [/\ nonzero_resultant X p q = Ret o,
    o = None <-> pval p = 0 \/ pval q = 0 \/ res0 (pval p) (pval q) = 0 &
    forall t, o = Some t -> vc t = res0 (pval p) (pval q)].
Proof.
move=> Hp Hq; rewrite /nonzero_resultant (is_zeroP Hp) (is_zeroP Hq).
case: eqP => [p0|/eqP p0]; first by exists None; split=> //; split=> // _; left.
case: eqP => [q0|/eqP q0]; first by exists None; split=> //; split=> // _; right; left.
rewrite -[_ || _]/false.
have c1 : vc (c_neg (c_one K)) ^+ 2 = 1 by rewrite vcN vc1 sqrrN expr1n.
have main u v fuel : wf u -> wf v -> pval u != 0 -> pval v != 0 -> (size (pval v) <= size (pval u))%N ->
   (size (pval v) <= fuel)%N ->
   exists o, [/\ recursive_resultant X fuel u v true 0 (c_zero K) = Ret o,
    o = None -> res0 (pval u) (pval v) = 0 &
    forall t, o = Some t -> vc t = res0 (pval u) (pval v) /\ res0 (pval u) (pval v) != 0].
  move=> Hu Hv u0 v0 vu sf.
  have I : prs_inv (size (pval u)).-1 (size (pval v)).-1 (pval u) (pval v)
     (size (pval u)).-1 (size (pval v)).-1 (pval u) (pval v) 1 (vc (c_neg (c_one K))).
    by apply: prs_start; rewrite ?prednK ?size_poly_gt0 //; lia.
  by apply: (rr_spec Hu Hv v0 vu sf I).
case: (leqP (size (pval q)) (size (pval p))) => le.
  have [|o [E N So]] := main p q (poly_len p + poly_len q).+1 Hp Hq p0 q0 le.
    by rewrite /poly_len -(size_pval Hq) -(size_pval Hp); lia.
  exists o; split=> //; last by move=> t /So [].
  split; first by move=> /N; right; right.
  case=> [/eqP|[/eqP|]]; rewrite ?(negbTE p0) ?(negbTE q0) //.
  by case: o E N So => // t _ _ So; have [_ /eqP] := So t erefl.
have [|o [E N So]] := main q p (poly_len p + poly_len q)%N Hq Hp q0 p0 (ltnW le).
  by rewrite /poly_len -(size_pval Hq) -(size_pval Hp); lia.
rewrite [recursive_resultant _ _ _ _ _ _ _]/= (degree_spec Hp) (negbTE p0) (degree_spec Hq) (negbTE q0) /unwrap !rbind_Ret'.
have -> : ((size (pval p)).-1 < (size (pval q)).-1)%N.
  by have : (0 < size (pval p))%N by [rewrite size_poly_gt0]; lia.
rewrite E rbind_Ret'; eexists; split; first reflexivity.
  rewrite res0_swap; case: o E N So => [t|] _ N So /=; last first.
    by split=> // _; rewrite (N erefl) mulr0; right; right.
  split=> // - [/eqP|[/eqP|/eqP]]; rewrite ?(negbTE p0) ?(negbTE q0) //.
  by rewrite mulf_eq0 signr_eq0 /=; have [_ /negbTE ->] := So t erefl.
case: o {E N} So => [t|] //= /(_ t erefl) [Vt _] _ [<-].
rewrite res0_swap -signr_odd oddM.
by case: ifP => _; rewrite ?vcN Vt ?expr1 ?expr0 ?mulN1r ?mul1r.
Qed.

Lemma resultant_res0 p q : wf p -> wf q ->
  exists2 r, resultant X p q = Ret r &
   vc r = if (pval p == 0) || (pval q == 0) then 0 else res0 (pval p) (pval q).
Proof.
move=> Hp Hq; have [o [E N So]] := nonzero_resultant_spec Hp Hq.
rewrite /resultant E rbind_Ret'; eexists; first reflexivity.
case: o E N So => [t|] E N So /=; last first.
  rewrite vc0; case: N => /(_ erefl) [->|[->|->]] _; rewrite ?eqxx ?orbT //.
  by case: ifP.
rewrite (So t erefl); case: ifP => // /orP H; case: N => _ N; suff: Some t = None by [].
by apply: N; case: H => /eqP ->; [left|right; left].
Qed.
End Gcd.
