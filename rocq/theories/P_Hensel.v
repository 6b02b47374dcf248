(** Proofs about Hensel lifting. *)
From Coq Require Import ZArith Lia.
Set Warnings "-notation-overridden,-ambiguous-paths".
From mathcomp Require Import all_ssreflect all_fingroup all_algebra.
From mathcomp.zify Require Import ssrZ zify_ssreflect zify_algebra.
From Verif Require Import M_Base M_Traits M_ModInt M_Poly M_PolyCoef M_PolyAlg M_Factor S_Poly S_PolyAlg S_Factor
  P_RingTac P_ModInt P_Poly P_PolyDiv P_PolyInst P_PolyGcd P_PolyAlgInst.
Set Implicit Arguments.
Unset Strict Implicit.
Unset Printing Implicit Defensive.
Import GRing.Theory Num.Theory Order.POrderTheory Order.TotalTheory.
Local Open Scope ring_scope.
Delimit Scope Z_scope with ZZ.
Local Notation monic := mathcomp.algebra.poly.monic.

(** * Identities *)
Section Ids.
Variable T : comRingType.
Notation C := (GRing.Ring.sort T).
Add Ring T_ring : (comring_theory T).
Implicit Types F L R s t Q r E B : C.
Ltac rg := rewrite -[LHS]mul1r; ring.
Lemma id_L L t E Q : L + t * E + Q * L - L = t * E + Q * L :> C.  Proof. rg. Qed.
Lemma id_R R r : R + r - R = r :> C.  Proof. rg. Qed.
Lemma id_prod L R t E Q r : (L + t * E + Q * L) * (R + r)
  = L * R + t * E * R + L * (Q * R + r) + t * (E * r) + L * (Q * r) :> C.
Proof. rg. Qed.
Lemma id_prod2 L R s t E : L * R + t * E * R + L * (s * E) + t * 0 + L * 0
  = L * R + E + E * (s * L + t * R - 1) :> C.
Proof. rg. Qed.
Lemma id_prod3 F L R : L * R + (F - L * R) = F :> C.  Proof. rg. Qed.
Lemma id_B L' R' L R s t : s * L' + t * R' - 1
  = (s * L + t * R - 1) + s * (L' - L) + t * (R' - R) :> C.
Proof. rg. Qed.
Lemma id_bz L' R' s t r Q B : (s - r) * L' + (t - t * B - Q * L') * R'
   = s * L' + t * R' - L' * (Q * R' + r) - t * B * R' :> C.
Proof. rg. Qed.
Lemma id_bz2 L' R' s t : let B := s * L' + t * R' - 1 in
  s * L' + t * R' - L' * (s * B) - t * B * R' = 1 - B * B :> C.
Proof. by move=> B; rewrite /B; rg. Qed.
End Ids.

(** * Division by a polynomial with a unit leading coefficient *)
Section UnitLead.
Variable R : comUnitRingType.
Implicit Types A B Q r L : {poly R}.

Lemma size_mul_unit A B : lead_coef B \is a GRing.unit -> A != 0 ->
  size (A * B)%R = (size A + size B).-1.
Proof.
move=> u A0; rewrite size_proper_mul //.
apply: contraNneq A0; rewrite -lead_coef_eq0 => E.
by rewrite -(mulrK u (lead_coef A)) E mul0r.
Qed.
Lemma lead_mul_unit A B : lead_coef B \is a GRing.unit -> lead_coef (A * B) = lead_coef A * lead_coef B.
Proof.
move=> u; have [->|A0] := eqVneq A 0; first by rewrite mul0r lead_coef0 mul0r.
apply: lead_coef_proper_mul; apply: contraNneq A0; rewrite -lead_coef_eq0 => E.
by rewrite -(mulrK u (lead_coef A)) E mul0r.
Qed.
Lemma unit_lead_neq0 B : lead_coef B \is a GRing.unit -> B != 0.
Proof.
apply: contraTneq => ->; rewrite lead_coef0 unitr0 //.
Qed.
(** Uniqueness of the quotient and the remainder. *)
Lemma div_uniq B Q r Q' r' : lead_coef B \is a GRing.unit ->
  (size r < size B)%N -> (size r' < size B)%N -> Q * B + r = Q' * B + r' -> Q = Q' /\ r = r'.
Proof.
move=> u s s' E; have [D|N] := eqVneq Q Q'.
  by split=> //; move: E; rewrite D => /addrI.
have E2 : (Q - Q') * B = r' - r.
  by rewrite mulrBl; apply/eqP; rewrite subr_eq addrAC eq_sym subr_eq addrC -E addrC.
have : (size ((Q - Q') * B)%R < size B)%N.
  rewrite E2; apply: leq_ltn_trans (size_add _ _) _; rewrite size_opp gtn_max s s' //.
rewrite size_mul_unit // ?subr_eq0 //.
have : (0 < size (Q - Q')%R)%N by rewrite size_poly_gt0 subr_eq0.
by case: (size (Q - Q')%R) => // k _; rewrite addSn /= ltnNge leq_addl.
Qed.
Lemma div_exists A B : lead_coef B \is a GRing.unit ->
  exists Q r, A = Q * B + r /\ (size r < size B)%N.
Proof.
move=> u; pose B1 := (lead_coef B)^-1 *: B.
have g : GRing.lreg (lead_coef B)^-1 by move=> a b /(congr1 ( *%R (lead_coef B))); rewrite !mulVKr.
have m1 : B1 \is monic by rewrite monicE lead_coef_lreg // mulVr.
exists ((lead_coef B)^-1 *: Pdiv.CommonRing.rdivp A B1), (Pdiv.CommonRing.rmodp A B1); split.
  rewrite {1}(Pdiv.RingMonic.rdivp_eq m1 A) {2}/B1 -scalerAr -scalerAl //.
have <- : size B1 = size B by rewrite lreg_size.
by rewrite Pdiv.CommonRing.ltn_rmodp monic_neq0.
Qed.

(** * One lifting step, in a ring where e^2 = 0 *)
Variable e : R.
Hypothesis ee : e * e = 0.
Definition inI A : Prop := exists A', A = e *: A'.
Lemma inI_add A B : inI A -> inI B -> inI (A + B).
Proof. by move=> [a ->] [b ->]; exists (a + b); rewrite scalerDr. Qed.
Lemma inI_opp A : inI A -> inI (- A).
Proof. by move=> [a ->]; exists (- a); rewrite scalerN. Qed.
Lemma inI_mull A B : inI B -> inI (A * B).
Proof. by move=> [b ->]; exists (A * b); rewrite scalerAr. Qed.
Lemma inI_mulr A B : inI A -> inI (A * B).
Proof. by rewrite mulrC; exact: inI_mull. Qed.
Lemma inI_mul0 A B : inI A -> inI B -> A * B = 0.
Proof. by move=> [a ->] [b ->]; rewrite -scalerAl -scalerAr scalerA ee scale0r. Qed.
Lemma inI_div A B Q r : lead_coef B \is a GRing.unit -> inI A ->
  A = Q * B + r -> (size r < size B)%N -> inI Q /\ inI r.
Proof.
move=> u [a Ea] E s; have [Q' [r' [E' s']]] := div_exists a u.
have [||-> ->] := @div_uniq B Q r (e *: Q') (e *: r') u s.
- by apply: leq_ltn_trans (size_scale_leq _ _) s'.
- by rewrite -E Ea E' scalerDr scalerAl.
- by split; [exists Q'|exists r'].
Qed.

Section Step.
Variables F L Rr s t Q r : {poly R}.
Hypotheses (E0 : inI (F - L * Rr)) (B0 : inI (s * L + t * Rr - 1)).
Hypotheses (uR : lead_coef Rr \is a GRing.unit).
Notation E := (F - L * Rr).
Hypotheses (D : s * E = Q * Rr + r) (sr : (size r < size Rr)%N).
Notation L' := (L + t * E + Q * L).
Notation R' := (Rr + r).

Lemma step_in : inI Q /\ inI r.
Proof. exact: inI_div uR (inI_mull s E0) D sr. Qed.
Lemma step_L : inI (L' - L).
Proof.
have [iQ ir] := step_in; rewrite id_L.
by apply: inI_add; [apply: inI_mull|apply: inI_mulr].
Qed.
Lemma step_R : inI (R' - Rr).
Proof. by have [_ ir] := step_in; rewrite id_R. Qed.
Lemma step_prod : L' * R' = F.
Proof.
have [iQ ir] := step_in.
rewrite id_prod -D (inI_mul0 E0 ir) (inI_mul0 iQ ir).
by rewrite id_prod2 (inI_mul0 E0 B0) addr0 id_prod3.
Qed.
Lemma step_leadR : lead_coef R' = lead_coef Rr /\ size R' = size Rr.
Proof. by rewrite lead_coefDl // size_addl. Qed.

Variables Q2 r2 : {poly R}.
Notation B := (s * L' + t * R' - 1).
Hypotheses (D2 : s * B = Q2 * R' + r2) (sr2 : (size r2 < size R')%N).
Lemma step_B : inI B.
Proof.
rewrite (id_B _ _ L Rr).
by apply: inI_add; [apply: inI_add => //; apply: inI_mull step_L|apply: inI_mull step_R].
Qed.
Lemma step_bezout : (s - r2) * L' + (t - t * B - Q2 * L') * R' = 1.
Proof.
by rewrite id_bz -D2 id_bz2 (inI_mul0 step_B step_B) subr0.
Qed.
Lemma step_in2 : inI Q2 /\ inI r2.
Proof.
have [lR _] := step_leadR.
by apply: inI_div (inI_mull s step_B) D2 sr2; rewrite lR.
Qed.
End Step.
End UnitLead.

(** * Residues modulo n of integer polynomials *)
Section Red.
Variable n : nat.
Hypothesis n1 : (1 < n)%N.
Definition red (P : {poly int}) : {poly 'Z_n} := map_poly intr P.

Lemma intr0_dvd (z : int) : ((z%:~R : 'Z_n) == 0) = (n%:Z %| z)%Z.
Proof.
have nat0 (k : nat) : ((k%:R : 'Z_n) == 0) = (n %| k)%N.
  by rewrite -val_eqE /= val_Zp_nat.
case: (intP z) => [|k|k]; first by rewrite mulr0z eqxx dvdz0.
  by rewrite nat0 dvdzE.
by rewrite mulrNz oppr_eq0 nat0 dvdzE abszN.
Qed.
Lemma redB A B : red (A - B) = red A - red B.  Proof. exact: rmorphB. Qed.
Lemma redD A B : red (A + B) = red A + red B.  Proof. exact: rmorphD. Qed.
Lemma redM A B : red (A * B) = red A * red B.  Proof. exact: rmorphM. Qed.
Lemma red1 : red 1 = 1.  Proof. exact: rmorph1. Qed.
Lemma redZ (c : int) A : red (c *: A) = c%:~R *: red A.
Proof. by rewrite /red map_polyZ. Qed.
Lemma coef_red A i : (red A)`_i = (A`_i)%:~R.
Proof. by rewrite coef_map. Qed.
Lemma red0_dvd A : red A = 0 <-> exists H, A = n%:Z *: H.
Proof.
split=> [E|[H ->]]; last first.
  have /eqP E : ((n%:Z)%:~R : 'Z_n) == 0 by rewrite intr0_dvd dvdzz.
  by rewrite redZ E scale0r.
exists (map_poly (fun z => (z %/ n)%Z) A); apply/polyP => i.
rewrite coefZ coef_map_id0 ?div0z // mulrC divzK //.
by rewrite -intr0_dvd -coef_red E coef0.
Qed.
Lemma red_eqmod A B : red A = red B <-> poly_eqmod n A B.
Proof.
split=> [E|[H ->]].
  have /red0_dvd [H E2] : red (A - B) = 0 by rewrite redB E subrr.
  by exists H; rewrite -E2 addrC subrK.
have /red0_dvd E : exists H', n%:Z *: H = n%:Z *: H' by exists H.
by rewrite redD E addr0.
Qed.
Lemma red_surj (P : {poly 'Z_n}) : exists A, red A = P.
Proof.
exists (map_poly (fun x : 'Z_n => (nat_of_ord x)%:Z) P); apply/polyP => i.
by rewrite coef_red coef_map_id0 // -pmulrn natr_Zp.
Qed.
End Red.

(** * The model's modular polynomials as residues of integer polynomials *)
(** The integer polynomial of the stored values. *)
Definition il (q : positive) (f : mpoly q) : {poly int} := Poly (map zi (mod_values f)).
Lemma Poly_map_intr (R : ringType) (l : seq int) :
  Poly (map (fun z => z%:~R : R) l) = map_poly intr (Poly l).
Proof.
apply/polyP => i; rewrite coef_map !coef_Poly.
have [h|h] := ltnP i (size l); first by rewrite (nth_map 0).
by rewrite !nth_default ?size_map // mulr0z.
Qed.

Section Gen.
Variables (q : positive) (n : nat).
Hypotheses (qE : Zpos q = Z.of_nat n) (n1 : (1 < n)%N).
Definition gS : coef_sem (mc q) [comUnitRingType of 'Z_n] := @mod_sem (Zpos q) n isT qE n1.
Notation pv := (pval gS).
Notation wf := (wf gS).
Implicit Types f g : mpoly q.

Lemma pv_il f : pv f = red n (il f).
Proof. by rewrite /red -Poly_map_intr /pval /mod_values -!map_comp. Qed.
Lemma to_mod_spec l : wf (to_mod q l) /\ pv (to_mod q l) = red n (Poly (map zi l)).
Proof.
have [w e] := from_iterator_spec gS [seq @mk_residue (Zpos q) isT z | z <- l].
split=> //; rewrite /to_mod e /red -Poly_map_intr -!map_comp; congr Poly.
by apply: eq_map => z /=; rewrite (rp_mk (m := Zpos q) isT qE n1).
Qed.
Lemma il_small f i : (0 <= (il f)`_i < n%:Z)%R.
Proof.
rewrite coef_Poly; have [h|h] := ltnP i (size (mod_values f)); last first.
  rewrite nth_default; last by rewrite size_map.
  by rewrite lexx ltz_nat; exact: ltnW.
rewrite (nth_map Z0) // (nth_map (c_zero (mc q))); last by rewrite size_map in h.
set c := nth _ _ _; have [h1 h2] := rvP c; set z := rv c in h1 h2 *; rewrite qE in h2.
have -> : (n : int) = zi (Z.of_nat n) by rewrite zi_nat natz.
by rewrite -[0]/(zi Z0) zi_le zi_lt; apply/andP; split; [apply/Z.leb_le|apply/Z.ltb_lt].
Qed.
Lemma mpoly_eqb_refl f : mpoly_eqb f f.
Proof. by rewrite /mpoly_eqb; elim: (mod_values f) => //= z l ->; rewrite Z.eqb_refl. Qed.

(** Division of a residue by a unit. *)
Lemma unit_div (a b : residue (Zpos q)) : S_Poly.vc gS b \is a GRing.unit ->
  exists2 c : residue (Zpos q), ex_div (mx q) a b = Ret c & S_Poly.vc gS c = S_Poly.vc gS a / S_Poly.vc gS b.
Proof.
move=> u; have M1 : (1 < Zpos q)%ZZ by rewrite qE; move: n1; clear; lia.
have := @mi_div_ok IBig (MI (rv a) (Zpos q)) (MI (rv b) (Zpos q)) erefl erefl (rvP a) (rvP b) erefl M1.
case=> [[[x k] [E1 [E2 [_ [[Cq Cq'] [/= En [Em _]]]]]]]|[E1 [E2 [_ Hk]]]]; last first.
  case: (zp_surj qE n1 (S_Poly.vc gS b)^-1) => k Hk1 Hk2.
  case: (Hk k) => /=; apply: (zp_inj qE n1) => //.
  - exact: Z.mod_pos_bound.
  - by rewrite (zp_mod (m := Zpos q) isT qE n1) // zp_mul Hk2 mulrV.
exists (@mk_residue (Zpos q) isT x); rewrite /= ?E2 //.
apply: (mulIr u); rewrite mulrVK //.
rewrite /S_Poly.vc /= (rp_mk (m := Zpos q) isT qE n1); move: Em; rewrite En => Em.
have [a' [b' [Ea' [Eb' [_ [_ [E3 _]]]]]]] := mi_arith_ok IBig x (rv b) (Zpos q) (Pos2Z.is_pos q) erefl.
rewrite En in Cq Cq'.
have fb z : mi_from_bigint IBig z (Zpos q) = Ret (MI (z mod Zpos q)%ZZ (Zpos q)).
  by rewrite mi_from_bigint_ok.
move: Ea' Eb'; rewrite !fb !Z.mod_small; [|exact: rvP|split=> //].
move=> [Ea'] [Eb']; rewrite -Ea' -Eb' Em fb in E3; case: E3 => E3.
by rewrite /rp E3 (zp_mod (m := Zpos q) isT qE n1) // zp_mul.
Qed.
Lemma unit_div_single f (c : cf (mc q)) : wf f -> S_Poly.vc gS c \is a GRing.unit ->
  exists r, [/\ div_single (mx q) f c = Ret r, wf r & pv r = (S_Poly.vc gS c)^-1 *: pv f].
Proof.
move=> wf u.
suff [rs E V] : exists2 rs, map_res (fun x => ex_div (mx q) x c) (coefficients f) = Ret rs &
    map (S_Poly.vc gS) rs = [seq S_Poly.vc gS x / S_Poly.vc gS c | x <- coefficients f].
  exists (from_coefs rs); have [w e] := from_coefs_spec gS rs; rewrite /div_single E; split=> //.
  rewrite e V /pval; move: (coefficients f) => l; apply/polyP => i; rewrite coefZ !coef_Poly.
  have [h|h] := ltnP i (size l).
    by rewrite !(nth_map (c_zero (mc q))) // mulrC.
  by rewrite !nth_default ?size_map // mulr0.
elim: (coefficients f) => [|x l [rs IH V]]; first by exists [::].
have [y E Ey] := unit_div x u; exists (y :: rs); last by rewrite !map_cons V Ey.
by move: E IH => /= -> ->.
Qed.
(** Euclidean division by a polynomial with a unit leading coefficient. *)
Lemma unit_div_rem f g : wf f -> wf g -> lead_coef (pv g) \is a GRing.unit ->
  exists a b, [/\ div_rem (mx q) f g = Ret (a, b), wf a, wf b, pv f = pv a * pv g + pv b
    & (size (pv b) < size (pv g))%N].
Proof.
move=> wf wg u.
have [_ /(_ (unit_lead_neq0 u)) [r [Er [W1 W2] Ed Ef L]]] := pseudo_spec wf wg.
have uf : S_Poly.vc gS (pd_fac r) \is a GRing.unit by rewrite Ef unitrX.
have [a [Ea wa va]] := unit_div_single W1 uf.
have [b [Eb wb vb]] := unit_div_single W2 uf.
exists a, b; rewrite /div_rem /pseudo_div_rem Er /= Ea /= Eb /=; split=> //.
  rewrite va vb -scalerAl -scalerDr [pv (pd_quo r) * _]mulrC -Ed scalerA mulVr // scale1r //.
by rewrite vb; apply: leq_ltn_trans (size_scale_leq _ _) L.
Qed.
End Gen.

Lemma small_red0 (N : nat) (z : int) : (1 < N)%N -> 0 <= z < N%:Z -> ((z%:~R : 'Z_N) == 0) = (z == 0).
Proof.
move=> N1 /andP[z0 zN]; rewrite intr0_dvd //; apply/idP/eqP => [/dvdzP [k E]|->]; last exact: dvdz0.
case: (ltrgtP k 0) => k0; last by rewrite E k0 mul0r.
  have : (k * N%:Z < 0)%R by rewrite nmulr_rlt0 // ltz_nat; exact: ltnW.
  by rewrite -E ltNge z0.
move: zN; rewrite E ltNge => /negP []; rewrite ler_pemull // ?lez_nat ?leq0n //.
Qed.
Lemma red_small_lead (N : nat) (A : {poly int}) : (1 < N)%N -> (forall i, 0 <= A`_i < N%:Z) ->
  size (red N A) = size A /\ lead_coef (red N A) = (lead_coef A)%:~R.
Proof.
move=> N1 sm; have [->|A0] := eqVneq A 0; first by rewrite /red rmorph0 !size_poly0 !lead_coef0.
have h : (lead_coef A)%:~R != 0 :> 'Z_N by rewrite small_red0 ?lead_coef_eq0 //; exact: sm.
by rewrite /red size_map_poly_id0 // lead_coef_map_id0.
Qed.
Lemma unit_square (n : nat) (z : int) : (1 < n)%N -> 0 <= z ->
  (z%:~R : 'Z_n) \is a GRing.unit -> (z%:~R : 'Z_(n * n)) \is a GRing.unit.
Proof.
move=> n1; case: z => // k _; rewrite -!pmulrn !unitZpE //.
  by rewrite coprimeMl => ->.
by rewrite (ltn_trans n1) // -{1}[n]muln1 ltn_mul2l n1 ltnW.
Qed.

Section Lift.
Variables (p q : positive) (n : nat).
Hypotheses (pE : Zpos p = Z.of_nat n) (n1 : (1 < n)%N) (qE : Zpos q = Z.of_nat (n * n)) (nn1 : (1 < n * n)%N).
Notation nn := (n * n)%N.
Notation pS := (gS pE n1).
Notation qS := (gS qE nn1).
Let e : 'Z_nn := n%:R.
Lemma lift_ee : e * e = 0.
Proof. by rewrite -natrM char_Zp. Qed.
Lemma lift_I A B : red n A = red n B -> inI e (red nn A - red nn B).
Proof.
move=> /(red_eqmod n1) [H ->]; exists (red nn H).
by rewrite redD addrAC subrr add0r redZ -pmulrn.
Qed.
Lemma I_lift A B : inI e (red nn A - red nn B) -> red n A = red n B.
Proof.
move=> [C' E]; have [C EC] := red_surj C'.
have /(red0_dvd nn1) [H EH] : red nn (A - B - n%:Z *: C) = 0.
  by rewrite !redB E redZ EC -pmulrn subrr.
apply/(red_eqmod n1); exists (C + n%:Z *: H).
rewrite scalerDr scalerA.
by move: EH => /eqP; rewrite subr_eq subr_eq => /eqP ->; rewrite -PoszM [RHS]addrC [n%:Z *: C + _]addrC.
Qed.
Lemma set_up (f : mpoly p) : wf qS (set_modulus q f) /\ pval qS (set_modulus q f) = red nn (il f).
Proof. exact: to_mod_spec. Qed.
Lemma set_down (f : mpoly q) : wf pS (set_modulus p f) /\ pval pS (set_modulus p f) = red n (il f).
Proof. exact: to_mod_spec. Qed.
Lemma lead_up (f : mpoly p) : lead_coef (pval pS f) \is a GRing.unit ->
  lead_coef (red nn (il f)) \is a GRing.unit /\ size (red nn (il f)) = size (pval pS f).
Proof.
have sm := il_small pE n1 f.
have sm2 i : 0 <= (il f)`_i < nn%:Z.
  have /andP[-> h] := sm i; apply: lt_le_trans h _; rewrite lez_nat -{1}[n]muln1 leq_mul2l ltnW ?orbT //.
rewrite pv_il; have [-> ->] := red_small_lead n1 sm; have [-> ->] := red_small_lead nn1 sm2.
by move=> u; split=> //; apply: unit_square => //; have /andP[] := sm (size (il f)).-1.
Qed.
End Lift.
