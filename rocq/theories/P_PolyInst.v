(** The coefficient types read in rings: integers in [int], rationals in
    [rat], residues modulo n in ['Z_n] (['F_p] for a prime), normal-form
    polynomials in [{poly R}]. *)
From Coq Require Import ZArith QArith Qcanon Lia.
Set Warnings "-notation-overridden,-ambiguous-paths".
From mathcomp Require Import all_ssreflect all_algebra.
From mathcomp.zify Require Import ssrZ.
From Verif Require Import M_Base M_Traits M_ModInt S_ModInt P_Traits P_ModInt M_Poly M_PolyCoef S_Poly P_Poly P_PolyDiv.
Set Implicit Arguments.
Unset Strict Implicit.
Unset Printing Implicit Defensive.
Import GRing.Theory.
Local Open Scope ring_scope.
Delimit Scope Z_scope with ZZ.

Notation zi := int_of_Z.

Lemma zi_inj : injective zi.  Proof. exact: can_inj int_of_ZK. Qed.
Lemma zi_add a b : zi (Z.add a b) = zi a + zi b.  Proof. exact: (rmorphD [rmorphism of zi]). Qed.
Lemma zi_sub a b : zi (Z.sub a b) = zi a - zi b.  Proof. exact: (rmorphB [rmorphism of zi]). Qed.
Lemma zi_mul a b : zi (Z.mul a b) = zi a * zi b.  Proof. exact: (rmorphM [rmorphism of zi]). Qed.
Lemma zi_opp a : zi (Z.opp a) = - zi a.  Proof. exact: (rmorphN [rmorphism of zi]). Qed.
Lemma zi0 : zi 0%ZZ = 0.  Proof. by []. Qed.
Lemma zi1 : zi 1%ZZ = 1.  Proof. by []. Qed.
Lemma zi_nat n : zi (Z.of_nat n) = n%:R.
Proof. by case: n => //= n; rewrite SuccNat2Pos.id_succ natz. Qed.
Lemma zi_eq0 z : (zi z == 0) = Z.eqb 0 z.
Proof. by apply/eqP/Z.eqb_spec => [H|<-//]; apply: zi_inj; rewrite H. Qed.
Lemma zi_eq1 z : (zi z == 1) = Z.eqb 1 z.
Proof. by apply/eqP/Z.eqb_spec => [H|<-//]; apply: zi_inj; rewrite H. Qed.

Lemma map_div1 (A : Type) (R : comUnitRingType) (f : A -> R) l : [seq f e / 1 | e <- l] = map f l.
Proof. by apply: eq_map => x; rewrite divr1. Qed.

(** * Integers *)
Definition int_sem : coef_sem int_coef [comUnitRingType of int].
Proof.
refine (@CoefSem int_coef [comUnitRingType of int] zi (fun _ => 1) zi (fun _ _ => true)
  _ _ _ _ _ _ _ _ _ _ _ _ _ _ _ _ _ _ _ _ _ _ _ _ _ _ _ _ _ _ _ _ _ _ _ _ _ _ _) => /=.
all: try by move=> *; rewrite ?mulr1 ?divr1 ?unitr1 ?eqxx //.
- exact: zi_inj.
- exact: zi_inj.
- by move=> r; exists (Z_of_int r); rewrite Z_of_intK.
- exact: zi_add.
- exact: zi_sub.
- exact: zi_mul.
- exact: zi_opp.
- by move=> x n; rewrite zi_mul zi_nat mulr_natr.
- by move=> x; rewrite zi_eq0.
- by move=> x; rewrite zi_eq1.
- exact: zi_add.
- exact: zi_mul.
- exact: zi_opp.
- by move=> x; rewrite zi_eq0.
- move=> x n _; eexists; first reflexivity.
  by have [_ ->] := @pow_usize_spec Z _ zi (fun _ => True) Z.mul (fun a b _ _ => conj I (zi_mul a b)) 1%ZZ x n I zi1 I.
- by move=> cs; rewrite map_div1.
- by move=> es [] es' [] _ _; rewrite !map_div1 => /(inj_map zi_inj) ->.
Defined.

Lemma int_exact_sem : @exact_sem int_coef [idomainType of int] int_sem int_exact.
Proof.
have ok a b q : zi b != 0 -> zi a = zi q * zi b -> b <> 0%ZZ /\ a = Z.mul q b.
  move=> /eqP Nb E; split; first by move=> E0; apply: Nb; rewrite E0.
  by apply: zi_inj; rewrite zi_mul.
have bad a b : (zi b = 0 \/ forall q, zi a != zi q * zi b) ->
    forall q, ~ (b <> 0%ZZ /\ a = Z.mul q b).
  move=> H q [Nb E]; case: H => [/eqP|H]; first by rewrite zi_eq0 => /Z.eqb_spec /esym.
  by case/eqP: (H q); rewrite E zi_mul.
split=> a b => [q Nb E|H|q Nb E|H] /=.
- have [N E'] := ok a b q Nb E; have := bigint_exact_div_spec a b.
  case: (bigint_exact_div a b) => [r| |]; [|by case=> // H; case: H; exists q|by []].
  by case=> _ H; congr Ret; apply: (Z.mul_reg_r _ _ b) => //; rewrite -H.
- have := bigint_exact_div_spec a b; case: (bigint_exact_div a b) => [r| |//] //.
  by move/(bad a b H r).
- have [N E'] := ok a b q Nb E; congr Ret; exact/bigint_checked_exact_div_spec.
- case E : (bigint_checked_exact_div a b) => [r|] //.
  by case/bigint_checked_exact_div_spec: E => N E; case: (bad a b H r).
Qed.

(** * Rationals *)
Definition zr (z : Z) : rat := (zi z)%:~R.
Lemma zr_inj : injective zr.  Proof. by move=> a b /intr_inj /zi_inj. Qed.
Lemma zr_add a b : zr (Z.add a b) = zr a + zr b.  Proof. by rewrite /zr zi_add rmorphD. Qed.
Lemma zr_sub a b : zr (Z.sub a b) = zr a - zr b.  Proof. by rewrite /zr zi_sub rmorphB. Qed.
Lemma zr_mul a b : zr (Z.mul a b) = zr a * zr b.  Proof. by rewrite /zr zi_mul rmorphM. Qed.
Lemma zr_opp a : zr (Z.opp a) = - zr a.  Proof. by rewrite /zr zi_opp rmorphN. Qed.
Lemma zr_eq0 z : (zr z == 0) = Z.eqb 0 z.  Proof. by rewrite /zr intr_eq0 zi_eq0. Qed.
Lemma zr_eq1 z : (zr z == 1) = Z.eqb 1 z.
Proof. by rewrite -zi_eq1 /zr -[1]/(1%:~R) eqr_int. Qed.
Lemma zr_pos d : zr (Z.pos d) != 0.  Proof. by rewrite zr_eq0. Qed.
Lemma zr_ne0 z : z <> 0%ZZ -> zr z != 0.
Proof. by move=> H; rewrite zr_eq0; apply/negP => /Z.eqb_spec /esym. Qed.

Definition q2r (q : Q) : rat := zr (Qnum q) / zr (Z.pos (Qden q)).

Lemma q2r_eq (a b : Q) : Qeq a b <-> q2r a = q2r b.
Proof.
rewrite /q2r /Qeq; split=> H.
  by apply/eqP; rewrite eqr_div ?zr_pos // -!zr_mul H.
by move/eqP: H; rewrite eqr_div ?zr_pos // -!zr_mul => /eqP /zr_inj.
Qed.
Lemma q2r_red q : q2r (Qred q) = q2r q.
Proof. by apply/q2r_eq; exact: Qred_correct. Qed.
Lemma q2r_Q2Qc q : q2r (Q2Qc q) = q2r q.
Proof. exact: q2r_red. Qed.
Lemma q2r_add a b : q2r (Qplus a b) = q2r a + q2r b.
Proof. by rewrite /q2r /= Pos2Z.inj_mul zr_add !zr_mul addf_div ?zr_pos. Qed.
Lemma q2r_mul a b : q2r (Qmult a b) = q2r a * q2r b.
Proof. by rewrite /q2r /= Pos2Z.inj_mul !zr_mul mulf_div. Qed.
Lemma q2r_opp a : q2r (Qopp a) = - q2r a.
Proof. by rewrite /q2r /= zr_opp mulNr. Qed.
Lemma q2r_inj (a b : Qc) : q2r a = q2r b -> a = b.
Proof. by move/q2r_eq; exact: Qc_is_canon. Qed.
Lemma q2r_0 (q : Q) : (q2r q == 0) = Z.eqb (Qnum q) 0.
Proof.
by rewrite /q2r mulf_eq0 invr_eq0 (negbTE (zr_pos _)) orbF zr_eq0 Z.eqb_sym.
Qed.

Lemma q2r_surj (r : rat) : exists c : Qc, q2r c = r.
Proof.
exists (Q2Qc (Qmake (Z_of_int (numq r)) (Z.to_pos (Z_of_int (denq r))))).
rewrite q2r_Q2Qc /q2r /= Z2Pos.id.
  by rewrite /zr !Z_of_intK divq_num_den.
have : (0 < denq r) by exact: denq_gt0.
by case: (denq r) => [[|n]|n].
Qed.

(** gcd and lcm folds *)
Notation gcdl := (foldl Z.gcd).
Lemma gcdl_dvd a l : Z.divide (gcdl a l) a /\ forall x, List.In x l -> Z.divide (gcdl a l) x.
Proof.
elim: l a => [|y l IH] a /=; first by split=> //; exact: Z.divide_refl.
have [H1 H2] := IH (Z.gcd a y); split.
  exact: Z.divide_trans H1 (Z.gcd_divide_l _ _).
move=> x [<-|/H2 //]; exact: Z.divide_trans H1 (Z.gcd_divide_r _ _).
Qed.
Lemma gcdl_great a l k : Z.divide k a -> (forall x, List.In x l -> Z.divide k x) ->
  Z.divide k (gcdl a l).
Proof.
elim: l a => [|y l IH] a //= H1 H2; apply: IH.
  by apply: Z.gcd_greatest => //; apply: H2; left.
by move=> x Hx; apply: H2; right.
Qed.
Lemma gcdl_mul_dvd a l k x : Z.divide k (a * x) ->
  (forall y, List.In y l -> Z.divide k (y * x)) -> Z.divide k (gcdl a l * x).
Proof.
elim: l a => [|y l IH] a //= H1 H2; apply: IH; last by move=> z Hz; apply: H2; right.
have H3 : Z.divide k (y * x) by apply: H2; left.
have [u [v E]] := Z.gcd_bezout a y _ erefl.
rewrite -E Z.mul_add_distr_r -!Z.mul_assoc; apply: Z.divide_add_r; exact: Z.divide_mul_r.
Qed.
Lemma gcdl_nonneg a l : (0 <= a)%ZZ -> (0 <= gcdl a l)%ZZ.
Proof. by elim: l a => [|y l IH] a //= _; apply: IH; exact: Z.gcd_nonneg. Qed.
Lemma dvd_eq a b : (0 <= a)%ZZ -> (0 <= b)%ZZ -> Z.divide a b -> Z.divide b a -> a = b.
Proof. by move=> Ha Hb; exact: Z.divide_antisym_nonneg. Qed.

Definition rred (es : seq Z) (d : positive) : bool := Z.eqb (gcdl (Z.pos d) es) 1.
Lemma rredP es d : reflect
  (forall k, Z.divide k (Z.pos d) -> (forall x, List.In x es -> Z.divide k x) -> Z.divide k 1)
  (rred es d).
Proof.
apply: (iffP idP) => [/Z.eqb_spec <- k|H]; first exact: gcdl_great.
apply/Z.eqb_spec; apply: dvd_eq => //.
- by apply: gcdl_nonneg; lia.
- have [H1 H2] := gcdl_dvd (Z.pos d) es; exact: H.
- exact: Z.divide_1_l.
Qed.

Lemma rred_uniq es d es' d' : rred es d -> rred es' d' ->
  [seq zr e / zr (Z.pos d) | e <- es] = [seq zr e / zr (Z.pos d') | e <- es'] ->
  es = es' /\ d = d'.
Proof.
have step es1 d1 es2 d2 : rred es1 d1 ->
  [seq zr e / zr (Z.pos d1) | e <- es1] = [seq zr e / zr (Z.pos d2) | e <- es2] ->
  Z.divide (Z.pos d1) (Z.pos d2).
  move=> /Z.eqb_spec R E; rewrite -[Z.pos d2]Z.mul_1_l -R; apply: gcdl_mul_dvd.
    exact: Z.divide_factor_l.
  move=> y; elim: es1 es2 E {R} => [|x es1 IH] [|z es2] //= [Ex Es] [Ey|/(IH _ Es) //].
  exists z; rewrite -Ey; apply: zr_inj; rewrite !zr_mul.
  by move/eqP: Ex; rewrite eqr_div ?zr_pos // => /eqP ->.
move=> R R' E.
have D : d = d'.
  have : Z.pos d = Z.pos d' by apply: dvd_eq; [lia|lia|exact: step E|exact: step (esym E)].
  by case.
split=> //; rewrite -D in E; elim: es es' E {R R'} => [|x es IH] [|y es'] //= [Ex /IH ->].
by move/(mulIf (invr_neq0 (zr_pos d))): Ex => /zr_inj ->.
Qed.

Lemma lcml_spec (f : Qc -> positive) a l : let d := foldl (fun d v => pos_lcm d (f v)) a l in
  Z.divide (Z.pos a) (Z.pos d) /\ (forall v, List.In v l -> Z.divide (Z.pos (f v)) (Z.pos d)) /\
  forall s, Z.divide (Z.pos a) s -> (forall v, List.In v l -> Z.divide (Z.pos (f v)) s) ->
    Z.divide (Z.pos d) s.
Proof.
have P x y : Z.pos (pos_lcm x y) = Z.lcm (Z.pos x) (Z.pos y).
  rewrite /pos_lcm Z2Pos.id //.
  have := Z.lcm_nonneg (Z.pos x) (Z.pos y).
  have : Z.lcm (Z.pos x) (Z.pos y) <> 0%ZZ by move=> /Z.lcm_eq_0 [].
  lia.
elim: l a => [|v l IH] a /=; first by split; [exact: Z.divide_refl|split].
have [H1 [H2 H3]] := IH (pos_lcm a (f v)); rewrite P in H1.
split; first by apply: Z.divide_trans H1; exact: Z.divide_lcm_l.
split.
  by move=> x [<-|/H2 //]; apply: Z.divide_trans H1; exact: Z.divide_lcm_r.
move=> s Ha Hl; apply: H3; last by move=> x Hx; apply: Hl; right.
by rewrite P; apply: Z.lcm_least => //; apply: Hl; left.
Qed.

Lemma qc_coprime (c : Qc) : Z.gcd (Qnum c) (Z.pos (Qden c)) = 1%ZZ.
Proof. by apply: Qred_identity2; exact: canon. Qed.

Lemma rred1 (c : Qc) : rred [:: Qnum c] (Qden c).
Proof.
apply/Z.eqb_spec; change (Z.gcd (Z.pos (Qden c)) (Qnum c) = 1%ZZ).
by rewrite Z.gcd_comm; exact: qc_coprime.
Qed.

Lemma to_elts_val cs :
  [seq zr e / zr (Z.pos (ratio_coefs_to_elts cs).2) | e <- (ratio_coefs_to_elts cs).1]
   = map (fun c : Qc => q2r c) cs.
Proof.
case: cs => [//|c [//|c2 cs]] /=.
set d := foldl _ _ _; have [H1 [H2 _]] := lcml_spec (fun c => Qden c) (Qden c) (c2 :: cs).
rewrite /= -/d in H1 H2.
have E (v : Qc) : Z.divide (Z.pos (Qden v)) (Z.pos d) ->
   zr (Qnum v * Z.quot (Z.pos d) (Z.pos (Qden v))) / zr (Z.pos d) = q2r v.
  case=> k Ek; rewrite Ek Z.quot_mul // /q2r !zr_mul.
  have Nk : zr k != 0 by apply: zr_ne0 => K0; rewrite K0 in Ek.
  by rewrite (mulrC (zr k)) -mulf_div divff // mulr1.
rewrite !E; [|by apply: H2; left|exact: H1].
congr [:: _, _ & _]; rewrite -!map_comp.
have : forall v, List.In v cs -> Z.divide (Z.pos (Qden v)) (Z.pos d).
  by move=> v Hv; apply: H2; right.
move: (cs) => l; elim: l => [//|v l IH] H /=.
by rewrite E ?IH //; [move=> x Hx; apply: H; right|apply: H; left].
Qed.

Lemma to_elts_red cs : rred (ratio_coefs_to_elts cs).1 (ratio_coefs_to_elts cs).2.
Proof.
case: cs => [//|c [|c2 cs]]; first exact: rred1.
have -> : ratio_coefs_to_elts [:: c, c2 & cs] =
  (let d := foldl (fun d (v : Qc) => pos_lcm d (Qden v)) (Qden c) (c2 :: cs) in
   ([seq Z.mul (Qnum (this v)) (Z.quot (Zpos d) (Zpos (Qden v))) | v <- c :: c2 :: cs], d)) by [].
move: (c2 :: cs) => {c2 cs} l; set d := foldl _ _ _.
have [H1 [H2 H3]] := lcml_spec (fun c => Qden c) (Qden c) l; rewrite -/d in H1 H2 H3.
apply/rredP => g [s Es] Hg; rewrite /= in Es Hg.
have Ng : g <> 0%ZZ by move=> G0; rewrite G0 Z.mul_0_r in Es.
have Q (v : Qc) : List.In v (c :: l) -> Z.divide (Z.pos (Qden v)) s.
  move=> Hv.
  have [k Ek] : Z.divide (Z.pos (Qden v)) (Z.pos d) by case: Hv => [<-|/H2].
  have [t Et] : Z.divide g (Qnum v * Z.quot (Z.pos d) (Z.pos (Qden v))).
    apply: Hg; exact: (List.in_map (fun v : Qc => Z.mul (Qnum (this v)) (Z.quot (Zpos d) (Zpos (Qden v)))) _ _ Hv).
  rewrite Ek Z.quot_mul // in Et.
  apply: (Z.gauss _ (Qnum v)); last by rewrite Z.gcd_comm qc_coprime.
  exists t; apply: (Z.mul_reg_r _ _ g) => //.
  by rewrite -Z.mul_assoc -Es Ek Z.mul_assoc [Z.mul t _]Z.mul_comm Et; ring.
have [u Eu] : Z.divide (Z.pos d) s.
  by apply: H3 => [|v Hv]; apply: Q; [left|right].
exists u; apply: (Z.mul_reg_r _ _ (Z.pos d)) => //.
by rewrite {1}Es Eu; ring.
Qed.

Lemma ratio_red_spec es d :
  [seq zr e / zr (Z.pos (ratio_reduce_divisor es d).2) | e <- (ratio_reduce_divisor es d).1]
    = [seq zr e / zr (Z.pos d) | e <- es] /\
  rred (ratio_reduce_divisor es d).1 (ratio_reduce_divisor es d).2.
Proof.
rewrite /ratio_reduce_divisor; case: es => [//|e es].
have -> : gcdl (Z.gcd e (Z.pos d)) es = gcdl (Z.pos d) (e :: es) by rewrite /= Z.gcd_comm.
set g := gcdl _ _; case: Z.eqb_spec => [Eg|Ng]; first by split=> //; rewrite /rred -/g Eg.
have [H1 H2] := gcdl_dvd (Z.pos d) (e :: es); rewrite -/g in H1 H2.
have Gp : (0 < g)%ZZ.
  have : (0 <= g)%ZZ by apply: gcdl_nonneg; lia.
  by case: H1 => k; case: (g) => //; rewrite Z.mul_0_r.
case: (H1) => k Ek; have Kp : (0 < k)%ZZ by nia.
have Ed : Z.pos (Z.to_pos (Z.quot (Z.pos d) g)) = k.
  by rewrite Ek Z.quot_mul ?Z2Pos.id //; lia.
have Ng0 : zr g != 0 by apply: zr_ne0; lia.
have V x : List.In x (e :: es) -> (Z.quot x g * g)%ZZ = x.
  by move=> /H2 [t ->]; rewrite Z.quot_mul //; lia.
split.
  change ([seq zr x / zr (Z.pos (Z.to_pos (Z.quot (Z.pos d) g))) | x <- [seq Z.quot x g | x <- e :: es]]
     = [seq zr x / zr (Z.pos d) | x <- e :: es]).
  rewrite Ed Ek -map_comp.
  move: V {H2}; clearbody g; move: (e :: es) => l; elim: l => [//|x l IH] V /=.
  congr (_ :: _); last by apply: IH => y Hy; apply: V; right.
  rewrite -[in RHS](V x); last by left.
  by rewrite !zr_mul -mulf_div divff // mulr1.
change (rred [seq Z.quot x g | x <- e :: es] (Z.to_pos (Z.quot (Z.pos d) g))).
apply/rredP => j; rewrite Ed => Hj1 Hj2.
have : Z.divide (j * g) g.
  rewrite {2}/g; apply: gcdl_great; first by rewrite Ek; exact: Z.mul_divide_mono_r.
  move=> x Hx; rewrite -(V x Hx); apply: Z.mul_divide_mono_r; apply: Hj2.
  exact: (List.in_map (fun x => Z.quot x g) _ _ Hx).
case=> t Et; exists t; apply: (Z.mul_reg_r _ _ g); first lia.
by rewrite -Z.mul_assoc -Et; ring.
Qed.

Lemma ratio_pow (c : Qc) n : q2r (pow_usize 1%Qc Qcmult c n) = q2r c ^+ n.
Proof.
have M (a b : Qc) : True -> True -> True /\ q2r (Qcmult a b) = q2r a * q2r b.
  by move=> _ _; split=> //; rewrite q2r_Q2Qc q2r_mul.
by have [_ ->] := @pow_usize_spec Qc _ (fun c : Qc => q2r c) (fun _ => True) Qcmult M 1%Qc c n I (divr1 _) I.
Qed.

Lemma pos_gcdE a b : Z.pos (pos_gcd a b) = Z.gcd (Z.pos a) (Z.pos b).
Proof. by rewrite /pos_gcd Z2Pos.id. Qed.
Lemma pos_lcmE a b : Z.pos (pos_lcm a b) = Z.lcm (Z.pos a) (Z.pos b).
Proof.
rewrite /pos_lcm Z2Pos.id //; have := Z.lcm_nonneg (Z.pos a) (Z.pos b).
have : Z.lcm (Z.pos a) (Z.pos b) <> 0%ZZ by move/Z.lcm_eq_0 => [].
lia.
Qed.
Lemma pos_quotE a b : Z.divide (Z.pos b) (Z.pos a) -> zr (Z.pos (pos_quot a b)) * zr (Z.pos b) = zr (Z.pos a).
Proof.
case=> k Ek; rewrite -zr_mul /pos_quot Ek Z.quot_mul // Z2Pos.id //; lia.
Qed.

Definition ratio_sem : coef_sem ratio_coef [comUnitRingType of rat].
Proof.
refine (@CoefSem ratio_coef [comUnitRingType of rat] zr (fun d => zr (Z.pos d)) (fun c : Qc => q2r c) rred
  _ _ _ _ _ _ _ _ _ _ _ _ _ _ _ _ _ _ _ _ _ _ _ _ _ _ _ _ _ _ _ _ _ _ _ _ _ _ _).
- exact: zr_inj.
- exact: q2r_inj.
- exact: q2r_surj.
- by [].
- by [].
- exact: zr_add.
- exact: zr_sub.
- exact: zr_mul.
- exact: zr_opp.
- by move=> x n; rewrite [LHS]zr_mul -mulr_natr /zr zi_nat rmorph_nat.
- by move=> x; rewrite zr_eq0.
- by move=> x; rewrite zr_eq1.
- by move=> d; rewrite unitfE zr_pos.
- by [].
- by move=> d; rewrite zr_eq1.
- by move=> a b; rewrite Pos2Z.inj_mul zr_mul.
- by move=> a b; apply: pos_quotE; rewrite pos_gcdE; exact: Z.gcd_divide_l.
- by move=> a b; apply: pos_quotE; rewrite pos_gcdE; exact: Z.gcd_divide_r.
- move=> a b; rewrite -!zr_mul pos_gcdE pos_lcmE; congr zr.
  have := Z.gcd_divide_l (Z.pos a) (Z.pos b); set g := Z.gcd _ _ => -[k Ek].
  have Ng : g <> 0%ZZ by move=> G0; rewrite G0 Z.mul_0_r in Ek.
  have := Z.gcd_divide_r (Z.pos a) (Z.pos b); rewrite -/g => -[j Ej].
  have Gp : (0 < g)%ZZ by have := Z.gcd_nonneg (Z.pos a) (Z.pos b); rewrite -/g; lia.
  rewrite /Z.lcm -/g Ej Z.div_mul // Z.abs_eq; first by ring.
  by apply: Z.mul_nonneg_nonneg; nia.
- by [].
- by [].
- by [].
- by move=> x y; exact: etrans (q2r_Q2Qc _) (q2r_add _ _).
- by move=> x y; exact: etrans (q2r_Q2Qc _) (q2r_mul _ _).
- by move=> x; exact: etrans (q2r_Q2Qc _) (q2r_opp _).
- by move=> x; rewrite q2r_0.
- by move=> x n _; eexists; [reflexivity|exact: ratio_pow].
- by move=> e d; exact: q2r_Q2Qc.
- by [].
- exact: rred1.
- exact: to_elts_val.
- exact: to_elts_red.
- by move=> es d; case: (ratio_red_spec es d).
- by move=> es d; case: (ratio_red_spec es d).
- move=> es d; rewrite /rred; suff -> : gcdl (Z.pos d) (map Z.opp es) = gcdl (Z.pos d) es by [].
  by elim: es (Z.pos d) => [//|x es IH] a /=; rewrite Z.gcd_opp_r IH.
- move=> es d H n; rewrite /rred foldl_cat; suff -> : gcdl (Z.pos d) (nseq n 0%ZZ) = Z.pos d by [].
  by elim: n => [//|n /= IH].
- by [].
- by [].
- exact: rred_uniq.
Defined.

Lemma q2r_div (a b : Qc) : q2r (Qcdiv a b) = q2r a / q2r b.
Proof.
have I : q2r (Qcinv b) = (q2r b)^-1.
  rewrite [LHS]q2r_Q2Qc /q2r /Qinv.
  case: (Qnum b) => [|p|p] /=; rewrite ?mul0r ?invr0 //.
    by rewrite invf_div.
  by rewrite -(Pos2Z.opp_pos p) -(Pos2Z.opp_pos (Qden b)) !zr_opp invf_div invrN mulrN mulNr.
by rewrite [LHS]q2r_Q2Qc q2r_mul I.
Qed.

Lemma ratio_exact_sem : @exact_sem ratio_coef [idomainType of rat] ratio_sem ratio_exact.
Proof.
have Z (b : Qc) : Z.eqb (Qnum b) 0 = (q2r b == 0) by rewrite q2r_0.
have ok (a b q : Qc) : q2r b != 0 -> q2r a = q2r q * q2r b -> Qcdiv a b = q.
  by move=> Nb E; apply: q2r_inj; rewrite q2r_div E mulfK.
have bad (a b : Qc) : (q2r b = 0 \/ forall q : Qc, q2r a != q2r q * q2r b) -> q2r b == 0.
  case=> [->//|H]; apply/negPn/negP => Nb; case/eqP: (H (Qcdiv a b)).
  by rewrite q2r_div divfK.
split=> a b => [q Nb E|H|q Nb E|H] /=; rewrite Z.
- by rewrite (negbTE Nb) (ok a b q).
- by rewrite (bad a b H).
- by rewrite (negbTE Nb) (ok a b q).
- by rewrite (bad a b H).
Qed.

(** * Residues *)
Section Mod.
Variables (m : Z) (n : nat).
Hypotheses (m_pos : (0 <? m)%ZZ) (mE : m = Z.of_nat n) (n_gt1 : (1 < n)%N).
Notation R := [comUnitRingType of 'Z_n].
Definition zp (z : Z) : 'Z_n := (zi z)%:~R.

Lemma zp_add a b : zp (Z.add a b) = zp a + zp b.  Proof. by rewrite /zp zi_add rmorphD. Qed.
Lemma zp_sub a b : zp (Z.sub a b) = zp a - zp b.  Proof. by rewrite /zp zi_sub rmorphB. Qed.
Lemma zp_mul a b : zp (Z.mul a b) = zp a * zp b.  Proof. by rewrite /zp zi_mul rmorphM. Qed.
Lemma zp_opp a : zp (Z.opp a) = - zp a.  Proof. by rewrite /zp zi_opp rmorphN. Qed.
Lemma zp_nat k : zp (Z.of_nat k) = k%:R.  Proof. by rewrite /zp zi_nat rmorph_nat. Qed.
Lemma zp_m : zp m = 0.
Proof. by rewrite mE zp_nat char_Zp. Qed.
Lemma zp_mod z : zp (z mod m)%ZZ = zp z.
Proof.
have Nm : m <> 0%ZZ by move/Z.ltb_lt: m_pos; lia.
by rewrite {2}(Z.div_mod z m Nm) zp_add zp_mul zp_m mul0r add0r.
Qed.
Lemma zp_inj a b : (0 <= a < m)%ZZ -> (0 <= b < m)%ZZ -> zp a = zp b -> a = b.
Proof.
case=> [/Z_of_nat_complete [i ->] Hi] [/Z_of_nat_complete [j ->] Hj]; rewrite !zp_nat.
move=> /(congr1 (@nat_of_ord _)); rewrite !val_Zp_nat // !modn_small => [->//| |]; lia.
Qed.
Lemma zp_surj r : exists2 a, (0 <= a < m)%ZZ & zp a = r.
Proof.
exists (Z.of_nat r); last by rewrite zp_nat natr_Zp.
have := ltn_ord r; rewrite {2}Zp_cast // mE; lia.
Qed.

Notation res := (residue m).
Notation mk := (mk_residue m_pos).
Lemma rvP (x : res) : (0 <= rv x < m)%ZZ.
Proof. by case: x => z /= /andP [/Z.leb_le ? /Z.ltb_lt ?]. Qed.
Lemma res_inj (x y : res) : rv x = rv y -> x = y.
Proof.
case: x y => [x Hx] [y Hy] /= E; rewrite -E in Hy *.
by congr exist; exact: bool_irrelevance.
Qed.
Definition rp (x : res) : 'Z_n := zp (rv x).
Lemma rp_mk z : rp (mk z) = zp z.  Proof. exact: zp_mod. Qed.
Lemma rp_inj : injective rp.
Proof. by move=> x y E; apply: res_inj; apply: zp_inj => //; exact: rvP. Qed.
Lemma rp_mk_rv x : mk (rv x) = x.
Proof. by apply: rp_inj; rewrite rp_mk. Qed.
Lemma rp0 x : (rp x == 0) = (rv x =? 0)%ZZ.
Proof.
apply/eqP/Z.eqb_spec => [H|H]; last by rewrite /rp H.
by apply: zp_inj; [exact: rvP|move/Z.ltb_lt: m_pos; lia|].
Qed.
Lemma rp1 x : (rp x == 1) = (rv x =? 1)%ZZ.
Proof.
apply/eqP/Z.eqb_spec => [H|H]; last by rewrite /rp H.
by apply: zp_inj; [exact: rvP|move: n_gt1; rewrite mE; lia|].
Qed.

Lemma mod_pow x k : exists2 r : res,
  rmap (fun r => mk (mi_value r)) (mi_pow IBig (MI (rv x) m) k) = Ret r & rp r = rp x ^+ k.
Proof.
rewrite mi_pow_ok //; last 2 first.
- exact: rvP.
- by move=> _ /=; rewrite mE; lia.
eexists; first reflexivity; rewrite rp_mk /= zp_mod.
by elim: k => [//|k IH]; rewrite Nat2Z.inj_succ Z.pow_succ_r ?zp_mul ?IH ?exprS //; lia.
Qed.

Definition mod_sem : coef_sem (mod_coef m_pos) R.
Proof.
refine (@CoefSem (mod_coef m_pos) R rp (fun _ => 1) rp (fun _ _ => true)
  _ _ _ _ _ _ _ _ _ _ _ _ _ _ _ _ _ _ _ _ _ _ _ _ _ _ _ _ _ _ _ _ _ _ _ _ _ _ _) => /=.
all: try by move=> *; rewrite ?mulr1 ?divr1 ?unitr1 ?eqxx //.
- exact: rp_inj.
- exact: rp_inj.
- by move=> r; case: (zp_surj r) => a Ha Ea; exists (mk a); rewrite rp_mk.
- by rewrite rp_mk.
- by move=> x y; rewrite rp_mk zp_add.
- by move=> x y; rewrite rp_mk zp_sub.
- by move=> x y; rewrite rp_mk zp_mul.
- by move=> x; rewrite rp_mk zp_opp.
- by move=> x k; rewrite rp_mk zp_mul zp_nat mulr_natr.
- by move=> x; rewrite rp0.
- by move=> x; rewrite rp1.
- by move=> _; rewrite rp_mk.
- by rewrite rp_mk.
- by move=> x y; rewrite rp_mk zp_add.
- by move=> x y; rewrite rp_mk zp_mul.
- by move=> x; rewrite rp_mk zp_opp.
- by move=> x; rewrite rp0.
- by move=> x k _; exact: mod_pow.
- by move=> cs; rewrite map_div1.
- by move=> es [] es' [] _ _; rewrite !map_div1 => /(inj_map rp_inj) ->.
Defined.

(** The element operations are those of M_ModInt.v at equal moduli. *)
Lemma mod_coef_agrees t (x y : res) k : fits t m = true ->
  let v (e : elt (mod_coef m_pos)) := Ret (MI (rv e) m) in
  [/\ mi_add t (MI (rv x) m) (MI (rv y) m) = v (@e_add (mod_coef m_pos) x y),
      mi_sub t (MI (rv x) m) (MI (rv y) m) = v (@e_sub (mod_coef m_pos) x y),
      mi_mul t (MI (rv x) m) (MI (rv y) m) = v (@e_mul (mod_coef m_pos) x y),
      mi_neg t (MI (rv x) m) = v (@e_neg (mod_coef m_pos) x)
    & mi_mul_usize t (MI (rv x) m) k = v (@e_mul_usize (mod_coef m_pos) x k)].
Proof.
move=> F v; have P : (0 < m)%ZZ by apply/Z.ltb_lt.
have fb z : mi_from_bigint t z m = Ret (MI (z mod m)%ZZ m).
  by rewrite mi_from_bigint_ok.
have mm (z : res) : MI (rv z) m = MI (rv z mod m)%ZZ m.
  by rewrite Z.mod_small //; exact: rvP.
have [a [b [Ea [Eb [E1 [E2 [E3 [E4 _]]]]]]]] := mi_arith_ok t (rv x) (rv y) m P F.
move: Ea Eb; rewrite !fb -!mm => -[Ea] [Eb]; rewrite -Ea -Eb in E1 E2 E3 E4.
by split; rewrite ?E1 ?E2 ?E3 ?E4 ?fb // mi_mul_usize_ok //; exact: rvP.
Qed.
End Mod.

(** Modulo a prime: a field. *)
Section ModPrime.
Variables (m : Z) (p : nat).
Hypotheses (m_pos : (0 <? m)%ZZ) (mE : m = Z.of_nat p) (p_pr : prime.prime p).
Lemma pdE : m = Z.of_nat (pdiv p).  Proof. by rewrite pdiv_id. Qed.
Lemma pd_gt1 : (1 < pdiv p)%N.  Proof. by rewrite pdiv_id // prime_gt1. Qed.

Definition modp_sem : coef_sem (mod_coef m_pos) [comUnitRingType of 'F_p] :=
  mod_sem m_pos pdE pd_gt1.

Lemma modp_exact_sem :
  @exact_sem (mod_coef m_pos) [idomainType of 'F_p] modp_sem (mod_exact m_pos).
Proof.
have P : (0 < m)%ZZ by apply/Z.ltb_lt.
have M1 : (1 < m)%ZZ by have := prime_gt1 p_pr; rewrite mE; lia.
pose v (x : residue m) : 'F_p := @zp (pdiv p) (rv x).
pose mk := mk_residue m_pos.
have vmk z : v (mk z) = @zp (pdiv p) z by exact: zp_mod pdE pd_gt1 _.
have vinj : injective v by exact: rp_inj pdE pd_gt1.
have main (a b : residue m) :
  (exists q, [/\ v b != 0, v a = v q * v b, ex_div (mod_exact m_pos) a b = Ret q &
     ex_checked (mod_exact m_pos) a b = Ret (Some q)]) \/
  [/\ v b = 0, ex_div (mod_exact m_pos) a b = Panic & ex_checked (mod_exact m_pos) a b = Ret None].
  have := @mi_div_ok IBig (MI (rv a) m) (MI (rv b) m) erefl erefl (rvP a) (rvP b) erefl M1.
  case=> [[[q n] [E1 [E2 [_ [[Cq Cq'] [/= En [Em [k Ek]]]]]]]]|[E1 [E2 [_ Hk]]]]; last first.
    right; rewrite /= E1 E2; split=> //; apply/eqP/negPn/negP => Nb.
    case: (zp_surj pdE pd_gt1 (v b)^-1) => k Hk1 Hk2.
    apply: (Hk k) => /=; apply: (zp_inj pdE pd_gt1) => //.
    - exact: Z.mod_pos_bound.
    by rewrite (zp_mod _ pdE pd_gt1) // zp_mul Hk2 divff.
  left; exists (mk q); rewrite /= E1 E2; split=> //.
  - apply/eqP => Z; have : @zp (pdiv p) (rv b * k mod m)%ZZ = 1 by rewrite Ek.
    rewrite (zp_mod _ pdE pd_gt1) // zp_mul -/(v b) Z mul0r => /esym/eqP.
    by rewrite oner_eq0.
  - rewrite vmk; move: Em; rewrite En => Em.
    have [a' [b' [Ea' [Eb' [_ [_ [E3 _]]]]]]] := mi_arith_ok IBig q (rv b) m P erefl.
    rewrite En in Cq Cq'.
    have fb z : mi_from_bigint IBig z m = Ret (MI (z mod m)%ZZ m).
      by rewrite mi_from_bigint_ok.
    move: Ea' Eb'; rewrite !fb !Z.mod_small; [|exact: rvP|split=> //].
    move=> [Ea'] [Eb']; rewrite -Ea' -Eb' Em fb in E3; case: E3 => E3.
    by rewrite /v E3 (zp_mod _ pdE pd_gt1) // zp_mul.
have ok (a b q : residue m) : v b != 0 -> v a = v q * v b ->
   ex_div (mod_exact m_pos) a b = Ret q /\ ex_checked (mod_exact m_pos) a b = Ret (Some q).
  move=> Nb E; case: (main a b) => [[q' [_ E' -> ->]]|[Zb]]; last by rewrite Zb eqxx in Nb.
  by have -> : q' = q; [apply: vinj; apply: (mulIf Nb); rewrite -E'|].
have bad (a b : residue m) : (v b = 0 \/ forall q, v a != v q * v b) ->
   ex_div (mod_exact m_pos) a b = Panic /\ ex_checked (mod_exact m_pos) a b = Ret None.
  move=> H; case: (main a b) => [[q [Nb E _ _]]|[_ -> ->]] //.
  by case: H => [Zb|H]; [rewrite Zb eqxx in Nb|case/eqP: (H q)].
split=> a b => [q Nb E|H|q Nb E|H].
- by case: (ok a b q Nb E).
- by case: (bad a b H).
- by case: (ok a b q Nb E).
- by case: (bad a b H).
Qed.
End ModPrime.

(** * Polynomials *)
Section Nested.
Variables (K : pcoef) (R : idomainType) (S : coef_sem K R) (X : pexact K).
Hypothesis XS : exact_sem S X.
Variable ok : poly K -> bool.
Hypothesis okN : forall p : poly K, ok (normalize p).
Hypothesis okE : forall p, ok p <-> wf S p.
Notation RP := [comUnitRingType of {poly R}].
Notation mk := (mk_npoly okN).
Notation npoly := (npoly ok).

Definition np (x : npoly) : {poly R} := pval S (nv x).
Lemma np_wf (x : npoly) : wf S (nv x).
Proof. by apply/okE; case: x. Qed.
Lemma np_mk p : np (mk p) = pval S p.  Proof. exact: pval_normalize. Qed.
Lemma np_inj : injective np.
Proof.
case=> [p Hp] [q Hq] E; have Epq : p = q.
  by apply: (wf_inj (S := S)) => //; apply/okE.
by case: _ / Epq Hq {E} => Hq; congr exist; exact: bool_irrelevance.
Qed.

Definition poly_sem : coef_sem (poly_coef okN) RP.
Proof.
refine (@CoefSem (poly_coef okN) RP np (fun _ => 1) np (fun _ _ => true)
  _ _ _ _ _ _ _ _ _ _ _ _ _ _ _ _ _ _ _ _ _ _ _ _ _ _ _ _ _ _ _ _ _ _ _ _ _ _ _) => /=.
all: try by move=> *; rewrite ?mulr1 ?divr1 ?unitr1 ?eqxx //.
- exact: np_inj.
- exact: np_inj.
- by move=> r; case: (pval_surj S r) => p Hp Ep; exists (mk p); rewrite np_mk.
- by rewrite np_mk pval_zero.
- by rewrite np_mk pval_one.
- by move=> x y; rewrite np_mk (add_spec _ (np_wf x)).2.
- by move=> x y; rewrite np_mk (sub_spec _ (np_wf x)).2.
- by move=> x y; rewrite np_mk (mul_spec S _ _).2.
- by move=> x; rewrite np_mk (neg_spec S _).2.
- move=> x k; rewrite np_mk; apply/polyP => i; rewrite coefMn !coef_pval /=.
  rewrite -mulrnAl; congr (_ / _).
  case: (ltnP i (size (els (nv x)))) => H; first by rewrite (nth_map (e_zero K)) // veMn.
  by rewrite !nth_default ?size_map // ve0 mul0rn.
- by move=> x; rewrite (is_zeroP (np_wf x)).
- by move=> x; rewrite (is_oneP (np_wf x)).
- by move=> _; rewrite np_mk pval_one.
- by rewrite np_mk pval_zero.
- by rewrite np_mk pval_one.
- by move=> x y; rewrite np_mk (add_spec _ (np_wf x)).2.
- by move=> x y; rewrite np_mk (mul_spec S _ _).2.
- by move=> x; rewrite np_mk (neg_spec S _).2.
- by move=> x; rewrite (is_zeroP (np_wf x)).
- move=> x k Hk; have [_ H] := checked_pow_spec (Z.of_nat k) (np_wf x).
  case: H; [lia| |].
    case=> k0 x0; move: Hk; rewrite /np x0 eqxx orbF; lia.
  move=> r [E [Wr Er]]; exists (mk r); first by rewrite /poly_pow E.
  by rewrite np_mk Er Nat2Z.id.
- by move=> cs; rewrite map_div1.
- by move=> es [] es' [] _ _; rewrite !map_div1 => /(inj_map np_inj) ->.
Defined.

Lemma poly_exact_sem :
  @exact_sem (poly_coef okN) [idomainType of {poly R}] poly_sem (poly_exact X okN).
Proof.
have okd (a b q : npoly) : np b != 0 -> np a = np q * np b ->
   ex_div (poly_exact X okN) a b = Ret q /\ ex_checked (poly_exact X okN) a b = Ret (Some q).
  move=> Nb E; have [r [E1 E2 Wr Er]] := exact_div_ok XS (np_wf a) (np_wf b) Nb E.
  rewrite /= E1 E2 /=; have -> // : mk r = q.
  by apply: np_inj; rewrite np_mk Er.
have bad (a b : npoly) : (np b = 0 \/ forall q, np a != np q * np b) ->
   ex_div (poly_exact X okN) a b = Panic /\ ex_checked (poly_exact X okN) a b = Ret None.
  move=> H; have [|E1 E2] := exact_div_bad XS (np_wf a) (np_wf b).
    case: H => [H|H]; [by left|right=> Q].
    by case: (pval_surj S Q) => q Wq <-; have := H (mk q); rewrite /np pval_normalize.
  by rewrite /= E1 E2.
split=> a b => [q Nb E|H|q Nb E|H].
- by case: (okd a b q Nb E).
- by case: (bad a b H).
- by case: (okd a b q Nb E).
- by case: (bad a b H).
Qed.
End Nested.

(** Polynomials in one variable over polynomials over the integers. *)
Lemma int_poly_okE p : int_poly_ok p <-> wf int_sem p.
Proof. by rewrite /wf /=; split=> [H|[]]. Qed.
Lemma int_poly_okN (p : poly int_coef) : int_poly_ok (normalize p).
Proof. by apply/int_poly_okE; exact: wf_normalize. Qed.
Definition int2_coef : pcoef := poly_coef int_poly_okN.
Definition int2_exact : pexact int2_coef := poly_exact int_exact int_poly_okN.
Definition int2_sem : coef_sem int2_coef [comUnitRingType of {poly int}] :=
  @poly_sem int_coef [idomainType of int] int_sem int_poly_ok int_poly_okN int_poly_okE.
Definition int2_exact_sem : @exact_sem int2_coef [idomainType of {poly int}] int2_sem int2_exact :=
  @poly_exact_sem int_coef [idomainType of int] int_sem int_exact int_exact_sem
     int_poly_ok int_poly_okN int_poly_okE.
