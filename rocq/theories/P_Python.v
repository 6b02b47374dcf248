(** Proofs about the Python class. *)
From Coq Require Import ZArith QArith Qreals Reals Lra.
Set Warnings "-notation-overridden,-ambiguous-paths".
From mathcomp Require Import ssreflect ssrfun ssrbool eqtype ssrnat seq.
From Verif Require Import M_Base M_Util M_Interval M_Poly M_PolyCoef P_PolyInst M_Factor M_Alg M_Python S_Poly S_Interval S_Alg S_AlgOps S_Python
  P_AlgBasic P_AlgSign P_AlgNeg P_AlgRecip P_AlgArith P_AlgPow.
Set Implicit Arguments.
Unset Strict Implicit.
Unset Printing Implicit Defensive.
Local Open Scope R_scope.

Lemma extract_stands o a : stands_for o a -> py_extract o = Some a.
Proof. by case=> [->|[z [-> ->]]]. Qed.
Lemma extract_none o : no_number o -> py_extract o = None.
Proof. by case=> ->. Qed.
Lemma self_none o : no_number o -> py_self o = None.
Proof. by case=> ->. Qed.

Lemma binary_stands T (m rm : ralg -> ralg -> res (pyres T)) l r a b : (forall u v, rm u v = m v u) ->
  stands_for l a -> stands_for r b -> of_class l \/ of_class r -> py_binary m rm l r = m a b.
Proof.
move=> E sl sr c; rewrite /py_binary /py_call (extract_stands sl) (extract_stands sr).
case: sl sr c => [->|[z [-> ->]]] //= [->|[z' [-> ->]]] /=.
- by rewrite E.
- by case=> -[].
Qed.
Lemma binary_none T (m rm : ralg -> ralg -> res (pyres T)) l r : no_number l \/ no_number r ->
  py_binary m rm l r = Ret (PExn TypeError).
Proof.
rewrite /py_binary /py_call; case=> h; rewrite (extract_none h) (self_none h) //=; first by case: py_self.
by case: py_self.
Qed.

Lemma ret_returns T (r : res T) : returns_as (rmap (fun v => PVal v) r) r.
Proof.
case: r => [v| |] /=; split; try by []; try by (split => //; split).
- by move=> w; split=> [[->]|[->]].
Qed.

Section Ops.
Variables (rng : nat -> Z) (ffuel fuel : nat) (ln2 : nat -> res dfi).
Variables (l r : pyobj) (a b : ralg) (x y : R).
Hypotheses (sl : stands_for l a) (sr : stands_for r b) (c : of_class l \/ of_class r).

Lemma py_add_returns : returns_as (py_add rng ffuel fuel l r) (ra_add rng ffuel fuel a b).
Proof. by rewrite /py_add (binary_stands (a := a) (b := b)) //; exact: ret_returns. Qed.
Lemma py_sub_returns : returns_as (py_sub rng ffuel fuel l r) (ra_sub rng ffuel fuel a b).
Proof. by rewrite /py_sub (binary_stands (a := a) (b := b)) //; exact: ret_returns. Qed.
Lemma py_mul_returns : returns_as (py_mul rng ffuel fuel l r) (ra_mul rng ffuel fuel a b).
Proof. by rewrite /py_mul (binary_stands (a := a) (b := b)) //; exact: ret_returns. Qed.

Lemma ok_or_raises T (e : pyexn) (o : res (option T)) (bad : Prop) : (o = Ret None <-> bad) ->
  raises_iff (py_ok_or e o) e bad o.
Proof.
rewrite /py_ok_or /raises_iff; case: o => [[v|]| |] /= h; split.
- by move=> e'; split=> // -[_ /h].
- move=> _; split=> [w|]; last by split.
  by split=> [[->]|[->]].
- by move=> e'; split=> [[->]|[-> _]//]; split=> //; apply/h.
- by move=> nb; case: nb; apply/h.
- by move=> e'; split=> // -[_ /h].
- by move=> _; split.
- by move=> e'; split=> // -[_ /h].
- by move=> _; split.
Qed.

Lemma checked_div_none : denotes b y -> ra_checked_div rng ffuel fuel a b = Ret None <-> y = 0.
Proof.
move=> Db; rewrite /ra_checked_div -(recip_none fuel Db); case: ra_checked_recip => [[ib|]| |] //; cbn [rbind].
by case: ra_mul.
Qed.
Lemma py_truediv_raises : denotes b y ->
  raises_iff (py_truediv rng ffuel fuel l r) ZeroDivisionError (y = 0) (ra_checked_div rng ffuel fuel a b).
Proof.
move=> Db; rewrite /py_truediv (binary_stands (a := a) (b := b)) //.
exact/ok_or_raises/checked_div_none.
Qed.

Lemma py_pow_modulus m : m <> PNone -> py_pow rng ffuel fuel ln2 m l r = Ret (PExn TypeError).
Proof. by move=> h; rewrite /py_pow (binary_stands (a := a) (b := b)) // /py_m_pow; case: m h. Qed.

Lemma py_pow_irrational : denotes b y -> (forall q, y <> Q2R q) ->
  py_pow rng ffuel fuel ln2 PNone l r = Ret (PExn ValueError).
Proof.
move=> Db h; rewrite /py_pow (binary_stands (a := a) (b := b)) // /py_m_pow.
by case: (to_rational_spec Db) => [[q [_ _ e]]|[-> _]//]; case: (h q).
Qed.
Lemma py_pow_raises e : denotes a x -> denotes b y -> Qred e = e -> y = Q2R e ->
  raises_iff (py_pow rng ffuel fuel ln2 PNone l r) ValueError (pow_undefined x e) (ra_checked_pow rng ffuel fuel ln2 a e).
Proof.
move=> Da Db re ye; rewrite /py_pow (binary_stands (a := a) (b := b)) // /py_m_pow.
case: (to_rational_spec Db) => [[q [-> rq yq]]|[_ h]]; last by case: (h e).
have -> : q = e.
  by rewrite -rq -re; apply: Qred_complete; apply: eqR_Qeq; rewrite -yq.
cbn [rbind]; apply: ok_or_raises; exact: pow_none.
Qed.
End Ops.

Section Cmp.
Variables (rng : nat -> Z) (ffuel : nat) (a b : ralg) (x y : R).
Hypotheses (Da : denotes a x) (Db : denotes b y).
Hypothesis F : factoring_ok rng ffuel (sub_resultant a b) (x - y) \/
    ((is_rat x \/ is_rat y) /\ factoring_returns rng ffuel (sub_resultant a b)).
Hypothesis G : diff_clear a b x y \/ x = y \/ is_rat x \/ is_rat y.

Lemma richcmp_spec op : exists t, eventually (fun fuel => py_richcmp rng ffuel fuel a b op) (PVal t) /\ (t = true <-> holds op x y).
Proof.
have [e [e1 e2]] := eq_spec Da Db F G.
have [o [o1 o2]] := cmp_spec Da Db F G.
case: op; rewrite /py_richcmp /holds.
- exists (if o is Lt then true else false); split; first exact: (eventually_bind (fun c => PVal (if c is Lt then true else false)) o1).
  by case: o {o1} o2 => /= h; split=> //; lra.
- exists (if o is Gt then false else true); split; first exact: (eventually_bind (fun c => PVal (if c is Gt then false else true)) o1).
  by case: o {o1} o2 => /= h; split=> //; lra.
- exists e; split=> //; exact: (eventually_bind (fun e => PVal e) e1).
- exists (negb e); split; first exact: (eventually_bind (fun e => PVal (negb e)) e1).
  by case: e {e1} e2 => /= -[h h']; split=> // h2; [case: h2; exact: h|move/h'].
- exists (if o is Gt then true else false); split; first exact: (eventually_bind (fun c => PVal (if c is Gt then true else false)) o1).
  by case: o {o1} o2 => /= h; split=> //; lra.
- exists (if o is Lt then false else true); split; first exact: (eventually_bind (fun c => PVal (if c is Lt then false else true)) o1).
  by case: o {o1} o2 => /= h; split=> //; lra.
Qed.
End Cmp.
Lemma holds_swap op x y : holds (py_swap op) y x <-> holds op x y.
Proof. by case: op; rewrite /=; split; try lra; try (by move=> h e; apply: h). Qed.

Lemma py_compare_left rng ffuel a r b x y op : stands_for r b -> denotes a x -> denotes b y ->
  factoring_ok rng ffuel (sub_resultant a b) (x - y) \/
    ((is_rat x \/ is_rat y) /\ factoring_returns rng ffuel (sub_resultant a b)) ->
  diff_clear a b x y \/ x = y \/ is_rat x \/ is_rat y ->
  exists t, eventually (fun fuel => py_compare rng ffuel fuel op (PNum a) r) (PVal t) /\ (t = true <-> holds op x y).
Proof.
move=> sr Da Db F G; have [t [t1 t2]] := richcmp_spec Da Db F G op; exists t; split=> //.
by case: t1 => N h; exists N => fuel; rewrite /py_compare /py_call (extract_stands sr) /= h.
Qed.
Lemma py_compare_right rng ffuel z b y op : denotes b y ->
  factoring_returns rng ffuel (sub_resultant b (ra_from_int z)) ->
  exists t, eventually (fun fuel => py_compare rng ffuel fuel op (PInt z) (PNum b)) (PVal t) /\ (t = true <-> holds op (IZR z) y).
Proof.
move=> Db F; have [Dz _] := from_int_denotes z.
have rz : is_rat (IZR z) by exists (inject_Z z); rewrite /Q2R /=; lra.
have [t [t1 t2]] := richcmp_spec Db Dz (or_intror (conj (or_intror rz) F)) (or_intror (or_intror (or_intror rz))) (py_swap op).
by exists t; split=> //; rewrite t2 holds_swap.
Qed.
Lemma py_compare_none rng ffuel fuel op l r : no_number l \/ no_number r ->
  py_compare rng ffuel fuel op l r =
    Ret (match op with OpEq => PVal false | OpNe => PVal true | _ => PExn TypeError end).
Proof.
by rewrite /py_compare /py_call; case=> h; rewrite (extract_none h) (self_none h); case: py_self.
Qed.

Lemma py_recip_raises fuel a x : denotes a x ->
  raises_iff (py_recip fuel a) ZeroDivisionError (x = 0) (ra_checked_recip fuel a).
Proof. move=> D; apply: ok_or_raises; exact: recip_none. Qed.

Lemma log2_none_iff fc fuel a x : denotes a x -> ra_log2 fuel fc a = Ret None <-> x <= 0.
Proof.
move=> D; case: (Rle_or_lt x 0) => h; first by rewrite (log2_none _ _ D h).
split; last lra.
rewrite /ra_log2; have [p [-> hp]] := is_positive_spec D; cbn [rbind].
rewrite (proj2 hp h); cbn [negb]; case: ra_to_integer_log2 => [[k|]| |] //; cbn [rbind].
by case: remove_zero => [[s|]| |] //; cbn [rbind unwrap]; case: log2_loop.
Qed.
Lemma py_log2_raises fuel a x : denotes a x ->
  raises_iff (py_floor_log2 fuel a) ValueError (x <= 0) (ra_floor_log2 fuel a) /\
  raises_iff (py_ceil_log2 fuel a) ValueError (x <= 0) (ra_ceil_log2 fuel a).
Proof. by move=> D; split; apply: ok_or_raises; apply: log2_none_iff. Qed.

Lemma py_to_rational_spec a x : denotes a x ->
  (exists n d, [/\ py_to_rational a = Ret (Some (n, d)), (0 < d)%Z, Z.gcd n d = 1%Z & x * IZR d = IZR n]) \/
  (py_to_rational a = Ret None /\ forall q, x <> Q2R q).
Proof.
move=> D; case: (to_rational_spec D) => [[q [e rq xq]]|[e h]]; last by right; rewrite /py_to_rational e.
left; exists (Qnum q), (Zpos (Qden q)); rewrite /py_to_rational e; split=> //; first exact: gcd_red.
by rewrite xq /Q2R; field; apply: not_0_IZR.
Qed.

Lemma py_new_spec v : 
  (v = None \/ v = Some PNone -> exists a, py_new v = PVal a /\ denotes a 0) /\
  (forall o a, v = Some o -> stands_for o a -> py_new v = PVal a) /\
  (v = Some POther -> py_new v = PExn TypeError).
Proof.
split; first by case=> ->; exists ra_zero; split=> //; case: (from_int_denotes 0).
split; last by move=> ->.
by move=> o a -> [->|[z [-> ->]]].
Qed.

Lemma py_neg_returns a x : denotes a x -> exists b, py_neg a = Ret (PVal b) /\ denotes b (- x).
Proof. by move=> D; have [b [e Db _]] := neg_spec D; exists b; rewrite /py_neg e. Qed.
Lemma py_abs_returns a x : denotes a x -> exists b, py_abs a = Ret (PVal b) /\ denotes b (Rabs x).
Proof. by move=> D; have [b [e Db _]] := abs_spec D; exists b; rewrite /py_abs e. Qed.

Lemma py_compare_returns rng ffuel fuel a r b op : stands_for r b ->
  returns_as (py_compare rng ffuel fuel op (PNum a) r) (rust_compare op (ra_cmp rng ffuel fuel a b) (ra_eqb rng ffuel fuel a b)).
Proof.
move=> sr; rewrite /py_compare /py_call (extract_stands sr) /=.
have E T U V (f : T -> U) (g : U -> V) (o : res T) : rmap g (rmap f o) = rmap (fun v => g (f v)) o by case: o.
have h := ret_returns (rust_compare op (ra_cmp rng ffuel fuel a b) (ra_eqb rng ffuel fuel a b)).
by case: op h; rewrite /py_richcmp /rust_compare ?E.
Qed.
Lemma py_not_a_number rng ffuel fuel ln2 m op l r : no_number l \/ no_number r ->
  py_add rng ffuel fuel l r = Ret (PExn TypeError) /\ py_sub rng ffuel fuel l r = Ret (PExn TypeError) /\
  py_mul rng ffuel fuel l r = Ret (PExn TypeError) /\ py_truediv rng ffuel fuel l r = Ret (PExn TypeError) /\
  py_pow rng ffuel fuel ln2 m l r = Ret (PExn TypeError) /\
  py_compare rng ffuel fuel op l r = Ret (match op with OpEq => PVal false | OpNe => PVal true | _ => PExn TypeError end).
Proof.
move=> h; rewrite /py_add /py_sub /py_mul /py_truediv /py_pow !binary_none //.
by rewrite (py_compare_none _ _ _ _ h).
Qed.
Lemma py_rounding a x k : denotes a x ->
  (is_floor x k -> eventually (fun fuel => py_floor fuel a) k) /\
  (is_ceil x k -> eventually (fun fuel => py_ceil fuel a) k) /\
  (is_trunc x k -> eventually (fun fuel => py_trunc fuel a) k).
Proof.
by move=> D; split; [exact: integer_floor_spec|split; [exact: integer_ceil_spec|exact: integer_trunc_spec]].
Qed.
