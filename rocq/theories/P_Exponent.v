(** Exponents: proofs. *)
From Coq Require Import ZArith QArith Qreduction Reals Lia.
Set Warnings "-notation-overridden,-ambiguous-paths".
From mathcomp Require Import ssreflect ssrfun ssrbool eqtype ssrnat seq.
From Verif Require Import M_Base M_Traits M_Interval M_Poly M_PolyCoef M_Factor M_Alg S_Interval S_Alg S_AlgOps P_AlgPow
  M_Exponent S_Exponent.
Set Implicit Arguments.
Unset Strict Implicit.
Unset Printing Implicit Defensive.
Local Open Scope Q_scope.

Lemma Qred_eq (q : Q) : Z.gcd (Qnum q) (Zpos (Qden q)) = 1%Z -> Qred q = q.
Proof.
move=> g; apply: Qcanon.Qred_identity; exact: g.
Qed.
Lemma Qred_int (v : Z) : Qred (inject_Z v) = inject_Z v.
Proof. by apply: Qred_eq; rewrite Z.gcd_1_r. Qed.

Lemma exponent_value e q : exp_reduced e -> exp_value e q -> into_rational_exponent e = Ret (Qred q).
Proof.
elim: e=> [v|n d|r|e ih] //=.
- by move=> _ /Qred_complete ->; rewrite Qred_int.
- move=> _ [d0 E]; case: d d0 E=> [|p|p] // d0 E; rewrite /ratio_new; congr Ret; apply: Qred_complete; move: E; rewrite /Qeq /=; lia.
- by move=> g /Qred_complete ->; rewrite Qred_eq //; case: r {g}.
Qed.
Lemma exponent_panics e : into_rational_exponent e = Panic <-> exp_zero_denominator e.
Proof.
elim: e=> [v|n d|r|e ih] //=.
by case: d=> [|p|p].
Qed.
Lemma exponent_total e : ~ exp_zero_denominator e -> exists q, exp_value e q.
Proof.
elim: e=> [v|n d|r|e ih] //=.
- by exists (inject_Z v).
- move=> d0; exists (inject_Z n / inject_Z d); split=> //.
  by field; move=> E; apply: d0; move: E; rewrite /Qeq /=; lia.
- by exists r.
Qed.
Lemma exponent_unique e p q : exp_value e p -> exp_value e q -> p == q.
Proof.
elim: e=> [v|n d|r|e ih] //=.
- by move=> -> ->.
- move=> [d0 E] [_ F]; rewrite -F in E.
  have D : ~ inject_Z d == 0 by move=> G; apply: d0; move: G; rewrite /Qeq /=; lia.
  by move/Qmult_inj_r: E=> E; apply: E.
- by move=> -> ->.
Qed.
Lemma exponent_meaning e : ~ exp_zero_denominator e -> exists q, exp_value e q /\ forall p, exp_value e p -> p == q.
Proof. by move/exponent_total=> [q v]; exists q; split=> // p w; apply: exponent_unique w v. Qed.
Lemma exponent_same rng ffuel fuel ln2 a e f q : exp_reduced e -> exp_reduced f -> exp_value e q -> exp_value f q ->
  checked_pow rng ffuel fuel ln2 a e = checked_pow rng ffuel fuel ln2 a f /\
  pow rng ffuel fuel ln2 a e = pow rng ffuel fuel ln2 a f.
Proof. by move=> re rf ve vf; rewrite /pow /checked_pow (exponent_value re ve) (exponent_value rf vf). Qed.
Lemma exponent_zero rng ffuel fuel ln2 a e : exp_zero_denominator e ->
  checked_pow rng ffuel fuel ln2 a e = Panic /\ pow rng ffuel fuel ln2 a e = Panic.
Proof. by move/exponent_panics=> E; rewrite /pow /checked_pow E. Qed.
(** C57 states its results for the fraction in lowest terms. *)
Lemma exponent_pow rng ffuel fuel ln2 a e q : exp_reduced e -> exp_value e q ->
  checked_pow rng ffuel fuel ln2 a e = ra_checked_pow rng ffuel fuel ln2 a (Qred q) /\
  pow rng ffuel fuel ln2 a e = ra_pow rng ffuel fuel ln2 a (Qred q).
Proof. by move=> re ve; rewrite /pow /checked_pow (exponent_value re ve). Qed.

Lemma Qred_den1 q : Qden (Qred q) = 1%positive <-> exists k : Z, q == inject_Z k.
Proof.
split=> [d|[k /Qred_complete ->]]; last by rewrite Qred_int.
exists (Qnum (Qred q)); rewrite -{1}(Qred_correct q); move: d; case: (Qred q)=> n d /= ->; exact: Qeq_refl.
Qed.
Lemma Qred_num_le q : (Qnum (Qred q) <= 0)%Z <-> q <= 0.
Proof.
have E := Qred_correct q; split=> H.
- by rewrite -E /Qle /=; lia.
- have {}H : Qred q <= 0 by rewrite E.
  by move: H; rewrite /Qle; cbn [Qnum Qden]; move: (Qnum (Qred q)) (Qden (Qred q)); lia.
Qed.

Lemma exponent_none ln2 rng ffuel fuel a x e q : denotes a x -> exp_reduced e -> exp_value e q ->
  (checked_pow rng ffuel fuel ln2 a e = Ret None <->
   (x = 0%R /\ q <= 0) \/ ((x < 0)%R /\ ~ exists k : Z, q == inject_Z k)).
Proof.
move=> ax re ve; rewrite (proj1 (exponent_pow rng ffuel fuel ln2 a re ve)).
rewrite (pow_none ln2 rng ffuel fuel ax (Qcanon.Qred_involutive _)) /pow_undefined.
by rewrite Qred_num_le; split=> -[[h1 h2]|[h1 h2]]; [left|right|left|right]; split=> // /Qred_den1.
Qed.

Lemma exponent_integer ln2 rng ffuel a x e k : denotes a x -> exp_reduced e -> exp_value e (inject_Z k) ->
  is_rat x -> (x <> 0%R \/ (0 < k)%Z) -> (Z.abs k < 2 ^ 64)%Z ->
  exists z, [/\ eventually (fun fuel => checked_pow rng ffuel fuel ln2 a e) (Some z),
    denotes z (powerRZ x k) & canonical a -> canonical z].
Proof.
move=> ax re ve xr ok fk.
have rk := Qred_int k.
have nu : ~ pow_undefined x (inject_Z k).
  by rewrite /pow_undefined /= => -[[x0 k0]|[_ //]]; case: ok=> // k1; lia.
have pf : pow_fits (inject_Z k) by rewrite /pow_fits /=; split=> //; lia.
have [z [[N E] dz cz]] := pow_rational_top ln2 rng ffuel ax rk nu xr (erefl _) pf.
exists z; split=> //; exists N=> fuel.
by rewrite (proj1 (exponent_pow rng ffuel fuel ln2 a re ve)) rk; apply: E.
Qed.
