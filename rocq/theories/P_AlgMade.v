(** Computed values are canonical. *)
From Coq Require Import ZArith QArith Qabs Qreals Reals Lra.
Set Warnings "-notation-overridden,-ambiguous-paths".
From mathcomp Require Import ssreflect ssrfun ssrbool eqtype ssrnat seq.
From Verif Require Import M_Base M_Util M_Interval M_Poly M_PolyCoef P_PolyInst M_Factor M_Alg S_Poly S_Interval S_Alg S_AlgOps S_AlgMin
  P_AlgBasic P_AlgSign P_AlgNeg P_AlgRecip P_AlgArith P_AlgPow P_AlgMin.
Set Implicit Arguments.
Unset Strict Implicit.
Unset Printing Implicit Defensive.
Local Open Scope R_scope.

Lemma eventually_ret T (f : nat -> res T) v n w : eventually f v -> f n = Ret w -> w = v.
Proof. by move=> [N ->]; case: ifP => // _ []. Qed.
Lemma computes_ret f v C n z : computes f v C -> f n = Ret z -> denotes z v /\ (C -> canonical z).
Proof. by move=> [z' [e d c]] h; rewrite (eventually_ret e h). Qed.

Lemma made_ok a x : made a x -> denotes a x /\ canonical a.
Proof.
elim=> {a x}.
- exact: from_int_denotes.
- exact: from_ratio_denotes.
- by [].
- by move=> a x b _ [D c]; have [b' [-> D' c']] := neg_spec D; case=> <-; split; [|exact: c'].
- by move=> a x b _ [D c]; have [b' [-> D' c']] := abs_spec D; case=> <-; split; [|exact: c'].
- by move=> f a x k b _ [D _] h e; rewrite (eventually_ret (floor_spec D h) e); exact: from_int_denotes.
- by move=> f a x k b _ [D _] h e; rewrite (eventually_ret (ceil_spec D h) e); exact: from_int_denotes.
- by move=> f a x k b _ [D _] h e; rewrite (eventually_ret (trunc_spec D h) e); exact: from_int_denotes.
- move=> rng ff f a b x y c _ [Da ca] _ [Db cb] [[h1 h2]|[h1 h2]] e.
    by have [D h] := computes_ret (sum_spec Da Db h1 h2) e; split; [|exact: h].
  by have [D h] := computes_ret (sum_rational Da Db h1 h2) e; split; [|exact: h].
- move=> rng ff f a b x y c _ [Da ca] _ [Db cb] [[h1 h2]|[h1 h2]] e.
    by have [D h] := computes_ret (diff_spec Da Db h1 h2) e; split; [|exact: h].
  by have [D h] := computes_ret (diff_rational Da Db h1 h2) e; split; [|exact: h].
- move=> rng ff f a b x y c _ [Da ca] _ [Db cb] [[h1 h2]|[h1 h2]] e.
    by have [D h] := computes_ret (prod_spec Da Db h1 h2) e; split; [|exact: h].
  by have [D h] := computes_ret (prod_rational Da Db h1 h2) e; split; [|exact: h].
- move=> f a x b _ [D c] [q hq] e; case: (Req_dec x 0) => x0.
    by rewrite x0 in D; rewrite (recip_zero f D) in e.
  have [b' [ev [_ h]]] := recip_spec D x0; rewrite (eventually_ret ev e); apply: h; by exists q.
- move=> ln2 rng ff f a x e v z _ [D c] re nu ip ln2ok hb hn ez.
  have {}ez : ra_checked_pow rng ff f ln2 a e = Ret (Some z).
    by move: ez; rewrite /ra_pow; case: ra_checked_pow => [[z'|]| |] //= [->].
  have [Dz cz] := pow_sound D re nu ln2ok ip (fun b h => let: conj p (conj q r) := hb b h in And3 p q r) ez.
  by split=> //; exact: cz.
Qed.

Lemma made_minimal a x : made a x -> denotes a x /\ minimal_polynomial_of x (coefficients (mp a)).
Proof. by move=> /made_ok [D c]; split=> //; apply/minimal_iff. Qed.
Lemma degree_coefs a x : denotes a x -> ra_degree a = Ret (List.length (coefficients (mp a)) - 1)%N.
Proof.
by move=> D; rewrite (den_degree D) -(coefs_val D) size_map subn1.
Qed.
