(** What values feed to a hasher determines them. *)
From Coq Require Import ZArith QArith Qcanon Reals.
Set Warnings "-notation-overridden,-ambiguous-paths".
From mathcomp Require Import all_ssreflect all_algebra.
From Verif Require Import M_Base M_Interval M_Poly M_PolyCoef M_Quad M_Alg M_Hash.
From Verif Require Import S_Poly S_Quad S_Hash P_Poly P_PolyInst P_PolyRef P_Quad P_AlgBasic.
Set Implicit Arguments.
Unset Strict Implicit.
Unset Printing Implicit Defensive.

Lemma pf_int : prefix_free hash_int.
Proof. by move=> x y s t [-> ->]. Qed.
Lemma pf_unit : prefix_free hash_unit.
Proof. by move=> [] [] s t /= ->. Qed.
Lemma pf_positive : prefix_free hash_positive.
Proof. by move=> x y s t [-> ->]. Qed.
Lemma pf_residue m : prefix_free (@hash_residue m).
Proof.
move=> [x Hx] [y Hy] s t [/= E ->]; split=> //. move: E Hx Hy; rewrite /rv /= => -> Hx Hy.
by congr exist; apply: bool_irrelevance.
Qed.

Lemma pf_poly (K : pcoef) (he : elt K -> seq token) (hd : dvr K -> seq token) :
  prefix_free he -> prefix_free hd -> prefix_free (hash_poly he hd).
Proof.
move=> He Hd [p dp] [q dq] s t; rewrite /hash_poly /= => -[].
elim: p q => [|x p IH] [|y q] //=.
- by move=> _ /Hd [-> ->].
- move=> [Hs]; rewrite -!catA => /He [-> E].
  have [|[-> ->] ->] := IH q Hs _ => //; by rewrite -!catA.
Qed.

Lemma pf_npoly (K : pcoef) (ok : poly K -> bool) (h : poly K -> seq token) :
  prefix_free h -> prefix_free (fun x : {p : poly K | ok p} => h (proj1_sig x)).
Proof.
move=> Hh [x Hx] [y Hy] s t /= /Hh [E ->]; split=> //. move: Hx Hy; rewrite E => Hx Hy.
by congr exist; apply: bool_irrelevance.
Qed.

Lemma hash_poly_value (K : pcoef) (R : comUnitRingType) (S : coef_sem K R) he hd :
  prefix_free he -> prefix_free hd -> forall p q s t, wf S p -> wf S q ->
  (hash_poly he hd p ++ s = hash_poly he hd q ++ t <-> pval S p = pval S q /\ s = t).
Proof.
move=> He Hd p q s t Wp Wq; split.
- by move=> /(pf_poly He Hd) [-> ->].
- by move=> [/(poly_eq_iff Wp Wq) -> ->].
Qed.

Lemma pf_quad : prefix_free hash_quad.
Proof. by move=> [c b a] [c' b' a'] s t [/= -> -> -> ->]. Qed.
Lemma hash_quad_value x y s t : made_quad x -> made_quad y ->
  (hash_quad x ++ s = hash_quad y ++ t <-> qvalue x = qvalue y /\ s = t).
Proof.
move=> Hx Hy; split; first by move=> /pf_quad [-> ->].
move=> [E ->]. have := (eq_value x y Hx Hy).2 E. rewrite /quad_eqb => /andP [/andP [/Z.eqb_eq A /Z.eqb_eq B] /Z.eqb_eq C].
by rewrite /hash_quad A B C.
Qed.

Lemma pf_dfi : prefix_free hash_dfi.
Proof. by move=> [l u n] [l' u' n'] s t [/= -> -> -> ->]. Qed.
Lemma pf_data : prefix_free hash_data.
Proof.
move=> [p i] [q j] s t; rewrite /hash_data.
set hp := hash_poly _ _ _; set hq := hash_poly _ _ _ => E.
have {E} : hp ++ (hash_dfi i ++ s) = hq ++ (hash_dfi j ++ t) by move: E; rewrite -!(catA hp) -!(catA hq).
by move=> /(@pf_poly int_coef _ _ pf_int pf_unit) [/= -> /pf_dfi [-> ->]].
Qed.
Lemma data_eqb_iff a b : data_eqb a b = true <-> hash_data a = hash_data b.
Proof.
have E0 : hash_data a = hash_data b <-> a = b.
{ split=> [H|-> //]. have := @pf_data a b [::] [::]. by rewrite !cats0 => /(_ H) []. }
rewrite E0 {E0}. case: a b => [p i] [q j]; rewrite /data_eqb /=. split.
- move=> /andP [/eqb_seqP E /andP [/andP [/Z.eqb_eq A /Z.eqb_eq B] /PeanoNat.Nat.eqb_eq C]].
  have -> : p = q by case: p q E => [x []] [y []] /= ->.
  by case: i j A B C => [l u n] [l' u' n'] /= -> -> ->.
- move=> [-> ->]. by rewrite /dfi_is_same !Z.eqb_refl PeanoNat.Nat.eqb_refl /zpoly_eqb !andbT; apply/eqb_seqP.
Qed.
