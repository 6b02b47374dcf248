(** Proofs about the iterators over coefficients and the conversions. *)
From Coq Require Import ZArith List Lia.
Set Warnings "-notation-overridden,-ambiguous-paths".
From mathcomp Require Import all_ssreflect all_algebra.
From Verif Require Import M_Base M_Poly M_Array2D S_Array2D S_Poly P_Poly P_PolyInst M_PolyIter.
Set Implicit Arguments.
Unset Strict Implicit.
Unset Printing Implicit Defensive.
Import GRing.Theory.
Local Open Scope ring_scope.
Delimit Scope Z_scope with ZZ.

Lemma std_rev A (l : seq A) : List.rev l = rev l.
Proof. by elim: l => [//|x l IH] /=; rewrite rev_cons -cats1 IH. Qed.
Lemma rev_map_ A B (f : A -> B) (l : seq A) : rev (map f l) = map f (rev l).
Proof. by rewrite map_rev. Qed.

Lemma piter_run K ops : forall i : piter K, exists j,
  iter_run (ret_of (@piter_next K)) (ret_of (@piter_next_back K)) ops i =
  Ret (fst (deque_run ops (map (fun e => make_coef e (pi_dv i)) (pi_els i))), j) /\
  piter_len j = length (snd (deque_run ops (map (fun e => make_coef e (pi_dv i)) (pi_els i)))).
Proof.
elim: ops => [|o ops IH] [l d] /=; first by exists (PIter l d); rewrite /piter_len /= -[length _]/(size _) size_map.
case: o.
- rewrite /ret_of /piter_next /std_next /=; case: l => [|e l] /=.
    by have [j [E L]] := IH (PIter [::] d); exists j; move: E; rewrite /ret_of /= => ->.
  by have [j [E L]] := IH (PIter l d); exists j; move: E; rewrite /ret_of /= => ->.
- rewrite /ret_of /piter_next_back /std_next_back /= std_rev rev_map_; case: (rev l) => [|e r] /=.
    by have [j [E L]] := IH (PIter [::] d); exists j; move: E; rewrite /ret_of /= => ->.
  have [j [E L]] := IH (PIter (rev r) d); exists j; move: E L; rewrite /ret_of /= => -> L.
  by rewrite std_rev rev_map_.
Qed.

Definition pinto_ok K (d : dvr K) (i : pinto K) : Prop := pn_els i <> [::] -> pn_dv i = Some d.
Lemma pinto_step_ok K (d : dvr K) step (i : pinto K) : step [::] = (None, [::]) ->
  (forall l, l <> [::] -> size (step l).2 = (size l).-1) -> pinto_ok d i ->
  [/\ (pinto_step step i).1 = omap (fun e => make_coef e d) (step (pn_els i)).1,
      pn_els (pinto_step step i).2 = (step (pn_els i)).2 & pinto_ok d (pinto_step step i).2].
Proof.
case: i => l od s0 s1 ok; rewrite /pinto_step /pinto_divisor /=.
case: l ok => [|e l] ok.
  by case: od ok => [d'|] ok /=; rewrite s0.
have N : e :: l <> [::] by [].
have := ok N; rewrite /= => ->; case: eqP => [E|E] /=; split=> //.
by case: E => E; move: (s1 _ N); rewrite /pinto_ok /= E; case: (step _).2.
Qed.
Lemma std_next_size A (l : seq A) : l <> [::] -> size (std_next l).2 = (size l).-1.
Proof. by case: l. Qed.
Lemma std_next_back_size A (l : seq A) : l <> [::] -> size (std_next_back l).2 = (size l).-1.
Proof. by rewrite /std_next_back; case/lastP: l => [//|l x] _; rewrite rev_rcons /= revK size_rcons. Qed.
Lemma pinto_run K d ops : forall i : pinto K, pinto_ok d i -> exists j,
  iter_run (ret_of (@pinto_next K)) (ret_of (@pinto_next_back K)) ops i =
  Ret (fst (deque_run ops (map (fun e => make_coef e d) (pn_els i))), j) /\
  pinto_len j = length (snd (deque_run ops (map (fun e => make_coef e d) (pn_els i)))).
Proof.
elim: ops => [|o ops IH] i ok; first by exists i; rewrite /pinto_len /= -[length _]/(size _) size_map.
cbn [iter_run]; case: o; rewrite {1}/ret_of; cbn [rbind deque_run].
- have [E1 E2 ok'] := pinto_step_ok (step := @std_next _) erefl (@std_next_size _) ok.
  have [j [-> L]] := IH _ ok'; exists j; move: L; rewrite /pinto_next E1 E2 /=.
  by case: (pn_els i).
- have [E1 E2 ok'] := pinto_step_ok (step := @std_next_back _) erefl (@std_next_back_size _) ok.
  have [j [-> L]] := IH _ ok'; exists j; move: L; rewrite /pinto_next_back E1 E2 /= /std_next_back std_rev rev_map_.
  by case: (rev (pn_els i)) => [|e r] //= L; rewrite std_rev rev_map_.
Qed.

Lemma iter_ref K (p : poly K) ops : exists j,
  iter_run (ret_of (@piter_next K)) (ret_of (@piter_next_back K)) ops (piter_new p) =
  Ret (fst (deque_run ops (coefficients p)), j) /\ piter_len j = length (snd (deque_run ops (coefficients p))).
Proof. exact: (piter_run ops (piter_new p)). Qed.
Lemma iter_owned K (p : poly K) ops : exists j,
  iter_run (ret_of (@pinto_next K)) (ret_of (@pinto_next_back K)) ops (pinto_new p) =
  Ret (fst (deque_run ops (coefficients p)), j) /\ pinto_len j = length (snd (deque_run ops (coefficients p))).
Proof. exact: (pinto_run (d := dv p) ops (i := pinto_new p)). Qed.

Lemma to_primitive_spec lo hi p v : (lo <= 0 <= hi)%ZZ -> wf int_sem p ->
  to_primitive (K := int_coef) (bigint_to lo hi) 0%ZZ p = Some v <->
  (lo <= v <= hi)%ZZ /\ pval int_sem p = (vc int_sem v)%:P.
Proof.
move=> Z0 Wp.
rewrite /to_primitive -(size_pval Wp) nonzero_coefficient_spec -(size_pval Wp).
have vcI a b : vc int_sem a = vc int_sem b -> a = b.
  exact: zi_inj.
case: (ltnP 1 (size (pval int_sem p))) => H1.
  split=> // -[_ E]; move: H1; rewrite E size_polyC; by case: (_ != 0).
have C : pval int_sem p = ((pval int_sem p)`_0)%:P by apply: size1_polyC.
case: (ltnP 0 (size (pval int_sem p))) => H0; last first.
  have E0 : pval int_sem p = 0 by apply/eqP; rewrite -size_poly_leq0.
  rewrite E0; split.
    by case=> <-; split=> //=; rewrite polyC0.
  by case=> _ /esym/eqP; rewrite polyC_eq0 => /eqP E; congr Some; apply: vcI; rewrite E.
rewrite /bigint_to; have Ec := coefficient_spec int_sem p 0.
split.
  case: ifP => // /andP [/Z.leb_le a /Z.leb_le b] [<-]; split=> //; by rewrite Ec.
case=> [[a b] E].
have -> : coefficient p 0 = v by apply: vcI; rewrite Ec E coefC eqxx.
by move/Z.leb_le: a => ->; move/Z.leb_le: b => ->.
Qed.
Lemma from_primitive_spec v : exists p, from_primitive (K := int_coef) bigint_from v = Some p /\
  wf int_sem p /\ pval int_sem p = (vc int_sem v)%:P.
Proof.
by exists (from_coef (K := int_coef) v); split=> //; have [] := from_coef_spec int_sem (v : cf int_coef).
Qed.
