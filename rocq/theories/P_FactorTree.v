(** Proofs about factorisation over the integers. *)
From Coq Require Import ZArith Lia List Permutation.
Set Warnings "-notation-overridden,-ambiguous-paths".
From mathcomp Require Import all_ssreflect all_fingroup all_algebra.
From mathcomp.zify Require Import ssrZ zify_ssreflect zify_algebra.
From Verif Require Import M_Base M_Traits M_Util M_Poly M_PolyCoef M_PolyAlg M_Factor S_Int S_Poly S_PolyAlg S_Factor
  P_Util P_Poly P_PolyDiv P_PolyInst P_PolyGcd P_PolyField P_PolyAlgInst P_PolyAlgRef P_FactorP P_Hensel P_HenselTree P_ExtGcd P_Heap P_FactorZ.
Set Implicit Arguments.
Unset Strict Implicit.
Unset Printing Implicit Defensive.
Import GRing.Theory.
Local Open Scope ring_scope.
Delimit Scope Z_scope with ZZ.
Local Notation monic := mathcomp.algebra.poly.monic.
(** * Splitting by degree *)
Lemma Perm_big (R : Type) (idx : R) (op : Monoid.com_law idx) (I : Type) (F : I -> R) (l l' : seq I) :
  Permutation l l' -> \big[op/idx]_(i <- l) F i = \big[op/idx]_(i <- l') F i.
Proof.
elim=> [|x a b _ IH|x y a|a b c _ -> _ ->] //; first by rewrite !big_cons IH.
by rewrite !big_cons Monoid.mulmCA.
Qed.
Lemma Perm_prod (R : comRingType) (I : Type) (F : I -> R) (l l' : seq I) :
  Permutation l l' -> \prod_(i <- l) F i = \prod_(i <- l') F i.
Proof. exact: Perm_big. Qed.
Lemma Perm_sum (I : Type) (F : I -> nat) (l l' : seq I) :
  Permutation l l' -> (\sum_(i <- l) F i = \sum_(i <- l') F i)%N.
Proof. exact: Perm_big. Qed.
Lemma sqf_coprime (F : fieldType) (P Q R : {poly F}) : square_free (P * (Q * R)) -> coprimep P Q.
Proof.
move=> sq; rewrite /coprimep eqn_leq; apply/andP; split; last first.
  rewrite lt0n size_poly_eq0; apply/negP => /eqP g0.
  move/eqP: g0; rewrite gcdp_eq0 => /andP[/eqP P0 _].
  by have := sq 'X 0; rewrite P0 !mul0r size_polyX => /(_ erefl).
have [P' EP] := dvdpP _ _ (dvdp_gcdl P Q); have [Q' EQ] := dvdpP _ _ (dvdp_gcdr P Q).
apply: (sq _ (P' * Q' * R)); move: (gcdp P Q) EP EQ => g -> ->.
by rewrite (mulrAC Q') mulrACA (mulrA P').
Qed.
Section Stage2.
Variable p : positive.
Notation pn := (Pos.to_nat p).
Hypotheses (p_pr : prime pn) (p_odd : (2 < pn)%N).
Notation S := (@modp_sem (Zpos p) pn isT (pnE p) p_pr).
Notation pv := (@pval (mc p) [comUnitRingType of 'F_pn] S).
Notation wf := (@wf (mc p) [comUnitRingType of 'F_pn] S).
Notation F := [fieldType of 'F_pn].
Notation tok := (tree_ok (pdE (pnE p) p_pr) (pd_gt1 p_pr)).
Variable rng : nat -> Z.

Lemma split_spec tries l : forall i pos, (0 < i)%N -> Forall wf l ->
  (forall j, (j < size l)%N -> nth 1 (map pv l) j \is monic) ->
  (forall j, (j < size l)%N -> @all_factors_degree F (nth 1 (map pv l) j) (i + j)) ->
  no_panic (split_degrees rng tries i l pos) (fun '(fs, _) =>
    [/\ Forall wf fs, \prod_(f <- fs) pv f = \prod_(f <- l) pv f
      & Forall (fun f => @irreducible_poly F (pv f) /\ pv f \is monic) fs]).
Proof.
elim: l => [|f l IH] i pos i0 wl ml al; cbn [split_degrees]; first by split=> //; rewrite !big_nil.
inversion_clear wl as [|? ? wf' wl'].
have IH' pos1 := IH i.+1 pos1 isT wl' (fun j h => ml j.+1 h) (fun j h => eq_ind _ (fun k => all_factors_degree _ k) (al j.+1 h) _ (esym (addSnnS i j))).
have mf := ml 0%N isT; have af := al 0%N isT; rewrite addn0 /= in mf af.
have main r : no_panic r (fun '(a, _) => [/\ Forall wf a, \prod_(f <- a) pv f = pv f & Forall (fun f => @irreducible_poly F (pv f) /\ pv f \is monic) a]) ->
  no_panic ('(a, pos1) <- r ;; '(b, pos2) <- split_degrees rng tries i.+1 l pos1 ;; Ret (a ++ b, pos2))%res
    (fun '(fs, _) => [/\ Forall wf fs, \prod_(f <- fs) pv f = \prod_(f <- f :: l) pv f & Forall (fun f => @irreducible_poly F (pv f) /\ pv f \is monic) fs]).
  case: r => [[a pos1]| |] //= [wa ea ia]; have := IH' pos1.
  case: (split_degrees _ _ _ _ _) => [[b pos2]| |] //= [wb eb ib].
  by split; [apply/Forall_app|rewrite big_cat /= ea eb big_cons|apply/Forall_app].
apply: main; rewrite (is_oneP wf'); case: eqP => [->|/eqP n1]; first by split=> //; rewrite big_nil.
rewrite (negbTE (lt0n_neq0 i0)).
have s1 : (1 < size (pv f))%N.
  rewrite ltnNge; apply: contra n1 => s1; rewrite (size1_polyC s1) in mf *.
  by move: mf; rewrite monicE lead_coefC => /eqP ->.
have := sdf_spec (p_pr := p_pr) rng p_odd i0 tries pos wf' mf s1 af.
case: (same_degree_factorization _ _ _ _ _) => [[a pos1]| |] //= [wa [ea ia _]].
split=> //; first by rewrite ea big_map.
have {}ia : forall g, List.In g a -> @irreducible_poly F (pv g) /\ pv g \is monic.
  move=> g gi; apply: (ia _ _).
  elim: {wa ea} a gi {ia} => // x a IHa [->|/IHa h]; first by rewrite inE eqxx.
  by rewrite inE h orbT.
exact/Forall_forall.
Qed.

(** * The factor tree *)
Notation nconst h := (\sum_(t <- h) (size (pv (product t)) <= 1))%N.
Lemma tok0 t : tok t -> pv (product t) != 0.
Proof.
elim: t => [f []|l IHl r IHr k f lb rb] //= [[/IHl Hl /IHr Hr] _ -> _ _].
by rewrite (@mulf_eq0 [idomainType of {poly F}]) negb_or Hl Hr.
Qed.
Lemma new_node_ok a b : tok a -> tok b -> coprimep (pv (product a) : {poly F}) (pv (product b)) ->
  (1 < size (pv (product a)))%N \/ (1 < size (pv (product b)))%N ->
  exists t, [/\ new_node a b = Ret t, tok t, leaves t = leaves a ++ leaves b
              & pv (product t) = pv (product a) * pv (product b)].
Proof.
move=> ta tb cop big; rewrite /new_node.
have [da ->] := tree_degree ta; have [db ->] := tree_degree tb; cbn [rbind].
have wa := tree_wf ta; have wb := tree_wf tb.
have HX' := HX p_pr; have HR' := @HR p p_pr.
have [g [x [y [E [wg wx wy] B G M]]]] := poly_extended_gcd_ok HX' HR' wa wb.
have [bx by'] := extended_gcd_bound HX' HR' wa wb (tok0 ta) (tok0 tb) cop big E.
rewrite E; cbn [rbind].
have g1 : pv g = 1.
  have := coprimep_def (pv (product a) : {poly F}) (pv (product b)); rewrite cop => /esym sg.
  have : (pv g : {poly F}) %= 1 by rewrite (eqp_trans G) // -size_poly_eq1.
  case: M => [->|mg]; first by rewrite eqp_sym eqp0 oner_eq0.
  by move=> e; apply: (@P_PolyField.monic_eqp F (pv g) 1 (or_intror mg) _ e); right; exact: lead_coef1.
rewrite (is_oneP wg) g1 eqxx; cbn [assert_then].
have [wm Vm] := mul_spec (gS (pdE (pnE p) p_pr) (pd_gt1 p_pr)) (product a) (product b).
have -> : (poly_len x < poly_len (product b))%N by move: bx; rewrite !size_pval.
have -> : (poly_len y < poly_len (product a))%N by move: by'; rewrite !size_pval.
eexists; split; [reflexivity| |by []|exact: Vm].
split=> //; first by rewrite -g1 -B.
by rewrite unitfE lead_coef_eq0 tok0.
Qed.

Lemma build_tree_ok fuel : forall heap, Forall tok heap ->
  @square_free F (\prod_(t <- heap) pv (product t)) -> (nconst heap <= 1)%N ->
  (0 < size heap <= fuel.+1)%N ->
  exists t, [/\ build_tree fuel heap = Ret (Some t), tok t,
    Permutation (leaves t) (flat_map (@leaves p) heap)
    & pv (product t) = \prod_(t <- heap) pv (product t)].
Proof.
have szp h h' : Permutation h h' -> size h = size h' :> nat by move=> /Permutation_length.
elim: fuel => [|fuel IH] heap ok sq nc sz; cbn [build_tree].
all: case E1 : (heap_pop _ _) => [[a h1]|]; last by move/heap_pop_none: E1 sz => ->.
all: have P1 := heap_pop_perm E1; have S1 := szp _ _ _ P1.
all: have F1 : Forall tok (a :: h1) by rewrite -P1.
all: inversion_clear F1 as [|? ? ta F1'].
all: case E2 : (heap_pop _ _) => [[b h2]|]; last first.
1,3: have e1 := heap_pop_none E2; rewrite e1 in P1; exists a; split=> //.
1,3: by rewrite (Permutation_flat_map _ P1) /= app_nil_r.
1,2: by rewrite (Perm_prod _ P1) big_seq1.
all: have P2 := heap_pop_perm E2; have S2 := szp _ _ _ P2.
  by move: sz; rewrite S1 /= S2.
have F2 : Forall tok (b :: h2) by rewrite -P2.
inversion_clear F2 as [|? ? tb F2'].
have P12 : Permutation heap (a :: b :: h2) by rewrite P1 P2.
rewrite (Perm_prod _ P12) !big_cons in sq.
rewrite (Perm_sum _ P12) !big_cons in nc.
have cop := @sqf_coprime F _ _ _ sq.
have [|t [-> tt lt pt]] := new_node_ok ta tb cop.
  apply/orP; move: nc; rewrite !ltnNge.
  by move: (size (pv (product a)) <= 1)%N (size (pv (product b)) <= 1)%N (\sum_(j <- h2) _)%N => [] []; rewrite ?addnA.
cbn [rbind].
set h' := heap_push _ h2 t; have P' : Permutation h' (t :: h2) := heap_push_perm _ _ _.
have [||||t' [-> tt' lt' pt']] := IH h'.
- by rewrite P'; constructor.
- by rewrite (Perm_prod _ P') big_cons pt -mulrA.
- rewrite (Perm_sum _ P') big_cons pt.
  have a0 := tok0 ta; have b0 := tok0 tb.
  rewrite (@size_mul [idomainType of 'F_pn]) //; move: nc.
  rewrite -size_poly_gt0 in a0; rewrite -size_poly_gt0 in b0.
  by move: (size (pv (product a))) (size (pv (product b))) a0 b0 => sa sb; move: (\sum_(j <- h2) _)%N; clear; lia.
- by move: sz; rewrite (szp _ _ _ P') S1 /= S2 /=.
exists t'; split=> //; first last.
  by rewrite pt' (Perm_prod _ P') (Perm_prod _ P12) !big_cons pt mulrA.
rewrite lt' (Permutation_flat_map _ P') (Permutation_flat_map _ P12).
suff -> : flat_map (@leaves p) (t :: h2) = flat_map (@leaves p) (a :: b :: h2) by [].
by rewrite /= lt; exact: esym (catA _ _ _).
Qed.
End Stage2.
