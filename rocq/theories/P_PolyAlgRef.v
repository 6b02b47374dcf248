(** Final forms of the results on polynomial algorithms, and variable names. *)
From Coq Require Import ZArith QArith Qcanon Lia String.
Set Warnings "-notation-overridden,-ambiguous-paths".
From mathcomp Require Import all_ssreflect all_fingroup all_algebra.
From mathcomp Require Import polyrcf qe_rcf_th.
From mathcomp.zify Require Import ssrZ zify_ssreflect zify_algebra.
From Verif Require Import M_Base M_Traits M_Poly M_PolyCoef M_PolyAlg S_Poly S_PolyAlg
  P_Poly P_PolyDiv P_PolyInst P_PolyGcd P_PolyRes P_PolyField P_PolyContent P_PolyAlgInst P_Sturm P_SturmSeq.
Set Implicit Arguments.
Unset Strict Implicit.
Unset Printing Implicit Defensive.
Import GRing.Theory Num.Theory Order.TTheory.
Local Open Scope ring_scope.
Delimit Scope Z_scope with ZZ.

(** * Sturm *)
Section Sturm.
Variable RR : rcfType.

Lemma sturm_final K (R : realDomainType) (Sm : coef_sem K R) (f : {rmorphism R -> RR}) p (l : seq (poly K)) a b :
  (forall x, sign_variations (map (fun u => (map_poly f (pval Sm u)).[x]) l) =
             sign_variations (map (fun P : {poly RR} => P.[x]) (mods (map_poly f (pval Sm p)) (map_poly f (pval Sm p))^`()))) ->
  map_poly f (pval Sm p) != 0 -> a < b ->
  ((map_poly f (pval Sm p)).[a] != 0 /\ (map_poly f (pval Sm p)).[b] != 0) \/
    coprimep (map_poly f (pval Sm p)) (map_poly f (pval Sm p))^`() ->
  exists2 s, roots_listed (map_poly f (pval Sm p)) a b s &
    sign_variations (map (fun u => (map_poly f (pval Sm u)).[a]) l) =
    (sign_variations (map (fun u => (map_poly f (pval Sm u)).[b]) l) + size s)%N.
Proof.
move=> H P0 ab N; rewrite !H; apply: sturm_mods => //.
  by case: N => [[-> _]|->]; rewrite ?orbT.
by case: N => [[_ ->]|->]; rewrite ?orbT.
Qed.

Lemma primitive_sturm_int p : wf int_sem p -> pval int_sem p != 0 ->
  exists l, primitive_sturm_sequence int_exact int_content p = Ret (p :: l) /\
  forall a b : RR, a < b ->
  (~~ root (map_poly intr (pval int_sem p)) a /\ ~~ root (map_poly intr (pval int_sem p)) b) \/
    coprimep (map_poly (intr : int -> RR) (pval int_sem p)) (map_poly intr (pval int_sem p))^`() ->
  exists2 s, roots_listed (map_poly intr (pval int_sem p)) a b s &
    sign_variations (map (fun u => (map_poly intr (pval int_sem u)).[a]) (p :: l)) =
    (sign_variations (map (fun u => (map_poly intr (pval int_sem u)).[b]) (p :: l)) + size s)%N.
Proof.
move=> Hp p0.
have M : {mono (intr : int -> RR) : x y / x <= y} by exact: ler_int.
have [l [El _ H]] := @primitive_sturm_spec int_coef [realDomainType of int] int_sem int_exact int_exact_sem
  RR (intmul1_rmorphism RR) M int_content int_content_sem p Hp p0.
exists l; split=> // a b ab N; apply: (sturm_final H) => //.
by rewrite map_poly_eq0_id0 ?intr_eq0 ?lead_coef_eq0.
Qed.

Lemma ratr_mono : {mono (ratr : rat -> RR) : x y / x <= y}.
Proof. exact: ler_rat. Qed.

Lemma primitive_sturm_ratio p : wf ratio_sem p -> pval ratio_sem p != 0 ->
  exists l, primitive_sturm_sequence ratio_exact ratio_content p = Ret (p :: l) /\
  forall a b : RR, a < b ->
  (~~ root (map_poly ratr (pval ratio_sem p)) a /\ ~~ root (map_poly ratr (pval ratio_sem p)) b) \/
    coprimep (map_poly (ratr : rat -> RR) (pval ratio_sem p)) (map_poly ratr (pval ratio_sem p))^`() ->
  exists2 s, roots_listed (map_poly ratr (pval ratio_sem p)) a b s &
    sign_variations (map (fun u => (map_poly ratr (pval ratio_sem u)).[a]) (p :: l)) =
    (sign_variations (map (fun u => (map_poly ratr (pval ratio_sem u)).[b]) (p :: l)) + size s)%N.
Proof.
move=> Hp p0.
have [l [El _ H]] := @primitive_sturm_spec ratio_coef [realDomainType of rat] ratio_sem ratio_exact ratio_exact_sem
  RR [rmorphism of ratr] ratr_mono ratio_content ratio_content_sem p Hp p0.
exists l; split=> // a b ab N; apply: (sturm_final H) => //.
by rewrite map_poly_eq0.
Qed.

Lemma sturm_ratio p : wf ratio_sem p -> pval ratio_sem p != 0 ->
  exists l, sturm_sequence ratio_exact p = Ret (p :: l) /\
  forall a b : RR, a < b ->
  (~~ root (map_poly ratr (pval ratio_sem p)) a /\ ~~ root (map_poly ratr (pval ratio_sem p)) b) \/
    coprimep (map_poly (ratr : rat -> RR) (pval ratio_sem p)) (map_poly ratr (pval ratio_sem p))^`() ->
  exists2 s, roots_listed (map_poly ratr (pval ratio_sem p)) a b s &
    sign_variations (map (fun u => (map_poly ratr (pval ratio_sem u)).[a]) (p :: l)) =
    (sign_variations (map (fun u => (map_poly ratr (pval ratio_sem u)).[b]) (p :: l)) + size s)%N.
Proof.
move=> Hp p0.
have [l [El _ H]] := @sturm_spec ratio_coef [realFieldType of rat] ratio_sem ratio_exact ratio_exact_sem
  RR [rmorphism of ratr] ratr_mono p Hp p0.
exists l; split=> // a b ab N; apply: (sturm_final H) => //.
by rewrite map_poly_eq0.
Qed.
End Sturm.

(** * Content and norms over the integers and rationals *)
Lemma int_map_intr (W : {poly int}) : map_poly (intr : int -> int) W = W.
Proof. by apply/polyP => i; rewrite coef_map_id0 //= intz. Qed.

Lemma content_int p : wf int_sem p ->
  exists c r, [/\ content int_content p = Ret c, primitive_part int_exact int_content p = Ret r, wf int_sem r,
    nonzero_content int_content p = Ret (if pval int_sem p == 0 then None else Some c) &
    [/\ vc int_sem c = zcontents (pval int_sem p), pval int_sem r = zprimitive (pval int_sem p)
      & pval int_sem p = vc int_sem c *: pval int_sem r]].
Proof.
move=> Hp; have [p0|p0] := eqVneq (pval int_sem p) 0.
  have [E1 E2 E3] := content_zero int_exact int_content Hp p0.
  exists 0%ZZ, p; split=> //; split; rewrite ?p0 ?zcontents0 ?zprimitive0 ?scaler0 //.
have [c [r [W [[E1 E2] [E3 _] Hr [Er ZW] Ep]]]] :=
  @content_primitive int_coef [realDomainType of int] int_sem int_exact int_exact_sem int_content int_content_sem p Hp p0.
have Er' : pval int_sem r = W by transitivity (map_poly (intr : int -> int) W); [exact: Er|exact: int_map_intr].
have Ep' : pval int_sem p = vc int_sem c *: W by rewrite -Er'; exact: Ep.
have Ec : vc int_sem c = zcontents (pval int_sem p) by rewrite Ep' zcontentsZ ZW mulr1.
have c0 : vc int_sem c != 0 by apply: contraNneq p0 => c0; rewrite Ep' c0 scale0r.
exists c, r; split=> //; split=> //.
by rewrite Er' Ep' zprimitiveZ // {1}(zpolyEprim W) ZW scale1r.
Qed.

Lemma content_ratio p : wf ratio_sem p -> pval ratio_sem p != 0 ->
  exists c r (W : {poly int}),
    [/\ content ratio_content p = Ret c /\ nonzero_content ratio_content p = Ret (Some c),
      primitive_part ratio_exact ratio_content p = Ret r, wf ratio_sem r,
      pval ratio_sem r = map_poly intr W /\ zcontents W = 1 & pval ratio_sem p = vc ratio_sem c *: pval ratio_sem r].
Proof.
move=> Hp p0.
have [c [r [W [[E1 E2] [E3 _] Hr H Ep]]]] :=
  @content_primitive ratio_coef [realDomainType of rat] ratio_sem ratio_exact ratio_exact_sem ratio_content ratio_content_sem p Hp p0.
by exists c, r, W.
Qed.

Lemma max_norm_int p : wf int_sem p ->
  (forall i, `|(pval int_sem p)`_i| <= vc int_sem (max_norm int_abs p)) /\
  (exists i, `|(pval int_sem p)`_i| = vc int_sem (max_norm int_abs p)) /\
  nonzero_max_norm int_abs p = if pval int_sem p == 0 then None else Some (max_norm int_abs p).
Proof. exact: (max_norm_spec int_abs_sem). Qed.
Lemma max_norm_ratio p : wf ratio_sem p ->
  (forall i, `|(pval ratio_sem p)`_i| <= vc ratio_sem (max_norm ratio_abs p)) /\
  (exists i, `|(pval ratio_sem p)`_i| = vc ratio_sem (max_norm ratio_abs p)) /\
  nonzero_max_norm ratio_abs p = if pval ratio_sem p == 0 then None else Some (max_norm ratio_abs p).
Proof. exact: (max_norm_spec ratio_abs_sem). Qed.
Lemma manhattan_norm_int p : wf int_sem p ->
  vc int_sem (manhattan_norm int_abs p) = \sum_(i < size (pval int_sem p)) `|(pval int_sem p)`_i| /\
  nonzero_manhattan_norm int_abs p = if pval int_sem p == 0 then None else Some (manhattan_norm int_abs p).
Proof. exact: (manhattan_norm_spec int_abs_sem). Qed.
Lemma manhattan_norm_ratio p : wf ratio_sem p ->
  vc ratio_sem (manhattan_norm ratio_abs p) = \sum_(i < size (pval ratio_sem p)) `|(pval ratio_sem p)`_i| /\
  nonzero_manhattan_norm ratio_abs p = if pval ratio_sem p == 0 then None else Some (manhattan_norm ratio_abs p).
Proof. exact: (manhattan_norm_spec ratio_abs_sem). Qed.

(** * Variable names *)
Local Open Scope string_scope.
Local Open Scope nat_scope.

Lemma app_last_inj (s s' c c' : string) : String.length c = 1 -> String.length c' = 1 ->
  s ++ c = s' ++ c' -> s = s' /\ c = c'.
Proof.
move=> Lc Lc'; elim: s s' => [|a s IH] [|a' s'] //=.
- by move=> E; rewrite E /= in Lc; case: Lc; case: s' E => [E|//]; rewrite /= Lc'.
- by move=> E; rewrite -E /= in Lc'; case: Lc'; case: s E IH => [E _|//]; rewrite /= Lc.
- by case=> -> /IH [-> ->].
Qed.

Lemma vchar_len i : i < 26 -> String.length (nth "" variable_chars i) = 1.
Proof. by do 26! (case: i => [//|i]). Qed.
Lemma vchar_inj i j : i < 26 -> j < 26 -> nth "" variable_chars i = nth "" variable_chars j -> i = j.
Proof.
pose code s := if s is String a _ then Ascii.nat_of_ascii a else 0.
move=> Hi Hj E; apply/eqP; rewrite -(nth_uniq 0 (s := map code variable_chars)) //.
by rewrite !(nth_map "") // E.
Qed.

Lemma variable_name_ok fuel n : n < fuel -> exists2 s, variable_name_fuel fuel n = Ret s & 0 < String.length s.
Proof.
elim: fuel n => [//|fuel IH] n Hn; rewrite [variable_name_fuel _ _]/=.
case: (ltnP n 26) => H; first by eexists; [reflexivity|rewrite vchar_len].
have [|s -> Ls] := IH (n %/ 26).
  by rewrite ltnS in Hn; apply: leq_trans Hn; rewrite ltn_Pdiv // (leq_trans _ H).
eexists; first reflexivity.
by case: s Ls.
Qed.

Lemma app_length (s t : string) : String.length (s ++ t) = String.length s + String.length t.
Proof. by elim: s => //= a s ->. Qed.

Lemma variable_name_fuel_inj f f' n n' s : variable_name_fuel f n = Ret s -> variable_name_fuel f' n' = Ret s -> n = n'.
Proof.
elim: f f' n n' s => [//|f IH] [//|f'] n n' s; rewrite [variable_name_fuel f.+1 _]/= [variable_name_fuel f'.+1 _]/=.
have L k : String.length (nth "" variable_chars (k %% 26)) = 1 by rewrite vchar_len // ltn_mod.
have P g k t : variable_name_fuel g k = Ret t -> 0 < String.length t.
  elim: g k t => [//|g IHg] k t; rewrite [variable_name_fuel _ _]/=; case: (ltnP k 26) => Hk.
    by case=> <-; rewrite vchar_len.
  case E : (variable_name_fuel g _) => [u| |] //= [<-]; rewrite app_length.
  by have := IHg _ _ E; case: (String.length u).
case: (ltnP n 26) => Hn; case: (ltnP n' 26) => Hn'.
- by case=> <- [] /(vchar_inj Hn' Hn) ->.
- case=> <-; case E : (variable_name_fuel f' _) => [u| |] //= [] /(congr1 String.length).
  by rewrite app_length L vchar_len // addn1 => -[] Lu; have := P _ _ _ E; rewrite Lu.
- case E : (variable_name_fuel f _) => [u| |] //= [<-] [] /(congr1 String.length).
  by rewrite app_length L vchar_len // addn1 => -[] Lu; have := P _ _ _ E; rewrite -Lu.
- case E : (variable_name_fuel f _) => [u| |] //= [<-].
  case E' : (variable_name_fuel f' _) => [u'| |] //= [] /(app_last_inj (L _) (L _)) [Eu /vchar_inj Em].
  rewrite Eu in E'; rewrite (divn_eq n 26) (divn_eq n' 26) (IH _ _ _ _ E E') Em ?ltn_mod //.
Qed.

Lemma variable_names : (forall n, exists s, get_variable_name n = Ret s) /\
  (forall n n' s, get_variable_name n = Ret s -> get_variable_name n' = Ret s -> n = n').
Proof.
split=> [n|n n' s]; first by have [s E _] := @variable_name_ok n.+1 n (leqnn _); exists s.
exact: variable_name_fuel_inj.
Qed.
