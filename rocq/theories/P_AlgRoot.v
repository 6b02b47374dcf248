(** Choosing the root of a polynomial that is factored first. *)
From Coq Require Import ZArith QArith Qreals Qround Reals Lia Lra.
Set Warnings "-notation-overridden,-ambiguous-paths".
From mathcomp Require Import all_ssreflect all_algebra all_field.
From mathcomp.zify Require Import ssrZ.
From Verif Require Import M_Base M_Traits M_Util M_Interval M_Poly M_PolyCoef P_PolyInst M_PolyAlg M_Factor M_Alg
  S_Poly S_PolyAlg S_Factor S_Interval P_Interval P_Poly P_PolyAlgInst P_PolyAlgRef P_FactorZ P_FactorAll P_FactorSF
  P_Rstruct S_Alg P_AlgBase P_AlgShrink P_AlgBasic P_AlgSign P_AlgSelect.
Set Implicit Arguments.
Unset Strict Implicit.
Unset Printing Implicit Defensive.
Import Order.TTheory GRing.Theory Num.Theory.
Delimit Scope Z_scope with ZZ.
Delimit Scope R_scope with RR.
Delimit Scope Q_scope with QQ.
Local Open Scope ring_scope.
Local Notation Rt p := (root (real_poly p)).
Local Notation PV p := (pval int_sem p).
Local Notation rp := (map_poly (intr : int -> rat)).

Lemma real_rp p : real_poly p = map_poly (ratr : rat -> R) (rp (PV p)).
Proof. exact: real_poly_rat. Qed.

Lemma root_prod_has (A : Type) (f : A -> {poly R}) l w : root (\prod_(a <- l) f a) w = has (fun a => root (f a) w) l.
Proof.
elim: l => [|a l IH]; first by rewrite big_nil /= (negbTE (root1 _)).
by rewrite big_cons rootM IH.
Qed.

(** Coprime over the rationals, so no common real root. *)
Lemma coprime_root (p q : {poly rat}) (w : R) : coprimep p q -> root (map_poly ratr p) w -> ~~ root (map_poly ratr q) w.
Proof.
rewrite -(coprimep_map [rmorphism of (ratr : rat -> R)]) => cp rw; apply/negP => rq.
exact: (negP (coprimep_root cp rw)).
Qed.
Lemma sep_apart gs : separable_poly (\prod_(g <- gs) rp (PV g)) -> apart gs.
Proof.
elim: gs => // g gs IH; rewrite big_cons separable_mul => /and3P[_ /IH ap cp] w; rewrite /=.
case rg: (Rt g w); last exact: ap.
rewrite add1n ltnS leqn0 -leqn0 leqNgt -has_count; apply/negP => h.
move: rg; rewrite real_rp => /(coprime_root cp) /negP; apply.
by rewrite rmorph_prod root_prod_has (eq_has (a2 := fun g => Rt g w)) // => a; rewrite real_rp.
Qed.

Lemma real_n0 g : PV g != 0 -> real_poly g != 0.
Proof. by move=> g0; rewrite -size_poly_eq0 /real_poly size_map_inj_poly ?size_poly_eq0 // => x y /intr_inj. Qed.

Lemma sturm_map fs : List.Forall factor_ok fs -> exists l,
  map_res (fun f : zpoly * nat => to_primitive_sturm f.1) fs = Ret l /\ List.Forall2 seq_of (map fst fs) l.
Proof.
elim: fs => [|f fs IH] H; first by exists [::]; split=> //; constructor.
inversion_clear H as [|? l0 [pf s1 n1] H']; have [l [el fl]] := IH H'.
have [s [es hs]] := @sturm_total f.1 (proj1 pf) (primwf_n0 pf).
by exists ((f.1 :: s) :: l); split; [rewrite /= es; cbn [rbind]; rewrite el|constructor].
Qed.

Lemma factor_root (P : zpoly) c fs w : PV P = zi c *: \prod_(fn <- fs) PV fn.1 ^+ fn.2 -> PV P != 0 ->
  List.Forall factor_ok fs -> Rt P w = rooted w (map fst fs).
Proof.
move=> E P0 H; have c0 : zi c != 0 by apply: contraNneq P0; rewrite E => ->; rewrite scale0r.
rewrite /real_poly E map_polyZ rootZ /=; last by rewrite intr_eq0.
rewrite rmorph_prod root_prod_has /rooted has_map /=; elim: fs H {E} => //= f fs IH H.
inversion_clear H as [|? ? [pf s1 n1] H']; rewrite IH // rmorphX /=; congr (_ || _).
by case: (f.2) n1 => // n _; rewrite /root horner_exp expf_eq0.
Qed.

Section Root.
Variables (St : Type) (get : St -> res dfi) (step : St -> res St).
Variables (v : R) (sts : nat -> St) (itvs : nat -> dfi).
Hypotheses (get_sts : forall n, get (sts n) = Ret (itvs n)) (step_sts : forall n, step (sts n) = Ret (sts n.+1)).
Hypothesis v_in : forall n, inI v (itvs n).
Hypothesis conv : forall eps, (0 < eps)%RR -> exists N, (width (itvs N) < eps)%RR.
Variables (rng : nat -> Z) (ffuel : nat) (P : zpoly).
Hypotheses (wP : wf int_sem P) (P0 : PV P != 0) (Pv : Rt P v).

(** What is returned: the right number, or a wrong end point. *)
Lemma select_root_ok c fs : factor_with_rng rng ffuel P = Ret (c, fs) ->
  exists z, eventually (fun fuel => select_root get step rng ffuel fuel (sts 0%N) P) z /\
   ((exists n q, [/\ z = ra_from_ratio q, Qred q = q, Q2R q = lo (itvs n) \/ Q2R q = hi (itvs n) & Rt P (Q2R q)]) \/
    (exists n f, [/\ z = RA f.1 (itvs n), List.In f fs, factor_ok f, Rt f.1 v & forall w, inI w (itvs n) -> Rt f.1 w -> w = v])).
Proof.
move=> E; have := @factor_all_ok rng ffuel P wP; rewrite E => -[fo EP].
have [l [el fl]] := sturm_map fo.
have rad := factor_rad wP E.
have ap : apart (map fst fs) by apply: sep_apart; rewrite big_map.
have rr w := factor_root w EP P0 fo.
have n0 : List.Forall (fun g => real_poly g != 0) (map fst fs).
  by apply/List.Forall_map; apply: List.Forall_impl fo => f [pf _ _]; apply: real_n0; exact: primwf_n0.
have [|z [hz hz2]] := select_loop_ok get_sts step_sts v_in conv n0 fl ap; first by rewrite -rr.
exists z; split.
  by apply: eventually_ext hz => fuel; rewrite /select_root E; cbn [rbind]; rewrite el.
case: hz2 => [[n [q [e1 e2 e3 e4]]]|[n [g [e1 e2 e3 e4]]]]; [left|right].
  by exists n, q; split=> //; rewrite rr.
have /List.in_map_iff [f [ef inf]] := e2; exists n, f; rewrite ef; split=> //.
by move/List.Forall_forall: fo; exact.
Qed.

Lemma select_denotes c fs : factor_with_rng rng ffuel P = Ret (c, fs) ->
  (forall f n, List.In (f, n) fs -> Rt f v -> irreducible_over_Q (PV f)) ->
  (forall n q, Q2R q = lo (itvs n) \/ Q2R q = hi (itvs n) -> Rt P (Q2R q) -> Q2R q = v) ->
  exists z, [/\ eventually (fun fuel => select_root get step rng ffuel fuel (sts 0%N) P) z, denotes z v & canonical z].
Proof.
move=> E irr ends; have [z [hz H]] := select_root_ok E; exists z.
case: H => [[n [q [ez rq en rt]]]|[n [f [ez inf [pf s1 _] rv u]]]]; rewrite ez in hz *.
  by have [d c1] := from_ratio_denotes rq; split=> //; rewrite -(ends n q en rt).
split=> //; last exact: (proj2 pf).
split=> //; first exact: (proj1 pf).
- by case: f inf rv {ez hz pf s1 u} => f k; exact: irr.
- by split; [exact: v_in|exact: rv].
by move=> _; exact: (proj2 pf).
Qed.
End Root.
