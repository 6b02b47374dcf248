(** Choosing the root of a resultant: the loop behind addition,
    multiplication and powers. *)
From Coq Require Import ZArith QArith Qreals Qround Reals Lia Lra.
Set Warnings "-notation-overridden,-ambiguous-paths".
From mathcomp Require Import all_ssreflect all_algebra all_field.
From mathcomp.zify Require Import ssrZ.
From mathcomp Require Import polyrcf.
From Verif Require Import M_Base M_Traits M_Util M_Interval M_Poly M_PolyCoef P_PolyInst M_PolyAlg M_Factor M_Alg
  S_Poly S_PolyAlg S_Factor S_Interval P_Interval P_Poly P_PolyAlgInst P_PolyAlgRef P_Rstruct S_Alg P_AlgBase P_AlgShrink P_AlgBasic P_AlgSign.
Set Implicit Arguments.
Unset Strict Implicit.
Unset Printing Implicit Defensive.
Import Order.TTheory GRing.Theory Num.Theory.
Delimit Scope Z_scope with ZZ.
Delimit Scope R_scope with RR.
Delimit Scope Q_scope with QQ.
Local Open Scope R_scope.
Local Notation Rt p := (root (real_poly p)).
Local Notation PV p := (pval int_sem p).

(** [l] is the Sturm sequence of [g], starting with [g]. *)
Definition seq_of (g : zpoly) (l : seq zpoly) : Prop := sturm_ok g l /\ into_factor l = g.
Definition rooted (w : R) (gs : seq zpoly) : bool := has (fun g => Rt g w) gs.
(** No two of the polynomials share a root. *)
Definition apart (gs : seq zpoly) : Prop := forall w, (count (fun g => Rt g w) gs <= 1)%N.

Lemma apart_cons g gs : apart (g :: gs) -> apart gs /\ forall w, Rt g w -> ~~ rooted w gs.
Proof.
move=> h; split=> w; have := h w; rewrite /= /rooted; first by case: (Rt g w) => // /ltnW.
by move=> c gw; move: c; rewrite gw has_count -leqNgt add1n ltnS.
Qed.
(** [gs'] is what is left of [gs] after removing polynomials without roots in [i]. *)
Definition left_of (i : dfi) (gs gs' : seq zpoly) : Prop :=
  [/\ forall P : zpoly -> Prop, List.Forall P gs -> List.Forall P gs',
      forall w, (count (fun g => Rt g w) gs' <= count (fun g => Rt g w) gs)%N,
      List.Forall (fun g => exists2 w, inI w i & Rt g w) gs' &
      forall w, inI w i -> rooted w gs' = rooted w gs].

Lemma bounds_red i : Qred (dfi_lower_bound i) = dfi_lower_bound i /\ Qred (dfi_upper_bound i) = dfi_upper_bound i.
Proof. by rewrite /dfi_lower_bound /dfi_upper_bound; split; apply: Qcanon.Qred_involutive. Qed.

Lemma pass_ok i : lo i <= hi i -> forall gs l kept n, List.Forall2 seq_of gs l -> apart gs ->
  match select_pass (dfi_lower_bound i) (dfi_upper_bound i) l kept n with
  | inl q => [/\ Qred q = q, Q2R q = lo i \/ Q2R q = hi i & rooted (Q2R q) gs]
  | inr (k, m) => exists gs' l' s, [/\ k = rev kept ++ l', List.Forall2 seq_of gs' l', left_of i gs gs' &
      [/\ uniq s, forall w, w \in s <-> inI w i /\ rooted w gs & m = (n + size s)%N]]
  end.
Proof.
move=> ok; elim=> [|g gs IH] l kept n H ap; inversion_clear H as [|? x ? l' [hs hd] H'].
  rewrite /=; exists [::], [::], [::]; split; rewrite ?cats0 //=.
  by split=> //; rewrite ?addn0 // => w; split=> // -[].
have [ap' ng] := apart_cons ap; cbn [select_pass].
rewrite (root_at hs (pt_lo i)); case: ifP => rl.
  have [r1 _] := bounds_red i; have [e1 _] := bound_Q i; split=> //; first by left.
  by rewrite -e1 /rooted /= rl.
rewrite (root_at hs (pt_hi i)); case: ifP => rh.
  have [_ r1] := bounds_red i; have [_ e1] := bound_Q i; split=> //; first by right.
  by rewrite -e1 /rooted /= rh.
set cl := sc_count _; set cu := sc_count _.
have [s [us ms ec]] : exists s, [/\ uniq s, forall w, w \in s <-> inI w i /\ Rt g w & cl = (cu + size s)%N].
  case: (Rle_lt_or_eq_dec _ _ ok) => hlt.
    have [s [us ms ec]] := count_ex hs (pt_lo i) (pt_hi i) hlt (negbT rl) (negbT rh).
    exists s; split=> // w; rewrite ms inIE; split; first by case=> h1 h2 h3; split=> //; lra.
    case=> -[[h1|h1] [h2|h2]] h3; split=> //; exfalso; move: h3; rewrite ?h2 ?rh // -h1 rl //.
  exists [::]; split=> //; last first.
    by rewrite addn0 /cl /cu (changes_ext x (pt_lo i) (B := At (dfi_upper_bound i))) // hlt; exact: pt_hi.
  move=> w; split=> // -[]; rewrite inIE hlt => h3 h4.
  have e : w = hi i by lra.
  by rewrite e rh in h4.
have ed : distance cl cu = size s by rewrite ec /distance; case: ifP => h; lia.
case: ifP => ecu; last first.
  move/negbFE/eqP: ecu => ecu.
  have s0 : s = [::] by apply: size0nil; lia.
  have nog w : inI w i -> Rt g w = false.
    by move=> h; apply/negP => h2; have := (ms w).2 (conj h h2); rewrite s0.
  have := IH l' kept n H' ap'; case: select_pass => [q|[k m]].
    by case=> h1 h2 h3; split=> //; rewrite /rooted /= -/(rooted _ gs) h3 orbT.
  case=> gs' [l2 [s2 [ek fl [le1 le2 le3 le4] [us2 ms2 em]]]]; exists gs', l2, s2; split=> //.
    split=> // [P H|w|w iw]; first by inversion_clear H; exact: le1.
      by apply: leq_trans (le2 w) _; rewrite /= leq_addl.
    by rewrite le4 // /rooted /= nog.
  split=> // w; rewrite ms2 /rooted /=; split=> -[iw h]; split=> //; first by rewrite h orbT.
  by move: h; rewrite nog.
rewrite ed; have := IH l' (x :: kept) (n + size s)%N H' ap'; case: select_pass => [q|[k m]].
  by case=> h1 h2 h3; split=> //; rewrite /rooted /= -/(rooted _ gs) h3 orbT.
case=> gs' [l2 [s2 [ek fl [le1 le2 le3 le4] [us2 ms2 em]]]]; exists (g :: gs'), (x :: l2), (s ++ s2); split=> //.
- by rewrite ek rev_cons -cats1 -catA.
- by constructor.
- split=> [P H|w||w iw].
  + by inversion_clear H; constructor=> //; exact: le1.
  + by rewrite /= leq_add2l.
  + constructor=> //; case: s us ms ec ed ecu {em} => [|w s] us ms ec ed ecu.
      by move: ecu; rewrite ec addn0 eqxx.
    by have [|h1 h2] := (ms w).1; [exact: mem_head|exists w].
  by rewrite /rooted /= -/(rooted _ gs') le4.
split; last by rewrite em size_cat addnA.
  rewrite cat_uniq us us2 andbT; apply/hasPn => w /ms2 [h1 h2]; apply/negP => /ms [_ h3].
  by move: (ng w h3); rewrite h2.
move=> w; rewrite mem_cat; split; last first.
  case=> iw; rewrite /rooted /= => /orP[h|h]; first by rewrite (ms w).2.
  by rewrite (ms2 w).2 ?orbT.
by case/orP => [/ms|/ms2] [h1 h2]; split=> //; rewrite /rooted /= ?h2 // -/(rooted w gs) h2 orbT.
Qed.

(** * The loop *)
Section Loop.
Variables (St : Type) (get : St -> res dfi) (step : St -> res St).
Variables (v : R) (sts : nat -> St) (itvs : nat -> dfi).
Hypotheses (get_sts : forall n, get (sts n) = Ret (itvs n)) (step_sts : forall n, step (sts n) = Ret (sts n.+1)).
Hypothesis v_in : forall n, inI v (itvs n).
Hypothesis conv : forall eps, 0 < eps -> exists N, width (itvs N) < eps.

(** The candidate roots other than [v] keep a distance. *)
Lemma gap_seq (s : seq R) : exists2 eps, 0 < eps & forall w, w \in s -> w <> v -> eps <= Rabs (w - v).
Proof.
elim: s => [|u s [eps e0 IH]]; first by exists 1 => //; lra.
case: (Req_dec u v) => [->|uv].
  by exists eps => // w; rewrite inE => /orP[/eqP ->|]; [|exact: IH].
exists (Rmin eps (Rabs (u - v))).
  by apply: Rmin_glb_lt => //; apply: Rabs_pos_lt; lra.
move=> w; rewrite inE => /orP[/eqP -> _|/IH h /h h']; first exact: Rmin_r.
by apply: Rle_trans (Rmin_l _ _) h'.
Qed.
Lemma gap gs : List.Forall (fun g => real_poly g != 0%R) gs ->
  exists2 eps, 0 < eps & forall w, rooted w gs -> w <> v -> eps <= Rabs (w - v).
Proof.
move=> n0; have [eps e0 h] := gap_seq (flatten [seq rootsR (real_poly g) | g <- gs]).
exists eps => // w rw; apply: h; elim: gs n0 rw => // g gs IH n0; inversion_clear n0 as [|? ? g0 gs0].
by rewrite /rooted /= mem_cat -(roots_on_rootsR g0 w) => /orP[->//|/(IH gs0) ->]; rewrite orbT.
Qed.

(** What the loop may return. *)
Definition endpoint_result (gs : seq zpoly) (z : ralg) : Prop :=
  exists n q, [/\ z = ra_from_ratio q, Qred q = q, Q2R q = lo (itvs n) \/ Q2R q = hi (itvs n) & rooted (Q2R q) gs].
Definition isolated_result (gs : seq zpoly) (z : ralg) : Prop :=
  exists n g, [/\ z = RA g (itvs n), List.In g gs, Rt g v & forall w, inI w (itvs n) -> Rt g w -> w = v].

Lemma rooted_sub gs gs' w : (forall P : zpoly -> Prop, List.Forall P gs -> List.Forall P gs') -> rooted w gs' -> rooted w gs.
Proof.
move=> h; apply: contraLR => n.
have : List.Forall (fun g => ~~ Rt g w) gs.
  by elim: gs n {h} => // g gs IH; rewrite /rooted /= negb_or => /andP[? ?]; constructor=> //; exact: IH.
move/h; elim: gs' {h} => // g gs' IH H; inversion_clear H; rewrite /rooted /= negb_or; apply/andP; split=> //.
exact: IH.
Qed.
Lemma result_sub gs gs' z : (forall P : zpoly -> Prop, List.Forall P gs -> List.Forall P gs') ->
  endpoint_result gs' z \/ isolated_result gs' z -> endpoint_result gs z \/ isolated_result gs z.
Proof.
move=> h [[n [q [e1 e2 e3 e4]]]|[n [g [e1 e2 e3 e4]]]]; [left|right].
  by exists n, q; split=> //; exact: rooted_sub e4.
exists n, g; split=> //; have : List.Forall (fun g => List.In g gs) gs by apply/List.Forall_forall.
by move/h/List.Forall_forall; exact.
Qed.

Lemma last_pass gs l n k m s gs' l' : List.Forall2 seq_of gs' l' -> left_of (itvs n) gs gs' -> rooted v gs ->
  (forall w, w \in s <-> inI w (itvs n) /\ rooted w gs) -> (size s <= 1)%N -> (m <= 1)%N -> k = l' ->
  select_pass (dfi_lower_bound (itvs n)) (dfi_upper_bound (itvs n)) l [::] 0 = inr (k, m) ->
  exists z, eventually (fun fuel => select_loop get step fuel (sts n) l) z /\ isolated_result gs z.
Proof.
move=> fl [le1 le2 le3 le4] rv ms s1 m1 ek EP.
have vs : v \in s by apply/ms; split.
have only w : w \in s -> w = v.
  by case: s s1 vs {ms} => [|a []] // _; rewrite !inE => /eqP -> /eqP.
case: fl le1 le2 le3 le4 ek => [|g x gs2 l2 [sg hd] fl2] le1 le2 le3 le4 ek.
  by have := le4 v (v_in n); rewrite rv.
exists (RA g (itvs n)); split.
  by exists 1%N => -[|fuel] //; cbn [select_loop]; rewrite get_sts; cbn [rbind]; rewrite EP m1 ek hd.
have ing : List.In g gs.
  have : List.Forall (fun g => List.In g gs) gs by apply/List.Forall_forall.
  by move/le1 => H; inversion_clear H.
have u w : inI w (itvs n) -> Rt g w -> w = v.
  by move=> iw rw; apply: only; apply/ms; split=> //; rewrite -le4 // /rooted /= rw.
exists n, g; split=> //; inversion_clear le3 as [|? ? [w iw rw] _].
by rewrite -(u w iw rw).
Qed.

Lemma select_loop_ok gs l : List.Forall (fun g => real_poly g != 0%R) gs -> List.Forall2 seq_of gs l -> apart gs -> rooted v gs ->
  exists z, eventually (fun fuel => select_loop get step fuel (sts 0%N) l) z /\ (endpoint_result gs z \/ isolated_result gs z).
Proof.
move=> n0 H ap rv; have [eps e0 heps] := gap n0; have [N hN] := conv e0.
suff L d : forall n gs l, (n + d)%N = N -> (forall w, rooted w gs -> w <> v -> eps <= Rabs (w - v)) ->
    List.Forall2 seq_of gs l -> apart gs -> rooted v gs ->
    exists z, eventually (fun fuel => select_loop get step fuel (sts n) l) z /\ (endpoint_result gs z \/ isolated_result gs z).
  exact: (L N 0%N gs l).
elim: d => [|d IH] n {H rv ap heps n0}gs {}l hn heps H ap rv.
all: have ok : lo (itvs n) <= hi (itvs n) by have := v_in n; rewrite inIE; lra.
all: have := pass_ok ok [::] 0 H ap; case EP: (select_pass _ _ _ _ _) => [q|[k m]].
1,3: case=> h1 h2 h3; exists (ra_from_ratio q); split; last by left; exists n, q.
1,2: by exists 1%N => -[|fuel] //; cbn [select_loop]; rewrite get_sts; cbn [rbind]; rewrite EP.
all: case=> gs' [l' [s [ek fl lf [us ms em]]]]; rewrite add0n in em; rewrite /= in ek.
- have s1 : (size s <= 1)%N.
    have h w : w \in s -> w = v.
      move=> /ms [iw rw]; case: (Req_dec w v) => // nw; have := heps w rw nw; have := v_in n.
      rewrite addn0 in hn; move: iw hN; rewrite -hn !inIE /width => h1 h2 h3.
      by rewrite /Rabs; case: Rcase_abs => ?; lra.
    case: s us h {ms em} => [|a [|b s]] // /andP[]; rewrite inE negb_or => /andP[/eqP nab _] _ h.
    case: nab; have ha : a = v by apply: h; exact: mem_head.
    by rewrite ha; symmetry; apply: h; rewrite inE mem_head orbT.
  have m1 : (m <= 1)%N by rewrite em.
  by have [z [z1 z2]] := last_pass fl lf rv ms s1 m1 ek EP; exists z; split=> //; right.
- case: (leqP m 1) => m1.
    have s1 : (size s <= 1)%N by rewrite -em.
    by have [z [z1 z2]] := last_pass fl lf rv ms s1 m1 ek EP; exists z; split=> //; right.
  have [le1 le2 le3 le4] := lf.
  have [||||z [[M hM] hz]] := IH n.+1 gs' l' _ _ fl _ _.
  + by rewrite addSnnS.
  + by move=> w rw; apply: heps; exact: rooted_sub rw.
  + by move=> w; apply: leq_trans (le2 w) (ap w).
  + by rewrite le4.
  exists z; split; last exact: result_sub hz.
  exists M.+1 => -[|fuel] //; cbn [select_loop]; rewrite get_sts; cbn [rbind].
  by rewrite EP leqNgt m1 /= step_sts ek; cbn [rbind]; rewrite hM.
Qed.
End Loop.
