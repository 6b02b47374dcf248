(** The lattice reduction ends for independent vectors. *)
From Coq Require Import ZArith QArith Qabs Qround Qfield List Arith Bool Lia Lqa Setoid Morphisms Wf_Z.
From Verif Require Import M_Base M_Traits M_IntervalExp M_Array2D M_Lattice.
From Verif Require Import S_Array2D P_Array2D S_Lattice P_Lattice P_LLL P_LatticeDet.
Import ListNotations.

Lemma qprod_ext n f g : (forall i, (i < n)%nat -> f i == g i) -> qprod n f == qprod n g.
Proof.
induction n as [|n IH]; intros H; [easy|]. rewrite !qprod_S, IH, H by (intros; try apply H; lia).
easy.
Qed.

Lemma qprod_pos n f : (forall i, (i < n)%nat -> 0 < f i) -> 0 < qprod n f.
Proof.
induction n as [|n IH]; intros H; [easy|]. rewrite qprod_S.
apply Qmult_lt_0_compat; [apply IH; intros; apply H; lia|apply H; lia].
Qed.

Section Term.
Variables (n m : nat).

(** the sum of the Gram determinants of the initial segments *)
Definition pot (B : nat -> nat -> Z) : Z := zsum (S n) (fun i => gdet i m B).

Lemma dot_pos B O k j : independent n m B -> is_gs k m B O -> (j < k)%nat -> (k <= n)%nat ->
  0 < dot m (O j) (O j).
Proof.
intros Hi Hg Hj Hk. pose proof (dot_self_nonneg m (O j)).
assert (~ dot m (O j) (O j) == 0).
{ apply (indep_nz n m B O j Hi); [|lia]. apply (is_gs_le m B k); [lia|easy]. }
lra.
Qed.

Lemma gs_ex B : exists O, is_gs n m B O.
Proof.
destruct (new_with_positions_ok n m (fun _ => B)) as [a [E H]].
destruct (gram_schmidt_ok a n m B) as [o [O [_ [_ HO]]]]; [|easy|now exists O].
unfold new_with_positions in E. destruct (iter_collect _ _ _) as [l| |]; try easy.
exact (made_from n m _ a E).
Qed.

Lemma gdet_pos B i : independent n m B -> (i <= n)%nat -> (0 < gdet i m B)%Z.
Proof.
intros Hi Hl. destruct (gs_ex B) as [O HO].
assert (HOi : is_gs i m B O) by (apply (is_gs_le m B n); [lia|easy]).
rewrite Zlt_Qlt, (gdet_prod HOi). apply qprod_pos. intros j Hj.
apply (dot_pos B O i); easy.
Qed.

Lemma zsum_nonneg a f : (forall i, (i < a)%nat -> 0 <= f i)%Z -> (0 <= zsum a f)%Z.
Proof.
induction a as [|a IH]; intros H; [easy|]. rewrite zsum_S.
pose proof (H a ltac:(lia)). assert (0 <= zsum a f)%Z by (apply IH; intros; apply H; lia). lia.
Qed.

Lemma pot_nonneg B : independent n m B -> (0 <= pot B)%Z.
Proof.
intros Hi. apply zsum_nonneg. intros i Hl. pose proof (gdet_pos B i Hi). lia.
Qed.

(** size reduction keeps the orthogonalisation *)
Lemma srel_gs k B B1 O : srel k B B1 -> (k < n)%nat -> is_gs n m B O -> is_gs n m B1 O.
Proof.
intros [H1 [c H2]] Hk HO. split; [apply HO|]. intros i Hi.
destruct (proj2 HO i Hi) as [mu E].
destruct (Nat.eq_dec i k) as [->|Hik].
- assert (S1 : qspan m k O (fun y => qsum k (fun l => inject_Z (c l) * qvec B l y))).
  { apply (qspan_sum m k O k (fun l y => inject_Z (c l) * qvec B l y)). intros l Hl.
    apply qspan_scale. apply (qspan_le m (S l)); [lia|]. apply (gs_in_span n m B O l); [easy|lia]. }
  destruct S1 as [nu En]. exists (fun j => mu j + nu j). intros y Hy.
  transitivity (qvec B k y + qsum k (fun l => inject_Z (c l) * qvec B l y)).
  + unfold qvec at 1. rewrite H2, inject_Z_plus, inject_zsum. apply Qplus_comp; [easy|].
    apply qsum_ext. intros l _. rewrite inject_Z_mult. easy.
  + rewrite (En y Hy : _ == _), (E y Hy), <- Qplus_assoc, <- qsum_add.
    apply Qplus_comp; [easy|]. apply qsum_ext. intros j _. ring.
- exists mu. intros y Hy. unfold qvec. rewrite (H1 i y Hik). now apply E.
Qed.

Lemma srel_gdet k B B1 i : srel k B B1 -> (k < n)%nat -> (i <= n)%nat -> gdet i m B1 = gdet i m B.
Proof.
intros H Hk Hi. destruct (gs_ex B) as [O HO].
pose proof (srel_gs k B B1 O H Hk HO) as HO1.
apply inject_Z_injective.
rewrite (gdet_prod (is_gs_le m B1 n i O Hi HO1)), (gdet_prod (is_gs_le m B n i O Hi HO)).
easy.
Qed.

(** an exchange lowers one determinant and keeps the others *)
Lemma swap_gdet k B O delta i : independent n m B -> (1 <= k < n)%nat -> (i <= n)%nat -> delta <= 1 ->
  is_gs (S k) m B O ->
  dot m (O k) (O k) < (delta - gs_mu m B O k (k - 1) * gs_mu m B O k (k - 1)) * dot m (O (k - 1)%nat) (O (k - 1)%nat) ->
  if Nat.eqb i k then (gdet i m (swapcol B k (k - 1)) < gdet i m B)%Z
  else gdet i m (swapcol B k (k - 1)) = gdet i m B.
Proof.
intros Hi Hk Hin Hd Hg Hlt. destruct (Nat.eqb_spec i k) as [->|Hik].
- destruct (proj2 Hg k ltac:(lia)) as [mu E].
  assert (Hnz : ~ dot m (O (k - 1)%nat) (O (k - 1)%nat) == 0).
  { pose proof (dot_pos B O (S k) (k - 1) Hi Hg). assert (0 < dot m (O (k - 1)%nat) (O (k - 1)%nat)) by (apply H; lia). lra. }
  assert (Emu : mu (k - 1)%nat == gs_mu m B O k (k - 1)).
  { unfold gs_mu.
    rewrite (dot_ext m (O (k - 1)%nat) (O (k - 1)%nat) (qvec B k)
       (fun y => O k y + qsum k (fun j => mu j * O j y)) (fun _ _ => Qeq_refl _) E).
    rewrite dot_add_r, dot_comb_r. rewrite (dot_comm m (O (k - 1)%nat) (O k)).
    rewrite (proj1 Hg k (k - 1)%nat) by lia.
    replace k with (S (k - 1)) at 2 by lia. rewrite qsum_S.
    rewrite qsum_zero; [field; easy|]. intros j Hj. rewrite (proj1 Hg (k - 1)%nat j) by lia. ring. }
  set (w := gs_mu m B O k (k - 1)) in *.
  set (u := fun y => O k y + w * O (k - 1)%nat y).
  assert (Eu : dot m u u == dot m (O k) (O k) + w * w * dot m (O (k - 1)%nat) (O (k - 1)%nat)).
  { unfold u. rewrite dot_add_r, dot_scale_r, !(dot_comm m (fun y => _ + _)), !dot_add_r, !dot_scale_r.
    rewrite (dot_comm m (O (k - 1)%nat) (O k)), (proj1 Hg k (k - 1)%nat) by lia. ring. }
  set (O2 := fun j => if Nat.eqb j (k - 1) then u else O j).
  assert (HB2 : is_gs k m (swapcol B k (k - 1)) O2).
  { split.
    - intros a b Hab. unfold O2.
      assert (Nat.eqb b (k - 1) = false) as -> by (apply Nat.eqb_neq; lia).
      destruct (Nat.eqb_spec a (k - 1)) as [->|]; [|apply Hg; lia].
      rewrite dot_comm. unfold u. rewrite dot_add_r, dot_scale_r, !(dot_comm m (O b)).
      rewrite (proj1 Hg k b), (proj1 Hg (k - 1)%nat b) by lia. ring.
    - intros a Ha. destruct (Nat.eq_dec a (k - 1)) as [->|Hak].
      + exists mu. intros y Hy. unfold O2. rewrite Nat.eqb_refl.
        unfold qvec, swapcol.
        assert (Nat.eqb (k - 1) k = false) as -> by (apply Nat.eqb_neq; lia). rewrite Nat.eqb_refl.
        change (inject_Z (B k y)) with (qvec B k y). rewrite (E y Hy).
        rewrite (qsum_ext (k - 1) (fun j => mu j * (if Nat.eqb j (k - 1) then u else O j) y) (fun j => mu j * O j y)).
        * replace k with (S (k - 1)) at 2 by lia. rewrite qsum_S. unfold u. rewrite Emu. ring.
        * intros j Hj. now assert (Nat.eqb j (k - 1) = false) as -> by (apply Nat.eqb_neq; lia).
      + destruct (proj2 Hg a ltac:(lia)) as [nu F]. exists nu. intros y Hy.
        unfold O2. assert (Nat.eqb a (k - 1) = false) as -> by (apply Nat.eqb_neq; lia).
        unfold qvec, swapcol.
        assert (Nat.eqb a k = false) as -> by (apply Nat.eqb_neq; lia).
        assert (Nat.eqb a (k - 1) = false) as -> by (apply Nat.eqb_neq; lia).
        change (inject_Z (B a y)) with (qvec B a y). rewrite (F y Hy). apply Qplus_comp; [easy|].
        apply qsum_ext. intros j Hj.
        now assert (Nat.eqb j (k - 1) = false) as -> by (apply Nat.eqb_neq; lia). }
  assert (HBk : is_gs k m B O) by (apply (is_gs_le m B (S k)); [lia|easy]).
  rewrite Zlt_Qlt, (gdet_prod HB2), (gdet_prod HBk).
  replace k with (S (k - 1)) at 1 2 by lia. rewrite !qprod_S.
  rewrite (qprod_ext (k - 1) (fun l => dot m (O2 l) (O2 l)) (fun l => dot m (O l) (O l))).
  + apply Qmult_lt_l.
    * apply qprod_pos. intros j Hj. apply (dot_pos B O k); [easy|easy|lia|lia].
    * unfold O2. rewrite Nat.eqb_refl, Eu.
      assert (P : 0 < dot m (O (k - 1)%nat) (O (k - 1)%nat)) by (apply (dot_pos B O k); [easy|easy|lia|lia]).
      nra.
  + intros j Hj. unfold O2. now assert (Nat.eqb j (k - 1) = false) as -> by (apply Nat.eqb_neq; lia).
- destruct (le_lt_dec i (k - 1)) as [Hle|Hgt].
  + apply gdet_agree. intros x y Hx Hy. unfold swapcol.
    assert (Nat.eqb x k = false) as -> by (apply Nat.eqb_neq; lia).
    now assert (Nat.eqb x (k - 1) = false) as -> by (apply Nat.eqb_neq; lia).
  + apply gdet_swap_lt; lia.
Qed.

Lemma zsum_dec a f g k : (k < a)%nat ->
  (forall i, (i < a)%nat -> if Nat.eqb i k then f i < g i else f i = g i)%Z -> (zsum a f < zsum a g)%Z.
Proof.
induction a as [|a IH]; intros Hk H; [lia|]. rewrite !zsum_S.
pose proof (H a ltac:(lia)) as Ha. destruct (Nat.eqb_spec a k) as [->|Hn].
- assert (zsum k f = zsum k g); [|lia]. apply zsum_ext. intros i Hi.
  pose proof (H i ltac:(lia)) as E. now assert (Nat.eqb i k = false) as Ek by (apply Nat.eqb_neq; lia); rewrite Ek in E.
- assert (zsum a f < zsum a g)%Z; [|lia]. apply IH; [lia|]. intros i Hi. apply H. lia.
Qed.

Lemma step_pot delta B k B' k' : independent n m B -> delta <= 1 -> (1 <= k < n)%nat ->
  step_to n m delta B k B' k' ->
  (pot B' = pot B /\ k' = S k)%Z \/ (pot B' < pot B)%Z.
Proof.
intros Hi Hd Hk [B1 [O [Hl [Hs [Hg [_ [_ Hc]]]]]]].
assert (E1 : forall i, (i < S n)%nat -> gdet i m B1 = gdet i m B).
{ intros i Hin. apply (srel_gdet k); [easy|lia|lia]. }
destruct Hc as [[-> [-> _]]|[-> [_ Hlt]]].
- left. split; [|easy]. now apply zsum_ext.
- right. assert (E : pot B = pot B1) by (symmetry; now apply zsum_ext). rewrite E.
  apply (zsum_dec (S n) _ _ k); [lia|]. intros i Hin.
  apply (swap_gdet k B1 O delta i); try easy; [|lia].
  now apply Hl.
Qed.

Lemma loop_ends delta : delta <= 1 ->
  forall (p : nat) B s O k, sinv n m s B O -> independent n m B -> (1 <= k)%nat -> (k <= n)%nat ->
  (pot B <= Z.of_nat p)%Z -> exists fuel0, forall fuel, (fuel0 <= fuel)%nat -> lll_loop fuel delta s k <> NoFuel.
Proof.
intros Hd. induction p as [p IHp] using lt_wf_ind.
intros B s O k H Hi Hk1 Hkn Hp.
remember (n - k)%nat as r eqn:Er. revert B s O k H Hi Hk1 Hkn Hp Er.
induction r as [r IHr] using lt_wf_ind. intros B s O k H Hi Hk1 Hkn Hp Er.
destruct (Nat.eq_dec k n) as [->|Hlt].
- exists 1%nat. intros [|fuel] Hf; [lia|]. cbn [lll_loop].
  rewrite (proj1 (own_size _ _ _ _ (proj1 H))).
  assert (Nat.ltb n n = false) as -> by (apply Nat.ltb_ge; lia). easy.
- assert (Hstep := step_ok n m True delta s B O k H (fun _ => Hi) ltac:(lia)).
  assert (Hgo : forall fuel, lll_loop (S fuel) delta s k =
    (sk <- lll_step delta s k ;; lll_loop fuel delta (fst sk) (snd sk))%res).
  { intros fuel. cbn [lll_loop]. rewrite (proj1 (own_size _ _ _ _ (proj1 H))).
    now assert (Nat.ltb k n = true) as -> by (apply Nat.ltb_lt; lia). }
  destruct (lll_step delta s k) as [[s' k']| |]; [|now destruct Hstep|now destruct Hstep].
  destruct Hstep as [B' [O' [H' Hto]]]. cbn [fst snd rbind] in *.
  assert (Hk' : (1 <= k' <= n)%nat).
  { destruct Hto as [B1 [O1 [_ [_ [_ [_ [_ [[_ [-> _]]|[_ [-> _]]]]]]]]]]; lia. }
  assert (Hi' : independent n m B').
  { apply (step_lat n m delta B k B' k'); [lia|easy|easy]. }
  assert (G : exists fuel0, forall fuel, (fuel0 <= fuel)%nat -> lll_loop fuel delta s' k' <> NoFuel).
  { destruct (step_pot delta B k B' k' Hi Hd ltac:(lia) Hto) as [[E ->]|Hdec].
    - apply (IHr (n - S k)%nat ltac:(lia) B' s' O' (S k)); try easy; lia.
    - pose proof (pot_nonneg B' Hi'). pose proof (pot_nonneg B Hi).
      apply (IHp (Z.to_nat (pot B')) ltac:(lia) B' s' O' k'); try easy; lia. }
  destruct G as [f0 Hf0]. exists (S f0). intros [|fuel] Hf; [lia|].
  rewrite Hgo. apply Hf0. lia.
Qed.
End Term.

Lemma lll_ends (a : arr2 Z) n m B delta :
  made a -> holds2 a n m B -> independent n m B -> delta <= 1 ->
  exists fuel0, forall fuel, (fuel0 <= fuel)%nat -> exists b, lll_reduce_with_delta fuel a delta = Ret b.
Proof.
intros H1 H2 Hi Hd. assert (H : own a n m B) by easy.
destruct (new_state a n m B H) as [s [O [En [Hs _]]]].
assert (G : exists fuel0, forall fuel, (fuel0 <= fuel)%nat -> lll_loop fuel delta s 1 <> NoFuel).
{ destruct n as [|n'].
  - exists 1%nat. intros [|fuel] Hf; [lia|]. cbn [lll_loop].
    rewrite (proj1 (own_size _ _ _ _ (proj1 Hs))). easy.
  - apply (loop_ends (S n') m delta Hd (Z.to_nat (pot (S n') m B)) B s O 1); try easy; try lia. }
destruct G as [f0 G]. exists f0. intros fuel Hf.
pose proof (lll_no_panic a n m B delta fuel H1 H2 Hi) as Hp.
unfold lll_reduce_with_delta in *. rewrite En in *. cbn [rbind] in *.
specialize (G fuel Hf). destruct (lll_loop fuel delta s 1) as [s'| |]; cbn [rbind] in *; try easy.
now exists (lb s').
Qed.

Lemma delta_34 : ratio_new 3 4 = Ret (3 # 4).
Proof. reflexivity. Qed.

Lemma lll_default fuel a : lll_reduce fuel a = lll_reduce_with_delta fuel a (3 # 4).
Proof. unfold lll_reduce. now rewrite delta_34. Qed.

Lemma lll_default_spec (a : arr2 Z) n m B :
  made a -> holds2 a n m B -> independent n m B ->
  exists fuel0, forall fuel, (fuel0 <= fuel)%nat ->
  exists b B', lll_reduce fuel a = Ret b /\ holds2 b n m B' /\ independent n m B' /\
    (forall v, in_lattice n m B v <-> in_lattice n m B' v) /\ lll_reduced (3 # 4) n m B'.
Proof.
intros H1 H2 Hi. destruct (lll_ends a n m B (3 # 4) H1 H2 Hi) as [f0 H]; [easy|].
exists f0. intros fuel Hf. destruct (H fuel Hf) as [b E]. exists b.
destruct (lll_sound a n m B (3 # 4) fuel b H1 H2 E) as [B' [_ [G1 [G2 [G3 G4]]]]].
exists B'. rewrite lll_default. repeat (split; [auto|]). exact G4.
Qed.

(** * A concrete basis *)
Definition ex_basis : arr2 Z := Arr2 3 3 3 [1; 1; 1; -1; 0; 2; 3; 5; 6]%Z.
Definition ex_fun (x y : nat) : Z := nth (x * 3 + y) [1; 1; 1; -1; 0; 2; 3; 5; 6]%Z 0%Z.

Lemma ex_made : made ex_basis.
Proof. apply (made_from 3 3 [1; 1; 1; -1; 0; 2; 3; 5; 6]%Z). reflexivity. Qed.

Lemma ex_holds : holds2 ex_basis 3 3 ex_fun.
Proof.
split; [easy|]. split; [easy|]. split.
- intros x y Hx Hy.
  destruct x as [|[|[|x]]]; [| | |lia]; (destruct y as [|[|[|y]]]; [| | |lia]); reflexivity.
- intros x y H. exact (proj2 (index_rejects ex_basis x y ex_made) H).
Qed.

Lemma ex_independent : independent 3 3 ex_fun.
Proof.
intros c H.
pose proof (H 0%nat ltac:(lia)) as H0. pose proof (H 1%nat ltac:(lia)) as H1.
pose proof (H 2%nat ltac:(lia)) as H2. clear H. revert H0 H1 H2.
unfold qsum, qvec, ex_fun. cbn. intros H0 H1 H2.
unfold inject_Z in *. destruct x as [|[|[|x]]]; [| | |lia]; intros _; lra.
Qed.

Lemma ex_result : exists fuel, lll_reduce fuel ex_basis = Ret (Arr2 3 3 3 [0; 1; 0; 1; 0; 1; -1; 0; 2]%Z).
Proof. exists 20%nat. vm_compute. reflexivity. Qed.

Lemma ex_dependent : exists fuel0, forall fuel, (fuel0 <= fuel)%nat ->
  lll_reduce fuel (Arr2 2 1 1 [1; 1]%Z) = Panic.
Proof.
exists 2%nat. intros [|[|fuel]] Hf; [lia|lia|]. reflexivity.
Qed.
