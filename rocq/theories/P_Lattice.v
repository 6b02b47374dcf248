(** Proofs about Gram-Schmidt and the lattice reduction. *)
From Coq Require Import ZArith QArith Qabs Qround Qfield List Arith Bool Lia Lqa Setoid Morphisms.
From Verif Require Import M_Base M_Traits M_IntervalExp M_Array2D M_Lattice.
From Verif Require Import S_Array2D P_Array2D S_Lattice.
Import ListNotations.

(** * Sums *)

Lemma qsum_S n f : qsum (S n) f == qsum n f + f n.
Proof.
unfold qsum. rewrite seq_S, map_app, fold_right_app. cbn [map fold_right Nat.add].
generalize (map f (seq 0 n)). induction l as [|a l IH]; cbn; [ring|].
rewrite IH. ring.
Qed.

Lemma qsum_ext n f g : (forall i, (i < n)%nat -> f i == g i) -> qsum n f == qsum n g.
Proof.
induction n as [|n IH]; intros H; [easy|]. rewrite !qsum_S, IH, H by (intros; try apply H; lia).
easy.
Qed.

Lemma qsum_add n f g : qsum n (fun i => f i + g i) == qsum n f + qsum n g.
Proof. induction n as [|n IH]; [cbn; ring|]. rewrite !qsum_S, IH. ring. Qed.

Lemma qsum_sub n f g : qsum n (fun i => f i - g i) == qsum n f - qsum n g.
Proof. induction n as [|n IH]; [cbn; ring|]. rewrite !qsum_S, IH. ring. Qed.

Lemma qsum_scale n a f : qsum n (fun i => a * f i) == a * qsum n f.
Proof. induction n as [|n IH]; [cbn; ring|]. rewrite !qsum_S, IH. ring. Qed.

Lemma qsum_zero n f : (forall i, (i < n)%nat -> f i == 0) -> qsum n f == 0.
Proof.
intros H. rewrite (qsum_ext _ _ (fun _ => 0 * 0)).
- rewrite qsum_scale. ring.
- intros i Hi. rewrite H by easy. ring.
Qed.

Lemma qsum_swap n m (f : nat -> nat -> Q) :
  qsum n (fun i => qsum m (fun j => f i j)) == qsum m (fun j => qsum n (fun i => f i j)).
Proof.
induction n as [|n IH].
- cbn. symmetry. apply qsum_zero. easy.
- rewrite qsum_S, IH, <- qsum_add. apply qsum_ext. intros j _. now rewrite qsum_S.
Qed.

Lemma qsum_nonneg n f : (forall i, (i < n)%nat -> 0 <= f i) -> 0 <= qsum n f.
Proof.
induction n as [|n IH]; intros H; [cbn; lra|]. rewrite qsum_S.
pose proof (H n ltac:(lia)). assert (0 <= qsum n f) by (apply IH; intros; apply H; lia). lra.
Qed.

Lemma qsum_nonneg0 n f : (forall i, (i < n)%nat -> 0 <= f i) -> qsum n f == 0 ->
  forall i, (i < n)%nat -> f i == 0.
Proof.
induction n as [|n IH]; intros H E i Hi; [lia|]. rewrite qsum_S in E.
pose proof (H n ltac:(lia)).
assert (0 <= qsum n f) by (apply qsum_nonneg; intros; apply H; lia).
destruct (Nat.eq_dec i n) as [->|]; [lra|].
apply IH; [intros; apply H; lia|lra|lia].
Qed.

Section Dot.
Variable m : nat.
Notation dot := (dot m).

Definition veq (u v : nat -> Q) : Prop := forall y, (y < m)%nat -> u y == v y.

Lemma dot_ext u u' v v' : veq u u' -> veq v v' -> dot u v == dot u' v'.
Proof. intros H H'. apply qsum_ext. intros y Hy. apply Qmult_comp; [apply H|apply H']; easy. Qed.

Lemma dot_comm u v : dot u v == dot v u.
Proof. apply qsum_ext. intros. ring. Qed.

Lemma dot_add_r u v w : dot u (fun y => v y + w y) == dot u v + dot u w.
Proof. unfold S_Lattice.dot. rewrite <- qsum_add. apply qsum_ext. intros. ring. Qed.

Lemma dot_sub_r u v w : dot u (fun y => v y - w y) == dot u v - dot u w.
Proof. unfold S_Lattice.dot. rewrite <- qsum_sub. apply qsum_ext. intros. ring. Qed.

Lemma dot_scale_r a u v : dot u (fun y => a * v y) == a * dot u v.
Proof. unfold S_Lattice.dot. rewrite <- qsum_scale. apply qsum_ext. intros. ring. Qed.

Lemma dot_sum_r n u (f : nat -> nat -> Q) :
  dot u (fun y => qsum n (fun j => f j y)) == qsum n (fun j => dot u (f j)).
Proof.
unfold S_Lattice.dot. rewrite qsum_swap. apply qsum_ext. intros y _.
now rewrite qsum_scale.
Qed.

Lemma dot_comb_r n u mu (O : nat -> nat -> Q) :
  dot u (fun y => qsum n (fun j => mu j * O j y)) == qsum n (fun j => mu j * dot u (O j)).
Proof.
rewrite (dot_sum_r n u (fun j y => mu j * O j y)). apply qsum_ext. intros j _.
apply dot_scale_r.
Qed.

Lemma dot_comb_0 n u mu (O : nat -> nat -> Q) :
  (forall j, (j < n)%nat -> dot u (O j) == 0) ->
  dot u (fun y => qsum n (fun j => mu j * O j y)) == 0.
Proof.
intros H. rewrite dot_comb_r. apply qsum_zero. intros j Hj. rewrite H by easy. ring.
Qed.

Lemma dot_self_nonneg u : 0 <= dot u u.
Proof. apply qsum_nonneg. intros y _. nra. Qed.

Lemma dot_self_0 u : dot u u == 0 -> veq u (fun _ => 0).
Proof.
intros H y Hy. assert (u y * u y == 0).
{ apply (qsum_nonneg0 m (fun y => u y * u y)); [intros; nra|easy|easy]. }
nra.
Qed.

Lemma dot_zero_r u v : veq v (fun _ => 0) -> dot u v == 0.
Proof. intros H. apply qsum_zero. intros y Hy. cbn beta. rewrite (H y Hy : v y == 0). ring. Qed.
End Dot.

(** * Orthogonalisation in the abstract *)

Section GS.
Variable m : nat.
Variable B : nat -> nat -> Z.

(** One column: subtracting projections makes it orthogonal to the earlier
    ones; the numerator may be taken with the given vector. *)
Lemma gs_num (O : nat -> nat -> Q) j cur : is_gs (S j) m B O ->
  (forall l, (l < j)%nat -> dot m cur (O l) == 0) ->
  dot m cur (qvec B j) == dot m cur (O j).
Proof.
intros [_ H] Hc. destruct (H j ltac:(lia)) as [mu E].
rewrite (dot_ext m cur cur _ _ (fun _ _ => Qeq_refl _) E).
rewrite dot_add_r, (dot_comb_0 m j cur mu O Hc). ring.
Qed.

Lemma is_gs_le n n' O : (n' <= n)%nat -> is_gs n m B O -> is_gs n' m B O.
Proof.
intros H [H1 H2]. split.
- intros i j Hij. apply H1. lia.
- intros i Hi. apply H2. lia.
Qed.

Lemma is_gs_ext n (O O' : nat -> nat -> Q) :
  (forall i, (i < n)%nat -> veq m (O i) (O' i)) -> is_gs n m B O -> is_gs n m B O'.
Proof.
intros H [H1 H2]. split.
- intros i j Hij. rewrite <- (dot_ext m (O i) (O' i) (O j) (O' j)) by (apply H; lia).
  now apply H1.
- intros i Hi. destruct (H2 i Hi) as [mu E]. exists mu. intros y Hy.
  rewrite E by easy. apply Qplus_comp; [now apply H|].
  apply qsum_ext. intros j Hj. apply Qmult_comp; [easy|apply H; easy || lia].
Qed.

Lemma is_gs_S n O : is_gs n m B O ->
  (forall j, (j < n)%nat -> dot m (O n) (O j) == 0) ->
  (exists mu : nat -> Q, forall y, (y < m)%nat ->
     qvec B n y == O n y + qsum n (fun j => mu j * O j y)) ->
  is_gs (S n) m B O.
Proof.
intros [H1 H2] H3 H4. split.
- intros i j Hij. destruct (Nat.eq_dec i n) as [->|]; [apply H3; lia|apply H1; lia].
- intros i Hi. destruct (Nat.eq_dec i n) as [->|]; [easy|apply H2; lia].
Qed.

(** Orthogonalisations are unique. *)
Lemma gs_unique n O O' : is_gs n m B O -> is_gs n m B O' ->
  forall i, (i < n)%nat -> veq m (O i) (O' i).
Proof.
intros H H' i. induction i as [i IH] using lt_wf_ind. intros Hi.
destruct H as [H1 H2]. destruct H' as [H1' H2'].
destruct (H2 i Hi) as [mu E]. destruct (H2' i Hi) as [mu' E'].
set (d := fun y => O i y - O' i y).
assert (Ed : veq m d (fun y => qsum i (fun j => (mu' j - mu j) * O j y))).
{ intros y Hy. unfold d.
  assert (qsum i (fun j => mu' j * O' j y) == qsum i (fun j => mu' j * O j y)).
  { apply qsum_ext. intros j Hj. apply Qmult_comp; [easy|]. symmetry. apply IH; easy || lia. }
  rewrite (qsum_ext i _ (fun j => mu' j * O j y - mu j * O j y)) by (intros; ring).
  rewrite qsum_sub. specialize (E y Hy). specialize (E' y Hy).
  rewrite H in E'. rewrite E in E'. lra. }
assert (D0 : dot m d d == 0).
{ rewrite (dot_ext m d d d _ (fun _ _ => Qeq_refl _) Ed).
  apply dot_comb_0. intros j Hj. unfold d.
  rewrite dot_comm, dot_sub_r, (dot_comm m (O j)), (H1 i j) by lia.
  rewrite (dot_comm m (O j)).
  rewrite (dot_ext m (O' i) (O' i) (O j) (O' j) (fun _ _ => Qeq_refl _))
    by (apply IH; lia).
  rewrite (H1' i j) by lia. ring. }
intros y Hy. pose proof (dot_self_0 m d D0 y Hy) as Hd. unfold d in Hd. lra.
Qed.
End GS.

(** * Arrays holding given values *)

Definition own {T} (a : arr2 T) (n m : nat) (c : nat -> nat -> T) : Prop :=
  made a /\ holds2 a n m c.

Definition setcol {T} (c : nat -> nat -> T) (k : nat) (g : nat -> T) : nat -> nat -> T :=
  fun x y => if Nat.eqb x k then g y else c x y.

Lemma own_ext {T} (a : arr2 T) n m c c' :
  (forall x y, (x < n)%nat -> (y < m)%nat -> c x y = c' x y) ->
  own a n m c -> own a n m c'.
Proof.
intros H [H1 [H2 [H3 [H4 H5]]]]. split; [easy|]. repeat split; try easy.
intros x y Hx Hy. rewrite H4 by easy. now rewrite H.
Qed.

Lemma own_size {T} (a : arr2 T) n m c : own a n m c -> ax a = n /\ ay a = m.
Proof. intros [_ [H1 [H2 _]]]. easy. Qed.

Lemma own_index {T} (a : arr2 T) n m c x y : own a n m c -> (x < n)%nat -> (y < m)%nat ->
  index2 a x y = Ret (c x y).
Proof. intros [_ [_ [_ [H _]]]]. apply H. Qed.

Lemma own_set {T} (a : arr2 T) n m c x y v : own a n m c -> (x < n)%nat -> (y < m)%nat ->
  exists a', set2 a x y v = Ret a' /\ own a' n m (upd2 c x y v).
Proof.
intros H Hx Hy. destruct (own_size _ _ _ _ H) as [<- <-]. destruct H as [Hm Hh].
destruct (proj1 (set2_holds a c x y v Hm Hh)) as [a' [E H']]; [easy|].
exists a'. split; [easy|]. split; [|easy]. exact (made_set a x y v a' Hm E).
Qed.

Lemma own_swap {T} (a : arr2 T) n m c x1 y1 x2 y2 : own a n m c ->
  (x1 < n)%nat -> (y1 < m)%nat -> (x2 < n)%nat -> (y2 < m)%nat ->
  exists a', swap_elements a x1 y1 x2 y2 = Ret a' /\
    own a' n m (upd2 (upd2 c x1 y1 (c x2 y2)) x2 y2 (c x1 y1)).
Proof.
intros H H1 H2 H3 H4. destruct (own_size _ _ _ _ H) as [<- <-]. destruct H as [Hm Hh].
destruct (proj1 (swap_holds a c x1 y1 x2 y2 Hm Hh)) as [a' [E H']]; [easy|easy|].
exists a'. split; [easy|]. split; [|easy]. exact (made_swap a x1 y1 x2 y2 a' Hm E).
Qed.

Lemma own_col {T} (a : arr2 T) n m c x : own a n m c -> (x < n)%nat ->
  exists s, slice a (bound_at x) bound_full = Ret s /\ own s 1 m (fun _ y => c x y).
Proof.
intros H Hx. destruct (own_size _ _ _ _ H) as [En Em]. destruct H as [Hm Hh].
rewrite <- En, <- Em in Hh.
destruct (slice_holds a c (bound_at x) bound_full x (S x) 0 m Hm Hh) as [s [E Hs]].
- unfold selects, bound_at. cbn [fst snd]. lia.
- unfold selects, bound_full. cbn [fst snd]. lia.
- lia.
- exists s. split; [easy|].
  replace (S x - x)%nat with 1%nat in Hs by lia. rewrite Nat.sub_0_r in Hs.
  apply (own_ext _ _ _ (fun x0 y => c (x + x0)%nat (0 + y)%nat)).
  + intros x0 y Hx0 _. now replace (x + x0)%nat with x by lia.
  + split; [exact (made_slice _ _ _ _ Hm E)|easy].
Qed.

Lemma own_full {T} (a : arr2 T) n m c : own a n m c ->
  exists s, slice a bound_full bound_full = Ret s /\ own s n m c.
Proof.
intros H. destruct (own_size _ _ _ _ H) as [En Em]. destruct H as [Hm Hh].
rewrite <- En, <- Em in Hh.
destruct (slice_holds a c bound_full bound_full 0 (ax a) 0 (ay a) Hm Hh) as [s [E Hs]].
- unfold selects, bound_full. cbn [fst snd]. lia.
- unfold selects, bound_full. cbn [fst snd]. lia.
- lia.
- exists s. split; [easy|]. rewrite !Nat.sub_0_r in Hs.
  split; [exact (made_slice _ _ _ _ Hm E)|]. now rewrite <- En, <- Em.
Qed.

(** a loop that assigns to one column, row after row *)
Lemma col_loop {T} n m k (g : (nat -> nat -> T) -> nat -> T)
    (f : arr2 T -> nat -> res (arr2 T)) :
  (forall a c y, own a n m c -> (y < m)%nat ->
     exists a', f a y = Ret a' /\ own a' n m (upd2 c k y (g c y))) ->
  (forall c c' y, (forall x, c x y = c' x y) -> g c y = g c' y) ->
  forall a c, own a n m c ->
  exists a', rfold f (seq 0 m) a = Ret a' /\ own a' n m (setcol c k (g c)).
Proof.
intros Hf Hg a c H.
assert (G : forall len s a, (s + len = m)%nat ->
  own a n m (fun x y => if (Nat.eqb x k && Nat.ltb y s)%bool then g c y else c x y) ->
  exists a', rfold f (seq s len) a = Ret a' /\ own a' n m (setcol c k (g c))).
{ clear a H. induction len as [|len IH]; intros s a Es H.
  - exists a. split; [easy|]. eapply own_ext; [|exact H].
    intros x y Hx Hy. unfold setcol. cbn beta.
    assert (Nat.ltb y s = true) as -> by (apply Nat.ltb_lt; lia).
    now rewrite andb_true_r.
  - cbn [seq rfold]. destruct (Hf _ _ s H) as [a1 [E1 H1]]; [lia|].
    rewrite E1. cbn [rbind]. apply IH; [lia|]. eapply own_ext; [|exact H1].
    intros x y Hx Hy. unfold upd2. cbn beta.
    destruct (Nat.eqb_spec x k) as [->|]; cbn [andb]; [|easy].
    destruct (Nat.eqb_spec y s) as [->|Hn].
    + assert (Nat.ltb s (S s) = true) as -> by (apply Nat.ltb_lt; lia).
      apply Hg. intros x. assert (Nat.ltb s s = false) as -> by (apply Nat.ltb_ge; lia).
      now rewrite andb_false_r.
    + destruct (Nat.ltb_spec y s); destruct (Nat.ltb_spec y (S s)); try easy; lia. }
apply (G m 0%nat); [lia|]. eapply own_ext; [|exact H].
intros x y _ _. cbn beta. now rewrite andb_false_r.
Qed.

(** * Inner products *)

Lemma combine_map {A B C} (f : A -> B) (g : A -> C) l :
  combine (map f l) (map g l) = map (fun a => (f a, g a)) l.
Proof. induction l as [|a l IH]; [easy|]. cbn. now rewrite IH. Qed.

Lemma fold_left_map {A B C} (f : A -> B -> A) (g : C -> B) l a :
  fold_left f (map g l) a = fold_left (fun a c => f a (g c)) l a.
Proof. revert a. induction l as [|c l IH]; intros a; [easy|]. cbn. apply IH. Qed.

Lemma grid_1 m : grid 1 m = map (fun y => (0%nat, y)) (seq 0 m).
Proof. unfold grid. cbn. now rewrite app_nil_r. Qed.

Lemma inner_sum m (p : nat -> Q) :
  match fold_left (fun r y => match r with
                              | None => Some (p y)
                              | Some v => Some (r_add v (p y)) end) (seq 0 m) None with
  | Some v => v
  | None => 0
  end == qsum m p.
Proof.
induction m as [|m IH]; [easy|].
rewrite seq_S, fold_left_app, qsum_S. cbn [fold_left Nat.add].
destruct (fold_left _ (seq 0 m) None) as [v|]; rewrite <- IH.
- unfold r_add. now rewrite Qred_correct.
- ring.
Qed.

Lemma inner_ok {L R} (mul : L -> R -> Q) (a : arr2 L) (b : arr2 R) m u v :
  own a 1 m u -> own b 1 m v ->
  exists q, inner_product r_add mul 0 a b = Ret q /\
    q == qsum m (fun y => mul (u 0%nat y) (v 0%nat y)).
Proof.
intros Ha Hb. destruct (own_size _ _ _ _ Ha) as [Ea1 Ea2].
destruct (own_size _ _ _ _ Hb) as [Eb1 Eb2].
destruct Ha as [Ha1 Ha2]. destruct Hb as [Hb1 Hb2].
unfold inner_product.
rewrite (iter_collect_ok a u), (iter_collect_ok b v); [|easy|now rewrite Eb1, Eb2|easy|now rewrite Ea1, Ea2].
rewrite Ea1, Ea2, Eb1, Eb2, !Nat.eqb_refl. cbn [andb assert_then rbind].
unfold pairs. rewrite grid_1, !map_map, combine_map, fold_left_map. cbn [fst snd].
pose proof (inner_sum m (fun y => mul (u 0%nat y) (v 0%nat y))) as E. revert E.
match goal with |- match ?e with _ => _ end == _ -> exists q, match ?e' with _ => _ end = _ /\ _ =>
  change e' with e; destruct e as [w|] end; intros E.
- now exists w.
- now exists 0.
Qed.

Lemma inner_qq_ok a b m u v : own a 1 m u -> own b 1 m v ->
  exists q, inner_qq a b = Ret q /\ q == dot m (u 0%nat) (v 0%nat).
Proof.
intros Ha Hb. destruct (inner_ok r_mul a b m u v Ha Hb) as [q [E H]].
exists q. split; [easy|]. rewrite H. apply qsum_ext. intros y _. apply Qred_correct.
Qed.

Lemma inner_qz_ok a b m u v : own a 1 m u -> own b 1 m v ->
  exists q, inner_qz a b = Ret q /\ q == dot m (u 0%nat) (qvec v 0%nat).
Proof.
intros Ha Hb. destruct (inner_ok r_mul_int a b m u v Ha Hb) as [q [E H]].
exists q. split; [easy|]. rewrite H. apply qsum_ext. intros y _. apply Qred_correct.
Qed.

Lemma r_is_zero_iff q : r_is_zero q = true <-> q == 0.
Proof.
unfold r_is_zero, Qeq. rewrite Z.eqb_eq. cbn [Qnum Qden]. split; lia.
Qed.

Lemma ratio_div_ok a b : ~ b == 0 -> exists q, ratio_div a b = Ret q /\ q == a / b.
Proof.
intros H. unfold ratio_div. destruct a as [na da]. destruct b as [nb db].
cbn [Qnum Qden]. unfold Qeq in H. cbn [Qnum Qden] in H.
assert (nb <> 0)%Z by lia.
destruct nb as [|p|p]; [easy| |]; cbn [Z.mul]; unfold ratio_new; eexists;
  (split; [reflexivity|]); rewrite Qred_correct; unfold Qeq, Qdiv, Qmult, Qinv;
  cbn [Qnum Qden]; lia.
Qed.

Lemma ratio_div_zero a b : b == 0 -> ratio_div a b = Panic.
Proof.
intros H. unfold ratio_div. destruct b as [nb db]. unfold Qeq in H. cbn [Qnum Qden] in *.
assert (nb = 0)%Z as -> by lia. now rewrite Z.mul_0_r.
Qed.

(** * Gram-Schmidt *)

Lemma copy_column_ok input basis n m B O col :
  own input n m B -> own basis n m O -> (col < n)%nat ->
  exists basis', copy_column input col basis = Ret basis' /\
    own basis' n m (setcol O col (qvec B col)).
Proof.
intros Hi Hb Hc. unfold copy_column. rewrite (proj2 (own_size _ _ _ _ Hb)).
apply (col_loop n m col (fun _ => qvec B col)); [|easy|easy].
intros a c y Ha Hy. rewrite (own_index _ _ _ _ _ _ Hi Hc Hy). cbn [rbind].
apply own_set; easy.
Qed.

Lemma sub_column_ok basis n m O col j factor :
  own basis n m O -> (col < n)%nat -> (j < n)%nat ->
  exists basis', sub_column col j factor basis = Ret basis' /\
    own basis' n m (setcol O col (fun y => r_sub (O col y) (r_mul (O j y) factor))).
Proof.
intros Hb Hc Hj. unfold sub_column. rewrite (proj2 (own_size _ _ _ _ Hb)).
apply (col_loop n m col (fun O y => r_sub (O col y) (r_mul (O j y) factor)));
  [|intros c c' y E; now rewrite !E|easy].
intros a c y Ha Hy. rewrite (own_index _ _ _ _ _ _ Ha Hj Hy). cbn [rbind].
rewrite (own_index _ _ _ _ _ _ Ha Hc Hy). cbn [rbind].
apply own_set; easy.
Qed.

Lemma gs_column_ok input basis n m B O col :
  own input n m B -> own basis n m O -> (col < n)%nat -> is_gs col m B O ->
  exists basis' O', gram_schmidt_calculate_column input basis col = Ret basis' /\
    own basis' n m O' /\ is_gs (S col) m B O' /\
    (forall x y, x <> col -> O' x y = O x y).
Proof.
intros Hi Hb Hc Hg. unfold gram_schmidt_calculate_column.
rewrite (proj1 (own_size _ _ _ _ Hi)), (proj2 (own_size _ _ _ _ Hi)).
rewrite (proj1 (own_size _ _ _ _ Hb)), (proj2 (own_size _ _ _ _ Hb)).
rewrite !Nat.eqb_refl. cbn [andb assert_then].
assert (Nat.ltb col n = true) as -> by (now apply Nat.ltb_lt). cbn [assert_then].
destruct (copy_column_ok _ _ _ _ _ _ _ Hi Hb Hc) as [b0 [E0 H0]].
rewrite E0. cbn [rbind]. clear E0 Hb basis.
match goal with |- context[rfold ?f _ _] => set (body := f) end.
assert (G : forall len j b Oj, (j + len = col)%nat -> own b n m Oj ->
  (forall x y, x <> col -> Oj x y = O x y) ->
  (forall l, (l < j)%nat -> dot m (Oj col) (O l) == 0) ->
  (exists mu : nat -> Q, forall y, (y < m)%nat ->
     qvec B col y == Oj col y + qsum j (fun l => mu l * O l y)) ->
  exists b' O', rfold body (seq j len) b = Ret b' /\ own b' n m O' /\
    is_gs (S col) m B O' /\ (forall x y, x <> col -> O' x y = O x y)).
{ induction len as [|len IH]; intros j b Oj Ej Hb Ho Hd [mu Hm].
  - exists b, Oj. split; [easy|]. split; [easy|]. split; [|easy].
    assert (j = col) as -> by lia.
    assert (Hv : forall l, (l < col)%nat -> veq m (O l) (Oj l)).
    { intros l Hl y _. rewrite Ho by lia. easy. }
    apply is_gs_S.
    + apply (is_gs_ext m B col O); easy.
    + intros l Hl.
      rewrite <- (dot_ext m (Oj col) (Oj col) (O l) (Oj l) (fun _ _ => Qeq_refl _) (Hv l Hl)).
      now apply Hd.
    + exists mu. intros y Hy. rewrite Hm by easy. apply Qplus_comp; [easy|].
      apply qsum_ext. intros l Hl. rewrite (Ho l y) by lia. easy.
  - cbn [seq rfold].
    assert (exists b1 O1, body b j = Ret b1 /\ own b1 n m O1 /\
      (forall x y, x <> col -> O1 x y = O x y) /\
      (forall l, (l < S j)%nat -> dot m (O1 col) (O l) == 0) /\
      (exists mu : nat -> Q, forall y, (y < m)%nat ->
         qvec B col y == O1 col y + qsum (S j) (fun l => mu l * O l y))) as
      [b1 [O1 [E1 [H1 [H2 [H3 H4]]]]]].
    2:{ rewrite E1. cbn [rbind]. apply (IH (S j) b1 O1); try easy. lia. }
    unfold body.
    destruct (own_col b n m Oj col Hb Hc) as [bc [Ec Hbc]]. rewrite Ec. cbn [rbind].
    destruct (own_col input n m B j Hi) as [ij [Ei Hij]]; [lia|]. rewrite Ei. cbn [rbind].
    destruct (inner_qz_ok _ _ _ _ _ Hbc Hij) as [nn [En Hn]]. rewrite En. cbn [rbind].
    destruct (own_col b n m Oj j Hb) as [bj [Ebj Hbj]]; [lia|]. rewrite Ebj. cbn [rbind].
    destruct (inner_qq_ok _ _ _ _ _ Hbj Hbj) as [d [Ed Hdd]]. rewrite Ed. cbn [rbind].
    assert (Hn' : nn == dot m (Oj col) (O j)).
    { rewrite Hn. apply (gs_num m B O j).
      - apply (is_gs_le m B col); [lia|easy].
      - easy. }
    assert (Hd' : d == dot m (O j) (O j)).
    { rewrite Hdd. apply dot_ext; intros y _; cbn beta; rewrite Ho by lia; easy. }
    destruct (r_is_zero d) eqn:Ez.
    + apply r_is_zero_iff in Ez. rewrite Ez in Hd'. symmetry in Hd'.
      apply dot_self_0 in Hd'.
      assert (Z0 : dot m (Oj col) (O j) == 0) by (now apply dot_zero_r).
      assert (r_is_zero nn = true) as -> by (apply r_is_zero_iff; now rewrite Hn').
      cbn [assert_then]. exists b, Oj. split; [easy|]. split; [easy|]. split; [easy|].
      split.
      * intros l Hl. destruct (Nat.eq_dec l j) as [->|]; [easy|apply Hd; lia].
      * exists (fun l => if Nat.eqb l j then 0 else mu l). intros y Hy.
        rewrite Hm, qsum_S by easy. rewrite Nat.eqb_refl.
        rewrite (qsum_ext j (fun l => (if Nat.eqb l j then 0 else mu l) * O l y)
                            (fun l => mu l * O l y)).
        -- ring.
        -- intros l Hl. assert (Nat.eqb l j = false) as -> by (apply Nat.eqb_neq; lia).
           easy.
    + assert (Hnz : ~ d == 0).
      { intros Hz. apply r_is_zero_iff in Hz. congruence. }
      destruct (ratio_div_ok nn d Hnz) as [fac [Ef Hf]]. rewrite Ef. cbn [rbind].
      destruct (sub_column_ok b n m Oj col j fac Hb Hc) as [b1 [E1 H1]]; [lia|].
      eexists b1, _. split; [exact E1|]. split; [exact H1|].
      assert (Hcol : veq m (setcol Oj col (fun y => r_sub (Oj col y) (r_mul (Oj j y) fac)) col)
                           (fun y => Oj col y - fac * O j y)).
      { intros y Hy. unfold setcol. rewrite Nat.eqb_refl. unfold r_sub, r_mul.
        rewrite !Qred_correct, (Ho j y) by lia. ring. }
      split; [|split].
      * intros x y Hx. unfold setcol. assert (Nat.eqb x col = false) as -> by (now apply Nat.eqb_neq).
        now apply Ho.
      * intros l Hl.
        rewrite (dot_ext m _ _ (O l) (O l) Hcol (fun _ _ => Qeq_refl _)).
        rewrite dot_comm, dot_sub_r, dot_scale_r, (dot_comm m (O l) (Oj col)).
        destruct (Nat.eq_dec l j) as [->|Hlj].
        -- rewrite Hf, Hn', Hd'. field. now rewrite <- Hd'.
        -- rewrite Hd by lia. rewrite (dot_comm m (O l) (O j)).
           rewrite (proj1 Hg j l) by lia. ring.
      * exists (fun l => if Nat.eqb l j then fac else mu l). intros y Hy.
        rewrite (Hcol y Hy : setcol _ _ _ col y == _).
        rewrite Hm, qsum_S by easy. rewrite Nat.eqb_refl.
        rewrite (qsum_ext j (fun l => (if Nat.eqb l j then fac else mu l) * O l y)
                            (fun l => mu l * O l y)).
        -- ring.
        -- intros l Hl. assert (Nat.eqb l j = false) as -> by (apply Nat.eqb_neq; lia).
           easy. }
destruct (G col 0%nat b0 _ eq_refl H0) as [b' [O' [E [H1 [H2 H3]]]]].
- intros x y Hx. unfold setcol. now assert (Nat.eqb x col = false) as -> by (now apply Nat.eqb_neq).
- easy.
- exists (fun _ => 0). intros y Hy. unfold setcol. rewrite Nat.eqb_refl. cbn. ring.
- exists b', O'. easy.
Qed.

Lemma is_gs_0 m B O : is_gs 0 m B O.
Proof. split; intros; lia. Qed.

Lemma gram_schmidt_ok (a : arr2 Z) n m B : made a -> holds2 a n m B ->
  exists o O, gram_schmidt a = Ret o /\ holds2 o n m O /\ is_gs n m B O.
Proof.
intros Ha Hh. assert (H : own a n m B) by easy.
unfold gram_schmidt. rewrite (proj1 (own_size _ _ _ _ H)), (proj2 (own_size _ _ _ _ H)).
destruct (new_with_ok n m (fun _ : nat => 0)) as [b [E Hb]]. rewrite E. cbn [rbind].
assert (Ho : own b n m (fun _ _ => 0)).
{ split; [|easy]. exact (made_from n m _ b E). }
rewrite (proj1 (own_size _ _ _ _ Ho)).
assert (G : forall len j b O, (j + len = n)%nat -> own b n m O -> is_gs j m B O ->
  exists b' O', rfold (gram_schmidt_calculate_column a) (seq j len) b = Ret b' /\
    own b' n m O' /\ is_gs n m B O').
{ clear b E Hb Ho. induction len as [|len IH]; intros j b O Ej Hb Hg.
  - exists b, O. split; [easy|]. split; [easy|]. now replace n with j by lia.
  - cbn [seq rfold].
    destruct (gs_column_ok a b n m B O j H Hb) as [b1 [O1 [E1 [H1 [H2 _]]]]]; [lia|easy|].
    rewrite E1. cbn [rbind]. apply (IH (S j) b1 O1); [lia|easy|easy]. }
destruct (G n 0%nat b _ eq_refl Ho (is_gs_0 _ _ _)) as [o [O [E1 [[_ H1] H2]]]].
exists o, O. easy.
Qed.
