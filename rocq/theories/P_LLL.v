(** Proofs about the lattice reduction: what it returns, and when it panics. *)
From Coq Require Import ZArith QArith Qabs Qround Qfield List Arith Bool Lia Lqa Setoid Morphisms.
From Verif Require Import M_Base M_Traits M_IntervalExp M_Array2D M_Lattice.
From Verif Require Import S_Array2D P_Array2D S_Lattice P_Lattice.
Import ListNotations.

(** * Outcomes: a result satisfying [P], or a panic only when [N] fails *)

Definition outc {A} (N : Prop) (P : A -> Prop) (r : res A) : Prop :=
  match r with Ret a => P a | Panic => ~ N | NoFuel => False end.

Lemma outc_bind {A B} N (P : A -> Prop) (Q : B -> Prop) r f :
  outc N P r -> (forall a, P a -> outc N Q (f a)) -> outc N Q (rbind r f).
Proof. destruct r as [a| |]; cbn; auto. Qed.

Lemma outc_imp {A} N (P Q : A -> Prop) r :
  outc N P r -> (forall a, P a -> Q a) -> outc N Q r.
Proof. destruct r as [a| |]; cbn; auto. Qed.

(** * Integer sums *)

Lemma zsum_S n f : zsum (S n) f = (zsum n f + f n)%Z.
Proof.
unfold zsum. rewrite seq_S, map_app, fold_right_app. cbn [map fold_right Nat.add].
generalize (map f (seq 0 n)). induction l as [|a l IH]; cbn; lia.
Qed.

Lemma zsum_ext n f g : (forall i, (i < n)%nat -> f i = g i) -> zsum n f = zsum n g.
Proof.
induction n as [|n IH]; intros H; [easy|]. rewrite !zsum_S, IH, H by (intros; try apply H; lia).
easy.
Qed.

Lemma zsum_upd n (f : nat -> Z) j e : (j < n)%nat ->
  zsum n (fun x => if Nat.eqb x j then f x + e else f x)%Z = (zsum n f + e)%Z.
Proof.
induction n as [|n IH]; intros H; [lia|]. rewrite !zsum_S.
destruct (Nat.eq_dec j n) as [->|Hn].
- rewrite Nat.eqb_refl. rewrite (zsum_ext n _ f); [lia|].
  intros i Hi. now assert (Nat.eqb i n = false) as -> by (apply Nat.eqb_neq; lia).
- rewrite IH by lia. assert (Nat.eqb n j = false) as -> by (apply Nat.eqb_neq; lia). lia.
Qed.

Lemma qsum_upd n (f : nat -> Q) j e : (j < n)%nat ->
  qsum n (fun x => if Nat.eqb x j then f x + e else f x) == qsum n f + e.
Proof.
induction n as [|n IH]; intros H; [lia|]. rewrite !qsum_S.
destruct (Nat.eq_dec j n) as [->|Hn].
- rewrite Nat.eqb_refl. rewrite (qsum_ext n _ f); [ring|].
  intros i Hi. now assert (Nat.eqb i n = false) as -> by (apply Nat.eqb_neq; lia).
- rewrite IH by lia. assert (Nat.eqb n j = false) as -> by (apply Nat.eqb_neq; lia). ring.
Qed.

Lemma inject_zsum n f : inject_Z (zsum n f) == qsum n (fun i => inject_Z (f i)).
Proof.
induction n as [|n IH]; [easy|]. rewrite zsum_S, qsum_S, inject_Z_plus, IH. easy.
Qed.

(** * Elementary operations keep the lattice and independence *)

Definition lat_eq n m B B' : Prop :=
  (forall v, in_lattice n m B v <-> in_lattice n m B' v) /\
  (independent n m B -> independent n m B').

Lemma lat_eq_refl n m B : lat_eq n m B B.
Proof. now split. Qed.

Lemma lat_eq_trans n m B1 B2 B3 : lat_eq n m B1 B2 -> lat_eq n m B2 B3 -> lat_eq n m B1 B3.
Proof. intros [H1 H2] [H3 H4]. split; [|auto]. intros v. now rewrite H1. Qed.

Definition addcol (B : nat -> nat -> Z) (k j : nat) (r : Z) : nat -> nat -> Z :=
  setcol B k (fun y => B k y - B j y * r)%Z.

Definition swapcol (B : nat -> nat -> Z) (k k' : nat) : nat -> nat -> Z :=
  fun x y => if Nat.eqb x k then B k' y else if Nat.eqb x k' then B k y else B x y.

Lemma addcol_lat n m B k j r : (j < n)%nat -> (k < n)%nat -> j <> k ->
  lat_eq n m B (addcol B k j r).
Proof.
intros Hj Hk Hjk. split.
- intros v. split; intros [c Hc].
  + exists (fun x => if Nat.eqb x j then c x + c k * r else c x)%Z.
    intros y Hy. rewrite Hc by easy.
    rewrite (zsum_ext n (fun x => (if Nat.eqb x j then c x + c k * r else c x) * addcol B k j r x y)%Z
      (fun x => if Nat.eqb x j then (if Nat.eqb x k then c x * B x y + - (c k * B j y * r) else c x * B x y) + c k * r * B j y
                else (if Nat.eqb x k then c x * B x y + - (c k * B j y * r) else c x * B x y))%Z).
    * rewrite zsum_upd, zsum_upd by easy. ring.
    * intros x _. unfold addcol, setcol.
      destruct (Nat.eqb_spec x j); destruct (Nat.eqb_spec x k); subst; try lia; ring.
  + exists (fun x => if Nat.eqb x j then c x + - (c k * r) else c x)%Z.
    intros y Hy. rewrite Hc by easy.
    rewrite (zsum_ext n (fun x => (if Nat.eqb x j then c x + - (c k * r) else c x) * B x y)%Z
      (fun x => if Nat.eqb x j then c x * B x y + - (c k * r * B j y) else c x * B x y)%Z).
    2:{ intros x _. destruct (Nat.eqb_spec x j); subst; ring. }
    rewrite (zsum_ext n (fun x => c x * addcol B k j r x y)%Z
      (fun x => if Nat.eqb x k then c x * B x y + - (c k * B j y * r) else c x * B x y)%Z).
    2:{ intros x _. unfold addcol, setcol. destruct (Nat.eqb_spec x k); subst; ring. }
    rewrite !zsum_upd by easy. ring.
- intros H c Hc.
  assert (H' : forall x, (x < n)%nat -> (if Nat.eqb x j then c x + - (c k * inject_Z r) else c x) == 0).
  { apply (H (fun x => if Nat.eqb x j then c x + - (c k * inject_Z r) else c x)).
    intros y Hy. rewrite <- (Hc y Hy).
    rewrite (qsum_ext n (fun x => (if Nat.eqb x j then c x + - (c k * inject_Z r) else c x) * qvec B x y)
      (fun x => if Nat.eqb x j then c x * qvec B x y + - (c k * inject_Z r * qvec B j y) else c x * qvec B x y)).
    2:{ intros x _. destruct (Nat.eqb_spec x j); subst; ring. }
    rewrite (qsum_ext n (fun x => c x * qvec (addcol B k j r) x y)
      (fun x => if Nat.eqb x k then c x * qvec B x y + - (c k * inject_Z r * qvec B j y) else c x * qvec B x y)).
    2:{ intros x _. unfold qvec, addcol, setcol. destruct (Nat.eqb_spec x k); subst; [|easy].
        unfold Z.sub. rewrite inject_Z_plus, inject_Z_opp, inject_Z_mult. ring. }
    rewrite !qsum_upd by easy. ring. }
  assert (Ck : c k == 0).
  { specialize (H' k Hk). assert (Nat.eqb k j = false) as E by (apply Nat.eqb_neq; lia).
    now rewrite E in H'. }
  intros x Hx. specialize (H' x Hx). destruct (Nat.eqb x j); [|easy].
  rewrite Ck in H'. lra.
Qed.

Definition tr (k k' x : nat) : nat := if Nat.eqb x k then k' else if Nat.eqb x k' then k else x.

Lemma zsum_tr n f k k' : (k < n)%nat -> (k' < n)%nat ->
  zsum n (fun x => f (tr k k' x)) = zsum n f.
Proof.
intros Hk Hk'. destruct (Nat.eq_dec k k') as [->|Hne].
{ apply zsum_ext. intros x _. unfold tr. destruct (Nat.eqb_spec x k'); now subst. }
rewrite (zsum_ext n _ (fun x => if Nat.eqb x k then (if Nat.eqb x k' then f x + (f k - f k') else f x) + (f k' - f k)
   else (if Nat.eqb x k' then f x + (f k - f k') else f x))%Z).
- rewrite !zsum_upd by easy. lia.
- intros x _. unfold tr. destruct (Nat.eqb_spec x k); destruct (Nat.eqb_spec x k'); subst; lia.
Qed.

Lemma qsum_tr n f k k' : (k < n)%nat -> (k' < n)%nat ->
  qsum n (fun x => f (tr k k' x)) == qsum n f.
Proof.
intros Hk Hk'. destruct (Nat.eq_dec k k') as [->|Hne].
{ apply qsum_ext. intros x _. unfold tr. destruct (Nat.eqb_spec x k'); now subst. }
rewrite (qsum_ext n _ (fun x => if Nat.eqb x k then (if Nat.eqb x k' then f x + (f k - f k') else f x) + (f k' - f k)
   else (if Nat.eqb x k' then f x + (f k - f k') else f x))).
- rewrite !qsum_upd by easy. ring.
- intros x _. unfold tr. destruct (Nat.eqb_spec x k); destruct (Nat.eqb_spec x k'); subst; try lia; try ring; easy.
Qed.

Lemma tr_tr k k' x : tr k k' (tr k k' x) = x.
Proof.
unfold tr. destruct (Nat.eqb_spec x k); destruct (Nat.eqb_spec x k'); subst;
  rewrite ?Nat.eqb_refl; try easy.
- destruct (Nat.eqb_spec k' k); now subst.
- destruct (Nat.eqb_spec x k); [easy|]. destruct (Nat.eqb_spec x k'); easy.
Qed.

Lemma tr_lt n k k' x : (k < n)%nat -> (k' < n)%nat -> (x < n)%nat -> (tr k k' x < n)%nat.
Proof. unfold tr. destruct (Nat.eqb x k); [easy|]. destruct (Nat.eqb x k'); easy. Qed.

Lemma swapcol_tr B k k' x y : swapcol B k k' x y = B (tr k k' x) y.
Proof. unfold swapcol, tr. destruct (Nat.eqb x k); [easy|]. destruct (Nat.eqb x k'); easy. Qed.

Lemma swapcol_lat n m B k k' : (k < n)%nat -> (k' < n)%nat -> lat_eq n m B (swapcol B k k').
Proof.
intros Hk Hk'. split.
- intros v. split; intros [c Hc]; exists (fun x => c (tr k k' x)); intros y Hy; rewrite Hc by easy.
  + rewrite <- (zsum_tr n (fun x => c x * B x y)%Z k k') by easy.
    apply zsum_ext. intros x _. now rewrite swapcol_tr.
  + rewrite <- (zsum_tr n (fun x => c x * swapcol B k k' x y)%Z k k') by easy.
    apply zsum_ext. intros x _. now rewrite swapcol_tr, tr_tr.
- intros H c Hc x Hx. rewrite <- (tr_tr k k' x).
  apply (H (fun x => c (tr k k' x))); [|now apply tr_lt].
  intros y Hy. rewrite <- (Hc y Hy).
  rewrite <- (qsum_tr n (fun x => c x * qvec (swapcol B k k') x y) k k') by easy.
  apply qsum_ext. intros x' _. unfold qvec. now rewrite swapcol_tr, tr_tr.
Qed.

(** * Spans *)

Definition qspan m (k : nat) (O : nat -> nat -> Q) (v : nat -> Q) : Prop :=
  exists mu : nat -> Q, veq m v (fun y => qsum k (fun j => mu j * O j y)).

Lemma qspan_ext m k O v v' : veq m v v' -> qspan m k O v -> qspan m k O v'.
Proof.
intros H [mu E]. exists mu. intros y Hy. rewrite <- (H y Hy : v y == v' y). now apply E.
Qed.

Lemma qspan_add m k O u v : qspan m k O u -> qspan m k O v -> qspan m k O (fun y => u y + v y).
Proof.
intros [mu E] [mu' E']. exists (fun j => mu j + mu' j). intros y Hy. cbn beta.
rewrite (E y Hy : u y == _), (E' y Hy : v y == _), <- qsum_add. apply qsum_ext. intros; ring.
Qed.

Lemma qspan_scale m k O a u : qspan m k O u -> qspan m k O (fun y => a * u y).
Proof.
intros [mu E]. exists (fun j => a * mu j). intros y Hy. cbn beta.
rewrite (E y Hy : u y == _), <- qsum_scale. apply qsum_ext. intros; ring.
Qed.

Lemma qspan_le m k k' O u : (k <= k')%nat -> qspan m k O u -> qspan m k' O u.
Proof.
intros H [mu E]. exists (fun j => if Nat.ltb j k then mu j else 0). intros y Hy.
rewrite (E y Hy : u y == _). clear E. revert H. induction k' as [|k' IH]; intros H.
- assert (k = 0)%nat as -> by lia. easy.
- rewrite qsum_S. destruct (Nat.eq_dec k (S k')) as [->|].
  + rewrite qsum_S. assert (Nat.ltb k' (S k') = true) as -> by (apply Nat.ltb_lt; lia).
    apply Qplus_comp; [|easy]. apply qsum_ext. intros j Hj.
    now assert (Nat.ltb j (S k') = true) as -> by (apply Nat.ltb_lt; lia).
  + rewrite IH by lia. assert (Nat.ltb k' k = false) as -> by (apply Nat.ltb_ge; lia). ring.
Qed.

Lemma qspan_one m k O j : (j < k)%nat -> qspan m k O (O j).
Proof.
intros H. exists (fun i => if Nat.eqb i j then 1 else 0). intros y Hy.
rewrite (qsum_ext k _ (fun i => if Nat.eqb i j then 0 + O j y else 0)).
- rewrite (qsum_upd k (fun _ => 0)) by easy. rewrite qsum_zero by easy. ring.
- intros i _. destruct (Nat.eqb_spec i j); subst; ring.
Qed.

Lemma qspan_zero m k O : qspan m k O (fun _ => 0).
Proof. exists (fun _ => 0). intros y _. rewrite qsum_zero; [easy|]. intros; ring. Qed.

Lemma qspan_sum m k O n (f : nat -> nat -> Q) :
  (forall i, (i < n)%nat -> qspan m k O (f i)) -> qspan m k O (fun y => qsum n (fun i => f i y)).
Proof.
induction n as [|n IH]; intros H; [apply qspan_zero|].
apply (qspan_ext m k O (fun y => qsum n (fun i => f i y) + f n y)).
- intros y _. cbn beta. now rewrite qsum_S.
- apply (qspan_add m k O (fun y => qsum n (fun i => f i y)) (f n));
    [apply IH; intros; apply H; lia|apply H; lia].
Qed.

Lemma qspan_trans m k k' (O O' : nat -> nat -> Q) v : qspan m k O v ->
  (forall j, (j < k)%nat -> qspan m k' O' (O j)) -> qspan m k' O' v.
Proof.
intros [mu E] H. apply (qspan_ext m k' O' (fun y => qsum k (fun j => mu j * O j y))).
- intros y Hy. symmetry. now apply E.
- apply (qspan_sum m k' O' k (fun j y => mu j * O j y)). intros j Hj. apply qspan_scale. now apply H.
Qed.

Lemma gs_in_span n m B O i : is_gs n m B O -> (i < n)%nat -> qspan m (S i) O (qvec B i).
Proof.
intros [_ H] Hi. destruct (H i Hi) as [mu E].
apply (qspan_ext m _ _ (fun y => O i y + qsum i (fun j => mu j * O j y))).
- intros y Hy. symmetry. now apply E.
- apply qspan_add; [apply qspan_one; lia|]. apply (qspan_le m i); [lia|]. exists mu. easy.
Qed.

Lemma gs_span_b n m B O i : is_gs n m B O -> (i < n)%nat -> qspan m (S i) (qvec B) (O i).
Proof.
intros H. induction i as [i IH] using lt_wf_ind. intros Hi.
destruct (proj2 H i Hi) as [mu E].
apply (qspan_ext m _ _ (fun y => qvec B i y + (-1) * qsum i (fun j => mu j * O j y))).
- intros y Hy. rewrite (E y Hy). ring.
- apply qspan_add; [apply (qspan_one m (S i) (qvec B) i); lia|].
  apply (qspan_scale m (S i) (qvec B) (-1) (fun y => qsum i (fun j => mu j * O j y))).
  apply (qspan_sum m _ _ i (fun j y => mu j * O j y)). intros j Hj.
  apply qspan_scale. apply (qspan_le m (S j)); [lia|]. apply IH; lia.
Qed.

(** independent vectors have non-zero orthogonalisations *)
Lemma indep_nz n m B O j : independent n m B -> is_gs (S j) m B O -> (j < n)%nat ->
  ~ dot m (O j) (O j) == 0.
Proof.
intros Hi Hg Hj E. apply dot_self_0 in E.
assert (Hs : qspan m j (qvec B) (qvec B j)).
{ apply (qspan_trans m j j O).
  - destruct (proj2 Hg j ltac:(lia)) as [mu Em]. exists mu. intros y Hy.
    rewrite (Em y Hy). rewrite (E y Hy : O j y == 0). ring.
  - intros l Hl. apply (qspan_le m (S l)); [lia|]. apply (gs_span_b (S j) m B O l); [easy|lia]. }
destruct Hs as [mu Em].
assert (H1 : 1 == 0).
{ pose (c := fun x => if Nat.eqb x j then -1 else if Nat.ltb x j then mu x else 0).
  assert (Hc : c j == 0).
  { apply (Hi c); [|easy]. intros y Hy.
    assert (G : forall n', (j < n')%nat -> qsum n' (fun x => c x * qvec B x y) == 0).
    { induction n' as [|n' IH]; intros Hn'; [lia|]. rewrite qsum_S. unfold c at 2.
      destruct (Nat.eqb_spec n' j) as [->|].
      - rewrite (qsum_ext j _ (fun x => mu x * qvec B x y)).
        + rewrite <- (Em y Hy : qvec B j y == _). ring.
        + intros x Hx. unfold c. assert (Nat.eqb x j = false) as -> by (apply Nat.eqb_neq; lia).
          now assert (Nat.ltb x j = true) as -> by (apply Nat.ltb_lt; lia).
      - rewrite IH by lia. assert (Nat.ltb n' j = false) as -> by (apply Nat.ltb_ge; lia). ring. }
    now apply G. }
  unfold c in Hc. rewrite Nat.eqb_refl in Hc. lra. }
lra.
Qed.

(** * Orthogonalisation and column operations *)

Definition agree (m k : nat) (B B' : nat -> nat -> Z) : Prop :=
  forall x y, (x < k)%nat -> (y < m)%nat -> B x y = B' x y.

Lemma gs_agree m k B B' O : agree m k B B' -> is_gs k m B O -> is_gs k m B' O.
Proof.
intros H [H1 H2]. split; [easy|]. intros i Hi. destruct (H2 i Hi) as [mu E].
exists mu. intros y Hy. rewrite <- E by easy. unfold qvec. now rewrite H.
Qed.

Lemma agree_sym m k B B' : agree m k B B' -> agree m k B' B.
Proof. intros H x y Hx Hy. symmetry. now apply H. Qed.

Lemma gs_later m n B O j l : is_gs n m B O -> (j < l < n)%nat -> dot m (O l) (qvec B j) == 0.
Proof.
intros H Hjl. rewrite (gs_num m B O j (O l)).
- apply H. lia.
- apply (is_gs_le m B n); [lia|easy].
- intros i Hi. apply H. lia.
Qed.

Lemma gs_self m n B O j : is_gs n m B O -> (j < n)%nat ->
  dot m (O j) (qvec B j) == dot m (O j) (O j).
Proof.
intros H Hj. apply (gs_num m B O j (O j)).
- apply (is_gs_le m B n); [lia|easy].
- intros i Hi. apply H. lia.
Qed.

Lemma gs_mu_ext m B B' O O' i j : veq m (qvec B i) (qvec B' i) -> veq m (O j) (O' j) ->
  gs_mu m B O i j == gs_mu m B' O' i j.
Proof.
intros H1 H2. unfold gs_mu.
now rewrite (dot_ext m (O j) (O' j) (qvec B i) (qvec B' i)), (dot_ext m (O j) (O' j) (O j) (O' j)).
Qed.

Lemma addcol_vec m B k j r : veq m (qvec (addcol B k j r) k)
  (fun y => qvec B k y - inject_Z r * qvec B j y).
Proof.
intros y _. unfold qvec, addcol, setcol. rewrite Nat.eqb_refl.
unfold Z.sub. rewrite inject_Z_plus, inject_Z_opp, inject_Z_mult. ring.
Qed.

Lemma addcol_agree m B k j r : agree m k B (addcol B k j r).
Proof.
intros x y Hx Hy. unfold addcol, setcol.
now assert (Nat.eqb x k = false) as -> by (apply Nat.eqb_neq; lia).
Qed.

Lemma mu_addcol m B O k j r l :
  gs_mu m (addcol B k j r) O k l ==
  gs_mu m B O k l - inject_Z r * (dot m (O l) (qvec B j) / dot m (O l) (O l)).
Proof.
unfold gs_mu.
rewrite (dot_ext m (O l) (O l) _ _ (fun _ _ => Qeq_refl _) (addcol_vec m B k j r)).
rewrite dot_sub_r, dot_scale_r. unfold Qdiv. ring.
Qed.

(** rounding *)
Lemma round_close q : Qabs (q - inject_Z (lll_round q)) <= 1 # 2.
Proof.
unfold lll_round, r_sub. pose proof (Qfloor_le q) as H1. pose proof (Qlt_floor q) as H2.
rewrite inject_Z_plus in H2. set (f := Qfloor q) in *.
change (inject_Z 1) with 1 in H2.
apply Qabs_Qle_condition.
destruct (Qcompare _ _) eqn:E.
- apply Qeq_alt in E. rewrite Qred_correct in E.
  destruct (Z.odd f); rewrite ?inject_Z_plus; change (inject_Z 1) with 1; split; lra.
- apply Qlt_alt in E. rewrite Qred_correct in E. split; lra.
- apply Qgt_alt in E. rewrite Qred_correct in E.
  rewrite inject_Z_plus; change (inject_Z 1) with 1; split; lra.
Qed.

(** * The state *)

Section State.
Variables (n m : nat) (N : Prop).

Definition sinv (s : lll) (B : nat -> nat -> Z) (O : nat -> nat -> Q) : Prop :=
  own (lb s) n m B /\ own (lo s) n m O /\ is_gs (lv s) m B O /\ (lv s <= n)%nat.

Lemma calc_ok s B O col : sinv s B O -> (col < n)%nat ->
  exists s' O', calculate_column s col = Ret s' /\ lb s' = lb s /\ sinv s' B O' /\
    (col < lv s')%nat /\ (lv s <= lv s')%nat.
Proof.
intros H Hc. unfold calculate_column.
match goal with |- context[rfold ?f _ _] => set (body := f) end.
assert (G : forall len z s O, sinv s B O -> (lv s + len <= n)%nat ->
  exists s' O', rfold body (seq z len) s = Ret s' /\ lb s' = lb s /\ sinv s' B O' /\
    lv s' = (lv s + len)%nat).
{ clear s O H. induction len as [|len IH]; intros z s O H Hl.
  - exists s, O. cbn. rewrite Nat.add_0_r. easy.
  - cbn [seq rfold]. destruct H as [H1 [H2 [H3 H4]]].
    destruct (own_full _ _ _ _ H1) as [b [Eb Hb]].
    destruct (gs_column_ok b (lo s) n m B O (lv s) Hb H2) as [o [O1 [Eo [Ho [Hg _]]]]];
      [lia|easy|].
    unfold body at 1. rewrite Eb. cbn [rbind]. rewrite Eo. cbn [rbind].
    destruct (IH (S z) (LLL (lb s) o (lv s + 1)) O1) as [s' [O' [E [E1 [H' E2]]]]].
    + split; [easy|]. split; [easy|]. cbn [lv]. rewrite Nat.add_1_r. split; [easy|lia].
    + cbn [lv]. lia.
    + exists s', O'. rewrite E. split; [easy|]. split; [easy|]. split; [easy|].
      cbn [lv] in E2. lia. }
destruct (G (S col - lv s)%nat 0%nat s O H) as [s' [O' [E [E1 [H' E2]]]]].
- destruct H as [_ [_ [_ H]]]. lia.
- exists s', O'. split; [easy|]. split; [easy|]. split; [easy|]. lia.
Qed.

Lemma norm_ok s B O j : sinv s B O -> (j < n)%nat ->
  exists oj q, slice (lo s) (bound_at j) bound_full = Ret oj /\ inner_qq oj oj = Ret q /\
    q == dot m (O j) (O j).
Proof.
intros [_ [H _]] Hj. destruct (own_col _ _ _ _ j H Hj) as [oj [E Ho]].
destruct (inner_qq_ok _ _ _ _ _ Ho Ho) as [q [Eq Hq]]. exists oj, q. easy.
Qed.

Lemma mu_ok s B O i j : sinv s B O -> (N -> independent n m B) -> (i < n)%nat -> (j < n)%nat ->
  outc N (fun qs => let '(q, s') := qs in exists O', lb s' = lb s /\ sinv s' B O' /\
            (j < lv s')%nat /\ ~ dot m (O' j) (O' j) == 0 /\ q == gs_mu m B O' i j)
    (lll_mu s i j).
Proof.
intros H Hi Hin Hjn. unfold lll_mu.
destruct (calc_ok s B O j H Hjn) as [s' [O' [E [E1 [H' [Hj _]]]]]].
rewrite E. cbn [rbind].
destruct (own_col _ _ _ _ j (proj1 (proj2 H')) Hjn) as [oj [Ej Ho]]. rewrite Ej. cbn [rbind].
destruct (own_col _ _ _ _ i (proj1 H') Hin) as [bi [Ei Hb]]. rewrite Ei. cbn [rbind].
destruct (inner_qz_ok _ _ _ _ _ Ho Hb) as [p [Ep Hp]]. rewrite Ep. cbn [rbind].
destruct (inner_qq_ok _ _ _ _ _ Ho Ho) as [d [Ed Hd]]. rewrite Ed. cbn [rbind].
destruct (Qeq_dec d 0) as [Hz|Hz].
- rewrite (ratio_div_zero p d Hz). cbn. intros HN.
  apply (indep_nz n m B O' j (Hi HN)); [|easy|now rewrite <- Hz, Hd].
  apply (is_gs_le m B (lv s')); [lia|]. apply H'.
- destruct (ratio_div_ok p d Hz) as [q [Eq Hq]]. rewrite Eq. cbn.
  exists O'. split; [easy|]. split; [easy|]. split; [easy|].
  split; [now rewrite <- Hd|]. rewrite Hq, Hp, Hd. easy.
Qed.

Lemma sub_basis_ok b B k j r : own b n m B -> (k < n)%nat -> (j < n)%nat ->
  exists b', sub_basis_column k j r b = Ret b' /\ own b' n m (addcol B k j r).
Proof.
intros Hb Hk Hj. unfold sub_basis_column. rewrite (proj2 (own_size _ _ _ _ Hb)).
apply (col_loop n m k (fun B y => B k y - B j y * r)%Z);
  [|intros c c' y E; now rewrite !E|easy].
intros a c y Ha Hy. rewrite (own_index _ _ _ _ _ _ Ha Hj Hy). cbn [rbind].
rewrite (own_index _ _ _ _ _ _ Ha Hk Hy). cbn [rbind].
apply own_set; easy.
Qed.

(** size reduction done for the indices from [j] on *)
Definition sized (B : nat -> nat -> Z) (k j : nat) : Prop :=
  forall O, is_gs k m B O -> forall l, (j <= l < k)%nat -> Qabs (gs_mu m B O k l) <= 1 # 2.

(** [B'] is [B] with integer multiples of earlier vectors added to the [k]-th *)
Definition srel (k : nat) (B B' : nat -> nat -> Z) : Prop :=
  (forall x y, x <> k -> B' x y = B x y) /\
  exists c : nat -> Z, forall y, B' k y = (B k y + zsum k (fun l => c l * B l y))%Z.

Lemma zsum_add a f g : zsum a (fun i => f i + g i)%Z = (zsum a f + zsum a g)%Z.
Proof. induction a as [|a IH]; [easy|]. rewrite !zsum_S, IH. lia. Qed.

Lemma zsum_0 a : zsum a (fun _ => 0)%Z = 0%Z.
Proof. induction a as [|a IH]; [easy|]. rewrite zsum_S, IH. easy. Qed.

Lemma srel_refl k B : srel k B B.
Proof.
split; [easy|]. exists (fun _ => 0%Z). intros y. cbn [Z.mul]. rewrite zsum_0. lia.
Qed.

Lemma srel_addcol k B B1 j r : (j < k)%nat -> srel k B B1 -> srel k B (addcol B1 k j r).
Proof.
intros Hj [H1 [c H2]]. split.
- intros x y Hx. unfold addcol, setcol.
  assert (Nat.eqb x k = false) as -> by (now apply Nat.eqb_neq). now apply H1.
- exists (fun l => if Nat.eqb l j then c l + - r else c l)%Z. intros y.
  unfold addcol, setcol. rewrite Nat.eqb_refl, H2, (H1 j) by lia.
  rewrite (zsum_ext k (fun l => (if Nat.eqb l j then c l + - r else c l) * B l y)%Z
    (fun l => if Nat.eqb l j then c l * B l y + - (B j y * r) else c l * B l y)%Z).
  + rewrite zsum_upd by easy. ring.
  + intros l _. destruct (Nat.eqb_spec l j); subst; ring.
Qed.

Lemma size_step_ok s B O k j : sinv s B O -> (N -> independent n m B) -> (j < k < n)%nat ->
  sized B k (S j) ->
  outc N (fun s' => exists B' O', sinv s' B' O' /\ lat_eq n m B B' /\
      sized B' k j /\ (B' = B \/ exists r, B' = addcol B k j r)) (size_reduce_step k s j).
Proof.
intros H Hi Hjk Hs. unfold size_reduce_step.
eapply outc_bind; [apply (mu_ok s B O k j H Hi); lia|].
intros [q s1] [O1 [E1 [H1 [Hj [Hnz Hq]]]]].
assert (Huniq : forall O', is_gs k m B O' -> veq m (O1 j) (O' j)).
{ intros O' HO'. apply (gs_unique m B (S j)); [| |lia].
  - apply (is_gs_le m B (lv s1)); [lia|apply H1].
  - apply (is_gs_le m B k); [lia|easy]. }
destruct (Qle_bool (Qabs q) (1 # 2)) eqn:Eq; cbn [negb].
- apply Qle_bool_iff in Eq. cbn. exists B, O1. split; [easy|]. split; [apply lat_eq_refl|].
  split; [|now left]. intros O' HO' l Hl. destruct (Nat.eq_dec l j) as [->|]; [|apply Hs; [easy|lia]].
  rewrite <- (gs_mu_ext m B B O1 O' k j (fun _ _ => Qeq_refl _) (Huniq O' HO')). now rewrite <- Hq.
- destruct H1 as [Hb [Ho [Hg Hv]]].
  destruct (sub_basis_ok (lb s1) B k j (lll_round q) Hb) as [b' [E' Hb']]; [lia|lia|].
  cbn [invalidate_column lb]. rewrite E'. cbn [rbind outc].
  exists (addcol B k j (lll_round q)), O1. split; [|split; [|split]].
  + split; [easy|]. split; [easy|]. cbn [lv lo invalidate_column]. split; [|lia].
    apply (gs_agree m _ B).
    * intros x y Hx Hy. apply (addcol_agree m); [lia|easy].
    * apply (is_gs_le m B (lv s1)); [lia|easy].
  + apply addcol_lat; lia.
  + intros O' HO' l Hl.
    assert (HB : is_gs k m B O').
    { apply (gs_agree m k (addcol B k j (lll_round q)) B O'); [|exact HO']. apply agree_sym, addcol_agree. }
    rewrite mu_addcol. destruct (Nat.eq_dec l j) as [->|Hlj].
    * rewrite (gs_self m k B O' j HB) by lia.
      rewrite <- (gs_mu_ext m B B O1 O' k j (fun _ _ => Qeq_refl _) (Huniq O' HB)), <- Hq.
      assert (D : dot m (O' j) (O' j) / dot m (O' j) (O' j) == 1).
      { field. rewrite <- (dot_ext m (O1 j) (O' j) (O1 j) (O' j)); [easy|now apply Huniq|now apply Huniq]. }
      rewrite D, Qmult_1_r. apply round_close.
    * rewrite (gs_later m k B O' j l HB) by lia.
      assert (D : gs_mu m B O' k l - inject_Z (lll_round q) * (0 / dot m (O' l) (O' l)) == gs_mu m B O' k l).
      { unfold Qdiv. ring. }
      rewrite D. apply Hs; [easy|lia].
  + right. now exists (lll_round q).
Qed.

Lemma size_loop_ok k j : forall s B O B0, sinv s B O -> (N -> independent n m B) -> (j <= k < n)%nat ->
  sized B k j -> srel k B0 B ->
  outc N (fun s' => exists B' O', sinv s' B' O' /\ lat_eq n m B B' /\
      sized B' k 0 /\ srel k B0 B') (rfold (size_reduce_step k) (rev (seq 0 j)) s).
Proof.
induction j as [|j IH]; intros s B O B0 H Hi Hjk Hs Hr.
- cbn. exists B, O. split; [easy|]. split; [apply lat_eq_refl|]. easy.
- rewrite seq_S, rev_app_distr. cbn [rev app rfold Nat.add].
  eapply outc_bind; [apply (size_step_ok s B O k j H Hi); [lia|easy]|].
  intros s1 [B1 [O1 [H1 [Hl [Hs1 Hc]]]]].
  assert (Hr1 : srel k B0 B1).
  { destruct Hc as [->|[r ->]]; [easy|]. apply srel_addcol; [lia|easy]. }
  eapply outc_imp; [apply (IH s1 B1 O1 B0 H1); try easy|].
  + intros HN. apply Hl. now apply Hi.
  + lia.
  + intros s2 [B2 [O2 [H2 [Hl2 [Hs2 Hr2]]]]]. exists B2, O2.
    split; [easy|]. split; [|easy]. now apply (lat_eq_trans n m B B1).
Qed.

(** the first [k] vectors are reduced *)
Definition red (delta : Q) (B : nat -> nat -> Z) (k : nat) : Prop :=
  forall O, is_gs k m B O ->
    (forall i j, (j < i < k)%nat -> Qabs (gs_mu m B O i j) <= 1 # 2) /\
    (forall i, (0 < i < k)%nat ->
       (delta - gs_mu m B O i (i - 1) * gs_mu m B O i (i - 1)) * dot m (O (i - 1)%nat) (O (i - 1)%nat)
       <= dot m (O i) (O i)).

Lemma red_agree delta B B' k : agree m k B B' -> red delta B k -> red delta B' k.
Proof.
intros Ha H O HO.
assert (HB : is_gs k m B O) by (apply (gs_agree m k B' B O); [now apply agree_sym|easy]).
assert (E : forall i j, (i < k)%nat -> gs_mu m B O i j == gs_mu m B' O i j).
{ intros i j Hik. apply gs_mu_ext; [|easy]. intros y Hy. unfold qvec. now rewrite Ha. }
destruct (H O HB) as [H1 H2]. split.
- intros i j Hij. rewrite <- E by lia. now apply H1.
- intros i Hi. rewrite <- E by lia. now apply H2.
Qed.

Lemma red_le delta B k k' : (k' <= k)%nat -> (exists O, is_gs k m B O) -> red delta B k -> red delta B k'.
Proof.
intros Hk [O HO] H O' HO'.
assert (E : forall i, (i < k')%nat -> veq m (O i) (O' i)).
{ intros i Hi. apply (gs_unique m B k'); [|easy|easy]. now apply (is_gs_le m B k). }
destruct (H O HO) as [H1 H2]. split.
- intros i j Hij. rewrite <- (gs_mu_ext m B B O O' i j (fun _ _ => Qeq_refl _)) by (apply E; lia).
  apply H1. lia.
- intros i Hi. rewrite <- (gs_mu_ext m B B O O' i (i - 1) (fun _ _ => Qeq_refl _)) by (apply E; lia).
  rewrite <- (dot_ext m (O i) (O' i) (O i) (O' i)) by (apply E; lia).
  rewrite <- (dot_ext m (O (i - 1)%nat) (O' (i - 1)%nat) (O (i - 1)%nat) (O' (i - 1)%nat)) by (apply E; lia).
  apply H2. lia.
Qed.

Lemma swap_columns_ok b B k k' : own b n m B -> (k < n)%nat -> (k' < n)%nat ->
  exists b', swap_columns k k' b = Ret b' /\ own b' n m (swapcol B k k').
Proof.
intros Hb Hk Hk'. unfold swap_columns. rewrite (proj2 (own_size _ _ _ _ Hb)).
assert (G : forall len s b, (s + len = m)%nat ->
  own b n m (fun x y => if Nat.ltb y s then swapcol B k k' x y else B x y) ->
  exists b', rfold (fun b y => swap_elements b k y k' y) (seq s len) b = Ret b' /\
    own b' n m (swapcol B k k')).
{ clear b Hb. induction len as [|len IH]; intros s b Es H.
  - exists b. split; [easy|]. eapply own_ext; [|exact H].
    intros x y Hx Hy. cbn beta. now assert (Nat.ltb y s = true) as -> by (apply Nat.ltb_lt; lia).
  - cbn [seq rfold]. destruct (own_swap _ _ _ _ k s k' s H) as [b1 [E1 H1]]; try lia.
    rewrite E1. cbn [rbind]. apply IH; [lia|]. eapply own_ext; [|exact H1].
    intros x y Hx Hy. unfold upd2. cbn beta.
    assert (Nat.ltb s s = false) as -> by (apply Nat.ltb_ge; lia).
    destruct (Nat.eqb_spec y s) as [->|Hys].
    + rewrite !andb_true_r. assert (Nat.ltb s (S s) = true) as -> by (apply Nat.ltb_lt; lia).
      assert (Nat.ltb s s = false) as -> by (apply Nat.ltb_ge; lia).
      unfold swapcol. destruct (Nat.eqb_spec x k') as [Ex|]; destruct (Nat.eqb_spec x k) as [Ey|]; try easy.
      congruence.
    + rewrite !andb_false_r.
      destruct (Nat.ltb_spec y s); destruct (Nat.ltb_spec y (S s)); try easy; lia. }
apply (G m 0%nat b); [lia|]. eapply own_ext; [|exact Hb]. easy.
Qed.

(** what one pass of the loop does *)
Definition step_to (delta : Q) (B : nat -> nat -> Z) (k : nat) (B' : nat -> nat -> Z) (k' : nat) : Prop :=
  exists B1 O, lat_eq n m B B1 /\ srel k B B1 /\ is_gs (S k) m B1 O /\ sized B1 k 0 /\
    ~ dot m (O (k - 1)%nat) (O (k - 1)%nat) == 0 /\
    ((B' = B1 /\ k' = S k /\
      (delta - gs_mu m B1 O k (k - 1) * gs_mu m B1 O k (k - 1)) * dot m (O (k - 1)%nat) (O (k - 1)%nat)
        <= dot m (O k) (O k)) \/
     (B' = swapcol B1 k (k - 1) /\ k' = Nat.max 1 (k - 1) /\
      dot m (O k) (O k) <
      (delta - gs_mu m B1 O k (k - 1) * gs_mu m B1 O k (k - 1)) * dot m (O (k - 1)%nat) (O (k - 1)%nat))).

Lemma step_ok delta s B O k : sinv s B O -> (N -> independent n m B) -> (1 <= k < n)%nat ->
  outc N (fun sk => exists B' O', sinv (fst sk) B' O' /\ step_to delta B k B' (snd sk))
    (lll_step delta s k).
Proof.
intros H Hi Hk. unfold lll_step.
eapply outc_bind; [apply (size_loop_ok k k s B O B H Hi); [lia| |apply srel_refl]|].
{ intros O' _ l Hl. lia. }
intros s1 [B1 [O1 [H1 [Hl1 [Hs1 Hr1]]]]].
eapply outc_bind; [apply (mu_ok s1 B1 O1 k (k - 1) H1); [|lia|lia]|].
{ intros HN. apply Hl1. now apply Hi. }
intros [q s2] [O2 [E2 [H2 [Hj2 [Hnz Hq]]]]].
destruct (calc_ok s2 B1 O2 (k - 1) H2) as [s3 [O3 [E3 [Eb3 [H3 [Hj3 _]]]]]]; [lia|].
rewrite E3. cbn [rbind].
destruct (norm_ok s3 B1 O3 (k - 1) H3) as [o1 [km1 [Eo1 [Ekm1 Hkm1]]]]; [lia|].
rewrite Eo1. cbn [rbind]. rewrite Ekm1. cbn [rbind].
destruct (calc_ok s3 B1 O3 k H3) as [s4 [O4 [E4 [Eb4 [H4 [Hj4 _]]]]]]; [lia|].
rewrite E4. cbn [rbind].
destruct (norm_ok s4 B1 O4 k H4) as [o2 [kk [Eo2 [Ekk Hkk]]]]; [lia|].
rewrite Eo2. cbn [rbind]. rewrite Ekk. cbn [rbind].
assert (G4 : is_gs (S k) m B1 O4) by (apply (is_gs_le m B1 (lv s4)); [lia|apply H4]).
assert (V2 : veq m (O2 (k - 1)%nat) (O4 (k - 1)%nat)).
{ apply (gs_unique m B1 (S (k - 1))); [| |lia].
  - apply (is_gs_le m B1 (lv s2)); [lia|apply H2].
  - apply (is_gs_le m B1 (S k)); [lia|easy]. }
assert (V3 : veq m (O3 (k - 1)%nat) (O4 (k - 1)%nat)).
{ apply (gs_unique m B1 (S (k - 1))); [| |lia].
  - apply (is_gs_le m B1 (lv s3)); [lia|apply H3].
  - apply (is_gs_le m B1 (S k)); [lia|easy]. }
rewrite (gs_mu_ext m B1 B1 O2 O4 k (k - 1) (fun _ _ => Qeq_refl _) V2) in Hq.
rewrite (dot_ext m _ _ _ _ V2 V2) in Hnz. rewrite (dot_ext m _ _ _ _ V3 V3) in Hkm1.
assert (Ec : r_mul (r_sub delta (r_mul q q)) km1 ==
  (delta - gs_mu m B1 O4 k (k - 1) * gs_mu m B1 O4 k (k - 1)) * dot m (O4 (k - 1)%nat) (O4 (k - 1)%nat)).
{ unfold r_mul, r_sub. rewrite !Qred_correct, Hq, Hkm1. easy. }
destruct (Qle_bool _ kk) eqn:Ecmp.
- apply Qle_bool_iff in Ecmp. cbn. exists B1, O4. split; [easy|].
  exists B1, O4. do 5 (split; [easy|]). left. split; [easy|]. split; [lia|].
  rewrite <- Ec, <- Hkk. easy.
- assert (Hlt : kk < r_mul (r_sub delta (r_mul q q)) km1).
  { apply Qnot_le_lt. intros Hle. apply Qle_bool_iff in Hle. congruence. }
  destruct H4 as [Hb4 [Ho4 [Hg4 Hv4]]].
  destruct (swap_columns_ok (lb s4) B1 k (k - 1) Hb4) as [b' [E' Hb']]; [lia|lia|].
  cbn [invalidate_column lb]. rewrite E'. cbn [rbind outc fst snd].
  exists (swapcol B1 k (k - 1)), O4. split.
  + split; [easy|]. split; [easy|]. cbn [lv invalidate_column]. split; [|lia].
    apply (gs_agree m _ B1).
    * intros x y Hx Hy. unfold swapcol.
      assert (Nat.eqb x k = false) as -> by (apply Nat.eqb_neq; lia).
      now assert (Nat.eqb x (k - 1) = false) as -> by (apply Nat.eqb_neq; lia).
    * apply (is_gs_le m B1 (lv s4)); [lia|easy].
  + exists B1, O4. do 5 (split; [easy|]). right. split; [easy|]. split; [easy|].
    rewrite <- Ec, <- Hkk. easy.
Qed.

Lemma step_lat delta B k B' k' : (1 <= k < n)%nat -> step_to delta B k B' k' -> lat_eq n m B B'.
Proof.
intros Hk [B1 [O [H [_ [_ [_ [_ [[-> _]|[-> _]]]]]]]]]; [easy|].
apply (lat_eq_trans n m B B1); [easy|]. apply swapcol_lat; lia.
Qed.

Lemma srel_agree k B B1 : srel k B B1 -> agree m k B B1.
Proof. intros [H _] x y Hx _. symmetry. apply H. lia. Qed.

Lemma step_red delta B k B' k' : (1 <= k < n)%nat -> red delta B k ->
  step_to delta B k B' k' -> red delta B' k'.
Proof.
intros Hk Hr [B1 [O [_ [Hs [Hg [Hz [_ Hc]]]]]]].
assert (R1 : red delta B1 k) by (apply (red_agree delta B); [now apply srel_agree|easy]).
destruct Hc as [[-> [-> Hlov]]|[-> [-> _]]].
- intros O' HO'.
  assert (E : forall i, (i < S k)%nat -> veq m (O i) (O' i)) by (apply (gs_unique m B1); easy).
  assert (HOk : is_gs k m B1 O') by (apply (is_gs_le m B1 (S k)); [lia|easy]).
  destruct (R1 O' HOk) as [H1 H2]. split.
  + intros i j Hij. destruct (Nat.eq_dec i k) as [->|]; [|apply H1; lia].
    apply Hz; [easy|lia].
  + intros i Hi. destruct (Nat.eq_dec i k) as [->|]; [|apply H2; lia].
    rewrite <- (gs_mu_ext m B1 B1 O O' k (k - 1) (fun _ _ => Qeq_refl _)) by (apply E; lia).
    rewrite <- (dot_ext m (O k) (O' k) (O k) (O' k)) by (apply E; lia).
    rewrite <- (dot_ext m (O (k - 1)%nat) (O' (k - 1)%nat) (O (k - 1)%nat) (O' (k - 1)%nat)) by (apply E; lia).
    easy.
- destruct (Nat.eq_dec k 1) as [->|Hk1].
  + cbn. intros O' _. split; intros; lia.
  + assert (Nat.max 1 (k - 1) = (k - 1)%nat) as -> by lia.
    apply (red_agree delta B1).
    * intros x y Hx Hy. unfold swapcol.
      assert (Nat.eqb x k = false) as -> by (apply Nat.eqb_neq; lia).
      now assert (Nat.eqb x (k - 1) = false) as -> by (apply Nat.eqb_neq; lia).
    * apply (red_le delta B1 k); [lia| |easy].
      exists O. apply (is_gs_le m B1 (S k)); [lia|easy].
Qed.

Definition outcf {A} (P : A -> Prop) (r : res A) : Prop :=
  match r with Ret a => P a | Panic => ~ N | NoFuel => True end.

Lemma loop_ok delta fuel : forall s B O k, sinv s B O -> (N -> independent n m B) -> (1 <= k)%nat ->
  (k < n \/ k = n \/ n = 0)%nat -> red delta B (Nat.min k n) ->
  outcf (fun s' => exists B' O', sinv s' B' O' /\ lat_eq n m B B' /\ red delta B' n)
    (lll_loop fuel delta s k).
Proof.
induction fuel as [|fuel IH]; intros s B O k H Hi Hk Hkn Hr; [easy|].
cbn [lll_loop]. rewrite (proj1 (own_size _ _ _ _ (proj1 H))).
destruct (Nat.ltb_spec k n) as [Hlt|Hge].
- assert (Hstep := step_ok delta s B O k H Hi ltac:(lia)).
  destruct (lll_step delta s k) as [[s' k']| |]; cbn [rbind]; [|exact Hstep|destruct Hstep].
  destruct Hstep as [B' [O' [H' Hto]]]. cbn [fst snd] in *.
  pose proof (step_lat delta B k B' k' ltac:(lia) Hto) as Hlat.
  rewrite Nat.min_l in Hr by lia.
  pose proof (step_red delta B k B' k' ltac:(lia) Hr Hto) as Hred.
  assert (1 <= k' <= n)%nat as Hk'.
  { destruct Hto as [B1 [O1 [_ [_ [_ [_ [_ [[_ [-> _]]|[_ [-> _]]]]]]]]]]; lia. }
  assert (Hg := IH s' B' O' k' H').
  destruct (lll_loop fuel delta s' k') as [s2| |]; cbn in *.
  + destruct Hg as [B2 [O2 [H2 [Hl2 Hr2]]]].
    * intros HN. apply Hlat. now apply Hi.
    * lia.
    * lia.
    * now rewrite Nat.min_l by lia.
    * exists B2, O2. split; [easy|]. split; [|easy]. now apply (lat_eq_trans n m B B').
  + apply Hg.
    * intros HN. apply Hlat. now apply Hi.
    * lia.
    * lia.
    * now rewrite Nat.min_l by lia.
  + easy.
- cbn. exists B, O. split; [easy|]. split; [apply lat_eq_refl|].
  rewrite Nat.min_r in Hr by lia. easy.
Qed.
End State.

Lemma gs_exists (a : arr2 Z) n m B : own a n m B -> exists O, is_gs n m B O.
Proof.
intros [H1 H2]. destruct (gram_schmidt_ok a n m B H1 H2) as [o [O [_ [_ H]]]]. now exists O.
Qed.

Lemma new_state (a : arr2 Z) n m B : own a n m B ->
  exists s O, lll_new a = Ret s /\ sinv n m s B O /\ lb s = a.
Proof.
intros H. unfold lll_new. rewrite (proj1 (own_size _ _ _ _ H)), (proj2 (own_size _ _ _ _ H)).
destruct (new_with_ok n m (fun _ : nat => 0)) as [o [E Ho]]. rewrite E. cbn [rbind].
eexists _, _. split; [reflexivity|]. split; [|easy].
split; [easy|]. split; [split; [exact (made_from n m _ o E)|exact Ho]|].
split; [apply is_gs_0|cbn [lv]; lia].
Qed.

Lemma lll_sound (a : arr2 Z) n m B delta fuel b :
  made a -> holds2 a n m B -> lll_reduce_with_delta fuel a delta = Ret b ->
  exists B', made b /\ holds2 b n m B' /\
    (forall v, in_lattice n m B v <-> in_lattice n m B' v) /\
    (independent n m B -> independent n m B') /\ lll_reduced delta n m B'.
Proof.
intros H1 H2 E. assert (H : own a n m B) by easy.
destruct (new_state a n m B H) as [s [O [En [Hs _]]]].
unfold lll_reduce_with_delta in E. rewrite En in E. cbn [rbind] in E.
pose proof (loop_ok n m False delta fuel s B O 1 Hs) as G.
destruct (lll_loop fuel delta s 1) as [s'| |]; try easy. cbn [rbind outcf] in *.
injection E as <-.
destruct G as [B' [O' [[Hb _] [[Hl Hi] Hr]]]]; [easy|lia|lia| |].
- intros O' _. split; intros; lia.
- exists B'. split; [apply Hb|]. split; [apply Hb|]. split; [easy|]. split; [easy|].
  destruct (gs_exists (lb s') n m B' Hb) as [G HG]. exists G. split; [easy|]. now apply Hr.
Qed.

Lemma lll_no_panic (a : arr2 Z) n m B delta fuel :
  made a -> holds2 a n m B -> independent n m B ->
  lll_reduce_with_delta fuel a delta <> Panic.
Proof.
intros H1 H2 Hi E. assert (H : own a n m B) by easy.
destruct (new_state a n m B H) as [s [O [En [Hs _]]]].
unfold lll_reduce_with_delta in E. rewrite En in E. cbn [rbind] in E.
pose proof (loop_ok n m True delta fuel s B O 1 Hs) as G.
destruct (lll_loop fuel delta s 1) as [s'| |]; try easy. cbn [outcf] in *.
apply G; [now intros _|lia|lia| |easy]. intros O' _. split; intros; lia.
Qed.
