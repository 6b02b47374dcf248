(** Proofs about small helpers: neutral elements, setters, sameness and the
    ranges of indices. *)
From Coq Require Import ZArith Reals Lia List Arith Bool Lra.
From Verif Require Import M_Base M_ModInt M_Interval M_Quad M_Array2D S_ModInt S_Interval S_Quad S_Array2D.
From Verif Require Import P_ModInt P_Quad.

Local Open Scope Z_scope.

Lemma mi_neutral t a : fits t (mi_modulus a) = true -> mi_canonical a ->
  exists z o, mi_zero_like t a = Ret z /\ mi_one_like t a = Ret o /\
    mi_add t a z = Ret a /\ mi_add t z a = Ret a /\
    mi_mul t a o = Ret a /\ mi_mul t o a = Ret a.
Proof.
destruct a as [v m]; unfold mi_canonical, mi_zero_like, mi_one_like; cbn [mi_value mi_modulus]; intros Hf Hv.
assert (Hm : 0 < m) by lia.
rewrite !mi_new_ok by lia.
exists (MI (0 mod m) m), (MI (1 mod m) m); split; [reflexivity|split; [reflexivity|]].
assert (V : v = v mod m) by (symmetry; apply Z.mod_small; lia).
assert (B : forall x, mi_from_bigint t x m = Ret (MI (x mod m) m)).
{ intro x; rewrite mi_from_bigint_ok; auto. }
assert (A : forall x y, mi_add t (MI (x mod m) m) (MI (y mod m) m) = Ret (MI ((x + y) mod m) m) /\
                        mi_mul t (MI (x mod m) m) (MI (y mod m) m) = Ret (MI ((x * y) mod m) m)).
{ intros x y; destruct (mi_arith_ok t x y m Hm Hf) as (a & b & Ha & Hb & E1 & _ & E3 & _).
  rewrite B in Ha, Hb; injection Ha as <-; injection Hb as <-; rewrite E1, E3, !B; split; reflexivity. }
rewrite V.
split; [|split; [|split]].
- destruct (A v 0) as [E _]; rewrite E, Z.add_0_r; reflexivity.
- destruct (A 0 v) as [E _]; rewrite E, Z.add_0_l; reflexivity.
- destruct (A v 1) as [_ E]; rewrite E, Z.mul_1_r; reflexivity.
- destruct (A 1 v) as [_ E]; rewrite E, Z.mul_1_l; reflexivity.
Qed.

Lemma set_to_bounds i x :
  (inI x (dfi_set_to_lower_bound i) <-> x = dyadic (dlo i) (dlog i)) /\
  (inI x (dfi_set_to_upper_bound i) <-> x = dyadic (dhi i) (dlog i)).
Proof. unfold inI; cbn; split; split; intros; lra. Qed.

Lemma is_same_iff a b : dfi_is_same a b = true <-> a = b.
Proof.
destruct a as [l1 h1 k1], b as [l2 h2 k2]; unfold dfi_is_same; cbn.
rewrite !andb_true_iff, !Z.eqb_eq, Nat.eqb_eq; split.
- intros [[-> ->] ->]; reflexivity.
- intro E; injection E as -> -> ->; auto.
Qed.

Lemma quad_constants :
  made_quad quad_default /\ made_quad quad_zero /\ made_quad quad_one /\
  qvalue quad_default = 0%R /\ qvalue quad_zero = 0%R /\ qvalue quad_one = 1%R.
Proof.
assert (D : quad_default = from_integer 0) by reflexivity.
rewrite D; unfold quad_zero, quad_one.
rewrite !(proj2 (int_ok _)).
split; [exact (mq_int 0)|split; [exact (mq_int 0)|split; [exact (mq_int 1)|auto]]].
Qed.

Lemma range_kinds size a b lo hi :
  (selects (bound_range a b) size lo hi <-> lo = a /\ hi = b /\ a <= b <= size)%nat /\
  (selects (bound_range_inc a b) size lo hi <-> lo = a /\ hi = b + 1 /\ a <= b + 1 <= size)%nat /\
  (selects (bound_from a) size lo hi <-> lo = a /\ hi = size /\ a <= size)%nat /\
  (selects (bound_to b) size lo hi <-> lo = 0 /\ hi = b /\ b <= size)%nat /\
  (selects (bound_to_inc b) size lo hi <-> lo = 0 /\ hi = b + 1 /\ b < size)%nat /\
  (selects (bound_at a) size lo hi <-> lo = a /\ hi = a + 1 /\ a < size)%nat /\
  (selects bound_full size lo hi <-> lo = 0 /\ hi = size)%nat.
Proof. unfold selects; cbn; repeat match goal with |- _ /\ _ => split end; split; intros; lia. Qed.

(** Slices of owned arrays, and arrays that compare equal. *)
From Verif Require Import P_Array2D.

Lemma slice_owned {T} xs ys (d : list T) a c xb yb x0 x1 y0 y1 :
  from_array xs ys d = Ret a -> holds2 a xs ys c ->
  selects xb xs x0 x1 -> selects yb ys y0 y1 ->
  (x0 < xs \/ y0 = 0 -> exists s, slice a xb yb = Ret s /\
     holds2 s (x1 - x0) (y1 - y0) (fun x y => c (x0 + x) (y0 + y)))%nat /\
  (~ (x0 < xs \/ y0 = 0) -> slice a xb yb = Panic)%nat.
Proof.
intros E Hc Hx Hy.
pose proof (made_from _ _ _ _ E) as M.
assert (Ea : (length d = xs * ys)%nat /\ a = Arr2 xs ys ys d).
{ unfold from_array, assert_then in E. destruct (Nat.eqb_spec (xs * ys) (length d)) as [L|L]; [|discriminate E].
  injection E as <-. split; [symmetry; exact L|reflexivity]. }
destruct Ea as [L Ea].
assert (Sx : ax a = xs /\ ay a = ys) by (subst a; split; reflexivity).
destruct Sx as [Sx Sy].
assert (Hx' := Hx). assert (Hy' := Hy). unfold selects in Hx', Hy'.
assert (D : do_slice a xb yb = Ret (x1 - x0, y1 - y0, x0 * ast a + y0)%nat).
{ apply do_slice_ok; [rewrite Sx; exact Hx|rewrite Sy; exact Hy]. }
assert (At : ast a = ys /\ adata a = d) by (subst a; split; reflexivity).
destruct At as [At Ad].
split; intros H.
- destruct (Nat.lt_ge_cases x0 xs) as [B|B].
  + apply slice_holds; try assumption; rewrite ?Sx, ?Sy; auto.
  + assert (x0 = xs /\ y0 = 0 /\ x1 = xs)%nat as (-> & -> & ->) by lia.
    unfold slice. rewrite D. cbn [rbind]. unfold assert_then. rewrite At, Ad, L.
    assert ((xs * ys + 0 <=? xs * ys)%nat = true) as -> by (apply Nat.leb_le; lia).
    eexists; split; [reflexivity|]. split; [reflexivity|split; [reflexivity|]].
    split; [intros x y Hlt; lia|intros x y Ho; apply index2_out; exact Ho].
- assert (x0 = xs /\ y0 <> 0)%nat as [-> N] by lia.
  unfold slice. rewrite D. cbn [rbind]. unfold assert_then. rewrite At, Ad, L.
  assert ((xs * ys + y0 <=? xs * ys)%nat = false) as -> by (apply Nat.leb_gt; lia).
  reflexivity.
Qed.

Lemma eqb_same {T} (eqb : T -> T -> bool) (a b : arr2 T) : (forall u v, eqb u v = true <-> u = v) ->
  arr2_eqb eqb a b = true ->
  ax a = ax b /\ ay a = ay b /\ forall x y, index2 a x y = index2 b x y.
Proof.
intros H E. unfold arr2_eqb in E.
rewrite !andb_true_iff, !Nat.eqb_eq, list_eqb_eq in E by exact H.
destruct a, b; cbn in E; destruct E as [[[-> ->] ->] ->]. auto.
Qed.
