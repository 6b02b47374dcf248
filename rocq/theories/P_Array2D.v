(** Proofs about two-dimensional arrays. *)
From Coq Require Import List Arith Bool Lia ZifyBool.
From Coq Require Import FinFun.
From Verif Require Import M_Base M_Array2D S_Array2D.
Import ListNotations.

(** * The grid *)

Lemma grid_S xs ys :
  grid (S xs) ys = grid xs ys ++ map (fun y => (xs, y)) (seq 0 ys).
Proof.
unfold grid. rewrite seq_S, flat_map_app. cbn. now rewrite app_nil_r.
Qed.

Lemma grid_In xs ys x y : In (x, y) (grid xs ys) <-> x < xs /\ y < ys.
Proof.
unfold grid. rewrite in_flat_map. split.
- intros [x' [H1 H2]]. apply in_seq in H1. apply in_map_iff in H2.
  destruct H2 as [y' [E H2]]. apply in_seq in H2. injection E as <- <-. lia.
- intros [H1 H2]. exists x. split; [apply in_seq; lia|].
  apply in_map_iff. exists y. split; [easy|]. apply in_seq; lia.
Qed.

(** the position with a given number *)
Definition dec (ys i : nat) : nat * nat := (i / ys, i mod ys).

Lemma dec_at ys x y : y < ys -> dec ys (x * ys + y) = (x, y).
Proof.
intros H. unfold dec. f_equal.
- rewrite Nat.div_add_l by lia. rewrite Nat.div_small; lia.
- rewrite Nat.add_comm, Nat.mod_add by lia. now apply Nat.mod_small.
Qed.

Lemma grid_dec xs ys : grid xs ys = map (dec ys) (seq 0 (xs * ys)).
Proof.
induction xs as [|xs IH]; [easy|].
rewrite grid_S, IH. rewrite Nat.mul_succ_l, seq_app, map_app. f_equal.
cbn [Nat.add]. rewrite <- (Nat.add_0_r (xs * ys)) at 1.
assert (G : forall n s, s + n <= ys ->
  map (fun y => (xs, y)) (seq s n) = map (dec ys) (seq (xs * ys + s) n)).
{ induction n as [|n IHn]; intros s H; [easy|]. cbn [seq map]. f_equal.
  - rewrite dec_at; [easy|lia].
  - rewrite IHn by lia. now rewrite <- Nat.add_succ_r. }
now apply G.
Qed.

Lemma grid_length xs ys : length (grid xs ys) = xs * ys.
Proof. now rewrite grid_dec, map_length, seq_length. Qed.

Lemma grid_NoDup xs ys : NoDup (grid xs ys).
Proof.
rewrite grid_dec. destruct ys as [|ys]; [rewrite Nat.mul_0_r; constructor|].
apply Injective_map_NoDup; [|apply seq_NoDup].
intros i j E. unfold dec in E.
pose proof (f_equal fst E) as E1. pose proof (f_equal snd E) as E2.
cbn [fst snd] in E1, E2.
rewrite (Nat.div_mod i (S ys)), (Nat.div_mod j (S ys)) by lia.
now rewrite E1, E2.
Qed.

(** * Simulation of a double ended list *)

Section Sim.
Context {S A : Type} (nx nb : S -> res (option A * S)) (R : S -> list A -> Prop).
Hypothesis Hn0 : forall s, R s [] -> nx s = Ret (None, s).
Hypothesis Hn : forall s a l, R s (a :: l) ->
  exists s', nx s = Ret (Some a, s') /\ R s' l.
Hypothesis Hb0 : forall s, R s [] -> nb s = Ret (None, s).
Hypothesis Hb : forall s a l, R s (l ++ [a]) ->
  exists s', nb s = Ret (Some a, s') /\ R s' l.

Lemma sim_run ops s l : R s l ->
  exists s', iter_run nx nb ops s = Ret (fst (deque_run ops l), s') /\
             R s' (snd (deque_run ops l)).
Proof.
revert s l. induction ops as [|o ops IH]; intros s l H; [now exists s|].
destruct o; cbn [iter_run deque_run].
- destruct l as [|a l].
  + rewrite (Hn0 _ H). cbn [rbind fst snd].
    destruct (IH _ _ H) as [s' [E H']]. exists s'. rewrite E. now cbn.
  + destruct (Hn _ _ _ H) as [s1 [E1 H1]]. rewrite E1. cbn [rbind fst snd].
    destruct (IH _ _ H1) as [s' [E H']]. exists s'. rewrite E. now cbn.
- destruct (rev l) as [|a r] eqn:El.
  + assert (l = []) as -> by (rewrite <- (rev_involutive l), El; easy).
    rewrite (Hb0 _ H). cbn [rbind fst snd].
    destruct (IH _ _ H) as [s' [E H']]. exists s'. rewrite E. now cbn.
  + assert (l = rev r ++ [a]) as -> by (rewrite <- (rev_involutive l), El; easy).
    destruct (Hb _ _ _ H) as [s1 [E1 H1]]. rewrite E1. cbn [rbind fst snd].
    destruct (IH _ _ H1) as [s' [E H']]. exists s'. rewrite E. now cbn.
Qed.

Lemma sim_collect l fuel s : R s l -> length l < fuel ->
  iter_collect nx fuel s = Ret l.
Proof.
revert fuel s. induction l as [|a l IH]; intros [|fuel] s H Hf; cbn in Hf; try lia;
  cbn [iter_collect].
- rewrite (Hn0 _ H). easy.
- destruct (Hn _ _ _ H) as [s' [E H']]. rewrite E. cbn [rbind fst snd].
  rewrite (IH fuel s' H') by lia. easy.
Qed.
End Sim.

(** * Positions *)

Definition plo (p : positions) := px p * pys p + py p.
Definition phi (p : positions) := prx p * pys p + pary p.
Definition pinv (p : positions) : Prop :=
  (px p < prx p /\ py p < pys p /\ 1 <= pary p <= pys p) \/
  (px p = prx p /\ py p <= pary p <= pys p).

Lemma pinv_le p : pinv p -> plo p <= phi p.
Proof. unfold pinv, plo, phi. intros [[H1 [H2 H3]]|[H1 H2]]; nia. Qed.

Lemma pfin p : pinv p -> pos_finished p = (plo p =? phi p).
Proof.
unfold pinv, plo, phi, pos_finished. intros [[H1 [H2 H3]]|[H1 H2]].
- assert (px p =? prx p = false) as -> by lia. cbn [andb]. symmetry.
  apply Nat.eqb_neq. nia.
- rewrite H1, Nat.eqb_refl. cbn [andb]. lia.
Qed.

Lemma pos_new_ok xs ys : pinv (pos_new xs ys) /\ plo (pos_new xs ys) = 0 /\
  phi (pos_new xs ys) = xs * ys /\
  (plo (pos_new xs ys) < phi (pos_new xs ys) -> pys (pos_new xs ys) = ys).
Proof.
unfold pos_new, pinv, plo, phi.
destruct (Nat.eqb_spec xs 0) as [->|Hx]; [cbn; lia|].
destruct (Nat.eqb_spec ys 0) as [->|Hy]; [cbn; lia|].
cbn [orb px py pys prx pary]. split; [|nia].
destruct (Nat.eq_dec xs 1) as [->|]; [right|left]; lia.
Qed.

Lemma pos_next_end p : pinv p -> plo p = phi p -> pos_next p = Ret (None, p).
Proof.
intros H E. unfold pos_next, pos_pos. rewrite (pfin p H), E, Nat.eqb_refl. easy.
Qed.

Lemma pos_next_ok p : pinv p -> plo p < phi p ->
  exists p', pos_next p = Ret (Some (dec (pys p) (plo p)), p') /\ pinv p' /\
    plo p' = S (plo p) /\ phi p' = phi p /\ pys p' = pys p.
Proof.
intros H E. unfold pos_next, pos_pos. rewrite (pfin p H).
assert (plo p =? phi p = false) as -> by lia.
assert (py p < pys p) as Hy by (unfold pinv, plo, phi in *; nia).
rewrite (dec_at (pys p) (px p) (py p) Hy : dec (pys p) (plo p) = _).
destruct (Nat.eqb_spec (S (py p)) (pys p)) as [E1|E1];
  destruct (Nat.eqb_spec (prx p) (px p)) as [E2|E2]; cbn [andb negb];
  eexists; (split; [reflexivity|]);
  unfold pinv, plo, phi in *; cbn [px py pys prx pary]; nia.
Qed.

Lemma pos_back_end p : pinv p -> plo p = phi p -> pos_next_back p = Ret (None, p).
Proof.
intros H E. unfold pos_next_back, pos_rev_pos.
rewrite (pfin p H), E, Nat.eqb_refl. easy.
Qed.

Lemma pos_back_ok p : pinv p -> plo p < phi p ->
  exists p', pos_next_back p = Ret (Some (dec (pys p) (phi p - 1)), p') /\ pinv p' /\
    plo p' = plo p /\ phi p' = phi p - 1 /\ pys p' = pys p.
Proof.
intros H E. unfold pos_next_back, pos_rev_pos. rewrite (pfin p H).
assert (plo p =? phi p = false) as -> by lia.
assert (1 <= pary p <= pys p) as Hy by (unfold pinv, plo, phi in *; nia).
assert (phi p - 1 = prx p * pys p + (pary p - 1)) as E0 by (unfold phi; lia).
assert (dec (pys p) (phi p - 1) = (prx p, pary p - 1)) as ->
  by (rewrite E0; apply dec_at; lia).
unfold usub at 1 2. assert (1 <=? pary p = true) as -> by lia. cbn [rbind].
destruct (Nat.eqb_spec (pary p - 1) 0) as [E1|E1];
  destruct (Nat.eqb_spec (prx p) (px p)) as [E2|E2]; cbn [andb negb];
  [| unfold usub; assert (1 <=? prx p = true) as -> by (unfold pinv in H; lia);
     cbn [rbind] | |];
  eexists; (split; [reflexivity|]);
  unfold pinv, plo, phi in *; cbn [px py pys prx pary]; nia.
Qed.

Definition prel (xs ys : nat) (p : positions) (l : list (nat * nat)) : Prop :=
  pinv p /\ (plo p < phi p -> pys p = ys) /\ phi p <= xs * ys /\
  l = map (dec ys) (seq (plo p) (phi p - plo p)).

Lemma map_seq_nil {B} (f : nat -> B) a n : [] = map f (seq a n) -> n = 0.
Proof. destruct n; easy. Qed.

Lemma map_seq_cons {B} (f : nat -> B) a n b l : b :: l = map f (seq a n) ->
  0 < n /\ b = f a /\ l = map f (seq (S a) (n - 1)).
Proof.
destruct n; [easy|]. cbn [seq map]. intros E. injection E as -> ->.
repeat split; [lia|]. now rewrite Nat.sub_succ, Nat.sub_0_r.
Qed.

Lemma map_seq_snoc {B} (f : nat -> B) a n b l : l ++ [b] = map f (seq a n) ->
  0 < n /\ b = f (a + (n - 1)) /\ l = map f (seq a (n - 1)).
Proof.
destruct n; [destruct l; easy|]. rewrite seq_S, map_app. cbn [map].
intros E. apply app_inj_tail in E. destruct E as [-> ->].
rewrite Nat.sub_succ, Nat.sub_0_r. repeat split. lia.
Qed.

Lemma prel_next0 xs ys p : prel xs ys p [] -> pos_next p = Ret (None, p).
Proof.
intros [H [_ [_ E]]]. apply map_seq_nil in E. apply pos_next_end; [easy|].
pose proof (pinv_le p H). lia.
Qed.

Lemma prel_next xs ys p a l : prel xs ys p (a :: l) ->
  exists p', pos_next p = Ret (Some a, p') /\ prel xs ys p' l.
Proof.
intros [H [Hy [Hh E]]]. apply map_seq_cons in E. destruct E as [E1 [E2 E3]].
destruct (pos_next_ok p H) as [p' [N [H1 [H2 [H3 H4]]]]]; [lia|].
exists p'. rewrite N, Hy by lia. rewrite E2. split; [easy|].
unfold prel. rewrite H2, H3, H4. repeat split; try easy.
- intros _. apply Hy. lia.
- rewrite E3. do 2 f_equal. lia.
Qed.

Lemma prel_back0 xs ys p : prel xs ys p [] -> pos_next_back p = Ret (None, p).
Proof.
intros [H [_ [_ E]]]. apply map_seq_nil in E. apply pos_back_end; [easy|].
pose proof (pinv_le p H). lia.
Qed.

Lemma prel_back xs ys p a l : prel xs ys p (l ++ [a]) ->
  exists p', pos_next_back p = Ret (Some a, p') /\ prel xs ys p' l.
Proof.
intros [H [Hy [Hh E]]]. apply map_seq_snoc in E. destruct E as [E1 [E2 E3]].
destruct (pos_back_ok p H) as [p' [N [H1 [H2 [H3 H4]]]]]; [lia|].
exists p'. rewrite N, Hy by lia.
replace (plo p + (phi p - plo p - 1)) with (phi p - 1) in E2 by lia.
rewrite E2. split; [easy|].
unfold prel. rewrite H2, H3, H4. repeat split; try easy.
- intros _. apply Hy. lia.
- lia.
- rewrite E3. do 2 f_equal. lia.
Qed.

Lemma prel_new xs ys : prel xs ys (pos_new xs ys) (grid xs ys).
Proof.
destruct (pos_new_ok xs ys) as [H [H1 [H2 H3]]]. unfold prel.
rewrite H1, H2, grid_dec, Nat.sub_0_r in *. easy.
Qed.

Lemma prel_len xs ys p l : prel xs ys p l -> pos_len p = Ret (length l).
Proof.
intros [H [_ [_ ->]]]. rewrite map_length, seq_length.
unfold pos_len, usub, pinv, plo, phi in *.
assert (px p <=? prx p = true) as -> by lia. cbn [rbind].
assert (py p <=? pys p * (prx p - px p) + pary p = true) as -> by nia.
f_equal. nia.
Qed.

Lemma positions_run xs ys ops :
  exists p, iter_run pos_next pos_next_back ops (pos_new xs ys) =
            Ret (fst (deque_run ops (grid xs ys)), p) /\
            pos_len p = Ret (length (snd (deque_run ops (grid xs ys)))) /\
            pos_last p = Ret (hd_error (rev (snd (deque_run ops (grid xs ys))))).
Proof.
destruct (sim_run pos_next pos_next_back (prel xs ys)
  (prel_next0 xs ys) (prel_next xs ys) (prel_back0 xs ys) (prel_back xs ys)
  ops _ _ (prel_new xs ys)) as [p [E H]].
exists p. split; [exact E|]. split; [exact (prel_len _ _ _ _ H)|].
revert H. generalize (snd (deque_run ops (grid xs ys))). intros l H.
unfold pos_last. destruct (rev l) as [|a r] eqn:El.
- assert (l = []) as -> by (rewrite <- (rev_involutive l), El; easy).
  now rewrite (prel_back0 _ _ _ H).
- assert (l = rev r ++ [a]) as -> by (rewrite <- (rev_involutive l), El; easy).
  destruct (prel_back _ _ _ _ _ H) as [p' [-> _]]. easy.
Qed.

Lemma positions_collect xs ys :
  iter_collect pos_next (S (xs * ys)) (pos_new xs ys) = Ret (grid xs ys).
Proof.
apply (sim_collect pos_next (prel xs ys)).
- apply prel_next0.
- apply prel_next.
- apply prel_new.
- rewrite grid_length. lia.
Qed.

(** * Arrays *)

Definition awf {T} (a : arr2 T) : Prop :=
  ay a <= ast a /\
  forall x, x < ax a -> x * ast a + ay a <= length (adata a).

Lemma awf_in {T} (a : arr2 T) x y : awf a -> x < ax a -> y < ay a ->
  x * ast a + y < length (adata a).
Proof. intros [_ H] Hx Hy. specialize (H x Hx). lia. Qed.

Lemma from_array_ret {T} xs ys (d : list T) a : from_array xs ys d = Ret a ->
  a = Arr2 xs ys ys d /\ length d = xs * ys.
Proof.
unfold from_array. destruct (Nat.eqb_spec (xs * ys) (length d)); [|easy].
cbn. intros E. injection E as <-. easy.
Qed.

Lemma start_and_end_ok b size lo hi : selects b size lo hi ->
  start_and_end b size = Ret (lo, hi).
Proof.
unfold selects, start_and_end, assert_then. intros [E1 [E2 H]].
destruct b as [[|v1|v1] [|v2|v2]]; cbn [fst snd] in *; subst;
rewrite ?(Nat.add_comm _ 1) in *; cbn [Nat.add] in *;
repeat match goal with |- context[?x <=? ?y] => replace (x <=? y) with true by lia end;
easy.
Qed.

Lemma start_and_end_ret b size r : start_and_end b size = Ret r ->
  selects b size (fst r) (snd r).
Proof.
unfold selects, start_and_end, assert_then.
destruct b as [[|v1|v1] [|v2|v2]]; cbn [fst snd];
repeat match goal with |- context[?x <=? ?y] => destruct (Nat.leb_spec x y) end;
intros E; try easy; injection E as <-; cbn [fst snd]; lia.
Qed.

Lemma start_and_end_panic b size : (forall lo hi, ~ selects b size lo hi) ->
  start_and_end b size = Panic.
Proof.
intros H. destruct (start_and_end b size) as [r| |] eqn:E; [|easy|].
- apply start_and_end_ret in E. now apply H in E.
- unfold start_and_end, assert_then in E.
  repeat match type of E with context[if ?c then _ else _] => destruct c end; easy.
Qed.

Lemma do_slice_ok {T} (a : arr2 T) xb yb x0 x1 y0 y1 :
  selects xb (ax a) x0 x1 -> selects yb (ay a) y0 y1 ->
  do_slice a xb yb = Ret (x1 - x0, y1 - y0, x0 * ast a + y0).
Proof.
intros Hx Hy. unfold do_slice.
rewrite (start_and_end_ok _ _ _ _ Hx), (start_and_end_ok _ _ _ _ Hy).
cbn [rbind fst snd]. unfold usub.
assert (x0 <=? x1 = true) as -> by (unfold selects in Hx; lia).
assert (y0 <=? y1 = true) as -> by (unfold selects in Hy; lia). easy.
Qed.

Lemma do_slice_ret {T} (a : arr2 T) xb yb r : do_slice a xb yb = Ret r ->
  exists x0 x1 y0 y1, selects xb (ax a) x0 x1 /\ selects yb (ay a) y0 y1 /\
  r = (x1 - x0, y1 - y0, x0 * ast a + y0).
Proof.
intros E. assert (E' := E). unfold do_slice in E'.
destruct (start_and_end xb (ax a)) as [[x0 x1]| |] eqn:Ex; try easy.
destruct (start_and_end yb (ay a)) as [[y0 y1]| |] eqn:Ey; try easy.
apply start_and_end_ret in Ex. apply start_and_end_ret in Ey. cbn [fst snd] in *.
exists x0, x1, y0, y1. do 2 (split; [easy|]).
rewrite (do_slice_ok _ _ _ _ _ _ _ Ex Ey) in E. now injection E as <-.
Qed.

Lemma slice_ret {T} (a : arr2 T) xb yb s : slice a xb yb = Ret s ->
  exists x0 x1 y0 y1, selects xb (ax a) x0 x1 /\ selects yb (ay a) y0 y1 /\
  x0 * ast a + y0 <= length (adata a) /\
  s = Arr2 (x1 - x0) (y1 - y0) (ast a) (skipn (x0 * ast a + y0) (adata a)).
Proof.
unfold slice. destruct (do_slice a xb yb) as [r| |] eqn:E; try easy.
apply do_slice_ret in E. destruct E as [x0 [x1 [y0 [y1 [H1 [H2 ->]]]]]].
cbn [rbind]. unfold assert_then. destruct (Nat.leb_spec (x0 * ast a + y0) (length (adata a)));
  [|easy].
intros E. injection E as <-. exists x0, x1, y0, y1. easy.
Qed.

Lemma list_set_length {T} (l : list T) i v : length (list_set l i v) = length l.
Proof. revert i. induction l as [|a l IH]; intros [|i]; cbn; auto. Qed.

Lemma list_set_nth {T} (l : list T) i v j : i < length l ->
  nth_error (list_set l i v) j = if j =? i then Some v else nth_error l j.
Proof.
revert i j. induction l as [|a l IH]; intros i j H; cbn in H; [lia|].
destruct i as [|i]; destruct j as [|j]; cbn; try easy. apply IH. lia.
Qed.

Lemma skipn_nth {T} (l : list T) n i : nth_error (skipn n l) i = nth_error l (n + i).
Proof.
revert l. induction n as [|n IH]; intros l; [easy|].
destruct l as [|a l]; [cbn; now destruct i|]. cbn. apply IH.
Qed.

Lemma slice_wf {T} (a : arr2 T) xb yb s : awf a -> slice a xb yb = Ret s -> awf s.
Proof.
intros [H1 H2] E. apply slice_ret in E.
destruct E as [x0 [x1 [y0 [y1 [[_ [_ Hx]] [[_ [_ Hy]] [Hl ->]]]]]]].
split; cbn [ax ay ast adata]; [lia|].
intros x Hx'. rewrite skipn_length.
specialize (H2 (x0 + x)). lia.
Qed.

Lemma get_index_in {T} (a : arr2 T) x y : x < ax a -> y < ay a ->
  get_index a x y = Ret (x * ast a + y).
Proof.
intros Hx Hy. unfold get_index, assert_then, get_index_unchecked.
assert (x <? ax a = true) as -> by lia. now assert (y <? ay a = true) as -> by lia.
Qed.

Lemma get_index_out {T} (a : arr2 T) x y : ~ (x < ax a /\ y < ay a) ->
  get_index a x y = Panic.
Proof.
intros H. unfold get_index, assert_then.
destruct (Nat.ltb_spec x (ax a)); [|easy]. destruct (Nat.ltb_spec y (ay a)); [|easy].
lia.
Qed.

Lemma get_index_ret {T} (a : arr2 T) x y i : get_index a x y = Ret i ->
  x < ax a /\ y < ay a /\ i = x * ast a + y.
Proof.
unfold get_index, assert_then, get_index_unchecked.
destruct (Nat.ltb_spec x (ax a)); [|easy]. destruct (Nat.ltb_spec y (ay a)); [|easy].
intros E. injection E as <-. easy.
Qed.

Lemma set2_ret {T} (a : arr2 T) x y v a' : set2 a x y v = Ret a' ->
  x < ax a /\ y < ay a /\ x * ast a + y < length (adata a) /\
  a' = Arr2 (ax a) (ay a) (ast a) (list_set (adata a) (x * ast a + y) v).
Proof.
unfold set2. destruct (get_index a x y) as [i| |] eqn:E; try easy.
apply get_index_ret in E. destruct E as [H1 [H2 ->]]. cbn [rbind].
unfold slice_set, assert_then.
destruct (Nat.ltb_spec (x * ast a + y) (length (adata a))); [|easy].
cbn [rbind]. intros E. injection E as <-. easy.
Qed.

Lemma set2_ok {T} (a : arr2 T) x y v : awf a -> x < ax a -> y < ay a ->
  set2 a x y v =
  Ret (Arr2 (ax a) (ay a) (ast a) (list_set (adata a) (x * ast a + y) v)).
Proof.
intros H Hx Hy. unfold set2. rewrite get_index_in by easy. cbn [rbind].
unfold slice_set, assert_then. pose proof (awf_in a x y H Hx Hy).
now assert (x * ast a + y <? length (adata a) = true) as -> by lia.
Qed.

Lemma swap_ret {T} (a : arr2 T) x1 y1 x2 y2 a' :
  swap_elements a x1 y1 x2 y2 = Ret a' ->
  exists d, a' = Arr2 (ax a) (ay a) (ast a) d /\ length d = length (adata a).
Proof.
unfold swap_elements.
destruct (get_index a x1 y1); try easy. cbn [rbind].
destruct (get_index a x2 y2); try easy. cbn [rbind].
destruct (slice_get (adata a) a0); try easy. cbn [rbind].
destruct (slice_get (adata a) a1); try easy. cbn [rbind].
intros E. injection E as <-. eexists. split; [reflexivity|].
now rewrite !list_set_length.
Qed.

Lemma slice_mut_ret {T} (a : arr2 T) xb yb f a' : slice_mut a xb yb f = Ret a' ->
  exists x0 x1 y0 y1 s', selects xb (ax a) x0 x1 /\ selects yb (ay a) y0 y1 /\
  x0 * ast a + y0 <= length (adata a) /\
  f (Arr2 (x1 - x0) (y1 - y0) (ast a) (skipn (x0 * ast a + y0) (adata a))) = Ret s' /\
  a' = Arr2 (ax a) (ay a) (ast a) (firstn (x0 * ast a + y0) (adata a) ++ adata s').
Proof.
unfold slice_mut. destruct (do_slice a xb yb) as [r| |] eqn:E; try easy.
apply do_slice_ret in E. destruct E as [x0 [x1 [y0 [y1 [H1 [H2 ->]]]]]].
cbn [rbind]. unfold assert_then.
destruct (Nat.leb_spec (x0 * ast a + y0) (length (adata a))); [|easy].
match goal with |- rbind ?e _ = _ -> _ => destruct e as [s'| |] eqn:Ef; try easy end.
cbn [rbind]. intros E. injection E as <-. exists x0, x1, y0, y1, s'. easy.
Qed.

Lemma same_shape_wf {T} (a : arr2 T) (d : list T) : awf a -> length d = length (adata a) ->
  awf (Arr2 (ax a) (ay a) (ast a) d).
Proof. intros [H1 H2] E. split; cbn; [easy|]. rewrite E. apply H2. Qed.

Lemma made_wf {T} (a : arr2 T) : made a -> awf a.
Proof.
induction 1 as [xs ys d a E|a xb yb s Ha IH E|a x y v a' Ha IH E
               |a x1 y1 x2 y2 a' Ha IH E|a xb yb x y v a' Ha IH E].
- apply from_array_ret in E. destruct E as [-> E]. split; cbn; [lia|].
  intros x Hx. rewrite E. nia.
- exact (slice_wf _ _ _ _ IH E).
- apply set2_ret in E. destruct E as [_ [_ [_ ->]]].
  apply same_shape_wf; [easy|apply list_set_length].
- apply swap_ret in E. destruct E as [d [-> E]]. now apply same_shape_wf.
- apply slice_mut_ret in E.
  destruct E as [x0 [x1 [y0 [y1 [s' [_ [_ [Hl [E ->]]]]]]]]].
  apply same_shape_wf; [easy|]. apply set2_ret in E.
  destruct E as [_ [_ [_ ->]]]. cbn [adata].
  rewrite app_length, list_set_length, <- app_length. now rewrite firstn_skipn.
Qed.

Lemma index2_in {T} (a : arr2 T) x y : x < ax a -> y < ay a ->
  index2 a x y = slice_get (adata a) (x * ast a + y).
Proof. intros Hx Hy. unfold index2. now rewrite get_index_in. Qed.

Lemma index2_out {T} (a : arr2 T) x y : ~ (x < ax a /\ y < ay a) ->
  index2 a x y = Panic.
Proof. intros H. unfold index2. now rewrite get_index_out. Qed.

Lemma index2_total {T} (a : arr2 T) x y : awf a -> x < ax a -> y < ay a ->
  exists v, nth_error (adata a) (x * ast a + y) = Some v /\ index2 a x y = Ret v.
Proof.
intros H Hx Hy. apply (awf_in a x y H Hx) in Hy as H1. rewrite index2_in by easy.
unfold slice_get. destruct (nth_error (adata a) (x * ast a + y)) as [v|] eqn:E.
- now exists v.
- apply nth_error_None in E. lia.
Qed.

Lemma index_rejects {T} (a : arr2 T) x y : made a ->
  (x < ax a /\ y < ay a -> exists v, index2 a x y = Ret v) /\
  (~ (x < ax a /\ y < ay a) -> index2 a x y = Panic).
Proof.
intros Ha. apply made_wf in Ha. split.
- intros [Hx Hy]. destruct (index2_total a x y Ha Hx Hy) as [v [_ E]]. now exists v.
- apply index2_out.
Qed.

Lemma from_array_panics {T} xs ys (d : list T) :
  length d <> xs * ys -> from_array xs ys d = Panic.
Proof.
intros H. unfold from_array. destruct (Nat.eqb_spec (xs * ys) (length d)); [lia|easy].
Qed.

Lemma from_array_holds {T} xs ys (d : list T) c :
  length d = xs * ys ->
  (forall x y, x < xs -> y < ys -> nth_error d (x * ys + y) = Some (c x y)) ->
  exists a, from_array xs ys d = Ret a /\ holds2 a xs ys c.
Proof.
intros E H. unfold from_array. assert (xs * ys =? length d = true) as -> by lia.
eexists. split; [reflexivity|]. repeat split.
- intros x y Hx Hy. rewrite index2_in by easy. unfold slice_get. cbn [adata ast].
  now rewrite H.
- intros x y Hxy. now apply index2_out.
Qed.

Lemma slice_panics {T} (a : arr2 T) xb yb :
  (forall x0 x1, ~ selects xb (ax a) x0 x1) \/
  (forall y0 y1, ~ selects yb (ay a) y0 y1) ->
  slice a xb yb = Panic /\ (forall f, slice_mut a xb yb f = Panic).
Proof.
intros H. assert (do_slice a xb yb = Panic) as E.
{ unfold do_slice. destruct H as [H|H].
  - now rewrite (start_and_end_panic _ _ H).
  - rewrite (start_and_end_panic yb (ay a) H).
    destruct (start_and_end xb (ax a)) as [r| |] eqn:E; try easy.
    unfold start_and_end, assert_then in E.
    repeat match type of E with context[if ?c then _ else _] => destruct c end; easy. }
unfold slice, slice_mut. now rewrite E.
Qed.

(** a slice whose start is inside the array shows the selected part *)
Lemma slice_start {T} (a : arr2 T) x0 y0 : awf a -> y0 <= ay a ->
  x0 < ax a \/ (x0 = 0 /\ y0 = 0) ->
  x0 * ast a + y0 <= length (adata a).
Proof.
intros [_ H] Hy [H1|[-> ->]]; [|cbn; lia].
specialize (H x0 H1). lia.
Qed.

Lemma slice_holds {T} (a : arr2 T) c xb yb x0 x1 y0 y1 : made a ->
  holds2 a (ax a) (ay a) c ->
  selects xb (ax a) x0 x1 -> selects yb (ay a) y0 y1 ->
  x0 < ax a \/ (x0 = 0 /\ y0 = 0) ->
  exists s, slice a xb yb = Ret s /\
    holds2 s (x1 - x0) (y1 - y0) (fun x y => c (x0 + x) (y0 + y)).
Proof.
intros Ha [_ [_ [Hc _]]] Hx Hy H0. apply made_wf in Ha.
unfold slice. rewrite (do_slice_ok _ _ _ _ _ _ _ Hx Hy). cbn [rbind].
unfold assert_then.
assert (x0 * ast a + y0 <=? length (adata a) = true) as ->.
{ apply Nat.leb_le. apply slice_start; [easy| |easy]. unfold selects in Hy. lia. }
destruct Hx as [_ [_ Hx]]. destruct Hy as [_ [_ Hy]].
eexists. split; [reflexivity|]. repeat split.
- intros x y Hx' Hy'. rewrite index2_in by easy. cbn [ast adata].
  rewrite <- (Hc (x0 + x) (y0 + y)) by lia. rewrite index2_in by lia.
  unfold slice_get. rewrite skipn_nth. do 2 f_equal. lia.
- intros x y H. now apply index2_out.
Qed.

(** * Assignment *)

Lemma idx_inj {T} (a : arr2 T) x y x' y' : awf a -> y < ay a -> y' < ay a ->
  x * ast a + y = x' * ast a + y' -> x = x' /\ y = y'.
Proof. intros [H _] Hy Hy' E. assert (x = x') by nia. subst. lia. Qed.

Lemma set2_holds {T} (a : arr2 T) c x y v : made a -> holds2 a (ax a) (ay a) c ->
  (x < ax a /\ y < ay a -> exists a', set2 a x y v = Ret a' /\
     holds2 a' (ax a) (ay a) (upd2 c x y v)) /\
  (~ (x < ax a /\ y < ay a) -> set2 a x y v = Panic).
Proof.
intros Ha [_ [_ [Hc _]]]. apply made_wf in Ha. split.
- intros [Hx Hy]. rewrite set2_ok by easy. eexists. split; [reflexivity|].
  repeat split.
  + intros x' y' Hx' Hy'. rewrite index2_in by easy. cbn [ast adata].
    unfold slice_get. rewrite list_set_nth by (now apply awf_in). unfold upd2.
    destruct (Nat.eqb_spec (x' * ast a + y') (x * ast a + y)) as [E|E].
    * apply idx_inj in E; [|easy|easy|easy]. destruct E as [-> ->].
      now rewrite !Nat.eqb_refl.
    * assert ((x' =? x) && (y' =? y) = false) as ->.
      { destruct (Nat.eqb_spec x' x); [|easy]. destruct (Nat.eqb_spec y' y); [|easy].
        subst. lia. }
      rewrite <- (Hc x' y' Hx' Hy'). now rewrite index2_in.
  + intros x' y' H. now apply index2_out.
- intros H. unfold set2. now rewrite get_index_out.
Qed.

Lemma swap_holds {T} (a : arr2 T) c x1 y1 x2 y2 : made a ->
  holds2 a (ax a) (ay a) c ->
  (x1 < ax a /\ y1 < ay a -> x2 < ax a /\ y2 < ay a ->
   exists a', swap_elements a x1 y1 x2 y2 = Ret a' /\
     holds2 a' (ax a) (ay a) (upd2 (upd2 c x1 y1 (c x2 y2)) x2 y2 (c x1 y1))) /\
  (~ ((x1 < ax a /\ y1 < ay a) /\ (x2 < ax a /\ y2 < ay a)) ->
   swap_elements a x1 y1 x2 y2 = Panic).
Proof.
intros Ha [_ [_ [Hc _]]]. apply made_wf in Ha. split.
- intros [H1 H2] [H3 H4]. unfold swap_elements. rewrite !get_index_in by easy.
  cbn [rbind]. rewrite <- !index2_in, !Hc by easy. cbn [rbind].
  eexists. split; [reflexivity|]. repeat split.
  + intros x y Hx Hy. rewrite index2_in by easy. cbn [ast adata].
    unfold slice_get.
    rewrite list_set_nth by (rewrite list_set_length; now apply awf_in).
    rewrite list_set_nth by (now apply awf_in). unfold upd2.
    destruct (Nat.eqb_spec (x * ast a + y) (x2 * ast a + y2)) as [E|E].
    * apply idx_inj in E; [|easy|easy|easy]. destruct E as [-> ->].
      now rewrite !Nat.eqb_refl.
    * assert ((x =? x2) && (y =? y2) = false) as ->.
      { destruct (Nat.eqb_spec x x2); [|easy]. destruct (Nat.eqb_spec y y2); [|easy].
        subst. lia. }
      destruct (Nat.eqb_spec (x * ast a + y) (x1 * ast a + y1)) as [E'|E'].
      -- apply idx_inj in E'; [|easy|easy|easy]. destruct E' as [-> ->].
         now rewrite !Nat.eqb_refl.
      -- assert ((x =? x1) && (y =? y1) = false) as ->.
         { destruct (Nat.eqb_spec x x1); [|easy]. destruct (Nat.eqb_spec y y1); [|easy].
           subst. lia. }
         rewrite <- (Hc x y Hx Hy). now rewrite index2_in.
  + intros x y H. now apply index2_out.
- intros H. unfold swap_elements.
  destruct (lt_dec x1 (ax a)) as [A|A]; [|rewrite get_index_out by lia; easy].
  destruct (lt_dec y1 (ay a)) as [B|B]; [|rewrite get_index_out by lia; easy].
  rewrite get_index_in by easy. cbn [rbind]. rewrite get_index_out by lia. easy.
Qed.

Lemma list_set_app {T} (l1 l2 : list T) i v :
  l1 ++ list_set l2 i v = list_set (l1 ++ l2) (length l1 + i) v.
Proof. induction l1 as [|a l1 IH]; [easy|]. cbn. now rewrite IH. Qed.

Lemma slice_mut_set {T} (a : arr2 T) xb yb x0 x1 y0 y1 x y v : made a ->
  selects xb (ax a) x0 x1 -> selects yb (ay a) y0 y1 ->
  x0 < ax a \/ (x0 = 0 /\ y0 = 0) ->
  slice_mut a xb yb (fun s => set2 s x y v) =
  if (x <? x1 - x0) && (y <? y1 - y0) then set2 a (x0 + x) (y0 + y) v else Panic.
Proof.
intros Ha Hx Hy H0. apply made_wf in Ha.
unfold slice_mut. rewrite (do_slice_ok _ _ _ _ _ _ _ Hx Hy). cbn [rbind].
unfold assert_then at 1.
destruct Hx as [_ [_ Hx]]. destruct Hy as [_ [_ Hy]].
assert (x0 * ast a + y0 <= length (adata a)) as Hl
  by (apply slice_start; [easy|lia|easy]).
assert (x0 * ast a + y0 <=? length (adata a) = true) as -> by lia.
destruct (Nat.ltb_spec x (x1 - x0)) as [A|A]; cbn [andb];
 [destruct (Nat.ltb_spec y (y1 - y0)) as [B|B]|].
- assert (x0 * ast a + y0 + (x * ast a + y) < length (adata a)) as Hi.
  { pose proof (awf_in a (x0 + x) (y0 + y) Ha). lia. }
  rewrite (set2_ok a) by (easy || lia).
  unfold set2. rewrite get_index_in by easy. cbn [rbind ast adata].
  unfold slice_set, assert_then. rewrite skipn_length.
  assert (x * ast a + y <? length (adata a) - (x0 * ast a + y0) = true) as -> by lia.
  cbn [rbind adata]. do 2 f_equal.
  rewrite list_set_app, firstn_skipn. f_equal. rewrite firstn_length. lia.
- unfold set2 at 1. rewrite get_index_out; [easy|cbn [ax ay]; lia].
- unfold set2 at 1. rewrite get_index_out; [easy|cbn [ax ay]; lia].
Qed.

(** * Iterators over elements *)

Definition pairs {T} (c : nat -> nat -> T) (l : list (nat * nat))
  : list ((nat * nat) * T) :=
  map (fun p => (p, c (fst p) (snd p))) l.

Definition irel {T} (a : arr2 T) (c : nat -> nat -> T) (i : iter2 T)
    (l : list ((nat * nat) * T)) : Prop :=
  its i = ast a /\ itd i = adata a /\
  exists ps, prel (ax a) (ay a) (itp i) ps /\ l = pairs c ps.

Lemma prel_in xs ys p l q : prel xs ys p l -> In q l -> fst q < xs /\ snd q < ys.
Proof.
intros [_ [_ [H ->]]] Hq. apply (grid_In xs ys). destruct q as [x y]. cbn [fst snd].
rewrite grid_dec. apply in_map_iff in Hq. destruct Hq as [i [E Hi]].
apply in_map_iff. exists i. split; [easy|]. apply in_seq in Hi. apply in_seq. lia.
Qed.

Lemma irel_next0 {T} (a : arr2 T) c i : irel a c i [] -> iter_next i = Ret (None, i).
Proof.
intros [_ [_ [[|p ps] [H E]]]]; [|easy].
unfold iter_next. now rewrite (prel_next0 _ _ _ H).
Qed.

Lemma irel_back0 {T} (a : arr2 T) c i : irel a c i [] -> iter_next_back i = Ret (None, i).
Proof.
intros [_ [_ [[|p ps] [H E]]]]; [|easy].
unfold iter_next_back. now rewrite (prel_back0 _ _ _ H).
Qed.

Section IterProofs.
Context {T : Type} (a : arr2 T) (c : nat -> nat -> T).
Hypothesis Hc : forall x y, x < ax a -> y < ay a ->
  nth_error (adata a) (x * ast a + y) = Some (c x y).

Lemma irel_get i x y : its i = ast a -> itd i = adata a -> x < ax a -> y < ay a ->
  iter_get i x y = Ret (c x y).
Proof.
intros E1 E2 Hx Hy. unfold iter_get, slice_get, get_index_unchecked.
now rewrite E1, E2, Hc.
Qed.

Lemma irel_next i b l : irel a c i (b :: l) ->
  exists i', iter_next i = Ret (Some b, i') /\ irel a c i' l.
Proof.
intros [H1 [H2 [[|[x y] ps] [H E]]]]; [easy|]. cbn in E. injection E as -> ->.
destruct (prel_next _ _ _ _ _ H) as [p' [N H']].
destruct (prel_in _ _ _ _ (x, y) H (or_introl eq_refl)) as [Hx Hy].
unfold iter_next. rewrite N. cbn [rbind fst snd].
rewrite (irel_get i x y H1 H2 Hx Hy). cbn [rbind].
eexists. split; [reflexivity|]. do 2 (split; [easy|]). now exists ps.
Qed.

Lemma pairs_snoc l b ps : l ++ [b] = pairs c ps ->
  exists ps' q, ps = ps' ++ [q] /\ b = (q, c (fst q) (snd q)) /\ l = pairs c ps'.
Proof.
intros E. destruct (exists_last (l := ps)) as [ps' [q ->]].
{ intros ->. now destruct l. }
unfold pairs in E. rewrite map_app in E. cbn in E.
apply app_inj_tail in E. destruct E as [-> ->]. now exists ps', q.
Qed.

Lemma irel_back i b l : irel a c i (l ++ [b]) ->
  exists i', iter_next_back i = Ret (Some b, i') /\ irel a c i' l.
Proof.
intros [H1 [H2 [ps [H E]]]]. apply pairs_snoc in E.
destruct E as [ps' [[x y] [-> [-> ->]]]]. cbn [fst snd].
destruct (prel_back _ _ _ _ _ H) as [p' [N H']].
destruct (prel_in _ _ _ _ (x, y) H) as [Hx Hy].
{ apply in_or_app. right. now left. }
unfold iter_next_back. rewrite N. cbn [rbind fst snd].
rewrite (irel_get i x y H1 H2 Hx Hy). cbn [rbind].
eexists. split; [reflexivity|]. do 2 (split; [easy|]). now exists ps'.
Qed.

Lemma irel_new : irel a c (iter_new a) (pairs c (grid (ax a) (ay a))).
Proof.
do 2 (split; [easy|]). eexists. split; [|reflexivity]. apply prel_new.
Qed.

(** owned and mutable iteration *)
Hypothesis Hst : ay a <= ast a.

Definition idx (p : nat * nat) : nat := fst p * ast a + snd p.

Definition orel (i : oiter T) (l : list ((nat * nat) * T)) : Prop :=
  ois i = ast a /\
  exists ps hi, prel (ax a) (ay a) (oip i) ps /\ l = pairs c ps /\
    oil i = firstn (hi - oio i) (skipn (oio i) (adata a)) /\
    hi <= length (adata a) /\
    (forall p, In p ps -> oio i <= idx p < hi).

Lemma idx_dec i j : 0 < ay a -> i < j -> idx (dec (ay a) i) < idx (dec (ay a) j).
Proof.
intros H0 H. unfold idx, dec. cbn [fst snd].
pose proof (Nat.div_mod i (ay a)) as Hi. pose proof (Nat.div_mod j (ay a)) as Hj.
pose proof (Nat.mod_upper_bound i (ay a)). pose proof (Nat.mod_upper_bound j (ay a)).
pose proof (Nat.div_le_mono i j (ay a)).
set (qi := i / ay a) in *. set (qj := j / ay a) in *.
set (ri := i mod ay a) in *. set (rj := j mod ay a) in *.
destruct (Nat.eq_dec qi qj) as [E|E]; [rewrite E in *; lia|]. nia.
Qed.

Lemma idx_first p x l : prel (ax a) (ay a) p (x :: l) ->
  forall q, In q l -> idx x < idx q.
Proof.
intros H q Hq. destruct (prel_in _ _ _ _ x H (or_introl eq_refl)) as [_ H0].
destruct H as [_ [_ [_ E]]]. apply map_seq_cons in E. destruct E as [E1 [-> ->]].
apply in_map_iff in Hq. destruct Hq as [j [<- Hj]]. apply in_seq in Hj.
apply idx_dec; lia.
Qed.

Lemma idx_last p x l : prel (ax a) (ay a) p (l ++ [x]) ->
  forall q, In q l -> idx q < idx x.
Proof.
intros H q Hq. destruct (prel_in _ _ _ _ x H) as [_ H0].
{ apply in_or_app. right. now left. }
destruct H as [_ [_ [_ E]]]. apply map_seq_snoc in E. destruct E as [E1 [-> ->]].
apply in_map_iff in Hq. destruct Hq as [j [<- Hj]]. apply in_seq in Hj.
apply idx_dec; lia.
Qed.

Lemma nth_split_at {B} (l : list B) i v : nth_error l i = Some v ->
  skipn i l = v :: skipn (S i) l.
Proof.
revert i. induction l as [|b l IH]; intros [|i] E; try easy.
- now injection E as ->.
- cbn. now apply IH.
Qed.

Lemma skipn_skipn' {B} m n (l : list B) : skipn m (skipn n l) = skipn (n + m) l.
Proof.
revert l. induction n as [|n IH]; intros l; [easy|].
destruct l as [|b l]; [now destruct m|]. apply IH.
Qed.

Lemma window {B} (l : list B) o h j v : nth_error l j = Some v -> o <= j < h ->
  skipn (j - o) (firstn (h - o) (skipn o l)) = v :: firstn (h - S j) (skipn (S j) l).
Proof.
intros E H. rewrite skipn_firstn_comm, skipn_skipn'.
replace (o + (j - o)) with j by lia. rewrite (nth_split_at _ _ _ E).
replace (h - o - (j - o)) with (S (h - S j)) by lia. easy.
Qed.

Lemma orel_next0 i : orel i [] -> oiter_next i = Ret (None, i).
Proof.
intros [_ [[|p ps] [hi [H [E _]]]]]; [|easy].
unfold oiter_next. now rewrite (prel_next0 _ _ _ H).
Qed.

Lemma orel_back0 i : orel i [] -> oiter_next_back i = Ret (None, i).
Proof.
intros [_ [[|p ps] [hi [H [E _]]]]]; [|easy].
unfold oiter_next_back. now rewrite (prel_back0 _ _ _ H).
Qed.

Lemma orel_next i b l : orel i (b :: l) ->
  exists i', oiter_next i = Ret (Some b, i') /\ orel i' l.
Proof.
intros [H1 [[|[x y] ps] [hi [H [E [Hl [Hh Hi]]]]]]]; [easy|].
cbn in E. injection E as -> ->.
destruct (prel_next _ _ _ _ _ H) as [p' [N H']].
destruct (prel_in _ _ _ _ (x, y) H (or_introl eq_refl)) as [Hx Hy].
specialize (Hc x y Hx Hy). pose proof (Hi (x, y) (or_introl eq_refl)) as Hxy.
unfold idx in Hxy. cbn [fst snd] in *.
unfold oiter_next. rewrite N. cbn [rbind fst snd].
unfold oiter_get, get_index_unchecked, usub. rewrite H1.
assert (oio i <=? x * ast a + y = true) as -> by lia. cbn [rbind].
unfold list_nth. rewrite Hl, (window _ _ _ _ _ Hc Hxy). cbn [unwrap rbind fst snd].
eexists. split; [reflexivity|]. split; [easy|].
exists ps, hi. cbn [oip ois oio oil].
replace (oio i + (x * ast a + y - oio i + 1)) with (S (x * ast a + y)) by lia.
split; [easy|]. split; [easy|]. split; [easy|]. split; [easy|].
intros p Hp. split.
- pose proof (idx_first _ _ _ H p Hp) as Hm. unfold idx in Hm at 1. cbn in Hm. lia.
- apply Hi. now right.
Qed.

Lemma orel_back i b l : orel i (l ++ [b]) ->
  exists i', oiter_next_back i = Ret (Some b, i') /\ orel i' l.
Proof.
intros [H1 [ps [hi [H [E [Hl [Hh Hi]]]]]]]. apply pairs_snoc in E.
destruct E as [ps' [[x y] [-> [-> ->]]]]. cbn [fst snd].
destruct (prel_back _ _ _ _ _ H) as [p' [N H']].
assert (In (x, y) (ps' ++ [(x, y)])) as Hin by (apply in_or_app; right; now left).
destruct (prel_in _ _ _ _ (x, y) H Hin) as [Hx Hy].
specialize (Hc x y Hx Hy). pose proof (Hi (x, y) Hin) as Hxy.
unfold idx in Hxy. cbn [fst snd] in *.
unfold oiter_next_back. rewrite N. cbn [rbind fst snd].
unfold oiter_get_back, get_index_unchecked, usub. rewrite H1.
assert (oio i <=? x * ast a + y = true) as -> by lia. cbn [rbind].
assert (length (oil i) = hi - oio i) as Hlen
  by (rewrite Hl, firstn_length, skipn_length; lia).
rewrite Hlen.
assert (x * ast a + y - oio i <=? hi - oio i = true) as -> by lia. cbn [rbind].
assert (1 <=? hi - oio i - (x * ast a + y - oio i) = true) as -> by lia. cbn [rbind].
unfold list_nth_back. rewrite skipn_rev, Hlen.
replace (hi - oio i - (hi - oio i - (x * ast a + y - oio i) - 1))
  with (S (x * ast a + y - oio i)) by lia.
assert (firstn (S (x * ast a + y - oio i)) (oil i) =
        firstn (x * ast a + y - oio i) (oil i) ++ [c x y]) as ->.
{ rewrite <- (firstn_skipn (x * ast a + y - oio i) (oil i)) at 1.
  rewrite firstn_app, firstn_firstn, firstn_length, Hlen.
  replace (Nat.min (S (x * ast a + y - oio i)) (x * ast a + y - oio i))
    with (x * ast a + y - oio i) by lia.
  f_equal. rewrite Hl, (window _ _ _ _ _ Hc Hxy).
  replace (S (x * ast a + y - oio i) - Nat.min (x * ast a + y - oio i) (hi - oio i))
    with 1 by lia. easy. }
rewrite rev_app_distr. cbn [rev app unwrap rbind fst snd]. rewrite rev_involutive.
eexists. split; [reflexivity|]. split; [easy|].
exists ps', (x * ast a + y). cbn [oip ois oio oil].
split; [easy|]. split; [easy|].
split; [rewrite Hl, firstn_firstn; f_equal; lia|]. split; [lia|].
intros p Hp. split.
- apply Hi. apply in_or_app. now left.
- pose proof (idx_last _ _ _ H p Hp) as Hm. unfold idx in Hm at 2. cbn in Hm. lia.
Qed.

Lemma orel_new : (forall x y, x < ax a -> y < ay a -> x * ast a + y < length (adata a)) ->
  orel (oiter_new a) (pairs c (grid (ax a) (ay a))).
Proof.
intros H. split; [easy|].
exists (grid (ax a) (ay a)), (length (adata a)). split; [apply prel_new|].
split; [easy|].
split; [cbn [oiter_new oio oil]; rewrite Nat.sub_0_r; cbn [skipn]; now rewrite firstn_all|].
split; [easy|]. intros [x y] Hp. apply grid_In in Hp. unfold idx.
cbn [fst snd oiter_new oio]. split; [lia|]. apply H; easy.
Qed.
End IterProofs.

Lemma holds2_nth {T} (a : arr2 T) c : holds2 a (ax a) (ay a) c ->
  forall x y, x < ax a -> y < ay a -> nth_error (adata a) (x * ast a + y) = Some (c x y).
Proof.
intros [_ [_ [H _]]] x y Hx Hy. specialize (H x y Hx Hy).
rewrite index2_in in H by easy. unfold slice_get in H.
destruct (nth_error _ _); [|easy]. now injection H as ->.
Qed.

Lemma iter_elements {T} (a : arr2 T) c ops : made a -> holds2 a (ax a) (ay a) c ->
  let items := map (fun p => (p, c (fst p) (snd p))) (grid (ax a) (ay a)) in
  (exists i, iter_run iter_next iter_next_back ops (iter_new a) =
             Ret (fst (deque_run ops items), i) /\
             pos_len (itp i) = Ret (length (snd (deque_run ops items)))) /\
  (exists i, iter_run oiter_next oiter_next_back ops (oiter_new a) =
             Ret (fst (deque_run ops items), i) /\
             pos_len (oip i) = Ret (length (snd (deque_run ops items)))).
Proof.
intros Ha Hc items. apply made_wf in Ha.
pose proof (holds2_nth a c Hc) as Hn. split.
- destruct (sim_run iter_next iter_next_back (irel a c)
    (irel_next0 a c) (irel_next a c Hn) (irel_back0 a c) (irel_back a c Hn)
    ops _ _ (irel_new a c)) as [i [E H]].
  exists i. split; [exact E|].
  destruct H as [_ [_ [ps [H Ep]]]]. rewrite (prel_len _ _ _ _ H).
  unfold items. unfold pairs in Ep at 1. rewrite Ep. unfold pairs. now rewrite map_length.
- destruct (sim_run oiter_next oiter_next_back (orel a c)
    (orel_next0 a c) (orel_next a c Hn (proj1 Ha)) (orel_back0 a c)
    (orel_back a c Hn (proj1 Ha))
    ops _ _ (orel_new a c (proj1 Ha) (fun x y => awf_in a x y Ha))) as [i [E H]].
  exists i. split; [exact E|].
  destruct H as [_ [ps [hi [H [Ep _]]]]]. rewrite (prel_len _ _ _ _ H).
  unfold items. unfold pairs in Ep at 1. rewrite Ep. unfold pairs. now rewrite map_length.
Qed.

Lemma iter_collect_ok {T} (a : arr2 T) c : made a -> holds2 a (ax a) (ay a) c ->
  iter_collect iter_next (S (ax a * ay a)) (iter_new a) =
  Ret (pairs c (grid (ax a) (ay a))).
Proof.
intros Ha Hc. pose proof (holds2_nth a c Hc) as Hn.
apply (sim_collect iter_next (irel a c)).
- apply irel_next0.
- now apply irel_next.
- apply irel_new.
- unfold pairs. rewrite map_length, grid_length. lia.
Qed.

(** * Construction *)

Lemma grid_nth xs ys x y : x < xs -> y < ys ->
  nth_error (grid xs ys) (x * ys + y) = Some (x, y).
Proof.
intros Hx Hy. rewrite grid_dec, nth_error_map.
rewrite (nth_error_nth' _ 0) by (rewrite seq_length; nia).
rewrite seq_nth by nia. cbn [option_map Nat.add]. now rewrite dec_at.
Qed.

Lemma to_owned_ok {T} (a : arr2 T) c : made a -> holds2 a (ax a) (ay a) c ->
  exists o, to_owned a = Ret o /\ holds2 o (ax a) (ay a) c /\ ast o = ay o /\
    length (adata o) = ax o * ay o.
Proof.
intros Ha Hc. unfold to_owned. rewrite (iter_collect_ok a c Ha Hc). cbn [rbind].
destruct (from_array_holds (ax a) (ay a) (map snd (pairs c (grid (ax a) (ay a)))) c)
  as [o [E H]].
- unfold pairs. now rewrite !map_length, grid_length.
- intros x y Hx Hy. unfold pairs. rewrite !nth_error_map, grid_nth by easy. easy.
- exists o. split; [easy|]. split; [easy|]. apply from_array_ret in E.
  destruct E as [-> E]. easy.
Qed.

Lemma nth_error_combine {A B} (l1 : list A) (l2 : list B) i a b :
  nth_error l1 i = Some a -> nth_error l2 i = Some b ->
  nth_error (combine l1 l2) i = Some (a, b).
Proof.
revert l2 i. induction l1 as [|a1 l1 IH]; intros [|b1 l2] [|i] H1 H2; try easy.
- cbn in *. now injection H1 as ->; injection H2 as ->.
- cbn in *. now apply IH.
Qed.

Lemma new_with_positions_ok {T} xs ys (f : nat -> nat -> nat -> T) :
  exists a, new_with_positions xs ys f = Ret a /\
    holds2 a xs ys (fun x y => f (x * ys + y) x y).
Proof.
unfold new_with_positions. rewrite positions_collect. cbn [rbind].
apply from_array_holds.
- rewrite map_length, combine_length, seq_length, grid_length. lia.
- intros x y Hx Hy. rewrite nth_error_map.
  rewrite (nth_error_combine _ _ _ (x * ys + y) (x, y)); [easy| |].
  + rewrite (nth_error_nth' _ 0) by (rewrite seq_length, grid_length; nia).
    rewrite seq_nth by (rewrite grid_length; nia). easy.
  + now apply grid_nth.
Qed.

Lemma new_with_ok {T} xs ys (f : nat -> T) :
  exists a, new_with xs ys f = Ret a /\ holds2 a xs ys (fun x y => f (x * ys + y)).
Proof.
unfold new_with. apply from_array_holds.
- now rewrite map_length, seq_length.
- intros x y Hx Hy. rewrite nth_error_map.
  rewrite (nth_error_nth' _ 0) by (rewrite seq_length; nia).
  rewrite seq_nth by nia. easy.
Qed.

Lemma new2_ok {T} xs ys (v : T) :
  exists a, new2 xs ys v = Ret a /\ holds2 a xs ys (fun _ _ => v).
Proof.
unfold new2. apply from_array_holds.
- now rewrite repeat_length.
- intros x y Hx Hy. apply nth_error_repeat. nia.
Qed.

(** * Equality *)

Lemma list_eqb_eq {T} (eqb : T -> T -> bool) (l1 l2 : list T) :
  (forall a b, eqb a b = true <-> a = b) ->
  list_eqb eqb l1 l2 = true <-> l1 = l2.
Proof.
intros He. revert l2. induction l1 as [|a l1 IH]; intros [|b l2]; try easy.
cbn. rewrite andb_true_iff, He, IH. split; [now intros [-> ->]|].
intros E. now injection E as -> ->.
Qed.

Lemma nth_error_all {T} (l1 l2 : list T) :
  (forall i, nth_error l1 i = nth_error l2 i) -> l1 = l2.
Proof.
revert l2. induction l1 as [|a l1 IH]; intros [|b l2] H; try easy.
- now specialize (H 0).
- now specialize (H 0).
- f_equal; [specialize (H 0); now injection H|]. apply IH. intros i. apply (H (S i)).
Qed.

Lemma owned_eq {T} (eqb : T -> T -> bool) xs ys d xs' ys' d' a b :
  (forall u v, eqb u v = true <-> u = v) ->
  from_array xs ys d = Ret a -> from_array xs' ys' d' = Ret b ->
  arr2_eqb eqb a b = true <->
  (xs = xs' /\ ys = ys' /\
   forall x y, x < xs -> y < ys -> index2 a x y = index2 b x y).
Proof.
intros He Ea Eb. apply from_array_ret in Ea. apply from_array_ret in Eb.
destruct Ea as [-> Ea]. destruct Eb as [-> Eb].
unfold arr2_eqb. cbn [ax ay ast adata].
rewrite !andb_true_iff, !Nat.eqb_eq, list_eqb_eq by easy. split.
- intros [[[-> ->] _] ->]. easy.
- intros [<- [<- H]]. repeat split; try easy.
  apply nth_error_all. intros i. destruct (lt_dec i (xs * ys)) as [Hi|Hi].
  + destruct (Nat.eq_dec ys 0) as [->|H0]; [lia|].
    pose proof (Nat.div_mod i ys H0) as Ei. pose proof (Nat.mod_upper_bound i ys H0).
    assert (i / ys < xs) by (apply Nat.div_lt_upper_bound; lia).
    specialize (H (i / ys) (i mod ys)). rewrite !index2_in in H by easy.
    unfold slice_get in H. cbn [adata ast] in H.
    replace (i / ys * ys + i mod ys) with i in H by lia.
    destruct (nth_error d i) eqn:E1; destruct (nth_error d' i) eqn:E2; cbn in H.
    * specialize (H H2 H1). now injection H as ->.
    * apply nth_error_None in E2. lia.
    * apply nth_error_None in E1. lia.
    * easy.
  + rewrite (proj2 (nth_error_None d i)) by lia.
    now rewrite (proj2 (nth_error_None d' i)) by lia.
Qed.

(** * What does not hold *)

(** Bounds inside the array that select nothing can be refused: the columns
    from 2 on of a 2x3 array, restricted to the rows from 1 on. *)
Lemma slice_empty_panics :
  exists (a : arr2 nat) xb yb x0 x1 y0 y1, made a /\
    selects xb (ax a) x0 x1 /\ selects yb (ay a) y0 y1 /\
    slice a xb yb = Panic.
Proof.
exists (Arr2 2 3 3 [1; 2; 3; 4; 5; 6]), (bound_from 2), (bound_from 1), 2, 2, 1, 3.
split; [now apply (made_from 2 3 [1; 2; 3; 4; 5; 6])|].
split; [unfold selects; cbn; lia|]. split; [unfold selects; cbn; lia|]. easy.
Qed.

(** Two slices showing the same elements can compare unequal. *)
Lemma slice_eq_differs :
  exists a b : arr2 nat, made a /\ made b /\
    (exists c, holds2 a 1 1 c /\ holds2 b 1 1 c) /\ arr2_eqb Nat.eqb a b = false.
Proof.
exists (Arr2 1 1 2 [7; 1]), (Arr2 1 1 2 [7; 2]).
split; [apply (made_slice (Arr2 1 2 2 [7; 1]) bound_full (bound_to 1));
        [now apply (made_from 1 2 [7; 1])|easy]|].
split; [apply (made_slice (Arr2 1 2 2 [7; 2]) bound_full (bound_to 1));
        [now apply (made_from 1 2 [7; 2])|easy]|].
split; [|easy].
exists (fun _ _ => 7). split; (split; [easy|]); (split; [easy|]); split;
  try (intros x y Hx Hy; assert (x = 0) as -> by lia; assert (y = 0) as -> by lia; easy);
  intros x y H; apply index2_out; exact H.
Qed.
