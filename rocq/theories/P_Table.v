(** Proofs about printed tables. *)
From Coq Require Import Ascii String List Arith Lia Bool.
From Verif Require Import M_Base M_Display M_Table S_Table.
Import ListNotations.
Local Open Scope list_scope.

(** * Lines of a text *)
Lemma pieces_joined s : joined (pieces s) = s /\ pieces s <> [] /\ forall l, In l (pieces s) -> ~ In newline l.
Proof.
  induction s as [|c s (IH & N & F)]; cbn [pieces].
  - split; [reflexivity|]. split; [discriminate|]. intros l [<-|[]] [].
  - destruct (Ascii.eqb_spec c newline) as [->|E].
    + split; [|split; [discriminate|]].
      * destruct (pieces s) as [|p ps]; [congruence|]. change (newline :: joined (p :: ps) = newline :: s). rewrite IH. reflexivity.
      * intros l [<-|H]; [intros []|exact (F l H)].
    + destruct (pieces s) as [|p ps]; [congruence|]. split; [|split; [discriminate|]].
      * rewrite <- IH. destruct ps; reflexivity.
      * intros l [<-|H]; [|apply F; right; exact H].
        intros [X|X]; [exact (E X)|]. exact (F p (or_introl eq_refl) X).
Qed.

Lemma strip_cr_sub l c : In c (strip_cr l) -> In c l.
Proof.
  unfold strip_cr. destruct (rev l) as [|a r] eqn:E; [auto|]. destruct (Ascii.eqb a carriage_return); [|auto].
  intros H. apply in_rev. rewrite E. right. apply in_rev. exact H.
Qed.
Lemma strip_cr_id l : ~ In carriage_return l -> strip_cr l = l.
Proof.
  intros H. unfold strip_cr. destruct (rev l) as [|a r] eqn:E; [reflexivity|].
  destruct (Ascii.eqb_spec a carriage_return) as [->|]; [|reflexivity].
  exfalso. apply H. apply in_rev. rewrite E. left; reflexivity.
Qed.

Lemma drop_last_cases ls : drop_last_empty ls = ls \/ ls = drop_last_empty ls ++ [[]].
Proof.
  unfold drop_last_empty. destruct (rev ls) as [|[|a l] r] eqn:E; auto.
  right. rewrite <- (rev_involutive ls), E. reflexivity.
Qed.

Lemma lines_no_newline s l : In l (lines s) -> ~ In newline l.
Proof.
  unfold lines. rewrite in_map_iff. intros (p & <- & H) X. apply strip_cr_sub in X.
  destruct (pieces_joined s) as (_ & _ & F). apply (F p); [|exact X].
  destruct (drop_last_cases (pieces s)) as [E|E]; [rewrite <- E; exact H|].
  rewrite E. apply in_or_app. left; exact H.
Qed.

Lemma joined_snoc ls l : ls <> [] -> joined (ls ++ [l]) = joined ls ++ newline :: l.
Proof.
  induction ls as [|a ls IH]; intros N; [congruence|]. destruct ls as [|b ls]; [reflexivity|].
  cbn [app]. change (a ++ newline :: joined ((b :: ls) ++ [l]) = (a ++ newline :: joined (b :: ls)) ++ newline :: l).
  rewrite IH by discriminate. rewrite <- app_assoc. reflexivity.
Qed.

Lemma joined_in ls l c : In l ls -> In c l -> In c (joined ls).
Proof.
  induction ls as [|a ls IH]; intros H Hc; [destruct H|]. destruct H as [<-|H].
  - destruct ls; cbn [joined]; [exact Hc|apply in_or_app; left; exact Hc].
  - destruct ls as [|b ls]; [destruct H|]. change (In c (a ++ newline :: joined (b :: ls))).
    apply in_or_app. right; right. apply IH; assumption.
Qed.

Lemma lines_text s : ~ In carriage_return s ->
  s = joined (lines s) \/ s = joined (lines s) ++ [newline].
Proof.
  intros H. destruct (pieces_joined s) as (E & N & F).
  assert (S : lines s = drop_last_empty (pieces s)).
  { unfold lines. rewrite <- (map_id (drop_last_empty (pieces s))) at 2. apply map_ext_in.
    intros p Hp. apply strip_cr_id. intros X. apply H. rewrite <- E. apply joined_in with p; [|exact X].
    destruct (drop_last_cases (pieces s)) as [D|D]; [rewrite <- D; exact Hp|].
    rewrite D. apply in_or_app. left; exact Hp. }
  rewrite S. destruct (drop_last_cases (pieces s)) as [D|D]; [left; rewrite D; auto|].
  destruct (drop_last_empty (pieces s)) as [|a r] eqn:Q.
  - left. rewrite <- E, D. reflexivity.
  - right. rewrite <- E, D at 1. rewrite joined_snoc by discriminate. reflexivity.
Qed.

(** * Pictures *)
Lemma fold_max_ge {A} (f : A -> nat) l : forall i, i <= fold_left (fun h x => Nat.max h (f x)) l i.
Proof. induction l as [|a l IH]; intros i; cbn [fold_left]; [lia|]. specialize (IH (Nat.max i (f a))). lia. Qed.
Lemma fold_max_in {A} (f : A -> nat) l : forall i a, In a l -> f a <= fold_left (fun h x => Nat.max h (f x)) l i.
Proof.
  induction l as [|b l IH]; intros i a H; [destruct H|]. destruct H as [H|H]; cbn [fold_left].
  - subst b. pose proof (fold_max_ge f l (Nat.max i (f a))). lia.
  - apply IH; assumption.
Qed.

Section Table.
Variable alt : bool.
Variables xs ys : nat.
Variable cell : nat -> nat -> text.
Hypothesis Xpos : 0 < xs.
Hypothesis Ypos : 0 < ys.
Definition W := col_width ys cell.
Definition H := printed_height alt xs ys cell.
Ltac by_alt := let D := fresh "D" in assert (D : alt = true \/ alt = false) by (case alt; auto); destruct D as [D|D]; rewrite D in *.

Lemma width_ge x y line : y < ys -> In line (lines (cell x y)) -> length line <= W x.
Proof.
  intros Hy Hl. apply Nat.le_trans with (cell_width (cell x y)).
  - unfold cell_width. apply (fold_max_in (fun l : text => length l)). exact Hl.
  - unfold W, col_width. apply (fold_max_in (fun y => cell_width (cell x y))). apply in_seq. lia.
Qed.
Lemma height_ge x y : x < xs -> length (lines (cell x y)) <= H y /\ 1 <= H y.
Proof.
  intros Hx. assert (C : cell_height (cell x y) <= row_height xs cell y).
  { apply (fold_max_in (fun x => cell_height (cell x y))). apply in_seq. lia. }
  unfold H, printed_height. unfold cell_height in C. lia.
Qed.

(** the lines of the picture *)
Definition group (y : nat) : list text :=
  map (row_line alt xs ys cell y) (seq 0 (H y)) ++ (if alt then [separator xs ys cell] else []).
Definition pic : list text := (if alt then [separator xs ys cell] else []) ++ flat_map group (seq 0 ys).

Lemma joined_app l1 l2 : l1 <> [] -> l2 <> [] -> joined (l1 ++ l2) = joined l1 ++ newline :: joined l2.
Proof.
  induction l1 as [|a l1 IH]; intros N1 N2; [congruence|]. destruct l1 as [|b l1].
  - cbn [app]. destruct l2; [congruence|]. reflexivity.
  - change (a ++ newline :: joined ((b :: l1) ++ l2) = (a ++ newline :: joined (b :: l1)) ++ newline :: joined l2).
    rewrite IH by (discriminate || assumption). rewrite <- app_assoc. reflexivity.
Qed.

(** writing a newline after all but the last is joining *)
Lemma flat_map_joined (f : nat -> list text) n : (forall i, f i <> []) ->
  forall s, flat_map (fun i => joined (f i) ++ (if i =? s + n then [] else [newline])) (seq s (S n)) = joined (flat_map f (seq s (S n))).
Proof.
  intros N. induction n as [|n IH]; intros s.
  - cbn [seq flat_map]. rewrite Nat.add_0_r, Nat.eqb_refl, !app_nil_r. reflexivity.
  - change (seq s (S (S n))) with (s :: seq (S s) (S n)). cbn [flat_map].
    replace (s =? s + S n) with false by (symmetry; apply Nat.eqb_neq; lia).
    rewrite joined_app; [|apply N|].
    2: { cbn [seq flat_map]. destruct (f (S s)) eqn:E; [exfalso; exact (N _ E)|discriminate]. }
    rewrite <- app_assoc. f_equal. cbn [app]. f_equal.
    rewrite <- IH. apply flat_map_ext. intros i. replace (S s + n) with (s + S n) by lia. reflexivity.
Qed.

Lemma write_rows_joined y : 1 <= H y -> write_rows alt xs ys cell y = joined (map (row_line alt xs ys cell y) (seq 0 (H y))).
Proof.
  intros P. unfold write_rows. fold H. cbv zeta.
  destruct (H y) as [|h] eqn:E; [lia|].
  assert (M : map (row_line alt xs ys cell y) (seq 0 (S h)) = flat_map (fun r => [row_line alt xs ys cell y r]) (seq 0 (S h))).
  { generalize (seq 0 (S h)). induction l; cbn; [reflexivity|]. f_equal; assumption. }
  rewrite M. rewrite <- (flat_map_joined (fun r => [row_line alt xs ys cell y r]) h) by discriminate.
  apply flat_map_ext. intros r. cbn [joined]. replace (S h - 1) with (0 + h) by lia. reflexivity.
Qed.

Lemma fmt_joined : table_fmt alt xs ys cell = joined pic.
Proof.
  unfold table_fmt. replace ((xs =? 0) || (ys =? 0)) with false.
  2: { symmetry. apply orb_false_iff. split; apply Nat.eqb_neq; lia. }
  assert (Yn : exists n, ys = S n) by (exists (pred ys); lia).
  assert (G : forall y, group y <> []).
  { intros y. unfold group. destruct (H y) eqn:E; [|discriminate]. pose proof (height_ge 0 y Xpos). lia. }
  assert (E : flat_map (fun y => write_rows alt xs ys cell y ++ (if alt then newline :: separator xs ys cell else []) ++
      (if y =? ys - 1 then [] else [newline])) (seq 0 ys) = joined (flat_map group (seq 0 ys))).
  { destruct Yn as [n Ey]. replace (flat_map group (seq 0 ys)) with (flat_map group (seq 0 (S n))) by (rewrite Ey; reflexivity).
    rewrite <- (flat_map_joined group n G). rewrite <- Ey.
    apply flat_map_ext. intros y. replace (ys - 1) with (0 + n) by lia. rewrite app_assoc. f_equal.
    rewrite write_rows_joined by apply (height_ge 0 y Xpos). unfold group. by_alt; [|rewrite !app_nil_r; reflexivity].
    rewrite joined_snoc; [reflexivity|]. destruct (H y) eqn:Eh; [|discriminate]. pose proof (height_ge 0 y Xpos). lia. }
  rewrite E. unfold pic. by_alt; [|reflexivity].
  rewrite joined_app; [|discriminate|].
  - cbn [joined]. rewrite <- app_assoc. reflexivity.
  - destruct Yn as [n ->]. cbn [seq flat_map]. destruct (group 0) eqn:Q; [exfalso; exact (G _ Q)|discriminate].
Qed.

(** sums of sizes *)
Fixpoint sum (f : nat -> nat) (n : nat) : nat := match n with O => 0 | S n' => sum f n' + f n' end.

Lemma flat_map_length {A} (f : nat -> list A) n : length (flat_map f (seq 0 n)) = sum (fun i => length (f i)) n.
Proof.
  induction n as [|n IH]; [reflexivity|]. rewrite seq_S, flat_map_app, app_length, IH. cbn [flat_map sum].
  rewrite app_nil_r. reflexivity.
Qed.

Lemma flat_map_split {A} (f : nat -> list A) n i : i < n -> exists l2,
  flat_map f (seq 0 n) = flat_map f (seq 0 i) ++ f i ++ l2.
Proof.
  intros L. exists (flat_map f (seq (S i) (n - S i))).
  replace n with (i + S (n - S i)) at 1 by lia. rewrite seq_app, flat_map_app. f_equal.
Qed.

Definition lead : nat := if alt then 0 else 1.
Definition bar : nat := if alt then 1 else 0.
Definition left (x : nat) : nat := lead + sum (fun x => bar + (W x + 2)) x + bar + 1.
Definition top (y : nat) : nat := bar + sum (fun y => H y + bar) y.
Definition total : nat := lead + sum (fun x => bar + (W x + 2)) xs + 1.

Lemma padded_length w l : length l <= w -> length (padded w l) = w + 2.
Proof. intros L. unfold padded. cbn [length]. rewrite !app_length, repeat_length. cbn [length]. lia. Qed.

Lemma nth_line_short x y r : y < ys -> length (nth r (lines (cell x y)) []) <= W x.
Proof.
  intros Hy. destruct (nth_in_or_default r (lines (cell x y)) []) as [I|E0]; [|rewrite E0; cbn; lia].
  exact (width_ge x y _ Hy I).
Qed.

Lemma sum_ext f g n : (forall i, f i = g i) -> sum f n = sum g n.
Proof. intros E. induction n as [|n IH]; cbn; [reflexivity|]. rewrite IH, E. reflexivity. Qed.

Lemma row_length y r : y < ys -> length (row_line alt xs ys cell y r) = total.
Proof.
  intros Hy. unfold row_line, total. rewrite !app_length, flat_map_length.
  rewrite (sum_ext _ (fun x => bar + (W x + 2))).
  - unfold lead. by_alt; cbn [length]; lia.
  - intros x. rewrite app_length, padded_length by (apply nth_line_short; exact Hy).
    unfold bar. by_alt; reflexivity.
Qed.

Lemma sep_length : alt = true -> length (separator xs ys cell) = total.
Proof.
  intros A. unfold separator, total. rewrite app_length, flat_map_length.
  rewrite (sum_ext _ (fun x => bar + (W x + 2))).
  - unfold lead. rewrite A. cbn [length]. lia.
  - intros x. cbn [list_ascii_of_string app length]. rewrite app_length, repeat_length. unfold bar. rewrite A. cbn [length].
    fold W. lia.
Qed.

Lemma no_newline_row y r : ~ In newline (row_line alt xs ys cell y r).
Proof.
  unfold row_line. rewrite !in_app_iff, in_flat_map. intros [X|[(x & _ & X)|X]].
  - by_alt; [exact X|]. destruct X as [X|[]]; discriminate.
  - rewrite in_app_iff in X. destruct X as [X|X]; [by_alt; [destruct X as [X|[]]; discriminate|exact X]|].
    unfold padded in X. destruct X as [X|X]; [discriminate|]. rewrite !in_app_iff in X. destruct X as [X|[X|X]].
    + destruct (nth_in_or_default r (lines (cell x y)) []) as [I|E]; [exact (lines_no_newline _ _ I X)|rewrite E in X; exact X].
    + apply repeat_spec in X. discriminate.
    + destruct X as [X|[]]; discriminate.
  - by_alt; destruct X as [X|[]]; discriminate.
Qed.
Lemma no_newline_sep : ~ In newline (separator xs ys cell).
Proof.
  unfold separator. rewrite in_app_iff, in_flat_map. intros [(x & _ & X)|X].
  - cbn [list_ascii_of_string app] in X. destruct X as [X|[X|X]]; try discriminate.
    rewrite in_app_iff in X. destruct X as [X|X]; [apply repeat_spec in X; discriminate|]. destruct X as [X|[]]; discriminate.
  - destruct X as [X|[]]; discriminate.
Qed.

Lemma pic_lines l : In l pic -> length l = total /\ ~ In newline l.
Proof.
  intros I. assert (S : alt = true -> l = separator xs ys cell -> length l = total /\ ~ In newline l).
  { intros A ->. split; [exact (sep_length A)|exact no_newline_sep]. }
  unfold pic in I. rewrite in_app_iff in I. destruct I as [I|I].
  - by_alt; [|destruct I]. destruct I as [<-|[]]. apply S; auto.
  - apply in_flat_map in I. destruct I as (y & Iy & I). apply in_seq in Iy. unfold group in I. rewrite in_app_iff in I.
    destruct I as [I|I].
    + apply in_map_iff in I. destruct I as (r & <- & _). split; [apply row_length; lia|apply no_newline_row].
    + by_alt; [|destruct I]. destruct I as [<-|[]]. apply S; auto.
Qed.

Lemma group_length y : length (group y) = H y + bar.
Proof. unfold group, bar. rewrite app_length, map_length, seq_length. by_alt; reflexivity. Qed.

Lemma pic_nth y r : y < ys -> r < H y -> nth_error pic (top y + r) = Some (row_line alt xs ys cell y r).
Proof.
  intros Hy Hr. unfold pic, top.
  assert (B : bar = length (if alt then [separator xs ys cell] else [])) by (unfold bar; by_alt; reflexivity).
  rewrite nth_error_app2 by lia. replace (_ + _ + r - _) with (sum (fun y => H y + bar) y + r) by lia.
  destruct (flat_map_split group ys y Hy) as [l2 ->].
  assert (Q : length (flat_map group (seq 0 y)) = sum (fun y => H y + bar) y).
  { rewrite flat_map_length. apply sum_ext. exact group_length. }
  rewrite nth_error_app2 by lia. rewrite Q. replace (_ + r - _) with r by lia.
  rewrite nth_error_app1 by (rewrite group_length; lia).
  unfold group. rewrite nth_error_app1 by (rewrite map_length, seq_length; exact Hr).
  rewrite nth_error_map. rewrite (nth_error_nth' _ 0) by (rewrite seq_length; exact Hr). rewrite seq_nth by exact Hr. reflexivity.
Qed.

Lemma row_cut x y r : x < xs -> y < ys ->
  firstn (W x) (skipn (left x) (row_line alt xs ys cell y r)) =
  nth r (lines (cell x y)) [] ++ repeat blank (W x - length (nth r (lines (cell x y)) [])).
Proof.
  intros Hx Hy. set (line := nth r (lines (cell x y)) []).
  set (f := fun x => (if alt then ["|"%char] else []) ++ padded (col_width ys cell x) (nth r (lines (cell x y)) [])).
  destruct (flat_map_split f xs x Hx) as [l2 E].
  assert (R : exists pre post, row_line alt xs ys cell y r = pre ++ (line ++ repeat blank (W x - length line)) ++ post /\ length pre = left x).
  { exists (((if alt then [] else ["["%char]) ++ flat_map f (seq 0 x) ++ (if alt then ["|"%char] else [])) ++ [blank]).
    exists ([blank] ++ l2 ++ (if alt then ["|"%char] else ["]"%char])). split.
    - unfold row_line. fold f. rewrite E. unfold f at 2. unfold padded. fold line. fold W.
      repeat (rewrite <- app_assoc; cbn [app]). reflexivity.
    - rewrite !app_length, flat_map_length. unfold left, lead.
      rewrite (sum_ext (fun i => length (f i)) (fun x => bar + (W x + 2))).
      + unfold bar. by_alt; cbn [length]; lia.
      + intros i. unfold f. rewrite app_length, padded_length by (apply nth_line_short; exact Hy). unfold bar. by_alt; reflexivity. }
  destruct R as (pre & post & -> & L). rewrite <- L. rewrite skipn_app, skipn_all, Nat.sub_diag. cbn [app skipn].
  assert (Lw : length (line ++ repeat blank (W x - length line)) = W x).
  { rewrite app_length, repeat_length. pose proof (nth_line_short x y r Hy). fold line in H0. lia. }
  rewrite firstn_app, Lw, Nat.sub_diag. cbn [firstn]. rewrite app_nil_r. rewrite <- Lw at 1. apply firstn_all.
Qed.

Lemma sum_mono f n m : n <= m -> sum f n <= sum f m.
Proof. induction 1; cbn [sum]; lia. Qed.

Lemma table_shows : shows_table (table_fmt alt xs ys cell) xs ys (fun x y => lines (cell x y)).
Proof.
  exists pic, total, left, W, top. split; [exact fmt_joined|]. split; [exact pic_lines|]. split; [|split].
  - intros x y r line Hx Hy Hn. split; [apply (width_ge x y); [exact Hy|apply nth_error_In with r; exact Hn]|].
    assert (Hr : r < length (lines (cell x y))) by (apply nth_error_Some; rewrite Hn; discriminate).
    pose proof (height_ge x y Hx) as [Hh _].
    exists (row_line alt xs ys cell y r). split; [apply pic_nth; lia|].
    rewrite row_cut by assumption.
    assert (Q : nth r (lines (cell x y)) [] = line) by exact (nth_error_nth _ _ [] Hn). rewrite Q. reflexivity.
  - intros x Hx. split; [unfold left; lia|]. split.
    + unfold left. cbn [sum]. lia.
    + unfold left, total. pose proof (sum_mono (fun x => bar + (W x + 2)) (S x) xs Hx) as M. cbn [sum] in M. lia.
  - intros x y Hx Hy. pose proof (height_ge x y Hx) as [Hh _]. split.
    + unfold top. cbn [sum]. lia.
    + unfold pic, top. rewrite app_length, flat_map_length.
      rewrite (sum_ext (fun i => length (group i)) (fun y => H y + bar)) by exact group_length.
      pose proof (sum_mono (fun y => H y + bar) (S y) ys Hy) as M. cbn [sum] in M.
      unfold bar in *. by_alt; cbn [length]; lia.
Qed.
End Table.

Lemma table_empty alt xs ys (cell : nat -> nat -> text) : xs = 0 \/ ys = 0 ->
  table_fmt alt xs ys cell =
  list_ascii_of_string ("[x_size=" ++ show_usize xs ++ ", y_size=" ++ show_usize ys ++ "]")%string ++ [newline].
Proof.
  intros E. unfold table_fmt. replace ((xs =? 0) || (ys =? 0)) with true; [reflexivity|].
  symmetry. apply orb_true_iff. rewrite !Nat.eqb_eq. exact E.
Qed.
