(** The text of a polynomial determines the polynomial. *)
From Coq Require Import ZArith QArith List String Ascii DecimalString DecimalNat DecimalZ Lia Bool.
From Verif Require Import M_Base M_PolyAlg P_PolyAlgRef M_Display S_Display.
Import ListNotations.
Local Open Scope nat_scope.
Local Open Scope list_scope.

Notation chars := list_ascii_of_string.
Local Notation "'sp'" := (" "%char).
Local Notation "'lp'" := ("("%char).
Local Notation "'rp'" := (")"%char).

Lemma chars_app a b : chars (a ++ b)%string = chars a ++ chars b.
Proof. induction a as [|c a IH]; [reflexivity|]. cbn. rewrite IH. reflexivity. Qed.
Lemma chars_inj a b : chars a = chars b -> a = b.
Proof.
  intros H. rewrite <- (string_of_list_ascii_of_string a), <- (string_of_list_ascii_of_string b), H.
  reflexivity.
Qed.

(** * Brackets and spaces *)
Definition step (k : nat) (c : ascii) : nat :=
  if Ascii.eqb c lp then S k else if Ascii.eqb c rp then pred k else k.
Fixpoint lev (k : nat) (s : list ascii) : option nat :=
  match s with
  | [] => Some k
  | c :: s' => if Ascii.eqb c rp && (k =? 0) then None else lev (step k c) s'
  end.
Fixpoint brk (k : nat) (s : list ascii) : list ascii * option (list ascii) :=
  match s with
  | [] => ([], None)
  | c :: s' => if Ascii.eqb c sp && (k =? 0) then ([], Some s')
               else let r := brk (step k c) s' in (c :: fst r, snd r)
  end.
Definition balanced (s : list ascii) : Prop := lev 0 s = Some 0.
Definition item (s : list ascii) : Prop := balanced s /\ brk 0 s = (s, None).

Lemma lev_app a b k : lev k (a ++ b) = match lev k a with Some j => lev j b | None => None end.
Proof. revert k. induction a as [|c a IH]; intros k; [reflexivity|]. cbn. destruct (_ && _); [reflexivity|apply IH]. Qed.
Lemma step_shift k i c : Ascii.eqb c rp && (k =? 0) = false -> step (k + i) c = step k c + i.
Proof.
  unfold step. destruct (Ascii.eqb c lp); [intros; lia|]. destruct (Ascii.eqb c rp); [|reflexivity].
  cbn. intros H. apply Nat.eqb_neq in H. lia.
Qed.
Lemma lev_shift s : forall k j i, lev k s = Some j -> lev (k + i) s = Some (j + i).
Proof.
  induction s as [|c s IH]; intros k j i; cbn.
  - intros H; inversion H; reflexivity.
  - destruct (Ascii.eqb c rp && (k =? 0)) eqn:E; [discriminate|]. intros H.
    assert (E' : Ascii.eqb c rp && (k + i =? 0) = false).
    { destruct (Ascii.eqb c rp); [|reflexivity]. cbn in *. apply Nat.eqb_neq in E. apply Nat.eqb_neq. lia. }
    rewrite E', (step_shift k i c E). apply IH; exact H.
Qed.
Lemma balanced_app a b : balanced a -> balanced b -> balanced (a ++ b).
Proof. unfold balanced. rewrite lev_app. intros -> H. exact H. Qed.
Lemma balanced_paren t : balanced t -> balanced (lp :: t ++ [rp]).
Proof.
  intros H. unfold balanced. cbn. rewrite lev_app.
  pose proof (lev_shift t 0 0 1 H) as S. cbn in S. rewrite S. reflexivity.
Qed.

Lemma pair_tail (c : ascii) (r : list ascii * option (list ascii)) a :
  (c :: fst r, snd r) = (c :: a, None) -> r = (a, None).
Proof. destruct r as [x y]. cbn. congruence. Qed.
Lemma brk_app a : forall k r, brk k a = (a, None) -> lev k a = Some 0 -> brk k (a ++ sp :: r) = (a, Some r).
Proof.
  induction a as [|c a IH]; intros k r; cbn [lev brk app].
  - intros _ H; inversion H; subst. reflexivity.
  - destruct (Ascii.eqb c sp && (k =? 0)) eqn:E; [discriminate|].
    destruct (Ascii.eqb c rp && (k =? 0)); [discriminate|].
    intros H L. pose proof (pair_tail _ _ _ H) as B.
    rewrite (IH _ _ B L). reflexivity.
Qed.
Lemma brk_app_none a b : forall k j, brk k a = (a, None) -> lev k a = Some j -> brk j b = (b, None) ->
  brk k (a ++ b) = (a ++ b, None).
Proof.
  induction a as [|c a IH]; intros k j; cbn [lev brk app].
  - intros _ H; inversion H; subst. auto.
  - destruct (Ascii.eqb c sp && (k =? 0)) eqn:E; [discriminate|].
    destruct (Ascii.eqb c rp && (k =? 0)); [discriminate|].
    intros H L Hb. pose proof (pair_tail _ _ _ H) as B.
    rewrite (IH _ _ B L Hb). reflexivity.
Qed.
Lemma item_app a b : item a -> item b -> item (a ++ b).
Proof.
  intros [A1 A2] [B1 B2]. split; [apply balanced_app; assumption|].
  exact (brk_app_none a b 0 0 A2 A1 B2).
Qed.
Lemma brk_deep t : forall k j, lev k t = Some j -> brk (k + 1) t = (t, None).
Proof.
  induction t as [|c t IH]; intros k j; [reflexivity|]. cbn [lev brk].
  destruct (Ascii.eqb c rp && (k =? 0)) eqn:E; [discriminate|]. intros H.
  rewrite Nat.add_1_r at 1. rewrite andb_false_r. rewrite (step_shift k 1 c E), (IH _ _ H). reflexivity.
Qed.
Lemma item_paren t : balanced t -> item (lp :: t ++ [rp]).
Proof.
  intros H. split; [apply balanced_paren; exact H|].
  assert (T : brk 1 (t ++ [rp]) = (t ++ [rp], None)).
  { apply (brk_app_none t [rp] 1 1); [exact (brk_deep t 0 0 H)|exact (lev_shift t 0 0 1 H)|reflexivity]. }
  change (brk 0 (lp :: t ++ [rp])) with (let r := brk 1 (t ++ [rp]) in (lp :: fst r, snd r)).
  rewrite T. reflexivity.
Qed.

(** Plain characters: neither brackets nor spaces. *)
Definition plain (c : ascii) : bool := negb (Ascii.eqb c lp || Ascii.eqb c rp || Ascii.eqb c sp).
Lemma plain_item s : forallb plain s = true -> item s.
Proof.
  unfold item, balanced. induction s as [|c s IH]; [auto|]. cbn [forallb lev brk].
  unfold plain at 1. rewrite andb_true_iff, negb_true_iff, !orb_false_iff. intros [[[E1 E2] E3] H].
  destruct (IH H) as [L B]. unfold step. rewrite E1, E2, E3. cbn. rewrite L, B. auto.
Qed.

(** * Joining items *)
Definition sep : list ascii := [sp; "+"%char; sp].
Fixpoint join (l : list (list ascii)) : list ascii :=
  match l with
  | [] => []
  | a :: l' => match l' with [] => a | _ => a ++ sep ++ join l' end
  end.
Lemma join_cons a b l : join (a :: b :: l) = a ++ sp :: "+"%char :: sp :: join (b :: l).
Proof. reflexivity. Qed.
Lemma join_app l l' : l <> [] -> l' <> [] -> join (l ++ l') = join l ++ sep ++ join l'.
Proof.
  intros Hl Hl'. induction l as [|a l IH]; [contradiction|]. destruct l as [|b l].
  - cbn [app]. destruct l'; [contradiction|]. reflexivity.
  - change ((a :: b :: l) ++ l') with (a :: b :: l ++ l'). rewrite !join_cons.
    change (b :: l ++ l') with ((b :: l) ++ l'). rewrite IH by discriminate.
    rewrite <- app_assoc. reflexivity.
Qed.
Lemma item_brk a r : item a -> brk 0 (a ++ sp :: r) = (a, Some r).
Proof. intros [H B]. exact (brk_app a 0 r B H). Qed.
Lemma join_inj l : forall l', Forall item l -> Forall item l' -> l <> [] -> l' <> [] -> join l = join l' -> l = l'.
Proof.
  induction l as [|a l IH]; intros l' Hl Hl' Nl Nl' E; [contradiction|].
  destruct l' as [|b l']; [contradiction|].
  inversion Hl as [|? ? Ha Hl2]; inversion Hl' as [|? ? Hb Hl2']; subst.
  destruct l as [|a' l], l' as [|b' l'].
  - cbn in E. subst. reflexivity.
  - rewrite join_cons in E. cbn [join] in E. apply (f_equal (brk 0)) in E.
    rewrite (item_brk b _ Hb), (proj2 Ha) in E. discriminate.
  - rewrite join_cons in E. cbn [join] in E. apply (f_equal (brk 0)) in E.
    rewrite (item_brk a _ Ha), (proj2 Hb) in E. discriminate.
  - rewrite !join_cons in E. apply (f_equal (brk 0)) in E.
    rewrite (item_brk a _ Ha), (item_brk b _ Hb) in E. inversion E as [[E1 E2]]. f_equal.
    apply IH; try assumption; discriminate.
Qed.

(** * The variable of a bracketed term *)
Fixpoint close (k : nat) (s : list ascii) : option (list ascii) :=
  match s with
  | [] => None
  | c :: s' => if Ascii.eqb c rp && (k =? 0) then Some s' else close (step k c) s'
  end.
Lemma close_app t : forall k j r, lev k t = Some j -> close k (t ++ r) = close j r.
Proof.
  induction t as [|c t IH]; intros k j r; cbn [lev close app].
  - intros H; inversion H; reflexivity.
  - destruct (_ && _); [discriminate|]. apply IH.
Qed.
Fixpoint until_hat (s : list ascii) : list ascii :=
  match s with [] => [] | c :: s' => if Ascii.eqb c "^" then [] else c :: until_hat s' end.
Definition term_var (s : list ascii) : option (list ascii) :=
  match s with
  | c :: s' => if Ascii.eqb c lp then
                 match close 0 s' with Some (d :: r) => Some (until_hat r) | _ => None end
               else None
  | [] => None
  end.
Definition not_hat (c : ascii) : bool := negb (Ascii.eqb c "^").
Lemma until_hat_app v r : forallb not_hat v = true -> (r = [] \/ exists r', r = "^"%char :: r') ->
  until_hat (v ++ r) = v.
Proof.
  intros Hv Hr. induction v as [|c v IH]; cbn.
  - destruct Hr as [->|[r' ->]]; reflexivity.
  - cbn in Hv. apply andb_true_iff in Hv. destruct Hv as [H1 H2]. unfold not_hat in H1.
    apply negb_true_iff in H1. rewrite H1, (IH H2). reflexivity.
Qed.

(** * Digits *)
Definition digit (c : ascii) : bool :=
  (48 <=? nat_of_ascii c) && (nat_of_ascii c <=? 57).
Lemma uint_digits d : forallb digit (chars (NilEmpty.string_of_uint d)) = true.
Proof. induction d; cbn; auto. Qed.
Definition int_char (c : ascii) : bool := digit c || Ascii.eqb c "-".
Lemma forallb_impl {A} (f g : A -> bool) l : (forall x, f x = true -> g x = true) ->
  forallb f l = true -> forallb g l = true.
Proof. intros H. rewrite !forallb_forall. auto. Qed.
Lemma int_chars z : forallb int_char (chars (show_int z)) = true.
Proof.
  unfold show_int. destruct (Z.to_int z) as [d|d]; cbn.
  - apply (forallb_impl digit); [|apply uint_digits]. intros x H. unfold int_char. rewrite H. reflexivity.
  - apply (forallb_impl digit); [|apply uint_digits]. intros x H. unfold int_char. rewrite H. reflexivity.
Qed.
Lemma digit_cases c : digit c = true -> In c (chars "0123456789").
Proof.
  destruct c as [[] [] [] [] [] [] [] []]; cbn; intros H; try discriminate H; tauto.
Qed.
Lemma int_char_plain c : int_char c = true -> plain c = true.
Proof.
  unfold int_char. rewrite orb_true_iff. intros [H|H].
  - apply digit_cases in H. cbn in H.
    repeat (destruct H as [<-|H]; [reflexivity|]). contradiction.
  - apply Ascii.eqb_eq in H. subst. reflexivity.
Qed.
Lemma int_char_no_slash c : int_char c = true -> c <> "/"%char /\ c <> ","%char.
Proof. intros H; split; intros ->; discriminate. Qed.
Lemma show_int_inj z z' : show_int z = show_int z' -> z = z'.
Proof.
  unfold show_int. intros H. apply (f_equal NilEmpty.int_of_string) in H.
  rewrite !NilEmpty.isi in H. inversion H as [E].
  rewrite <- (DecimalZ.of_to z), <- (DecimalZ.of_to z'), E. reflexivity.
Qed.
Lemma show_usize_inj n n' : show_usize n = show_usize n' -> n = n'.
Proof.
  unfold show_usize. intros H. apply (f_equal NilEmpty.uint_of_string) in H.
  rewrite !NilEmpty.usu in H. inversion H as [E].
  rewrite <- (DecimalNat.Unsigned.of_to n), <- (DecimalNat.Unsigned.of_to n'), E. reflexivity.
Qed.
Lemma show_int_0 z : show_int z = "0"%string <-> z = 0%Z.
Proof. split; [intros H; apply show_int_inj; exact H|intros ->; reflexivity]. Qed.
Lemma show_int_nonempty z : chars (show_int z) <> [].
Proof.
  unfold show_int. destruct z as [|p|p]; cbn; try discriminate.
  intros H. assert (E : Pos.to_uint p = Decimal.Nil) by (destruct (Pos.to_uint p); cbn in H; congruence).
  pose proof (DecimalPos.Unsigned.of_to p) as O. rewrite E in O. discriminate.
Qed.

(** * Variables *)
Definition upper (c : ascii) : bool := (65 <=? nat_of_ascii c) && (nat_of_ascii c <=? 90).
Lemma upper_plain c : upper c = true -> plain c = true /\ not_hat c = true.
Proof. destruct c as [[] [] [] [] [] [] [] []]; cbn; intros H; try discriminate H; auto. Qed.
Lemma variable_chars_upper i : forallb upper (chars (seq.nth ""%string variable_chars i)) = true.
Proof.
  assert (A : forallb (fun s => forallb upper (chars s)) variable_chars = true) by reflexivity.
  revert i. generalize variable_chars A. clear.
  induction l as [|s l IH]; intros A i; [destruct i; reflexivity|].
  cbn in A. apply andb_true_iff in A. destruct A as [A1 A2].
  destruct i as [|i]; [exact A1|exact (IH A2 i)].
Qed.
Lemma variable_fuel_upper f : forall n s, variable_name_fuel f n = Ret s -> forallb upper (chars s) = true.
Proof.
  induction f as [|f IH]; intros n s; [discriminate|].
  cbn [variable_name_fuel]. destruct (ssrnat.leq _ _).
  - intros H; inversion H; subst. apply variable_chars_upper.
  - destruct (variable_name_fuel f _) as [t| |] eqn:E; cbn [rbind]; try discriminate.
    intros H; inversion H; subst. rewrite chars_app, forallb_app, (IH _ _ E). apply variable_chars_upper.
Qed.
Lemma variable_upper n : forallb upper (chars (variable_name n)) = true.
Proof.
  unfold variable_name. destruct (get_variable_name n) as [s| |] eqn:E; try reflexivity.
  exact (variable_fuel_upper _ _ _ E).
Qed.
Lemma variable_inj n n' : variable_name n = variable_name n' -> n = n'.
Proof.
  unfold variable_name. destruct variable_names as [T I].
  destruct (T n) as [s E], (T n') as [s' E']. rewrite E, E'. intros ->. exact (I _ _ _ E E').
Qed.

(** * Nested polynomials *)
Section Nested.
Variables (B : Type) (show : B -> string) (zero : B).
Hypothesis show_inj : forall b b', show b = show b' -> b = b'.
Hypothesis show_item : forall b, item (chars (show b)).
Hypothesis show_head : forall b, exists c s, chars (show b) = c :: s /\ Ascii.eqb c lp = false.
Hypothesis show_zero : forall b, show b = "0"%string -> b = zero.

Notation nzero := (nested_zero zero).
Notation normal := (no_leading_zero zero).

Definition suffix (n k : nat) : list ascii :=
  "*"%char :: chars (variable_name n) ++
  match k with S O => [] | _ => "^"%char :: chars (show_usize k) end.
Definition tm (n k : nat) (c : nested B n) : list ascii :=
  match n as n return nested B n -> list ascii with
  | O => fun c => chars (show c) ++ suffix O k
  | S n' => fun c => lp :: chars (show_nested show (S n') c) ++ rp :: suffix (S n') k
  end c.
Fixpoint tms (n k : nat) (l : list (nested B n)) : list (list ascii) :=
  match l with [] => [] | c :: l' => tm n k c :: tms n (S k) l' end.
Fixpoint items (n : nat) : nested B n -> list (list ascii) :=
  match n with
  | O => fun b => [chars (show b)]
  | S n' => fun l => match l with [] => [["0"%char]] | c :: l' => items n' c ++ tms n' 1 l' end
  end.

Lemma items_nonempty n p : items n p <> [].
Proof.
  revert p. induction n as [|n IH]; intros p; [discriminate|]. cbn [items].
  destruct p as [|c l]; [discriminate|]. intros E. apply app_eq_nil in E. exact (IH c (proj1 E)).
Qed.
Lemma show_term_chars n k c : chars (show_term (nested B n) (show_nested show n) n (S k) c) = sep ++ tm n (S k) c.
Proof.
  destruct n as [|n]; unfold show_term, left_paren, right_paren, tm, suffix; cbn [Nat.eqb].
  - destruct k; rewrite !chars_app; cbn [chars app]; rewrite ?app_nil_r, ?app_assoc; reflexivity.
  - destruct k; rewrite !chars_app; cbn [chars app]; rewrite ?app_nil_r, ?app_assoc; reflexivity.
Qed.
Lemma show_terms_chars n l : forall k, l <> [] ->
  chars (show_terms (nested B n) (show_nested show n) n (S k) l) = sep ++ join (tms n (S k) l).
Proof.
  induction l as [|c l IH]; intros k Hl; [contradiction|]. cbn [show_terms tms].
  rewrite chars_app, show_term_chars. destruct l as [|c' l].
  - cbn. rewrite app_nil_r. reflexivity.
  - rewrite IH by discriminate. cbn [tms]. rewrite join_cons, <- app_assoc. reflexivity.
Qed.
Lemma text_items n p : chars (show_nested show n p) = join (items n p).
Proof.
  revert p. induction n as [|n IH]; intros p; [reflexivity|]. cbn [show_nested items].
  destruct p as [|c l]; [reflexivity|]. unfold show_poly. cbn [show_terms show_term].
  rewrite chars_app, IH. destruct l as [|c' l].
  - cbn. rewrite !app_nil_r. reflexivity.
  - rewrite show_terms_chars by discriminate. rewrite join_app; [reflexivity|apply items_nonempty|discriminate].
Qed.

Lemma suffix_item n k : item (suffix n k).
Proof.
  apply plain_item. unfold suffix. cbn [forallb]. rewrite forallb_app.
  rewrite (forallb_impl upper plain _ (fun c H => proj1 (upper_plain c H)) (variable_upper n)).
  assert (D : forallb plain (chars (show_usize k)) = true).
  { apply (forallb_impl digit); [|apply uint_digits]. intros c H. apply int_char_plain. unfold int_char.
    rewrite H. reflexivity. }
  destruct k as [|[|k]]; cbn [forallb]; rewrite ?D; reflexivity.
Qed.
Lemma balanced_join l : Forall item l -> balanced (join l).
Proof.
  induction l as [|a l IH]; intros H; [reflexivity|]. inversion H as [|? ? Ha Hl]; subst.
  destruct l as [|b l]; [exact (proj1 Ha)|]. cbn [join].
  apply balanced_app; [exact (proj1 Ha)|]. apply balanced_app; [reflexivity|exact (IH Hl)].
Qed.
Lemma items_ok n p : Forall item (items n p).
Proof.
  revert p. induction n as [|n IH]; intros p; [constructor; [apply show_item|constructor]|].
  cbn [items]. destruct p as [|c l]; [constructor; [apply plain_item; reflexivity|constructor]|].
  apply Forall_app. split; [apply IH|]. generalize 1 as k. clear c.
  induction l as [|c l IHl]; intros k; [constructor|]. cbn [tms]. constructor; [|apply IHl].
  destruct n as [|n]; cbn [tm].
  - apply item_app; [apply show_item|apply suffix_item].
  - pose proof (item_paren (chars (show_nested show (S n) c))) as P.
    rewrite text_items in P at 1. specialize (P (balanced_join _ (IH c))).
    pose proof (item_app _ _ P (suffix_item (S n) k)) as Q. cbn [app] in Q.
    rewrite <- app_assoc in Q. exact Q.
Qed.

Lemma tm_var n k c : term_var (tm (S n) k c) = Some (chars (variable_name (S n))).
Proof.
  cbn [tm term_var]. change (Ascii.eqb lp lp) with true. cbn iota.
  rewrite (close_app _ 0 0).
  2:{ rewrite text_items. apply balanced_join, items_ok. }
  cbn [close]. change (Ascii.eqb rp rp && (0 =? 0)) with true. cbn iota. unfold suffix.
  rewrite until_hat_app; [reflexivity| |].
  - exact (forallb_impl upper not_hat _ (fun c H => proj2 (upper_plain c H)) (variable_upper (S n))).
  - destruct k as [|[|k]]; [right; eexists; reflexivity|left; reflexivity|right; eexists; reflexivity].
Qed.
Lemma base_var b s : term_var (chars (show b) ++ s) = None.
Proof. destruct (show_head b) as (c & t & E & H). rewrite E. cbn. rewrite H. reflexivity. Qed.
Lemma items_var n : forall p m, n <= m -> forall i, In i (items n p) -> term_var i <> Some (chars (variable_name m)).
Proof.
  induction n as [|n IH]; intros p m Hm i Hi.
  - cbn [items] in Hi. destruct Hi as [<-|[]]. rewrite <- (app_nil_r (chars _)), base_var. discriminate.
  - cbn [items] in Hi. destruct p as [|c l]; [destruct Hi as [<-|[]]; discriminate|].
    apply in_app_or in Hi. destruct Hi as [Hi|Hi]; [apply (IH c m); [lia|exact Hi]|].
    revert Hi. generalize 1 as k. clear c. induction l as [|c l IHl]; intros k Hi; [contradiction|].
    cbn [tms] in Hi. destruct Hi as [<-|Hi]; [|exact (IHl _ Hi)].
    destruct n as [|n].
    + cbn [tm]. rewrite base_var. discriminate.
    + rewrite tm_var. intros E. inversion E as [E']. apply chars_inj, variable_inj in E'. lia.
Qed.

Fixpoint chars_eqb (a b : list ascii) : bool :=
  match a, b with
  | [], [] => true
  | x :: a', y :: b' => Ascii.eqb x y && chars_eqb a' b'
  | _, _ => false
  end.
Lemma chars_eqb_spec a b : chars_eqb a b = true <-> a = b.
Proof.
  revert b. induction a as [|x a IH]; intros [|y b]; cbn; try (split; congruence).
  rewrite andb_true_iff, Ascii.eqb_eq, IH. split; [intros [-> ->]; reflexivity|intros E; inversion E; auto].
Qed.
Definition has_var (v i : list ascii) : bool :=
  match term_var i with Some w => chars_eqb w v | None => false end.
Lemma split_items n c l : 
  filter (has_var (chars (variable_name (S n)))) (items (S n) c ++ tms (S n) 1 l) = tms (S n) 1 l /\
  filter (fun i => negb (has_var (chars (variable_name (S n))) i)) (items (S n) c ++ tms (S n) 1 l) = items (S n) c.
Proof.
  rewrite !filter_app.
  assert (A : forall i, In i (items (S n) c) -> has_var (chars (variable_name (S n))) i = false).
  { intros i Hi. pose proof (items_var (S n) c (S n) (le_n _) i Hi) as H. unfold has_var.
    destruct (term_var i) as [w|]; [|reflexivity]. destruct (chars_eqb w _) eqn:E; [|reflexivity].
    apply chars_eqb_spec in E. subst. contradiction. }
  assert (T : forall k i, In i (tms (S n) k l) -> has_var (chars (variable_name (S n))) i = true).
  { clear A c. induction l as [|c l IH]; intros k i Hi; [contradiction|]. cbn [tms] in Hi.
    destruct Hi as [<-|Hi]; [|exact (IH _ _ Hi)]. unfold has_var. rewrite tm_var. apply chars_eqb_spec. reflexivity. }
  assert (F : forall (f : list ascii -> bool) L, (forall i, In i L -> f i = true) -> filter f L = L).
  { clear. induction L as [|a L IH]; intros H; [reflexivity|]. cbn. rewrite (H a (or_introl eq_refl)).
    f_equal. apply IH. intros i Hi. apply H. right; exact Hi. }
  assert (G : forall (f : list ascii -> bool) L, (forall i, In i L -> f i = false) -> filter f L = []).
  { clear. induction L as [|a L IH]; intros H; [reflexivity|]. cbn. rewrite (H a (or_introl eq_refl)).
    apply IH. intros i Hi. apply H. right; exact Hi. }
  split.
  - rewrite (G _ _ A), (F _ _ (T 1)). reflexivity.
  - rewrite F, G, app_nil_r; [reflexivity| |].
    + intros i Hi. rewrite (T 1 i Hi). reflexivity.
    + intros i Hi. rewrite (A i Hi). reflexivity.
Qed.

Lemma tm_inj n k c c' : tm n k c = tm n k c' -> show_nested show n c = show_nested show n c'.
Proof.
  intros E. apply chars_inj. destruct n as [|n]; cbn [tm] in E.
  - exact (app_inv_tail _ _ _ E).
  - inversion E as [E']. exact (app_inv_tail _ _ _ E').
Qed.

Theorem show_nested_inj n : forall p q, normal n p -> normal n q ->
  show_nested show n p = show_nested show n q -> p = q.
Proof.
  induction n as [|n IH]; intros p q Np Nq E; [exact (show_inj p q E)|].
  assert (I : items (S n) p = items (S n) q).
  { apply join_inj; try apply items_ok; try apply items_nonempty.
    rewrite <- !text_items, E. reflexivity. }
  clear E.
  assert (Z : forall c l, normal (S n) (c :: l) -> items (S n) (c :: l) <> items (S n) []).
  { clear p q Np Nq I. intros c l [N1 N2] E. cbn [items] in E.
    destruct l as [|c' l].
    - rewrite app_nil_r in E. apply (N2 ltac:(discriminate)). cbn [last].
      assert (T : show_nested show n c = "0"%string) by (apply chars_inj; rewrite text_items, E; reflexivity).
      destruct n as [|n]; [exact (show_zero c T)|].
      apply IH; [apply N1; left; reflexivity| |exact T]. split; [intros x []|]. intros H; contradiction.
    - apply (f_equal (@List.length _)) in E. rewrite List.app_length in E. cbn in E.
      pose proof (items_nonempty n c). destruct (items n c); [contradiction|]. cbn in E. lia. }
  destruct p as [|c l], q as [|c' l']; [reflexivity| | |].
  - symmetry in I. exfalso. exact (Z c' l' Nq I).
  - exfalso. exact (Z c l Np I).
  - destruct Np as [Np _], Nq as [Nq _].
    pose proof (Np c (or_introl eq_refl)) as Nc. pose proof (Nq c' (or_introl eq_refl)) as Nc'.
    assert (Nl : forall x, In x l -> normal n x) by (intros x Hx; apply Np; right; exact Hx).
    assert (Nl' : forall x, In x l' -> normal n x) by (intros x Hx; apply Nq; right; exact Hx).
    cbn [items] in I.
    assert (J : items n c = items n c' /\ tms n 1 l = tms n 1 l').
    { destruct n as [|n].
      - cbn [items app] in I. injection I as I1 I2. split; [cbn [items]; rewrite I1; reflexivity|exact I2].
      - destruct (split_items n c l) as [F1 F2], (split_items n c' l') as [F3 F4].
        rewrite I in F1, F2. split; congruence. }
    destruct J as [J1 J2]. f_equal.
    + apply IH; try assumption. apply chars_inj. rewrite !text_items, J1. reflexivity.
    + clear - IH Nl Nl' J2. revert l' Nl' J2. generalize 1 as k.
      induction l as [|c l IHl]; intros k [|c' l'] Nl' J; try discriminate; [reflexivity|].
      cbn [tms] in J. injection J as J1 J2.
      f_equal.
      * apply IH; [apply Nl; left; reflexivity|apply Nl'; left; reflexivity|]. exact (tm_inj n k c c' J1).
      * apply (IHl (fun x Hx => Nl x (or_intror Hx)) (S k) l'); [|exact J2]. intros x Hx. apply Nl'. right; exact Hx.
Qed.

(** Factors: "(polynomial)^power". *)
Lemma nested_balanced n p : balanced (chars (show_nested show n p)).
Proof. rewrite text_items. apply balanced_join, items_ok. Qed.
Lemma show_factor_inj n : forall p q k k', normal (S n) p -> normal (S n) q ->
  show_factor (nested B n) (show_nested show n) n p k = show_factor (nested B n) (show_nested show n) n q k' ->
  p = q /\ k = k'.
Proof.
  intros p q k k' Np Nq E. apply (f_equal chars) in E. unfold show_factor in E.
  rewrite !chars_app in E. cbn [chars app] in E. injection E as E.
  assert (C : forall r k, close 0 (chars (show_nested show (S n) r) ++ rp :: "^"%char :: chars (show_usize k)) =
                          Some ("^"%char :: chars (show_usize k))).
  { intros r j. rewrite (close_app _ 0 0); [reflexivity|apply nested_balanced]. }
  pose proof (f_equal (close 0) E) as E2. change (show_poly (nested B n) (show_nested show n) n p) with (show_nested show (S n) p) in *.
  change (show_poly (nested B n) (show_nested show n) n q) with (show_nested show (S n) q) in *.
  rewrite !C in E2. injection E2 as E2. apply chars_inj, show_usize_inj in E2. subst k'.
  split; [|reflexivity]. apply app_inv_tail in E. apply chars_inj in E.
  exact (show_nested_inj (S n) p q Np Nq E).
Qed.
End Nested.


(** * Instances *)
Lemma int_item z : item (chars (show_int z)).
Proof. apply plain_item. exact (forallb_impl _ _ _ int_char_plain (int_chars z)). Qed.
Lemma int_head z : exists c s, chars (show_int z) = c :: s /\ Ascii.eqb c lp = false.
Proof.
  pose proof (show_int_nonempty z) as N. pose proof (int_chars z) as I.
  destruct (chars (show_int z)) as [|c s]; [contradiction|]. exists c, s. split; [reflexivity|].
  cbn in I. apply andb_true_iff in I. apply proj1, int_char_plain in I. unfold plain in I.
  destruct (Ascii.eqb c lp); [discriminate|reflexivity].
Qed.

Fixpoint cut (d : ascii) (s : list ascii) : list ascii * option (list ascii) :=
  match s with
  | [] => ([], None)
  | c :: s' => if Ascii.eqb c d then ([], Some s') else let r := cut d s' in (c :: fst r, snd r)
  end.
Lemma cut_app d a r : ~ In d a -> cut d (a ++ d :: r) = (a, Some r).
Proof.
  induction a as [|c a IH]; intros H; cbn.
  - rewrite Ascii.eqb_refl. reflexivity.
  - destruct (Ascii.eqb_spec c d) as [->|N]; [exfalso; apply H; left; reflexivity|].
    rewrite IH; [reflexivity|]. intros I. apply H. right; exact I.
Qed.
Lemma cut_none d a : ~ In d a -> cut d a = (a, None).
Proof.
  induction a as [|c a IH]; intros H; cbn; [reflexivity|].
  destruct (Ascii.eqb_spec c d) as [->|N]; [exfalso; apply H; left; reflexivity|].
  rewrite IH; [reflexivity|]. intros I. apply H. right; exact I.
Qed.
Lemma int_no d z : int_char d = false -> ~ In d (chars (show_int z)).
Proof.
  intros H I. pose proof (int_chars z) as F. rewrite forallb_forall in F. rewrite (F d I) in H. discriminate.
Qed.

Lemma ratio_chars q : chars (show_ratio q) =
  chars (show_int (Qnum q)) ++
  (if (Zpos (Qden q) =? 1)%Z then [] else "/"%char :: chars (show_int (Zpos (Qden q)))).
Proof.
  unfold show_ratio. destruct (Z.eqb (Zpos (Qden q)) 1); [rewrite app_nil_r; reflexivity|].
  rewrite !chars_app. reflexivity.
Qed.
Lemma ratio_inj q q' : show_ratio q = show_ratio q' -> q = q'.
Proof.
  intros E. apply (f_equal chars), (f_equal (cut "/")) in E. rewrite !ratio_chars in E.
  assert (N : forall z, ~ In "/"%char (chars (show_int z))) by (intros z; apply int_no; reflexivity).
  assert (C : forall n d, cut "/" (chars (show_int n) ++
      (if (Zpos d =? 1)%Z then [] else "/"%char :: chars (show_int (Zpos d)))) =
      (chars (show_int n), if (Zpos d =? 1)%Z then None else Some (chars (show_int (Zpos d))))).
  { intros n d. destruct (Z.eqb (Zpos d) 1%Z); [|apply cut_app, N].
    idtac. rewrite app_nil_r. apply cut_none, N. }
  destruct q as [n d], q' as [n' d']. cbn [Qnum Qden] in E. rewrite !C in E.
  destruct (Z.eqb_spec (Zpos d) 1) as [D|D], (Z.eqb_spec (Zpos d') 1) as [D'|D']; try discriminate.
  - injection E as E. apply chars_inj, show_int_inj in E. congruence.
  - injection E as E1 E2. apply chars_inj, show_int_inj in E1. apply chars_inj, show_int_inj in E2. congruence.
Qed.
Lemma ratio_item q : item (chars (show_ratio q)).
Proof.
  rewrite ratio_chars. apply item_app; [apply int_item|]. destruct (Z.eqb _ _).
  - apply plain_item; reflexivity.
  - apply (item_app ["/"%char]); [apply plain_item; reflexivity|apply int_item].
Qed.
Lemma ratio_head q : exists c s, chars (show_ratio q) = c :: s /\ Ascii.eqb c lp = false.
Proof.
  rewrite ratio_chars. destruct (int_head (Qnum q)) as (c & s & E & H). rewrite E. cbn. eauto.
Qed.

Lemma mod_int_chars vm : chars (show_mod_int vm) =
  chars "mod_int" ++ lp :: (chars (show_int (fst vm)) ++ ","%char :: sp :: chars (show_int (snd vm))) ++ [rp].
Proof. unfold show_mod_int. rewrite !chars_app. rewrite <- app_assoc. reflexivity. Qed.
Lemma mod_int_inj a b : show_mod_int a = show_mod_int b -> a = b.
Proof.
  intros E. apply (f_equal chars) in E. rewrite !mod_int_chars in E. apply app_inv_head in E.
  injection E as E. apply app_inv_tail in E. apply (f_equal (cut ",")) in E.
  rewrite !cut_app in E by (apply int_no; reflexivity). injection E as E1 E2.
  apply chars_inj, show_int_inj in E1. apply chars_inj, show_int_inj in E2.
  destruct a, b. cbn in *. congruence.
Qed.
Lemma mod_int_item a : item (chars (show_mod_int a)).
Proof.
  rewrite mod_int_chars. apply item_app; [apply plain_item; reflexivity|]. apply item_paren.
  apply balanced_app; [apply int_item|]. apply (balanced_app [","%char; sp]); [reflexivity|apply int_item].
Qed.
Lemma mod_int_head a : exists c s, chars (show_mod_int a) = c :: s /\ Ascii.eqb c lp = false.
Proof. rewrite mod_int_chars. cbn. eauto. Qed.

(** * The statements *)
Lemma show_int_nested_inj n p q : no_leading_zero 0%Z n p -> no_leading_zero 0%Z n q ->
  show_nested show_int n p = show_nested show_int n q -> p = q.
Proof.
  apply show_nested_inj; [exact show_int_inj|exact int_item|exact int_head|intros b; apply show_int_0].
Qed.
Lemma show_ratio_nested_inj n p q : no_leading_zero (0 # 1)%Q n p -> no_leading_zero (0 # 1)%Q n q ->
  show_nested show_ratio n p = show_nested show_ratio n q -> p = q.
Proof.
  apply show_nested_inj; [exact ratio_inj|exact ratio_item|exact ratio_head|].
  intros b H. apply ratio_inj. exact H.
Qed.
Lemma show_mod_nested_inj m n p q : no_leading_zero 0%Z n p -> no_leading_zero 0%Z n q ->
  show_nested (fun v => show_mod_int (v, m)) n p = show_nested (fun v => show_mod_int (v, m)) n q -> p = q.
Proof.
  apply show_nested_inj; [| | |].
  - intros b b' H. apply mod_int_inj in H. congruence.
  - intros b. apply mod_int_item.
  - intros b. apply mod_int_head.
  - intros b H. discriminate.
Qed.
Lemma show_int_factor_inj n p q k k' : no_leading_zero 0%Z (S n) p -> no_leading_zero 0%Z (S n) q ->
  show_factor (nested Z n) (show_nested show_int n) n p k = show_factor (nested Z n) (show_nested show_int n) n q k' ->
  p = q /\ k = k'.
Proof.
  apply (show_factor_inj Z show_int 0%Z show_int_inj int_item int_head (fun b => proj1 (show_int_0 b)) n).
Qed.
