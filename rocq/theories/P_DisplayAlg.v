(** The texts of intervals and algebraic numbers determine them. *)
From Coq Require Import ZArith Reals List String Ascii.
Set Warnings "-notation-overridden,-ambiguous-paths".
From mathcomp Require Import ssreflect ssrfun ssrbool eqtype ssrnat seq.
From Verif Require Import M_Base M_Interval M_Poly P_Poly P_PolyInst M_Alg M_Display M_DisplayAlg S_Poly S_Interval S_Alg S_Display P_Display.
Import ListNotations.

Definition no_comma (c : ascii) : bool := negb (Ascii.eqb c ",").
Lemma no_comma_in l : forallb no_comma l = true -> ~ In ","%char l.
Proof. by move=> H I; move: (proj1 (forallb_forall _ _) H _ I). Qed.
Lemma int_no_comma z : ~ In ","%char (chars (show_int z)).
Proof. exact: int_no. Qed.
Lemma usize_no_comma n : ~ In ","%char (chars (show_usize n)).
Proof.
have D := uint_digits (Nat.to_uint n); rewrite -/(show_usize n) in D.
by move=> I; move: (proj1 (forallb_forall _ _) D _ I).
Qed.
Lemma no_in_app (c : ascii) a b : ~ In c a -> ~ In c b -> ~ In c (a ++ b)%list.
Proof. by move=> A B I; case: (in_app_or _ _ _ I). Qed.
Lemma no_in_cons (c x : ascii) b : Ascii.eqb x c = false -> ~ In c b -> ~ In c (x :: b)%list.
Proof. by move=> A B [E|//]; move: A; rewrite E Ascii.eqb_refl. Qed.
Lemma name_no_comma n : ~ In ","%char (chars (variable_name n)).
Proof.
move=> I; have := proj1 (forallb_forall _ _) (variable_upper n) _ I; by [].
Qed.
Ltac no_comma := repeat (rewrite ?chars_app; first
  [ apply: int_no_comma | apply: usize_no_comma | apply: name_no_comma | apply: no_in_app
  | apply: no_in_cons; [reflexivity|] | (by case) ]).

Lemma term_no_comma k c : ~ In ","%char (chars (show_term Z show_int 0 k c)).
Proof. by case: k => [|[|k]]; rewrite /show_term /left_paren /right_paren; no_comma. Qed.
Lemma terms_no_comma l : forall k, ~ In ","%char (chars (show_terms Z show_int 0 k l)).
Proof.
elim: l => [|c l IH] k; [by case|]; cbn [show_terms]; rewrite chars_app.
apply: no_in_app; [exact: term_no_comma|exact: IH].
Qed.
Lemma int_poly_no_comma p : ~ In ","%char (chars (show_int_poly p)).
Proof.
rewrite /show_int_poly; cbn [show_nested]; rewrite /show_poly.
case: (coefficients p) => [|c l]; [by case => // -[]|exact: terms_no_comma].
Qed.

Lemma debug_interval_chars i : chars (debug_interval i) =
  (chars "DyadicFractionInterval { lower_bound_numer: " ++ chars (show_int (dlo i)) ++
   (","%char :: chars " upper_bound_numer: " ++ chars (show_int (dhi i)) ++
   (","%char :: chars " log2_denom: " ++ chars (show_usize (dlog i)) ++ chars " }")))%list.
Proof.
by rewrite /debug_interval /debug_struct; cbn [debug_fields fst snd]; rewrite !chars_app -!List.app_assoc.
Qed.
Lemma cut_inj a b r s : ~ In ","%char a -> ~ In ","%char b ->
  (a ++ ","%char :: r = b ++ ","%char :: s)%list -> a = b /\ r = s.
Proof.
by move=> Ha Hb /(f_equal (cut ",")); rewrite !cut_app // => -[-> ->].
Qed.
Lemma debug_interval_inj i j : debug_interval i = debug_interval j -> i = j.
Proof.
move=> /(f_equal chars); rewrite !debug_interval_chars => /List.app_inv_head.
move=> /cut_inj [||/chars_inj /show_int_inj E1]; [exact: int_no_comma..|].
move=> /List.app_inv_head /cut_inj [||/chars_inj /show_int_inj E2]; [exact: int_no_comma..|].
move=> /List.app_inv_head /List.app_inv_tail /chars_inj /show_usize_inj E3.
by case: i j E1 E2 E3 => [a b c] [a' b' c'] /= -> -> ->.
Qed.
Definition no_blank (c : ascii) : bool := negb (Ascii.eqb c " ").
Lemma show_interval_chars i : chars (show_interval i) =
  ("["%char :: chars (show_int (dlo i)) ++ " "%char :: (chars "/ 2^" ++ chars (show_usize (dlog i)) ++
   (","%char :: " "%char :: chars (show_int (dhi i)) ++ " "%char :: chars "/ 2^" ++ chars (show_usize (dlog i)) ++ chars "]")))%list.
Proof.
by rewrite /show_interval !chars_app.
Qed.
Lemma int_no_blank z : ~ In " "%char (chars (show_int z)).
Proof. exact: int_no. Qed.
Lemma cut_inj' a b r s : ~ In " "%char a -> ~ In " "%char b ->
  (a ++ " "%char :: r = b ++ " "%char :: s)%list -> a = b /\ r = s.
Proof.
by move=> Ha Hb /(f_equal (cut " ")); rewrite !cut_app // => -[-> ->].
Qed.
Lemma show_interval_inj i j : show_interval i = show_interval j -> i = j.
Proof.
move=> /(f_equal chars); rewrite !show_interval_chars => -[].
move=> /cut_inj' [||/chars_inj /show_int_inj E1]; [exact: int_no_blank..|].
move=> -[] /cut_inj [||/chars_inj /show_usize_inj E2]; [exact: usize_no_comma..|].
move=> -[] /cut_inj' [||/chars_inj /show_int_inj E3 _]; [exact: int_no_blank..|].
by case: i j E1 E2 E3 => [a b c] [a' b' c'] /= -> -> ->.
Qed.

Lemma wf_no_leading p : wf int_sem p -> no_leading_zero 0%Z 1 (coefficients p).
Proof.
case=> L _; split; first by move=> c _.
have -> : coefficients p = els p by rewrite /coefficients -[RHS]map_id; apply: eq_map.
move: L; rewrite /last_ok; case/lastP: (els p) => [//|l x]; rewrite rev_rcons => /= N _.
have -> : List.last (rcons l x) 0%Z = x by elim: l => [//|y l IH]; rewrite rcons_cons; case: l IH => [|z l].
by move=> E; move: N; rewrite E.
Qed.
Lemma show_int_poly_inj p q : wf int_sem p -> wf int_sem q -> show_int_poly p = show_int_poly q -> p = q.
Proof.
move=> Wp Wq E; have := show_int_nested_inj 1 _ _ (wf_no_leading p Wp) (wf_no_leading q Wq) E.
by move=> {}E; rewrite -(from_coefs_coefficients Wp) -(from_coefs_coefficients Wq) E.
Qed.
Lemma debug_number_chars name a : chars (debug_number name a) =
  (chars name ++ chars " { minimal_polynomial: " ++ chars (show_int_poly (mp a)) ++
   (","%char :: chars " interval: " ++ chars (debug_interval (itv a)) ++ chars " }"))%list.
Proof.
by rewrite /debug_number /debug_struct; cbn [debug_fields fst snd]; rewrite !chars_app -!List.app_assoc.
Qed.
Lemma debug_number_inj name a b : wf int_sem (mp a) -> wf int_sem (mp b) ->
  debug_number name a = debug_number name b -> a = b.
Proof.
move=> Wa Wb /(f_equal chars); rewrite !debug_number_chars => /List.app_inv_head /List.app_inv_head.
move=> /cut_inj [||/chars_inj /(show_int_poly_inj _ _ Wa Wb) E1]; [exact: int_poly_no_comma..|].
move=> /List.app_inv_head /List.app_inv_tail /chars_inj /debug_interval_inj E2.
by case: a b E1 E2 {Wa Wb} => [p i] [q j] /= -> ->.
Qed.
Lemma py_repr_inj a b : wf int_sem (mp a) -> wf int_sem (mp b) -> py_repr a = py_repr b -> a = b.
Proof.
move=> Wa Wb; rewrite /py_repr.
have := debug_number_inj "RealAlgebraicNumber" a b Wa Wb.
generalize (debug_number "RealAlgebraicNumber" a) (debug_number "RealAlgebraicNumber" b) => s t H E.
apply: H; apply: chars_inj; apply: (List.app_inv_tail (chars ">")).
by have := f_equal (@List.tl ascii) (f_equal chars E); rewrite !chars_app.
Qed.
Lemma py_repr_value a b x y : denotes a x -> denotes b y -> py_repr a = py_repr b -> x = y.
Proof.
case=> Wa _ [Ia Ra] Ua _ [Wb _ [Ib Rb] _ _] /(py_repr_inj _ _ Wa Wb) E; subst b.
by rewrite (Ua y Ib Rb).
Qed.
Lemma debug_number_value name a b x y : denotes a x -> denotes b y -> debug_number name a = debug_number name b -> x = y.
Proof.
case=> Wa _ [Ia Ra] Ua _ [Wb _ [Ib Rb] _ _] /(debug_number_inj _ _ _ Wa Wb) E; subst b.
by rewrite (Ua y Ib Rb).
Qed.
