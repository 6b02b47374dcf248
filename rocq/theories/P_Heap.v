(** The array operations of the binary heap permute the elements. *)
From Coq Require Import Permutation FinFun Lia.
Set Warnings "-notation-overridden,-ambiguous-paths".
From mathcomp Require Import all_ssreflect.
From Verif Require Import M_Factor.
Set Implicit Arguments.
Unset Strict Implicit.
Unset Printing Implicit Defensive.

Section Heap.
Variables (T : Type) (le : T -> T -> bool).
Implicit Types h : seq T.

Lemma nthE (x : T) h i : List.nth i h x = nth x h i.
Proof. by elim: h i => [|y h IH] [|i] //=. Qed.
Lemma drop_nthE h i a r : drop i h = a :: r -> i < size h /\ forall d, nth d h i = a.
Proof.
move=> E; have H : i < size h.
  by rewrite ltnNge; apply/negP => /drop_oversize; rewrite E.
by split=> // d; rewrite -[i]addn0 -nth_drop E.
Qed.
Lemma swap_perm h i j : Permutation (swap_nth h i j) h.
Proof.
rewrite /swap_nth; case Ei : (drop i h) => [|a ri] //; case Ej : (drop j h) => [|b rj] //.
have [Hi Ni] := drop_nthE Ei; have [Hj Nj] := drop_nthE Ej.
set h' := seq.set_nth _ _ _ _; have S1 : size h' = size h.
  by rewrite !size_set_nth (maxn_idPr _) (maxn_idPr Hi).
apply/Permutation_sym/(Permutation_nth _ _ a); split; first exact: S1.
pose f x := if x == j then i else if x == i then j else x.
exists f; split; last split.
- move=> x /ssrnat.ltP h0; apply/ssrnat.ltP; rewrite /f; case: eqP => // _; case: eqP => // _; exact: h0.
- move=> x y _ _; rewrite /f; do ![case: eqP => //]; by [move=> -> -> |move=> ? ? ?; subst|move=> *; subst; congruence].
move=> x _; rewrite !nthE /h' nth_set_nth /= nth_set_nth /= /f.
by case: eqP => [_|_]; [rewrite Ni|case: eqP => //; rewrite Nj].
Qed.
Lemma size_swap h i j : size (swap_nth h i j) = size h.
Proof. exact: Permutation_length (swap_perm h i j). Qed.
Lemma sift_up_perm fuel : forall h s i, Permutation (sift_up le fuel h s i) h.
Proof.
elim: fuel => //= fuel IH h s i; case: ifP => // _; case: ifP => // _.
exact: Permutation_trans (IH _ _ _) (swap_perm _ _ _).
Qed.
Lemma sift_down_perm fuel : forall h i, Permutation (sift_down le fuel h i) h.
Proof.
elim: fuel => [|fuel IH] h i //; cbn [sift_down]; case: ifP => _.
  case: ifP => // _; exact: Permutation_trans (IH _ _) (swap_perm _ _ _).
by case: ifP => // _; exact: swap_perm.
Qed.
Lemma sift_bottom_perm fuel : forall h i, Permutation (sift_to_bottom le fuel h i).1 h.
Proof.
elim: fuel => [|fuel IH] h i //; cbn [sift_to_bottom]; case: ifP => _.
  exact: Permutation_trans (IH _ _) (swap_perm _ _ _).
by case: ifP => // _; exact: swap_perm.
Qed.
Lemma heap_from_perm h : Permutation (heap_from le h) h.
Proof.
rewrite /heap_from; move: (size h %/ 2) => n; elim: n h => //= n IH h.
exact: Permutation_trans (IH _) (sift_down_perm _ _ _).
Qed.
Lemma heap_push_perm h x : Permutation (heap_push le h x) (x :: h).
Proof.
apply: Permutation_trans (sift_up_perm _ _ _ _) _; rewrite -cats1.
exact/Permutation_sym/Permutation_cons_append.
Qed.
Lemma heap_pop_perm h x h' : heap_pop le h = Some (x, h') -> Permutation h (x :: h').
Proof.
case: h => [|a t] //; rewrite /heap_pop; case E : (rev t) => [|y r].
  by move=> [<- <-]; have -> : t = [::] by rewrite -[t]revK E.
have Et : t = rcons (rev r) y by rewrite -[t]revK E rev_cons.
have := sift_bottom_perm (size (a :: t)) (y :: rev r) 0; case: (sift_to_bottom _ _ _ _) => [h2 pos] P2 [<- <-].
apply: perm_skip; apply: Permutation_sym.
apply: Permutation_trans (sift_up_perm (size (a :: t)) h2 0 pos) _; apply: Permutation_trans P2 _.
by rewrite Et -cats1; exact: Permutation_cons_append.
Qed.
Lemma heap_pop_none h : heap_pop le h = None -> h = [::].
Proof.
case: h => // a t; rewrite /heap_pop; case: (rev t) => // y r.
by case: (sift_to_bottom _ _ _ _).
Qed.
End Heap.
