(** Gram determinants of integer vectors: integers, equal to the product of the
    squared lengths of the orthogonalised vectors, unchanged by exchanging
    vectors. *)
From Coq Require Import ZArith QArith Lia.
Set Warnings "-notation-overridden,-ambiguous-paths".
From mathcomp Require Import all_ssreflect all_fingroup all_algebra.
From mathcomp.zify Require Import ssrZ.
From Verif Require Import M_Base P_PolyInst S_Lattice P_Lattice P_LLL.
Set Implicit Arguments.
Unset Strict Implicit.
Unset Printing Implicit Defensive.
Import GRing.Theory.
Local Open Scope ring_scope.
Delimit Scope Z_scope with ZZ.
Delimit Scope Q_scope with QQ.

Section Gram.
Variables (k m : nat).
Implicit Types B : nat -> nat -> Z.

Definition bmx B : 'M[int]_(k, m) := \matrix_(i, y) zi (B i y).
Definition gdet B : Z := Z_of_int (\det (bmx B *m (bmx B)^T)).

Lemma gdet_agree B B' : agree m k B B' -> gdet B = gdet B'.
Proof.
move=> H; rewrite /gdet; have -> // : bmx B = bmx B'.
by apply/matrixP => i y; rewrite !mxE H //; apply/ltP.
Qed.

Lemma gdet_swap B a b : (a < k)%N -> (b < k)%N -> gdet (swapcol B a b) = gdet B.
Proof.
move=> ha hb; rewrite /gdet.
have -> : bmx (swapcol B a b) = perm_mx (tperm (Ordinal ha) (Ordinal hb)) *m bmx B.
  rewrite -row_permE; apply/matrixP => i y; rewrite !mxE /swapcol.
  case: tpermP => [->|->|/eqP n1 /eqP n2] /=.
  - by rewrite Nat.eqb_refl.
  - by case: (Nat.eqb_spec b a) => [->|_] //; rewrite Nat.eqb_refl.
  - move: n1 n2; rewrite -!val_eqE /= => n1 n2.
    case: (Nat.eqb_spec i a) => [E|_]; first by rewrite E eqxx in n1.
    by case: (Nat.eqb_spec i b) => [E|_] //; rewrite E eqxx in n2.
rewrite trmx_mul mulmxA -(mulmxA _ (bmx B)) !det_mulmx det_tr mulrAC.
by rewrite -det_mulmx -perm_mxM tperm2 perm_mx1 det1 mul1r.
Qed.

Lemma q2r_dot (u v : nat -> Q) : q2r (dot m u v) = \sum_(y < m) q2r (u y) * q2r (v y).
Proof.
rewrite /dot; elim: m => [|j IH].
  by rewrite big_ord0; apply/eqP; rewrite q2r_0.
rewrite big_ord_recr /= -IH -q2r_mul -q2r_add; apply/q2r_eq; exact: qsum_S.
Qed.
Lemma q2r_sum n (f : nat -> Q) : q2r (qsum n f) = \sum_(j < n) q2r (f j).
Proof.
elim: n => [|j IH].
  by rewrite big_ord0; apply/eqP; rewrite q2r_0.
rewrite big_ord_recr /= -IH -q2r_add; apply/q2r_eq; exact: qsum_S.
Qed.
End Gram.

Lemma mus n m B O : is_gs n m B O -> exists mu : nat -> nat -> Q, forall i, (i < n)%N -> forall y, (y < m)%N ->
     Qeq (qvec B i y) (Qplus (O i y) (qsum i (fun j => Qmult (mu i j) (O j y)))).
Proof.
move=> [_ H].
have [mu E] : exists mu : nat -> nat -> Q, forall i, (i < n)%coq_nat -> forall y, (y < m)%coq_nat ->
     Qeq (qvec B i y) (Qplus (O i y) (qsum i (fun j => Qmult (mu i j) (O j y)))).
  elim: n H => [|n IH] H; first by exists (fun _ _ => 0%QQ) => i; lia.
  have [|mu E] := IH; first by move=> i hi; apply: H; lia.
  have [nu F] := H n (Nat.lt_succ_diag_r n).
  exists (fun i => if Nat.eqb i n then nu else mu i) => i hi.
  case: (Nat.eqb_spec i n) => [->|hn]; first exact: F.
  by apply: E; lia.
by exists mu => i /ltP hi y /ltP hy; exact: E.
Qed.

Lemma gdet_gs k m B O : is_gs k m B O ->
  zr (gdet k m B) = \prod_(l < k) q2r (dot m (O l) (O l)).
Proof.
move=> H; have [mu E] := mus H; have [H1 _] := H.
pose M : 'M[rat]_k := \matrix_(i, j) if (j < i)%N then q2r (mu i j) else (i == j)%:R.
pose Om : 'M[rat]_(k, m) := \matrix_(i, y) q2r (O i y).
have EB : map_mx intr (bmx k m B) = M *m Om.
  apply/matrixP => i y; rewrite !mxE.
  transitivity (q2r (qvec B i y)).
    by rewrite /q2r /= /zr divr1.
  rewrite (proj1 (q2r_eq _ _) (E i (ltn_ord i) y (ltn_ord y))) q2r_add q2r_sum.
  rewrite (bigID (fun j : 'I_k => (j < i)%N)) /= addrC; congr (_ + _).
    rewrite (big_ord_widen_cond _ xpredT (fun j => q2r (Qmult (mu i j) (O j y))) (ltnW (ltn_ord i))) /=.
    by apply: eq_bigr => j hj; rewrite !mxE hj q2r_mul.
  rewrite (bigD1 i) ?ltnn //= !mxE ltnn eqxx mul1r big1 ?addr0 // => j /andP [/negbTE h1 h2].
  by rewrite !mxE h1 eq_sym (negbTE h2) mul0r.
have dM : \det M = 1.
  rewrite det_trig; last first.
    apply/is_trig_mxP => i j hij; rewrite mxE ltnNge (ltnW hij) /= -val_eqE /=.
    by rewrite (ltn_eqF hij).
  by rewrite big1 // => i _; rewrite mxE ltnn eqxx.
have dO : Om *m Om^T = diag_mx (\row_l q2r (dot m (O l) (O l))).
  apply/matrixP => i j; rewrite !mxE.
  have -> : \sum_j0 Om i j0 * Om^T j0 j = q2r (dot m (O i) (O j)).
    by rewrite q2r_dot; apply: eq_bigr => y _; rewrite !mxE.
  case: eqP => [->|/eqP nij]; first by rewrite mulr1n.
  rewrite mulr0n; apply/eqP.
  have -> : q2r (dot m (O i) (O j)) = q2r 0%QQ.
    apply/q2r_eq; move: nij; rewrite -val_eqE /= neq_ltn => /orP [h|h].
      by apply: (Qeq_trans _ _ _ (dot_comm _ _ _)); apply: H1; split; apply/ltP.
    by apply: H1; split; apply/ltP.
  by rewrite q2r_0.
rewrite /zr /gdet Z_of_intK -[RHS](_ : \det (map_mx intr (bmx k m B *m (bmx k m B)^T)) = _).
  by rewrite det_map_mx.
rewrite map_mxM -map_trmx EB trmx_mul mulmxA -(mulmxA M) !det_mulmx det_tr dM mul1r mulr1 dO det_diag.
by apply: eq_bigr => l _; rewrite mxE.
Qed.

(** the same over the standard library's rationals *)
Definition qprod (n : nat) (f : nat -> Q) : Q := List.fold_right Qmult 1%QQ (List.map f (List.seq 0 n)).

Lemma qprod_S n f : Qeq (qprod n.+1 f) (Qmult (qprod n f) (f n)).
Proof.
rewrite /qprod List.seq_S List.map_app List.fold_right_app.
rewrite [List.map f [:: _]]/= [List.fold_right _ _ [:: _]]/=.
elim: (List.map f (List.seq 0 n)) => [|a l IH] /=; first by rewrite Qmult_1_r Qmult_1_l.
by rewrite IH; ring.
Qed.

Lemma q2r_prod n f : q2r (qprod n f) = \prod_(l < n) q2r (f l).
Proof.
elim: n => [|n IH]; first by rewrite big_ord0.
by rewrite big_ord_recr /= -IH -q2r_mul; apply/q2r_eq; exact: qprod_S.
Qed.

Lemma gdet_prod k m B O : is_gs k m B O ->
  Qeq (inject_Z (gdet k m B)) (qprod k (fun l => dot m (O l) (O l))).
Proof.
move=> H; apply/q2r_eq; rewrite q2r_prod -(gdet_gs H).
by rewrite /q2r /= {2}/zr divr1.
Qed.

Lemma gdet_swap_lt k m B a b : (a < k)%coq_nat -> (b < k)%coq_nat -> gdet k m (swapcol B a b) = gdet k m B.
Proof. by move=> /ltP ha /ltP hb; exact: gdet_swap. Qed.
