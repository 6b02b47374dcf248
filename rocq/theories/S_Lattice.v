(** Lattices, Gram-Schmidt orthogonalisation and reduced bases, for families of
    integer vectors: [B x y] is the [y]-th coordinate of the [x]-th vector. *)
From Coq Require Import ZArith QArith Qabs List.
Import ListNotations.

Definition zsum (n : nat) (f : nat -> Z) : Z := fold_right Z.add 0%Z (map f (seq 0 n)).
Definition qsum (n : nat) (f : nat -> Q) : Q := fold_right Qplus 0 (map f (seq 0 n)).

(** The inner product of two vectors of length [m]. *)
Definition dot (m : nat) (u v : nat -> Q) : Q := qsum m (fun y => u y * v y).

(** The vector [v] is an integer combination of the first [n] vectors. *)
Definition in_lattice (n m : nat) (B : nat -> nat -> Z) (v : nat -> Z) : Prop :=
  exists c : nat -> Z, forall y, (y < m)%nat -> v y = zsum n (fun x => c x * B x y)%Z.

Definition qvec (B : nat -> nat -> Z) (i : nat) : nat -> Q := fun y => inject_Z (B i y).

(** Linear independence of the first [n] vectors. *)
Definition independent (n m : nat) (B : nat -> nat -> Z) : Prop :=
  forall c : nat -> Q,
    (forall y, (y < m)%nat -> qsum n (fun x => c x * qvec B x y) == 0) ->
    forall x, (x < n)%nat -> c x == 0.

(** [O] is the Gram-Schmidt orthogonalisation of [B]: orthogonal vectors, each
    differing from the given one by a combination of the earlier ones. *)
Definition is_gs (n m : nat) (B : nat -> nat -> Z) (O : nat -> nat -> Q) : Prop :=
  (forall i j, (j < i < n)%nat -> dot m (O i) (O j) == 0) /\
  (forall i, (i < n)%nat -> exists mu : nat -> Q, forall y, (y < m)%nat ->
     qvec B i y == O i y + qsum i (fun j => mu j * O j y)).

(** The Gram-Schmidt coefficients. *)
Definition gs_mu (m : nat) (B : nat -> nat -> Z) (O : nat -> nat -> Q) (i j : nat) : Q :=
  dot m (O j) (qvec B i) / dot m (O j) (O j).

(** Lenstra, Lenstra and Lovasz's notion of a reduced basis with parameter
    [delta]. *)
Definition lll_reduced (delta : Q) (n m : nat) (B : nat -> nat -> Z) : Prop :=
  exists O, is_gs n m B O /\
    (forall i j, (j < i < n)%nat -> Qabs (gs_mu m B O i j) <= 1 # 2) /\
    (forall i, (0 < i < n)%nat ->
       (delta - gs_mu m B O i (i - 1) * gs_mu m B O i (i - 1)) * dot m (O (i - 1)%nat) (O (i - 1)%nat)
       <= dot m (O i) (O i)).
