(** Property C68: sums and differences of two square roots. *)
From Coq Require Import ZArith Reals Lia.
From Verif Require Import M_Base M_Quad S_Quad P_QuadSqrts.
Local Open Scope R_scope.

(** C68: polynomials given for the sum and the difference of two square roots
    have them as roots, the difference up to its sign.  If an error is returned
    then the second number is a square or the sum is no quadratic number. *)
Theorem C68_sqrts_partial : forall a b, (0 <= a)%Z -> (0 <= b)%Z ->
  match add_sub_sqrts a b with
  | Ret (Some (p, q)) =>
      qvalue q = sqrt (IZR a) + sqrt (IZR b) /\ Rabs (qvalue p) = Rabs (sqrt (IZR a) - sqrt (IZR b))
  | Ret None => (exists s, (s * s = b)%Z) \/ ~ quadratic (sqrt (IZR a) + sqrt (IZR b))
  | _ => False
  end.
Proof. exact add_sub_sqrts_spec. Qed.
Print Assumptions C68_sqrts_partial.

(** Missing: whenever just the second number is a square the answer is an
    error, although the sum is a quadratic number. *)
Theorem C68_sqrts_refuted : exists a b, (0 <= a)%Z /\ (0 <= b)%Z /\
  add_sub_sqrts a b = Ret None /\ quadratic (sqrt (IZR a) + sqrt (IZR b)).
Proof. exact sqrts_wrong_error. Qed.
Print Assumptions C68_sqrts_refuted.

Theorem C68_sqrts_second : forall a s, (0 <= a)%Z -> ~ (exists r, (r * r = a)%Z) -> (0 < s)%Z ->
  add_sub_sqrts a (s * s) = Ret None.
Proof. exact add_sub_sqrts_second. Qed.
Print Assumptions C68_sqrts_second.

Example C68_sqrts_example :
  add_sub_sqrts 8 2 = Ret (Some (Quad (-2) 0 1, Quad (-18) 0 1)) /\
  add_sub_sqrts 4 3 = Ret (Some (Quad 1 4 1, Quad 1 (-4) 1)) /\
  add_sub_sqrts 2 3 = Ret None /\ add_sub_sqrts 3 4 = Ret None.
Proof. vm_compute. repeat split. Qed.
