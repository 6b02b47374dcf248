(** Property theorems C36, continued: setting one bound of an interval. *)
From Coq Require Import ZArith Reals.
From Verif Require Import M_Base M_Interval S_Interval P_IntervalSet.
Local Open Scope R_scope.

(** A bound can be set to any value that leaves the bounds in order; the members
    are then the numbers between the new bound and the other one.  Any other
    value is refused. *)
Theorem C36_set_lower_bound : forall i v,
  ((v <= dhi i)%Z -> exists r, dfi_set_lower_bound_numer i v = Ret r /\ dfi_ok r /\ dlog r = dlog i /\
     forall x, inI x r <-> dyadic v (dlog i) <= x <= dyadic (dhi i) (dlog i)) /\
  ((dhi i < v)%Z -> dfi_set_lower_bound_numer i v = Panic).
Proof. exact set_lower_bound. Qed.
Print Assumptions C36_set_lower_bound.

Theorem C36_set_upper_bound : forall i v,
  ((dlo i <= v)%Z -> exists r, dfi_set_upper_bound_numer i v = Ret r /\ dfi_ok r /\ dlog r = dlog i /\
     forall x, inI x r <-> dyadic (dlo i) (dlog i) <= x <= dyadic v (dlog i)) /\
  ((v < dlo i)%Z -> dfi_set_upper_bound_numer i v = Panic).
Proof. exact set_upper_bound. Qed.
Print Assumptions C36_set_upper_bound.

Theorem C36_set_lower_bound_to_zero : forall i,
  ((0 <= dhi i)%Z -> exists r, dfi_set_lower_bound_to_zero i = Ret r /\ dfi_ok r /\ dlog r = dlog i /\
     forall x, inI x r <-> 0 <= x <= dyadic (dhi i) (dlog i)) /\
  ((dhi i < 0)%Z -> dfi_set_lower_bound_to_zero i = Panic).
Proof. exact set_lower_bound_zero. Qed.
Print Assumptions C36_set_lower_bound_to_zero.

Theorem C36_set_upper_bound_to_zero : forall i,
  ((dlo i <= 0)%Z -> exists r, dfi_set_upper_bound_to_zero i = Ret r /\ dfi_ok r /\ dlog r = dlog i /\
     forall x, inI x r <-> dyadic (dlo i) (dlog i) <= x <= 0) /\
  ((0 < dlo i)%Z -> dfi_set_upper_bound_to_zero i = Panic).
Proof. exact set_upper_bound_zero. Qed.
Print Assumptions C36_set_upper_bound_to_zero.

Example C36_set_example :
  dfi_set_lower_bound_numer (DFI (-3) 5 2) 4 = Ret (DFI 4 5 2) /\ dfi_set_lower_bound_numer (DFI (-3) 5 2) 6 = Panic /\
  dfi_set_upper_bound_numer (DFI (-3) 5 2) (-4) = Panic /\ dfi_set_lower_bound_to_zero (DFI (-3) 5 2) = Ret (DFI 0 5 2) /\
  dfi_set_upper_bound_to_zero (DFI 1 5 2) = Panic.
Proof. repeat split. Qed.
