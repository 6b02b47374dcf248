(** Property theorems C42, continued: the intervals for which C42_pow_partial
    makes no claim.  [inI x i] says that the real [x] lies in the interval [i]. *)
From Coq Require Import ZArith Reals Lia.
From Verif Require Import M_Base M_Interval S_Interval P_IntervalOdd.
Local Open Scope R_scope.

(** An odd power of an interval with zero inside encloses the powers of all
    members exactly when the bound nearer to zero has a power that is itself a
    fraction with the interval's denominator: for the bound [-m / 2^n] or
    [m / 2^n] this says that [2^(n (e - 1))] divides [m^e]. *)
Theorem C42_straddling : forall i e, (dlo i < 0 < dhi i)%Z -> (3 <= e)%Z -> Z.Odd e ->
  exists r, dfi_pow i e = Ret r /\
  ((forall x, inI x i -> inI (x ^ Z.to_nat e) r) <->
   (2 ^ (Z.of_nat (dlog i) * (e - 1)) | Z.min (- dlo i) (dhi i) ^ e)%Z).
Proof. exact odd_straddling. Qed.
Print Assumptions C42_straddling.

(** The same for an interval that is a single negative number. *)
Theorem C42_negative_point : forall i e, dlo i = dhi i -> (dhi i < 0)%Z -> (3 <= e)%Z -> Z.Odd e ->
  exists r, dfi_pow i e = Ret r /\
  ((forall x, inI x i -> inI (x ^ Z.to_nat e) r) <->
   (2 ^ (Z.of_nat (dlog i) * (e - 1)) | (- dlo i) ^ e)%Z).
Proof. exact odd_negative_point. Qed.
Print Assumptions C42_negative_point.

(** Powers of intervals with integer bounds always enclose. *)
Theorem C42_integer_bounds : forall i e, dfi_ok i -> dlog i = 0%nat -> (0 <= e)%Z ->
  exists r, dfi_pow i e = Ret r /\ forall x, inI x i -> inI (x ^ Z.to_nat e) r.
Proof. exact integer_bounds. Qed.
Print Assumptions C42_integer_bounds.

(** With 8 digits: [(-1/2, 5/4)^3] encloses, as 128^3 is divisible by 2^16;
    [(-3/256, 5/4)^3] does not. *)
Example C42_odd_example :
  dfi_pow (DFI (-128) 320 8) 3 = Ret (DFI (-32) 500 8) /\ (2 ^ (Z.of_nat 8 * (3 - 1)) | Z.min 128 320 ^ 3)%Z /\
  dfi_pow (DFI (-3) 320 8) 3 = Ret (DFI 0 500 8) /\ ~ (2 ^ (Z.of_nat 8 * (3 - 1)) | Z.min 3 320 ^ 3)%Z /\
  dfi_pow (DFI (-3) (-3) 8) 3 = Ret (DFI 0 (-1) 8) /\
  dfi_pow (DFI (-3) 2 0) 3 = Ret (DFI (-27) 8 0) /\ Z.Odd 3.
Proof.
  repeat split; try reflexivity.
  - exists 32%Z. reflexivity.
  - intros H. apply Z.mod_divide in H; [discriminate H|discriminate].
  - exists 1%Z. reflexivity.
Qed.
