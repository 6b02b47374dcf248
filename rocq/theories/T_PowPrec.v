(** Property theorems C80: precision of integer powers of intervals.
    [least_power i e x] and [greatest_power i e x] say that [x] is the member of
    the interval whose power is the least and the greatest; [pow_err] is the
    rounding error allowed (S_PowPrec.v). *)
From Coq Require Import ZArith Reals Lra.
From Verif Require Import M_Base M_Interval S_Interval S_PowPrec P_PowPrec.
Local Open Scope R_scope.

(** Every power with an exponent that is not negative returns, and its bounds are
    the least and the greatest power of the members up to rounding. *)
Theorem C80_power : forall i e, dfi_ok i -> (0 <= e)%Z ->
  exists r, dfi_pow i e = Ret r /\ dlog r = dlog i /\
  (exists x, least_power i (Z.to_nat e) x /\
     Rabs (dyadic (dlo r) (dlog r) - x ^ Z.to_nat e) <= pow_err (dlog i) (Z.to_nat e) x) /\
  (exists x, greatest_power i (Z.to_nat e) x /\
     Rabs (dyadic (dhi r) (dlog r) - x ^ Z.to_nat e) <= pow_err (dlog i) (Z.to_nat e) x).
Proof. exact dfi_pow_near. Qed.
Print Assumptions C80_power.

(** A power with a negative exponent is the power of the reciprocal, which is the
    tightest possible (C39). *)
Theorem C80_negative : forall i e r, (e < 0)%Z -> dfi_recip i = Ret r -> dfi_pow i e = dfi_pow r (- e).
Proof. exact dfi_pow_negative. Qed.
Print Assumptions C80_negative.

(** The error is at most two units in the last place for each factor, as long as
    there are enough digits. *)
Theorem C80_error : forall n e x, 2 * INR e <= 2 ^ n ->
  pow_err n e x <= 2 * INR e / 2 ^ n * Rmax 1 (Rabs x) ^ e.
Proof. exact pow_err_small. Qed.
Print Assumptions C80_error.

(** [(-3/2, 5/4)^5] and [(-3/2, 5/4)^4] with 8 digits; the exact bounds are
    -243/32 = -1944/256, 3125/1024 = 781.25/256, 0 and 81/16 = 1296/256. *)
Example C80_example :
  dfi_ok (DFI (-384) 320 8) /\
  dfi_pow (DFI (-384) 320 8) 5 = Ret (DFI (-1944) 781 8) /\
  dfi_pow (DFI (-384) 320 8) 4 = Ret (DFI 0 1296 8) /\
  (exists r, dfi_recip (DFI 300 320 8) = Ret r) /\
  2 * INR 5 <= 2 ^ 8.
Proof.
  split; [intro H; discriminate H|]. split; [reflexivity|]. split; [reflexivity|].
  split; [eexists; reflexivity|]. cbn; lra.
Qed.
