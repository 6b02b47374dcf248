(** Theorems on the precision of the arithmetic-geometric mean (C81). *)
From Coq Require Import ZArith Reals Lra Lia.
From Verif Require Import M_Base M_Interval S_Interval P_Interval P_AgmPrec.
Local Open Scope R_scope.

(** C81: for numbers of at least 1 the iteration does not stop early.  After any
    number [m] of steps the hull of the operands has shrunk by the factor
    (3/4)^m, up to the relative width [rho] of the operands, which grows by
    eight units in the last place per step. *)
Theorem C81_near : forall a b r k rho M m, dfi_ok a -> dfi_ok b ->
  let al := dyadic (dlo a) (dlog a) in let ah := dyadic (dhi a) (dlog a) in
  let bl := dyadic (dlo b) (dlog b) in let bh := dyadic (dhi b) (dlog b) in
  k = Nat.max (dlog a) (dlog b) -> (2 <= k)%nat ->
  1 <= al <= M -> 1 <= bl <= M -> 1 <= rho -> ah <= rho * al -> bh <= rho * bl ->
  let growth := rho * (1 + 8 / 2 ^ k) ^ m in growth <= 3 / 2 ->
  dfi_agm a b = Ret r ->
  dyadic (dhi r) (dlog r) - dyadic (dlo r) (dlog r) <=
    (3 / 4) ^ m * (Rmax ah bh - Rmin al bl) + 4 * ((growth - 1) * M + 4 / 2 ^ k).
Proof. exact agm_near. Qed.
Print Assumptions C81_near.

(** C81: the mean of two exact numbers between 1 and M, at precision 2^-k, is
    known up to 200 k M units in the last place. *)
Theorem C81_points : forall m n k M r, (10 <= k)%nat ->
  1 <= dyadic m k <= M -> 1 <= dyadic n k <= M -> dfi_agm (DFI m m k) (DFI n n k) = Ret r ->
  dyadic (dhi r) (dlog r) - dyadic (dlo r) (dlog r) <= 200 * INR k * M / 2 ^ k.
Proof. exact agm_points. Qed.
Print Assumptions C81_points.

(** The mean of 1 and 100 with 12 bits after the point is four units wide. *)
Example C81_example :
  (1 <= dyadic (2 ^ 12) 12 <= 100 /\ 1 <= dyadic (100 * 2 ^ 12) 12 <= 100) /\
  dfi_agm (DFI (2 ^ 12) (2 ^ 12) 12) (DFI (100 * 2 ^ 12) (100 * 2 ^ 12) 12) = Ret (DFI 107382 107386 12).
Proof.
split; [|vm_compute; reflexivity].
assert (E : 2 ^ 12 = IZR (2 ^ 12)) by (rewrite (pow_IZR 2 12); reflexivity).
unfold dyadic; rewrite mult_IZR, E.
assert (0 < IZR (2 ^ 12)) by (apply IZR_lt; reflexivity).
replace (IZR (2 ^ 12) / IZR (2 ^ 12)) with 1 by (field; lra).
replace (100 * IZR (2 ^ 12) / IZR (2 ^ 12)) with 100 by (field; lra). lra.
Qed.
