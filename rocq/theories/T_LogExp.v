(** Property theorems C76 and C77: how close the bounds of logarithms and
    exponentials of intervals are, and when the exponential returns.  The lower
    and upper bounds are the reals [dyadic (dlo i) (dlog i)] and
    [dyadic (dhi i) (dlog i)], that is numerators over 2^[dlog i]; a unit is
    1 / 2^[dlog i].  [ln2] stands for the cached computation of ln 2, which may
    return any enclosure one to three units wide (see C42, C43). *)
From Coq Require Import ZArith QArith Qreals Reals Lra Lia List.
From Verif Require Import M_Base M_Traits M_Interval M_IntervalExp S_Interval.
From Verif Require Import P_Interval P_IntervalLog P_IntervalExp P_LogTight P_ExpTight P_ExpTotal.
Local Open Scope R_scope.

(** ** C76 logarithm.  If both bounds lie between 3/2 2^s and 3 2^s for one s
    (always so for a single point), each bound of the result is within
    2 + 3|s|/65536 units of the logarithm of the bound.  Missing for other
    intervals: there only a loss of at most ln 2 more is proved, and a loss of a
    constant at every precision does happen. *)
Theorem C76_log_precision_partial : forall ln2 i s, (forall n, exists l, ln2 n = Ret l /\ ln2_ok n l) -> dfi_ok i ->
  3 / 2 * powerRZ 2 s <= dyadic (dlo i) (dlog i) -> dyadic (dhi i) (dlog i) < 3 * powerRZ 2 s ->
  exists r, dfi_log ln2 i = Ret r /\ dlog r = dlog i /\
    ln (dyadic (dlo i) (dlog i)) - (2 + 3 * Rabs (IZR s) / 2 ^ 16) / 2 ^ dlog i < dyadic (dlo r) (dlog r) /\
    dyadic (dhi r) (dlog r) < ln (dyadic (dhi i) (dlog i)) + (2 + 3 * Rabs (IZR s) / 2 ^ 16) / 2 ^ dlog i.
Proof. exact dfi_log_binade. Qed.
Print Assumptions C76_log_precision_partial.

Theorem C76_log_ln2_loss : forall ln2 i sl su, (forall n, exists l, ln2 n = Ret l /\ ln2_ok n l) -> dfi_ok i ->
  3 / 2 * powerRZ 2 sl <= dyadic (dlo i) (dlog i) < 3 * powerRZ 2 sl ->
  3 / 2 * powerRZ 2 su <= dyadic (dhi i) (dlog i) < 3 * powerRZ 2 su ->
  exists r, dfi_log ln2 i = Ret r /\ dlog r = dlog i /\
    ln (dyadic (dlo i) (dlog i)) - ln 2 - (2 + 3 * Rabs (IZR sl) / 2 ^ 16) / 2 ^ dlog i < dyadic (dlo r) (dlog r) /\
    dyadic (dhi r) (dlog r) < ln (dyadic (dhi i) (dlog i)) + ln 2 + (2 + 3 * Rabs (IZR su) / 2 ^ 16) / 2 ^ dlog i.
Proof. exact dfi_log_any. Qed.
Print Assumptions C76_log_ln2_loss.

Theorem C76_log_precision_refuted : exists c, 0 < c /\ forall ln2 n, (forall n, exists l, ln2 n = Ret l /\ ln2_ok n l) ->
  exists i r, dlog i = n /\ dfi_ok i /\ 2 <= dyadic (dlo i) n /\ dyadic (dhi i) n <= 3 /\ dfi_log ln2 i = Ret r /\
    dyadic (dlo r) (dlog r) <= ln (dyadic (dlo i) n) - c /\ ln (dyadic (dhi i) n) + c <= dyadic (dhi r) (dlog r).
Proof. exact dfi_log_straddle_refuted. Qed.
Print Assumptions C76_log_precision_refuted.

(** [[13/8, 11/4]] meets the hypotheses of the first theorem with s = 0, [[1, 5]]
    those of the second with sl = -1 and su = 1. *)
Example C76_example_hyps : dfi_ok (DFI 13 22 3) /\ 3 / 2 * powerRZ 2 0 <= dyadic 13 3 /\ dyadic 22 3 < 3 * powerRZ 2 0.
Proof. unfold dfi_ok, dyadic; cbn. split; [lia|]. lra. Qed.
Example C76_example_hyps2 : 3 / 2 * powerRZ 2 (-1) <= dyadic 1 0 < 3 * powerRZ 2 (-1) /\ 3 / 2 * powerRZ 2 1 <= dyadic 5 0 < 3 * powerRZ 2 1.
Proof. unfold dyadic; simpl. repeat split; lra. Qed.
Example C76_example : dfi_log (fun n => rmap (fun i => dfi_convert i n) (ln2_compute n)) (DFI 13 22 3) = Ret (DFI 3 9 3).
Proof. vm_compute. reflexivity. Qed.
Example C76_example_wide : dfi_log (fun n => rmap (fun i => dfi_convert i n) (ln2_compute n)) (DFI 2048 3072 10) = Ret (DFI 415 1420 10).
Proof. vm_compute. reflexivity. Qed.

(** ** C77 exponential.  If the bounds lie between k ln 2 and (k+1) ln 2, by a
    margin of 3|k| (3|k+1|) units of the internal precision, then the
    exponential returns bounds within 2 + |k|/2^26 units of the exact ones,
    except for the single points x > 0 with x^2 2^(d+32+2 log2 (d+1)) = 2, for
    which it panics.  Missing for other intervals: there a factor of two is the
    most that is lost when a result is returned, and such a loss does happen. *)
Theorem C77_exp_precision_partial : forall ln2 i k, (forall n, exists l, ln2 n = Ret l /\ ln2_ok n l) -> dfi_ok i ->
  let d := dlog i in let lo := dyadic (dlo i) d in let up := dyadic (dhi i) d in
  (Z.of_nat d <= 2 ^ 60)%Z -> (Z.abs k <= 2 ^ 30)%Z ->
  IZR k * ln 2 + 3 * Rabs (IZR k) / 2 ^ (d + 32) <= lo ->
  up < (IZR k + 1) * ln 2 - 3 * Rabs (IZR k + 1) / 2 ^ (d + 32) ->
  let bad := dlo i = dhi i /\ 0 <= lo /\ lo * lo * 2 ^ (d + 32 + 2 * Nat.log2 (d + 1)) = 2 in
  (bad -> dfi_exp ln2 i = Panic) /\
  (~ bad -> exists r, dfi_exp ln2 i = Ret r /\ dlog r = d /\
     exp lo - (2 + Rabs (IZR k) / 2 ^ 26) / 2 ^ d < dyadic (dlo r) d /\
     dyadic (dhi r) d < exp up + (2 + Rabs (IZR k) / 2 ^ 26) / 2 ^ d).
Proof. exact exp_binade. Qed.
Print Assumptions C77_exp_precision_partial.

Theorem C77_exp_factor_two : forall ln2 i r, (forall n, exists l, ln2 n = Ret l /\ ln2_ok n l) -> dfi_ok i ->
  let d := dlog i in let lo := dyadic (dlo i) d in let up := dyadic (dhi i) d in
  (Z.of_nat d <= 2 ^ 60)%Z -> - 2 ^ 20 <= lo -> up <= 2 ^ 20 ->
  dfi_exp ln2 i = Ret r -> dlog r = d /\
  exp lo / 2 - 2 / 2 ^ d < dyadic (dlo r) d /\ dyadic (dhi r) d < 2 * exp up + 2 / 2 ^ d.
Proof. exact exp_factor_two. Qed.
Print Assumptions C77_exp_factor_two.

Theorem C77_exp_precision_refuted : exists c, 0 < c /\ forall ln2 n, (forall n, exists l, ln2 n = Ret l /\ ln2_ok n l) ->
  (2 <= n)%nat -> (Z.of_nat n <= 2 ^ 60)%Z ->
  exists i r, dlog i = n /\ dfi_ok i /\ -1 <= dyadic (dlo i) n /\ dyadic (dhi i) n <= 1 /\ dfi_exp ln2 i = Ret r /\
    dyadic (dlo r) (dlog r) <= exp (dyadic (dlo i) n) - c /\ exp (dyadic (dhi i) n) + c <= dyadic (dhi r) (dlog r).
Proof. exact exp_straddle_refuted. Qed.
Print Assumptions C77_exp_precision_refuted.

(** It does return on every interval that is no single point, no wider than 1/2
    and within 2^20 of zero. *)
Theorem C77_exp_returns : forall ln2 i, (forall n, exists l, ln2 n = Ret l /\ ln2_ok n l) -> (dlo i < dhi i)%Z ->
  let d := dlog i in let lo := dyadic (dlo i) d in let up := dyadic (dhi i) d in
  (Z.of_nat d <= 2 ^ 60)%Z -> - 2 ^ 20 <= lo -> up <= 2 ^ 20 -> up - lo <= 1 / 2 ->
  exists r, dfi_exp ln2 i = Ret r.
Proof. exact exp_returns. Qed.
Print Assumptions C77_exp_returns.

(** [[-1/4, 1/4]] meets the hypotheses of the last theorem ([C77_example_wide] is
    the same interval at a higher precision). *)
Example C77_example_returns_hyps : dyadic (-1) 2 >= - 2 ^ 20 /\ dyadic 1 2 <= 2 ^ 20 /\ dyadic 1 2 - dyadic (-1) 2 <= 1 / 2.
Proof. unfold dyadic; cbn. repeat split; lra. Qed.
(** [[1, 9/8]] meets the hypotheses with k = 1. *)
Example C77_example_hyps : dfi_ok (DFI 8 9 3) /\ IZR 1 * ln 2 + 3 * Rabs (IZR 1) / 2 ^ (3 + 32) <= dyadic 8 3 /\
  dyadic 9 3 < (IZR 1 + 1) * ln 2 - 3 * Rabs (IZR 1 + 1) / 2 ^ (3 + 32).
Proof.
  pose proof ln2_lower. pose proof ln2_upper. unfold dfi_ok, dyadic. rewrite !Rabs_pos_eq by lra. cbn. split; [lia|]. lra.
Qed.
Example C77_example : dfi_exp (fun n => rmap (fun i => dfi_convert i n) (ln2_compute n)) (DFI 1024 1280 10) = Ret (DFI 2783 3575 10).
Proof. vm_compute. reflexivity. Qed.
Example C77_example_wide : dfi_exp (fun n => rmap (fun i => dfi_convert i n) (ln2_compute n)) (DFI (-256) 256 10) = Ret (DFI 657 1595 10).
Proof. vm_compute. reflexivity. Qed.
