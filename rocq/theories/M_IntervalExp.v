(** Model of /repo/src/interval_arithmetic.rs, lines 547-762: the constants
    sqrt(2) and ln(2), logarithm and exponential of dyadic intervals.
    Bit counts are [nat]; the [usize]/[i64] overflow of a bit count is modelled
    only where the code checks for it ([to_usize], [checked_add]). *)
From Coq Require Import ZArith QArith Qround List Bool.
From Verif Require Import M_Base M_Traits M_Interval.
Local Open Scope Z_scope.

(** A [for] loop whose body may panic. *)
Fixpoint rfold {A B} (f : A -> B -> res A) (l : list B) (a : A) : res A :=
  match l with
  | nil => Ret a
  | b :: l' => (a' <- f a b ;; rfold f l' a')%res
  end.

(** [floor_log2] on a non-zero usize (traits.rs:411-466); all callers pass n+1. *)
Definition usize_floor_log2 (n : nat) : nat := Nat.log2 n.

(** interval_arithmetic.rs:551-553: what sqrt_2 computes on a cache miss. *)
Definition sqrt_2_compute (n : nat) : res dfi := dfi_sqrt (dfi_from_int 2 n).

(** interval_arithmetic.rs:573-588: what natural_log_of_2 computes on a cache miss. *)
Definition ln2_working (n : nat) : nat := (n + 10 + usize_floor_log2 (n + 1))%nat.
Definition ln2_compute (n : nat) : res dfi :=
  let w := ln2_working n in
  (r <- rfold (fun acc i =>
         q <- ratio_new 1 (shl (Z.of_nat i) i) ;; Ret (dfi_add acc (dfi_from_ratio q w)))
       (seq 1 (w - 1)) (dfi_zero w) ;;
   Ret (DFI (dlo r) (dhi r + 1) (dlog r)))%res.

(** interval_arithmetic.rs:593-624 log_core *)
Definition log_core (s : dfi) : res dfi :=
  assert_then (dlo s <=? dhi s)
  (let w := (dlog s + 10 + usize_floor_log2 (dlog s + 1))%nat in
   let num := shl 2 w in
   let power := dfi_convert s w in
   assert_then (num <=? dlo power)
   (let sq := dfi_square power in
    '(retval, _) <- rfold (fun st i =>
        let '(retval, power) := st in
        let den := dfi_mul_int power (Z.of_nat (i * 2 + 1)) in
        tl <- ratio_new num (dhi den) ;;
        tu <- ratio_new num (dlo den) ;;
        t <- dfi_from_ratio_range tl tu w ;;
        Ret (dfi_add retval t, dfi_mul power sq)) (seq 0 w) (dfi_zero w, power) ;;
    Ret (dfi_convert (DFI (dlo retval) (dhi retval + 1) (dlog retval)) (dlog s))))%res.

(** [Ratio<BigInt>] division by a ratio: panics on zero. *)
Definition ratio_div (a b : Q) : res Q :=
  ratio_new (Qnum a * Zpos (Qden b)) (Zpos (Qden a) * Qnum b).

(** interval_arithmetic.rs:642-651, 657-664: scale a positive bound into [3/2, 3).
    Returns the scaled bound and the final shift. *)
Definition log_shift (numer : Z) (d : nat) (bound : Q) : res (Q * Z) :=
  (fl <- unwrap (bigint_floor_log2 numer) ;;
   let shift := fl - Z.of_nat d in
   let y := if shift <? 0 then Qred (Qscale bound (shl 1 (Z.to_nat (- shift))))
            else Qred (Qdiv bound (inject_Z (shl 1 (Z.to_nat shift)))) in
   Ret (if negb (Qle_bool (3 # 2) y) then (Qred (Qscale y 2), shift - 1) else (y, shift)))%res.

(** interval_arithmetic.rs:625-684 log.  [ln2 k] is what natural_log_of_2(k)
    returns for this call (it depends on the cache, see M_Cache). *)
Definition dfi_log (ln2 : nat -> res dfi) (i : dfi) : res dfi :=
  assert_then (0 <? dlo i)
  (assert_then (dlo i <=? dhi i)
   (let w := (dlog i + 16)%nat in
    '(yl, sl) <- log_shift (dlo i) (dlog i) (dfi_lower_bound i) ;;
    '(yu, su) <- log_shift (dhi i) (dlog i) (dfi_upper_bound i) ;;
    r0 <- dfi_from_int_range sl su w ;;
    l2 <- ln2 w ;;
    ql <- ratio_div (yl + 1) (yl - 1) ;;
    cl <- log_core (dfi_from_ratio ql w) ;;
    qu <- ratio_div (yu + 1) (yu - 1) ;;
    cu <- log_core (dfi_from_ratio qu w) ;;
    Ret (dfi_convert (dfi_add (dfi_mul r0 l2) (dfi_union cl cu)) (dlog i))))%res.

(** The largest usize (64-bit target). *)
Definition usize_max : Z := 2 ^ 64 - 1.
(** ToPrimitive::to_usize followed by expect. *)
Definition to_usize (z : Z) : option nat :=
  if (0 <=? z) && (z <=? usize_max) then Some (Z.to_nat z) else None.
Definition checked_div_floor (a b : Z) : res Z := if b =? 0 then Panic else Ret (a / b).
Definition checked_mod_floor (a b : Z) : res Z := if b =? 0 then Panic else Ret (a mod b).

(** interval_arithmetic.rs:719-729: the Taylor loop, [left] iterations remain
    and [i] is the loop variable. *)
Fixpoint exp_loop (left : nat) (i : nat) (self term retval : dfi) : res dfi :=
  match left with
  | O => Ret retval
  | S left' =>
      (term <- dfi_div_int (dfi_mul term self) (Z.of_nat i) ;;
       let retval := dfi_add retval term in
       if (dhi term =? 1) || (dhi term =? 0) then assert_then (dlo term =? 0) (Ret retval)
       else exp_loop left' (S i) self term retval)%res
  end.

(** interval_arithmetic.rs:730-742, 743-757: final scaling of the bounds *)
Definition exp_shift_lower (k v : Z) : res Z :=
  match to_usize (Z.abs k) with
  | Some s => Ret (if k <? 0 then shr v s else shl v s)
  | None => assert_then (k <? 0) (Ret 0)
  end.
Definition exp_shift_upper (k v : Z) : res Z :=
  match to_usize (Z.abs k) with
  | Some s => Ret (if k <? 0 then shr_up v s else shl v s)
  | None => assert_then (k <? 0) (Ret 1)
  end.

(** interval_arithmetic.rs:690-700: bits needed for the integer part *)
Definition exp_extra_bits (ln2lo v : Z) : res nat :=
  if 0 <? v then (q <- checked_div_floor v ln2lo ;; unwrap (to_usize q))%res else Ret 0%nat.

(** interval_arithmetic.rs:685-759 into_exp *)
Definition dfi_exp (ln2 : nat -> res dfi) (i : dfi) : res dfi :=
  let d := dlog i in
  let i1 := dfi_convert i (d + 10) in
  (short <- ln2 (dlog i1) ;;
   e1 <- exp_extra_bits (dlo short) (dlo i1) ;;
   e2 <- exp_extra_bits (dlo short) (dhi i1) ;;
   let w0 := (d + 32 + usize_floor_log2 (d + 1) * 2)%nat in
   let w := (w0 + Nat.max e1 e2)%nat in
   assert_then (Z.of_nat w <=? usize_max)
   (let i2 := dfi_convert i1 w in
    l2 <- ln2 w ;;
    kl <- checked_div_floor (dlo i2) (dhi l2) ;;
    rl <- checked_mod_floor (dlo i2) (dhi l2) ;;
    ku <- checked_div_floor (dhi i2) (dlo l2) ;;
    ru <- checked_mod_floor (dhi i2) (dlo l2) ;;
    retval <- exp_loop (w - 1) 1 (DFI rl ru w) (dfi_one w) (dfi_one w) ;;
    lo <- exp_shift_lower kl (dlo retval) ;;
    hi <- exp_shift_upper ku (dhi retval) ;;
    Ret (dfi_convert (DFI lo hi w) d)))%res.
