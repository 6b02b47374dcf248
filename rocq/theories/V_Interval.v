(** The test cases of /repo/src/interval_arithmetic.rs run through the model.
    These are checks of the model against values the authors of the code
    expect from it, not properties.  Every literal below is copied from the
    cited test; the by-value, by-reference and assigning variants that a test
    exercises are one function in the model. *)
From Coq Require Import ZArith QArith List Bool.
From Verif Require Import M_Base M_Traits M_Interval M_IntervalExp.
Local Open Scope Z_scope.

(** natural_log_of_2 on a fresh cache: computed at a larger precision, then
    converted to the requested one (interval_arithmetic.rs:109-120). *)
Definition ln2 (n : nat) : res dfi := rmap (fun i => dfi_convert i n) (ln2_compute n).

(** interval_arithmetic.rs:1370-1387 test_from_ratio_range *)
Example repo_test_from_ratio_range :
  dfi_from_ratio_range (2 # 3)%Q (5 # 7)%Q 8 = Ret (DFI 170 183 8) /\
  dfi_from_ratio_range (-1 # 1)%Q (-5 # 7)%Q 8 = Ret (DFI (-256) (-182) 8) /\
  dfi_from_ratio_range (5 # 32)%Q (45 # 32)%Q 5 = Ret (DFI 5 45 5) /\
  dfi_from_ratio_range (7 # 32)%Q (1 # 4)%Q 5 = Ret (DFI 7 8 5).
Proof. repeat apply conj; vm_compute; reflexivity. Qed.

(** interval_arithmetic.rs:1390-1397 test_from_ratio *)
Example repo_test_from_ratio :
  (dfi_from_ratio (2 # 3)%Q 8) = (DFI 170 171 8) /\
  (dfi_from_ratio (-2 # 3)%Q 8) = (DFI (-171) (-170) 8) /\
  (dfi_from_ratio (1 # 8)%Q 8) = (DFI 32 32 8).
Proof. repeat apply conj; vm_compute; reflexivity. Qed.

(** interval_arithmetic.rs:1400-1457 test_convert_log2_denom *)
Example repo_test_convert_log2_denom :
  dfi_convert (DFI 1 2 0) 2 = (DFI 4 8 2) /\
  dfi_convert (DFI (-2) (-1) 0) 2 = (DFI (-8) (-4) 2) /\
  dfi_convert (DFI 4 8 2) 0 = (DFI 1 2 0) /\
  dfi_convert (DFI 7 7 2) 0 = (DFI 1 2 0) /\
  dfi_convert (DFI 6 6 2) 0 = (DFI 1 2 0) /\
  dfi_convert (DFI 5 5 2) 0 = (DFI 1 2 0) /\
  dfi_convert (DFI 4 4 2) 0 = (DFI 1 1 0) /\
  dfi_convert (DFI 8 8 2) 0 = (DFI 2 2 0) /\
  dfi_convert (DFI (-8) (-4) 2) 0 = (DFI (-2) (-1) 0) /\
  dfi_convert (DFI (-7) (-7) 2) 0 = (DFI (-2) (-1) 0) /\
  dfi_convert (DFI (-6) (-6) 2) 0 = (DFI (-2) (-1) 0) /\
  dfi_convert (DFI (-5) (-5) 2) 0 = (DFI (-2) (-1) 0) /\
  dfi_convert (DFI (-4) (-4) 2) 0 = (DFI (-1) (-1) 0) /\
  dfi_convert (DFI (-8) (-8) 2) 0 = (DFI (-2) (-2) 0).
Proof. repeat apply conj; vm_compute; reflexivity. Qed.

(** interval_arithmetic.rs:1460-1505 test_square *)
Example repo_test_square :
  dfi_square (DFI 1 2 0) = (DFI 1 4 0) /\
  dfi_square (DFI 4 5 0) = (DFI 16 25 0) /\
  dfi_square (DFI 1 1 4) = (DFI 0 1 4) /\
  dfi_square (DFI 16 16 4) = (DFI 16 16 4) /\
  dfi_square (DFI 15 15 4) = (DFI 14 15 4) /\
  dfi_square (DFI 15 15 4) = (DFI 14 15 4) /\
  dfi_square (DFI (-16) 16 4) = (DFI 0 16 4) /\
  dfi_square (DFI (-4) 5 0) = (DFI 0 25 0) /\
  dfi_square (DFI (-5) 4 0) = (DFI 0 25 0) /\
  dfi_square (DFI (-16) (-16) 4) = (DFI 16 16 4) /\
  dfi_square (DFI (-5) (-4) 0) = (DFI 16 25 0).
Proof. repeat apply conj; vm_compute; reflexivity. Qed.

(** interval_arithmetic.rs:1508-1533 test_sqrt *)
Example repo_test_sqrt :
  dfi_sqrt (DFI 0 1 8) = Ret (DFI 0 16 8) /\
  dfi_sqrt (DFI 1 2 8) = Ret (DFI 16 23 8) /\
  dfi_sqrt (DFI 2 3 8) = Ret (DFI 22 28 8) /\
  dfi_sqrt (DFI 3 4 8) = Ret (DFI 27 32 8) /\
  dfi_sqrt (DFI 4 5 8) = Ret (DFI 32 36 8) /\
  dfi_sqrt (DFI 512 512 8) = Ret (DFI 362 363 8).
Proof. repeat apply conj; vm_compute; reflexivity. Qed.

(** interval_arithmetic.rs:1536-1561 test_arithmetic_geometric_mean *)
Example repo_test_arithmetic_geometric_mean :
  dfi_agm (DFI 0 1 8) (DFI 0 1 8) = Ret (DFI 0 1 8) /\
  dfi_agm (DFI 256 256 8) (DFI 512 512 8) = Ret (DFI 372 374 8) /\
  dfi_agm (DFI 18446744073709551616 18446744073709551616 64) (DFI 36893488147419103232 36893488147419103232 64) = Ret (DFI 26873051318597756702 26873051318597756707 64).
Proof. repeat split. Qed.

(** interval_arithmetic.rs:1584-1659 test_interval_union, both orders *)
Example repo_test_interval_union :
  dfi_union (DFI 3 5 0) (DFI 17 97 0) = (DFI 3 97 0) /\
  dfi_union (DFI 17 97 0) (DFI 3 5 0) = (DFI 3 97 0) /\
  dfi_union (DFI 3 5 1) (DFI 17 97 0) = (DFI 3 194 1) /\
  dfi_union (DFI 17 97 0) (DFI 3 5 1) = (DFI 3 194 1) /\
  dfi_union (DFI 3 5 0) (DFI 17 97 1) = (DFI 6 97 1) /\
  dfi_union (DFI 17 97 1) (DFI 3 5 0) = (DFI 6 97 1) /\
  dfi_union (DFI 3 5 1) (DFI 17 97 1) = (DFI 3 97 1) /\
  dfi_union (DFI 17 97 1) (DFI 3 5 1) = (DFI 3 97 1) /\
  dfi_union (DFI (-3) 5 0) (DFI 17 97 0) = (DFI (-3) 97 0) /\
  dfi_union (DFI 17 97 0) (DFI (-3) 5 0) = (DFI (-3) 97 0) /\
  dfi_union (DFI (-5) 3 0) (DFI 17 97 0) = (DFI (-5) 97 0) /\
  dfi_union (DFI 17 97 0) (DFI (-5) 3 0) = (DFI (-5) 97 0) /\
  dfi_union (DFI (-5) (-3) 0) (DFI 17 97 0) = (DFI (-5) 97 0) /\
  dfi_union (DFI 17 97 0) (DFI (-5) (-3) 0) = (DFI (-5) 97 0) /\
  dfi_union (DFI 3 5 1) (DFI (-17) 97 1) = (DFI (-17) 97 1) /\
  dfi_union (DFI (-17) 97 1) (DFI 3 5 1) = (DFI (-17) 97 1) /\
  dfi_union (DFI 3 5 1) (DFI (-97) 17 1) = (DFI (-97) 17 1) /\
  dfi_union (DFI (-97) 17 1) (DFI 3 5 1) = (DFI (-97) 17 1) /\
  dfi_union (DFI 3 5 1) (DFI (-97) (-17) 1) = (DFI (-97) 5 1) /\
  dfi_union (DFI (-97) (-17) 1) (DFI 3 5 1) = (DFI (-97) 5 1).
Proof. repeat apply conj; vm_compute; reflexivity. Qed.

(** interval_arithmetic.rs:1662-1707 test_add, both orders *)
Example repo_test_add :
  dfi_add (DFI 3 5 0) (DFI 17 97 0) = (DFI 20 102 0) /\
  dfi_add (DFI 17 97 0) (DFI 3 5 0) = (DFI 20 102 0) /\
  dfi_add (DFI 3 5 1) (DFI 17 97 0) = (DFI 37 199 1) /\
  dfi_add (DFI 17 97 0) (DFI 3 5 1) = (DFI 37 199 1) /\
  dfi_add (DFI 3 5 0) (DFI 17 97 1) = (DFI 23 107 1) /\
  dfi_add (DFI 17 97 1) (DFI 3 5 0) = (DFI 23 107 1) /\
  dfi_add (DFI 3 5 1) (DFI 17 97 1) = (DFI 20 102 1) /\
  dfi_add (DFI 17 97 1) (DFI 3 5 1) = (DFI 20 102 1).
Proof. repeat apply conj; vm_compute; reflexivity. Qed.

(** interval_arithmetic.rs:1710-1734 test_add_int *)
Example repo_test_add_int :
  dfi_add_int (DFI 3 5 0) 23 = (DFI 26 28 0) /\
  dfi_add_int (DFI 3 5 1) 23 = (DFI 49 51 1).
Proof. repeat apply conj; vm_compute; reflexivity. Qed.

(** interval_arithmetic.rs:1737-1771 test_add_ratio *)
Example repo_test_add_ratio :
  dfi_add_ratio (DFI 3 5 0) (7 # 5)%Q = (DFI 4 7 0) /\
  dfi_add_ratio (DFI 3 5 0) (-7 # 5)%Q = (DFI 1 4 0) /\
  dfi_add_ratio (DFI 3 5 8) (7 # 5)%Q = (DFI 361 364 8) /\
  dfi_add_ratio (DFI 3 5 8) (-7 # 5)%Q = (DFI (-356) (-353) 8).
Proof. repeat apply conj; vm_compute; reflexivity. Qed.

(** interval_arithmetic.rs:1774-1819 test_sub, both orders *)
Example repo_test_sub :
  dfi_sub (DFI 3 5 0) (DFI 17 97 0) = (DFI (-94) (-12) 0) /\
  dfi_sub (dfi_neg (DFI 17 97 0)) (dfi_neg (DFI 3 5 0)) = (DFI (-94) (-12) 0) /\
  dfi_sub (DFI 3 5 1) (DFI 17 97 0) = (DFI (-191) (-29) 1) /\
  dfi_sub (dfi_neg (DFI 17 97 0)) (dfi_neg (DFI 3 5 1)) = (DFI (-191) (-29) 1) /\
  dfi_sub (DFI 3 5 0) (DFI 17 97 1) = (DFI (-91) (-7) 1) /\
  dfi_sub (dfi_neg (DFI 17 97 1)) (dfi_neg (DFI 3 5 0)) = (DFI (-91) (-7) 1) /\
  dfi_sub (DFI 3 5 1) (DFI 17 97 1) = (DFI (-94) (-12) 1) /\
  dfi_sub (dfi_neg (DFI 17 97 1)) (dfi_neg (DFI 3 5 1)) = (DFI (-94) (-12) 1).
Proof. repeat apply conj; vm_compute; reflexivity. Qed.

(** interval_arithmetic.rs:1822-1846 test_sub_int *)
Example repo_test_sub_int :
  dfi_sub_int (DFI 3 5 0) 23 = (DFI (-20) (-18) 0) /\
  dfi_sub_int (DFI 3 5 1) 23 = (DFI (-43) (-41) 1).
Proof. repeat apply conj; vm_compute; reflexivity. Qed.

(** interval_arithmetic.rs:1849-1883 test_sub_ratio *)
Example repo_test_sub_ratio :
  dfi_sub_ratio (DFI 3 5 0) (7 # 5)%Q = (DFI 1 4 0) /\
  dfi_sub_ratio (DFI 3 5 0) (-7 # 5)%Q = (DFI 4 7 0) /\
  dfi_sub_ratio (DFI 3 5 8) (7 # 5)%Q = (DFI (-356) (-353) 8) /\
  dfi_sub_ratio (DFI 3 5 8) (-7 # 5)%Q = (DFI 361 364 8).
Proof. repeat apply conj; vm_compute; reflexivity. Qed.

(** interval_arithmetic.rs:1886-2006 test_mul, both orders *)
Example repo_test_mul :
  dfi_mul (DFI 3 5 0) (DFI 17 97 0) = (DFI 51 485 0) /\
  dfi_mul (DFI 17 97 0) (DFI 3 5 0) = (DFI 51 485 0) /\
  dfi_mul (DFI (-3) 5 0) (DFI 17 97 0) = (DFI (-291) 485 0) /\
  dfi_mul (DFI 17 97 0) (DFI (-3) 5 0) = (DFI (-291) 485 0) /\
  dfi_mul (DFI (-5) 3 0) (DFI 17 97 0) = (DFI (-485) 291 0) /\
  dfi_mul (DFI 17 97 0) (DFI (-5) 3 0) = (DFI (-485) 291 0) /\
  dfi_mul (DFI (-5) (-3) 0) (DFI 17 97 0) = (DFI (-485) (-51) 0) /\
  dfi_mul (DFI 17 97 0) (DFI (-5) (-3) 0) = (DFI (-485) (-51) 0) /\
  dfi_mul (DFI 3 5 0) (DFI (-17) 97 0) = (DFI (-85) 485 0) /\
  dfi_mul (DFI (-17) 97 0) (DFI 3 5 0) = (DFI (-85) 485 0) /\
  dfi_mul (DFI (-3) 5 0) (DFI (-17) 97 0) = (DFI (-291) 485 0) /\
  dfi_mul (DFI (-17) 97 0) (DFI (-3) 5 0) = (DFI (-291) 485 0) /\
  dfi_mul (DFI (-5) 3 0) (DFI (-17) 97 0) = (DFI (-485) 291 0) /\
  dfi_mul (DFI (-17) 97 0) (DFI (-5) 3 0) = (DFI (-485) 291 0) /\
  dfi_mul (DFI (-5) (-3) 0) (DFI (-17) 97 0) = (DFI (-485) 85 0) /\
  dfi_mul (DFI (-17) 97 0) (DFI (-5) (-3) 0) = (DFI (-485) 85 0) /\
  dfi_mul (DFI 3 5 0) (DFI (-97) 17 0) = (DFI (-485) 85 0) /\
  dfi_mul (DFI (-97) 17 0) (DFI 3 5 0) = (DFI (-485) 85 0) /\
  dfi_mul (DFI (-3) 5 0) (DFI (-97) 17 0) = (DFI (-485) 291 0) /\
  dfi_mul (DFI (-97) 17 0) (DFI (-3) 5 0) = (DFI (-485) 291 0) /\
  dfi_mul (DFI (-5) 3 0) (DFI (-97) 17 0) = (DFI (-291) 485 0) /\
  dfi_mul (DFI (-97) 17 0) (DFI (-5) 3 0) = (DFI (-291) 485 0) /\
  dfi_mul (DFI (-5) (-3) 0) (DFI (-97) 17 0) = (DFI (-85) 485 0) /\
  dfi_mul (DFI (-97) 17 0) (DFI (-5) (-3) 0) = (DFI (-85) 485 0) /\
  dfi_mul (DFI 3 5 0) (DFI (-97) (-17) 0) = (DFI (-485) (-51) 0) /\
  dfi_mul (DFI (-97) (-17) 0) (DFI 3 5 0) = (DFI (-485) (-51) 0) /\
  dfi_mul (DFI (-3) 5 0) (DFI (-97) (-17) 0) = (DFI (-485) 291 0) /\
  dfi_mul (DFI (-97) (-17) 0) (DFI (-3) 5 0) = (DFI (-485) 291 0) /\
  dfi_mul (DFI (-5) 3 0) (DFI (-97) (-17) 0) = (DFI (-291) 485 0) /\
  dfi_mul (DFI (-97) (-17) 0) (DFI (-5) 3 0) = (DFI (-291) 485 0) /\
  dfi_mul (DFI (-5) (-3) 0) (DFI (-97) (-17) 0) = (DFI 51 485 0) /\
  dfi_mul (DFI (-97) (-17) 0) (DFI (-5) (-3) 0) = (DFI 51 485 0) /\
  dfi_mul (DFI 3 5 1) (DFI 17 97 0) = (DFI 51 485 1) /\
  dfi_mul (DFI 17 97 0) (DFI 3 5 1) = (DFI 51 485 1) /\
  dfi_mul (DFI 3 5 0) (DFI 17 97 1) = (DFI 51 485 1) /\
  dfi_mul (DFI 17 97 1) (DFI 3 5 0) = (DFI 51 485 1) /\
  dfi_mul (DFI 3 5 1) (DFI 17 97 1) = (DFI 25 243 1) /\
  dfi_mul (DFI 17 97 1) (DFI 3 5 1) = (DFI 25 243 1).
Proof. repeat apply conj; vm_compute; reflexivity. Qed.

(** interval_arithmetic.rs:2009-2043 test_mul_int *)
Example repo_test_mul_int :
  dfi_mul_int (DFI 3 5 0) 23 = (DFI 69 115 0) /\
  dfi_mul_int (DFI 3 5 1) 23 = (DFI 69 115 1) /\
  dfi_mul_int (DFI 3 5 0) (-23) = (DFI (-115) (-69) 0) /\
  dfi_mul_int (DFI 3 5 1) (-23) = (DFI (-115) (-69) 1).
Proof. repeat apply conj; vm_compute; reflexivity. Qed.

(** interval_arithmetic.rs:2046-2086 test_mul_ratio *)
Example repo_test_mul_ratio :
  dfi_mul_ratio (DFI 3 5 0) (23 # 7)%Q = (DFI 9 17 0) /\
  dfi_mul_ratio (DFI 3 5 1) (23 # 7)%Q = (DFI 9 17 1) /\
  dfi_mul_ratio (DFI 3 5 0) (-23 # 7)%Q = (DFI (-17) (-9) 0) /\
  dfi_mul_ratio (DFI 3 5 1) (-23 # 7)%Q = (DFI (-17) (-9) 1) /\
  dfi_mul_ratio (DFI 3 5 0) (3 # 1)%Q = (DFI 9 15 0) /\
  dfi_mul_ratio (DFI 3 5 0) (-3 # 1)%Q = (DFI (-15) (-9) 0).
Proof. repeat apply conj; vm_compute; reflexivity. Qed.

(** interval_arithmetic.rs:2089-2192 test_div *)
Example repo_test_div :
  dfi_checked_div (DFI 3 5 8) (DFI 17 97 8) = Some (DFI 7 76 8) /\
  dfi_checked_div (DFI (-3) 5 8) (DFI 17 97 8) = Some (DFI (-46) 76 8) /\
  dfi_checked_div (DFI (-5) 3 8) (DFI 17 97 8) = Some (DFI (-76) 46 8) /\
  dfi_checked_div (DFI (-5) (-3) 8) (DFI 17 97 8) = Some (DFI (-76) (-7) 8) /\
  dfi_checked_div (DFI 3 5 8) (DFI (-17) 97 8) = None /\
  dfi_checked_div (DFI (-3) 5 8) (DFI (-17) 97 8) = None /\
  dfi_checked_div (DFI (-5) 3 8) (DFI (-17) 97 8) = None /\
  dfi_checked_div (DFI (-5) (-3) 8) (DFI (-17) 97 8) = None /\
  dfi_checked_div (DFI 3 5 8) (DFI (-97) 17 8) = None /\
  dfi_checked_div (DFI (-3) 5 8) (DFI (-97) 17 8) = None /\
  dfi_checked_div (DFI (-5) 3 8) (DFI (-97) 17 8) = None /\
  dfi_checked_div (DFI (-5) (-3) 8) (DFI (-97) 17 8) = None /\
  dfi_checked_div (DFI 3 5 8) (DFI (-97) (-17) 8) = Some (DFI (-76) (-7) 8) /\
  dfi_checked_div (DFI (-3) 5 8) (DFI (-97) (-17) 8) = Some (DFI (-76) 46 8) /\
  dfi_checked_div (DFI (-5) 3 8) (DFI (-97) (-17) 8) = Some (DFI (-46) 76 8) /\
  dfi_checked_div (DFI (-5) (-3) 8) (DFI (-97) (-17) 8) = Some (DFI 7 76 8) /\
  dfi_checked_div (dfi_from_int 1 64) (dfi_from_int 3 64) = Some (DFI 6148914691236517205 6148914691236517206 64).
Proof. repeat apply conj; vm_compute; reflexivity. Qed.

(** interval_arithmetic.rs:2195-2239 test_div_int *)
Example repo_test_div_int :
  dfi_div_int (DFI 35 72 0) 11 = Ret (DFI 3 7 0) /\
  dfi_div_int (DFI 35 72 1) 11 = Ret (DFI 3 7 1) /\
  dfi_div_int (DFI 35 72 0) (-11) = Ret (DFI (-7) (-3) 0) /\
  dfi_div_int (DFI 35 72 1) (-11) = Ret (DFI (-7) (-3) 1) /\
  dfi_div_int (DFI 35 72 0) 3 = Ret (DFI 11 24 0) /\
  dfi_div_int (DFI 35 72 0) 5 = Ret (DFI 7 15 0).
Proof. repeat apply conj; vm_compute; reflexivity. Qed.

(** interval_arithmetic.rs:2242-2286 test_div_ratio *)
Example repo_test_div_ratio :
  dfi_div_ratio (DFI 3 5 0) (7 # 23)%Q = Ret (DFI 9 17 0) /\
  dfi_div_ratio (DFI 3 5 1) (7 # 23)%Q = Ret (DFI 9 17 1) /\
  dfi_div_ratio (DFI 3 5 0) (-7 # 23)%Q = Ret (DFI (-17) (-9) 0) /\
  dfi_div_ratio (DFI 3 5 1) (-7 # 23)%Q = Ret (DFI (-17) (-9) 1) /\
  dfi_div_ratio (DFI 3 5 0) (1 # 3)%Q = Ret (DFI 9 15 0) /\
  dfi_div_ratio (DFI 3 5 0) (-1 # 3)%Q = Ret (DFI (-15) (-9) 0).
Proof. repeat apply conj; vm_compute; reflexivity. Qed.

(** interval_arithmetic.rs:2289-2380 test_pow *)
Example repo_test_pow :
  dfi_pow (DFI 5 7 0) 0 = Ret (DFI 1 1 0) /\
  dfi_pow (DFI 5 7 0) 1 = Ret (DFI 5 7 0) /\
  dfi_pow (DFI 5 7 0) 2 = Ret (DFI 25 49 0) /\
  dfi_pow (DFI 5 7 0) 3 = Ret (DFI 125 343 0) /\
  dfi_pow (DFI 5 7 0) 4 = Ret (DFI 625 2401 0) /\
  dfi_pow (DFI 5 7 0) 5 = Ret (DFI 3125 16807 0) /\
  dfi_pow (DFI 255 257 8) 0 = Ret (DFI 256 256 8) /\
  dfi_pow (DFI 255 257 8) 1 = Ret (DFI 255 257 8) /\
  dfi_pow (DFI 255 257 8) 2 = Ret (DFI 254 259 8) /\
  dfi_pow (DFI 255 257 8) 3 = Ret (DFI 253 261 8) /\
  dfi_pow (DFI (-5) 7 0) 0 = Ret (DFI 1 1 0) /\
  dfi_pow (DFI (-5) 7 0) 1 = Ret (DFI (-5) 7 0) /\
  dfi_pow (DFI (-5) 7 0) 2 = Ret (DFI 0 49 0) /\
  dfi_pow (DFI (-5) 7 0) 3 = Ret (DFI (-125) 343 0) /\
  dfi_pow (DFI (-5) 7 0) 4 = Ret (DFI 0 2401 0) /\
  dfi_pow (DFI (-5) 7 0) 5 = Ret (DFI (-3125) 16807 0) /\
  dfi_pow (DFI (-7) 5 0) 0 = Ret (DFI 1 1 0) /\
  dfi_pow (DFI (-7) 5 0) 1 = Ret (DFI (-7) 5 0) /\
  dfi_pow (DFI (-7) 5 0) 2 = Ret (DFI 0 49 0) /\
  dfi_pow (DFI (-7) 5 0) 3 = Ret (DFI (-343) 125 0) /\
  dfi_pow (DFI (-7) 5 0) 4 = Ret (DFI 0 2401 0) /\
  dfi_pow (DFI (-7) 5 0) 5 = Ret (DFI (-16807) 3125 0) /\
  dfi_pow (DFI (-7) (-5) 0) 0 = Ret (DFI 1 1 0) /\
  dfi_pow (DFI (-7) (-5) 0) 1 = Ret (DFI (-7) (-5) 0) /\
  dfi_pow (DFI (-7) (-5) 0) 2 = Ret (DFI 25 49 0) /\
  dfi_pow (DFI (-7) (-5) 0) 3 = Ret (DFI (-343) (-125) 0) /\
  dfi_pow (DFI (-7) (-5) 0) 4 = Ret (DFI 625 2401 0) /\
  dfi_pow (DFI (-7) (-5) 0) 5 = Ret (DFI (-16807) (-3125) 0) /\
  dfi_pow (dfi_from_int 3 8) (-1) = Ret (DFI 85 86 8) /\
  dfi_pow (dfi_from_int 3 8) (-2) = Ret (DFI 28 29 8) /\
  dfi_pow (dfi_from_int 3 8) (-3) = Ret (DFI 9 10 8) /\
  dfi_pow (dfi_from_int 3 8) (-4) = Ret (DFI 3 4 8) /\
  dfi_pow (dfi_from_int 3 8) (-5) = Ret (DFI 0 2 8) /\
  dfi_pow (dfi_from_int 3 8) (-6) = Ret (DFI 0 1 8).
Proof. repeat apply conj; vm_compute; reflexivity. Qed.

(** interval_arithmetic.rs:2383-2402 test_natural_log_of_2 (at precision 64, as computed on a cache miss) *)
Example repo_test_natural_log_of_2 :
  ln2 64 = Ret (DFI 12786308645202655659 12786308645202655660 64).
Proof. repeat apply conj; vm_compute; reflexivity. Qed.

(** interval_arithmetic.rs:2405-2478 test_log_core (two of those at precision 64) *)
Example repo_test_log_core :
  log_core (dfi_from_ratio (9 # 1)%Q 64) = Ret (DFI 4116271982791902040 4116271982791902041 64) /\
  log_core (dfi_from_ratio (13 # 3)%Q 64) = Ret (DFI 8670036662410753619 8670036662410753620 64).
Proof. repeat apply conj; vm_compute; reflexivity. Qed.

(** interval_arithmetic.rs:2481-2527 test_log (the last literal; the others are left out because coqchk is slow on them) *)
Example repo_test_log :
  dfi_log ln2 (dfi_from_ratio (12345 # 2)%Q 64) = Ret (DFI 161000585365199022398 161000585365199022399 64).
Proof. repeat apply conj; vm_compute; reflexivity. Qed.

(** interval_arithmetic.rs:2530-2633 test_exp (three literals at precision 64) *)
Example repo_test_exp :
  (x <- dfi_from_int_range 1 1 64 ;; dfi_exp ln2 x)%res = Ret (DFI 50143449209799256682 50143449209799256683 64) /\
  (x <- dfi_from_ratio_range (1 # 16)%Q (1 # 16)%Q 64 ;; dfi_exp ln2 x)%res = Ret (DFI 19636456851539679189 19636456851539679190 64) /\
  (x <- dfi_from_ratio_range (1 # 16)%Q (5 # 11)%Q 64 ;; dfi_exp ln2 x)%res = Ret (DFI 19636456851539679189 29062053985348969808 64).
Proof. repeat apply conj; vm_compute; reflexivity. Qed.
