(** The conversion tests of /repo/src/quadratic_numbers.rs:907-961: coefficients and
    expected values, here multiplied by 10^20. *)
From Coq Require Import ZArith List Bool.
From Flocq Require Import BinarySingleNaN.
From Verif Require Import M_Base M_Quad M_QuadF64.
Import ListNotations.
Local Open Scope Z_scope.

Definition float_cases : list (quad * Z) :=
  [(Quad 45 36 (-15), (-90713075057054770000));
   (Quad 1 2 (-40), (-13507810593582120000));
   (Quad 3 24 (-10), (-11909059582729195000));
   (Quad 1 9 0, (-11111111111111110000));
   (Quad 1 180 (-24), (-555144641458286500));
   (Quad (-72) 1 1, 800000000000000000000);
   (Quad 1 (-90) 30, 298884742894181900000);
   (Quad 0 9 (-9), 0);
   (Quad 0 0 (-15), 0);
   (Quad (-60) (-6) 1, 1130662386291807500000);
   (Quad 0 (-15) 45, 33333333333333330000);
   (Quad (-90) 1 0, 9000000000000000000000);
   (Quad (-60) 6 45, 108995677152649820000);
   (Quad 18 1 (-20), (-92401264480511540000));
   (Quad (-180) 60 1, 286335345030996540000);
   (Quad 0 45 (-9), 0);
   (Quad 20 0 (-90), (-47140452079103170000));
   (Quad (-120) 1 1, 1046585609973065400000);
   (Quad 0 (-90) 0, 0);
   (Quad 0 1 (-2), 0);
   (Quad 72 24 (-90), (-77097733108336910000));
   (Quad 6 (-30) 36, 50000000000000000000);
   (Quad (-6) 1 0, 600000000000000000000);
   (Quad 1 18 (-10), (-5393920141694561600));
   (Quad 1 24 (-3), (-4145188432738026000));
   (Quad 5 (-5) 1, 361803398874989500000);
   (Quad 72 18 0, (-400000000000000000000));
   (Quad 1 12 1, (-8392021690038387000));
   (Quad 1 120 (-24), (-831949054873515300));
   (Quad (-2) 12 1, 16441400296897601000);
   (Quad 3 (-40) 1, 3992485884517127000000);
   (Quad 1 0 (-6), (-40824829046386296000));
   (Quad 0 (-90) 1, 9000000000000000000000);
   (Quad 0 (-90) (-5), (-1800000000000000000000));
   (Quad (-36) 1 4, 287760303736607840000);
   (Quad 0 (-40) 1, 4000000000000000000000);
   (Quad 2 1 (-60), (-17443093499551090000))].

(** a floating-point number times 10^20, rounded down *)
Definition scaled (f : f64) : option Z :=
  match f with
  | B754_zero _ => Some 0
  | B754_finite s m e _ => Some ((if s then -1 else 1) * (Z.shiftl (Zpos m * 10 ^ 20) e))
  | _ => None
  end.
Definition close (f : f64) (v : Z) : bool :=
  match scaled f with Some n => Z.abs (n - v) <? 10 ^ 10 - 1 | None => false end.

(** also of the negated numbers, 963-977 *)
Example float_tests :
  forallb (fun '(p, v) => match quad_new p with
    | Ret (Some x) => close (quad_to_f64 x) v && close (quad_to_f64 (quad_neg x)) (- v)
    | _ => false end) float_cases = true.
Proof. vm_compute. reflexivity. Qed.
