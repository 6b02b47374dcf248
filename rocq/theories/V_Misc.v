(** Test cases of lattice.rs, quadratic_numbers.rs, mod_int.rs, traits.rs,
    util.rs and interval_arithmetic.rs run through the model.  These are checks
    of the model against values the authors of the code expect from it, not
    properties.  Every literal is copied from the cited test. *)
From Coq Require Import ZArith QArith List String.
From Verif Require Import M_Base M_Traits M_Util M_ModInt M_Interval M_Array2D M_Lattice M_Quad M_Display M_DisplayAlg.
Import ListNotations.
Local Open Scope Z_scope.

(** lattice.rs:187-282 test_gram_schmidt *)
Example repo_test_gram_schmidt :
  (a <- from_array 3 4 [1; 2; 3; 4; 23; 34; 456; 0; 23; 36; 15; 2] ;; gram_schmidt a)%res = from_array 3 4 [1 # 1; 2 # 1; 3 # 1; 4 # 1; -769 # 30; -949 # 15; 3101 # 10; -2918 # 15; 76229372 # 4159949; 111361550 # 4159949; -12148176 # 4159949; -65626986 # 4159949]%Q /\
  (a <- from_array 4 4 [(-243); (-234); (-2); (-5); 235; 2; 4; 6; 0; 36; (-5); 2; 1; (-1); 1; (-1)] ;; gram_schmidt a)%res = from_array 4 4 [-243 # 1; -234 # 1; -2 # 1; -5 # 1; 12751517 # 113834; -6626653 # 56917; 170057 # 56917; 394949 # 113834; 70966960 # 2973830033; -94068796 # 2973830033; -13881031493 # 2973830033; 6505837994 # 2973830033; 1249570482 # 79030356797; -353698923 # 79030356797; -2489783076 # 11290050971; -1958138064 # 4159492463]%Q.
Proof. repeat apply conj; vm_compute; reflexivity. Qed.

(** lattice.rs:285-369 test_lll_reduce: the first two of the three cases (the third was
    checked once, and is left out because it takes long) *)
Example repo_test_lll_reduce :
  (a <- from_array 4 4 [1; 99; 91; 8; 12; 91; 87; 85; 69; 74; 96; 31; 56; 35; 13; 60] ;; lll_reduce 100 a)%res = from_array 4 4 [11; (-8); (-4); 77; 68; (-25); 5; 23; 45; 43; 17; (-17); (-32); (-4); 66; (-12)] /\
  (a <- from_array 3 3 [27; 301; 408; 926; 155; 210; 814; 336; 94] ;; lll_reduce 100 a)%res = from_array 3 3 [(-112); 181; (-116); 27; 301; 408; 675; 216; (-430)].
Proof. repeat apply conj; vm_compute; reflexivity. Qed.

(** quadratic_numbers.rs:832-905 test_real_quadratic_number_into_reduced (the source lists the
    coefficients from the quadratic one down, the model stores them upwards) *)
Definition reduced_cases : list (quad * option quad) := [
  (Quad 45 36 (-15), Some (Quad 15 12 (-5)));
  (Quad 90 1 9, None);
  (Quad 15 0 90, None);
  (Quad 1 2 (-40), Some (Quad 1 2 (-40)));
  (Quad (-10) 0 0, None);
  (Quad 1 0 (-8), Some (Quad 1 0 (-8)));
  (Quad (-24) 1 9, Some (Quad (-24) 1 9));
  (Quad 3 0 12, None);
  (Quad (-9) (-72) 0, Some (Quad 1 8 0));
  (Quad (-60) 5 12, Some (Quad (-60) 5 12));
  (Quad 0 1 1, Some (Quad 0 1 0));
  (Quad 0 1 (-15), Some (Quad 0 1 0));
  (Quad (-6) 1 0, Some (Quad (-6) 1 0));
  (Quad 40 (-8) 1, None);
  (Quad 0 0 12, Some (Quad 0 1 0));
  (Quad 0 1 10, Some (Quad 0 1 0));
  (Quad 24 (-10) 45, None);
  (Quad 72 1 5, None);
  (Quad (-36) 4 (-9), None);
  (Quad (-12) 0 12, Some (Quad (-1) 1 0));
  (Quad 45 (-2) (-180), Some (Quad 45 (-2) (-180)));
  (Quad 20 0 (-90), Some (Quad 2 0 (-9)));
  (Quad 180 (-15) 72, None);
  (Quad (-120) 1 1, Some (Quad (-120) 1 1));
  (Quad 0 (-90) 0, Some (Quad 0 1 0));
  (Quad 0 1 (-2), Some (Quad 0 1 0));
  (Quad 1 1 1, None);
  (Quad 72 24 (-90), Some (Quad 12 4 (-15)));
  (Quad 6 (-30) 36, Some (Quad (-1) 2 0));
  (Quad 5 (-30) (-40), Some (Quad 1 (-6) (-8)));
  (Quad 24 (-3) 0, Some (Quad (-8) 1 0));
  (Quad (-8) 20 1, Some (Quad (-8) 20 1));
  (Quad 72 (-18) 1, Some (Quad (-12) 1 0));
  (Quad 1 (-30) (-36), Some (Quad 1 (-30) (-36)));
  (Quad 1 8 1, Some (Quad 1 8 1));
  (Quad 1 (-60) 15, Some (Quad 1 (-60) 15));
  (Quad 72 90 2, Some (Quad 36 45 1));
  (Quad 360 (-3) 90, None);
  (Quad 0 0 1, Some (Quad 0 1 0));
  (Quad 36 (-360) 0, Some (Quad (-1) 10 0));
  (Quad (-60) 90 (-1), Some (Quad (-60) 90 (-1)));
  (Quad (-120) (-120) 1, Some (Quad (-120) (-120) 1));
  (Quad (-60) 6 360, Some (Quad (-2) 5 0));
  (Quad (-1) 0 0, None);
  (Quad (-2) 2 8, Some (Quad (-1) 1 4));
  (Quad 0 180 0, Some (Quad 0 1 0));
  (Quad 0 3 (-15), Some (Quad 0 1 0));
  (Quad 15 (-90) 30, Some (Quad 1 (-6) 2));
  (Quad (-45) 0 (-3), None);
  (Quad 24 (-30) 10, None)].
Example repo_test_into_reduced :
  map (fun c => quad_new (fst c)) reduced_cases = map (fun c => Ret (snd c)) reduced_cases.
Proof. vm_compute. reflexivity. Qed.

(** quadratic_numbers.rs:907-945 FLOAT_TEST_CASES with the sign of the listed value, and
    976-993 test_real_quadratic_number_signum *)
Definition float_cases : list (quad * Z) := [
  (Quad 45 36 (-15), (-1));
  (Quad 1 2 (-40), (-1));
  (Quad 3 24 (-10), (-1));
  (Quad 1 9 0, (-1));
  (Quad 1 180 (-24), (-1));
  (Quad (-72) 1 1, 1);
  (Quad 1 (-90) 30, 1);
  (Quad 0 9 (-9), 0);
  (Quad 0 0 (-15), 0);
  (Quad (-60) (-6) 1, 1);
  (Quad 0 (-15) 45, 1);
  (Quad (-90) 1 0, 1);
  (Quad (-60) 6 45, 1);
  (Quad 18 1 (-20), (-1));
  (Quad (-180) 60 1, 1);
  (Quad 0 45 (-9), 0);
  (Quad 20 0 (-90), (-1));
  (Quad (-120) 1 1, 1);
  (Quad 0 (-90) 0, 0);
  (Quad 0 1 (-2), 0);
  (Quad 72 24 (-90), (-1));
  (Quad 6 (-30) 36, 1);
  (Quad (-6) 1 0, 1);
  (Quad 1 18 (-10), (-1));
  (Quad 1 24 (-3), (-1));
  (Quad 5 (-5) 1, 1);
  (Quad 72 18 0, (-1));
  (Quad 1 12 1, (-1));
  (Quad 1 120 (-24), (-1));
  (Quad (-2) 12 1, 1);
  (Quad 3 (-40) 1, 1);
  (Quad 1 0 (-6), (-1));
  (Quad 0 (-90) 1, 1);
  (Quad 0 (-90) (-5), (-1));
  (Quad (-36) 1 4, 1);
  (Quad 0 (-40) 1, 1);
  (Quad 2 1 (-60), (-1))].
Example repo_test_signum :
  map (fun c => (o <- quad_new (fst c) ;; q <- unwrap o ;; unwrap (quad_to_integer (quad_signum q)))%res) float_cases
    = map (fun c => Ret (snd c)) float_cases.
Proof. vm_compute. reflexivity. Qed.

(** quadratic_numbers.rs:995-1027 test_real_quadratic_number_cmp_rational: every listed number
    against n/d for n from -20 to 20 and d from 1 to 19.  For each number and
    each d, how many of the n give Greater and how many give Equal; the rest
    are Less.  These counts were computed from the listed floating-point values
    as the test does. *)
Definition cmp_cases : list (quad * list (Z * Z)) := [
  (Quad 45 36 (-15), [(20, 0); (19, 0); (18, 0); (17, 0); (16, 0); (15, 0); (14, 0); (13, 0); (12, 0); (11, 0); (11, 0); (10, 0); (9, 0); (8, 0); (7, 0); (6, 0); (5, 0); (4, 0); (3, 0)]);
  (Quad 1 2 (-40), [(20, 0); (20, 0); (20, 0); (20, 0); (20, 0); (20, 0); (20, 0); (19, 0); (19, 0); (19, 0); (19, 0); (19, 0); (19, 0); (19, 0); (18, 0); (18, 0); (18, 0); (18, 0); (18, 0)]);
  (Quad 3 24 (-10), [(20, 0); (20, 0); (20, 0); (20, 0); (20, 0); (20, 0); (20, 0); (20, 0); (19, 0); (19, 0); (19, 0); (19, 0); (19, 0); (19, 0); (19, 0); (19, 0); (18, 0); (18, 0); (18, 0)]);
  (Quad 1 9 0, [(20, 0); (20, 0); (20, 0); (20, 0); (20, 0); (20, 0); (20, 0); (20, 0); (19, 1); (19, 0); (19, 0); (19, 0); (19, 0); (19, 0); (19, 0); (19, 0); (19, 0); (18, 1); (18, 0)]);
  (Quad 1 180 (-24), [(20, 0); (20, 0); (20, 0); (20, 0); (20, 0); (20, 0); (20, 0); (20, 0); (20, 0); (20, 0); (20, 0); (20, 0); (20, 0); (20, 0); (20, 0); (20, 0); (20, 0); (20, 0); (20, 0)]);
  (Quad (-72) 1 1, [(28, 1); (36, 1); (41, 0); (41, 0); (41, 0); (41, 0); (41, 0); (41, 0); (41, 0); (41, 0); (41, 0); (41, 0); (41, 0); (41, 0); (41, 0); (41, 0); (41, 0); (41, 0); (41, 0)]);
  (Quad 1 (-90) 30, [(23, 0); (26, 0); (29, 0); (32, 0); (35, 0); (38, 0); (41, 0); (41, 0); (41, 0); (41, 0); (41, 0); (41, 0); (41, 0); (41, 0); (41, 0); (41, 0); (41, 0); (41, 0); (41, 0)]);
  (Quad 0 9 (-9), [(20, 1); (20, 1); (20, 1); (20, 1); (20, 1); (20, 1); (20, 1); (20, 1); (20, 1); (20, 1); (20, 1); (20, 1); (20, 1); (20, 1); (20, 1); (20, 1); (20, 1); (20, 1); (20, 1)]);
  (Quad 0 0 (-15), [(20, 1); (20, 1); (20, 1); (20, 1); (20, 1); (20, 1); (20, 1); (20, 1); (20, 1); (20, 1); (20, 1); (20, 1); (20, 1); (20, 1); (20, 1); (20, 1); (20, 1); (20, 1); (20, 1)]);
  (Quad (-60) (-6) 1, [(32, 0); (41, 0); (41, 0); (41, 0); (41, 0); (41, 0); (41, 0); (41, 0); (41, 0); (41, 0); (41, 0); (41, 0); (41, 0); (41, 0); (41, 0); (41, 0); (41, 0); (41, 0); (41, 0)]);
  (Quad 0 (-15) 45, [(21, 0); (21, 0); (21, 1); (22, 0); (22, 0); (22, 1); (23, 0); (23, 0); (23, 1); (24, 0); (24, 0); (24, 1); (25, 0); (25, 0); (25, 1); (26, 0); (26, 0); (26, 1); (27, 0)]);
  (Quad (-90) 1 0, [(41, 0); (41, 0); (41, 0); (41, 0); (41, 0); (41, 0); (41, 0); (41, 0); (41, 0); (41, 0); (41, 0); (41, 0); (41, 0); (41, 0); (41, 0); (41, 0); (41, 0); (41, 0); (41, 0)]);
  (Quad (-60) 6 45, [(22, 0); (23, 0); (24, 0); (25, 0); (26, 0); (27, 0); (28, 0); (29, 0); (30, 0); (31, 0); (32, 0); (34, 0); (35, 0); (36, 0); (37, 0); (38, 0); (39, 0); (40, 0); (41, 0)]);
  (Quad 18 1 (-20), [(20, 0); (19, 0); (18, 0); (17, 0); (16, 0); (15, 0); (14, 0); (13, 0); (12, 0); (11, 0); (10, 0); (9, 0); (8, 0); (8, 0); (7, 0); (6, 0); (5, 0); (4, 0); (3, 0)]);
  (Quad (-180) 60 1, [(23, 0); (26, 0); (29, 0); (32, 0); (35, 0); (38, 0); (41, 0); (41, 0); (41, 0); (41, 0); (41, 0); (41, 0); (41, 0); (41, 0); (41, 0); (41, 0); (41, 0); (41, 0); (41, 0)]);
  (Quad 0 45 (-9), [(20, 1); (20, 1); (20, 1); (20, 1); (20, 1); (20, 1); (20, 1); (20, 1); (20, 1); (20, 1); (20, 1); (20, 1); (20, 1); (20, 1); (20, 1); (20, 1); (20, 1); (20, 1); (20, 1)]);
  (Quad 20 0 (-90), [(20, 0); (20, 0); (19, 0); (19, 0); (18, 0); (18, 0); (17, 0); (17, 0); (16, 0); (16, 0); (15, 0); (15, 0); (14, 0); (14, 0); (13, 0); (13, 0); (12, 0); (12, 0); (12, 0)]);
  (Quad (-120) 1 1, [(31, 0); (41, 0); (41, 0); (41, 0); (41, 0); (41, 0); (41, 0); (41, 0); (41, 0); (41, 0); (41, 0); (41, 0); (41, 0); (41, 0); (41, 0); (41, 0); (41, 0); (41, 0); (41, 0)]);
  (Quad 0 (-90) 0, [(20, 1); (20, 1); (20, 1); (20, 1); (20, 1); (20, 1); (20, 1); (20, 1); (20, 1); (20, 1); (20, 1); (20, 1); (20, 1); (20, 1); (20, 1); (20, 1); (20, 1); (20, 1); (20, 1)]);
  (Quad 0 1 (-2), [(20, 1); (20, 1); (20, 1); (20, 1); (20, 1); (20, 1); (20, 1); (20, 1); (20, 1); (20, 1); (20, 1); (20, 1); (20, 1); (20, 1); (20, 1); (20, 1); (20, 1); (20, 1); (20, 1)]);
  (Quad 72 24 (-90), [(20, 0); (19, 0); (18, 0); (17, 0); (17, 0); (16, 0); (15, 0); (14, 0); (14, 0); (13, 0); (12, 0); (11, 0); (10, 0); (10, 0); (9, 0); (8, 0); (7, 0); (7, 0); (6, 0)]);
  (Quad 6 (-30) 36, [(21, 0); (21, 1); (22, 0); (22, 1); (23, 0); (23, 1); (24, 0); (24, 1); (25, 0); (25, 1); (26, 0); (26, 1); (27, 0); (27, 1); (28, 0); (28, 1); (29, 0); (29, 1); (30, 0)]);
  (Quad (-6) 1 0, [(26, 1); (32, 1); (38, 1); (41, 0); (41, 0); (41, 0); (41, 0); (41, 0); (41, 0); (41, 0); (41, 0); (41, 0); (41, 0); (41, 0); (41, 0); (41, 0); (41, 0); (41, 0); (41, 0)]);
  (Quad 1 18 (-10), [(20, 0); (20, 0); (20, 0); (20, 0); (20, 0); (20, 0); (20, 0); (20, 0); (20, 0); (20, 0); (20, 0); (20, 0); (20, 0); (20, 0); (20, 0); (20, 0); (20, 0); (20, 0); (19, 0)]);
  (Quad 1 24 (-3), [(20, 0); (20, 0); (20, 0); (20, 0); (20, 0); (20, 0); (20, 0); (20, 0); (20, 0); (20, 0); (20, 0); (20, 0); (20, 0); (20, 0); (20, 0); (20, 0); (20, 0); (20, 0); (20, 0)]);
  (Quad 5 (-5) 1, [(24, 0); (28, 0); (31, 0); (35, 0); (39, 0); (41, 0); (41, 0); (41, 0); (41, 0); (41, 0); (41, 0); (41, 0); (41, 0); (41, 0); (41, 0); (41, 0); (41, 0); (41, 0); (41, 0)]);
  (Quad 72 18 0, [(16, 1); (12, 1); (8, 1); (4, 1); (0, 1); (0, 0); (0, 0); (0, 0); (0, 0); (0, 0); (0, 0); (0, 0); (0, 0); (0, 0); (0, 0); (0, 0); (0, 0); (0, 0); (0, 0)]);
  (Quad 1 12 1, [(20, 0); (20, 0); (20, 0); (20, 0); (20, 0); (20, 0); (20, 0); (20, 0); (20, 0); (20, 0); (20, 0); (19, 0); (19, 0); (19, 0); (19, 0); (19, 0); (19, 0); (19, 0); (19, 0)]);
  (Quad 1 120 (-24), [(20, 0); (20, 0); (20, 0); (20, 0); (20, 0); (20, 0); (20, 0); (20, 0); (20, 0); (20, 0); (20, 0); (20, 0); (20, 0); (20, 0); (20, 0); (20, 0); (20, 0); (20, 0); (20, 0)]);
  (Quad (-2) 12 1, [(21, 0); (21, 0); (21, 0); (21, 0); (21, 0); (21, 0); (22, 0); (22, 0); (22, 0); (22, 0); (22, 0); (22, 0); (23, 0); (23, 0); (23, 0); (23, 0); (23, 0); (23, 0); (24, 0)]);
  (Quad 3 (-40) 1, [(41, 0); (41, 0); (41, 0); (41, 0); (41, 0); (41, 0); (41, 0); (41, 0); (41, 0); (41, 0); (41, 0); (41, 0); (41, 0); (41, 0); (41, 0); (41, 0); (41, 0); (41, 0); (41, 0)]);
  (Quad 1 0 (-6), [(20, 0); (20, 0); (19, 0); (19, 0); (18, 0); (18, 0); (18, 0); (17, 0); (17, 0); (16, 0); (16, 0); (16, 0); (15, 0); (15, 0); (14, 0); (14, 0); (14, 0); (13, 0); (13, 0)]);
  (Quad 0 (-90) 1, [(41, 0); (41, 0); (41, 0); (41, 0); (41, 0); (41, 0); (41, 0); (41, 0); (41, 0); (41, 0); (41, 0); (41, 0); (41, 0); (41, 0); (41, 0); (41, 0); (41, 0); (41, 0); (41, 0)]);
  (Quad 0 (-90) (-5), [(2, 1); (0, 0); (0, 0); (0, 0); (0, 0); (0, 0); (0, 0); (0, 0); (0, 0); (0, 0); (0, 0); (0, 0); (0, 0); (0, 0); (0, 0); (0, 0); (0, 0); (0, 0); (0, 0)]);
  (Quad (-36) 1 4, [(23, 0); (26, 0); (29, 0); (32, 0); (35, 0); (38, 0); (41, 0); (41, 0); (41, 0); (41, 0); (41, 0); (41, 0); (41, 0); (41, 0); (41, 0); (41, 0); (41, 0); (41, 0); (41, 0)]);
  (Quad 0 (-40) 1, [(41, 0); (41, 0); (41, 0); (41, 0); (41, 0); (41, 0); (41, 0); (41, 0); (41, 0); (41, 0); (41, 0); (41, 0); (41, 0); (41, 0); (41, 0); (41, 0); (41, 0); (41, 0); (41, 0)]);
  (Quad 2 1 (-60), [(20, 0); (20, 0); (20, 0); (20, 0); (20, 0); (19, 0); (19, 0); (19, 0); (19, 0); (19, 0); (19, 0); (18, 0); (18, 0); (18, 0); (18, 0); (18, 0); (18, 0); (17, 0); (17, 0)])].
Definition count_cmp (l : list (res comparison)) : option (Z * Z) :=
  let fix lt l := match l with [] => true | Ret Lt :: l => lt l | _ => false end in
  let fix eq k l := match l with Ret Eq :: l => eq (k + 1) l | _ => if lt l then Some k else None end in
  let fix gt k l := match l with
                    | Ret Gt :: l => gt (k + 1) l
                    | _ => match eq 0 l with Some e => Some (k, e) | None => None end
                    end in
  gt 0 l.
Definition cmp_counts (p : quad) : list (option (Z * Z)) :=
  match quad_new p with
  | Ret (Some q) =>
      map (fun d => count_cmp (map (fun n => (* BigRational::new reduces *)
             let n := Z.of_nat n - 20 in let d := Z.of_nat d in let g := Z.gcd n d in
             quad_cmp_ratio q (n / g) (d / g)) (seq 0 41))) (seq 1 19)
  | _ => []
  end.
Example repo_test_cmp_rational :
  map (fun c => cmp_counts (fst c)) cmp_cases = map (fun c => map Some (snd c)) cmp_cases.
Proof. vm_compute. reflexivity. Qed.

(** mod_int.rs:1453-1862 test_div *)
Definition div_cases : list (Z * Z * option Z * Z) := [
  (0, 0, None, 1); (0, 0, None, 2); (0, 1, Some 0, 2); (1, 0, None, 2); (1, 1, Some 1, 2); (0, 0, None, 3); (0, 1, Some 0, 3); (0, 2, Some 0, 3); (1, 0, None, 3); (1, 1, Some 1, 3); (1, 2, Some 2, 3); (2, 0, None, 3); (2, 1, Some 2, 3); (2, 2, Some 1, 3); (0, 0, None, 4); (0, 1, Some 0, 4); (0, 2, None, 4); (0, 3, Some 0, 4); (1, 0, None, 4); (1, 1, Some 1, 4); (1, 2, None, 4); (1, 3, Some 3, 4); (2, 0, None, 4); (2, 1, Some 2, 4); (2, 2, None, 4); (2, 3, Some 2, 4); (3, 0, None, 4); (3, 1, Some 3, 4); (3, 2, None, 4); (3, 3, Some 1, 4); (0, 0, None, 5); (0, 1, Some 0, 5); (0, 2, Some 0, 5); (0, 3, Some 0, 5); (0, 4, Some 0, 5); (1, 0, None, 5); (1, 1, Some 1, 5); (1, 2, Some 3, 5); (1, 3, Some 2, 5); (1, 4, Some 4, 5); (2, 0, None, 5); (2, 1, Some 2, 5); (2, 2, Some 1, 5); (2, 3, Some 4, 5); (2, 4, Some 3, 5); (3, 0, None, 5); (3, 1, Some 3, 5); (3, 2, Some 4, 5); (3, 3, Some 1, 5); (3, 4, Some 2, 5); (4, 0, None, 5); (4, 1, Some 4, 5); (4, 2, Some 2, 5); (4, 3, Some 3, 5); (4, 4, Some 1, 5); (0, 0, None, 6); (0, 1, Some 0, 6); (0, 2, None, 6); (0, 3, None, 6); (0, 4, None, 6); (0, 5, Some 0, 6); (1, 0, None, 6); (1, 1, Some 1, 6); (1, 2, None, 6); (1, 3, None, 6); (1, 4, None, 6); (1, 5, Some 5, 6); (2, 0, None, 6); (2, 1, Some 2, 6); (2, 2, None, 6); (2, 3, None, 6); (2, 4, None, 6); (2, 5, Some 4, 6); (3, 0, None, 6); (3, 1, Some 3, 6); (3, 2, None, 6); (3, 3, None, 6); (3, 4, None, 6); (3, 5, Some 3, 6); (4, 0, None, 6); (4, 1, Some 4, 6); (4, 2, None, 6); (4, 3, None, 6); (4, 4, None, 6); (4, 5, Some 2, 6); (5, 0, None, 6); (5, 1, Some 5, 6); (5, 2, None, 6); (5, 3, None, 6); (5, 4, None, 6); (5, 5, Some 1, 6); (0, 0, None, 7); (0, 1, Some 0, 7); (0, 2, Some 0, 7); (0, 3, Some 0, 7); (0, 4, Some 0, 7); (0, 5, Some 0, 7); (0, 6, Some 0, 7); (1, 0, None, 7); (1, 1, Some 1, 7); (1, 2, Some 4, 7); (1, 3, Some 5, 7); (1, 4, Some 2, 7); (1, 5, Some 3, 7); (1, 6, Some 6, 7); (2, 0, None, 7); (2, 1, Some 2, 7); (2, 2, Some 1, 7); (2, 3, Some 3, 7); (2, 4, Some 4, 7); (2, 5, Some 6, 7); (2, 6, Some 5, 7); (3, 0, None, 7); (3, 1, Some 3, 7); (3, 2, Some 5, 7); (3, 3, Some 1, 7); (3, 4, Some 6, 7); (3, 5, Some 2, 7); (3, 6, Some 4, 7); (4, 0, None, 7); (4, 1, Some 4, 7); (4, 2, Some 2, 7); (4, 3, Some 6, 7); (4, 4, Some 1, 7); (4, 5, Some 5, 7); (4, 6, Some 3, 7); (5, 0, None, 7); (5, 1, Some 5, 7); (5, 2, Some 6, 7); (5, 3, Some 4, 7); (5, 4, Some 3, 7); (5, 5, Some 1, 7); (5, 6, Some 2, 7); (6, 0, None, 7); (6, 1, Some 6, 7); (6, 2, Some 3, 7); (6, 3, Some 2, 7); (6, 4, Some 5, 7); (6, 5, Some 4, 7); (6, 6, Some 1, 7); (0, 0, None, 8); (0, 1, Some 0, 8); (0, 2, None, 8); (0, 3, Some 0, 8); (0, 4, None, 8); (0, 5, Some 0, 8); (0, 6, None, 8); (0, 7, Some 0, 8); (1, 0, None, 8); (1, 1, Some 1, 8); (1, 2, None, 8); (1, 3, Some 3, 8); (1, 4, None, 8); (1, 5, Some 5, 8); (1, 6, None, 8); (1, 7, Some 7, 8); (2, 0, None, 8); (2, 1, Some 2, 8); (2, 2, None, 8); (2, 3, Some 6, 8); (2, 4, None, 8); (2, 5, Some 2, 8); (2, 6, None, 8); (2, 7, Some 6, 8); (3, 0, None, 8); (3, 1, Some 3, 8); (3, 2, None, 8); (3, 3, Some 1, 8); (3, 4, None, 8); (3, 5, Some 7, 8); (3, 6, None, 8); (3, 7, Some 5, 8); (4, 0, None, 8); (4, 1, Some 4, 8); (4, 2, None, 8); (4, 3, Some 4, 8); (4, 4, None, 8); (4, 5, Some 4, 8); (4, 6, None, 8); (4, 7, Some 4, 8); (5, 0, None, 8); (5, 1, Some 5, 8); (5, 2, None, 8); (5, 3, Some 7, 8); (5, 4, None, 8); (5, 5, Some 1, 8); (5, 6, None, 8); (5, 7, Some 3, 8); (6, 0, None, 8); (6, 1, Some 6, 8); (6, 2, None, 8); (6, 3, Some 2, 8); (6, 4, None, 8); (6, 5, Some 6, 8); (6, 6, None, 8); (6, 7, Some 2, 8); (7, 0, None, 8); (7, 1, Some 7, 8); (7, 2, None, 8); (7, 3, Some 5, 8); (7, 4, None, 8); (7, 5, Some 3, 8); (7, 6, None, 8); (7, 7, Some 1, 8); (0, 0, None, 9); (0, 1, Some 0, 9); (0, 2, Some 0, 9); (0, 3, None, 9); (0, 4, Some 0, 9); (0, 5, Some 0, 9); (0, 6, None, 9); (0, 7, Some 0, 9); (0, 8, Some 0, 9); (1, 0, None, 9); (1, 1, Some 1, 9); (1, 2, Some 5, 9); (1, 3, None, 9); (1, 4, Some 7, 9); (1, 5, Some 2, 9); (1, 6, None, 9); (1, 7, Some 4, 9); (1, 8, Some 8, 9); (2, 0, None, 9); (2, 1, Some 2, 9); (2, 2, Some 1, 9); (2, 3, None, 9); (2, 4, Some 5, 9); (2, 5, Some 4, 9); (2, 6, None, 9); (2, 7, Some 8, 9); (2, 8, Some 7, 9); (3, 0, None, 9); (3, 1, Some 3, 9); (3, 2, Some 6, 9); (3, 3, None, 9); (3, 4, Some 3, 9); (3, 5, Some 6, 9); (3, 6, None, 9); (3, 7, Some 3, 9); (3, 8, Some 6, 9); (4, 0, None, 9); (4, 1, Some 4, 9); (4, 2, Some 2, 9); (4, 3, None, 9); (4, 4, Some 1, 9); (4, 5, Some 8, 9); (4, 6, None, 9); (4, 7, Some 7, 9); (4, 8, Some 5, 9); (5, 0, None, 9); (5, 1, Some 5, 9); (5, 2, Some 7, 9); (5, 3, None, 9); (5, 4, Some 8, 9); (5, 5, Some 1, 9); (5, 6, None, 9); (5, 7, Some 2, 9); (5, 8, Some 4, 9); (6, 0, None, 9); (6, 1, Some 6, 9); (6, 2, Some 3, 9); (6, 3, None, 9); (6, 4, Some 6, 9); (6, 5, Some 3, 9); (6, 6, None, 9); (6, 7, Some 6, 9); (6, 8, Some 3, 9); (7, 0, None, 9); (7, 1, Some 7, 9); (7, 2, Some 8, 9); (7, 3, None, 9); (7, 4, Some 4, 9); (7, 5, Some 5, 9); (7, 6, None, 9); (7, 7, Some 1, 9); (7, 8, Some 2, 9); (8, 0, None, 9); (8, 1, Some 8, 9); (8, 2, Some 4, 9); (8, 3, None, 9); (8, 4, Some 2, 9); (8, 5, Some 7, 9); (8, 6, None, 9); (8, 7, Some 5, 9); (8, 8, Some 1, 9); (0, 0, None, 10); (0, 1, Some 0, 10); (0, 2, None, 10); (0, 3, Some 0, 10); (0, 4, None, 10); (0, 5, None, 10); (0, 6, None, 10); (0, 7, Some 0, 10); (0, 8, None, 10); (0, 9, Some 0, 10); (1, 0, None, 10); (1, 1, Some 1, 10); (1, 2, None, 10); (1, 3, Some 7, 10); (1, 4, None, 10); (1, 5, None, 10); (1, 6, None, 10); (1, 7, Some 3, 10); (1, 8, None, 10); (1, 9, Some 9, 10); (2, 0, None, 10); (2, 1, Some 2, 10); (2, 2, None, 10); (2, 3, Some 4, 10); (2, 4, None, 10); (2, 5, None, 10); (2, 6, None, 10); (2, 7, Some 6, 10); (2, 8, None, 10); (2, 9, Some 8, 10); (3, 0, None, 10); (3, 1, Some 3, 10); (3, 2, None, 10); (3, 3, Some 1, 10); (3, 4, None, 10); (3, 5, None, 10); (3, 6, None, 10); (3, 7, Some 9, 10); (3, 8, None, 10); (3, 9, Some 7, 10); (4, 0, None, 10); (4, 1, Some 4, 10); (4, 2, None, 10); (4, 3, Some 8, 10); (4, 4, None, 10); (4, 5, None, 10); (4, 6, None, 10); (4, 7, Some 2, 10); (4, 8, None, 10); (4, 9, Some 6, 10); (5, 0, None, 10); (5, 1, Some 5, 10); (5, 2, None, 10); (5, 3, Some 5, 10); (5, 4, None, 10); (5, 5, None, 10); (5, 6, None, 10); (5, 7, Some 5, 10); (5, 8, None, 10); (5, 9, Some 5, 10); (6, 0, None, 10); (6, 1, Some 6, 10); (6, 2, None, 10); (6, 3, Some 2, 10); (6, 4, None, 10); (6, 5, None, 10); (6, 6, None, 10); (6, 7, Some 8, 10); (6, 8, None, 10); (6, 9, Some 4, 10); (7, 0, None, 10); (7, 1, Some 7, 10); (7, 2, None, 10); (7, 3, Some 9, 10); (7, 4, None, 10); (7, 5, None, 10); (7, 6, None, 10); (7, 7, Some 1, 10); (7, 8, None, 10); (7, 9, Some 3, 10); (8, 0, None, 10); (8, 1, Some 8, 10); (8, 2, None, 10); (8, 3, Some 6, 10); (8, 4, None, 10); (8, 5, None, 10); (8, 6, None, 10); (8, 7, Some 4, 10); (8, 8, None, 10); (8, 9, Some 2, 10); (9, 0, None, 10); (9, 1, Some 9, 10); (9, 2, None, 10); (9, 3, Some 3, 10); (9, 4, None, 10); (9, 5, None, 10); (9, 6, None, 10); (9, 7, Some 7, 10); (9, 8, None, 10); (9, 9, Some 1, 10)].
Example repo_test_mod_div :
  map (fun '(l, r, _, m) =>
         (a <- mi_new (ISigned 64) l m ;; b <- mi_new (ISigned 64) r m ;;
          o <- mi_checked_div (ISigned 64) a b ;; Ret (option_map (fun x => (mi_value x, mi_modulus x)) o))%res) div_cases
  = map (fun '(_, _, e, m) => Ret (option_map (fun x => (x, m)) e)) div_cases.
Proof. vm_compute. reflexivity. Qed.

(** traits.rs:763-768 test_gcd_lcm *)
Example repo_test_ratio_gcd_lcm :
  ratio_gcd_lcm (Qred (12 # 621934)) (Qred (48 # 12934)) = Ret ((6 # 69345641)%Q, (24 # 29)%Q).
Proof. vm_compute. reflexivity. Qed.

(** util.rs:1089-1108 test_for_subsets_of_size *)
Example repo_test_for_subsets_of_size :
  for_subsets_of_size (T := unit) (fun st v => (st ++ [v], None)) 2 0 5 [] =
  ([[0; 1]; [0; 2]; [0; 3]; [0; 4]; [1; 2]; [1; 3]; [1; 4]; [2; 3]; [2; 4]; [3; 4]]%nat, None).
Proof. vm_compute. reflexivity. Qed.

(** interval_arithmetic.rs:1564-1581 test_debug (without the alternate flag) and test_display *)
Example repo_test_interval_text :
  debug_interval (DFI (-123) 456 789) =
    "DyadicFractionInterval { lower_bound_numer: -123, upper_bound_numer: 456, log2_denom: 789 }"%string /\
  show_interval (DFI (-123) 456 789) = "[-123 / 2^789, 456 / 2^789]"%string.
Proof. split; vm_compute; reflexivity. Qed.
