(** Property theorems: the text forms of polynomials ([reads_sum] of S_Display.v
    says how an expression is read; [nested B n] are polynomials in [n] variables
    over [B], given by their coefficients). *)
From Coq Require Import ZArith QArith List String.
From Verif Require Import M_Display S_Display P_Display P_DisplayRead.
Import ListNotations.

(** C71: the text read as an arithmetic expression has the value of the
    polynomial, whatever the values of the variables. *)
Theorem C71_int_value : forall env n (p : nested Z n),
  reads_sum env (show_nested show_int n p) (nested_value env inject_Z variable_name n p).
Proof. exact show_int_reads. Qed.
Print Assumptions C71_int_value.
Theorem C71_ratio_value : forall env n (p : nested Q n),
  reads_sum env (show_nested show_ratio n p) (nested_value env (fun q => q) variable_name n p).
Proof. exact show_ratio_reads. Qed.
Print Assumptions C71_ratio_value.
(** Different polynomials have different texts: over integers, rationals and
    integers modulo [m], nested to any depth. *)
Theorem C71_int : forall n (p q : nested Z n), no_leading_zero 0%Z n p -> no_leading_zero 0%Z n q ->
  show_nested show_int n p = show_nested show_int n q -> p = q.
Proof. exact show_int_nested_inj. Qed.
Print Assumptions C71_int.
Theorem C71_ratio : forall n (p q : nested Q n), no_leading_zero (0 # 1)%Q n p -> no_leading_zero (0 # 1)%Q n q ->
  show_nested show_ratio n p = show_nested show_ratio n q -> p = q.
Proof. exact show_ratio_nested_inj. Qed.
Print Assumptions C71_ratio.
Theorem C71_mod_int : forall m n (p q : nested Z n), no_leading_zero 0%Z n p -> no_leading_zero 0%Z n q ->
  show_nested (fun v => show_mod_int (v, m)) n p = show_nested (fun v => show_mod_int (v, m)) n q -> p = q.
Proof. exact show_mod_nested_inj. Qed.
Print Assumptions C71_mod_int.
(** The text of a factor determines the polynomial and its power. *)
Theorem C71_factor : forall n (p q : nested Z (S n)) k k',
  no_leading_zero 0%Z (S n) p -> no_leading_zero 0%Z (S n) q ->
  show_factor (nested Z n) (show_nested show_int n) n p k =
  show_factor (nested Z n) (show_nested show_int n) n q k' -> p = q /\ k = k'.
Proof. exact show_int_factor_inj. Qed.
Print Assumptions C71_factor.
Example C71_example :
  (no_leading_zero 0%Z 2 [[1; -2]; []; [0; 0; 5]])%Z /\
  show_nested show_int 2 [[1; -2]; []; [0; 0; 5]]%Z = "1 + -2*X + (0)*Y + (0 + 0*X + 5*X^2)*Y^2"%string /\
  show_nested show_ratio 1 [(1 # 2)%Q; (0 # 1)%Q; (-3 # 4)%Q] = "1/2 + 0*X + -3/4*X^2"%string /\
  show_nested (fun v => show_mod_int (v, 5%Z)) 1 [3; 1]%Z = "mod_int(3, 5) + mod_int(1, 5)*X"%string /\
  show_factor Z show_int 0 [1; 2]%Z 3 = "(1 + 2*X)^3"%string /\
  nested_value (fun s => if String.eqb s "X" then 2%Q else 3%Q) inject_Z variable_name 2 [[1; -2]; []; [0; 0; 5]]%Z == 177.
Proof.
  split; [|repeat split; vm_compute; reflexivity].
  split; [|intros _; discriminate].
  intros c [<-|[<-|[<-|[]]]]; (split; [intros c _; exact I|]); intros H; try discriminate; contradiction.
Qed.
