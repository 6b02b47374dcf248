(** Normal form of nested polynomials, and how their text is read. *)
From Coq Require Import ZArith QArith List String Ascii DecimalString.
From Verif Require Import M_Display.
Import ListNotations.

(** Which lists of coefficients are polynomials in normal form (C13): the last
    coefficient is not zero, at every level of nesting. *)
Definition nested_zero {B} (zero : B) (n : nat) : nested B n :=
  match n with O => zero | S n' => [] end.
Fixpoint no_leading_zero {B} (zero : B) (n : nat) : nested B n -> Prop :=
  match n with
  | O => fun _ => True
  | S n' => fun l => (forall c, In c l -> no_leading_zero zero n' c) /\
                     (l <> [] -> last l (nested_zero zero n') <> nested_zero zero n')
  end.

(** How an arithmetic expression is read, variables having the values [env]:
    powers bind more tightly than products and products than sums; numbers are
    decimal; a name consists of letters. *)
Fixpoint letters (s : string) : Prop :=
  match s with
  | EmptyString => True
  | String c s' => In c (list_ascii_of_string "ABCDEFGHIJKLMNOPQRSTUVWXYZ") /\ letters s'
  end.
Definition is_name (s : string) : Prop := s <> ""%string /\ letters s.
Section Read.
Variable env : string -> Q.
Local Open Scope string_scope.
Local Open Scope Q_scope.
Inductive reads_factor : string -> Q -> Prop :=
| read_int s d : NilEmpty.int_of_string s = Some d -> reads_factor s (inject_Z (Z.of_int d))
| read_ratio s d t e k : NilEmpty.int_of_string s = Some d -> NilEmpty.uint_of_string t = Some e ->
    Z.of_uint e = Zpos k -> reads_factor (s ++ "/" ++ t) (Z.of_int d # k)
| read_name s : is_name s -> reads_factor s (env s)
| read_power s t e : is_name s -> NilEmpty.uint_of_string t = Some e ->
    reads_factor (s ++ "^" ++ t) (env s ^ Z.of_nat (Nat.of_uint e))
| read_paren s v : reads_sum s v -> reads_factor ("(" ++ s ++ ")") v
with reads_product : string -> Q -> Prop :=
| read_factor s v : reads_factor s v -> reads_product s v
| read_times s v t w : reads_product s v -> reads_factor t w -> reads_product (s ++ "*" ++ t) (v * w)
with reads_sum : string -> Q -> Prop :=
| read_product s v : reads_product s v -> reads_sum s v
| read_plus s v t w : reads_sum s v -> reads_product t w -> reads_sum (s ++ " + " ++ t) (v + w)
| read_equal s v w : reads_sum s v -> v == w -> reads_sum s w.

(** The value of a nested polynomial: [value] gives that of its base
    coefficients and [name n] is the variable of the level above [n]. *)
Fixpoint sum_powers (x : Q) (k : nat) (l : list Q) : Q :=
  match l with [] => 0 | v :: l' => v * x ^ Z.of_nat k + sum_powers x (S k) l' end.
Fixpoint nested_value {B} (value : B -> Q) (name : nat -> string) (n : nat) : nested B n -> Q :=
  match n with
  | O => value
  | S n' => fun l => sum_powers (env (name n')) 0 (map (nested_value value name n') l)
  end.
End Read.
