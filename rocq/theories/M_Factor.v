(** Model of factorisation over prime fields and over the integers:
    /repo/src/polynomial/distinct_degree_factorization.rs,
    same_degree_factorization.rs and factorization_over_integers.rs.

    The random generator is an arbitrary stream of integers [rng : nat -> Z]
    together with the number of samples drawn so far; the sample of
    [Uniform::new(0, p)] is the residue of the next integer.  A modulus is a
    [positive]; arithmetic modulo an i32 prime is the arithmetic of
    [mod_coef] (T_ModInt.v shows that the narrow type never overflows). *)
From Coq Require Import ZArith QArith Qcanon.
Set Warnings "-notation-overridden".
From mathcomp Require Import ssreflect ssrfun ssrbool eqtype ssrnat seq div.
From Verif Require Import M_Base M_Traits M_Util M_Poly M_PolyCoef M_PolyAlg.
Set Implicit Arguments.
Unset Strict Implicit.
Unset Printing Implicit Defensive.
Local Open Scope nat_scope.

(** Polynomials modulo [p]: Polynomial<ModularInteger<_, _>>. *)
Notation mc p := (@mod_coef (Zpos p) isT).
Notation mx p := (@mod_exact (Zpos p) isT).
Notation mr p := (@mod_reduce (Zpos p) isT).
Notation mpoly p := (poly (mc p)).
Notation zpoly := (poly int_coef).
(** ModularInteger::new followed by [collect]. *)
Definition to_mod (p : positive) (l : seq Z) : mpoly p :=
  from_iterator (K := mc p) [seq @mk_residue (Zpos p) isT z | z <- l].
(** The [value] parts of the coefficients. *)
Definition mod_values (p : positive) (f : mpoly p) : seq Z :=
  [seq @rv (Zpos p) c | c <- coefficients f].

(** * distinct_degree_factorization.rs *)
Section Modp.
Variable p : positive.

(** distinct_degree_factorization.rs:31-40: the factors pushed by the loop. *)
Fixpoint ddf_loop (n : nat) (x self power : mpoly p) : res (seq (mpoly p)) :=
  match n with
  | 0 => Panic (* unreachable! *)
  | n'.+1 =>
      if poly_len self <= 1 then Ret [::]
      else
        (next <- poly_gcd (mx p) (mr p) (poly_sub power x) self ;;
         self' <- poly_div (mx p) self next ;;
         power' <- powmod (mx p) power (Zpos p) self' ;;
         rest <- ddf_loop n' x self' power' ;;
         Ret (next :: rest))%res
  end.
(** distinct_degree_factorization.rs:18-42 *)
Definition distinct_degree_factorization (self : mpoly p) : res (seq (mpoly p)) :=
  match nonzero_lead self with
  | None => Ret [:: poly_zero (mc p)]
  | Some c =>
      let x := make_monomial (c_one (mc p)) 1 in
      (self' <- div_single (mx p) self c ;;
       power <- powmod (mx p) x (Zpos p) self' ;;
       rest <- ddf_loop (poly_len self') x self' power ;;
       Ret (from_coef (K := mc p) c :: rest))%res
  end.

(** * same_degree_factorization.rs *)
Variable rng : nat -> Z.

(** same_degree_factorization.rs:64-70 *)
Definition random_polynomial (d pos : nat) : mpoly p :=
  from_iterator (K := mc p)
    ([seq @mk_residue (Zpos p) isT (rng i) | i <- iota pos (2 * d - 1)] ++ [:: c_one (mc p)]).
(** same_degree_factorization.rs:64-79: the inner loop; [fuel] bounds the
    number of unlucky draws.  Returns (gcd, polynomial / gcd, samples drawn). *)
Fixpoint sdf_try (fuel d : nat) (e : Z) (f : mpoly p) (pos : nat) :
    res (mpoly p * mpoly p * nat) :=
  match fuel with
  | 0 => NoFuel
  | fuel'.+1 =>
      (t <- powmod (mx p) (random_polynomial d pos) e f ;;
       g <- poly_gcd (mx p) (mr p) f (poly_sub_single (K := mc p) t (c_one (mc p))) ;;
       let pos' := pos + (2 * d - 1) in
       if (0 < degree_or_0 g) && (poly_len g < poly_len f) then
         (q <- exact_div (mx p) f g ;; Ret (g, q, pos'))%res
       else sdf_try fuel' d e f pos')%res
  end.
(** same_degree_factorization.rs:54-83: the stack (top first); [tries] bounds
    the inner loop, [fuel] the number of pops. *)
Fixpoint sdf_loop (fuel tries d : nat) (e : Z) (stack : seq (mpoly p)) (pos : nat) :
    res (seq (mpoly p) * nat) :=
  match stack with
  | [::] => Ret ([::], pos)
  | f :: stack' =>
      match fuel with
      | 0 => NoFuel
      | fuel'.+1 =>
          assert_then (d <= degree_or_0 f)
            (if degree f == Some d then
               ('(l, pos') <- sdf_loop fuel' tries d e stack' pos ;; Ret (f :: l, pos'))%res
             else
               ('(g, q, pos') <- sdf_try tries d e f pos ;;
                sdf_loop fuel' tries d e (q :: g :: stack') pos')%res)
      end
  end.
(** same_degree_factorization.rs:31-86; the debug_assert of line 71 always
    holds (d >= 1 and the leading coefficient is 1). *)
Definition same_degree_factorization (tries d : nat) (self : mpoly p) (pos : nat) :
    res (seq (mpoly p) * nat) :=
  assert_then (0 < d)
    (assert_then (1 < poly_len self)
       (if degree self == Some d then Ret ([:: self], pos)
        else
          match nonzero_lead self with
          | None => Ret ([::], pos)
          | Some c =>
              assert_then (@rv (Zpos p) c =? 1)%Z
                (let e := Z.quot (Zpos p ^ Z.of_nat d - 1) 2 in
                 sdf_loop (2 * poly_len self) tries d e [:: self] pos)
          end)).

(** * factorization_over_integers.rs: the factor tree *)

(** factorization_over_integers.rs:29-36, 80-82, 103-106 *)
Inductive ftree :=
| Leaf (f : mpoly p)
| Node (l r : ftree) (total : nat) (product lb rb : mpoly p).
(** factorization_over_integers.rs:84-87, 108-119; a zero factor panics. *)
Definition total_degree (t : ftree) : res nat :=
  match t with
  | Leaf f => unwrap (degree f)
  | Node _ _ n _ _ _ => Ret n
  end.
(** Key used by the ordering; the factors are never zero. *)
Definition tree_key (t : ftree) : nat :=
  match t with Leaf f => degree_or_0 f | Node _ _ n _ _ _ => n end.
Definition product (t : ftree) : mpoly p :=
  match t with Leaf f => f | Node _ _ _ f _ _ => f end.
(** factorization_over_integers.rs:39-63 *)
Definition new_node (l r : ftree) : res ftree :=
  (dl <- total_degree l ;;
   dr <- total_degree r ;;
   let lp := product l in
   let rp := product r in
   '(g, x, y) <- poly_extended_gcd (mx p) (mr p) lp rp ;;
   assert_then (poly_is_one g)
     (assert_then (poly_len x < poly_len rp)
        (assert_then (poly_len y < poly_len lp)
           (Ret (Node l r (dl + dr) (poly_mul lp rp) x y)))))%res.
(** factorization_over_integers.rs:73-76, 97-99, 131-136 into_leaves *)
Fixpoint leaves (t : ftree) : seq (mpoly p) :=
  match t with
  | Leaf f => [:: f]
  | Node l r _ _ _ _ => leaves l ++ leaves r
  end.

(** factorization_over_integers.rs:201-205: the order is by total degree,
    reversed; [tree_le a b] is a <= b. *)
Definition tree_le (a b : ftree) : bool := tree_key b <= tree_key a.
End Modp.
Arguments Leaf {p} f.
Arguments Node {p} l r total product lb rb.

(** * std::collections::BinaryHeap (external)

    The array algorithm of the standard library; moving a hole is modelled by
    swapping.  Only used for its order of extraction. *)
Section Heap.
Variables (T : Type) (le : T -> T -> bool).
Definition swap_nth (h : seq T) (i j : nat) : seq T :=
  match drop i h, drop j h with
  | a :: _, b :: _ => seq.set_nth a (seq.set_nth a h i b) j a
  | _, _ => h
  end.
Definition le_nth (h : seq T) (i j : nat) : bool :=
  match drop i h, drop j h with
  | a :: _, b :: _ => le a b
  | _, _ => false
  end.
(** BinaryHeap::sift_up *)
Fixpoint sift_up (fuel : nat) (h : seq T) (start pos : nat) : seq T :=
  match fuel with
  | 0 => h
  | fuel'.+1 =>
      if pos <= start then h
      else
        let parent := (pos - 1) %/ 2 in
        if le_nth h pos parent then h
        else sift_up fuel' (swap_nth h pos parent) start parent
  end.
(** BinaryHeap::sift_down_range with end = len *)
Fixpoint sift_down (fuel : nat) (h : seq T) (pos : nat) : seq T :=
  match fuel with
  | 0 => h
  | fuel'.+1 =>
      let child := 2 * pos + 1 in
      if child <= size h - 2 then
        let child := child + (if le_nth h child child.+1 then 1 else 0) in
        if le_nth h child pos then h
        else sift_down fuel' (swap_nth h pos child) child
      else if (child == size h - 1) && ~~ le_nth h child pos then swap_nth h pos child
      else h
  end.
(** BinaryHeap::sift_down_to_bottom: the array and the final position *)
Fixpoint sift_to_bottom (fuel : nat) (h : seq T) (pos : nat) : seq T * nat :=
  match fuel with
  | 0 => (h, pos)
  | fuel'.+1 =>
      let child := 2 * pos + 1 in
      if child <= size h - 2 then
        let child := child + (if le_nth h child child.+1 then 1 else 0) in
        sift_to_bottom fuel' (swap_nth h pos child) child
      else if child == size h - 1 then (swap_nth h pos child, child)
      else (h, pos)
  end.
(** BinaryHeap::from(Vec): rebuild *)
Fixpoint heap_rebuild (n : nat) (h : seq T) : seq T :=
  match n with
  | 0 => h
  | n'.+1 => heap_rebuild n' (sift_down (size h) h n')
  end.
Definition heap_from (h : seq T) : seq T := heap_rebuild (size h %/ 2) h.
Definition heap_push (h : seq T) (x : T) : seq T :=
  sift_up (size h).+1 (rcons h x) 0 (size h).
Definition heap_pop (h : seq T) : option (T * seq T) :=
  match h with
  | [::] => None
  | x :: h' =>
      match rev h' with
      | [::] => Some (x, [::])
      | y :: r =>
          let '(h2, pos) := sift_to_bottom (size h) (y :: rev r) 0 in
          Some (x, sift_up (size h) h2 0 pos)
      end
  end.
End Heap.

(** factorization_over_integers.rs:466-485: each round takes two trees and
    pushes one, so [size heap] rounds are enough.  None: the heap was empty. *)
Fixpoint build_tree (p : positive) (fuel : nat) (heap : seq (ftree p)) :
    res (option (ftree p)) :=
  match heap_pop (@tree_le p) heap with
  | None => Ret None
  | Some (a, heap1) =>
      match heap_pop (@tree_le p) heap1 with
      | None => Ret (Some a)
      | Some (b, heap2) =>
          match fuel with
          | 0 => NoFuel
          | fuel'.+1 =>
              (n <- new_node a b ;; build_tree fuel' (heap_push (@tree_le p) heap2 n))%res
          end
      end
  end.

(** * Hensel lifting *)
(** factorization_over_integers.rs:227-237 set_modulus *)
Definition set_modulus (p q : positive) (f : mpoly p) : mpoly q := to_mod q (mod_values f).
(** Polynomial equality: derived PartialEq, element by element. *)
Fixpoint eqb_seq (l r : seq Z) : bool :=
  match l, r with
  | [::], [::] => true
  | x :: l', y :: r' => Z.eqb x y && eqb_seq l' r'
  | _, _ => false
  end.
Definition mpoly_eqb (p : positive) (f g : mpoly p) : bool :=
  eqb_seq (mod_values f) (mod_values g).

(** factorization_over_integers.rs:207-296; the debug assertions are checked.
    [q] is the new modulus. *)
Fixpoint hensel_lift_step (p q : positive) (t : ftree p) (new_product : mpoly q) :
    res (ftree q) :=
  match t with
  | Leaf _ => Ret (Leaf new_product)
  | Node l r _ _ lb rb =>
      let olp := set_modulus q (product l) in
      let orp := set_modulus q (product r) in
      let olb := set_modulus q lb in
      let orb := set_modulus q rb in
      let error := poly_sub new_product (poly_mul olp orp) in
      ('(quo, rem) <- div_rem (mx q) (poly_mul olb error) orp ;;
       let lp := poly_add (poly_add olp (poly_mul orb error)) (poly_mul quo olp) in
       let rp := poly_add orp rem in
       let berr :=
         poly_sub_single (poly_add (poly_mul olb lp) (poly_mul orb rp)) (c_one (mc q)) in
       '(quo2, rem2) <- div_rem (mx q) (poly_mul olb berr) rp ;;
       let nlb := poly_sub olb rem2 in
       let nrb := poly_sub (poly_sub orb (poly_mul orb berr)) (poly_mul quo2 lp) in
       assert_then (mpoly_eqb (set_modulus p lp) (product l))
         (assert_then (mpoly_eqb (set_modulus p rp) (product r))
            (assert_then (poly_is_one (poly_add (poly_mul nlb lp) (poly_mul nrb rp)))
               (assert_then (mpoly_eqb (poly_mul lp rp) new_product)
                  (l' <- hensel_lift_step l lp ;;
                   r' <- hensel_lift_step r rp ;;
                   dl <- total_degree l' ;;
                   dr <- total_degree r' ;;
                   Ret (Node l' r' (dl + dr) new_product nlb nrb))%res))))%res
  end.

(** factorization_over_integers.rs:65-76 map_coefficients with
    ModularInteger::new(value, modulus): same residues, so nothing changes in
    this model except the narrow integer type. *)

(** factorization_over_integers.rs:299-400 ExactInexactInt, as used at 506-514:
    sqrt of an exact value, plus 1, compared with the modulus.  [true]:
    exact. *)
Definition exact_inexact_sqrt (v : Z) : bool * Z :=
  let s := Z.sqrt v in (Z.eqb (s * s) v, s).
(** factorization_over_integers.rs:365-386: modulus < needed *)
Definition modulus_below (m : positive) (needed : bool * Z) : bool :=
  if needed.1 then (Zpos m <? needed.2)%Z else (Zpos m <=? needed.2)%Z.

(** factorization_over_integers.rs:506-526; [fuel] bounds the number of
    squarings of the modulus. *)
Fixpoint hensel_loop (fuel : nat) (self : zpoly) (needed : bool * Z) (m : positive) (t : ftree m) :
    res {m' : positive & ftree m'} :=
  if modulus_below m needed then
    match fuel with
    | 0 => NoFuel
    | fuel'.+1 =>
        let m' := (m * m)%positive in
        (t' <- hensel_lift_step t (to_mod m' (coefficients self)) ;;
         hensel_loop fuel' self needed t')%res
    end
  else Ret (existT _ m t).

(** factorization_over_integers.rs:497-514 *)
Definition needed_modulus (self : zpoly) : bool * Z :=
  let mn := max_norm int_abs self in
  let lc := lead self in
  let limit2 := (Z.shiftl ((mn * mn) * (lc * lc)) (Z.of_nat (degree_or_0 self * 2))
                 * (Z.of_nat (degree_or_0 self) + 1))%Z in
  let '(ex, s) := exact_inexact_sqrt (limit2 * 4) in
  (ex, (s + 1)%Z).

(** * The subset search *)
(** factorization_over_integers.rs:591-593 Vec::remove for the indexes in
    reverse order *)
Definition remove_indexes {A} (l : seq A) (idx : seq nat) : seq A :=
  foldl (fun l i => take i l ++ drop i.+1 l) l (rev idx).
(** factorization_over_integers.rs:566-578: representative of smallest absolute
    value; the two assertions hold by type. *)
Definition symmetric (m : positive) (c : Z) : Z :=
  if (Zpos m / 2 <? c)%Z then (c - Zpos m)%Z else c.
(** factorization_over_integers.rs:557-598 up to the mutation of the captured
    variables: the factor found, primitive, and the primitive quotient. *)
Definition try_subset (m : positive) (input : zpoly) (mfs : seq (mpoly m)) (idx : seq nat) :
    res (option (zpoly * zpoly)) :=
  let pot := foldl (fun f i => poly_mul f (nth (poly_zero (mc m)) mfs i))
               (from_coef (K := mc m) (@mk_residue (Zpos m) isT (lead input))) idx in
  (pot <- primitive_part int_exact int_content
            (from_iterator (K := int_coef) [seq symmetric m c | c <- mod_values pot]) ;;
   match checked_exact_pseudo_div input pot with
   | None => Ret None
   | Some (q, _) => (q' <- primitive_part int_exact int_content q ;; Ret (Some (pot, q')))%res
   end)%res.
(** The callback given to for_subsets_of_size: the state records what was
    found; a panic also stops the enumeration. *)
Definition subset_callback (m : positive) (input : zpoly) (mfs : seq (mpoly m))
    (st : res (option (zpoly * zpoly * seq nat))) (idx : seq nat) :
    res (option (zpoly * zpoly * seq nat)) * option unit :=
  match try_subset input mfs idx with
  | Ret None => (st, None)
  | Ret (Some (f, q)) => (Ret (Some (f, q, idx)), Some tt)
  | Panic => (Panic, Some tt)
  | NoFuel => (NoFuel, Some tt)
  end.
(** factorization_over_integers.rs:543-604; [k] is the subset size after the
    update at the top of the loop.  Returns the factors pushed, the last
    polynomial included. *)
Fixpoint subset_loop (fuel : nat) (m : positive) (input : zpoly) (mfs : seq (mpoly m)) (k : nat) :
    res (seq zpoly) :=
  if size mfs < k * 2 then Ret [:: input]
  else match fuel with
       | 0 => NoFuel
       | fuel'.+1 =>
           (o <- (for_subsets_of_size (subset_callback input mfs) k 0 (size mfs) (Ret None)).1 ;;
            match o with
            | Some (f, q, idx) =>
                (rest <- subset_loop fuel' q (remove_indexes mfs idx) k ;; Ret (f :: rest))%res
            | None => subset_loop fuel' input mfs k.+1
            end)%res
       end.

(** * factor_square_free_polynomial_with_rng *)
(** factorization_over_integers.rs:412-440: the prime; [fuel] bounds the
    search, [pfuel] each call of next_prime_i32. *)
Fixpoint find_prime (fuel pfuel : nat) (self : zpoly) (prime : Z) : res positive :=
  match fuel with
  | 0 => NoFuel
  | fuel'.+1 =>
      (o <- next_prime_i32 pfuel prime ;;
       prime' <- unwrap o ;;
       if (Z.rem (lead self) prime' =? 0)%Z then find_prime fuel' pfuel self prime'
       else
         let p := Z.to_pos prime' in
         let f := to_mod p (els self) in
         assert_then (degree f == degree self)
           (s <- is_square_free (mx p) (mr p) f ;;
            if s then Ret p else find_prime fuel' pfuel self prime'))%res
  end.
(** factorization_over_integers.rs:443-456: [i] is the index of the first
    polynomial of [l]. *)
Fixpoint split_degrees (p : positive) (rng : nat -> Z) (tries i : nat) (l : seq (mpoly p)) (pos : nat) :
    res (seq (mpoly p) * nat) :=
  match l with
  | [::] => Ret ([::], pos)
  | f :: l' =>
      ('(a, pos1) <-
         (if poly_is_one f then Ret ([::], pos)
          else if i == 0 then Ret ([:: f], pos)
          else same_degree_factorization rng tries i f pos) ;;
       '(b, pos2) <- split_degrees rng tries i.+1 l' pos1 ;;
       Ret (a ++ b, pos2))%res
  end.
(** factorization_over_integers.rs:403-634.  [fuel] bounds the unbounded
    searches (prime, random draws, lifting). *)
Definition factor_square_free (rng : nat -> Z) (fuel : nat) (self : zpoly) (pos : nat) :
    res (seq zpoly * nat) :=
  if degree_or_0 self <= 1 then Ret ([:: self], pos)
  else
    (ct <- content int_content self ;;
     p <- find_prime fuel fuel self 2 ;;
     ds <- distinct_degree_factorization (to_mod p (els self)) ;;
     '(fs, pos') <- split_degrees rng fuel 0 ds pos ;;
     let cl := if (ct =? 1)%Z then [::] else [:: from_coef (K := int_coef) ct] in
     o <- build_tree (size fs) (heap_from (@tree_le p) [seq Leaf f | f <- fs]) ;;
     match o with
     | None => Ret (cl, pos')
     | Some t =>
         (r <- hensel_loop fuel self (needed_modulus self) t ;;
          let mfs := filter (fun f => degree f != Some 0) (leaves (projT2 r)) in
          l <- subset_loop (2 * size mfs).+1 self mfs 1 ;;
          Ret (cl ++ l, pos'))%res
     end)%res.

(** factorization_over_integers.rs:642-657: [i] is the index of the first
    square-free factor of [l]. *)
Fixpoint factor_powers (rng : nat -> Z) (fuel i : nat) (l : seq (poly ratio_coef)) (pos : nat) :
    res (seq (zpoly * nat)) :=
  match l with
  | [::] => Ret [::]
  | f :: l' =>
      ('(fs, pos') <- factor_square_free rng fuel (from_coefs (K := int_coef) (els f)) pos ;;
       rest <- factor_powers rng fuel i.+1 l' pos' ;;
       Ret ([seq (g, i.+1) | g <- filter (fun g => ~~ poly_is_one g) fs] ++ rest))%res
  end.
(** factorization_over_integers.rs:635-659 factor_with_rng: constant factor,
    and the factors with their powers.  factor (660-663) is the instance with
    the generator seeded by 0. *)
Definition factor_with_rng (rng : nat -> Z) (fuel : nat) (self : zpoly) :
    res (Z * seq (zpoly * nat)) :=
  (ct <- content int_content self ;;
   cs <- map_res (fun v => bigint_exact_div v ct) (coefficients self) ;;
   '(_, sf) <- yun ratio_exact ratio_content ratio_reduce
                 (from_iterator (K := ratio_coef) [seq Q2Qc (inject_Z c) | c <- cs]) ;;
   fs <- factor_powers rng fuel 0 sf 0 ;;
   Ret (ct, fs))%res.
