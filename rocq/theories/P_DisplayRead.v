(** The text of a nested polynomial reads as its value. *)
From Coq Require Import ZArith QArith List String Ascii DecimalString DecimalNat DecimalZ DecimalPos Lia.
From Verif Require Import M_Base M_PolyAlg P_PolyAlgRef M_Display S_Display P_Display.
Import ListNotations.
Local Open Scope Q_scope.

Lemma app_assoc_s (a b c : string) : ((a ++ b) ++ c = a ++ (b ++ c))%string.
Proof. induction a as [|x a IH]; cbn; [reflexivity|]. f_equal. exact IH. Qed.

Lemma app_nil_s (a : string) : (a ++ "" = a)%string.
Proof. induction a as [|x a IH]; cbn; [reflexivity|]. f_equal. exact IH. Qed.
Lemma variable_is_name n : is_name (variable_name n).
Proof.
  split.
  - intros E. unfold variable_name, get_variable_name in E.
    destruct (variable_name_ok (fuel:=S n) (n:=n) (ssrnat.leqnn _)) as [s Hs Ls]. rewrite Hs in E. subst s.
    discriminate Ls.
  - pose proof (variable_upper n) as U. induction (variable_name n) as [|c s IH]; [exact I|].
    cbn [chars forallb] in U. apply andb_prop in U. destruct U as [U1 U2]. split; [|exact (IH U2)].
    clear - U1. destruct c as [[] [] [] [] [] [] [] []]; cbn in U1; try discriminate U1; cbn; tauto.
Qed.

Lemma read_show_int z : exists d, NilEmpty.int_of_string (show_int z) = Some d /\ Z.of_int d = z.
Proof.
  exists (Z.to_int z). split; [|apply DecimalZ.of_to].
  unfold show_int. apply NilEmpty.isi.
Qed.
Lemma read_show_usize n : exists e, NilEmpty.uint_of_string (show_usize n) = Some e /\ Nat.of_uint e = n.
Proof.
  exists (Nat.to_uint n). split; [apply NilEmpty.usu|apply DecimalNat.Unsigned.of_to].
Qed.
Lemma read_show_pos k : exists e, NilEmpty.uint_of_string (show_int (Zpos k)) = Some e /\ Z.of_uint e = Zpos k.
Proof.
  exists (Pos.to_uint k). split; [apply NilEmpty.usu|].
  unfold Z.of_uint. rewrite DecimalPos.Unsigned.of_to. reflexivity.
Qed.

Section Reading.
Variables (env : string -> Q) (B : Type) (show : B -> string) (value : B -> Q).
Hypothesis base_reads : forall b, reads_factor env (show b) (value b).

Lemma read_coeff n (IH : forall p, reads_sum env (show_nested show n p) (nested_value env value variable_name n p)) c :
  reads_product env (left_paren n ++ show_nested show n c ++ right_paren n) (nested_value env value variable_name n c).
Proof.
  apply read_factor. destruct n as [|n].
  - cbn [left_paren right_paren Nat.eqb append]. rewrite app_nil_s. apply base_reads.
  - apply read_paren, IH.
Qed.
Lemma read_terms n (IH : forall p, reads_sum env (show_nested show n p) (nested_value env value variable_name n p)) l :
  forall k s v, reads_sum env s v ->
  reads_sum env (s ++ show_terms (nested B n) (show_nested show n) n (S k) l)
    (v + sum_powers (env (variable_name n)) (S k) (map (nested_value env value variable_name n) l)).
Proof.
  induction l as [|c l IHl]; intros k s v R.
  - cbn [show_terms map sum_powers]. rewrite app_nil_s. apply (read_equal _ _ _ _ R). ring.
  - cbn [show_terms map sum_powers]. rewrite <- app_assoc_s.
    eapply read_equal; [|symmetry; apply Qplus_assoc].
    apply IHl. clear IHl.
    pose proof (read_coeff n IH c) as RC.
    destruct k as [|k].
    + cbn [show_term].
      pose proof (read_times env _ _ _ _ RC (read_name env _ (variable_is_name n))) as T.
      rewrite !app_assoc_s in T.
      apply (read_equal _ _ _ _ (read_plus env s v _ _ R T)).
      change (Z.of_nat 1) with 1%Z. cbn [Qpower Qpower_positive]. reflexivity.
    + cbn [show_term]. destruct (read_show_usize (S (S k))) as [e [E1 E2]].
      apply (read_plus env s v _ _ R).
      pose proof (read_times env _ _ _ _ RC (read_power env _ _ _ (variable_is_name n) E1)) as T.
      rewrite E2 in T. rewrite !app_assoc_s in T. exact T.
Qed.
Lemma nested_reads n : forall p, reads_sum env (show_nested show n p) (nested_value env value variable_name n p).
Proof.
  induction n as [|n IH]; intros p; [apply read_product, read_factor, base_reads|].
  cbn [show_nested nested_value]. destruct p as [|c l].
  - apply read_product, read_factor. apply (read_int env "0" (Decimal.Pos (Decimal.D0 Decimal.Nil))). reflexivity.
  - unfold show_poly. cbn [show_terms show_term map sum_powers].
    eapply read_equal; [apply read_terms; [exact IH|apply IH]|]. cbn [Z.of_nat Qpower]. ring.
Qed.
End Reading.

Lemma int_reads env b : reads_factor env (show_int b) (inject_Z b).
Proof. destruct (read_show_int b) as [d [H E]]. rewrite <- E at 2. apply read_int, H. Qed.
Lemma ratio_reads env b : reads_factor env (show_ratio b) b.
Proof.
  destruct b as [a k]. unfold show_ratio. cbn [Qnum Qden]. destruct (Z.eqb_spec (Zpos k) 1) as [E|N].
  - injection E as ->. apply int_reads.
  - destruct (read_show_int a) as [d [H E]]. destruct (read_show_pos k) as [e [H' E']].
    rewrite <- E at 2. apply (read_ratio env _ d _ e k H H' E').
Qed.
Lemma show_int_reads env n p :
  reads_sum env (show_nested show_int n p) (nested_value env inject_Z variable_name n p).
Proof. apply nested_reads, int_reads. Qed.
Lemma show_ratio_reads env n p :
  reads_sum env (show_nested show_ratio n p) (nested_value env (fun q => q) variable_name n p).
Proof. apply nested_reads, ratio_reads. Qed.
