(** Setting one bound of an interval. *)
From Coq Require Import ZArith Reals Lra Lia.
From Verif Require Import M_Base M_Interval S_Interval.
Local Open Scope R_scope.

Lemma dyadic_0 n : dyadic 0 n = 0.
Proof. unfold dyadic. unfold Rdiv. apply Rmult_0_l. Qed.

Lemma set_lower_bound i v :
  ((v <= dhi i)%Z -> exists r, dfi_set_lower_bound_numer i v = Ret r /\ dfi_ok r /\ dlog r = dlog i /\
     forall x, inI x r <-> dyadic v (dlog i) <= x <= dyadic (dhi i) (dlog i)) /\
  ((dhi i < v)%Z -> dfi_set_lower_bound_numer i v = Panic).
Proof.
  unfold dfi_set_lower_bound_numer, assert_then. destruct (Z.leb_spec v (dhi i)); split; intros H1; try lia; [|reflexivity].
  eexists. split; [reflexivity|]. split; [exact H1|]. split; [reflexivity|]. intros x. reflexivity.
Qed.
Lemma set_upper_bound i v :
  ((dlo i <= v)%Z -> exists r, dfi_set_upper_bound_numer i v = Ret r /\ dfi_ok r /\ dlog r = dlog i /\
     forall x, inI x r <-> dyadic (dlo i) (dlog i) <= x <= dyadic v (dlog i)) /\
  ((v < dlo i)%Z -> dfi_set_upper_bound_numer i v = Panic).
Proof.
  unfold dfi_set_upper_bound_numer, assert_then. destruct (Z.leb_spec (dlo i) v); split; intros H1; try lia; [|reflexivity].
  eexists. split; [reflexivity|]. split; [exact H1|]. split; [reflexivity|]. intros x. reflexivity.
Qed.
Lemma set_lower_bound_zero i :
  ((0 <= dhi i)%Z -> exists r, dfi_set_lower_bound_to_zero i = Ret r /\ dfi_ok r /\ dlog r = dlog i /\
     forall x, inI x r <-> 0 <= x <= dyadic (dhi i) (dlog i)) /\
  ((dhi i < 0)%Z -> dfi_set_lower_bound_to_zero i = Panic).
Proof.
  unfold dfi_set_lower_bound_to_zero, assert_then. destruct (Z.ltb_spec (dhi i) 0); split; intros H1; try lia; [reflexivity|].
  eexists. split; [reflexivity|]. split; [exact H1|]. split; [reflexivity|]. intros x. unfold inI. cbn [dlo dhi dlog]. rewrite dyadic_0. reflexivity.
Qed.
Lemma set_upper_bound_zero i :
  ((dlo i <= 0)%Z -> exists r, dfi_set_upper_bound_to_zero i = Ret r /\ dfi_ok r /\ dlog r = dlog i /\
     forall x, inI x r <-> dyadic (dlo i) (dlog i) <= x <= 0) /\
  ((0 < dlo i)%Z -> dfi_set_upper_bound_to_zero i = Panic).
Proof.
  unfold dfi_set_upper_bound_to_zero, assert_then. destruct (Z.ltb_spec 0 (dlo i)); split; intros H1; try lia; [reflexivity|].
  eexists. split; [reflexivity|]. split; [exact H1|]. split; [reflexivity|]. intros x. unfold inI. cbn [dlo dhi dlog]. rewrite dyadic_0. reflexivity.
Qed.
