(** Proofs about the tree printer. *)
From Coq Require Import Ascii String List Arith Lia.
From Verif Require Import M_Base M_Table M_PrintTree S_PrintTree.
Import ListNotations.
Local Open Scope list_scope.

(** the lines of a block with their prefixes *)
Fixpoint block (above center below : text) (half index : nat) (ls : list text) : list text :=
  match ls with
  | [] => []
  | line :: ls' =>
      ((match Nat.compare index half with Lt => above | Eq => center | Gt => below end) ++ line)
      :: block above center below half (S index) ls'
  end.
Definition leaf_lines (s : text) : list text := match lines s with [] => [[]] | ls => ls end.
Definition node_lines (s : text) : list text := [] :: lines s ++ [[]].
Fixpoint pic (t : tree) (a c b : text) : list text :=
  match t with
  | Leaf s => block (a ++ str " ") (c ++ str ":") (b ++ str " ") (length (leaf_lines s) / 2) 0 (leaf_lines s)
  | NodePair l s r =>
      pic l (a ++ str "    ") (a ++ str " +--") (a ++ str " |  ") ++
      block (a ++ str " | ") (c ++ str "-+:") (b ++ str " | ") (length (node_lines s) / 2) 0 (node_lines s) ++
      pic r (b ++ str " |  ") (b ++ str " +--") (b ++ str "    ")
  end.

Lemma feed_app {St E} (w : St -> text -> St * option E) l1 l2 : forall st,
  feed w (l1 ++ l2) st = match feed w l1 st with (st', None) => feed w l2 st' | failed => failed end.
Proof.
  induction l1 as [|x l1 IH]; intros st; cbn [feed app]; [reflexivity|].
  destruct (w st x) as [st' [e|]]; [reflexivity|apply IH].
Qed.
Lemma write_lines_feed {St E} (w : St -> text -> St * option E) a c b half ls : forall i st,
  write_lines w a c b half i ls st = feed w (block a c b half i ls) st.
Proof.
  induction ls as [|x ls IH]; intros i st; cbn [write_lines block feed]; [reflexivity|].
  cbv zeta. destruct (w st _) as [st' [e|]]; [reflexivity|apply IH].
Qed.
Lemma helper_feed {St E} (w : St -> text -> St * option E) t : forall a c b st,
  helper w t a c b st = feed w (pic t a c b) st.
Proof.
  induction t as [s|l IHl s r IHr]; intros a c b st; cbn [helper pic].
  - apply write_lines_feed.
  - rewrite feed_app, IHl. destruct (feed w (pic l _ _ _) st) as [st1 [e|]]; [reflexivity|].
    rewrite feed_app. cbv zeta. rewrite write_lines_feed. fold (node_lines s).
    destruct (feed w (block _ _ _ _ _ _) st1) as [st2 [e|]]; [reflexivity|]. apply IHr.
Qed.
Lemma feed_collect ls : forall st, feed (fun st l => (st ++ [l], @None unit)) ls st = (st ++ ls, None).
Proof.
  induction ls as [|x ls IH]; intros st; cbn [feed]; [rewrite app_nil_r; reflexivity|].
  rewrite IH, <- app_assoc. reflexivity.
Qed.
Lemma printed_pic t : printed t = pic t [] [] [].
Proof. unfold printed, write_or_print_tree. rewrite helper_feed, feed_collect. reflexivity. Qed.

Lemma write_tree_feed {St E} (w : St -> text -> St * option E) t st :
  write_or_print_tree w t st = feed w (printed t) st.
Proof. rewrite printed_pic. apply helper_feed. Qed.

(** * Order and indentation *)
Lemma block_offsets n a c b half ls : length a = n -> length c = n -> length b = n -> forall i,
  Forall2 (fun l p => fst p <= length l /\ skipn (fst p) l = snd p) (block a c b half i ls) (map (pair n) ls).
Proof.
  intros La Lc Lb. induction ls as [|x ls IH]; intros i; cbn [block map]; [constructor|].
  constructor; [|apply IH]. cbn [fst snd].
  assert (P : forall p : text, length p = n -> n <= length (p ++ x) /\ skipn n (p ++ x) = x).
  { intros p <-. rewrite app_length. split; [lia|]. rewrite skipn_app, skipn_all, Nat.sub_diag. reflexivity. }
  destruct (Nat.compare i half); apply P; assumption.
Qed.
Lemma pic_inorder t : forall d a c b, length a = 4 * d -> length c = 4 * d -> length b = 4 * d ->
  Forall2 (fun l p => fst p <= length l /\ skipn (fst p) l = snd p) (pic t a c b) (inorder d (content t)).
Proof.
  induction t as [s|l IHl s r IHr]; intros d a c b La Lc Lb; cbn [pic content inorder].
  - apply block_offsets; rewrite app_length; cbn [str list_ascii_of_string length]; lia.
  - apply Forall2_app; [apply IHl; rewrite app_length; cbn [str list_ascii_of_string length]; lia|].
    apply Forall2_app; [|apply IHr; rewrite app_length; cbn [str list_ascii_of_string length]; lia].
    apply block_offsets; rewrite app_length; cbn [str list_ascii_of_string length]; lia.
Qed.
Lemma printed_inorder t :
  Forall2 (fun l p => fst p <= length l /\ skipn (fst p) l = snd p) (printed t) (inorder 0 (content t)).
Proof. rewrite printed_pic. apply pic_inorder; reflexivity. Qed.

(** * The tree can be recovered *)
Lemma skipn_pre {A} n (p l : list A) : length p = n -> skipn n (p ++ l) = l.
Proof. intros <-. rewrite skipn_app, skipn_all, Nat.sub_diag. reflexivity. Qed.

Lemma block_cut n a c b a' c' b' half ls : length a = n -> length c = n -> length b = n -> forall i,
  map (skipn n) (block (a ++ a') (c ++ c') (b ++ b') half i ls) = block a' c' b' half i ls.
Proof.
  intros La Lc Lb. induction ls as [|x ls IH]; intros i; cbn [block map]; [reflexivity|].
  rewrite IH. f_equal. destruct (Nat.compare i half); rewrite <- app_assoc; apply skipn_pre; assumption.
Qed.
Lemma pic_cut n t : forall a c b a' c' b', length a = n -> length c = n -> length b = n ->
  map (skipn n) (pic t (a ++ a') (c ++ c') (b ++ b')) = pic t a' c' b'.
Proof.
  induction t as [s|l IHl s r IHr]; intros a c b a' c' b' La Lc Lb; cbn [pic].
  - rewrite <- !app_assoc. apply block_cut; assumption.
  - rewrite !map_app, <- !app_assoc. f_equal; [apply IHl; assumption|]. f_equal; [apply block_cut; assumption|apply IHr; assumption].
Qed.
Lemma pic_cut0 t a c b : length a = 4 -> length c = 4 -> length b = 4 -> map (skipn 4) (pic t a c b) = pic t [] [] [].
Proof. intros. rewrite <- (app_nil_r a), <- (app_nil_r b), <- (app_nil_r c). apply pic_cut; assumption. Qed.

Lemma block_all (P : text -> Prop) a c b half ls : (forall x, P (a ++ x)) -> (forall x, P (c ++ x)) -> (forall x, P (b ++ x)) ->
  forall i, Forall P (block a c b half i ls).
Proof.
  intros Pa Pc Pb. induction ls as [|x ls IH]; intros i; cbn [block]; constructor; [|apply IH].
  destruct (Nat.compare i half); auto.
Qed.
Lemma pic_all (P : text -> Prop) t : forall a c b,
  (forall x, P (a ++ x)) -> (forall x, P (c ++ x)) -> (forall x, P (b ++ x)) -> Forall P (pic t a c b).
Proof.
  induction t as [s|l IHl s r IHr]; intros a c b Pa Pc Pb; cbn [pic].
  - apply block_all; intros x; rewrite <- app_assoc; auto.
  - rewrite !Forall_app. repeat split; [apply IHl|apply block_all|apply IHr]; intros x; rewrite <- app_assoc; auto.
Qed.

Definition long (l : text) : Prop := 4 <= length l.
Lemma pic_long t a c b : length a = 4 -> length c = 4 -> length b = 4 -> Forall long (pic t a c b).
Proof. intros. apply pic_all; intros x; unfold long; rewrite app_length; lia. Qed.

Lemma split_first P1 : forall P2 x1 x2 R1 R2, Forall long P1 -> Forall long P2 -> ~ long x1 -> ~ long x2 ->
  P1 ++ x1 :: R1 = P2 ++ x2 :: R2 -> P1 = P2 /\ x1 :: R1 = x2 :: R2.
Proof.
  induction P1 as [|p P1 IH]; intros [|q P2] x1 x2 R1 R2 F1 F2 N1 N2 E; cbn [app] in E.
  - auto.
  - injection E as -> ->. inversion F2; contradiction.
  - injection E as <- E. inversion F1; contradiction.
  - injection E as -> E. inversion F1; inversion F2; subst. destruct (IH P2 x1 x2 R1 R2) as [-> E2]; auto.
Qed.
Lemma split_last D1 D2 x1 x2 Q1 Q2 : Forall long Q1 -> Forall long Q2 -> ~ long x1 -> ~ long x2 ->
  D1 ++ x1 :: Q1 = D2 ++ x2 :: Q2 -> D1 ++ [x1] = D2 ++ [x2] /\ Q1 = Q2.
Proof.
  intros F1 F2 N1 N2 E. assert (E' := f_equal (@rev text) E). rewrite !rev_app_distr in E'. cbn [rev] in E'.
  rewrite <- !app_assoc in E'. cbn [app] in E'. apply split_first in E'; try assumption; try (apply Forall_rev; assumption).
  destruct E' as [A B]. split.
  - injection B as -> B. apply (f_equal (@rev text)) in B. rewrite !rev_involutive in B. rewrite B. reflexivity.
  - apply (f_equal (@rev text)) in A. rewrite !rev_involutive in A. exact A.
Qed.

Lemma block_snoc a c b half ls x : forall i, exists p, (p = a \/ p = c \/ p = b) /\
  block a c b half i (ls ++ [x]) = block a c b half i ls ++ [p ++ x].
Proof.
  induction ls as [|y ls IH]; intros i; cbn [app block].
  - eexists. split; [|reflexivity]. destruct (Nat.compare i half); auto.
  - destruct (IH (S i)) as (p & Hp & E). exists p. split; [exact Hp|]. rewrite E. reflexivity.
Qed.

(** the block of a node begins and ends with a line of three characters *)
Definition node_block (s : text) : list text :=
  block (str " | ") (str "-+:") (str " | ") (length (node_lines s) / 2) 0 (node_lines s).
Lemma node_block_ends s : exists x D y, node_block s = x :: D ++ [y] /\ ~ long x /\ ~ long y.
Proof.
  unfold node_block. set (h := length (node_lines s) / 2). unfold node_lines. cbn [block].
  destruct (block_snoc (str " | ") (str "-+:") (str " | ") h (lines s) [] 1) as (p & Hp & Q).
  eexists _, _, _. split; [f_equal; exact Q|]. unfold long. split.
  - destruct (Nat.compare 0 h); cbn; lia.
  - destruct Hp as [->|[->| ->]]; cbn; lia.
Qed.

Lemma block_content n a c b half ls : length a = n -> length c = n -> length b = n -> forall i,
  map (skipn n) (block a c b half i ls) = ls.
Proof.
  intros La Lc Lb. induction ls as [|x ls IH]; intros i; cbn [block map]; [reflexivity|].
  rewrite IH. f_equal. destruct (Nat.compare i half); apply skipn_pre; assumption.
Qed.
Lemma node_block_inj s1 s2 : node_block s1 = node_block s2 -> lines s1 = lines s2.
Proof.
  intros E. apply (f_equal (map (skipn 3))) in E. unfold node_block in E. rewrite !block_content in E by reflexivity.
  unfold node_lines in E. injection E as E. apply app_inv_tail in E. exact E.
Qed.

(** a leaf has a line that begins with a colon, a node has none *)
Definition colon (l : text) : Prop := exists r, l = ":"%char :: r.
Lemma block_center a c b half ls : forall i, i <= half -> half < i + length ls -> exists x, In (c ++ x) (block a c b half i ls).
Proof.
  induction ls as [|x ls IH]; intros i L1 L2; cbn [length] in L2; [lia|]. cbn [block].
  destruct (Nat.compare_spec i half) as [->|G|G]; [exists x; left; reflexivity| |lia].
  destruct (IH (S i)) as [y Hy]; [lia|lia|]. exists y. right. exact Hy.
Qed.
Lemma leaf_colon s : exists l, In l (pic (Leaf s) [] [] []) /\ colon l.
Proof.
  cbn [pic]. assert (L : 0 < length (leaf_lines s)) by (unfold leaf_lines; destruct (lines s); cbn [length]; lia).
  destruct (block_center ([] ++ str " ") ([] ++ str ":") ([] ++ str " ") (length (leaf_lines s) / 2) (leaf_lines s) 0) as [x Hx].
  - lia.
  - cbn [plus]. apply Nat.div_lt; lia.
  - exists (([] ++ str ":") ++ x). split; [exact Hx|]. exists x. reflexivity.
Qed.
Lemma node_no_colon l s r : Forall (fun x => ~ colon x) (pic (NodePair l s r) [] [] []).
Proof.
  cbn [pic]. rewrite !Forall_app. repeat split; [apply pic_all|apply block_all|apply pic_all]; intros x [y H]; discriminate.
Qed.

Lemma pic_inj t1 : forall t2, pic t1 [] [] [] = pic t2 [] [] [] -> content t1 = content t2.
Proof.
  induction t1 as [s1|l1 IHl s1 r1 IHr]; intros [s2|l2 s2 r2] E.
  - cbn [pic] in E. apply (f_equal (map (skipn 1))) in E. rewrite !block_content in E by reflexivity.
    cbn [content]. f_equal. exact E.
  - exfalso. destruct (leaf_colon s1) as (x & Hx & C). rewrite E in Hx.
    pose proof (node_no_colon l2 s2 r2) as F. rewrite Forall_forall in F. exact (F x Hx C).
  - exfalso. destruct (leaf_colon s2) as (x & Hx & C). rewrite <- E in Hx.
    pose proof (node_no_colon l1 s1 r1) as F. rewrite Forall_forall in F. exact (F x Hx C).
  - cbn [pic app] in E. fold (node_block s1) (node_block s2) in E.
    set (Pl1 := pic l1 _ _ _) in E. set (Pl2 := pic l2 _ _ _) in E.
    set (Pr1 := pic r1 _ _ _) in E. set (Pr2 := pic r2 _ _ _) in E.
    assert (Fl1 : Forall long Pl1) by (apply pic_long; reflexivity).
    assert (Fl2 : Forall long Pl2) by (apply pic_long; reflexivity).
    assert (Fr1 : Forall long Pr1) by (apply pic_long; reflexivity).
    assert (Fr2 : Forall long Pr2) by (apply pic_long; reflexivity).
    destruct (node_block_ends s1) as (x1 & D1 & y1 & B1 & Nx1 & Ny1).
    destruct (node_block_ends s2) as (x2 & D2 & y2 & B2 & Nx2 & Ny2).
    rewrite B1, B2 in E. cbn [app] in E. apply split_first in E; try assumption. destruct E as [El E].
    injection E as Ex E. rewrite <- !app_assoc in E. cbn [app] in E.
    apply split_last in E; try assumption. destruct E as [Ed Er].
    cbn [content]. f_equal.
    + apply IHl. apply (f_equal (map (skipn 4))) in El. unfold Pl1, Pl2 in El. rewrite !pic_cut0 in El by reflexivity. exact El.
    + apply node_block_inj. rewrite B1, B2, Ex, Ed. reflexivity.
    + apply IHr. apply (f_equal (map (skipn 4))) in Er. unfold Pr1, Pr2 in Er. rewrite !pic_cut0 in Er by reflexivity. exact Er.
Qed.

Lemma printed_inj t1 t2 : printed t1 = printed t2 -> content t1 = content t2.
Proof. rewrite !printed_pic. apply pic_inj. Qed.
