(** What the conditions in the generated text are made of: the sets hold terminals and the
    zero node only, so that a set that is not trivial has a token to test for. *)
From Coq Require Import List Bool PeanoNat Lia.
From Verif Require Import Base GrammarModel GrammarSpec GrammarProofs FirstProofs ParserModel CppSpec EmitModel.
Import ListNotations.

Section G.
Variable g : grammar.
Notation kind := (kind g).
Notation is_term := (is_term g).
Notation is_zero := (is_zero g).
Hypothesis WF : well_formed g = true.

Definition plain_set (s : id -> bool) : Prop := forall x, s x = true -> is_term x = true \/ is_zero x = true.
Definition plain_sets (t : table) : Prop := forall n, plain_set (t n).
Lemma plain_add st d a : plain_sets (fst st) -> plain_set a -> plain_sets (fst (add_to g st d a)).
Proof.
  intros P A. unfold add_to. destruct (news g (fst st) d a); [| exact P]. intros n x. cbn [fst]. unfold upd. destruct (Nat.eqb n d); [| apply P].
  intros H. apply orb_true_iff in H. destruct H as [H | H]; [exact (P _ _ H) | exact (A _ H)].
Qed.
Lemma plain_fmerge b st d s : plain_sets (fst st) -> plain_sets (fst (fmerge g b st d s)).
Proof. intros P. apply plain_add; [exact P |]. intros x H. apply andb_true_iff in H. destruct H as [H _]. exact (P _ _ H). Qed.
Lemma plain_fmerge_opt b st d s : plain_sets (fst st) -> plain_sets (fst (fmerge_opt g b st d s)).
Proof. destruct s; [apply plain_fmerge | auto]. Qed.
Lemma plain_omerge st d s : plain_sets (fst st) -> plain_sets (fst (omerge g st d s)).
Proof. intros P. unfold omerge. destruct (_ || _); [exact P |]. apply plain_add; [exact P |]. intros x H. apply andb_true_iff in H. left. apply H. Qed.
Lemma plain_omerge_opt st d n : plain_sets (fst st) -> plain_sets (fst (omerge_opt g st d n)).
Proof. destruct d; [apply plain_omerge | auto]. Qed.
Lemma plain_down st d n : plain_sets (fst st) -> plain_sets (fst (down g st d n)).
Proof. apply plain_omerge. Qed.

Lemma first_node_plain : forall f b P n st st', first_node g f b P n st = Some st' -> plain_sets (fst st) -> plain_sets (fst st').
Proof.
  induction f as [| f IH]; intros b P n st st' E Q; [discriminate |]. cbn [first_node] in E.
  assert (V : forall b m st st', (if mem m P then Some st else first_node g f b (m :: P) m st) = Some st' -> plain_sets (fst st) -> plain_sets (fst st')).
  { intros b' m s s' H. destruct (mem m P); [injection H as <-; auto |]. eapply IH; eassumption. }
  destruct (kind n) as [| | |s|s|i c a|i c a|[i|]|l r|l r|i s|tt [c|]|i|i|bb ops x|];
    try (injection E as <-; exact Q);
    try (injection E as <-; apply plain_fmerge_opt, plain_fmerge; exact Q);
    try (apply obind_inv in E; destruct E as (s1 & E1 & E); injection E as <-; apply plain_fmerge; first [eapply IH; eassumption | eapply V; eassumption]).
  - apply obind_inv in E; destruct E as (s1 & E1 & E); apply obind_inv in E; destruct E as (s2 & E2 & E); injection E as <-. do 2 apply plain_fmerge. eauto.
  - apply obind_inv in E; destruct E as (s1 & E1 & E); apply obind_inv in E; destruct E as (s2 & E2 & E). pose proof (V _ _ _ _ E2 (V _ _ _ _ E1 Q)) as Q2.
    destruct (eps g _ l) in E.
    + apply obind_inv in E; destruct E as (s3 & E3 & E). injection E as <-. apply plain_fmerge. eapply V; [exact E3 |]. apply plain_fmerge. exact Q2.
    + injection E as <-. apply plain_fmerge. exact Q2.
  - apply obind_inv in E; destruct E as (s1 & E1 & E); injection E as <-. do 2 apply plain_fmerge. eauto.
  - apply obind_inv in E; destruct E as (s1 & E1 & E); apply obind_inv in E; destruct E as (s2 & E2 & E); injection E as <-. do 2 apply plain_fmerge. eauto.
Qed.
Lemma follow_node_plain first : forall f P n st st', follow_node g f first P n st = Some st' -> plain_sets (fst st) -> plain_sets (fst st').
Proof.
  induction f as [| f IH]; intros P n st st' E Q; [discriminate |]. cbn [follow_node] in E.
  assert (V : forall m st st', (if mem m P then Some st else follow_node g f first (m :: P) m st) = Some st' -> plain_sets (fst st) -> plain_sets (fst st')).
  { intros m s s' H. destruct (mem m P); [injection H as <-; auto |]. eapply IH; eassumption. }
  assert (DN : forall st d n, plain_sets (fst st) -> plain_sets (fst (down g st d n))) by (intros; apply plain_down; assumption).
  destruct (kind n) as [| | |s|s|i c a|i c a|[i|]|l r|l r|i s|tt [c|]|i|i|bb ops x|];
    try (injection E as <-; exact Q);
    try (injection E as <-; apply plain_down, plain_omerge_opt; exact Q);
    try (eapply IH; [exact E |]; auto; fail); try (eapply V; [exact E |]; auto; fail).
  - apply obind_inv in E; destruct E as (s1 & E1 & E). eapply V; [exact E |]. eapply V; [exact E1 |]. auto.
  - apply obind_inv in E; destruct E as (s1 & E1 & E). eapply V; [exact E |]. eapply V; [exact E1 |]. destruct (eps g first r); [apply plain_down |]; apply plain_omerge, plain_down; exact Q.
  - apply obind_inv in E; destruct E as (s1 & E1 & E). eapply V; [exact E |]. eapply V; [exact E1 |]. auto.
Qed.
Lemma each_rule_plain F l : (forall e st st', F e st = Some st' -> plain_sets (fst st) -> plain_sets (fst st')) -> forall st st', each_rule F l st = Some st' -> plain_sets (fst st) -> plain_sets (fst st').
Proof.
  intros H. induction l as [| e l IH]; intros st st' E Q; cbn [each_rule] in E; [injection E as <-; exact Q |].
  apply obind_inv in E. destruct E as (s1 & E1 & E). eapply IH; [exact E |]. eapply H; eassumption.
Qed.
Lemma first_loop_plain : forall rounds fuel f t, first_loop g rounds fuel f = Some t -> plain_sets f -> plain_sets t.
Proof.
  induction rounds as [| k IH]; intros fuel f t E Q; [discriminate |]. cbn [first_loop] in E. apply obind_inv in E. destruct E as (st & E1 & E).
  assert (Q1 : plain_sets (fst st)) by (eapply each_rule_plain; [intros e a b; apply first_node_plain | exact E1 | exact Q]).
  destruct (snd st); [eapply IH; eassumption | injection E as <-; exact Q1].
Qed.
Theorem first_plain rounds fuel t : compute_first g rounds fuel = Some t -> plain_sets t.
Proof.
  intros E. eapply first_loop_plain; [exact E |]. intros n x H. unfold first_init in H. apply andb_true_iff in H. destruct H as [Hx H]. apply Nat.eqb_eq in Hx. subst x.
  apply orb_true_iff in H. destruct H as [H | H].
  - right. apply Nat.eqb_eq in H. subst n. unfold GrammarModel.is_zero. rewrite (zero_kind g WF). reflexivity.
  - left. apply mem_in in H. unfold GrammarModel.is_term. destruct (wf_parts g WF) as (_ & _ & _ & T & _). destruct (T n H) as [_ K]. rewrite K. reflexivity.
Qed.
Lemma follow_loop_plain first : forall rounds fuel st t, follow_loop g rounds fuel first st = Some t -> plain_sets (fst st) -> plain_sets t.
Proof.
  induction rounds as [| k IH]; intros fuel st t E Q; [discriminate |]. cbn [follow_loop] in E. apply obind_inv in E. destruct E as (s1 & E1 & E).
  assert (Q1 : plain_sets (fst s1)) by (eapply each_rule_plain; [intros e a b; apply follow_node_plain | exact E1 | exact Q]).
  destruct (snd s1); [eapply IH; [exact E | exact Q1] | injection E as <-; exact Q1].
Qed.
Theorem follow_plain rounds fuel first t : compute_follow g rounds fuel first = Some t -> plain_sets t.
Proof.
  intros E. eapply follow_loop_plain; [exact E |]. intros n x H. cbn [fst] in H. unfold follow_init in H. apply andb_true_iff in H. destruct H as [H _]. apply Nat.eqb_eq in H. subst x.
  left. unfold well_formed in WF. rewrite !andb_true_iff in WF. tauto.
Qed.
Lemma plain_full t n : plain_sets t -> trivial g (t n) = false -> terminals_in g (t n) <> [].
Proof.
  intros P T. unfold trivial in T. assert (X : exists x, In x (seq 0 (size g)) /\ negb (t n x) || is_zero x = false).
  { clear P. induction (seq 0 (size g)) as [| y l IH]; [discriminate |]. cbn [forallb] in T. destruct (negb (t n y) || is_zero y) eqn:Y; [| exists y; split; [left; reflexivity | exact Y]].
    destruct (IH T) as (x & I & E). exists x. split; [right; exact I | exact E]. }
  destruct X as (x & I & E). apply orb_false_iff in E. destruct E as [E1 E2]. apply negb_false_iff in E1.
  intros N. assert (J : In x (terminals_in g (t n))) by (apply filter_In; split; [exact I |]; rewrite E1; destruct (P n x E1) as [K | K]; [rewrite K; reflexivity | congruence]).
  rewrite N in J. exact J.
Qed.
End G.
