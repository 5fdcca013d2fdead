(** What any finished computation of FIRST and FOLLOW satisfies. *)
From Coq Require Import List Bool PeanoNat Lia.
From Verif Require Import Base GrammarModel GrammarSpec GrammarProofs FirstProofs FollowProofs GrammarTermProofs FirstSoundProofs.
Import ListNotations.

Section G.
Variable g : grammar.
Notation kind := (kind g).
Notation derives := (derives g).

(** ** Sets only grow *)
Definition up (st st' : table * bool) : Prop := grows (fst st) (fst st').
Lemma up_refl st : up st st. Proof. intros n x H. exact H. Qed.
Lemma up_trans a b c : up a b -> up b c -> up a c.
Proof. intros A B n x H. apply B, A, H. Qed.
Lemma up_add st d a : up st (add_to g st d a).
Proof.
  unfold add_to. destruct (news g (fst st) d a); [|apply up_refl]. intros n x H. cbn [fst]. unfold upd.
  destruct (Nat.eqb n d) eqn:E; [|exact H]. apply Nat.eqb_eq in E. subst d. rewrite H. reflexivity.
Qed.
Lemma up_fmerge b st d s : up st (fmerge g b st d s). Proof. apply up_add. Qed.
Lemma up_fmerge_opt b st d s : up st (fmerge_opt g b st d s).
Proof. destruct s; [apply up_fmerge|apply up_refl]. Qed.
Lemma first_node_up : forall f b P n st st', first_node g f b P n st = Some st' -> up st st'.
Proof.
  induction f as [|f IH]; intros b P n st st' E; [discriminate|]. cbn [first_node] in E.
  assert (V : forall b m st st', (if mem m P then Some st else first_node g f b (m :: P) m st) = Some st' -> up st st').
  { intros b' m s s' H. destruct (mem m P); [injection H as <-; apply up_refl|]. eapply IH; eassumption. }
  destruct (kind n) as [| | |s|s|i c a|i c a|[i|]|l r|l r|i s|tt [c|]|i|i|bb ops x|];
    try (injection E as <-; apply up_refl);
    try (injection E as <-; eapply up_trans; [apply up_fmerge|apply up_fmerge_opt]);
    try (apply obind_inv in E; destruct E as (s1 & E1 & E); injection E as <-; eapply up_trans; [first [eapply IH; exact E1|eapply V; exact E1]|apply up_fmerge]).
  - apply obind_inv in E; destruct E as (s1 & E1 & E); apply obind_inv in E; destruct E as (s2 & E2 & E); injection E as <-.
    eapply up_trans; [eapply V; exact E1|]. eapply up_trans; [eapply V; exact E2|]. eapply up_trans; apply up_fmerge.
  - apply obind_inv in E; destruct E as (s1 & E1 & E); apply obind_inv in E; destruct E as (s2 & E2 & E).
    eapply up_trans; [eapply V; exact E1|]. eapply up_trans; [eapply V; exact E2|].
    destruct (eps g _ l) in E.
    + apply obind_inv in E; destruct E as (s3 & E3 & E). injection E as <-. eapply up_trans; [apply up_fmerge|].
      eapply up_trans; [eapply V; exact E3|]. apply up_fmerge.
    + injection E as <-. apply up_fmerge.
  - apply obind_inv in E; destruct E as (s1 & E1 & E); injection E as <-.
    eapply up_trans; [eapply V; exact E1|]. eapply up_trans; apply up_fmerge.
  - apply obind_inv in E; destruct E as (s1 & E1 & E); apply obind_inv in E; destruct E as (s2 & E2 & E); injection E as <-.
    eapply up_trans; [eapply V; exact E1|]. eapply up_trans; [eapply V; exact E2|]. eapply up_trans; apply up_fmerge.
Qed.
Lemma up_omerge st d s : up st (omerge g st d s).
Proof. unfold omerge. destruct (is_zero g d || is_term g d); [apply up_refl|apply up_add]. Qed.
Lemma up_omerge_opt st d n : up st (omerge_opt g st d n).
Proof. destruct d; [apply up_omerge|apply up_refl]. Qed.
Lemma up_down st d n : up st (down g st d n). Proof. apply up_omerge. Qed.
Lemma follow_node_up F : forall f P n st st', follow_node g f F P n st = Some st' -> up st st'.
Proof.
  induction f as [|f IH]; intros P n st st' E; [discriminate|]. cbn [follow_node] in E.
  assert (V : forall m st st', (if mem m P then Some st else follow_node g f F (m :: P) m st) = Some st' -> up st st').
  { intros m s s' H. destruct (mem m P); [injection H as <-; apply up_refl|]. eapply IH; eassumption. }
  assert (D : forall s d e, up s (down g s d e)) by (intros; apply up_down).
  destruct (kind n) as [| | |s|s|i c a|i c a|[i|]|l r|l r|i s|tt [c|]|i|i|bb ops x|];
    try (injection E as <-; apply up_refl);
    try (injection E as <-; eapply up_trans; [apply up_omerge_opt|apply up_down]);
    try (eapply up_trans; [apply up_down|first [eapply IH; exact E|eapply V; exact E]]).
  - apply obind_inv in E; destruct E as (s1 & E1 & E).
    eapply up_trans; [|eapply V; exact E]. eapply up_trans; [|eapply V; exact E1]. eapply up_trans; apply up_down.
  - apply obind_inv in E; destruct E as (s1 & E1 & E).
    eapply up_trans; [|eapply V; exact E]. eapply up_trans; [|eapply V; exact E1].
    destruct (eps g F r); [eapply up_trans; [|apply up_down]|]; (eapply up_trans; [apply up_down|apply up_omerge]).
  - eapply up_trans; [|eapply V; exact E]. eapply up_trans; apply up_down.
  - apply obind_inv in E; destruct E as (s1 & E1 & E).
    eapply up_trans; [|eapply V; exact E]. eapply up_trans; [|eapply V; exact E1]. eapply up_trans; apply up_down.
Qed.
Lemma each_rule_up F l : (forall e st st', F e st = Some st' -> up st st') ->
  forall st st', each_rule F l st = Some st' -> up st st'.
Proof.
  intros H. induction l as [|e l IH]; intros st st' E; cbn [each_rule] in E; [injection E as <-; apply up_refl|].
  apply obind_inv in E. destruct E as (s1 & E1 & E). eapply up_trans; [eapply H; exact E1|]. eapply IH; exact E.
Qed.
Lemma first_loop_some : forall rounds fuel f t, first_loop g rounds fuel f = Some t ->
  grows f t /\ forall e, In e (grules g) -> exists k, quiet g t k false [e] e.
Proof.
  induction rounds as [|k IH]; intros fuel f t E; [discriminate|]. cbn [first_loop] in E.
  apply obind_inv in E. destruct E as (st & E1 & E).
  assert (U : up (f, false) st) by (eapply each_rule_up; [|exact E1]; intros e s s'; apply first_node_up).
  destruct (snd st) eqn:C.
  - destruct (IH fuel (fst st) t E) as [G Q]. split; [|exact Q]. intros n x H. apply G, U, H.
  - injection E as <-. split; [exact U|]. intros e He. exists fuel.
    assert (Q : st = (f, false)).
    { eapply (each_rule_calm _ _ (fun e s s' => first_node_calm g fuel false [e] e s s')); [exact E1|exact C]. }
    subst st. cbn [fst]. apply (each_rule_quiet (first_rule g fuel) (grules g) f); [|exact E1|exact He].
    intros e' s s'. apply first_node_calm.
Qed.
Lemma follow_loop_some t : forall rounds fuel st o, follow_loop g rounds fuel t st = Some o ->
  grows (fst st) o /\ forall e, In e (grules g) -> exists k, fquiet g t o k [e] e.
Proof.
  induction rounds as [|k IH]; intros fuel f o E; [discriminate|]. cbn [follow_loop] in E.
  apply obind_inv in E. destruct E as (st & E1 & E).
  assert (U : up f st) by (eapply each_rule_up; [|exact E1]; intros e s s'; apply follow_node_up).
  destruct (snd st) eqn:C.
  - destruct (IH fuel (fst st, false) o E) as [G Q]. split; [|exact Q]. intros n x H. apply G, U, H.
  - injection E as <-. split; [exact U|]. intros e He. exists fuel.
    assert (Q : st = f).
    { eapply (each_rule_calm _ _ (fun e s s' => follow_node_calm g t fuel [e] e s s')); [exact E1|exact C]. }
    subst st. destruct f as [f c]. cbn [fst snd] in *. subst c. apply (each_rule_quiet (follow_rule g fuel t) (grules g) f); [|exact E1|exact He].
    intros e' s s'. apply follow_node_calm.
Qed.

(** ** The bounds do not matter *)
Lemma first_node_more : forall f b P n st st' f', first_node g f b P n st = Some st' -> f <= f' -> first_node g f' b P n st = Some st'.
Proof.
  induction f as [|f IH]; intros b P n st st' f' E L; [discriminate|]. destruct f' as [|f']; [lia|]. apply le_S_n in L. cbn [first_node] in E |- *.
  assert (V : forall b m st st', (if mem m P then Some st else first_node g f b (m :: P) m st) = Some st' ->
    (if mem m P then Some st else first_node g f' b (m :: P) m st) = Some st').
  { intros b' m s s' H. destruct (mem m P); [exact H|]. eapply IH; eassumption. }
  destruct (kind n) as [| | |s|s|i c a|i c a|[i|]|l r|l r|i s|tt [c|]|i|i|bb ops x|]; try exact E;
    try (apply obind_inv in E; destruct E as (s1 & E1 & E);
      first [rewrite (IH _ _ _ _ _ f' E1 L)|rewrite (V _ _ _ _ E1)]; cbn [obind]; try exact E);
    try (apply obind_inv in E; destruct E as (s2 & E2 & E); rewrite (V _ _ _ _ E2); cbn [obind]; try exact E).
  destruct (eps g _ l); [|exact E]. apply obind_inv in E; destruct E as (s3 & E3 & E). rewrite (V _ _ _ _ E3). exact E.
Qed.
Lemma follow_node_more F : forall f P n st st' f', follow_node g f F P n st = Some st' -> f <= f' -> follow_node g f' F P n st = Some st'.
Proof.
  induction f as [|f IH]; intros P n st st' f' E L; [discriminate|]. destruct f' as [|f']; [lia|]. apply le_S_n in L. cbn [follow_node] in E |- *.
  assert (V : forall m st st', (if mem m P then Some st else follow_node g f F (m :: P) m st) = Some st' ->
    (if mem m P then Some st else follow_node g f' F (m :: P) m st) = Some st').
  { intros m s s' H. destruct (mem m P); [exact H|]. eapply IH; eassumption. }
  destruct (kind n) as [| | |s|s|i c a|i c a|[i|]|l r|l r|i s|tt [c|]|i|i|bb ops x|]; try exact E;
    try (apply (IH _ _ _ _ f' E L)); try (apply V; exact E);
    try (apply obind_inv in E; destruct E as (s1 & E1 & E); rewrite (V _ _ _ E1); cbn [obind]; apply V; exact E).
Qed.
Lemma each_rule_more F F' l : (forall e st st', F e st = Some st' -> F' e st = Some st') ->
  forall st st', each_rule F l st = Some st' -> each_rule F' l st = Some st'.
Proof.
  intros H. induction l as [|e l IH]; intros st st' E; cbn [each_rule] in *; [exact E|].
  apply obind_inv in E. destruct E as (s1 & E1 & E). rewrite (H _ _ _ E1). cbn [obind]. apply IH, E.
Qed.
Lemma first_loop_more : forall rounds fuel f t rounds' fuel', first_loop g rounds fuel f = Some t -> rounds <= rounds' -> fuel <= fuel' ->
  first_loop g rounds' fuel' f = Some t.
Proof.
  induction rounds as [|k IH]; intros fuel f t rounds' fuel' E L1 L2; [discriminate|]. destruct rounds' as [|k']; [lia|]. cbn [first_loop] in *.
  apply obind_inv in E. destruct E as (st & E1 & E).
  rewrite (each_rule_more (first_rule g fuel) (first_rule g fuel') (grules g)) with (st' := st).
  - cbn [obind]. destruct (snd st); [eapply IH; [exact E|lia|exact L2]|exact E].
  - intros e s s' H. eapply first_node_more; eassumption.
  - exact E1.
Qed.
Lemma follow_loop_more F : forall rounds fuel f t rounds' fuel', follow_loop g rounds fuel F f = Some t -> rounds <= rounds' -> fuel <= fuel' ->
  follow_loop g rounds' fuel' F f = Some t.
Proof.
  induction rounds as [|k IH]; intros fuel f t rounds' fuel' E L1 L2; [discriminate|]. destruct rounds' as [|k']; [lia|]. cbn [follow_loop] in *.
  apply obind_inv in E. destruct E as (st & E1 & E).
  rewrite (each_rule_more (follow_rule g fuel F) (follow_rule g fuel' F) (grules g)) with (st' := st).
  - cbn [obind]. destruct (snd st); [eapply IH; [exact E|lia|exact L2]|exact E].
  - intros e s s' H. eapply follow_node_more; eassumption.
  - exact E1.
Qed.
Lemma compute_first_same r1 f1 t1 r2 f2 t2 : compute_first g r1 f1 = Some t1 -> compute_first g r2 f2 = Some t2 -> t1 = t2.
Proof.
  unfold compute_first. intros A B.
  pose proof (first_loop_more _ _ _ _ (Nat.max r1 r2) (Nat.max f1 f2) A (Nat.le_max_l _ _) (Nat.le_max_l _ _)) as A'.
  pose proof (first_loop_more _ _ _ _ (Nat.max r1 r2) (Nat.max f1 f2) B (Nat.le_max_r _ _) (Nat.le_max_r _ _)) as B'. congruence.
Qed.
Lemma compute_follow_same F r1 f1 t1 r2 f2 t2 : compute_follow g r1 f1 F = Some t1 -> compute_follow g r2 f2 F = Some t2 -> t1 = t2.
Proof.
  unfold compute_follow. intros A B.
  pose proof (follow_loop_more _ _ _ _ _ (Nat.max r1 r2) (Nat.max f1 f2) A (Nat.le_max_l _ _) (Nat.le_max_l _ _)) as A'.
  pose proof (follow_loop_more _ _ _ _ _ (Nat.max r1 r2) (Nat.max f1 f2) B (Nat.le_max_r _ _) (Nat.le_max_r _ _)) as B'. congruence.
Qed.

(** ** What is written is met *)
Hypothesis WF : well_formed g = true.
Lemma chain_met x b : forall ops m, chain g x m b ops = true -> met g m -> met g b.
Proof.
  induction ops as [|o ops IH]; intros m C M; cbn [chain] in C; [apply Nat.eqb_eq in C; subst; exact M|].
  apply andb_true_iff in C. destruct C as [_ C]. destruct (kind m) eqn:K; try discriminate.
  repeat rewrite andb_true_iff in C. destruct C as [_ C]. apply (IH _ C). eapply met_kid; [exact M|]. unfold kids. rewrite K. right; left; reflexivity.
Qed.
Lemma written_met n : written g n -> met g n.
Proof.
  induction 1 as [e He|n m _ M H]; [apply met_rule; exact He|]. unfold child in H.
  assert (KID : forall y, In y (kids g n) -> met g y) by (intros y Hy; eapply met_kid; eassumption). unfold kids in KID.
  destruct (kind n) as [| | |s|s|i c a|i c a|[i|]|l r|l r|i s|tt [c|]|i|i|bb ops x|] eqn:K; try (destruct H; fail); subst;
    try (apply KID; left; reflexivity); try (destruct H as [-> | ->]; apply KID; [left|right; left]; reflexivity).
  - destruct (star_shape g WF n i c a (or_intror K)) as (_ & _ & KC & KA). eapply met_kid; [apply KID; left; reflexivity|]. unfold kids. rewrite KC. left; reflexivity.
  - destruct (star_shape g WF n i c a (or_introl K)) as (_ & _ & KC & KA).
    assert (MC : met g c) by (eapply met_kid; [apply KID; left; reflexivity|]; unfold kids; rewrite KA; right; left; reflexivity).
    eapply met_kid; [exact MC|]. unfold kids. rewrite KC. left; reflexivity.
  - destruct (oper_shape g WF n bb ops x K) as (_ & _ & CH). eapply chain_met; [exact CH|]. apply KID. left; reflexivity.
Qed.
Lemma either_inside n : kind n = NSym \/ written g n -> inside g n = true.
Proof.
  intros [K|W].
  - pose proof (shaped g WF n) as SH. rewrite K in SH. specialize (SH ltac:(discriminate)). unfold shape in SH. rewrite K in SH.
    destruct (inside g n); [reflexivity|discriminate].
  - induction W as [e He|n m _ I H]; [apply (rule_kind g WF e He)|]. unfold child in H.
    assert (KN : kind n <> NOther) by (intro E; rewrite E in H; exact H).
    pose proof (shaped g WF n KN) as SH. unfold shape in SH. rewrite I in SH.
    assert (IN : forall m, below g m n = true -> inside g m = true) by (intros m' B; eapply below_inside; eassumption).
    destruct (kind n) as [| | |s|s|i c a|i c a|[i|]|l r|l r|i s|tt [c|]|i|i|bb ops x|] eqn:Kn; try (destruct H; fail);
      repeat rewrite andb_true_iff in SH; try (destruct H as [-> | ->]); subst; apply IN; tauto.
Qed.
Lemma item_inside n : item g n -> inside g n = true.
Proof. intros [H _]. exact (either_inside n H). Qed.
End G.
