(** Failures that are not reported: proofs for C120. *)
From Coq Require Import List Bool PeanoNat Lia.
From Verif Require Import Base GrammarModel GrammarSpec GrammarProofs FirstProofs ParserModel ParserSpec ParserProofs ParserKeepProofs ReportSpec.
Import ListNotations.

(** ** FIRST of the empty item *)
Section Z.
Variable g : grammar.
Hypothesis WF : well_formed g = true.
Definition zero_set (t : table) : Prop := forall x, t (gzero g) x = true -> x = gzero g.
Lemma zset_fmerge b st d s : d <> gzero g -> zero_set (fst st) -> zero_set (fst (fmerge g b st d s)).
Proof.
  intros N Z x. unfold fmerge, add_to. destruct (news _ _ _ _); [|apply Z]. cbn [fst]. unfold upd.
  destruct (Nat.eqb (gzero g) d) eqn:E; [apply Nat.eqb_eq in E; congruence|apply Z].
Qed.
Lemma not_zero n : kind g n <> NZero -> n <> gzero g.
Proof. intros K ->. apply K, (zero_kind g WF). Qed.
Lemma zset_node : forall f b P n st st', first_node g f b P n st = Some st' -> zero_set (fst st) -> zero_set (fst st').
Proof.
  induction f as [|f IH]; intros b P n st st' E Q; [discriminate|]. cbn [first_node] in E.
  assert (V : forall b m st st', (if mem m P then Some st else first_node g f b (m :: P) m st) = Some st' -> zero_set (fst st) -> zero_set (fst st')).
  { intros b' m s s' H. destruct (mem m P); [injection H as <-; auto|]. eapply IH; eassumption. }
  assert (N : kind g n <> NZero -> n <> gzero g) by apply not_zero.
  destruct (kind g n) as [| | |s|s|i c a|i c a|[i|]|l r|l r|i s|tt [c|]|i|i|bb ops x|] eqn:K;
    try (injection E as <-; exact Q); specialize (N ltac:(discriminate));
    try (injection E as <-; destruct (search_rule g s); cbn [fmerge_opt]; repeat (apply zset_fmerge; [exact N|]); exact Q);
    try (apply obind_inv in E; destruct E as (s1 & E1 & E); injection E as <-; apply zset_fmerge; [exact N|]; first [eapply IH; eassumption | eapply V; eassumption]).
  - apply obind_inv in E; destruct E as (s1 & E1 & E); apply obind_inv in E; destruct E as (s2 & E2 & E); injection E as <-. do 2 (apply zset_fmerge; [exact N|]). eauto.
  - apply obind_inv in E; destruct E as (s1 & E1 & E); apply obind_inv in E; destruct E as (s2 & E2 & E). pose proof (V _ _ _ _ E2 (V _ _ _ _ E1 Q)) as Q2.
    destruct (eps g _ l) in E.
    + apply obind_inv in E; destruct E as (s3 & E3 & E). injection E as <-. apply zset_fmerge; [exact N|]. eapply V; [exact E3|]. apply zset_fmerge; [exact N|]. exact Q2.
    + injection E as <-. apply zset_fmerge; [exact N|]. exact Q2.
  - apply obind_inv in E; destruct E as (s1 & E1 & E); injection E as <-.
    assert (S0 : kind g s <> NZero).
    { pose proof (shaped g WF n ltac:(congruence)) as SH. unfold shape in SH. rewrite K in SH. apply andb_true_iff in SH. destruct SH as [_ SH]. unfold is_sym in SH.
      apply andb_true_iff in SH. destruct SH as [_ SH]. intros H. rewrite H in SH. rewrite andb_false_r in SH. discriminate. }
    apply zset_fmerge; [apply not_zero; exact S0|]. apply zset_fmerge; [exact N|]. eauto.
  - apply obind_inv in E; destruct E as (s1 & E1 & E); apply obind_inv in E; destruct E as (s2 & E2 & E); injection E as <-. do 2 (apply zset_fmerge; [exact N|]). eauto.
Qed.
Lemma zset_each k l : forall st st', each_rule (first_rule g k) l st = Some st' -> zero_set (fst st) -> zero_set (fst st').
Proof.
  induction l as [|e l IH]; intros st st' E Q; cbn [each_rule] in E; [injection E as <-; exact Q|].
  apply obind_inv in E. destruct E as (s1 & E1 & E). eapply IH; [exact E|]. eapply zset_node; eassumption.
Qed.
Lemma zset_loop : forall rounds fuel f t, first_loop g rounds fuel f = Some t -> zero_set f -> zero_set t.
Proof.
  induction rounds as [|k IH]; intros fuel f t E Q; [discriminate|]. cbn [first_loop] in E. apply obind_inv in E. destruct E as (st & E1 & E).
  assert (Q1 : zero_set (fst st)) by (eapply zset_each; [exact E1|exact Q]).
  destruct (snd st); [eapply IH; eassumption|injection E as <-; exact Q1].
Qed.
Lemma first_zero_set rounds fuel t : compute_first g rounds fuel = Some t -> zero_set t.
Proof.
  intros E. eapply zset_loop; [exact E|]. intros x H. unfold first_init in H. apply andb_true_iff in H. destruct H as [H _]. apply Nat.eqb_eq in H. auto.
Qed.
End Z.

Section G.
Variable g : grammar.
Variables first follow : table.
Variable tok : nat -> id.
Variable cond : nat -> bool.
Notation kind := (kind g).
Notation run := (run g first follow tok cond).
Notation yylex := (yylex tok).
Notation tells := (tells g).
Hypothesis WF : well_formed g = true.
Hypothesis ZERO : zero_set g first.

Lemma zero_passes n y : kind n = NZero -> test g first n y = true.
Proof.
  intros K. pose proof (zero_only g WF n K). subst n. unfold test, is_term. rewrite K. unfold test_set.
  assert (T : trivial g (first (gzero g)) = true); [|rewrite T; reflexivity].
  unfold trivial. apply forallb_forall. intros x _. destruct (first (gzero g) x) eqn:F; [|reflexivity]. rewrite (ZERO x F). unfold is_zero. rewrite K. reflexivity.
Qed.
Lemma flatten_branch : forall f work ns, flatten g f work = Some ns -> forall m, In m ns <-> exists n, In n work /\ branch g n m.
Proof.
  induction f as [|f IH]; intros work ns E m; [discriminate|]. cbn [flatten] in E. destruct work as [|n work].
  { injection E as <-. split; [intros []|intros (n & [] & _)]. }
  assert (HERE : (forall l r, kind n <> NAlt l r) -> (do rest <- flatten g f work; Some (n :: rest)) = Some ns -> In m ns <-> exists k, In k (n :: work) /\ branch g k m).
  { intros NA E1. apply obind_inv in E1. destruct E1 as (rest & E1 & E2). injection E2 as <-. specialize (IH _ _ E1 m). split.
    - intros [<-|H]; [exists n; split; [left; reflexivity|apply branch_here; exact NA]|]. apply IH in H. destruct H as (k & H1 & H2). exists k. split; [right; exact H1|exact H2].
    - intros (k & [<-|H1] & H2); [|right; apply IH; eauto]. left. inversion H2; subst; try reflexivity; exfalso; eapply NA; eassumption. }
  destruct (kind n) as [| | |s|s|i c a|i c a|ii|l r|l r|i s|tt c|i|i|bb oo xx|] eqn:K; try (apply HERE; [discriminate|exact E]).
  rewrite (IH _ _ E m). split.
  - intros (k & [<-|[<-|H]] & B); [exists n; split; [left; reflexivity|eapply branch_left; eassumption]|exists n; split; [left; reflexivity|eapply branch_right; eassumption]|exists k; split; [right; exact H|exact B]].
  - intros (k & [<-|H] & B); [|exists k; split; [right; right; exact H|exact B]]. inversion B as [n0 l0 r0 m0 K0 B0|n0 l0 r0 m0 K0 B0|n0 NA]; subst; rewrite K in *.
    + injection K0 as <- <-. exists l. split; [left; reflexivity|exact B0].
    + injection K0 as <- <-. exists r. split; [right; left; reflexivity|exact B0].
    + destruct (NA l r eq_refl).
Qed.

(** ** Failing is telling *)
Definition told (st : pstate) (o : outcome) : Prop := match o with Fail st' => perr st < perr st' | _ => True end.
Definition job_tells (j : job) : Prop :=
  match j with
  | Item n => tells n
  | Rules _ => False
  | Branches ns => (forall m, In m ns -> tells m) /\ exists z, In z ns /\ kind z = NZero
  | Operand n b ops | Operator n b ops => tells b /\ (forall t u, ~ In (OParen t u) ops) /\ exists x, kind n = NOper b ops x
  end.
Lemma told_from a b o : perr b = perr a -> told b o -> told a o.
Proof. intros E. destruct o; cbn; auto; lia. Qed.
Lemma told_next st o k : keeps (calm g) st o -> told st o -> (forall st', pblock st' = pblock st -> told st' (k st')) -> told st (next_do o k).
Proof.
  intros A T K. destruct o as [st1|st1| |]; cbn [next_do]; try exact T. cbn in A. destruct A as (B & C & _). specialize (K st1 B).
  destruct (k st1); cbn in K |- *; auto. lia.
Qed.
Lemma told_report st st' : pblock st' = false -> perr st <= perr st' -> told st (Fail (report false st')).
Proof. intros B L. unfold report. rewrite B. cbn. lia. Qed.
Lemma pick_no_paren ops : (forall t u, ~ In (OParen t u) ops) -> forall st, pick cond sel_paren ops st = (None, st).
Proof.
  induction ops as [|o ops IH]; intros N st; [reflexivity|]. cbn [pick].
  assert (E : sel_paren o = None) by (destruct o; try reflexivity; exfalso; eapply N; left; reflexivity).
  rewrite E. apply IH. intros t u H. apply (N t u). right. exact H.
Qed.
Lemma cond_zero n st : kind n = NZero -> guarded g cond (test g first n (ptok st)) n st = (true, st).
Proof. intros K. unfold guarded, is_cond. rewrite (zero_passes n _ K), K. reflexivity. Qed.

Lemma run_tells f : forall cur j st, job_tells j -> pblock st = false -> told st (run f cur false j st).
Proof.
  induction f as [|f IH]; intros cur j st J B; [exact I|]. cbn [ParserModel.run].
  assert (KI : forall cur cc n st, keeps (calm g) st (run f cur cc (Item n) st)) by (intros; apply run_keeps; intros ? ? ? [?|?]; discriminate).
  assert (KR : forall cur cc es st, keeps (calm g) st (run f cur cc (Rules es) st)) by (intros; apply run_keeps; intros ? ? ? [?|?]; discriminate).
  destruct j as [n|es|ns|n b ops|n b ops]; cbn [job_tells] in J; [|destruct J| | |].
  - assert (IHI : forall m st, tells m -> pblock st = false -> told st (run f cur false (Item m) st)) by (intros; apply IH; assumption).
    assert (LOOP : tells n) by exact J.
    inversion J as [m K|m K|m s K|m s e i K SE Ke NS T|m i c a K T|m i c a K T|m K|m i K T|m l r z K BZ KZ T|m l r K T1 T2|m t c K T|m t K|m i K T|m i K T|m b ops x K NP T]; subst m; rewrite K.
    + exact I.
    + destruct (Nat.eqb (ptok st) n); [exact I|]. apply told_report; [exact B|lia].
    + specialize (KR s false (env g s) st). destruct (run f s false (Rules (env g s)) st); try exact I. cbn in KR. destruct KR as (R1 & R2 & _). cbn [called].
      apply told_report; [congruence|exact R2].
    + rewrite SE, Ke. destruct (guarded _ _ _ _ st) as [go st1] eqn:GE. destruct (guarded_keeps _ _ _ _ _ _ _ GE) as [B1 C1]. destruct go; [|exact I].
      apply (told_from st st1 _ C1). apply told_next; [apply KI|apply IHI; [exact T|congruence]|]. intros st2 B2.
      destruct (mem s (gstart g)) eqn:M; [apply mem_in in M; contradiction|exact I].
    + apply told_next; [apply KI|apply IHI; assumption|]. intros st1 B1. destruct (test g first n (ptok st1)); [apply IHI; [exact LOOP|congruence]|exact I].
    + destruct (test g first n (ptok st)); [|exact I]. apply told_next; [apply KI|apply IHI; assumption|]. intros st1 B1. apply IHI; [exact LOOP|congruence].
    + exact I.
    + apply IHI; assumption.
    + destruct (flatten g f [l; r]) as [ns|] eqn:F; [|exact I]. pose proof (flatten_branch _ _ _ F) as FB. apply IH; [|exact B]. split.
      * intros m H. apply FB in H. destruct H as (k & [<-|[<-|[]]] & Bk); apply T; [eapply branch_left|eapply branch_right]; eassumption.
      * exists z. split; [|exact KZ]. apply FB. inversion BZ as [n0 l0 r0 m0 K0 B0|n0 l0 r0 m0 K0 B0|n0 NA]; subst.
        -- rewrite K in K0. injection K0 as <- <-. exists l. split; [left; reflexivity|exact B0].
        -- rewrite K in K0. injection K0 as <- <-. exists r. split; [right; left; reflexivity|exact B0].
        -- congruence.
    + apply told_next; [apply KI|apply IHI; assumption|]. intros st1 B1. apply IHI; [assumption|congruence].
    + pose proof (KI cur true t (block true st)) as A. destruct (run f cur true (Item t) (block true st)) as [st1|st1| |]; try exact I.
      cbn in A. destruct A as (_ & A2 & _).
      pose proof (IHI c (rewind tok (pidx st - 1) (block (pblock st) st1)) T B) as D. destruct (run f cur false (Item c) _); cbn in D |- *; auto. lia.
    + destruct (run f cur true (Item t) st) as [st1|st1| |]; try exact I. 
      match goal with |- told st ?o => destruct o eqn:E; try exact I end. destruct (skip_not_fail _ _ _ _ _ _ _ E).
    + destruct (kind i) eqn:Ki; try exact I; apply IHI; assumption.
    + apply IHI; assumption.
    + apply IH; [|exact B]. split; [exact T|]. split; [exact NP|eauto].
  - destruct J as [T (z & Hz & Kz)]. destruct ns as [|m ns]; [destruct Hz|].
    destruct Hz as [->|Hz].
    + rewrite (cond_zero z st Kz). apply IH; [apply T; left; reflexivity|exact B].
    + destruct (guarded _ _ _ _ st) as [go st1] eqn:GE. destruct (guarded_keeps _ _ _ _ _ _ _ GE) as [B1 C1]. apply (told_from st st1 _ C1).
      destruct go; (apply IH; [|congruence]); [apply T; left; reflexivity|]. split; [intros k H; apply T; right; exact H|eauto].
  - destruct J as (T & NP & x & K).
    destruct (pick cond sel_pre ops st) as [p st1] eqn:P1. destruct (pick_keeps _ _ _ _ _ _ P1) as [B1 C1]. destruct p.
    { apply (told_from st (yylex st1)); [exact C1|]. apply IH; [|cbn; congruence]. split; [exact T|]. split; [exact NP|eauto]. }
    rewrite (pick_no_paren ops NP st1). destruct (test g first (base_symbol g b) (ptok st1)).
    + apply (told_from st st1 _ C1). apply told_next; [apply KI|apply IH; [exact T|congruence]|]. intros st2 B2. apply IH; [|congruence].
      split; [exact T|]. split; [exact NP|eauto].
    + cbn. lia.
  - destruct J as (T & NP & x & K).
    destruct (pick cond sel_post ops st) as [p st1] eqn:P1. destruct (pick_keeps _ _ _ _ _ _ P1) as [B1 C1]. destruct p.
    { apply (told_from st (yylex st1)); [exact C1|]. apply IH; [|cbn; congruence]. split; [exact T|]. split; [exact NP|eauto]. }
    destruct (pick cond sel_bin ops st1) as [q st2] eqn:P2. destruct (pick_keeps _ _ _ _ _ _ P2) as [B2 C2]. destruct q.
    { apply (told_from st (yylex st2)); [cbn; congruence|]. apply IH; [|cbn; congruence]. split; [exact T|]. split; [exact NP|eauto]. }
    destruct (pick cond sel_tern ops st2) as [q st3]. destruct q; exact I.
Qed.

(** ** A whole function *)
Lemma rules_tell f cur s : forall es st st', (forall e, In e es -> exists i, kind e = NEvolve i s /\ tells i) -> pblock st = false ->
  run f cur false (Rules es) st = Fail st' ->
  perr st < perr st' \/ (pidx st' = pidx st /\ ptok st' = ptok st /\
     forall e i, In e es -> kind e = NEvolve i s -> (forall k, kind i <> NCond k) -> rule_test g first follow e i s (ptok st) = false) \/
  (In s (gstart g) /\ ptok st' <> geof g).
Proof.
  induction f as [|f IH]; intros es st st' T B E; [discriminate|]. cbn [ParserModel.run] in E. destruct es as [|e es].
  { injection E as <-. right. left. repeat split; auto. intros e i []. }
  destruct (T e (or_introl eq_refl)) as (i & K & Ti). rewrite K in E.
  destruct (guarded g cond (rule_test g first follow e i s (ptok st)) i st) as [go st1] eqn:GE.
  destruct (guarded_keeps _ _ _ _ _ _ _ GE) as [B1 C1].
  assert (SAME : pidx st1 = pidx st /\ ptok st1 = ptok st).
  { unfold guarded, ask in GE. destruct (rule_test g first follow e i s (ptok st)); [destruct (is_cond g i)|]; injection GE as _ <-; auto. }
  destruct SAME as [S1 S2]. destruct go.
  - pose proof (run_tells f cur (Item i) st1 Ti ltac:(congruence)) as R.
    assert (KI : keeps (calm g) st1 (run f cur false (Item i) st1)) by (apply run_keeps; intros ? ? ? [?|?]; discriminate).
    destruct (run f cur false (Item i) st1) as [st2|st2| |]; cbn [next_do] in E; try discriminate.
    + destruct (mem s (gstart g)) eqn:M; [|discriminate]. destruct (Nat.eqb (ptok st2) (geof g)) eqn:Q; [discriminate|]. cbn in E. injection E as <-.
      right. right. apply mem_in in M. apply Nat.eqb_neq in Q. auto.
    + injection E as <-. left. cbn in R. lia.
  - assert (NEXT : forall e, In e es -> exists i, kind e = NEvolve i s /\ tells i) by (intros e' H; apply T; right; exact H).
    destruct (IH es st1 st' NEXT ltac:(congruence) E) as [L|[(A1 & A2 & A3)|A]]; [left; lia| |right; right; exact A].
    right. left. split; [congruence|]. split; [congruence|]. intros e' i' [<-|H] K' NC; [|rewrite <- S2; apply (A3 _ _ H K' NC)].
    rewrite K in K'. injection K' as <-. unfold guarded in GE. destruct (rule_test g first follow e i s (ptok st)); [|reflexivity].
    unfold is_cond in GE. destruct (kind i) eqn:Ki; try discriminate. destruct (NC _ eq_refl).
Qed.
End G.
