(** How many messages there are: proofs for C122. *)
From Coq Require Import List Bool PeanoNat Lia.
From Verif Require Import Base GrammarModel GrammarSpec GrammarProofs FirstProofs FirstSoundProofs ParserModel ParserSpec ParserProofs ParserKeepProofs ReportSpec ReportProofs CountSpec.
Import ListNotations.

Section G.
Variable g : grammar.
Variables first follow : table.
Variable tok : nat -> id.
Variable cond : nat -> bool.
Notation kind := (kind g).
Notation run := (run g first follow tok cond).
Notation yylex := (yylex tok).
Hypothesis NR : no_recover g.
Hypothesis ALT : no_oper g \/ no_try g.

(** ** Success is quiet *)
Definition hush (st : pstate) (o : outcome) : Prop := match o with Done st' => perr st' = perr st | _ => True end.
Lemma hush_from a b o : perr b = perr a -> hush b o -> hush a o.
Proof. intros E. destruct o; cbn; auto; congruence. Qed.
Lemma hush_next st o k : hush st o -> (forall st', hush st' (k st')) -> hush st (next_do o k).
Proof. intros A K. destruct o as [st1|st1| |]; cbn [next_do]; auto. cbn in A. apply (hush_from st st1 _ A). apply K. Qed.
Lemma blocked_same f cur t st st1 n c : kind n = NTry t (Some c) -> run f cur true (Item t) (block true st) = Fail st1 -> perr st1 = perr st.
Proof.
  intros K E. assert (A : keeps (calm g) (block true st) (run f cur true (Item t) (block true st))) by (apply run_keeps; intros ? ? ? [?|?]; discriminate).
  rewrite E in A. cbn in A. destruct A as (_ & _ & A). apply A; [|reflexivity]. destruct ALT as [N|N]; [|destruct (N _ _ _ K)].
  intros m (b & ops & x & L). exact (N _ _ _ _ L).
Qed.
Lemma run_hush f : forall cur cc j st, hush st (run f cur cc j st).
Proof.
  induction f as [|f IH]; intros cur cc j st; [exact I|]. cbn [ParserModel.run].
  assert (CALLED : forall c o, hush st o -> hush st (called c o)) by (intros c o; destruct o; cbn [called]; auto).
  assert (EOFC : forall s st, hush st (if mem s (gstart g) && negb (Nat.eqb (ptok st) (geof g)) then Fail st else Done st)).
  { intros s st0. destruct (mem s (gstart g) && negb (Nat.eqb (ptok st0) (geof g)))%bool; [exact I|reflexivity]. }
  destruct j as [n|es|ns|n b ops|n b ops].
  - destruct (kind n) as [| | |s|s|i c a|i c a|ii|l r|l r|i s|t c|i|i|b ops x|] eqn:K; try exact I.
    + reflexivity.
    + destruct (Nat.eqb (ptok st) n); [reflexivity|exact I].
    + apply CALLED, IH.
    + destruct (search_rule g s) as [e|]; [|exact I]. destruct (kind e) eqn:Ke; try exact I.
      destruct (guarded _ _ _ _ st) as [go st1] eqn:GE. destruct (guarded_keeps _ _ _ _ _ _ _ GE) as [B C]. destruct go; [|exact C].
      apply (hush_from st st1 _ C). apply hush_next; [apply IH|apply EOFC].
    + apply hush_next; [apply IH|]. intros st1. destruct (test g first n (ptok st1)); [apply IH|reflexivity].
    + destruct (test g first n (ptok st)); [apply hush_next; [apply IH|intros; apply IH]|reflexivity].
    + destruct ii as [i|]; [apply IH|reflexivity].
    + destruct (flatten g f [l; r]); [apply IH|exact I].
    + apply hush_next; [apply IH|intros; apply IH].
    + destruct c as [c|]; [|destruct (NR _ _ K)].
      pose proof (IH cur true (Item t) (block true st)) as A. destruct (run f cur true (Item t) (block true st)) as [st1|st1| |] eqn:E; try exact I; [exact A|].
      apply (hush_from st (rewind tok (pidx st - 1) (block (pblock st) st1))); [cbn; exact (blocked_same _ _ _ _ _ _ _ K E)|apply IH].
    + destruct (kind i) eqn:Ki; try exact I; apply IH.
    + apply IH.
    + apply IH.
  - destruct es as [|e es]; [exact I|]. destruct (kind e) eqn:K; try apply IH.
    destruct (guarded _ _ _ _ st) as [go st1] eqn:GE. destruct (guarded_keeps _ _ _ _ _ _ _ GE) as [B C].
    apply (hush_from st st1 _ C). destruct go; [apply hush_next; [apply IH|apply EOFC]|apply IH].
  - destruct ns as [|m ns]; [exact I|]. destruct (guarded _ _ _ _ st) as [go st1] eqn:GE. destruct (guarded_keeps _ _ _ _ _ _ _ GE) as [B C].
    apply (hush_from st st1 _ C). destruct go; apply IH.
  - destruct (pick cond sel_pre ops st) as [p st1] eqn:P1. destruct (pick_keeps _ _ _ _ _ _ P1) as [B1 C1]. destruct p.
    { apply (hush_from st (yylex st1)); [exact C1|apply IH]. }
    destruct (pick cond sel_paren ops st1) as [q st2] eqn:P2. destruct (pick_keeps _ _ _ _ _ _ P2) as [B2 C2]. apply (hush_from st st2); [congruence|].
    destruct q as [u|].
    + apply (hush_from st2 (yylex st2)); [reflexivity|]. destruct (test g first cur (ptok (yylex st2))); [|exact I]. apply hush_next.
      * pose proof (IH cur false (Rules (env g cur)) (yylex st2)) as A. destruct (run f cur false (Rules (env g cur)) (yylex st2)); cbn [called]; auto.
      * intros st3. destruct (Nat.eqb (ptok st3) u); [|exact I]. destruct (ask cond st3) as [c st4] eqn:AE. destruct (ask_keeps _ _ _ _ AE) as [B4 C4].
        apply (hush_from st3 st4 _ C4). destruct c; [|exact I]. apply (hush_from st4 (yylex st4)); [reflexivity|apply IH].
    + destruct (test g first (base_symbol g b) (ptok st2)); [|exact I]. apply hush_next; [apply IH|intros; apply IH].
  - destruct (pick cond sel_post ops st) as [p st1] eqn:P1. destruct (pick_keeps _ _ _ _ _ _ P1) as [B1 C1]. destruct p.
    { apply (hush_from st (yylex st1)); [exact C1|apply IH]. }
    destruct (pick cond sel_bin ops st1) as [q st2] eqn:P2. destruct (pick_keeps _ _ _ _ _ _ P2) as [B2 C2]. destruct q.
    { apply (hush_from st (yylex st2)); [cbn; congruence|apply IH]. }
    destruct (pick cond sel_tern ops st2) as [q st3] eqn:P3. destruct (pick_keeps _ _ _ _ _ _ P3) as [B3 C3]. destruct q; [exact I|]. cbn. congruence.
Qed.

(** ** Failing tells at most once for each call *)
Variable depth : id -> nat.
Hypothesis DEPTH : depth_of g depth.
Hypothesis NO : no_oper g.
Hypothesis WF : well_formed g = true.
Definition few (d : nat) (st : pstate) (o : outcome) : Prop := match o with Fail st' => perr st' <= perr st + d | _ => True end.
Lemma few_from d a b o : perr b = perr a -> few d b o -> few d a o.
Proof. intros E. destruct o; cbn; auto; lia. Qed.
Lemma few_more d d' st o : d <= d' -> few d st o -> few d' st o.
Proof. intros L. destruct o; cbn; auto; lia. Qed.
Lemma few_next d st o k : hush st o -> few d st o -> (forall st', few d st' (k st')) -> few d st (next_do o k).
Proof. intros A B K. destruct o as [st1|st1| |]; cbn [next_do]; auto. cbn in A. apply (few_from d st st1 _ A). apply K. Qed.
Lemma report_few d c st st' : perr st' <= perr st + d -> few (S d) st (Fail (report c st')).
Proof. intros L. unfold report. destruct (c || pblock st'); cbn; lia. Qed.
Definition job_depth (d : nat) (j : job) : Prop :=
  match j with
  | Item n => depth n <= d
  | Rules es => forall e i s, In e es -> kind e = NEvolve i s -> depth i <= d
  | Branches ns => forall n, In n ns -> depth n <= d
  | _ => False
  end.
Lemma branch_depth n m : branch g n m -> depth m <= depth n.
Proof.
  induction 1 as [n l r m K B IH|n l r m K B IH|n N]; [| |lia]; pose proof (DEPTH n) as D; rewrite K in D; lia.
Qed.
Lemma env_depth s : job_depth (depth s) (Rules (env g s)).
Proof.
  intros e i s' H K. unfold env in H. apply in_rev in H. apply filter_In in H. destruct H as [_ H]. unfold rule_of in H. rewrite K in H. apply Nat.eqb_eq in H. subst s'.
  pose proof (DEPTH e) as D. rewrite K in D. exact D.
Qed.
Lemma run_few f : forall cur cc j d st, job_depth d j -> few d st (run f cur cc j st).
Proof.
  induction f as [|f IH]; intros cur cc j d st J; [exact I|]. cbn [ParserModel.run].
  assert (EOFC : forall s st, few d st (if mem s (gstart g) && negb (Nat.eqb (ptok st) (geof g)) then Fail st else Done st)).
  { intros s st0. destruct (mem s (gstart g) && negb (Nat.eqb (ptok st0) (geof g)))%bool; [cbn; lia|exact I]. }
  destruct j as [n|es|ns|n b ops|n b ops]; cbn [job_depth] in J; [| | |destruct J|destruct J].
  - pose proof (DEPTH n) as D.
    assert (IHI : forall m cur cc st, depth m <= depth n -> few d st (run f cur cc (Item m) st)) by (intros; apply IH; cbn; lia).
    destruct (kind n) as [| | |s|s|i c a|i c a|ii|l r|l r|i s|t c|i|i|b ops x|] eqn:K; try exact I.
    + destruct (Nat.eqb (ptok st) n); [exact I|]. apply (few_more 1); [lia|]. apply report_few. lia.
    + pose proof (IH s false (Rules (env g s)) (depth s) st (env_depth s)) as A. destruct (run f s false (Rules (env g s)) st); try exact I. cbn [called].
      apply (few_more (S (depth s))); [lia|]. apply report_few. exact A.
    + destruct (search_rule g s) as [e|] eqn:SE; [|exact I]. destruct (search_some g _ _ SE) as (_ & i0 & Ke0). rewrite Ke0. pose proof (DEPTH e) as De. rewrite Ke0 in De.
      destruct (guarded _ _ _ _ st) as [go st1] eqn:GE. destruct (guarded_keeps _ _ _ _ _ _ _ GE) as [B C]. destruct go; [|exact I].
      apply (few_from d st st1 _ C). apply few_next; [apply run_hush|apply IHI; lia|apply EOFC].
    + apply few_next; [apply run_hush|apply IHI; exact D|]. intros st1. destruct (test g first n (ptok st1)); [apply IHI; lia|exact I].
    + destruct (test g first n (ptok st)); [apply few_next; [apply run_hush|apply IHI; exact D|intros; apply IHI; lia]|exact I].
    + destruct ii as [i|]; [apply IHI; exact D|exact I].
    + destruct (flatten g f [l; r]) as [ns|] eqn:F; [|exact I]. apply IH. intros m H. apply (flatten_branch g _ _ _ F) in H.
      destruct H as (k & [<-|[<-|[]]] & B); pose proof (branch_depth _ _ B); lia.
    + apply few_next; [apply run_hush|apply IHI; apply D|intros; apply IHI; apply D].
    + destruct c as [c|]; [|destruct (NR _ _ K)].
      destruct (run f cur true (Item t) (block true st)) as [st1|st1| |] eqn:E; try exact I.
      apply (few_from d st (rewind tok (pidx st - 1) (block (pblock st) st1))); [cbn; exact (blocked_same _ _ _ _ _ _ _ K E)|apply IHI; apply D].
    + destruct (kind i) eqn:Ki; try exact I; apply IHI; exact D.
    + apply IHI; exact D.
    + destruct (NO _ _ _ _ K).
  - destruct es as [|e es]; [cbn; lia|].
    assert (REST : forall cc st, few d st (run f cur cc (Rules es) st)) by (intros; apply IH; intros e' i s H; apply (J e' i s); right; exact H).
    destruct (kind e) eqn:K; try apply REST.
    destruct (guarded _ _ _ _ st) as [go st1] eqn:GE. destruct (guarded_keeps _ _ _ _ _ _ _ GE) as [B C].
    apply (few_from d st st1 _ C). destruct go; [|apply REST]. apply few_next; [apply run_hush|apply IH; exact (J e _ _ (or_introl eq_refl) K)|apply EOFC].
  - destruct ns as [|m ns]; [cbn; lia|]. destruct (guarded _ _ _ _ st) as [go st1] eqn:GE. destruct (guarded_keeps _ _ _ _ _ _ _ GE) as [B C].
    apply (few_from d st st1 _ C). destruct go; apply IH; [exact (J m (or_introl eq_refl))|intros k H; apply J; right; exact H].
Qed.
End G.
