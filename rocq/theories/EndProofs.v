(** The generated parser ends on every text. *)
From Coq Require Import List Bool PeanoNat Lia Relations Wf_nat.
From Verif Require Import Base GrammarModel GrammarSpec GrammarProofs FirstProofs ParserModel ParserSpec ParserProofs ParserKeepProofs CompleteSpec CompleteProofs EndSpec.
Import ListNotations.

(** ** Descending in a finite graph *)
Lemma down_ends (R : nat -> nat -> Prop) (N : nat) : (forall n m, R n m -> n < N) -> (forall n, ~ clos_trans nat R n n) ->
  forall n, Acc (fun m n => R n m) n.
Proof.
  intros B A. assert (X : forall k l n, NoDup l -> (forall x, In x l -> x < N) -> N <= length l + k -> (forall x, In x l -> clos_trans nat R x n) -> Acc (fun m n => R n m) n).
  { induction k as [|k IH]; intros l n ND LB LE PATH; constructor; intros m Rm; pose proof (B n m Rm) as Ln.
    - exfalso. assert (Nn : ~ In n l) by (intros I; exact (A n (PATH n I))).
      assert (L : length (n :: l) <= length (seq 0 N)).
      { apply NoDup_incl_length; [constructor; assumption|]. intros x Ix. apply in_seq. destruct Ix as [<-|Ix]; [lia|]. specialize (LB x Ix). lia. }
      rewrite seq_length in L. cbn [length] in L. lia.
    - assert (Nn : ~ In n l) by (intros I; exact (A n (PATH n I))). apply (IH (n :: l)).
      + constructor; assumption.
      + intros x [<-|Ix]; [exact Ln|exact (LB x Ix)].
      + cbn [length]. lia.
      + intros x [<-|Ix]; [apply t_step; exact Rm|]. apply t_trans with n; [exact (PATH x Ix)|apply t_step; exact Rm]. }
  intros n. apply (X N [] n); [constructor|intros x []|lia|intros x []].
Qed.

Section G.
Variable g : grammar.
Variables first follow : table.
Variable w : list id.
Variable cond : nat -> bool.
Notation kind := (kind g).
Notation tok := (stream g w).
Notation run := (run g first follow tok cond).
Notation yylex := (yylex tok).
Notation idle := (idle g).
Notation starts := (starts g).
Hypothesis WF : well_formed g = true.
Hypothesis EN : end_not_written g.

Definition fits (st : pstate) : Prop := good tok st /\ pidx st <= S (length w).
Definition ok_item (n : id) : Prop := inside g n = true /\ is_item g n = true.
Definition ok_job (j : job) : Prop :=
  match j with
  | Item n => ok_item n
  | Rules es => forall e, In e es -> In e (grules g)
  | Branches ns => forall n, In n ns -> ok_item n
  | Operand n b ops | Operator n b ops => ok_item n /\ exists x, kind n = NOper b ops x
  end.
Lemma lex_fits st : fits st -> ptok st <> geof g -> fits (yylex st).
Proof.
  intros ([G1 G2] & L) N. split; [apply yylex_good|]. cbn [pidx ParserModel.yylex]. destruct (Nat.le_gt_cases (pidx st) (length w)) as [X|X]; [lia|].
  exfalso. apply N. rewrite G2. unfold stream. apply nth_overflow. lia.
Qed.
Lemma same_fits a b : same a b -> fits a -> fits b.
Proof. intros S1 (G & L). split; [exact (same_good tok _ _ S1 G)|]. destruct S1 as (<- & _). exact L. Qed.
Lemma ok_below m n : below g m n = true -> inside g n = true -> ok_item m.
Proof. intros B I. split; [exact (below_inside g m n B I)|]. unfold below in B. apply andb_true_iff in B. apply B. Qed.
Lemma ok_shape n : ok_item n -> shape g n = true /\ inside g n = true.
Proof. intros [I IT]. split; [|exact I]. apply (shaped g WF). intros K. unfold is_item in IT. rewrite K in IT. discriminate. Qed.
Lemma ok_child n m : ok_item n -> child g n m -> ok_item m.
Proof.
  intros O C. destruct (ok_shape n O) as [SH I]. unfold shape in SH. rewrite I in SH. unfold child in C.
  destruct (kind n) as [| | |s|s|i c a|i c a|[i|]|l r|l r|i s|tt [c|]|i|i|bb ops x|] eqn:K; try (destruct C; fail); repeat rewrite andb_true_iff in SH;
    try (subst m; apply (ok_below _ n); [apply SH|exact I]); try (destruct C as [-> | ->]; (apply (ok_below _ n); [apply SH|exact I])).
Qed.
Lemma ok_rule e i s : In e (grules g) -> kind e = NEvolve i s -> ok_item i.
Proof.
  intros He K. destruct (rule_kind g WF e He) as (I & _). assert (SH : shape g e = true) by (apply (shaped g WF); rewrite K; discriminate).
  unfold shape in SH. rewrite I, K in SH. apply andb_true_iff in SH. apply (ok_below i e); [apply SH|exact I].
Qed.
Lemma ok_env s : ok_job (Rules (env g s)). Proof. intros e I. apply (env_rules g s e I). Qed.
Lemma ok_flatten n l r f ns : ok_item n -> kind n = NAlt l r -> flatten g f [l; r] = Some ns -> ok_job (Branches ns).
Proof.
  intros O K F m I. refine (flatten_all g ok_item _ f [l; r] ns F _ m I).
  - intros k l' r' K' O'. split; apply (ok_child k); auto; unfold child; rewrite K'; auto.
  - intros m' [<-|[<-|[]]]; (apply (ok_child n); [exact O|unfold child; rewrite K; auto]).
Qed.
(** Tokens of operators are declared. *)
Definition tokens_of (o : op) : list id := match o with OPre t | OPost t | OBin t => [t] | OTern s t | OParen s t => [s; t] end.
Lemma tok_not_end t : is_tok g t = true -> t <> geof g.
Proof.
  unfold is_tok. intros T E. apply andb_true_iff in T. destruct T as [I T]. apply EN. rewrite <- E.
  assert (K : kind t = NTerm) by (unfold is_term in T; destruct (kind t); congruence).
  assert (SH : shape g t = true) by (apply (shaped g WF); rewrite K; discriminate). unfold shape in SH. rewrite I, K in SH. apply mem_in. exact SH.
Qed.
Lemma spells_tok top n o : spells g top n o = true -> forall t, In t (tokens_of o) -> is_tok g t = true.
Proof.
  unfold spells. destruct o; cbn [tokens_of]; repeat rewrite andb_true_iff; intros H t' I; cbn [In] in I; destruct H as [H _];
    repeat (destruct I as [<-|I]); try (destruct I; fail); try apply H.
Qed.
Lemma chain_tok top b ops : forall n, chain g top n b ops = true -> forall o t, In o ops -> In t (tokens_of o) -> is_tok g t = true.
Proof.
  induction ops as [|o ops IH]; intros n C o' t I T; [destruct I|]. cbn [chain] in C.
  apply andb_true_iff in C. destruct C as [_ C].
  destruct (kind n) as [| | |s|s|i c a|i c a|ii|l r|l r|i s|tt cc|i|i|bb oo xx|] eqn:K; try discriminate C.
  repeat rewrite andb_true_iff in C. destruct I as [<-|I]; [eapply spells_tok; [apply C|exact T]|eapply IH; [apply C|exact I|exact T]].
Qed.
Lemma oper_tok n b ops x o t : ok_item n -> kind n = NOper b ops x -> In o ops -> In t (tokens_of o) -> t <> geof g.
Proof.
  intros O K I T. destruct (ok_shape n O) as [SH IN]. unfold shape in SH. rewrite IN, K in SH. apply andb_true_iff in SH. destruct SH as [_ C].
  apply tok_not_end. exact (chain_tok x b ops x C o t I T).
Qed.

(** ** Nothing is read past the end *)
Definition stays (o : outcome) : Prop := match o with Done st | Fail st => fits st | _ => True end.
Lemma stays_next o k : stays o -> (forall st, o = Done st -> fits st -> stays (k st)) -> stays (next_do o k).
Proof. intros A K. destruct o as [st1|st1| |]; cbn [next_do]; try exact A. exact (K st1 eq_refl A). Qed.
Lemma report_fits c st : fits st -> fits (report c st).
Proof. unfold report. destruct (c || pblock st)%bool; auto. Qed.
Lemma stays_called c o : stays o -> stays (called c o).
Proof. destruct o; cbn [called]; auto. apply report_fits. Qed.
Lemma skip_stays f : forall n st, fits st -> stays (skip g follow tok f n st).
Proof.
  induction f as [|f IH]; intros n st F; [exact I|]. cbn [skip].
  destruct (Nat.eqb (ptok st) (geof g) || (is_term g (ptok st) && follow n (ptok st)))%bool eqn:T; [exact F|].
  apply IH. apply lex_fits; [exact F|]. apply orb_false_iff in T. apply Nat.eqb_neq. apply T.
Qed.
Lemma pick_tok {A} (sel : op -> option (id * A)) ops st a st1 : pick cond sel ops st = (Some a, st1) -> exists o, In o ops /\ sel o = Some (ptok st, a).
Proof. intros P. destruct (pick_same _ _ _ _ _ _ P) as [_ H]. exact (H a eq_refl). Qed.
Lemma picked_lex {A} (sel : op -> option (id * A)) n b ops x st a st1 : ok_item n -> kind n = NOper b ops x -> fits st ->
  (forall o t a, sel o = Some (t, a) -> In t (tokens_of o)) -> pick cond sel ops st = (Some a, st1) -> fits (yylex st1) /\ pidx (yylex st1) = S (pidx st).
Proof.
  intros O K F T P. destruct (pick_tok _ _ _ _ _ P) as (o & I & E). destruct (pick_same _ _ _ _ _ _ P) as [S1 _].
  split; [|cbn; destruct S1 as (<- & _); reflexivity].
  apply lex_fits; [exact (same_fits _ _ S1 F)|]. destruct S1 as (_ & <- & _). exact (oper_tok n b ops x o (ptok st) O K I (T _ _ _ E)).
Qed.
Lemma pre_tok o t a : sel_pre o = Some (t, a) -> In t (tokens_of o). Proof. destruct o; cbn; intros E; inversion E; auto. Qed.
Lemma post_tok o t a : sel_post o = Some (t, a) -> In t (tokens_of o). Proof. destruct o; cbn; intros E; inversion E; auto. Qed.
Lemma bin_tok o t a : sel_bin o = Some (t, a) -> In t (tokens_of o). Proof. destruct o; cbn; intros E; inversion E; auto. Qed.
Lemma paren_tok o t a : sel_paren o = Some (t, a) -> In t (tokens_of o) /\ In a (tokens_of o). Proof. destruct o; cbn; intros E; inversion E; auto. Qed.

Lemma run_stays f : forall cur cc j st, ok_job j -> fits st -> stays (run f cur cc j st).
Proof.
  induction f as [|f IH]; intros cur cc j st O F; [exact I|]. cbn [ParserModel.run].
  assert (EOFC : forall s st, fits st -> stays (if mem s (gstart g) && negb (Nat.eqb (ptok st) (geof g)) then Fail st else Done st)).
  { intros s st0 G0. destruct (mem s (gstart g) && negb (Nat.eqb (ptok st0) (geof g)))%bool; exact G0. }
  assert (RULE : forall e i s, In e (grules g) -> kind e = NEvolve i s -> ok_job (Item i)) by (intros e i s; apply ok_rule).
  destruct j as [n|es|ns|n b ops|n b ops]; cbn [ok_job] in O.
  - assert (CH : forall m, child g n m -> ok_job (Item m)) by (intros m; apply ok_child; exact O). unfold child in CH.
    destruct (kind n) as [| | |s|s|i c a|i c a|ii|l r|l r|i s|t c|i|i|b ops x|] eqn:K; try exact I.
    + exact F.
    + destruct (Nat.eqb_spec (ptok st) n) as [T|T]; [|apply report_fits; exact F]. apply lex_fits; [exact F|].
      intros E. apply EN. rewrite <- E, T. destruct O as [_ IT]. unfold is_item in IT. rewrite K in IT. apply mem_in. exact IT.
    + apply stays_called, IH; [apply ok_env|exact F].
    + destruct (search_rule g s) as [e|] eqn:SR; [|exact I]. destruct (kind e) eqn:Ke; try exact I.
      unfold search_rule in SR. apply find_some in SR. destruct SR as [He _].
      destruct (guarded _ _ _ _ st) as [go st1] eqn:GE. destruct (guarded_same _ _ _ _ _ _ _ GE) as [S1 _]. pose proof (same_fits _ _ S1 F) as F1.
      destruct go; [|exact F1]. apply stays_next; [apply IH; [exact (RULE e _ _ He Ke)|exact F1]|intros; apply EOFC; assumption].
    + apply stays_next; [apply IH; auto|]. intros st1 _ F1. destruct (test g first n (ptok st1)); [apply IH; auto|exact F1].
    + destruct (test g first n (ptok st)); [apply stays_next; [apply IH; auto|intros; apply IH; auto]|exact F].
    + destruct ii as [i|]; [apply IH; auto|exact F].
    + destruct (flatten g f [l; r]) as [ns|] eqn:FL; [|exact I]. apply IH; [exact (ok_flatten n l r f ns O K FL)|exact F].
    + apply stays_next; [apply IH; auto|intros; apply IH; auto].
    + destruct c as [c|].
      * pose proof (IH cur true (Item t) (block true st) (CH t (or_introl eq_refl)) F) as A. destruct (run f cur true (Item t) (block true st)) as [st1|st1| |]; try exact I; [exact A|].
        apply IH; [auto|]. split; [apply yylex_good|]. destruct F as ([F1 _] & F2). cbn. lia.
      * pose proof (IH cur true (Item t) st (CH t eq_refl) F) as A. destruct (run f cur true (Item t) st) as [st1|st1| |]; try exact A.
        destruct (Nat.eqb (pidx st - 1) (pidx st1 - 1) && negb (Nat.eqb (ptok st1) (geof g)))%bool eqn:T; apply skip_stays; [|exact A].
        apply lex_fits; [exact A|]. apply andb_true_iff in T. destruct T as [_ T]. apply negb_true_iff, Nat.eqb_neq in T. exact T.
    + destruct (kind i) eqn:Ki; try exact I; apply IH; auto.
    + apply IH; auto.
    + apply IH; [|exact F]. split; [exact O|eauto].
  - destruct es as [|e es]; [exact F|]. assert (He : In e (grules g)) by (apply O; left; reflexivity).
    assert (O' : ok_job (Rules es)) by (intros e' I'; apply O; right; exact I').
    destruct (kind e) eqn:K; try (apply IH; [exact O'|exact F]).
    destruct (guarded _ _ _ _ st) as [go st1] eqn:GE. destruct (guarded_same _ _ _ _ _ _ _ GE) as [S1 _]. pose proof (same_fits _ _ S1 F) as F1.
    destruct go; [apply stays_next; [apply IH; [exact (RULE e _ _ He K)|exact F1]|intros; apply EOFC; assumption]|apply IH; [exact O'|exact F1]].
  - destruct ns as [|m ns]; [exact F|].
    destruct (guarded _ _ _ _ st) as [go st1] eqn:GE. destruct (guarded_same _ _ _ _ _ _ _ GE) as [S1 _]. pose proof (same_fits _ _ S1 F) as F1.
    destruct go; apply IH; auto; [apply O; left; reflexivity|intros m' I'; apply O; right; exact I'].
  - destruct O as (O & x & K).
    assert (JD : ok_job (Operand n b ops)) by (split; eauto). assert (JR : ok_job (Operator n b ops)) by (split; eauto).
    assert (Ob : ok_job (Item b)) by (apply (ok_child n); [exact O|unfold child; rewrite K; reflexivity]).
    destruct (pick cond sel_pre ops st) as [p st1] eqn:P1. destruct p.
    { apply IH; [exact JD|]. exact (proj1 (picked_lex sel_pre n b ops x st _ st1 O K F pre_tok P1)). }
    destruct (pick_same _ _ _ _ _ _ P1) as [S1 _]. pose proof (same_fits _ _ S1 F) as F1.
    destruct (pick cond sel_paren ops st1) as [q st2] eqn:P2. destruct q as [u|].
    { destruct (picked_lex sel_paren n b ops x st1 u st2 O K F1 (fun o t a E => proj1 (paren_tok o t a E)) P2) as [F2 _].
      destruct (pick_tok _ _ _ _ _ P2) as (o & Io & Eo). apply paren_tok in Eo. destruct Eo as [_ Eo].
      destruct (test g first cur (ptok (yylex st2))); [|exact F2].
      apply stays_next; [apply stays_called, IH; [apply ok_env|exact F2]|].
      intros st3 _ F3. destruct (Nat.eqb_spec (ptok st3) u) as [T|T]; [|exact F3]. destruct (ask cond st3) as [c st4] eqn:AE.
      pose proof (ask_same _ _ _ _ AE) as S4. pose proof (same_fits _ _ S4 F3) as F4. destruct c; [|exact F4]. apply IH; [exact JR|].
      apply lex_fits; [exact F4|]. destruct S4 as (_ & <- & _). rewrite T. exact (oper_tok n b ops x o u O K Io Eo). }
    destruct (pick_same _ _ _ _ _ _ P2) as [S2 _]. pose proof (same_fits _ _ S2 F1) as F2.
    destruct (test g first (base_symbol g b) (ptok st2)); [|exact F2]. apply stays_next; [apply IH; auto|intros; apply IH; auto].
  - destruct O as (O & x & K).
    assert (JD : ok_job (Operand n b ops)) by (split; eauto). assert (JR : ok_job (Operator n b ops)) by (split; eauto).
    destruct (pick cond sel_post ops st) as [p st1] eqn:P1. destruct p.
    { apply IH; [exact JR|]. exact (proj1 (picked_lex sel_post n b ops x st _ st1 O K F post_tok P1)). }
    destruct (pick_same _ _ _ _ _ _ P1) as [S1 _]. pose proof (same_fits _ _ S1 F) as F1.
    destruct (pick cond sel_bin ops st1) as [q st2] eqn:P2. destruct q.
    { apply IH; [exact JD|]. exact (proj1 (picked_lex sel_bin n b ops x st1 _ st2 O K F1 bin_tok P2)). }
    destruct (pick_same _ _ _ _ _ _ P2) as [S2 _]. pose proof (same_fits _ _ S2 F1) as F2.
    destruct (pick cond sel_tern ops st2) as [q st3] eqn:P3. destruct (pick_same _ _ _ _ _ _ P3) as [S3 _]. destruct q; [exact I|exact (same_fits _ _ S3 F2)].
Qed.

(** ** What is got through with nothing read *)
Definition idle_job (j : job) : Prop :=
  match j with
  | Item n => idle n
  | Rules es => exists e i s, In e es /\ kind e = NEvolve i s /\ idle i
  | Branches ns => exists n, In n ns /\ idle n
  | Operand n b ops => idle b
  | Operator _ _ _ => True
  end.
Lemma flatten_idle f : forall work ns, flatten g f work = Some ns -> forall n, In n ns -> idle n -> exists m, In m work /\ idle m.
Proof.
  induction f as [|f IH]; intros work ns E n I J; [discriminate|]. cbn [flatten] in E. destruct work as [|m work]; [injection E as <-; destruct I|].
  destruct (kind m) as [| | |s|s|i c a|i c a|ii|l r|l r|i s|tt c|i|i|bb oo xx|] eqn:K;
    try (destruct (flatten g f work) as [rest|] eqn:F; [|discriminate]; cbn in E; injection E as <-;
         destruct I as [<-|I]; [exists m; split; [left; reflexivity|exact J]|destruct (IH _ _ F n I J) as (m' & I' & J'); exists m'; split; [right; exact I'|exact J']]).
  destruct (IH _ _ E n I J) as (m' & [<-|[<-|I']] & J').
  - exists m. split; [left; reflexivity|exact (i_altl g m l r K J')].
  - exists m. split; [left; reflexivity|exact (i_altr g m l r K J')].
  - exists m'. split; [right; exact I'|exact J'].
Qed.
Lemma moved f cur cc j st st' : run f cur cc j st = Done st' -> good tok st -> good tok st' /\ pidx st <= pidx st'.
Proof. intros E G. pose proof (run_moves g first follow tok cond f cur cc j st G) as M. rewrite E in M. exact M. Qed.
Lemma eofc s st st' : (if mem s (gstart g) && negb (Nat.eqb (ptok st) (geof g)) then Fail st else Done st) = Done st' -> st' = st.
Proof. destruct (mem s (gstart g) && negb (Nat.eqb (ptok st) (geof g)))%bool; congruence. Qed.
Lemma run_idle f : forall cur cc j st st', run f cur cc j st = Done st' -> good tok st -> pidx st' = pidx st -> idle_job j.
Proof.
  induction f as [|f IH]; intros cur cc j st st' E G P; [discriminate|]. cbn [ParserModel.run] in E.
  assert (TWO : forall cur cc j k, next_do (run f cur cc j st) k = Done st' -> (forall st1, good tok st1 -> k st1 = Done st' -> pidx st1 <= pidx st') ->
    exists st1, run f cur cc j st = Done st1 /\ k st1 = Done st' /\ pidx st1 = pidx st /\ good tok st1 /\ idle_job j).
  { intros cur0 cc0 j0 k X Y. destruct (run f cur0 cc0 j0 st) as [st1| | |] eqn:R; try discriminate X. cbn [next_do] in X.
    destruct (moved _ _ _ _ _ _ R G) as [G1 L1]. specialize (Y st1 G1 X). exists st1. repeat split; auto; try apply G1; [lia|]. apply (IH _ _ _ _ _ R G). lia. }
  destruct j as [n|es|ns|n b ops|n b ops]; cbn [idle_job].
  - destruct (kind n) as [| | |s|s|i c a|i c a|[i|]|l r|l r|i s|t [c|]|i|i|b ops x|] eqn:K; try discriminate.
    + exact (i_zero g n K).
    + destruct (Nat.eqb (ptok st) n); [|discriminate]. injection E as <-. cbn in P. lia.
    + apply called_done in E. destruct (IH _ _ _ _ _ E G P) as (e & i & s' & Ie & Ke & J). destruct (env_rules g s e Ie) as [He R].
      unfold rule_of in R. rewrite Ke in R. apply Nat.eqb_eq in R. subst s'. exact (i_non g n s e i K He Ke J).
    + exact (i_inl g n s K).
    + destruct (TWO _ _ _ _ E) as (st1 & _ & _ & _ & _ & J); [|exact (i_plus g n i c a K J)].
      intros st1 G1 X. destruct (test g first n (ptok st1)); [exact (proj2 (moved _ _ _ _ _ _ X G1))|injection X as <-; lia].
    + exact (i_star g n i c a K).
    + exact (i_act g n i K (IH _ _ _ _ _ E G P)).
    + exact (i_code g n K).
    + destruct (flatten g f [l; r]) as [ns|] eqn:FL; [|discriminate]. destruct (IH _ _ _ _ _ E G P) as (m & Im & J).
      destruct (flatten_idle f _ _ FL m Im J) as (m' & [<-|[<-|[]]] & J'); [exact (i_altl g n l r K J')|exact (i_altr g n l r K J')].
    + destruct (TWO _ _ _ _ E) as (st1 & _ & X & PX & G1 & J); [intros st1 G1 X; exact (proj2 (moved _ _ _ _ _ _ X G1))|].
      refine (i_cons g n l r K J (IH _ _ _ _ _ X G1 _)). lia.
    + destruct (run f cur true (Item t) (block true st)) as [st1|st1| |] eqn:R; try discriminate.
      * injection E as <-. refine (i_try g n t _ K (IH _ _ _ _ _ R _ _)); [exact G|exact P].
      * refine (i_catch g n t c K (IH _ _ _ _ _ E _ _)); [apply yylex_good|]. rewrite P. destruct G as [G1 _]. cbn. lia.
    + exact (i_recover g n t K).
    + destruct (kind i) eqn:Ki; try discriminate; exact (i_ann g n i K (IH _ _ _ _ _ E G P)).
    + exact (i_cond g n i K (IH _ _ _ _ _ E G P)).
    + exact (i_oper g n b ops x K (IH _ _ _ _ _ E G P)).
  - destruct es as [|e es]; [discriminate|].
    assert (REST : forall st1, good tok st1 -> pidx st1 = pidx st -> run f cur cc (Rules es) st1 = Done st' -> exists e0 i s, In e0 (e :: es) /\ kind e0 = NEvolve i s /\ idle i).
    { intros st1 G1 P1 X. destruct (IH _ _ _ _ _ X G1) as (e0 & i & s & I0 & K0 & J); [lia|]. exists e0, i, s. split; [right; exact I0|auto]. }
    destruct (kind e) as [| | |?|?|? ? ?|? ? ?|?|? ?|? ?|i s|? ?|?|?|? ? ?|] eqn:K; try (apply (REST st G eq_refl E)).
    destruct (guarded _ _ _ _ st) as [go st1] eqn:GE. destruct (guarded_same _ _ _ _ _ _ _ GE) as [S1 _].
    pose proof (same_good tok _ _ S1 G) as G1. destruct S1 as (P1 & _).
    destruct go; [|apply (REST st1 G1 (eq_sym P1) E)].
    destruct (run f cur cc (Item i) st1) as [st2| | |] eqn:R; try discriminate. cbn [next_do] in E. apply eofc in E. subst st'.
    exists e, i, s. split; [left; reflexivity|]. split; [exact K|]. apply (IH _ _ _ _ _ R G1). lia.
  - destruct ns as [|m ns]; [discriminate|]. destruct (guarded _ _ _ _ st) as [go st1] eqn:GE. destruct (guarded_same _ _ _ _ _ _ _ GE) as [S1 _].
    pose proof (same_good tok _ _ S1 G) as G1. destruct S1 as (P1 & _). destruct go.
    + exists m. split; [left; reflexivity|]. apply (IH _ _ _ _ _ E G1). lia.
    + destruct (IH _ _ _ _ _ E G1) as (m' & I' & J); [lia|]. exists m'. split; [right; exact I'|exact J].
  - assert (LEX : forall st1 cur cc j, pidx st1 = pidx st -> run f cur cc j (yylex st1) = Done st' -> False).
    { intros st1 cur0 cc0 j0 P1 X. destruct (moved _ _ _ _ _ _ X (yylex_good tok st1)) as [_ L]. cbn in L. lia. }
    destruct (pick cond sel_pre ops st) as [p st1] eqn:P1. destruct (pick_same _ _ _ _ _ _ P1) as [S1 _]. pose proof (same_good tok _ _ S1 G) as G1. destruct S1 as (I1 & _).
    destruct p; [destruct (LEX st1 _ _ _ (eq_sym I1) E)|].
    destruct (pick cond sel_paren ops st1) as [q st2] eqn:P2. destruct (pick_same _ _ _ _ _ _ P2) as [S2 _]. pose proof (same_good tok _ _ S2 G1) as G2. destruct S2 as (I2 & _).
    destruct q as [u|].
    + exfalso. destruct (test g first cur (ptok (yylex st2))); [|discriminate].
      destruct (run f cur false (Rules (env g cur)) (yylex st2)) as [st3|st3| |] eqn:R; try discriminate. cbn [called next_do] in E.
      destruct (moved _ _ _ _ _ _ R (yylex_good tok st2)) as [_ L]. cbn in L.
      destruct (Nat.eqb (ptok st3) u); [|discriminate]. destruct (ask cond st3) as [c st4] eqn:AE. destruct (ask_same _ _ _ _ AE) as (I4 & _). destruct c; [|discriminate].
      destruct (moved _ _ _ _ _ _ E (yylex_good tok st4)) as [_ L2]. cbn in L2. lia.
    + destruct (test g first (base_symbol g b) (ptok st2)); [|discriminate].
      destruct (run f cur cc (Item b) st2) as [st3|st3| |] eqn:R; try discriminate. cbn [next_do] in E.
      destruct (moved _ _ _ _ _ _ R G2) as [G3 L]. destruct (moved _ _ _ _ _ _ E G3) as [_ L2]. apply (IH _ _ _ _ _ R G2). lia.
  - exact I.
Qed.

(** ** Ends *)
Definition ends (F : nat -> outcome) : Prop := exists f o, o <> Out /\ forall f', f <= f' -> F f' = o.
Lemma ends_same F G : (forall f, F f = G f) -> ends F -> ends G.
Proof. intros E (f & o & N & H). exists f, o. split; [exact N|]. intros f' L. rewrite <- E. exact (H f' L). Qed.
Lemma ends_at o : o <> Out -> ends (fun _ => o). Proof. intros N. exists 0, o. auto. Qed.
Lemma ends_later F : ends (fun f => F (S f)) -> ends F.
Proof. intros (f & o & N & H). exists (S f), o. split; [exact N|]. intros [|f'] L; [lia|]. apply H. lia. Qed.
Lemma ends_next F K : ends F -> (forall f st, F f = Done st -> ends (fun f => K f st)) -> ends (fun f => next_do (F f) (K f)).
Proof.
  intros (f & o & N & H) X. destruct o as [st|st| |].
  - destruct (X f st (H f (le_n f))) as (f2 & o2 & N2 & H2). exists (Nat.max f f2), o2. split; [exact N2|]. intros f' L. rewrite (H f') by lia. apply H2. lia.
  - exists f, (Fail st). split; [discriminate|]. intros f' L. rewrite (H f' L). reflexivity.
  - congruence.
  - exists f, Odd. split; [discriminate|]. intros f' L. rewrite (H f' L). reflexivity.
Qed.
Lemma ends_called c F : ends F -> ends (fun f => called c (F f)).
Proof.
  intros (f & o & N & H). exists f, (called c o). split; [destruct o; cbn; congruence|]. intros f' L. rewrite (H f' L). reflexivity.
Qed.
Lemma skip_ends' n st : ends (fun f => skip g follow tok f n st).
Proof.
  destruct (skip_ends g follow tok n w st) as (f & st' & E); [intros k L; unfold stream; apply nth_overflow; exact L|].
  exists f, (Done st'). split; [discriminate|]. intros f' L. apply (skip_more g follow tok f n st _ E); [discriminate|exact L].
Qed.
Lemma flatten_ends : forall work, exists f ns, forall f', f <= f' -> (forall n, In n work -> ok_item n) -> flatten g f' work = Some ns.
Proof.
  assert (ONE : forall n work, (exists f ns, forall f', f <= f' -> (forall n, In n work -> ok_item n) -> flatten g f' work = Some ns) ->
    exists f ns, forall f', f <= f' -> (forall m, In m (n :: work) -> ok_item m) -> flatten g f' (n :: work) = Some ns).
  { intros n. induction n as [n IH] using (well_founded_induction lt_wf). intros work (f & ns & H).
    destruct (kind n) as [| | |s|s|i c a|i c a|ii|l r|l r|i s|tt c|i|i|bb oo xx|] eqn:K;
      try (exists (S f), (n :: ns); intros [|f'] L O; [lia|]; cbn [flatten]; rewrite K, H; [reflexivity|lia|intros; apply O; right; assumption]).
    destruct (Nat.ltb l n && Nat.ltb r n)%bool eqn:B.
    - apply andb_true_iff in B. destruct B as [B1 B2]. apply Nat.ltb_lt in B1, B2.
      destruct (IH l B1 (r :: work) (IH r B2 work (ex_intro _ f (ex_intro _ ns H)))) as (f2 & ns2 & H2).
      exists (S f2), ns2. intros [|f'] L O; [lia|]. cbn [flatten]. rewrite K. apply H2; [lia|].
      intros m [<-|[<-|I]]; [apply (ok_child n); [apply O; left; reflexivity|unfold child; rewrite K; auto] ..|apply O; right; exact I].
    - exists 0, []. intros f' _ O. exfalso. specialize (O n (or_introl eq_refl)). destruct (ok_shape n O) as [SH IN]. unfold shape in SH. rewrite IN, K in SH.
      unfold below in SH. repeat rewrite andb_true_iff in SH. destruct SH as [[S1 _] [S2 _]]. rewrite S1, S2 in B. discriminate. }
  induction work as [|n work IH]; [exists 1, []; intros [|f'] L _; [lia|reflexivity]|apply ONE; exact IH].
Qed.

Hypothesis NLR : no_left_recursion g.
Lemma starts_lt n m : starts n m -> n < size g.
Proof.
  intros X. destruct (kind n) eqn:K; try (apply (kind_lt g); rewrite K; discriminate).
  exfalso. inversion X; subst; try congruence. destruct H; congruence.
Qed.
Lemma starts_inside n m : inside g n = true -> starts n m -> inside g m = true.
Proof.
  intros I X. assert (KN : kind n <> NOther) by (intros K; pose proof (starts_lt n m X) as L; inversion X; subst; try congruence; destruct H; congruence).
  assert (RULE : forall e i s, In e (grules g) -> kind e = NEvolve i s -> inside g i = true) by (intros e i s He Ke; exact (proj1 (ok_rule e i s He Ke))).
  pose proof (shaped g WF n KN) as SH. unfold shape in SH. rewrite I in SH.
  assert (IN : forall m, below g m n = true -> inside g m = true) by (intros m' B; eapply below_inside; eassumption).
  inversion X; subst; try (eapply RULE; eassumption); try exact I;
    match goal with H : GrammarModel.kind g n = _ |- _ => rewrite H in SH end; try (destruct c); repeat rewrite andb_true_iff in SH; apply IN; apply SH.
Qed.
Lemma starts_acc n : inside g n = true -> Acc (fun m n => clos_trans id starts n m) n.
Proof.
  assert (A : Acc (fun m n => inside g n = true /\ starts n m) n).
  { apply (down_ends (fun n m => inside g n = true /\ starts n m) (size g)); [intros a b [_ X]; exact (starts_lt a b X)|].
    intros a T. assert (X : inside g a = true /\ clos_trans id starts a a).
    { revert T. generalize a at 2 5 as b. intros b T. induction T as [a b [X Y]|a b c _ [X Y] _ [_ Z]]; [split; [exact X|apply t_step; exact Y]|split; [exact X|apply t_trans with b; assumption]]. }
    exact (NLR a (proj1 X) (proj2 X)). }
  induction A as [n _ IH]. intros I. constructor. intros m T.
  apply clos_trans_t1n_iff in T. destruct T as [m T|m k T R]; [exact (IH _ (conj I T) (starts_inside n _ I T))|].
  apply clos_trans_t1n_iff in R. apply (Acc_inv (IH _ (conj I T) (starts_inside n _ I T))). exact R.
Qed.
Lemma starts_leaf f : forall work ns n0, flatten g f work = Some ns -> (forall n, In n work -> clos_trans id starts n0 n) -> forall n, In n ns -> clos_trans id starts n0 n.
Proof.
  intros work ns n0 E W n I. refine (flatten_all g (fun m => clos_trans id starts n0 m) _ f work ns E W n I).
  intros m l r K T. split; (apply t_trans with m; [exact T|apply t_step]); [exact (s_altl g m l r K)|exact (s_altr g m l r K)].
Qed.

Definition runs_out (cur : id) (cc : bool) (j : job) (st : pstate) : Prop := ends (fun f => run f cur cc j st).
Lemma all_end : forall r cur cc j st, ok_job j -> fits st -> S (length w) - pidx st = r -> runs_out cur cc j st.
Proof.
  intros r. induction r as [r IHr] using (well_founded_induction lt_wf).
  (* further on in the text *)
  assert (ON : forall st0, S (length w) - pidx st0 = r -> forall cur cc j st, ok_job j -> fits st -> pidx st0 < pidx st -> runs_out cur cc j st).
  { intros st0 R cur cc j st O F L. apply (IHr (S (length w) - pidx st)); auto. destruct F as (_ & F). lia. }
  assert (EOFC : forall s st, (if mem s (gstart g) && negb (Nat.eqb (ptok st) (geof g)) then Fail st else Done st) <> Out).
  { intros s st0. destruct (mem s (gstart g) && negb (Nat.eqb (ptok st0) (geof g)))%bool; discriminate. }
  assert (STAY : forall f cur cc j st st', ok_job j -> fits st -> run f cur cc j st = Done st' -> fits st' /\ (pidx st < pidx st' \/ pidx st' = pidx st /\ idle_job j)).
  { intros f cur cc j st st' O F E. pose proof (run_stays f cur cc j st O F) as X. rewrite E in X. split; [exact X|].
    destruct (moved _ _ _ _ _ _ E (proj1 F)) as [_ L]. destruct (Nat.eq_dec (pidx st') (pidx st)) as [Q|Q]; [right; split; [exact Q|exact (run_idle _ _ _ _ _ _ E (proj1 F) Q)]|left; lia]. }
  (* rules and branches, if their items end *)
  assert (RULES : forall (es : list id) cur cc st, ok_job (Rules es) -> fits st -> S (length w) - pidx st = r ->
    (forall e i s, In e es -> kind e = NEvolve i s -> forall cur cc st, fits st -> S (length w) - pidx st = r -> runs_out cur cc (Item i) st) -> runs_out cur cc (Rules es) st).
  { induction es as [|e es IH]; intros cur cc st O F R H; apply ends_later; cbn [ParserModel.run]; [apply ends_at; discriminate|].
    assert (REST : forall st, fits st -> S (length w) - pidx st = r -> runs_out cur cc (Rules es) st).
    { intros st1 F1 R1. apply IH; auto; [intros e' I'; apply O; right; exact I'|intros; eapply H; [right; eassumption|eassumption|assumption|assumption]]. }
    destruct (kind e) as [| | |?|?|? ? ?|? ? ?|?|? ?|? ?|i s|? ?|?|?|? ? ?|] eqn:K; try (apply REST; assumption).
    destruct (guarded _ _ _ _ st) as [go st1] eqn:GE. destruct (guarded_same _ _ _ _ _ _ _ GE) as [S1 _]. pose proof (same_fits _ _ S1 F) as F1.
    assert (R1 : S (length w) - pidx st1 = r) by (destruct S1 as (<- & _); exact R).
    destruct go; [|apply REST; assumption].
    apply (ends_next (fun f => run f cur cc (Item i) st1) (fun f st => if mem s (gstart g) && negb (Nat.eqb (ptok st) (geof g)) then Fail st else Done st)).
    - apply (H e i s (or_introl eq_refl) K); assumption.
    - intros f st2 _. apply ends_at. apply EOFC. }
  assert (BRANCHES : forall (ns : list id) cur cc st, fits st -> S (length w) - pidx st = r ->
    (forall n, In n ns -> forall cur cc st, fits st -> S (length w) - pidx st = r -> runs_out cur cc (Item n) st) -> runs_out cur cc (Branches ns) st).
  { induction ns as [|n ns IH]; intros cur cc st F R H; apply ends_later; cbn [ParserModel.run]; [apply ends_at; discriminate|].
    destruct (guarded _ _ _ _ st) as [go st1] eqn:GE. destruct (guarded_same _ _ _ _ _ _ _ GE) as [S1 _]. pose proof (same_fits _ _ S1 F) as F1.
    assert (R1 : S (length w) - pidx st1 = r) by (destruct S1 as (<- & _); exact R).
    destruct go; [apply (H n (or_introl eq_refl)); assumption|]. apply IH; auto. intros m Im. apply H. right. exact Im. }
  (* after an operand *)
  assert (OPERATOR : forall n b ops x cur cc st, ok_item n -> kind n = NOper b ops x -> fits st -> S (length w) - pidx st = r -> runs_out cur cc (Operator n b ops) st).
  { intros n b ops x cur cc st O K F R. apply ends_later. cbn [ParserModel.run].
    assert (JD : ok_job (Operand n b ops)) by (split; eauto). assert (JR : ok_job (Operator n b ops)) by (split; eauto).
    destruct (pick cond sel_post ops st) as [p st1] eqn:P1. destruct p.
    { destruct (picked_lex sel_post n b ops x st _ st1 O K F post_tok P1) as [F1 L1]. apply (ON st R); [exact JR|exact F1|lia]. }
    destruct (pick_same _ _ _ _ _ _ P1) as [S1 _]. pose proof (same_fits _ _ S1 F) as F1.
    destruct (pick cond sel_bin ops st1) as [q st2] eqn:P2. destruct q.
    { destruct (picked_lex sel_bin n b ops x st1 _ st2 O K F1 bin_tok P2) as [F2 L2]. apply (ON st R); [exact JD|exact F2|]. destruct S1 as (S1 & _). lia. }
    destruct (pick cond sel_tern ops st2) as [q st3]. destruct q; apply ends_at; discriminate. }
  assert (ITEM : forall n, Acc (fun m n => clos_trans id starts n m) n -> ok_item n -> forall cur cc st, fits st -> S (length w) - pidx st = r -> runs_out cur cc (Item n) st).
  { intros n A. induction A as [n _ IHn]. intros O cur cc st F R.
    assert (HERE : forall m, clos_trans id starts n m -> ok_item m -> forall cur cc st1, fits st1 -> pidx st <= pidx st1 -> runs_out cur cc (Item m) st1).
    { intros m T Om cur1 cc1 st1 F1 L. destruct (Nat.eq_dec (pidx st) (pidx st1)) as [Q|Q]; [apply (IHn m T Om); [exact F1|lia]|apply (ON st R); [exact Om|exact F1|lia]]. }
    assert (CH : forall m, child g n m -> ok_item m) by (intros m; apply ok_child; exact O). unfold child in CH.
    assert (RULE : forall s, (forall e i, In e (grules g) -> kind e = NEvolve i s -> starts n i) -> forall cur cc st1, fits st1 -> pidx st <= pidx st1 -> runs_out cur cc (Rules (env g s)) st1).
    { intros s ST cur1 cc1 st1 F1 L. destruct (Nat.eq_dec (pidx st) (pidx st1)) as [Q|Q]; [|apply (ON st R); [apply ok_env|exact F1|lia]].
      apply RULES; [apply ok_env|exact F1|lia|]. intros e i s' Ie Ke cur2 cc2 st2 F2 R2. destruct (env_rules g s e Ie) as [He Re].
      unfold rule_of in Re. rewrite Ke in Re. apply Nat.eqb_eq in Re. subst s'.
      apply HERE; [apply t_step; exact (ST e i He Ke)|exact (ok_rule e i s He Ke)|exact F2|]. destruct F1 as (_ & F1). destruct F2 as (_ & F2). lia. }
    apply ends_later. cbn [ParserModel.run].
    destruct (kind n) as [| | |s|s|i c a|i c a|[i|]|l r0|l r0|i s|t [c|]|i|i|b ops x|] eqn:K; try (apply ends_at; discriminate).
    - destruct (Nat.eqb (ptok st) n); apply ends_at; discriminate.
    - apply ends_called. apply RULE; [intros e i He Ke; exact (s_non g n s e i K He Ke)|exact F|lia].
    - destruct (search_rule g s) as [e|] eqn:SR; [|apply ends_at; discriminate].
      unfold search_rule in SR. apply find_some in SR. destruct SR as [He Re].
      destruct (kind e) as [| | |?|?|? ? ?|? ? ?|?|? ?|? ?|i s'|? ?|?|?|? ? ?|] eqn:Ke; try (apply ends_at; discriminate).
      unfold rule_of in Re. rewrite Ke in Re. apply Nat.eqb_eq in Re. subst s'.
      destruct (guarded _ _ _ _ st) as [go st1] eqn:GE. destruct (guarded_same _ _ _ _ _ _ _ GE) as [S1 _]. pose proof (same_fits _ _ S1 F) as F1.
      destruct go; [|apply ends_at; discriminate].
      apply (ends_next (fun f => run f cur cc (Item i) st1) (fun f st => if mem s (gstart g) && negb (Nat.eqb (ptok st) (geof g)) then Fail st else Done st)).
      + apply HERE; [apply t_step; exact (s_inl g n s e i K He Ke)|exact (ok_rule e i s He Ke)|exact F1|destruct S1 as (<- & _); lia].
      + intros f st2 _. apply ends_at. apply EOFC.
    - apply (ends_next (fun f => run f cur cc (Item i) st) (fun f st => if test g first n (ptok st) then run f cur cc (Item n) st else Done st)).
      + apply HERE; [apply t_step; exact (s_plus g n i c a K)|apply CH; reflexivity|exact F|lia].
      + intros f st1 E. destruct (STAY _ _ _ (Item _) _ _ (CH i eq_refl) F E) as [F1 X]. destruct (test g first n (ptok st1)); [|apply ends_at; discriminate].
        destruct X as [X|[X J]]; [apply (ON st R); [exact O|exact F1|exact X]|].
        destruct (NLR n (proj1 O)). apply t_step. exact (s_again g n i c a (or_introl K) J).
    - destruct (test g first n (ptok st)); [|apply ends_at; discriminate].
      apply (ends_next (fun f => run f cur cc (Item i) st) (fun f => run f cur cc (Item n))).
      + apply HERE; [apply t_step; exact (s_star g n i c a K)|apply CH; reflexivity|exact F|lia].
      + intros f st1 E. destruct (STAY _ _ _ (Item _) _ _ (CH i eq_refl) F E) as [F1 X].
        destruct X as [X|[X J]]; [apply (ON st R); [exact O|exact F1|exact X]|].
        destruct (NLR n (proj1 O)). apply t_step. exact (s_again g n i c a (or_intror K) J).
    - apply HERE; [apply t_step; exact (s_act g n i K)|apply CH; reflexivity|exact F|lia].
    - destruct (flatten_ends [l; r0]) as (f0 & ns & FL).
      assert (OW : forall m, In m [l; r0] -> ok_item m) by (intros m [<-|[<-|[]]]; apply CH; auto).
      assert (B : runs_out cur cc (Branches ns) st).
      { apply BRANCHES; [exact F|exact R|]. intros m Im cur1 cc1 st1 F1 R1. apply HERE.
        - apply (starts_leaf f0 [l; r0] ns n (FL f0 (le_n _) OW)); [|exact Im].
          intros k [<-|[<-|[]]]; apply t_step; [exact (s_altl g n l r0 K)|exact (s_altr g n l r0 K)].
        - exact (ok_flatten n l r0 f0 ns O K (FL f0 (le_n _) OW) m Im).
        - exact F1.
        - destruct F1 as (_ & F1). destruct F as (_ & F2). lia. }
      destruct B as (f1 & o & N & H). exists (Nat.max f0 f1), o. split; [exact N|]. intros f' L. rewrite FL by (lia || exact OW). apply H. lia.
    - apply (ends_next (fun f => run f cur cc (Item l) st) (fun f => run f cur cc (Item r0))).
      + apply HERE; [apply t_step; exact (s_consl g n l r0 K)|apply CH; auto|exact F|lia].
      + intros f st1 E. destruct (STAY _ _ _ (Item _) _ _ (CH l (or_introl eq_refl)) F E) as [F1 X].
        destruct X as [X|[X J]]; [apply (ON st R); [exact (CH r0 (or_intror eq_refl))|exact F1|exact X]|].
        apply HERE; [apply t_step; exact (s_consr g n l r0 K J)|apply CH; auto|exact F1|lia].
    - assert (T : runs_out cur true (Item t) (block true st)) by (apply HERE; [apply t_step; exact (s_try g n t _ K)|apply CH; auto|exact F|cbn; lia]).
      destruct T as (f0 & o & N & H). destruct o as [st1|st1| |]; [| |congruence|].
      + exists f0, (Done (block (pblock st) st1)). split; [discriminate|]. intros f' L. rewrite (H f' L). reflexivity.
      + set (st2 := rewind tok (pidx st - 1) (block (pblock st) st1)).
        assert (C : runs_out cur cc (Item c) st2).
        { destruct F as ([F1 F2] & F3). apply HERE; [apply t_step; exact (s_catch g n t c K)|apply CH; auto| |cbn; lia]. split; [apply yylex_good|]. cbn. lia. }
        destruct C as (f1 & o & N' & H'). exists (Nat.max f0 f1), o. split; [exact N'|]. intros f' L. rewrite (H f') by lia. apply H'. lia.
      + exists f0, Odd. split; [discriminate|]. intros f' L. rewrite (H f' L). reflexivity.
    - assert (T : runs_out cur true (Item t) st) by (apply HERE; [apply t_step; exact (s_try g n t _ K)|apply CH; auto|exact F|lia]).
      destruct T as (f0 & o & N & H). destruct o as [st1|st1| |]; [| |congruence|].
      + exists f0, (Done st1). split; [discriminate|]. intros f' L. rewrite (H f' L). reflexivity.
      + destruct (skip_ends' n (if Nat.eqb (pidx st - 1) (pidx st1 - 1) && negb (Nat.eqb (ptok st1) (geof g)) then yylex st1 else st1)) as (f1 & o & N' & H').
        exists (Nat.max f0 f1), o. split; [exact N'|]. intros f' L. rewrite (H f') by lia. apply H'. lia.
      + exists f0, Odd. split; [discriminate|]. intros f' L. rewrite (H f' L). reflexivity.
    - destruct (kind i) eqn:Ki; try (apply ends_at; discriminate); (apply HERE; [apply t_step; exact (s_ann g n i K)|apply CH; reflexivity|exact F|lia]).
    - apply HERE; [apply t_step; exact (s_cond g n i K)|apply CH; reflexivity|exact F|lia].
    - apply ends_later. cbn [ParserModel.run].
      assert (JD : ok_job (Operand n b ops)) by (split; eauto). assert (JR : ok_job (Operator n b ops)) by (split; eauto).
      destruct (pick cond sel_pre ops st) as [p st1] eqn:P1. destruct p.
      { destruct (picked_lex sel_pre n b ops x st _ st1 O K F pre_tok P1) as [F1 L1]. apply (ON st R); [exact JD|exact F1|lia]. }
      destruct (pick_same _ _ _ _ _ _ P1) as [S1 _]. pose proof (same_fits _ _ S1 F) as F1. destruct S1 as (I1 & _).
      destruct (pick cond sel_paren ops st1) as [q st2] eqn:P2. destruct q as [u|].
      { destruct (picked_lex sel_paren n b ops x st1 u st2 O K F1 (fun o t a E => proj1 (paren_tok o t a E)) P2) as [F2 L2].
        destruct (pick_tok _ _ _ _ _ P2) as (o & Io & Eo). apply paren_tok in Eo. destruct Eo as [_ Eo].
        destruct (test g first cur (ptok (yylex st2))); [|apply ends_at; discriminate].
        apply (ends_next (fun f => called cc (run f cur false (Rules (env g cur)) (yylex st2)))
          (fun f st => if Nat.eqb (ptok st) u then let (c, st) := ask cond st in if c then run f cur cc (Operator n b ops) (yylex st) else Fail st else Fail st)).
        - apply ends_called. apply (ON st R); [apply ok_env|exact F2|lia].
        - intros f st3 E. apply called_done in E. pose proof (run_stays f cur false (Rules (env g cur)) (yylex st2) (ok_env cur) F2) as F3. rewrite E in F3. cbn [stays] in F3.
          destruct (moved _ _ _ _ _ _ E (proj1 F2)) as [_ L3].
          destruct (Nat.eqb_spec (ptok st3) u) as [T|T]; [|apply ends_at; discriminate]. destruct (ask cond st3) as [c st4] eqn:AE.
          pose proof (ask_same _ _ _ _ AE) as S4. pose proof (same_fits _ _ S4 F3) as F4. destruct c; [|apply ends_at; discriminate].
          assert (F5 : fits (yylex st4)) by (apply lex_fits; [exact F4|]; destruct S4 as (_ & <- & _); rewrite T; exact (oper_tok n b ops x o u O K Io Eo)).
          apply (ON st R); [exact JR|exact F5|]. destruct S4 as (S4 & _). cbn [pidx ParserModel.yylex]. lia. }
      destruct (pick_same _ _ _ _ _ _ P2) as [S2 _]. pose proof (same_fits _ _ S2 F1) as F2. destruct S2 as (I2 & _).
      destruct (test g first (base_symbol g b) (ptok st2)); [|apply ends_at; discriminate].
      apply (ends_next (fun f => run f cur cc (Item b) st2) (fun f => run f cur cc (Operator n b ops))).
      + apply HERE; [apply t_step; exact (s_oper g n b ops x K)|apply CH; reflexivity|exact F2|lia].
      + intros f st3 E. destruct (STAY _ _ _ (Item _) _ _ (CH b eq_refl) F2 E) as [F3 X].
        destruct X as [X|[X _]]; [apply (ON st R); [exact JR|exact F3|lia]|]. apply (OPERATOR n b ops x); auto. lia. }
  intros cur cc j st O F R. destruct j as [n|es|ns|n b ops|n b ops]; cbn [ok_job] in O.
  - apply ITEM; auto. apply starts_acc, O.
  - apply RULES; auto. intros e i s Ie Ke cur1 cc1 st1 F1 R1. pose proof (ok_rule e i s (O e Ie) Ke) as Oi. apply ITEM; auto. apply starts_acc, Oi.
  - apply BRANCHES; auto. intros n In_ cur1 cc1 st1 F1 R1. apply ITEM; auto. apply starts_acc. exact (proj1 (O n In_)).
  - destruct O as (O & x & K).
    (* an operand is what the operator item runs *)
    destruct (ITEM n (starts_acc n (proj1 O)) O cur cc st F R) as (f & o & N & H). exists f, o. split; [exact N|]. intros f' L. rewrite <- (H (S f') ltac:(lia)). cbn [ParserModel.run]. rewrite K. reflexivity.
  - destruct O as (O & x & K). apply (OPERATOR n b ops x); auto.
Qed.
Lemma parse_ends s : exists f, forall f', f <= f' -> parse g first follow tok cond f' s <> Out.
Proof.
  assert (F : fits (start_state tok)) by (split; [split; [cbn; lia|reflexivity]|cbn; lia]).
  destruct (all_end _ s false (Rules (env g s)) (start_state tok) (ok_env s) F eq_refl) as (f & o & N & H). exists f. intros f' L. unfold parse. rewrite (H f' L). exact N.
Qed.

(** ** No odd run in a careful grammar *)
Hypothesis OK : careful g first follow = true.
Lemma skip_not_odd f : forall n st, skip g follow tok f n st <> Odd.
Proof.
  induction f as [|f IH]; intros n st; cbn [skip]; [discriminate|].
  destruct (Nat.eqb (ptok st) (geof g) || (is_term g (ptok st) && follow n (ptok st)))%bool; [discriminate|apply IH].
Qed.
Lemma run_not_odd f : forall cur cc j st, ok_job j -> run f cur cc j st <> Odd.
Proof.
  induction f as [|f IH]; intros cur cc j st O; [discriminate|]. cbn [ParserModel.run].
  assert (NEXT : forall o k, o <> Odd -> (forall st, k st <> Odd) -> next_do o k <> Odd) by (intros o k A B; destruct o; cbn; auto).
  assert (CALLED : forall c o, o <> Odd -> called c o <> Odd) by (intros c o A; destruct o; cbn; congruence).
  assert (EOFC : forall s st, (if mem s (gstart g) && negb (Nat.eqb (ptok st) (geof g)) then Fail st else Done st) <> Odd).
  { intros s st0. destruct (mem s (gstart g) && negb (Nat.eqb (ptok st0) (geof g)))%bool; discriminate. }
  destruct j as [n|es|ns|n b ops|n b ops]; cbn [ok_job] in O.
  - assert (CH : forall m, child g n m -> ok_job (Item m)) by (intros m; apply ok_child; exact O). unfold child in CH.
    pose proof (item_fine g first follow OK n (proj1 O)) as IF. unfold item_ok in IF.
    destruct (kind n) as [| | |s|s|i c a|i c a|[i|]|l r|l r|i s|t [c|]|i|i|b ops x|] eqn:K; try discriminate;
      try (apply IH; apply CH; auto; fail); try (destruct O as [_ O]; unfold is_item in O; rewrite K in O; discriminate O).
    + destruct (Nat.eqb (ptok st) n); discriminate.
    + apply CALLED, IH, ok_env.
    + apply andb_true_iff in IF. destruct IF as [IF _]. apply Nat.eqb_eq in IF.
      destruct (search_rule g s) as [e|] eqn:SR.
      * unfold search_rule in SR. apply find_some in SR. destruct SR as [He Re]. unfold rule_of in Re.
        destruct (kind e) as [| | |?|?|? ? ?|? ? ?|?|? ?|? ?|i s'|? ?|?|?|? ? ?|] eqn:Ke; try discriminate Re.
        destruct (guarded _ _ _ _ st) as [go st1]. destruct go; [|discriminate]. apply NEXT; [apply IH; exact (ok_rule e i s' He Ke)|apply EOFC].
      * exfalso. destruct (env g s) as [|e l] eqn:EV; [discriminate IF|]. assert (Ie : In e (env g s)) by (rewrite EV; left; reflexivity).
        destruct (env_rules g s e Ie) as [He Re]. unfold search_rule in SR. rewrite (find_none _ _ SR e He) in Re. discriminate.
    + apply NEXT; [apply IH; apply CH; reflexivity|]. intros st1. destruct (test g first n (ptok st1)); [apply IH; exact O|discriminate].
    + destruct (test g first n (ptok st)); [|discriminate]. apply NEXT; [apply IH; apply CH; reflexivity|intros; apply IH; exact O].
    + destruct (flatten g f [l; r]) as [ns|] eqn:FL; [|discriminate]. apply IH. exact (ok_flatten n l r f ns O K FL).
    + apply NEXT; [apply IH; apply CH; auto|intros; apply IH; apply CH; auto].
    + pose proof (IH cur true (Item t) st (CH t eq_refl)) as A. destruct (run f cur true (Item t) st) as [st1|st1| |]; try discriminate; [apply skip_not_odd|congruence].
    + destruct (kind i) eqn:Ki; try discriminate IF; apply IH; apply CH; reflexivity.
    + apply IH. split; [exact O|eauto].
  - destruct es as [|e es]; [discriminate|]. assert (O' : ok_job (Rules es)) by (intros e' I'; apply O; right; exact I').
    destruct (kind e) eqn:K; try (apply IH; exact O').
    destruct (guarded _ _ _ _ st) as [go st1]. destruct go; [|apply IH; exact O']. apply NEXT; [apply IH; exact (ok_rule e _ _ (O e (or_introl eq_refl)) K)|apply EOFC].
  - destruct ns as [|m ns]; [discriminate|]. destruct (guarded _ _ _ _ st) as [go st1].
    destruct go; apply IH; [apply O; left; reflexivity|intros m' I'; apply O; right; exact I'].
  - destruct O as (O & x & K).
    assert (JD : ok_job (Operand n b ops)) by (split; eauto). assert (JR : ok_job (Operator n b ops)) by (split; eauto).
    assert (Ob : ok_job (Item b)) by (apply (ok_child n); [exact O|unfold child; rewrite K; reflexivity]).
    destruct (pick cond sel_pre ops st) as [p st1]. destruct p; [apply IH; exact JD|].
    destruct (pick cond sel_paren ops st1) as [q st2]. destruct q as [u|].
    { destruct (test g first cur (ptok (yylex st2))); [|discriminate]. apply NEXT; [apply CALLED, IH, ok_env|].
      intros st3. destruct (Nat.eqb (ptok st3) u); [|discriminate]. destruct (ask cond st3) as [c st4]. destruct c; [apply IH; exact JR|discriminate]. }
    destruct (test g first (base_symbol g b) (ptok st2)); [|discriminate]. apply NEXT; [apply IH; exact Ob|intros; apply IH; exact JR].
  - destruct O as (O & x & K).
    assert (JD : ok_job (Operand n b ops)) by (split; eauto). assert (JR : ok_job (Operator n b ops)) by (split; eauto).
    pose proof (item_fine g first follow OK n (proj1 O)) as IF. unfold item_ok in IF. rewrite K in IF.
    destruct (oper_parts g first follow n b ops IF) as (_ & NT & _).
    destruct (pick cond sel_post ops st) as [p st1]. destruct p; [apply IH; exact JR|].
    destruct (pick cond sel_bin ops st1) as [q st2]. destruct q; [apply IH; exact JD|].
    destruct (pick cond sel_tern ops st2) as [q st3] eqn:P. destruct q as [u|]; [|discriminate].
    destruct (pick_tok _ _ _ _ _ P) as (o & I & E). destruct o; cbn in E; try discriminate E. destruct (NT _ _ I).
Qed.
End G.
