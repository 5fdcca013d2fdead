(** What was read when the generated parser fails. *)
From Coq Require Import List Bool PeanoNat Lia.
From Verif Require Import Base GrammarModel GrammarSpec GrammarProofs FirstProofs ParserModel ParserSpec ParserProofs ParserKeepProofs ErrorSpec.
Import ListNotations.

Section G.
Variable g : grammar.
Variables first follow : table.
Variable tok : nat -> id.
Variable cond : nat -> bool.
Notation kind := (kind g).
Notation derives := (derives g).
Notation run := (run g first follow tok cond).
Notation yylex := (yylex tok).
Notation span := (span tok).
Notation good := (good tok).
Notation placed := (placed g).
Notation viable := (viable g).

Hypothesis WF : well_formed g = true.
Hypothesis TOP : operators_on_top g.
Hypothesis ALONE : operators_alone g.
Hypothesis NOREC : no_recovery g.
Hypothesis INLINED : inlined_can_be_empty g.
Hypothesis PROD : productive g.

Lemma word n : kind n <> NOther -> exists w, derives n w.
Proof. intros K. apply PROD; [|exact K]. apply kind_lt. exact K. Qed.
Lemma viable_nil n : kind n <> NOther -> viable n [].
Proof. intros K. destruct (word n K) as (w & D). exists w. exact D. Qed.
Definition fclaim (cur : id) (j : job) (u : list id) : Prop :=
  match j with
  | Item n => placed cur n -> viable n u
  | Rules es => kind cur = NSym -> (forall e, In e es -> In e (grules g) /\ rule_of g cur e = true) -> viable cur u
  | Branches ns => (forall n, In n ns -> placed cur n) -> forall m, viable m [] -> (forall n w, In n ns -> derives n w -> derives m w) -> viable m u
  | Operand n b ops => forall x, kind n = NOper b ops x -> placed cur n -> viable n u
  | Operator n b ops => forall x, kind n = NOper b ops x -> placed cur n -> forall v, derives n v -> viable n (v ++ u)
  end.
Lemma report_same c st : same (report c st) st.
Proof. unfold report, complain. destruct (c || pblock st)%bool; repeat split. Qed.
Lemma called_fail c o st : called c o = Fail st -> exists st1, o = Fail st1 /\ same st st1.
Proof. destruct o; cbn; intros E; try discriminate E. injection E as <-. eexists. split; [reflexivity|apply report_same]. Qed.
Lemma span_same a b c : same b c -> span a b = span a c.
Proof. intros H. apply same_span; [apply same_refl|exact H]. Qed.
Lemma viable_sub n m u : (forall w, derives m w -> derives n w) -> viable m u -> viable n u.
Proof. intros H (v & D). exists v. apply H, D. Qed.
Lemma viable_cons n m k u v : (forall w, derives m w -> derives n (u ++ w)) -> viable m v -> k = u ++ v -> viable n k.
Proof. intros H (w & D) ->. exists w. rewrite <- app_assoc. apply H, D. Qed.
Lemma rule_sym' e i s : kind e = NEvolve i s -> kind s = NSym.
Proof.
  intros Ke. assert (SH : shape g e = true) by (apply (shaped g WF); rewrite Ke; discriminate). unfold shape in SH. rewrite Ke in SH.
  destruct (inside g e); [|discriminate]. apply andb_true_iff in SH. destruct SH as [_ SH]. unfold is_sym in SH. apply andb_true_iff in SH. destruct SH as [_ SH].
  destruct (kind s); congruence.
Qed.
Lemma child_word n m : child g n m -> exists w, derives m w.
Proof.
  intros C. apply word. intros KO.
  assert (Kn : kind n <> NOther) by (unfold child in C; destruct (kind n); try destruct C; discriminate).
  assert (SH : shape g n = true) by (apply (shaped g WF), Kn). unfold shape in SH.
  assert (NI : is_item g m = false) by (unfold is_item; rewrite KO; reflexivity).
  assert (NB : forall k, below g m k = false) by (intros k; unfold below; rewrite NI; apply andb_false_r).
  unfold child in C. destruct (inside g n); destruct (kind n) as [| | |s|s|i c a|i c a|[i|]|l r|l r|i s|t [c|]|i|i|b ops x|]; try (destruct C; fail);
    try (destruct C as [-> | ->]); try subst; rewrite ?NB, ?andb_false_r in SH; cbn [andb] in SH; try discriminate SH.
Qed.

Lemma run_viable f : forall cur cc j st st', run f cur cc j st = Fail st' -> good st -> fclaim cur j (span st st').
Proof.
  induction f as [|f IH]; intros cur cc j st st' E G; [discriminate|]. pose proof (proj1 G) as G1.
  pose proof (run_moves g first follow tok cond (S f) cur cc j st G) as MV. rewrite E in MV. destruct MV as [G' L'].
  assert (SND : forall cur cc j st st', run f cur cc j st = Done st' -> good st -> good st' /\ pidx st <= pidx st' /\ claim g cur j (span st st'))
    by (intros; eapply (run_sound g first follow tok cond WF TOP ALONE NOREC INLINED); eassumption).
  assert (MVF : forall cur cc j st st', run f cur cc j st = Fail st' -> good st -> good st' /\ pidx st <= pidx st').
  { intros cur0 cc0 j0 st0 st1 E0 G0. pose proof (run_moves g first follow tok cond f cur0 cc0 j0 st0 G0) as M. rewrite E0 in M. exact M. }
  assert (LEX : forall a b, same a b -> good a -> forall c, good c -> pidx (yylex b) <= pidx c ->
    pidx a <= pidx c /\ span a c = ptok a :: span (yylex b) c).
  { intros a b SA GA c GC L. pose proof SA as (Si & St & _). cbn [pidx ParserModel.yylex] in L. split; [lia|].
    assert (Gb : good b) by (exact (same_good _ _ _ SA GA)). destruct Gb as [Gb1 Gb2].
    rewrite (same_span tok a b c c SA (same_refl c)). rewrite (span_trans tok b (yylex b) c); [|exact Gb1|cbn; lia|cbn; lia].
    rewrite (span_yylex tok b (conj Gb1 Gb2)), St. reflexivity. }
  cbn [ParserModel.run] in E. destruct j as [n|es|ns|n b ops|n b ops].
  - (* Item *) unfold fclaim.
    assert (KN : kind n <> NOther) by (intros K; rewrite K in E; discriminate E).
    destruct (kind n) as [| | |s|s|i c a|i c a|ii|l r|l r|i s|t c|i|i|b ops x|] eqn:K; try discriminate.
    + destruct (Nat.eqb_spec (ptok st) n) as [T|T]; [discriminate|]. injection E as <-. intros _.
      rewrite (span_same st _ st (report_same cc st)), span_nil. apply viable_nil. congruence.
    + apply called_fail in E. destruct E as (st1 & E & SM). intros _. rewrite (span_same _ _ _ SM).
      apply (viable_sub n s); [intros w; exact (d_non g n s w K)|]. apply (IH _ _ _ _ _ E G); [exact (sym_of g WF n s (or_introl K))|apply env_rules].
    + destruct (search_rule g s) as [e|] eqn:SR; [|discriminate].
      apply find_some in SR. destruct SR as [Ie Re]. unfold rule_of in Re.
      destruct (kind e) as [| | |?|?|? ? ?|? ? ?|?|? ?|? ?|i s'|? ?|?|?|? ? ?|] eqn:Ke; try discriminate. apply Nat.eqb_eq in Re. subst s'.
      destruct (guarded _ _ _ i st) as [go st1] eqn:GE. destruct (guarded_same _ _ _ _ _ _ _ GE) as [S1 _].
      destruct go; [|discriminate]. intros _. rewrite (same_span tok st st1 st' st' S1 (same_refl _)).
      apply (viable_sub n i); [intros w D; apply (d_inl g n s _ K); exact (d_sym g s e i _ (sym_of g WF n s (or_intror K)) Ie Ke D)|].
      assert (PL : placed cur i) by (intros b ops x KO; exfalso; exact (proj1 (proj2 TOP) n s e i b ops x K Ie Ke KO)).
      destruct (run f cur cc (Item i) st1) as [st2|st2| |] eqn:R; try discriminate; cbn [next_do] in E.
      * destruct (SND _ _ _ _ _ R (same_good _ _ _ S1 G)) as (A & B & C).
        destruct (mem s (gstart g) && negb (Nat.eqb (ptok st2) (geof g)))%bool; [|discriminate]. injection E as <-.
        exists []. rewrite app_nil_r. apply C. exact PL.
      * injection E as <-. apply (IH _ _ _ _ _ R (same_good _ _ _ S1 G)). exact PL.
    + (* plus *) assert (PL : placed cur i) by (apply (placed_child g TOP cur n); [unfold child; rewrite K; reflexivity|congruence]).
      intros PN. destruct (run f cur cc (Item i) st) as [st1|st1| |] eqn:R; try discriminate; cbn [next_do] in E.
      * destruct (SND _ _ _ _ _ R G) as (A & B & C). destruct (test g first n (ptok st1)); [|discriminate].
        destruct (MVF _ _ _ _ _ E A) as (A2 & B2).
        apply (viable_cons n n _ (span st st1) (span st1 st')); [intros w D; exact (d_plus g n i c a _ _ K (C PL) D)|exact (IH _ _ _ _ _ E A PN)|].
        apply (span_trans tok st st1 st' G1 B B2).
      * injection E as <-. apply (viable_sub n i); [intros w; exact (d_plus1 g n i c a w K)|]. exact (IH _ _ _ _ _ R G PL).
    + (* star *) destruct (test g first n (ptok st)); [|discriminate].
      assert (PL : placed cur i) by (apply (placed_child g TOP cur n); [unfold child; rewrite K; reflexivity|congruence]).
      intros PN. destruct (run f cur cc (Item i) st) as [st1|st1| |] eqn:R; try discriminate; cbn [next_do] in E.
      * destruct (SND _ _ _ _ _ R G) as (A & B & C). destruct (MVF _ _ _ _ _ E A) as (A2 & B2).
        apply (viable_cons n n _ (span st st1) (span st1 st')); [intros w D; exact (d_star g n i c a _ _ K (C PL) D)|exact (IH _ _ _ _ _ E A PN)|].
        apply (span_trans tok st st1 st' G1 B B2).
      * injection E as <-. apply (viable_sub n i); [|exact (IH _ _ _ _ _ R G PL)].
        intros w D. rewrite <- (app_nil_r w). exact (d_star g n i c a _ _ K D (d_star0 g n i c a K)).
    + (* action *) destruct ii as [i|]; [|discriminate]. intros _. apply (viable_sub n i); [intros w; exact (d_act g n i w K)|]. apply (IH _ _ _ _ _ E G).
      apply (placed_child g TOP cur n); [unfold child; rewrite K; reflexivity|congruence].
    + (* alternative *) destruct (flatten g f [l; r]) as [ns|] eqn:F; [|discriminate]. intros _.
      assert (ALL : forall m, In m ns -> placed cur m /\ forall u, derives m u -> derives n u).
      { apply (flatten_all g (fun m => placed cur m /\ forall u, derives m u -> derives n u)) with (f := f) (work := [l; r]); [|exact F|].
        - intros m l' r' Km [_ P]. split; (split; [apply (placed_child g TOP cur m); [unfold child; rewrite Km; auto|congruence]|]); intros u D; apply P;
            [exact (d_altl g m l' r' u Km D)|exact (d_altr g m l' r' u Km D)].
        - intros m [<-|[<-|[]]]; (split; [apply (placed_child g TOP cur n); [unfold child; rewrite K; auto|congruence]|]); intros u D;
            [exact (d_altl g n l r u K D)|exact (d_altr g n l r u K D)]. }
      apply (IH _ _ _ _ _ E G); [intros m Im; apply ALL; exact Im|apply viable_nil; congruence|intros m w Im; apply ALL; exact Im].
    + (* sequence *) intros _.
      assert (PL : placed cur l) by (apply (placed_child g TOP cur n); [unfold child; rewrite K; auto|congruence]).
      assert (PR : placed cur r) by (apply (placed_child g TOP cur n); [unfold child; rewrite K; auto|congruence]).
      destruct (run f cur cc (Item l) st) as [st1|st1| |] eqn:R; try discriminate; cbn [next_do] in E.
      * destruct (SND _ _ _ _ _ R G) as (A & B & C). destruct (MVF _ _ _ _ _ E A) as (A2 & B2).
        apply (viable_cons n r _ (span st st1) (span st1 st')); [intros w D; exact (d_cons g n l r _ _ K (C PL) D)|exact (IH _ _ _ _ _ E A PR)|].
        apply (span_trans tok st st1 st' G1 B B2).
      * injection E as <-. destruct (IH _ _ _ _ _ R G PL) as (v & D). destruct (child_word n r) as (w & D2); [unfold child; rewrite K; auto|].
        exists (v ++ w). rewrite app_assoc. exact (d_cons g n l r _ _ K D D2).
    + (* try *) destruct c as [c|]; [|destruct (NOREC n t K)].
      destruct (run f cur true (Item t) (block true st)) as [st1|st1| |] eqn:R; try discriminate.
      intros _. apply (viable_sub n c); [intros w; exact (d_catch g n t c w K)|].
      replace (span st st') with (span (rewind tok (pidx st - 1) (block (pblock st) st1)) st').
      { apply (IH _ _ _ _ _ E); [apply yylex_good|]. apply (placed_child g TOP cur n); [unfold child; rewrite K; auto|congruence]. }
      unfold span, rewind, ParserModel.yylex. cbn [pidx]. f_equal; lia.
    + (* annotation *) destruct (kind i) eqn:Ki; try discriminate; intros _; (apply (viable_sub n i); [intros w; exact (d_ann g n i w K)|]);
        apply (IH _ _ _ _ _ E G); (apply (placed_child g TOP cur n); [unfold child; rewrite K; auto|congruence]).
    + (* condition *) intros _; (apply (viable_sub n i); [intros w; exact (d_cond g n i w K)|]);
        apply (IH _ _ _ _ _ E G); (apply (placed_child g TOP cur n); [unfold child; rewrite K; auto|congruence]).
    + (* operator *) intros PL. exact (IH _ _ _ _ _ E G x K PL).
  - (* Rules *) destruct es as [|e es].
    + injection E as <-. intros KS _. rewrite span_nil. apply viable_nil. congruence.
    + unfold fclaim.
      destruct (kind e) as [| | |s|s|i c a|i c a|ii|l r|l r|i s|t c|i|i|b ops x|] eqn:K;
        try (intros KS RS; apply (IH _ _ _ _ _ E G); [exact KS|]; intros e' I'; apply RS; right; exact I').
      destruct (guarded _ _ _ i st) as [go st1] eqn:GE. destruct (guarded_same _ _ _ _ _ _ _ GE) as [S1 _]. pose proof (same_good _ _ _ S1 G) as G2.
      intros KS RS. rewrite (same_span tok st st1 st' st' S1 (same_refl _)). destruct go.
      * destruct (RS e (or_introl eq_refl)) as [Ie Re]. unfold rule_of in Re. rewrite K in Re. apply Nat.eqb_eq in Re. subst s.
        apply (viable_sub cur i); [intros w; exact (d_sym g cur e i w KS Ie K)|].
        assert (PL : placed cur i) by (intros b ops x KO; exists e; split; [exact Ie|exact K]).
        destruct (run f cur cc (Item i) st1) as [st2|st2| |] eqn:R; try discriminate; cbn [next_do] in E.
        -- destruct (SND _ _ _ _ _ R G2) as (A & B & C).
           destruct (mem cur (gstart g) && negb (Nat.eqb (ptok st2) (geof g)))%bool; [|discriminate]. injection E as <-.
           exists []. rewrite app_nil_r. apply C. exact PL.
        -- injection E as <-. apply (IH _ _ _ _ _ R G2). exact PL.
      * apply (IH _ _ _ _ _ E G2); [exact KS|]. intros e' I'. apply RS. right; exact I'.
  - (* Branches *) destruct ns as [|n ns].
    + injection E as <-. intros _ m V _. rewrite span_nil. exact V.
    + unfold fclaim. destruct (guarded _ _ _ n st) as [go st1] eqn:GE. destruct (guarded_same _ _ _ _ _ _ _ GE) as [S1 _]. pose proof (same_good _ _ _ S1 G) as G2.
      intros PL m V SUB. rewrite (same_span tok st st1 st' st' S1 (same_refl _)). destruct go.
      * apply (viable_sub m n); [intros w; apply SUB; left; reflexivity|]. apply (IH _ _ _ _ _ E G2). apply PL. left; reflexivity.
      * apply (IH _ _ _ _ _ E G2); [intros k Ik; apply PL; right; exact Ik|exact V|intros k w Ik; apply SUB; right; exact Ik].
  - (* Operand *) unfold fclaim.
    destruct (pick cond sel_pre ops st) as [p st1] eqn:P1. destruct (pick_same _ _ _ _ _ _ P1) as [S1 W1]. pose proof (same_good _ _ _ S1 G) as G2.
    destruct p as [[]|].
    + destruct (MVF _ _ _ _ _ E (yylex_good tok st1)) as (A & B). destruct (LEX st st1 S1 G st' A B) as [L SP].
      intros x K PL. rewrite SP. destruct (W1 tt eq_refl) as (o & Io & So). destruct o; try discriminate. cbn in So. injection So as ->.
      apply (viable_cons n n _ [ptok st] (span (yylex st1) st')); [intros w D; exact (d_pre g n b ops x (ptok st) _ K Io D)| |reflexivity].
      exact (IH _ _ _ _ _ E (yylex_good tok st1) x K PL).
    + destruct (pick cond sel_paren ops st1) as [q st2] eqn:P2. destruct (pick_same _ _ _ _ _ _ P2) as [S2 W2]. pose proof (same_trans _ _ _ S1 S2) as S3.
      destruct q as [u|].
      * intros x K PL. destruct (W2 u eq_refl) as (o & Io & So). destruct o; try discriminate. cbn in So. injection So as T0 U0. subst t u0.
        destruct S1 as (I1 & T1 & B1). rewrite <- T1 in Io.
        assert (KC : kind cur = NSym) by (destruct (PL b ops x K) as (e & Ie & Ke); exact (rule_sym' e n cur Ke)).
        assert (CUR : forall w, derives cur w -> derives n w).
        { destruct (PL b ops x K) as (e & Ie & Ke). intros w. exact (ALONE e n cur b ops x w Ie Ke K). }
        assert (IN : forall v, viable cur v -> viable n (ptok st :: v)).
        { intros v (w & D). exists (w ++ [u]). cbn [app]. rewrite app_assoc. apply (d_paren g n b ops x (ptok st) u _ K Io). apply CUR, D. }
        assert (GO : forall v, pidx (yylex st2) <= pidx v -> good v -> viable cur (span (yylex st2) v) -> viable n (span st v)).
        { intros v Lv Gv V. destruct (LEX st st2 S3 G v Gv Lv) as [_ ->]. apply IN, V. }
        destruct (test g first cur (ptok (yylex st2))).
        2: { injection E as <-. apply GO; [lia|apply yylex_good|]. rewrite span_nil. apply viable_nil. congruence. }
        destruct (run f cur false (Rules (env g cur)) (yylex st2)) as [st3|st3| |] eqn:R; try discriminate; cbn [called next_do] in E.
        -- destruct (SND _ _ _ _ _ R (yylex_good tok st2)) as (A & B & C). specialize (C KC (env_rules g cur)).
           destruct (Nat.eqb_spec (ptok st3) u) as [TU|TU].
           2: { injection E as <-. apply GO; [exact B|exact A|]. exists []. rewrite app_nil_r. exact C. }
           destruct (ask cond st3) as [c st4] eqn:AE. pose proof (ask_same _ _ _ _ AE) as S4. destruct c.
           2: { injection E as <-. rewrite <- (span_same st _ _ S4). apply GO; [exact B|exact A|]. exists []. rewrite app_nil_r. exact C. }
           destruct (MVF _ _ _ _ _ E (yylex_good tok st4)) as (A2 & B2).
           destruct (LEX st3 st4 S4 A st' A2 B2) as [L1 SP1].
           destruct (LEX st st2 S3 G st3 A B) as [L2 SP2].
           rewrite (span_trans tok st st3 st' G1 L2 L1), SP2, SP1.
           replace ((ptok st :: span (yylex st2) st3) ++ ptok st3 :: span (yylex st4) st')
             with ((ptok st :: span (yylex st2) st3 ++ [ptok st3]) ++ span (yylex st4) st') by (cbn; rewrite <- app_assoc; reflexivity).
           apply (IH _ _ _ _ _ E (yylex_good tok st4) x K PL). rewrite TU.
           apply (d_paren g n b ops x (ptok st) u _ K Io). apply CUR, C.
        -- injection E as <-. destruct (MVF _ _ _ _ _ R (yylex_good tok st2)) as (A & B). rewrite (span_same st _ _ (report_same cc st3)).
           apply GO; [exact B|exact A|]. exact (IH _ _ _ _ _ R (yylex_good tok st2) KC (env_rules g cur)).
      * intros x K PL. destruct (test g first (base_symbol g b) (ptok st2)).
        2: { injection E as <-. rewrite (span_same st (complain st2) st) by (destruct S3 as (X & Y & Z); repeat split; cbn; congruence). rewrite span_nil. apply viable_nil. congruence. }
        assert (PB : placed cur b) by (apply (placed_child g TOP cur n); [unfold child; rewrite K; reflexivity|congruence]).
        destruct (run f cur cc (Item b) st2) as [st3|st3| |] eqn:R; try discriminate; cbn [next_do] in E.
        -- destruct (SND _ _ _ _ _ R (same_good _ _ _ S3 G)) as (A & B & C). destruct (MVF _ _ _ _ _ E A) as (A2 & B2).
           pose proof S3 as (I3 & _).
           rewrite (span_trans tok st st3 st' G1 ltac:(lia) B2). apply (IH _ _ _ _ _ E A x K PL). rewrite (same_span tok st st2 st3 st3 S3 (same_refl _)).
           apply (d_base g n b ops x _ K). exact (C PB).
        -- injection E as <-. rewrite (same_span tok st st2 st3 st3 S3 (same_refl _)).
           apply (viable_sub n b); [intros w; exact (d_base g n b ops x w K)|]. exact (IH _ _ _ _ _ R (same_good _ _ _ S3 G) PB).
  - (* Operator *) unfold fclaim.
    destruct (pick cond sel_post ops st) as [p st1] eqn:P1. destruct (pick_same _ _ _ _ _ _ P1) as [S1 W1].
    destruct p as [[]|].
    + destruct (MVF _ _ _ _ _ E (yylex_good tok st1)) as (A & B). destruct (LEX st st1 S1 G st' A B) as [L SP].
      intros x K PL v D. rewrite SP. destruct (W1 tt eq_refl) as (o & Io & So). destruct o; try discriminate. cbn in So. injection So as ->.
      replace (v ++ ptok st :: span (yylex st1) st') with ((v ++ [ptok st]) ++ span (yylex st1) st') by (rewrite <- app_assoc; reflexivity).
      apply (IH _ _ _ _ _ E (yylex_good tok st1) x K PL). exact (d_post g n b ops x (ptok st) v K Io D).
    + destruct (pick cond sel_bin ops st1) as [q st2] eqn:P2. destruct (pick_same _ _ _ _ _ _ P2) as [S2 W2]. pose proof (same_trans _ _ _ S1 S2) as S3.
      destruct q as [[]|].
      * destruct (MVF _ _ _ _ _ E (yylex_good tok st2)) as (A & B). destruct (LEX st st2 S3 G st' A B) as [L SP].
        intros x K PL v D. rewrite SP. destruct (W2 tt eq_refl) as (o & Io & So). destruct o; try discriminate. cbn in So. injection So as ->.
        destruct S1 as (_ & -> & _).
        apply (viable_cons n n _ (v ++ [ptok st1]) (span (yylex st2) st')); [| |rewrite <- app_assoc; reflexivity].
        -- intros w Dw. rewrite <- app_assoc. exact (d_bin g n b ops x (ptok st1) v _ K Io D Dw).
        -- exact (IH _ _ _ _ _ E (yylex_good tok st2) x K PL).
      * destruct (pick cond sel_tern ops st2) as [q st3]. destruct q; discriminate.
Qed.
End G.

(** ** Two inputs that begin alike *)
Section A.
Variable g : grammar.
Variables first follow : table.
Variables tok tok' : nat -> id.
Variable cond : nat -> bool.
Variable k : nat.
Hypothesis AGREE : forall i, i < k -> tok' i = tok i.
Hypothesis NOROLL : forall n t c, kind g n <> NTry t (Some c).
Notation run := (run g first follow).
Notation good := (good tok).

(** The second run ends as the first does, if that one ends before [k]. *)
Definition follows (st : pstate) (o o' : outcome) : Prop :=
  match o with Done st' | Fail st' => good st' /\ pidx st <= pidx st' /\ (pidx st' <= k -> o' = o) | _ => True end.
Lemma follows_from a b o o' : pidx a <= pidx b -> follows b o o' -> follows a o o'.
Proof. intros L. destruct o; cbn; auto; intros (A & B & C); (split; [exact A|split; [lia|exact C]]). Qed.
Lemma follows_next st o o' h h' : follows st o o' -> (forall st', good st' -> follows st' (h st') (h' st')) -> follows st (next_do o h) (next_do o' h').
Proof.
  intros A K. destruct o as [st1|st1| |]; cbn [next_do]; try exact I.
  - destruct A as (A1 & A2 & A3). specialize (K st1 A1). destruct (h st1) as [st2|st2| |] eqn:H; try exact I; destruct K as (K1 & K2 & K3);
      (split; [exact K1|]; split; [lia|]; intros L; rewrite A3 by lia; cbn [next_do]; apply K3, L).
  - destruct A as (A1 & A2 & A3). split; [exact A1|]. split; [exact A2|]. intros L. rewrite (A3 L). reflexivity.
Qed.
Lemma follows_same st b o o' : same st b -> good st -> (good b -> follows b o o') -> follows st o o'.
Proof. intros S1 G H. apply (follows_from st b); [destruct S1 as (-> & _); lia|]. apply H. exact (same_good tok _ _ S1 G). Qed.
Lemma lex_agree st : pidx st < k -> yylex tok' st = yylex tok st.
Proof. intros L. unfold yylex. rewrite (AGREE _ L). reflexivity. Qed.
Lemma follows_lex st (h h' : pstate -> outcome) : (good (yylex tok st) -> follows (yylex tok st) (h (yylex tok st)) (h' (yylex tok st))) ->
  follows st (h (yylex tok st)) (h' (yylex tok' st)).
Proof.
  intros H. specialize (H (yylex_good tok st)).
  destruct (h (yylex tok st)) as [st1|st1| |]; try exact I; destruct H as (A & B & C); cbn [pidx yylex] in B; (split; [exact A|]; split; [lia|]);
    intros L; rewrite (lex_agree st) by lia; apply C, L.
Qed.
Lemma follows_here st : good st -> follows st (Done st) (Done st) /\ follows st (Fail st) (Fail st).
Proof. intros G. split; (split; [exact G|]; split; [lia|reflexivity]). Qed.
Lemma follows_called c st o o' : follows st o o' -> follows st (called c o) (called c o').
Proof.
  destruct o as [st1|st1| |]; cbn [called]; try (intros; exact I); intros (A & B & C).
  - split; [exact A|]. split; [exact B|]. intros L. rewrite (C L). reflexivity.
  - pose proof (report_same c st1) as SM. split; [exact (same_good tok _ _ (conj (eq_sym (proj1 SM)) (conj (eq_sym (proj1 (proj2 SM))) (eq_sym (proj2 (proj2 SM))))) A)|].
    destruct SM as (-> & _). split; [exact B|]. intros L. rewrite (C L). reflexivity.
Qed.
Lemma skip_follows f : forall n st, good st -> follows st (skip g follow tok f n st) (skip g follow tok' f n st).
Proof.
  induction f as [|f IH]; intros n st G; [exact I|]. cbn [skip].
  destruct (Nat.eqb (ptok st) (geof g) || (is_term g (ptok st) && follow n (ptok st)))%bool; [apply follows_here; exact G|].
  apply (follows_lex st (skip g follow tok f n) (skip g follow tok' f n)). apply IH.
Qed.
Lemma run_follows f : forall cur cc j st, good st -> follows st (run tok cond f cur cc j st) (run tok' cond f cur cc j st).
Proof.
  induction f as [|f IH]; intros cur cc j st G; [exact I|]. cbn [ParserModel.run].
  assert (EOFC : forall s st, good st -> follows st (if mem s (gstart g) && negb (Nat.eqb (ptok st) (geof g)) then Fail st else Done st)
      (if mem s (gstart g) && negb (Nat.eqb (ptok st) (geof g)) then Fail st else Done st)).
  { intros s st0 G0. destruct (mem s (gstart g) && negb (Nat.eqb (ptok st0) (geof g)))%bool; apply follows_here; exact G0. }
  destruct j as [n|es|ns|n b ops|n b ops].
  - destruct (kind g n) as [| | |s|s|i c a|i c a|ii|l r|l r|i s|t c|i|i|b ops x|] eqn:K; try exact I.
    + apply follows_here; exact G.
    + destruct (Nat.eqb (ptok st) n).
      * apply (follows_lex st Done Done). intros; apply follows_here; assumption.
      * apply (follows_called cc st (Fail st) (Fail st)). apply follows_here; exact G.
    + apply follows_called, IH. exact G.
    + destruct (search_rule g s) as [e|]; [|exact I]. destruct (kind g e) eqn:Ke; try exact I.
      destruct (guarded _ _ _ _ st) as [go st1] eqn:GE. destruct (guarded_same _ _ _ _ _ _ _ GE) as [S1 _].
      apply (follows_same st st1 _ _ S1 G). intros G1. destruct go; [|apply follows_here; exact G1].
      apply follows_next; [apply IH; exact G1|intros; apply EOFC; assumption].
    + apply follows_next; [apply IH; exact G|]. intros st1 G1. destruct (test g first n (ptok st1)); [apply IH; exact G1|apply follows_here; exact G1].
    + destruct (test g first n (ptok st)); [apply follows_next; [apply IH; exact G|intros; apply IH; assumption]|apply follows_here; exact G].
    + destruct ii as [i|]; [apply IH; exact G|apply follows_here; exact G].
    + destruct (flatten g f [l; r]); [|exact I]. apply IH; exact G.
    + apply follows_next; [apply IH; exact G|intros; apply IH; assumption].
    + destruct c as [c|]; [destruct (NOROLL n t c K)|].
      pose proof (IH cur true (Item t) st G) as A. destruct (run tok cond f cur true (Item t) st) as [st1|st1| |]; try exact I.
      * destruct A as (A1 & A2 & A3). split; [exact A1|]. split; [exact A2|]. intros L. rewrite (A3 L). reflexivity.
      * destruct A as (A1 & A2 & A3).
        assert (X : follows st1 (skip g follow tok f n (if Nat.eqb (pidx st - 1) (pidx st1 - 1) && negb (Nat.eqb (ptok st1) (geof g)) then yylex tok st1 else st1))
          (skip g follow tok' f n (if Nat.eqb (pidx st - 1) (pidx st1 - 1) && negb (Nat.eqb (ptok st1) (geof g)) then yylex tok' st1 else st1))).
        { destruct (Nat.eqb (pidx st - 1) (pidx st1 - 1) && negb (Nat.eqb (ptok st1) (geof g)))%bool;
            [apply (follows_lex st1 (skip g follow tok f n) (skip g follow tok' f n)); apply skip_follows|apply skip_follows; exact A1]. }
        destruct (skip g follow tok f n _) as [st2|st2| |]; try exact I; destruct X as (X1 & X2 & X3); (split; [exact X1|]; split; [lia|]; intros L;
          rewrite A3 by lia; apply X3, L).
    + destruct (kind g i) eqn:Ki; try exact I; apply IH; exact G.
    + apply IH; exact G.
    + apply IH; exact G.
  - destruct es as [|e es]; [apply follows_here; exact G|]. destruct (kind g e) eqn:K; try (apply IH; exact G).
    destruct (guarded _ _ _ _ st) as [go st1] eqn:GE. destruct (guarded_same _ _ _ _ _ _ _ GE) as [S1 _].
    apply (follows_same st st1 _ _ S1 G). intros G1. destruct go; [apply follows_next; [apply IH; exact G1|intros; apply EOFC; assumption]|apply IH; exact G1].
  - destruct ns as [|m ns]; [apply follows_here; exact G|].
    destruct (guarded _ _ _ _ st) as [go st1] eqn:GE. destruct (guarded_same _ _ _ _ _ _ _ GE) as [S1 _].
    apply (follows_same st st1 _ _ S1 G). intros G1. destruct go; apply IH; exact G1.
  - destruct (pick cond sel_pre ops st) as [p st1] eqn:P1. destruct (pick_same _ _ _ _ _ _ P1) as [S1 _]. apply (follows_same st st1 _ _ S1 G). intros G1.
    destruct p; [apply (follows_lex st1 (run tok cond f cur cc (Operand n b ops)) (run tok' cond f cur cc (Operand n b ops))); apply IH|].
    destruct (pick cond sel_paren ops st1) as [q st2] eqn:P2. destruct (pick_same _ _ _ _ _ _ P2) as [S2 _]. apply (follows_same st1 st2 _ _ S2 G1). intros G2.
    destruct q as [u|].
    + apply (follows_lex st2 (fun st2 => if test g first cur (ptok st2) then
            next_do (called cc (run tok cond f cur false (Rules (env g cur)) st2)) (fun st =>
              if Nat.eqb (ptok st) u then let (c, st) := ask cond st in if c then run tok cond f cur cc (Operator n b ops) (yylex tok st) else Fail st
              else Fail st)
          else Fail st2) (fun st2 => if test g first cur (ptok st2) then
            next_do (called cc (run tok' cond f cur false (Rules (env g cur)) st2)) (fun st =>
              if Nat.eqb (ptok st) u then let (c, st) := ask cond st in if c then run tok' cond f cur cc (Operator n b ops) (yylex tok' st) else Fail st
              else Fail st)
          else Fail st2)). intros G3. destruct (test g first cur (ptok (yylex tok st2))); [|apply follows_here; exact G3].
      apply follows_next; [apply follows_called, IH; exact G3|].
      intros st3 G4. destruct (Nat.eqb (ptok st3) u); [|apply follows_here; exact G4]. destruct (ask cond st3) as [c st4] eqn:AE.
      apply (follows_same st3 st4 _ _ (ask_same _ _ _ _ AE) G4). intros G5.
      destruct c; [apply (follows_lex st4 (run tok cond f cur cc (Operator n b ops)) (run tok' cond f cur cc (Operator n b ops))); apply IH|apply follows_here; exact G5].
    + destruct (test g first (base_symbol g b) (ptok st2)); [apply follows_next; [apply IH; exact G2|intros; apply IH; assumption]|].
      exact (follows_called false st2 (Fail (complain st2)) (Fail (complain st2)) (proj2 (follows_here st2 G2))) || (split; [exact G2|split; [cbn; lia|reflexivity]]).
  - destruct (pick cond sel_post ops st) as [p st1] eqn:P1. destruct (pick_same _ _ _ _ _ _ P1) as [S1 _]. apply (follows_same st st1 _ _ S1 G). intros G1.
    destruct p; [apply (follows_lex st1 (run tok cond f cur cc (Operator n b ops)) (run tok' cond f cur cc (Operator n b ops))); apply IH|].
    destruct (pick cond sel_bin ops st1) as [q st2] eqn:P2. destruct (pick_same _ _ _ _ _ _ P2) as [S2 _]. apply (follows_same st1 st2 _ _ S2 G1). intros G2.
    destruct q; [apply (follows_lex st2 (run tok cond f cur cc (Operand n b ops)) (run tok' cond f cur cc (Operand n b ops))); apply IH|].
    destruct (pick cond sel_tern ops st2) as [q st3] eqn:P3. destruct (pick_same _ _ _ _ _ _ P3) as [S3 _]. apply (follows_same st2 st3 _ _ S3 G2). intros G3.
    destruct q; [exact I|apply follows_here; exact G3].
Qed.
End A.
