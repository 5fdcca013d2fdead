(** The generated parser accepts every sentence of a careful grammar. *)
From Coq Require Import List Bool PeanoNat Lia.
From Verif Require Import Base GrammarModel GrammarSpec GrammarProofs FirstProofs ParserModel ParserSpec ParserProofs ParserKeepProofs CheckerModel CompleteSpec.
Import ListNotations.

Section G.
Variable g : grammar.
Variables first follow : table.
Variable w0 : list id.
Variable cond : nat -> bool.
Notation kind := (kind g).
Notation derives := (derives g).
Notation occurs := (occurs g).
Notation written := (written g).
Notation next := (next g).
Notation tok := (stream g w0).
Notation run := (run g first follow tok cond).
Notation yylex := (yylex tok).
Notation eps := (eps g first).
Notation test := (test g first).
Notation placed := (placed g).

Hypothesis WF : well_formed g = true.
Hypothesis TOP : operators_on_top g.
Hypothesis COND : forall k, cond k = true.
Hypothesis FC : forall n x w, kind n = NSym \/ written n -> derives n (x :: w) -> first n x = true.
Hypothesis EC : forall n, derives n [] -> (forall i s, kind n <> NEvolve i s) -> eps n = true.
Hypothesis OC : forall n w, occurs n w -> kind (next w) = NTerm /\ (kind n <> NTerm -> kind n <> NZero -> follow n (next w) = true).
Hypothesis AL : forall n l r x, written n -> kind n = NAlt l r -> kind x = NTerm -> first l x = true \/ first r x = true -> first n x = true.
Hypothesis FA : forall n l r x, written n -> kind n = NAlt l r -> kind x = NTerm -> first l x = true -> first r x = false.
Hypothesis FR : forall s e e' x, In e (env g s) -> In e' (env g s) -> e <> e' -> kind x = NTerm -> first e x = true -> first e' x = false.
Hypothesis FS : forall n i c a x, written n -> kind n = NStar i c a -> kind x = NTerm -> first n x = true -> follow n x = false.
Hypothesis ONE : operands_not_empty g.
Hypothesis OK : careful g first follow = true.

Definition at_ (st : pstate) (w : list id) : Prop := (1 <= pidx st /\ pidx st + length w = S (length w0)) /\ skipn (pidx st - 1) w0 = w /\ ptok st = next w.
Definition parses (cur : id) (cc : bool) (j : job) (st : pstate) (rest : list id) : Prop :=
  exists f st', run f cur cc j st = Done st' /\ at_ st' rest.

(** ** Small things *)
Lemma at_same a b w : same a b -> at_ a w -> at_ b w.
Proof. unfold same, at_. intros (A & B & _). rewrite A, B. auto. Qed.
Lemma at_lex st x w : at_ st (x :: w) -> at_ (yylex st) w.
Proof.
  intros ([A A'] & B & C). unfold at_, ParserModel.yylex. cbn [pidx ptok length] in *. split; [lia|].
  assert (S1 : skipn (pidx st) w0 = w).
  { replace (pidx st) with (S (pidx st - 1)) by lia. clear A A' C. revert B. generalize (pidx st - 1) w0. intros n. induction n as [|n IH]; intros [|y l] B; cbn in B |- *; try discriminate.
    - injection B as _ ->. reflexivity.
    - apply IH. exact B. }
  replace (S (pidx st) - 1) with (pidx st) by lia. split; [exact S1|].
  unfold stream. rewrite <- S1. clear - S1. generalize (pidx st) w0. clear. intros n. induction n as [|n IH]; intros [|y l]; cbn; auto.
Qed.
Lemma at_block b st w : at_ st w -> at_ (block b st) w. Proof. auto. Qed.
Lemma term_lt x : kind x = NTerm -> x < size g. Proof. intros K. apply kind_lt. rewrite K. discriminate. Qed.
Lemma is_term_iff x : is_term g x = true <-> kind x = NTerm.
Proof. unfold is_term. destruct (kind x); split; congruence. Qed.
Lemma apart_spec a b x : apart g a b = true -> kind x = NTerm -> a x = true -> b x = false.
Proof.
  unfold apart. intros H K A. rewrite forallb_forall in H. specialize (H x). rewrite in_seq in H. specialize (H ltac:(pose proof (term_lt x K); lia)).
  apply is_term_iff in K. rewrite K, A in H. destruct (b x); [discriminate|reflexivity].
Qed.
Lemma inside_written n : written n -> inside g n = true.
Proof.
  induction 1 as [e He|n m _ I H].
  - apply (rule_kind g WF e He).
  - unfold child in H. assert (KN : kind n <> NOther) by (intro E; rewrite E in H; exact H).
    pose proof (shaped g WF n KN) as SH. unfold shape in SH. rewrite I in SH.
    assert (IN : forall m, below g m n = true -> inside g m = true) by (intros m' B; eapply below_inside; eassumption).
    destruct (kind n) as [| | |s|s|i c a|i c a|[i|]|l r|l r|i s|tt [c|]|i|i|bb ops x|] eqn:K; try (destruct H; fail); repeat rewrite andb_true_iff in SH;
      try (subst m; apply IN; apply SH); try (destruct H as [-> | ->]; apply IN; apply SH).
Qed.
Lemma item_fine n : inside g n = true -> item_ok g first follow n = true.
Proof.
  intros W. unfold careful in OK. apply andb_true_iff in OK. destruct OK as [O _]. rewrite forallb_forall in O. apply O. apply in_seq.
  unfold inside in W. apply Nat.ltb_lt in W. lia.
Qed.
Lemma rules_fine s : inside g s = true -> rules_ok g first follow s (env g s) = true.
Proof.
  intros W. unfold careful in OK. apply andb_true_iff in OK. destruct OK as [_ O]. rewrite forallb_forall in O. apply O. apply in_seq.
  unfold inside in W. apply Nat.ltb_lt in W. lia.
Qed.
Lemma test_true n y : test n y = true -> (open g first n = true) \/ (kind y = NTerm /\ (first n y = true \/ kind n = NTerm /\ y = n)).
Proof.
  unfold ParserModel.test, open, test_set. destruct (is_term g n) eqn:T.
  - intros E. apply Nat.eqb_eq in E. subst y. right. apply is_term_iff in T. auto.
  - intros E. apply orb_true_iff in E. destruct E as [E|E]; [left; cbn; exact E|right]. apply andb_true_iff in E. destruct E as [E1 E2].
    apply is_term_iff in E1. auto.
Qed.
Lemma test_first n y : kind n <> NTerm -> kind y = NTerm -> first n y = true -> test n y = true.
Proof.
  intros K KY F. unfold ParserModel.test, test_set. destruct (is_term g n) eqn:T; [apply is_term_iff in T; congruence|].
  apply is_term_iff in KY. rewrite KY, F. apply orb_true_r.
Qed.
Lemma derives_term n w : kind n = NTerm -> derives n w -> w = [n].
Proof. intros K D. inversion D; subst; try congruence. Qed.
(** A node is entered if the input begins with one of its words. *)
Lemma test_word n x w : kind n = NSym \/ written n -> derives n (x :: w) -> test n x = true.
Proof.
  intros N D. destruct (is_term g n) eqn:T.
  - apply is_term_iff in T. apply (derives_term n _ T) in D. injection D as -> ->. unfold ParserModel.test. apply is_term_iff in T. rewrite T. apply Nat.eqb_refl.
  - apply test_first; [intro K; apply is_term_iff in K; congruence| |exact (FC n x w N D)].
    apply (derives_terms g WF n (x :: w) D). left; reflexivity.
Qed.
Lemma guarded_true b n st : b = true -> exists st1, guarded g cond b n st = (true, st1) /\ same st st1.
Proof.
  intros ->. unfold guarded. destruct (is_cond g n); [|exists st; split; [reflexivity|apply same_refl]].
  unfold ask. rewrite COND. eexists. split; [reflexivity|]. repeat split.
Qed.
Lemma guarded_false n st : guarded g cond false n st = (false, st). Proof. reflexivity. Qed.
Lemma written_child n m : written n -> child g n m -> written m. Proof. apply w_child. Qed.
Lemma up f f' cur cc j st st' : run f cur cc j st = Done st' -> f <= f' -> run f' cur cc j st = Done st'.
Proof. intros E L. apply (run_more g first follow tok cond f f' L _ _ _ _ _ E). discriminate. Qed.
Lemma next_app_cons x w rest : next ((x :: w) ++ rest) = x. Proof. reflexivity. Qed.
Lemma sym_inside s : kind s = NSym -> inside g s = true.
Proof.
  intros K. pose proof (shaped g WF s) as SH. rewrite K in SH. specialize (SH ltac:(discriminate)). unfold shape in SH. rewrite K in SH.
  destruct (inside g s); [reflexivity|discriminate].
Qed.
Lemma sym_of' n s : kind n = NNon s \/ kind n = NInl s -> kind s = NSym.
Proof. apply (sym_of g WF). Qed.
Lemma rule_sym e i s : kind e = NEvolve i s -> kind s = NSym.
Proof.
  intros Ke. assert (SH : shape g e = true) by (apply (shaped g WF); rewrite Ke; discriminate). unfold shape in SH. rewrite Ke in SH.
  destruct (inside g e); [|discriminate]. apply andb_true_iff in SH. destruct SH as [_ SH]. unfold is_sym in SH. apply andb_true_iff in SH. destruct SH as [_ SH].
  destruct (kind s); congruence.
Qed.
Lemma evolve_item e i s : kind e = NEvolve i s -> forall i' s', kind i <> NEvolve i' s'.
Proof.
  intros Ke i' s' E. assert (SH : shape g e = true) by (apply (shaped g WF); rewrite Ke; discriminate). unfold shape in SH. rewrite Ke in SH.
  destruct (inside g e); [|discriminate]. apply andb_true_iff in SH. destruct SH as [SH _]. unfold below in SH. apply andb_true_iff in SH. destruct SH as [_ SH].
  unfold is_item in SH. rewrite E in SH. discriminate.
Qed.

(** ** Rules *)
Lemma rule_first e i s x w : In e (grules g) -> kind e = NEvolve i s -> derives i (x :: w) -> first e x = true.
Proof. intros I K D. apply (FC e x w); [right; apply w_rule; exact I|]. exact (d_evolve g e i s _ K D). Qed.
Lemma rule_entered e i s w rest : In e (grules g) -> kind e = NEvolve i s -> derives i w -> kind (next rest) = NTerm ->
  (w = [] -> follow s (next rest) = true) -> rule_test g first follow e i s (next (w ++ rest)) = true.
Proof.
  intros I K D KR FO. unfold rule_test. apply orb_true_iff. destruct w as [|x w].
  - right. cbn [app]. rewrite (EC i D (evolve_item e i s K)). unfold test_set. rewrite (FO eq_refl). apply is_term_iff in KR. rewrite KR. apply orb_true_r.
  - left. apply test_first; [congruence|apply (derives_terms g WF i (x :: w) D); left; reflexivity|]. exact (rule_first e i s x w I K D).
Qed.
Lemma select s cc w rest e i : kind s = NSym -> In e (grules g) -> kind e = NEvolve i s -> derives i w -> kind (next rest) = NTerm ->
  trivial g (follow s) = false -> (w = [] -> follow s (next rest) = true) -> (mem s (gstart g) = true -> next rest = geof g) ->
  (forall st cc, at_ st (w ++ rest) -> parses s cc (Item i) st rest) ->
  forall st, at_ st (w ++ rest) -> parses s cc (Rules (env g s)) st rest.
Proof.
  intros KS I K D KR LIVE FO EOF BODY.
  assert (Ie : In e (env g s)) by (unfold env; rewrite <- in_rev, filter_In; split; [exact I|unfold rule_of; rewrite K; apply Nat.eqb_refl]).
  pose proof (rules_fine s (sym_inside s KS)) as RO.
  assert (SUB : forall e, In e (env g s) -> In e (env g s)) by auto.
  revert Ie RO SUB. generalize (env g s) at 1 2 3 5 as es. induction es as [|e' es IH]; intros Ie RO SUB st A; [destruct Ie|].
  destruct (Nat.eq_dec e' e) as [->|NE].
  - destruct (guarded_true (rule_test g first follow e i s (ptok st)) i st) as (st1 & GE & S1).
    { destruct A as (_ & _ & ->). apply (rule_entered e i s w rest); assumption. }
    destruct (BODY st1 cc (at_same _ _ _ S1 A)) as (f & st2 & R & A2). exists (S f), st2. split; [|exact A2].
    cbn [ParserModel.run]. rewrite K, GE, R. cbn [next_do].
    destruct (mem s (gstart g)) eqn:M; [|reflexivity]. destruct A2 as (_ & _ & ->). rewrite (EOF eq_refl), Nat.eqb_refl. reflexivity.
  - destruct Ie as [->|Ie]; [congruence|]. cbn [rules_ok] in RO. apply andb_true_iff in RO. destruct RO as [PO RO].
    rewrite forallb_forall in PO. specialize (PO e Ie). unfold pair_ok in PO. rewrite K in PO.
    destruct (kind e') as [| | |?|?|? ? ?|? ? ?|?|? ?|? ?|i' s'|? ?|?|?|? ? ?|] eqn:K'; try discriminate.
    assert (Ie' : In e' (env g s)) by (apply SUB; left; reflexivity).
    destruct (env_rules g s e' Ie') as [_ RE']. unfold rule_of in RE'. rewrite K' in RE'. apply Nat.eqb_eq in RE'. subst s'.
    repeat rewrite andb_true_iff in PO. destruct PO as [[[P1 P2] P3] P4].
    assert (NT : rule_test g first follow e' i' s (ptok st) = false).
    { destruct A as (_ & _ & ->). destruct (rule_test g first follow e' i' s (next (w ++ rest))) eqn:T; [|reflexivity]. exfalso.
      unfold rule_test in T. apply orb_true_iff in T.
      assert (TRIV : trivial g (first e') = false) by (apply negb_true_iff; exact P1).
      destruct T as [T|T].
      - destruct (test_true _ _ T) as [O|[KY [F|[KE _]]]]; [unfold open in O; rewrite TRIV, andb_false_r in O; discriminate| |congruence].
        destruct w as [|x w].
        + cbn [app] in *. apply orb_true_iff in P4. destruct P4 as [P4|P4].
          * apply negb_true_iff in P4. rewrite (EC i D (evolve_item e i s K)) in P4. discriminate.
          * rewrite (apart_spec _ _ _ P4 KY F) in FO. discriminate FO. reflexivity.
        + cbn [app next] in *. pose proof (rule_first e i s x w I K D) as F2.
          rewrite (FR s e' e x Ie' ltac:(apply SUB; right; exact Ie) NE KY F) in F2. discriminate.
      - apply andb_true_iff in T. destruct T as [T1 T2]. apply orb_true_iff in P3. destruct P3 as [P3|P3]; [rewrite T1 in P3; discriminate|].
        apply andb_true_iff in P3. destruct P3 as [P3 P5]. apply negb_true_iff in P5. destruct w as [|x w].
        + rewrite (EC i D (evolve_item e i s K)) in P5. discriminate.
        + cbn [app next] in *. pose proof (rule_first e i s x w I K D) as F2.
          assert (KY : kind x = NTerm) by (apply (derives_terms g WF i (x :: w) D); left; reflexivity).
          unfold test_set in T2. apply orb_true_iff in T2. rewrite (apart_spec _ _ _ P3 KY F2), andb_false_r in T2. destruct T2 as [T2|T2]; congruence. }
    destruct (IH Ie RO ltac:(intros; apply SUB; right; assumption) st A) as (f & st2 & R & A2). exists (S f), st2. split; [|exact A2].
    cbn [ParserModel.run]. rewrite K', NT, guarded_false. exact R.
Qed.

(** ** Branches *)
Inductive leaf : id -> id -> Prop :=
| lf_self n : (forall l r, kind n <> NAlt l r) -> leaf n n
| lf_l n l r b : kind n = NAlt l r -> leaf l b -> leaf n b
| lf_r n l r b : kind n = NAlt l r -> leaf r b -> leaf n b.
Lemma leaf_not_alt n b : leaf n b -> forall l r, kind b <> NAlt l r.
Proof. induction 1; assumption. Qed.
Lemma leaf_written n b : leaf n b -> written n -> written b.
Proof. induction 1 as [|n l r b K _ IH|n l r b K _ IH]; intros W; [exact W| |]; apply IH; apply (w_child g n); auto; unfold child; rewrite K; auto. Qed.
Lemma leaf_occurs n b w : leaf n b -> occurs n w -> occurs b w.
Proof. induction 1 as [|n l r b K _ IH|n l r b K _ IH]; intros W; [exact W| |]; apply IH; [exact (o_altl g n l r w W K)|exact (o_altr g n l r w W K)]. Qed.
Lemma leaf_placed cur n b : leaf n b -> placed cur n -> placed cur b.
Proof.
  induction 1 as [|n l r b K _ IH|n l r b K _ IH]; intros W; [exact W| |]; apply IH; (apply (placed_child g TOP cur n); [unfold child; rewrite K; auto|congruence]).
Qed.
Lemma leaf_first n b x : leaf n b -> written n -> kind x = NTerm -> first b x = true -> first n x = true.
Proof.
  induction 1 as [|n l r b K _ IH|n l r b K _ IH]; intros W KX F; [exact F| |];
    (apply (AL n l r x W K KX)); [left|right]; (apply IH; [apply (w_child g n); auto; unfold child; rewrite K; auto|exact KX|exact F]).
Qed.
Lemma flatten_leaf f : forall work ns, flatten g f work = Some ns -> forall n b, In n work -> leaf n b -> In b ns.
Proof.
  induction f as [|f IH]; intros work ns E n b I L; [discriminate|]. cbn [flatten] in E. destruct work as [|m work]; [destruct I|].
  destruct (kind m) as [| | |s|s|i c a|i c a|ii|l r|l r|i s|tt c|i|i|bb oo xx|] eqn:K;
    try (destruct (flatten g f work) as [rest|] eqn:F; [|discriminate]; cbn in E; injection E as <-;
         destruct I as [->|I]; [left; inversion L; subst; congruence|right; exact (IH _ _ F n b I L)]).
  destruct I as [->|I].
  - inversion L as [? N|? l' r' ? K' L'|? l' r' ? K' L']; subst; [destruct (N l r K)| |]; rewrite K in K'; injection K' as <- <-.
    + apply (IH _ _ E l b); [left; reflexivity|exact L'].
    + apply (IH _ _ E r b); [right; left; reflexivity|exact L'].
  - apply (IH _ _ E n b); [right; right; exact I|exact L].
Qed.
Lemma flatten_only_leaf f : forall work ns, flatten g f work = Some ns -> forall b, In b ns -> exists n, In n work /\ leaf n b.
Proof.
  induction f as [|f IH]; intros work ns E b I; [discriminate|]. cbn [flatten] in E. destruct work as [|m work]; [injection E as <-; destruct I|].
  destruct (kind m) as [| | |s|s|i c a|i c a|ii|l r|l r|i s|tt c|i|i|bb oo xx|] eqn:K;
    try (destruct (flatten g f work) as [rest|] eqn:F; [|discriminate]; cbn in E; injection E as <-;
         destruct I as [<-|I]; [exists m; split; [left; reflexivity|apply lf_self; congruence]|
           destruct (IH _ _ F b I) as (n & I' & L); exists n; split; [right; exact I'|exact L]]).
  destruct (IH _ _ E b I) as (n & [<-|[<-|I']] & L).
  - exists m. split; [left; reflexivity|exact (lf_l m l r b K L)].
  - exists m. split; [left; reflexivity|exact (lf_r m l r b K L)].
  - exists n. split; [right; exact I'|exact L].
Qed.
Definition distinct (a b : id) : Prop := forall y, kind y = NTerm -> first a y = true -> first b y = false.
Lemma flatten_distinct f : forall work ns, flatten g f work = Some ns -> (forall n, In n work -> written n) ->
  ForallOrdPairs distinct work -> ForallOrdPairs distinct ns.
Proof.
  induction f as [|f IH]; intros work ns E W P; [discriminate|]. cbn [flatten] in E. destruct work as [|m work]; [injection E as <-; constructor|].
  inversion P as [|? ? PA PR]; subst.
  assert (Wm : written m) by (apply W; left; reflexivity).
  assert (Wr : forall n, In n work -> written n) by (intros; apply W; right; assumption).
  destruct (kind m) as [| | |s|s|i c a|i c a|ii|l r|l r|i s|tt c|i|i|bb oo xx|] eqn:K;
    try (destruct (flatten g f work) as [rest|] eqn:F; [|discriminate]; cbn in E; injection E as <-;
         constructor; [|exact (IH _ _ F Wr PR)]; apply Forall_forall; intros b Ib y KY FM;
         destruct (flatten_only_leaf _ _ _ F b Ib) as (n & In_ & L); rewrite Forall_forall in PA;
         destruct (first b y) eqn:FB; [|reflexivity]; pose proof (leaf_first n b y L (Wr n In_) KY FB) as FN;
         rewrite (PA n In_ y KY FM) in FN; discriminate).
  assert (Wl : written l) by (apply (w_child g m); auto; unfold child; rewrite K; auto).
  assert (Wr' : written r) by (apply (w_child g m); auto; unfold child; rewrite K; auto).
  apply (IH _ _ E).
  - intros n [<-|[<-|I]]; auto.
  - rewrite Forall_forall in PA. constructor; [|constructor; [|exact PR]].
    + apply Forall_forall. intros x [<-|Ix] y KY FL; [exact (FA m l r y Wm K KY FL)|].
      apply (PA x Ix y KY). apply (AL m l r y Wm K KY). left; exact FL.
    + apply Forall_forall. intros x Ix y KY FL. apply (PA x Ix y KY). apply (AL m l r y Wm K KY). right; exact FL.
Qed.
Lemma term_first n : written n -> kind n = NTerm -> first n n = true.
Proof. intros W K. apply (FC n n []); [right; exact W|]. apply d_term. exact K. Qed.
Lemma branches_run cur cc b w rest : derives b w -> written b -> (forall i s, kind b <> NEvolve i s) ->
  (forall st, at_ st (w ++ rest) -> parses cur cc (Item b) st rest) ->
  forall ns, In b ns -> (forall m, In m ns -> written m) -> ForallOrdPairs distinct ns -> branches_ok g first ns = true ->
  (w = [] -> forall m, In m ns -> kind (next rest) = NTerm -> first m (next rest) = true -> False) ->
  forall st, at_ st (w ++ rest) -> parses cur cc (Branches ns) st rest.
Proof.
  intros D WB NE BODY. induction ns as [|m ns IH]; intros I WN P BO EM st A; [destruct I|].
  destruct (Nat.eq_dec m b) as [->|NM].
  - destruct (guarded_true (test b (ptok st)) b st) as (st1 & GE & S1).
    { destruct A as (_ & _ & ->). destruct w as [|x w]; [|exact (test_word b x w (or_intror WB) D)]. cbn [app].
      assert (E : eps b = true) by (apply EC; assumption). destruct ns as [|m' ns]; cbn [branches_ok] in BO; rewrite E in BO; cbn in BO; [|discriminate].
      unfold open in BO. apply andb_true_iff in BO. destruct BO as [T1 T2]. apply negb_true_iff in T1. unfold ParserModel.test, test_set. rewrite T1, T2. reflexivity. }
    destruct (BODY st1 (at_same _ _ _ S1 A)) as (f & st2 & R & A2). exists (S f), st2. split; [|exact A2].
    cbn [ParserModel.run]. rewrite GE. exact R.
  - destruct I as [->|I]; [congruence|]. inversion P as [|? ? PA PR]; subst. destruct ns as [|m' ns]; [destruct I|].
    cbn [branches_ok] in BO. repeat rewrite andb_true_iff in BO. destruct BO as [[B1 B2] B3].
    assert (NT : test m (ptok st) = false).
    { destruct A as (_ & _ & ->). destruct (test m (next (w ++ rest))) eqn:T; [|reflexivity]. exfalso.
      assert (F : kind (next (w ++ rest)) = NTerm /\ first m (next (w ++ rest)) = true).
      { destruct (test_true _ _ T) as [O|[KY [F|[KM E]]]]; [rewrite O in B2; discriminate|auto|]. split; [exact KY|]. rewrite E. apply term_first; [|exact KM].
        apply WN. left; reflexivity. }
      destruct F as [KY F]. destruct w as [|x w]; [exact (EM eq_refl m (or_introl eq_refl) KY F)|]. cbn [app next] in *.
      rewrite Forall_forall in PA. pose proof (PA b I x KY F) as F2. rewrite (FC b x w (or_intror WB) D) in F2. discriminate. }
    destruct (IH I ltac:(intros; apply WN; right; assumption) PR B3 ltac:(intros; eapply EM; [assumption|right; eassumption|assumption|assumption]) st A) as (f & st2 & R & A2).
    exists (S f), st2. split; [|exact A2]. cbn [ParserModel.run]. rewrite NT, guarded_false. exact R.
Qed.

(** ** Operators *)
Lemma pick_none {A} (sel : op -> option (id * A)) ops st : (forall o t a, In o ops -> sel o = Some (t, a) -> t <> ptok st) -> pick cond sel ops st = (None, st).
Proof.
  induction ops as [|o ops IH]; intros H; [reflexivity|]. cbn [pick].
  assert (IH' : pick cond sel ops st = (None, st)) by (apply IH; intros; eapply H; [right; eassumption|eassumption]).
  destruct (sel o) as [[t a]|] eqn:E; [|exact IH'].
  destruct (Nat.eqb_spec (ptok st) t) as [T|T]; [|exact IH']. destruct (H o t a (or_introl eq_refl) E). congruence.
Qed.
Lemma pick_some {A} (sel : op -> option (id * A)) ops st o a : In o ops -> sel o = Some (ptok st, a) ->
  exists a' o' st1, pick cond sel ops st = (Some a', st1) /\ same st st1 /\ In o' ops /\ sel o' = Some (ptok st, a').
Proof.
  intros I E. induction ops as [|m ops IH]; [destruct I|]. cbn [pick].
  assert (REC : In o ops -> exists a' o' st1, pick cond sel ops st = (Some a', st1) /\ same st st1 /\ In o' (m :: ops) /\ sel o' = Some (ptok st, a')).
  { intros I'. destruct (IH I') as (a' & o' & st1 & P & S1 & I1 & E1). exists a', o', st1. repeat split; auto; try apply S1. right; exact I1. }
  destruct (sel m) as [[t a0]|] eqn:Em.
  - destruct (Nat.eqb_spec (ptok st) t) as [T|T].
    + unfold ask. rewrite COND. exists a0, m. eexists. split; [reflexivity|]. split; [repeat split|]. split; [left; reflexivity|]. rewrite T. exact Em.
    + destruct I as [->|I]; [|exact (REC I)]. congruence.
  - destruct I as [->|I]; [congruence|exact (REC I)].
Qed.
Lemma tokens_in (ops : list op) (f : op -> list id) t : (exists o, In o ops /\ In t (f o)) -> In t (flat_map f ops).
Proof. intros (o & A & B). apply in_flat_map. eauto. Qed.
Lemma none_in_spec a b x : none_in a b = true -> In x a -> In x b -> False.
Proof.
  unfold none_in. rewrite forallb_forall. intros H A B. specialize (H x A). apply negb_true_iff in H.
  assert (mem x b = true) by (apply mem_in; exact B). congruence.
Qed.
Lemma oper_parts n b ops : operator_ok g first follow n b ops = true ->
  (exists s, kind b = NNon s) /\ (forall t u, ~ In (OTern t u) ops) /\
  (forall t t' u, In (OPre t) ops -> In (OParen t' u) ops -> t <> t') /\
  (forall t, In (OPost t) ops -> ~ In (OBin t) ops) /\
  (forall t u, In (OParen t u) ops -> ~ In (OPost u) ops /\ ~ In (OBin u) ops) /\
  (forall t u u', In (OParen t u) ops -> In (OParen t u') ops -> u = u') /\
  (forall t, In (OPre t) ops \/ (exists u, In (OParen t u) ops) -> first b t = false) /\
  (forall t, In (OPost t) ops \/ In (OBin t) ops -> follow n t = false) /\
  (forall t u e s, In (OParen t u) ops -> In e (grules g) -> kind e = NEvolve n s -> mem s (gstart g) = false).
Proof.
  unfold operator_ok. repeat rewrite andb_true_iff. intros [[[[[[[[B T] P1] P2] P3] P4] P5] P6] P7].
  assert (PRE : forall t, In (OPre t) ops -> In t (pre_tokens ops)) by (intros t I; apply tokens_in; exists (OPre t); split; [exact I|left; reflexivity]).
  assert (POST : forall t, In (OPost t) ops -> In t (post_tokens ops)) by (intros t I; apply tokens_in; exists (OPost t); split; [exact I|left; reflexivity]).
  assert (BIN : forall t, In (OBin t) ops -> In t (bin_tokens ops)) by (intros t I; apply tokens_in; exists (OBin t); split; [exact I|left; reflexivity]).
  assert (PAR : forall t u, In (OParen t u) ops -> In (t, u) (parens ops)) by (intros t u I; apply in_flat_map; exists (OParen t u); split; [exact I|left; reflexivity]).
  assert (OPN : forall t u, In (OParen t u) ops -> In t (map Datatypes.fst (parens ops))) by (intros t u I; apply (in_map Datatypes.fst _ (t, u)); auto).
  assert (CLS : forall t u, In (OParen t u) ops -> In u (map snd (parens ops))) by (intros t u I; apply (in_map snd _ (t, u)); auto).
  split; [destruct (kind b); try discriminate; eauto|].
  split. { intros t u I. unfold no_ternary in T. rewrite forallb_forall in T. specialize (T _ I). discriminate. }
  split. { intros t t' u I1 I2 E. subst t'. eapply (none_in_spec _ _ _ P1); eauto. }
  split. { intros t I1 I2. eapply (none_in_spec _ _ _ P2); eauto. }
  split. { intros t u I1. split; intros I2; eapply (none_in_spec _ _ _ P3 (CLS t u I1)); apply in_or_app; auto. }
  split. { intros t u u' I1 I2. rewrite forallb_forall in P4. specialize (P4 _ (PAR t u I1)). rewrite forallb_forall in P4. specialize (P4 _ (PAR t u' I2)).
           cbn in P4. rewrite Nat.eqb_refl in P4. cbn in P4. apply Nat.eqb_eq in P4. exact P4. }
  split. { intros t H. rewrite forallb_forall in P5. apply negb_true_iff. apply P5. apply in_or_app. destruct H as [H|[u H]]; eauto. }
  split. { intros t H. rewrite forallb_forall in P6. apply negb_true_iff. apply P6. apply in_or_app. destruct H as [H|H]; eauto. }
  intros t u e s I1 I2 K. destruct (parens ops) eqn:PE; [destruct (PAR t u I1)|]. rewrite forallb_forall in P7. specialize (P7 e I2). rewrite K, Nat.eqb_refl in P7.
  cbn in P7. apply negb_true_iff in P7. exact P7.
Qed.

Definition live (s : id) : Prop := trivial g (follow s) = false.
Lemma occurs_live s w : kind s = NSym -> occurs s w -> live s.
Proof.
  intros K O. destruct (OC s w O) as [KT F]. specialize (F ltac:(congruence) ltac:(congruence)). unfold live, trivial.
  destruct (forallb _ _) eqn:E; [|reflexivity]. rewrite forallb_forall in E. specialize (E (next w)). rewrite in_seq in E.
  specialize (E ltac:(pose proof (term_lt _ KT); lia)). rewrite F in E. unfold is_zero in E. rewrite KT in E. discriminate.
Qed.

Definition reads_item (n : id) (w : list id) : Prop :=
  forall cur cc rest st, live cur -> written n -> occurs n rest -> placed cur n -> at_ st (w ++ rest) -> parses cur cc (Item n) st rest.
Definition reads_symbol (n : id) (w : list id) : Prop :=
  kind n = NSym -> forall cc rest st, occurs n rest -> (mem n (gstart g) = true -> next rest = geof g) -> at_ st (w ++ rest) -> parses n cc (Rules (env g n)) st rest.
Definition reads_operand (n : id) (w : list id) : Prop :=
  forall b ops x, kind n = NOper b ops x -> forall cur cc rest rest2, live cur -> written n -> occurs_op g n b ops rest -> placed cur n ->
  (forall st, at_ st rest -> parses cur cc (Operator n b ops) st rest2) ->
  forall st, at_ st (w ++ rest) -> parses cur cc (Operand n b ops) st rest2.
Definition reads_rule (n : id) (w : list id) : Prop :=
  kind n = NSym -> exists e i, In e (grules g) /\ kind e = NEvolve i n /\ derives i w /\ reads_item i w.
Definition reads (n : id) (w : list id) : Prop :=
  (kind n <> NSym -> (forall i s, kind n <> NEvolve i s) -> reads_item n w) /\ (reads_symbol n w /\ reads_rule n w) /\ reads_operand n w /\
  (kind n <> NSym -> (forall i s, kind n <> NEvolve i s) -> exists b, leaf n b /\ derives b w /\ reads_item b w).

Lemma simple n w : derives n w -> kind n <> NSym -> (forall b ops x, kind n <> NOper b ops x) -> (forall l r, kind n <> NAlt l r) ->
  reads_item n w -> reads n w.
Proof.
  intros D KS KO KA R. split; [auto|]. split; [split; intros K; congruence|]. split; [intros b ops x K; destruct (KO b ops x K)|].
  intros _ _. exists n. split; [apply lf_self; exact KA|]. auto.
Qed.
Lemma item_below n m : written n -> child g n m -> (forall i s, kind n <> NEvolve i s) -> written m /\ (forall cur, placed cur m) /\ kind m <> NSym /\ forall i s, kind m <> NEvolve i s.
Proof.
  intros W C NE. split; [exact (w_child g n m W C)|]. split; [intros cur; exact (placed_child g TOP cur n m C NE)|].
  pose proof (inside_written n W) as I. unfold child in C. assert (KN : kind n <> NOther) by (intro E; rewrite E in C; exact C).
  pose proof (shaped g WF n KN) as SH. unfold shape in SH. rewrite I in SH.
  assert (IN : below g m n = true -> kind m <> NSym /\ forall i s, kind m <> NEvolve i s).
  { unfold below. rewrite andb_true_iff. intros [_ B]. unfold is_item in B. split; [intro E; rewrite E in B; discriminate|intros i s E; rewrite E in B; discriminate]. }
  destruct (kind n) as [| | |s|s|i c a|i c a|[i|]|l r|l r|i s|tt [c|]|i|i|bb ops x|] eqn:K; try (destruct C; fail); repeat rewrite andb_true_iff in SH;
    try (subst m; apply IN; apply SH); try (destruct C as [-> | ->]; apply IN; apply SH).
Qed.
Lemma no_test_follow n w : kind n <> NTerm -> kind n <> NZero -> occurs n w -> trivial g (first n) = false ->
  (forall x, kind x = NTerm -> first n x = true -> follow n x = false) -> test n (next w) = false.
Proof.
  intros K1 K2 O T D. destruct (test n (next w)) eqn:E; [|reflexivity]. exfalso. destruct (OC n w O) as [KY F]. specialize (F K1 K2).
  destruct (test_true _ _ E) as [X|[_ [X|[X _]]]]; [unfold open in X; rewrite T, andb_false_r in X; discriminate| |congruence].
  rewrite (D _ KY X) in F. discriminate.
Qed.
Ltac step := cbn [ParserModel.run].
Lemma forward n m w : (forall f cur cc st, run (S f) cur cc (Item n) st = run f cur cc (Item m) st) -> child g n m ->
  (forall rest, occurs n rest -> occurs m rest) -> (forall i s, kind n <> NEvolve i s) -> reads m w -> reads_item n w.
Proof.
  intros R C O NE (RI & _) cur cc rest st LV W OCC PL A. destruct (item_below n m W C NE) as (Wm & Pm & K1 & K2).
  destruct (RI K1 K2 cur cc rest st LV Wm (O rest OCC) (Pm cur) A) as (f & st' & E & A'). exists (S f), st'. split; [rewrite R; exact E|exact A'].
Qed.

Lemma alt_below n l r : kind n = NAlt l r -> shape g n = true ->
  (kind l <> NSym /\ forall i s, kind l <> NEvolve i s) /\ (kind r <> NSym /\ forall i s, kind r <> NEvolve i s).
Proof.
  intros K SH. assert (IN : forall m k, below g m k = true -> kind m <> NSym /\ forall i s, kind m <> NEvolve i s).
  { intros m k. unfold below. rewrite andb_true_iff. intros [_ B]. unfold is_item in B. split; [intro E; rewrite E in B; discriminate|intros i s E; rewrite E in B; discriminate]. }
  unfold shape in SH. rewrite K in SH. destruct (inside g n); apply andb_true_iff in SH; destruct SH as [A B]; split; eapply IN; eassumption.
Qed.

Lemma alternative n l r w : derives n w -> kind n = NAlt l r -> (exists b, leaf n b /\ derives b w /\ reads_item b w) -> reads n w.
Proof.
  intros D K (b & L & Db & RB). split; [|split; [split; intros; congruence|split; [intros ? ? ? ?; congruence|intros _ _; exists b; auto]]].
  intros _ _ cur cc rest st LV W OCC PL A.
  pose proof (item_fine n (inside_written n W)) as IF. unfold item_ok in IF. rewrite K in IF. apply andb_true_iff in IF. destruct IF as [IF1 IF2].
  destruct (flatten g (S (size g) * S (size g)) [l; r]) as [ns|] eqn:F; [|discriminate].
  assert (Wl : written l) by (apply (w_child g n); auto; unfold child; rewrite K; auto).
  assert (Wr : written r) by (apply (w_child g n); auto; unfold child; rewrite K; auto).
  assert (LF : forall m, In m ns -> leaf n m).
  { intros m Im. destruct (flatten_only_leaf _ _ _ F m Im) as (k & [<-|[<-|[]]] & Lk); [exact (lf_l n l r m K Lk)|exact (lf_r n l r m K Lk)]. }
  assert (Ib : In b ns).
  { inversion L as [? N|? l' r' ? K' L'|? l' r' ? K' L']; subst; [destruct (N l r K)| |]; rewrite K in K'; injection K' as <- <-.
    - apply (flatten_leaf _ _ _ F l); [left; reflexivity|exact L'].
    - apply (flatten_leaf _ _ _ F r); [right; left; reflexivity|exact L']. }
  assert (NE : forall i s, kind b <> NEvolve i s).
  { clear - L K W WF TOP. assert (X : forall m b, leaf m b -> written m -> (forall i s, kind m <> NEvolve i s) -> forall i s, kind b <> NEvolve i s).
    { clear L K W. induction 1 as [|m l' r' b' K' _ IH|m l' r' b' K' _ IH]; intros W NE; [exact NE| |];
        (destruct (item_below m l' W) as (W1 & _ & _ & N1); [unfold child; rewrite K'; auto|exact NE|]);
        (destruct (item_below m r' W) as (W2 & _ & _ & N2); [unfold child; rewrite K'; auto|exact NE|]); auto. }
    apply (X n b L W). congruence. }
  destruct (branches_run cur cc b w rest Db (leaf_written n b L W) NE) with (ns := ns) (st := st) as (f & st2 & E & A2); auto.
  - intros st1 A1. apply RB; auto; [exact (leaf_written n b L W)|exact (leaf_occurs n b rest L OCC)|exact (leaf_placed cur n b L PL)].
  - intros m Im. exact (leaf_written n m (LF m Im) W).
  - apply (flatten_distinct _ _ _ F).
    + intros m [<-|[<-|[]]]; assumption.
    + constructor; [constructor; [|constructor]|constructor; [constructor|constructor]]. intros y KY FL. exact (FA n l r y W K KY FL).
  - intros EW m Im KY FM. subst w. rewrite (EC n D ltac:(congruence)) in IF1. cbn in IF1.
    pose proof (leaf_first n m _ (LF m Im) W KY FM) as FN. destruct (OC n rest OCC) as [_ FO]. specialize (FO ltac:(congruence) ltac:(congruence)).
    rewrite (apart_spec _ _ _ IF1 KY FN) in FO. discriminate.
  - set (F0 := S (size g) * S (size g)) in *. exists (S (Nat.max F0 f)), st2. split; [|exact A2]. step. rewrite K.
    rewrite (flatten_more g F0 [l; r] ns F (Nat.max F0 f) (Nat.le_max_l _ _)). exact (up _ _ _ _ _ _ _ E (Nat.le_max_r _ _)).
Qed.
Lemma oper_not_empty n b ops x w : kind n = NOper b ops x -> derives n w -> w <> [].
Proof.
  intros K D. revert b ops x K. induction D; intros b0 ops0 x0 K0; try congruence;
    try (intro E; apply (f_equal (@length id)) in E; repeat (rewrite app_length in E || cbn [length] in E); lia).
  intro E. subst w. exact (ONE n b ops x H D).
Qed.
Lemma operator_ends n b ops x cur cc rest st : kind n = NOper b ops x -> (forall t u, ~ In (OTern t u) ops) ->
  (forall t, In (OPost t) ops \/ In (OBin t) ops -> t <> next rest) -> at_ st rest -> parses cur cc (Operator n b ops) st rest.
Proof.
  intros K T N A. exists 1, st. split; [|exact A]. step. pose proof A as (_ & _ & P).
  rewrite pick_none; [rewrite pick_none; [rewrite pick_none; [reflexivity|]|]|]; intros [t|t|t|t u|t u] t' a I E; cbn in E; try discriminate; injection E as -> <-; rewrite ?P;
    [destruct (T _ _ I)|apply N; auto|apply N; auto].
Qed.
Lemma operator n b ops x w : kind n = NOper b ops x -> derives n w -> reads_operand n w -> reads n w.
Proof.
  intros K D RO.
  assert (RI : reads_item n w).
  { intros cur cc rest st LV W OCC PL A.
    pose proof (item_fine n (inside_written n W)) as IF. unfold item_ok in IF. rewrite K in IF.
    destruct (oper_parts n b ops IF) as (_ & NT & _ & _ & _ & _ & _ & NF & _).
    destruct (RO b ops x K cur cc rest rest LV W (oo_top g n b ops x rest OCC K) PL) with (st := st) as (f & st' & E & A'); auto.
    - intros st1 A1. apply (operator_ends n b ops x); auto. intros t It E. destruct (OC n rest OCC) as [_ FO].
      specialize (FO ltac:(congruence) ltac:(congruence)). rewrite <- E, (NF t It) in FO. discriminate.
    - exists (S f), st'. step. rewrite K. auto. }
  split; [auto|]. split; [split; intros; congruence|]. split; [exact RO|]. intros _ _. exists n. split; [apply lf_self; congruence|auto].
Qed.

Lemma complete n w : derives n w -> reads n w.
Proof.
  intros D0.
  induction D0 as [n K|n K|s e i w Ks He Ke D IH|e i s w Ke D IH|n s w K D IH|n s w K D IH
    |n i c a w K D IH|n i c a u w K Du IHu Dw IHw|n i c a K|n i c a u w K Du IHu Dw IHw
    |n K|n i w K D IH|n l r w K D IH|n l r w K D IH|n l r u w K Du IHu Dw IHw
    |n tt c w K D IH|n tt c w K D IH|n i w K D IH|n i w K D IH
    |n b ops x w K D IH|n b ops x tk w K I D IH|n b ops x tk w K I D IH|n b ops x tk u w K I Du IHu Dw IHw
    |n b ops x s0 t0 u v w K I Du IHu Dv IHv Dw IHw|n b ops x s0 t0 w K I D IH].
  - (* zero *) apply simple; try congruence; [apply d_zero; exact K|]. intros cur cc rest st _ _ _ _ A. exists 1, st. step. rewrite K. auto.
  - (* terminal *) apply simple; try congruence; [apply d_term; exact K|]. intros cur cc rest st _ _ _ _ A. exists 1, (yylex st). step. rewrite K.
    destruct A as (A1 & A2 & A3). rewrite A3. cbn [app GrammarSpec.next]. rewrite Nat.eqb_refl. split; [reflexivity|]. apply (at_lex st n). exact (conj A1 (conj A2 A3)).
  - (* symbol *)
    split; [congruence|]. split; [|split; [intros b ops x KO; congruence|congruence]].
    assert (KI : kind i <> NSym).
    { assert (SH : shape g e = true) by (apply (shaped g WF); rewrite Ke; discriminate). unfold shape in SH. rewrite Ke in SH.
      destruct (inside g e); [|discriminate]. apply andb_true_iff in SH. destruct SH as [SH _]. unfold below in SH. apply andb_true_iff in SH. destruct SH as [_ SH].
      unfold is_item in SH. intro E. rewrite E in SH. discriminate. }
    split; [|intros _; exists e, i; split; [exact He|]; split; [exact Ke|]; split; [exact D|]; apply IH; [exact KI|exact (evolve_item e i s Ke)]].
    intros _ cc rest st OCC EOF A. destruct IH as (RI & _).
    assert (OI : occurs i rest) by (eapply o_evolve; [eapply o_rule; eassumption|exact Ke]).
    destruct (OC s rest OCC) as [KR FO].
    assert (LV : live s) by (exact (occurs_live s rest Ks OCC)).
    assert (Wi : written i) by (apply (w_child g e); [apply w_rule; exact He|unfold child; rewrite Ke; reflexivity]).
    apply (select s cc w rest e i Ks He Ke D KR LV); [intros _; apply FO; congruence|exact EOF| |exact A].
    intros st1 cc1 A1. apply RI; try assumption.
    + exact (evolve_item e i s Ke).
    + intros b ops x KO. exists e. auto.
  - (* rule *) split; [intros _ N; destruct (N i s Ke)|]. split; [split; intros KK; congruence|]. split; [intros b ops x KO; congruence|]. intros _ N; destruct (N i s Ke).
  - (* nonterminal *) apply simple; try congruence; [exact (d_non g n s w K D)|]. intros cur cc rest st LV W OCC PL A.
    pose proof (item_fine n (inside_written n W)) as IF. unfold item_ok in IF. rewrite K in IF. apply negb_true_iff in IF.
    destruct IH as (_ & [RS _] & _). destruct (RS (sym_of' n s (or_introl K)) false rest st (o_non g n s rest OCC K) ltac:(congruence) A) as (f & st' & E & A').
    exists (S f), st'. step. rewrite K, E. auto.
  - (* inlined *) apply simple; try congruence; [exact (d_inl g n s w K D)|]. intros cur cc rest st LV W OCC PL A.
    pose proof (item_fine n (inside_written n W)) as IF. unfold item_ok in IF. rewrite K in IF. apply andb_true_iff in IF. destruct IF as [IF1 IF2].
    apply negb_true_iff in IF2. apply Nat.eqb_eq in IF1.
    pose proof (sym_of' n s (or_intror K)) as KS. destruct IH as (_ & [_ RR] & _). destruct (RR KS) as (e & i & He & Ke & Di & RI).
    pose proof (o_inl g n s rest OCC K) as OS. destruct (OC s rest OS) as [KR FO]. specialize (FO ltac:(congruence) ltac:(congruence)).
    assert (Wi : written i) by (apply (w_child g e); [apply w_rule; exact He|unfold child; rewrite Ke; reflexivity]).
    assert (OI : occurs i rest) by (eapply o_evolve; [exact (o_rule g s e i rest OS KS He Ke)|exact Ke]).
    assert (PI : placed cur i) by (intros b ops x KO; destruct (proj1 (proj2 TOP) n s e i b ops x K He Ke KO)).
    assert (SE : search_rule g s = Some e).
    { assert (Ie : In e (env g s)) by (unfold env; rewrite <- in_rev, filter_In; split; [exact He|unfold rule_of; rewrite Ke; apply Nat.eqb_refl]).
      destruct (search_rule g s) as [e'|] eqn:SR.
      - assert (Ie' : In e' (env g s)) by (unfold env; rewrite <- in_rev, filter_In; unfold search_rule in SR; apply find_some in SR; exact SR).
        destruct (env g s) as [|a [|b l]]; cbn in IF1; try discriminate. destruct Ie as [->|[]]. destruct Ie' as [->|[]]. reflexivity.
      - exfalso. unfold search_rule in SR. apply (find_none _ _ SR) in He. unfold rule_of in He. rewrite Ke, Nat.eqb_refl in He. discriminate. }
    destruct (guarded_true (rule_test g first follow e i s (ptok st)) i st) as (st1 & GE & S1).
    { destruct A as (_ & _ & ->). apply (rule_entered e i s w rest); auto. }
    destruct (RI cur cc rest st1 LV Wi OI PI (at_same _ _ _ S1 A)) as (f & st2 & E & A2).
    exists (S f), st2. step. rewrite K, SE, Ke, GE, E. cbn [next_do]. rewrite IF2. auto.
  - (* plus *) apply simple; try congruence; [exact (d_plus1 g n i c a w K D)|]. intros cur cc rest st LV W OCC PL A.
    pose proof (item_fine n (inside_written n W)) as IF. unfold item_ok in IF. rewrite K in IF. apply andb_true_iff in IF. destruct IF as [IF1 IF2]. apply negb_true_iff in IF2.
    destruct (item_below n i W) as (Wi & Pi & K1 & K2); [unfold child; rewrite K; reflexivity|congruence|].
    destruct IH as (RI & _). destruct (RI K1 K2 cur cc rest st LV Wi (o_plus g n i c a rest OCC K) (Pi cur) A) as (f & st' & E & A').
    exists (S f), st'. step. rewrite K, E. cbn [next_do]. pose proof A' as (_ & _ & T). rewrite T.
    rewrite (no_test_follow n rest); try congruence; auto. intros y KY FY. exact (apart_spec _ _ y IF1 KY FY).
  - apply simple; try congruence; [exact (d_plus g n i c a u w K Du Dw)|]. intros cur cc rest st LV W OCC PL A.
    pose proof (item_fine n (inside_written n W)) as IF. unfold item_ok in IF. rewrite K in IF. apply andb_true_iff in IF. destruct IF as [IF1 IF2]. apply negb_true_iff in IF2.
    destruct (item_below n i W) as (Wi & Pi & K1 & K2); [unfold child; rewrite K; reflexivity|congruence|].
    destruct IHu as (RI & _). rewrite <- app_assoc in A.
    destruct (RI K1 K2 cur cc (w ++ rest) st LV Wi (o_plus2 g n i c a w rest OCC K Dw) (Pi cur) A) as (f & st' & E & A').
    destruct w as [|y w].
    + exists (S f), st'. step. rewrite K, E. cbn [next_do]. pose proof A' as (_ & _ & T). rewrite T. cbn [app].
      rewrite (no_test_follow n rest); try congruence; auto. intros z KY FY. exact (apart_spec _ _ z IF1 KY FY).
    + destruct IHw as (RN & _). destruct (RN ltac:(congruence) ltac:(congruence) cur cc rest st' LV W OCC PL A') as (f2 & st2 & E2 & A2).
      exists (S (Nat.max f f2)), st2. step. rewrite K, (up _ _ _ _ _ _ _ E (Nat.le_max_l f f2)). cbn [next_do]. pose proof A' as (_ & _ & T). rewrite T.
      cbn [app GrammarSpec.next]. rewrite (test_word n y w (or_intror W) Dw). rewrite (up _ _ _ _ _ _ _ E2 (Nat.le_max_r f f2)). auto.
  - (* star *) apply simple; try congruence; [exact (d_star0 g n i c a K)|]. intros cur cc rest st LV W OCC PL A.
    pose proof (item_fine n (inside_written n W)) as IF. unfold item_ok in IF. rewrite K in IF. apply negb_true_iff in IF.
    exists 1, st. step. rewrite K. pose proof A as (_ & _ & T). rewrite T. cbn [app].
    rewrite (no_test_follow n rest); try congruence; auto. intros y KY FY. exact (FS n i c a y W K KY FY).
  - apply simple; try congruence; [exact (d_star g n i c a u w K Du Dw)|]. intros cur cc rest st LV W OCC PL A.
    destruct IHw as (RN & _). rewrite <- app_assoc in A. destruct u as [|y u]; [exact (RN ltac:(congruence) ltac:(congruence) cur cc rest st LV W OCC PL A)|].
    destruct (item_below n i W) as (Wi & Pi & K1 & K2); [unfold child; rewrite K; reflexivity|congruence|].
    destruct IHu as (RI & _). destruct (RI K1 K2 cur cc (w ++ rest) st LV Wi (o_star g n i c a w rest OCC K Dw) (Pi cur) A) as (f & st' & E & A').
    destruct (RN ltac:(congruence) ltac:(congruence) cur cc rest st' LV W OCC PL A') as (f2 & st2 & E2 & A2).
    exists (S (Nat.max f f2)), st2. step. rewrite K. pose proof A as (_ & _ & T). rewrite T. cbn [app GrammarSpec.next].
    rewrite (test_word n y (u ++ w) (or_intror W) (d_star g n i c a (y :: u) w K Du Dw)).
    rewrite (up _ _ _ _ _ _ _ E (Nat.le_max_l f f2)). cbn [next_do]. rewrite (up _ _ _ _ _ _ _ E2 (Nat.le_max_r f f2)). auto.
  - (* code *) apply simple; try congruence; [exact (d_act0 g n K)|]. intros cur cc rest st LV W OCC PL A. exists 1, st. step. rewrite K. auto.
  - apply simple; try congruence; [exact (d_act g n i w K D)|]. apply (forward n i w); [intros; step; rewrite K; reflexivity|unfold child; rewrite K; reflexivity| |congruence|exact IH].
    intros rest O. exact (o_act g n i rest O K).
  - (* alternative *) apply (alternative n l r w (d_altl g n l r w K D) K). destruct IH as (_ & _ & _ & B).
    assert (SH : shape g n = true) by (apply (shaped g WF); rewrite K; discriminate). destruct (alt_below n l r K SH) as [[X Y] _].
    destruct (B X Y) as (b & L & P). exists b. split; [exact (lf_l n l r b K L)|exact P].
  - apply (alternative n l r w (d_altr g n l r w K D) K). destruct IH as (_ & _ & _ & B).
    assert (SH : shape g n = true) by (apply (shaped g WF); rewrite K; discriminate). destruct (alt_below n l r K SH) as [_ [X Y]].
    destruct (B X Y) as (b & L & P). exists b. split; [exact (lf_r n l r b K L)|exact P].
  - (* sequence *) apply simple; try congruence; [exact (d_cons g n l r u w K Du Dw)|]. intros cur cc rest st LV W OCC PL A.
    destruct (item_below n l W) as (Wl & Pl & K1 & K2); [unfold child; rewrite K; auto|congruence|].
    destruct (item_below n r W) as (Wr & Pr & K3 & K4); [unfold child; rewrite K; auto|congruence|].
    destruct IHu as (RL & _). destruct IHw as (RR & _). rewrite <- app_assoc in A.
    destruct (RL K1 K2 cur cc (w ++ rest) st LV Wl (o_consl g n l r w rest OCC K Dw) (Pl cur) A) as (f & st' & E & A').
    destruct (RR K3 K4 cur cc rest st' LV Wr (o_consr g n l r rest OCC K) (Pr cur) A') as (f2 & st2 & E2 & A2).
    exists (S (Nat.max f f2)), st2. step. rewrite K, (up _ _ _ _ _ _ _ E (Nat.le_max_l f f2)). cbn [next_do]. rewrite (up _ _ _ _ _ _ _ E2 (Nat.le_max_r f f2)). auto.
  - (* try *) apply simple; try congruence; [exact (d_try g n tt c w K D)|]. intros cur cc rest st LV W OCC PL A.
    pose proof (item_fine n (inside_written n W)) as IF. unfold item_ok in IF. rewrite K in IF. destruct c as [c|]; [discriminate|].
    destruct (item_below n tt W) as (Wi & Pi & K1 & K2); [unfold child; rewrite K; reflexivity|congruence|].
    destruct IH as (RI & _). destruct (RI K1 K2 cur true rest st LV Wi (o_try g n tt None rest OCC K) (Pi cur) A) as (f & st' & E & A').
    exists (S f), st'. step. rewrite K, E. auto.
  - apply simple; try congruence; [exact (d_catch g n tt c w K D)|]. intros cur cc rest st LV W OCC PL A.
    pose proof (item_fine n (inside_written n W)) as IF. unfold item_ok in IF. rewrite K in IF. discriminate.
  - (* annotation *) apply simple; try congruence; [exact (d_ann g n i w K D)|]. intros cur cc rest st LV W OCC PL A.
    pose proof (item_fine n (inside_written n W)) as IF. unfold item_ok in IF. rewrite K in IF.
    destruct (item_below n i W) as (Wi & Pi & K1 & K2); [unfold child; rewrite K; reflexivity|congruence|].
    destruct IH as (RI & _). destruct (RI K1 K2 cur cc rest st LV Wi (o_ann g n i rest OCC K) (Pi cur) A) as (f & st' & E & A').
    exists (S f), st'. step. rewrite K. destruct (kind i) eqn:KI; try discriminate; rewrite E; auto.
  - (* condition *) apply simple; try congruence; [exact (d_cond g n i w K D)|]. apply (forward n i w); [intros; step; rewrite K; reflexivity|unfold child; rewrite K; reflexivity| |congruence|exact IH].
    intros rest O. exact (o_cond g n i rest O K).
  - (* operators: the operand *) apply (operator n b ops x w K (d_base g n b ops x w K D)). intros b1 ops1 x1 K1. rewrite K in K1. injection K1 as <- <- <-.
    intros cur cc rest rest2 LV W OCC PL CONT st A.
    pose proof (item_fine n (inside_written n W)) as IF. unfold item_ok in IF. rewrite K in IF.
    destruct (oper_parts n b ops IF) as ([s Kb] & _ & _ & _ & _ & _ & NB & _).
    destruct w as [|y w]; [destruct (ONE n b ops x K D)|].
    destruct (item_below n b W) as (Wb & Pb & K1 & K2); [unfold child; rewrite K; reflexivity|congruence|].
    pose proof (FC b y w (or_intror Wb) D) as FB.
    destruct IH as (RI & _). destruct (RI K1 K2 cur cc rest st LV Wb (o_base g n b ops x rest K OCC) (Pb cur) A) as (f & st1 & E & A1).
    destruct (CONT st1 A1) as (f2 & st2 & E2 & A2). exists (S (Nat.max f f2)), st2. split; [|exact A2]. step. pose proof A as (_ & _ & P). cbn in P.
    rewrite pick_none; [rewrite pick_none|]; [| |].
    + unfold base_symbol. rewrite Kb, P. rewrite (test_word s y w (or_introl (sym_of' b s (or_introl Kb)))).
      * rewrite (up _ _ _ _ _ _ _ E (Nat.le_max_l f f2)). cbn [next_do]. exact (up _ _ _ _ _ _ _ E2 (Nat.le_max_r f f2)).
      * inversion D; subst; try congruence.
    + intros [t|t|t|t u|t u] t' a I1 E1; cbn in E1; try discriminate; injection E1 as -> <-. rewrite P. intros ->. rewrite (NB y) in FB; [discriminate|eauto].
    + intros [t|t|t|t u|t u] t' a I1 E1; cbn in E1; try discriminate; injection E1 as -> <-. rewrite P. intros ->. rewrite (NB y) in FB; [discriminate|eauto].
  - (* prefix *) apply (operator n b ops x _ K (d_pre g n b ops x tk w K I D)). intros b1 ops1 x1 K1. rewrite K in K1. injection K1 as <- <- <-.
    intros cur cc rest rest2 LV W OCC PL CONT st A. pose proof A as (_ & _ & P). cbn in P.
    destruct (pick_some sel_pre ops st (OPre tk) tt I) as (a' & o' & st1 & E1 & S1 & _); [cbn; rewrite P; reflexivity|].
    destruct IH as (_ & _ & RO & _). destruct (RO b ops x K cur cc rest rest2 LV W OCC PL CONT (yylex st1)) as (f & st2 & E2 & A2).
    { apply (at_lex st1 tk). exact (at_same _ _ _ S1 A). }
    exists (S f), st2. split; [|exact A2]. step. rewrite E1. exact E2.
  - (* postfix *) apply (operator n b ops x _ K (d_post g n b ops x tk w K I D)). intros b1 ops1 x1 K1. rewrite K in K1. injection K1 as <- <- <-.
    intros cur cc rest rest2 LV W OCC PL CONT st A. rewrite <- app_assoc in A. cbn [app] in A.
    destruct IH as (_ & _ & RO & _). apply (RO b ops x K cur cc (tk :: rest) rest2 LV W (oo_post g n b ops tk rest OCC I) PL); [|exact A].
    clear st A. intros st A. pose proof A as (_ & _ & P). cbn in P.
    destruct (pick_some sel_post ops st (OPost tk) tt I) as (a' & o' & st1 & E1 & S1 & _); [cbn; rewrite P; reflexivity|].
    destruct (CONT (yylex st1)) as (f & st2 & E2 & A2); [apply (at_lex st1 tk); exact (at_same _ _ _ S1 A)|].
    exists (S f), st2. split; [|exact A2]. step. rewrite E1. exact E2.
  - (* binary *) apply (operator n b ops x _ K (d_bin g n b ops x tk u w K I Du Dw)). intros b1 ops1 x1 K1. rewrite K in K1. injection K1 as <- <- <-.
    intros cur cc rest rest2 LV W OCC PL CONT st A. rewrite <- app_assoc in A. cbn [app] in A.
    pose proof (item_fine n (inside_written n W)) as IF. unfold item_ok in IF. rewrite K in IF.
    destruct (oper_parts n b ops IF) as (_ & _ & _ & PB & _).
    destruct IHu as (_ & _ & RU & _). destruct IHw as (_ & _ & RW & _).
    apply (RU b ops x K cur cc (tk :: w ++ rest) rest2 LV W (oo_bin g n b ops tk w rest OCC I Dw) PL); [|exact A].
    clear st A. intros st A. pose proof A as (_ & _ & P). cbn in P.
    destruct (pick_some sel_bin ops st (OBin tk) tt I) as (a' & o' & st1 & E1 & S1 & _); [cbn; rewrite P; reflexivity|].
    destruct (RW b ops x K cur cc rest rest2 LV W OCC PL CONT (yylex st1)) as (f & st2 & E2 & A2); [apply (at_lex st1 tk); exact (at_same _ _ _ S1 A)|].
    exists (S f), st2. split; [|exact A2]. step. rewrite pick_none, E1; [exact E2|].
    intros [t|t|t|t v|t v] t' a I1 E3; cbn in E3; try discriminate; injection E3 as -> <-. rewrite P. intros ->. exact (PB tk I1 I).
  - (* ternary *) apply (operator n b ops x _ K (d_tern g n b ops x s0 t0 u v w K I Du Dv Dw)). intros b1 ops1 x1 K1. rewrite K in K1. injection K1 as <- <- <-.
    intros cur cc rest rest2 LV W. pose proof (item_fine n (inside_written n W)) as IF. unfold item_ok in IF. rewrite K in IF.
    destruct (oper_parts n b ops IF) as (_ & NT & _). destruct (NT _ _ I).
  - (* parentheses *) apply (operator n b ops x _ K (d_paren g n b ops x s0 t0 w K I D)). intros b1 ops1 x1 K1. rewrite K in K1. injection K1 as <- <- <-.
    intros cur cc rest rest2 LV W OCC PL CONT st A.
    change ((s0 :: w ++ [t0]) ++ rest) with (s0 :: (w ++ [t0]) ++ rest) in A. rewrite <- app_assoc in A. cbn [app] in A.
    pose proof (item_fine n (inside_written n W)) as IF. unfold item_ok in IF. rewrite K in IF.
    destruct (oper_parts n b ops IF) as (_ & NT & PP & _ & CL & UN & _ & _ & ST).
    destruct (PL b ops x K) as (e & He & Ke). pose proof (rule_sym e n cur Ke) as KC.
    pose proof A as (_ & _ & P). cbn in P.
    destruct (pick_some sel_paren ops st (OParen s0 t0) t0 I) as (a' & o' & st1 & E1 & S1 & I1 & E1'); [cbn; rewrite P; reflexivity|].
    assert (a' = t0). { destruct o' as [t|t|t|t v|t v]; cbn in E1'; try discriminate. injection E1' as -> ->. rewrite P in I1. symmetry. exact (UN s0 t0 a' I I1). }
    subst a'. pose proof (oo_paren g n b ops s0 t0 rest OCC I) as OP. destruct (OC b (t0 :: rest) (o_base g n b ops x _ K OP)) as [KT _].
    pose proof (at_lex st1 s0 _ (at_same _ _ _ S1 A)) as AL1.
    destruct IH as (_ & _ & RO & _).
    destruct (select cur false w (t0 :: rest) e n KC He Ke D KT LV) with (st := yylex st1) as (f & st2 & E2 & A2).
    { intros E. destruct (oper_not_empty n b ops x w K D E). }
    { rewrite (ST s0 t0 e cur I He Ke). discriminate. }
    { intros st3 cc3 A3. destruct (RO b ops x K cur cc3 (t0 :: rest) (t0 :: rest) LV W OP PL) with (st := st3) as (f & st4 & E4 & A4); auto.
      - intros st5 A5. apply (operator_ends n b ops x); auto. cbn. intros t [It|It] ->; [exact (proj1 (CL s0 t0 I) It)|exact (proj2 (CL s0 t0 I) It)].
      - exists (S f), st4. split; [|exact A4]. step. rewrite K. exact E4. }
    { exact AL1. }
    pose proof A2 as (_ & _ & P2). cbn in P2. pose proof (at_lex st2 t0 rest A2) as A2'.
    set (st3 := Datatypes.snd (ask cond st2)).
    assert (A3 : at_ (yylex st3) rest) by exact A2'.
    destruct (CONT (yylex st3) A3) as (f2 & st4 & E4 & A4). exists (S (Nat.max f f2)), st4. split; [|exact A4]. step.
    rewrite pick_none; [|intros [t|t|t|t v|t v] t' a I3 E3; cbn in E3; try discriminate; injection E3 as -> <-; rewrite P; intros ->; exact (PP s0 s0 t0 I3 I eq_refl)].
    rewrite E1. destruct w as [|y w]; [destruct (oper_not_empty n b ops x [] K D eq_refl)|].
    pose proof AL1 as (_ & _ & PA). cbn [app GrammarSpec.next] in PA. rewrite PA.
    rewrite (test_word cur y w (or_introl KC) (d_sym g cur e n _ KC He Ke D)).
    rewrite (up _ _ _ _ _ _ _ E2 (Nat.le_max_l f f2)). cbn [called next_do]. rewrite P2, Nat.eqb_refl.
    unfold ask. rewrite COND. exact (up _ _ _ _ _ _ _ E4 (Nat.le_max_r f f2)).
Qed.
End G.
