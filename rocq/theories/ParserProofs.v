(** The generated parser: what it accepts, and that errors stay blocked and
    positions are restored around try. *)
From Coq Require Import List Bool PeanoNat Lia.
From Verif Require Import Base GrammarModel GrammarSpec GrammarProofs FirstProofs ParserModel ParserSpec.
Import ListNotations.

Section G.
Variable g : grammar.
Variables first follow : table.
Variable tok : nat -> id.
Variable cond : nat -> bool.
Notation kind := (kind g).
Notation derives := (derives g).
Notation run := (run g first follow tok cond).
Notation yylex := (yylex tok).

Definition good (st : pstate) : Prop := 1 <= pidx st /\ ptok st = tok (pidx st - 1).
Definition same (a b : pstate) : Prop := pidx a = pidx b /\ ptok a = ptok b /\ pblock a = pblock b.
Definition span (a b : pstate) : list id := slice tok (pidx a - 1) (pidx b - pidx a).

Lemma same_refl a : same a a. Proof. repeat split. Qed.
Lemma same_trans a b c : same a b -> same b c -> same a c.
Proof. unfold same. intros (A & B & C) (D & E & F). repeat split; congruence. Qed.
Lemma same_good a b : same a b -> good a -> good b.
Proof. unfold same, good. intros (A & B & _) [C D]. rewrite <- A, <- B. auto. Qed.
Lemma same_span a b c d : same a b -> same c d -> span a c = span b d.
Proof. unfold same, span. intros (A & _) (B & _). rewrite A, B. reflexivity. Qed.
Lemma yylex_good st : good (yylex st).
Proof. unfold good, ParserModel.yylex. cbn. replace (pidx st - 0) with (pidx st) by lia. split; [lia|reflexivity]. Qed.
Lemma span_nil a : span a a = []. Proof. unfold span. rewrite Nat.sub_diag. reflexivity. Qed.
Lemma span_trans a b c : 1 <= pidx a -> pidx a <= pidx b -> pidx b <= pidx c -> span a c = span a b ++ span b c.
Proof.
  intros A B C. unfold span, slice. rewrite <- map_app. f_equal.
  replace (pidx c - pidx a) with ((pidx b - pidx a) + (pidx c - pidx b)) by lia. rewrite seq_app. f_equal. f_equal. lia.
Qed.
Lemma span_yylex a : good a -> span a (yylex a) = [ptok a].
Proof.
  intros [A B]. unfold span, slice, ParserModel.yylex. cbn [pidx]. replace (S (pidx a) - pidx a) with 1 by lia. cbn. rewrite B. reflexivity.
Qed.
Lemma ask_same st c st' : ask cond st = (c, st') -> same st st'.
Proof. unfold ask. intros E. injection E as _ <-. repeat split. Qed.
Lemma guarded_same b n st c st' : guarded g cond b n st = (c, st') -> same st st' /\ (c = true -> b = true).
Proof.
  unfold guarded. intros E. destruct b.
  - destruct (is_cond g n); [split; [apply (ask_same _ c); exact E|auto]|injection E as <- <-; split; [apply same_refl|auto]].
  - injection E as <- <-. split; [apply same_refl|auto].
Qed.
Lemma pick_same {A} (sel : op -> option (id * A)) ops : forall st r st', pick cond sel ops st = (r, st') ->
  same st st' /\ forall a, r = Some a -> exists o, In o ops /\ sel o = Some (ptok st, a).
Proof.
  induction ops as [|o ops IH]; intros st r st' E; cbn [pick] in E.
  - injection E as <- <-. split; [apply same_refl|discriminate].
  - destruct (sel o) as [[t a]|] eqn:SE.
    + destruct (Nat.eqb_spec (ptok st) t) as [T|T].
      * destruct (ask cond st) as [c st1] eqn:AE. pose proof (ask_same _ _ _ AE) as S1. destruct c.
        -- injection E as <- <-. split; [exact S1|]. intros a' Ea. injection Ea as <-. exists o. split; [left; reflexivity|]. rewrite T. exact SE.
        -- destruct (IH _ _ _ E) as [S2 P]. split; [exact (same_trans _ _ _ S1 S2)|].
           intros a' Ea. destruct (P a' Ea) as (o' & I & E'). exists o'. split; [right; exact I|].
           destruct S1 as (_ & -> & _). exact E'.
      * destruct (IH _ _ _ E) as [S2 P]. split; [exact S2|]. intros a' Ea. destruct (P a' Ea) as (o' & I & E'). exists o'. split; [right; exact I|exact E'].
    + destruct (IH _ _ _ E) as [S2 P]. split; [exact S2|]. intros a' Ea. destruct (P a' Ea) as (o' & I & E'). exists o'. split; [right; exact I|exact E'].
Qed.
Lemma flatten_all (P : id -> Prop) : (forall n l r, kind n = NAlt l r -> P n -> P l /\ P r) ->
  forall f work ns, flatten g f work = Some ns -> (forall n, In n work -> P n) -> forall n, In n ns -> P n.
Proof.
  intros A. induction f as [|f IH]; intros work ns E W n I; [discriminate|]. cbn [flatten] in E.
  destruct work as [|m work]; [injection E as <-; destruct I|].
  assert (Wm : P m) by (apply W; left; reflexivity).
  assert (Wr : forall n, In n work -> P n) by (intros; apply W; right; assumption).
  destruct (kind m) as [| | |s|s|i c a|i c a|ii|l r|l r|i s|tt c|i|i|bb oo xx|] eqn:K;
    try (destruct (flatten g f work) as [rest|] eqn:F; [|discriminate]; cbn in E; injection E as <-;
         destruct I as [<-|I]; [exact Wm|exact (IH work rest F Wr n I)]).
  destruct (A m l r K Wm) as [Pl Pr]. apply (IH _ _ E); [|exact I].
  intros k [<-|[<-|Ik]]; auto.
Qed.

(** ** Only sentences *)
Hypothesis WF : well_formed g = true.
Hypothesis TOP : operators_on_top g.
Hypothesis ALONE : operators_alone g.
Hypothesis NOREC : no_recovery g.
Hypothesis INLINED : inlined_can_be_empty g.

Definition placed (cur n : id) : Prop := forall b ops x, kind n = NOper b ops x -> exists e, In e (grules g) /\ kind e = NEvolve n cur.
Definition claim (cur : id) (j : job) (u : list id) : Prop :=
  match j with
  | Item n => placed cur n -> derives n u
  | Rules es => kind cur = NSym -> (forall e, In e es -> In e (grules g) /\ rule_of g cur e = true) -> derives cur u
  | Branches ns => (forall n, In n ns -> placed cur n) -> exists n, In n ns /\ derives n u
  | Operand n b ops => forall x, kind n = NOper b ops x -> placed cur n -> derives n u
  | Operator n b ops => forall x, kind n = NOper b ops x -> placed cur n -> forall v, derives n v -> derives n (v ++ u)
  end.
Lemma placed_child cur n m : child g n m -> (forall i s, kind n <> NEvolve i s) -> placed cur m.
Proof. intros C N b ops x K. destruct (proj1 TOP n m b ops x C K) as (s & E). destruct (N m s E). Qed.
Lemma env_rules s e : In e (env g s) -> In e (grules g) /\ rule_of g s e = true.
Proof. unfold env. rewrite <- in_rev, filter_In. auto. Qed.
Lemma sym_of n s : kind n = NNon s \/ kind n = NInl s -> kind s = NSym.
Proof.
  intros K. assert (SH : shape g n = true) by (apply (shaped g WF); destruct K as [-> | ->]; discriminate).
  unfold shape in SH. destruct (inside g n); destruct K as [K|K]; rewrite K in SH; try discriminate;
    unfold is_sym in SH; apply andb_true_iff in SH; destruct SH as [_ SH]; destruct (kind s); congruence.
Qed.
Lemma called_done c o st : called c o = Done st -> o = Done st.
Proof. destruct o; cbn; congruence. Qed.

Lemma run_sound f : forall cur cc j st st', run f cur cc j st = Done st' -> good st ->
  good st' /\ pidx st <= pidx st' /\ claim cur j (span st st').
Proof.
  induction f as [|f IH]; intros cur cc j st st' E G; [discriminate|]. pose proof (proj1 G) as G1.
  assert (LEX : forall a b, same a b -> good a -> forall c, good c -> pidx (yylex b) <= pidx c ->
    pidx a <= pidx c /\ span a c = ptok a :: span (yylex b) c).
  { intros a b SA GA c GC L. pose proof SA as (Si & St & _). cbn [pidx ParserModel.yylex] in L. split; [lia|].
    assert (Gb : good b) by (exact (same_good _ _ SA GA)). destruct Gb as [Gb1 Gb2].
    rewrite (same_span a b c c SA (same_refl c)). rewrite (span_trans b (yylex b) c); [|exact Gb1|cbn; lia|cbn; lia].
    rewrite (span_yylex b (conj Gb1 Gb2)), St. reflexivity. }
  cbn [ParserModel.run] in E. destruct j as [n|es|ns|n b ops|n b ops].
  - (* Item *) unfold claim.
    destruct (kind n) as [| | |s|s|i c a|i c a|ii|l r|l r|i s|t c|i|i|b ops x|] eqn:K; try discriminate.
    + injection E as <-. split; [exact G|]. split; [lia|]. intros _. rewrite span_nil. constructor; exact K.
    + destruct (Nat.eqb_spec (ptok st) n) as [T|T]; [|discriminate]. injection E as <-.
      split; [apply yylex_good|]. split; [cbn; lia|]. intros _. rewrite (span_yylex st G), T. constructor; exact K.
    + apply called_done in E. destruct (IH _ _ _ _ _ E G) as (A & B & C). split; [exact A|]. split; [exact B|]. intros _. apply (d_non g n s _ K).
      apply C; [exact (sym_of n s (or_introl K))|apply env_rules].
    + destruct (search_rule g s) as [e|] eqn:SR; [|discriminate].
      apply find_some in SR. destruct SR as [Ie Re]. unfold rule_of in Re.
      destruct (kind e) as [| | |?|?|? ? ?|? ? ?|?|? ?|? ?|i s'|? ?|?|?|? ? ?|] eqn:Ke; try discriminate. apply Nat.eqb_eq in Re. subst s'.
      destruct (guarded _ _ _ i st) as [go st1] eqn:GE. destruct (guarded_same _ _ _ _ _ GE) as [S1 _].
      destruct go.
      * destruct (run f cur cc (Item i) st1) as [st2| | |] eqn:R; try discriminate. cbn [next_do] in E.
        destruct (IH _ _ _ _ _ R (same_good _ _ S1 G)) as (A & B & C).
        destruct (mem s (gstart g) && negb (Nat.eqb (ptok st2) (geof g)))%bool; [discriminate|]. injection E as <-.
        split; [exact A|]. split; [destruct S1 as (-> & _); exact B|]. intros _. apply (d_inl g n s _ K).
        apply (d_sym g s e i _ (sym_of n s (or_intror K)) Ie Ke). rewrite (same_span st st1 st2 st2 S1 (same_refl _)). apply C.
        intros b ops x KO. exfalso. exact (proj1 (proj2 TOP) n s e i b ops x K Ie Ke KO).
      * injection E as <-. split; [exact (same_good _ _ S1 G)|]. split; [destruct S1 as (-> & _); lia|]. intros _.
        rewrite <- (same_span st st st st1 (same_refl _) S1), span_nil. apply (d_inl g n s _ K). exact (INLINED n s K).
    + (* plus *) destruct (run f cur cc (Item i) st) as [st1| | |] eqn:R; try discriminate. cbn [next_do] in E.
      destruct (IH _ _ _ _ _ R G) as (A & B & C).
      assert (Di : derives i (span st st1)).
      { apply C. apply (placed_child cur n); [unfold child; rewrite K; reflexivity|congruence]. }
      destruct (test g first n (ptok st1)).
      * destruct (IH _ _ _ _ _ E A) as (A2 & B2 & C2). split; [exact A2|]. split; [lia|]. intros PL.
        rewrite (span_trans st st1 st' G1 B B2). apply (d_plus g n i c a _ _ K Di). apply C2. exact PL.
      * injection E as <-. split; [exact A|]. split; [exact B|]. intros _. exact (d_plus1 g n i c a _ K Di).
    + (* star *) destruct (test g first n (ptok st)).
      * destruct (run f cur cc (Item i) st) as [st1| | |] eqn:R; try discriminate. cbn [next_do] in E.
        destruct (IH _ _ _ _ _ R G) as (A & B & C). destruct (IH _ _ _ _ _ E A) as (A2 & B2 & C2). split; [exact A2|]. split; [lia|]. intros PL.
        rewrite (span_trans st st1 st' G1 B B2). apply (d_star g n i c a _ _ K); [|exact (C2 PL)].
        apply C. apply (placed_child cur n); [unfold child; rewrite K; reflexivity|congruence].
      * injection E as <-. split; [exact G|]. split; [lia|]. intros _. rewrite span_nil. exact (d_star0 g n i c a K).
    + (* action *) destruct ii as [i|].
      * destruct (IH _ _ _ _ _ E G) as (A & B & C). split; [exact A|]. split; [exact B|]. intros _. apply (d_act g n i _ K). apply C.
        apply (placed_child cur n); [unfold child; rewrite K; reflexivity|congruence].
      * injection E as <-. split; [exact G|]. split; [lia|]. intros _. rewrite span_nil. exact (d_act0 g n K).
    + (* alternative *) destruct (flatten g f [l; r]) as [ns|] eqn:F; [|discriminate].
      destruct (IH _ _ _ _ _ E G) as (A & B & C). split; [exact A|]. split; [exact B|]. intros _.
      assert (ALL : forall m, In m ns -> placed cur m /\ forall u, derives m u -> derives n u).
      { apply (flatten_all (fun m => placed cur m /\ forall u, derives m u -> derives n u)) with (f := f) (work := [l; r]); [|exact F|].
        - intros m l' r' Km [_ P]. split; (split; [apply (placed_child cur m); [unfold child; rewrite Km; auto|congruence]|]); intros u D; apply P;
            [exact (d_altl g m l' r' u Km D)|exact (d_altr g m l' r' u Km D)].
        - intros m [<-|[<-|[]]]; (split; [apply (placed_child cur n); [unfold child; rewrite K; auto|congruence]|]); intros u D;
            [exact (d_altl g n l r u K D)|exact (d_altr g n l r u K D)]. }
      destruct C as (m & Im & D); [intros m Im; apply ALL; exact Im|]. apply (ALL m Im). exact D.
    + (* sequence *) destruct (run f cur cc (Item l) st) as [st1| | |] eqn:R; try discriminate. cbn [next_do] in E.
      destruct (IH _ _ _ _ _ R G) as (A & B & C). destruct (IH _ _ _ _ _ E A) as (A2 & B2 & C2). split; [exact A2|]. split; [lia|]. intros _.
      rewrite (span_trans st st1 st' G1 B B2).
      apply (d_cons g n l r _ _ K); [apply C|apply C2]; (apply (placed_child cur n); [unfold child; rewrite K; auto|congruence]).
    + (* try *) destruct c as [c|]; [|destruct (NOREC n t K)].
      destruct (run f cur true (Item t) (block true st)) as [st1|st1| |] eqn:R; try discriminate.
      * injection E as <-. destruct (IH _ _ _ _ _ R G) as (A & B & C). split; [exact A|]. split; [exact B|]. intros _.
        apply (d_try g n t (Some c) _ K). apply C. apply (placed_child cur n); [unfold child; rewrite K; auto|congruence].
      * destruct (IH _ _ _ _ _ E) as (A & B & C); [apply yylex_good|]. split; [exact A|].
        cbn [rewind ParserModel.yylex pidx] in B. split; [lia|]. intros _.
        apply (d_catch g n t c _ K).
        replace (span st st') with (span (rewind tok (pidx st - 1) (block (pblock st) st1)) st').
        { apply C. apply (placed_child cur n); [unfold child; rewrite K; auto|congruence]. }
        unfold span, rewind, ParserModel.yylex. cbn [pidx]. f_equal; lia.
    + (* annotation *) destruct (kind i) eqn:Ki; try discriminate;
        (destruct (IH _ _ _ _ _ E G) as (A & B & C); split; [exact A|]; split; [exact B|]; intros _; apply (d_ann g n i _ K); apply C;
         apply (placed_child cur n); [unfold child; rewrite K; auto|congruence]).
    + (* condition *) destruct (IH _ _ _ _ _ E G) as (A & B & C); split; [exact A|]; split; [exact B|]; intros _; apply (d_cond g n i _ K); apply C;
         apply (placed_child cur n); [unfold child; rewrite K; auto|congruence].
    + (* operator *) destruct (IH _ _ _ _ _ E G) as (A & B & C). split; [exact A|]. split; [exact B|]. intros PL. exact (C x K PL).
  - (* Rules *) destruct es as [|e es]; [discriminate|]. unfold claim.
    destruct (kind e) as [| | |s|s|i c a|i c a|ii|l r|l r|i s|t c|i|i|b ops x|] eqn:K;
      try (destruct (IH _ _ _ _ _ E G) as (A & B & C); split; [exact A|]; split; [exact B|]; intros KS RS; apply C; [exact KS|]; intros e' I'; apply RS; right; exact I').
    destruct (guarded _ _ _ i st) as [go st1] eqn:GE. destruct (guarded_same _ _ _ _ _ GE) as [S1 _]. destruct go.
    + destruct (run f cur cc (Item i) st1) as [st2| | |] eqn:R; try discriminate. cbn [next_do] in E.
      destruct (IH _ _ _ _ _ R (same_good _ _ S1 G)) as (A & B & C).
      destruct (mem s (gstart g) && negb (Nat.eqb (ptok st2) (geof g)))%bool; [discriminate|]. injection E as <-.
      split; [exact A|]. split; [destruct S1 as (-> & _); exact B|]. intros KS RS.
      destruct (RS e (or_introl eq_refl)) as [Ie Re]. unfold rule_of in Re. rewrite K in Re. apply Nat.eqb_eq in Re. subst s.
      apply (d_sym g cur e i _ KS Ie K). rewrite (same_span st st1 st2 st2 S1 (same_refl _)). apply C.
      intros b ops x KO. exists e. split; [exact Ie|exact K].
    + destruct (IH _ _ _ _ _ E (same_good _ _ S1 G)) as (A & B & C). split; [exact A|]. split; [destruct S1 as (-> & _); exact B|]. intros KS RS.
      rewrite (same_span st st1 st' st' S1 (same_refl _)). apply C; [exact KS|]. intros e' I'. apply RS. right; exact I'.
  - (* Branches *) destruct ns as [|n ns]; [discriminate|]. unfold claim.
    destruct (guarded _ _ _ n st) as [go st1] eqn:GE. destruct (guarded_same _ _ _ _ _ GE) as [S1 _]. destruct go.
    + destruct (IH _ _ _ _ _ E (same_good _ _ S1 G)) as (A & B & C). split; [exact A|]. split; [destruct S1 as (-> & _); exact B|]. intros PL.
      exists n. split; [left; reflexivity|]. rewrite (same_span st st1 st' st' S1 (same_refl _)). apply C. apply PL. left; reflexivity.
    + destruct (IH _ _ _ _ _ E (same_good _ _ S1 G)) as (A & B & C). split; [exact A|]. split; [destruct S1 as (-> & _); exact B|]. intros PL.
      destruct C as (m & Im & D); [intros m Im; apply PL; right; exact Im|]. exists m. split; [right; exact Im|].
      rewrite (same_span st st1 st' st' S1 (same_refl _)). exact D.
  - (* Operand *) unfold claim.
    destruct (pick cond sel_pre ops st) as [p st1] eqn:P1. destruct (pick_same _ _ _ _ _ P1) as [S1 W1]. pose proof (same_good _ _ S1 G) as G2.
    destruct p as [[]|].
    + destruct (IH _ _ _ _ _ E (yylex_good st1)) as (A & B & C). destruct (LEX st st1 S1 G st' A B) as [L SP]. split; [exact A|]. split; [exact L|].
      intros x K PL. rewrite SP. destruct (W1 tt eq_refl) as (o & Io & So). destruct o; try discriminate. cbn in So. injection So as ->.
      apply (d_pre g n b ops x (ptok st) _ K Io). exact (C x K PL).
    + destruct (pick cond sel_paren ops st1) as [q st2] eqn:P2. destruct (pick_same _ _ _ _ _ P2) as [S2 W2]. pose proof (same_trans _ _ _ S1 S2) as S3.
      destruct q as [u|].
      * destruct (test g first cur (ptok (yylex st2))); [|discriminate].
        destruct (run f cur false (Rules (env g cur)) (yylex st2)) as [st3| | |] eqn:R; try discriminate. cbn [called next_do] in E.
        destruct (Nat.eqb_spec (ptok st3) u) as [TU|TU]; [|discriminate].
        destruct (ask cond st3) as [c st4] eqn:AE. destruct c; [|discriminate].
        destruct (IH _ _ _ _ _ R (yylex_good st2)) as (A & B & C).
        destruct (IH _ _ _ _ _ E (yylex_good st4)) as (A2 & B2 & C2).
        pose proof (ask_same _ _ _ AE) as S4.
        destruct (LEX st3 st4 S4 A st' A2 B2) as [L1 SP1].
        destruct (LEX st st2 S3 G st3 A B) as [L2 SP2].
        split; [exact A2|]. split; [lia|]. intros x K PL.
        rewrite (span_trans st st3 st' G1 L2 L1), SP2, SP1.
        destruct (W2 u eq_refl) as (o & Io & So). destruct o; try discriminate. cbn in So. injection So as T0 U0. subst t u0.
        replace ((ptok st :: span (yylex st2) st3) ++ ptok st3 :: span (yylex st4) st')
          with ((ptok st :: span (yylex st2) st3 ++ [ptok st3]) ++ span (yylex st4) st') by (cbn; rewrite <- app_assoc; reflexivity).
        apply (C2 x K PL). rewrite TU. destruct S1 as (_ & T1 & _). rewrite T1.
        apply (d_paren g n b ops x (ptok st1) u _ K Io).
        destruct (PL b ops x K) as (e & Ie & Ke). apply (ALONE e n cur b ops x _ Ie Ke K). apply C; [|apply env_rules].
        assert (SH : shape g e = true) by (apply (shaped g WF); rewrite Ke; discriminate). unfold shape in SH. rewrite Ke in SH.
        destruct (inside g e); [|discriminate]. apply andb_true_iff in SH. destruct SH as [_ SH]. unfold is_sym in SH. apply andb_true_iff in SH. destruct SH as [_ SH].
        destruct (kind cur); congruence.
      * destruct (test g first (base_symbol g b) (ptok st2)); [|discriminate].
        destruct (run f cur cc (Item b) st2) as [st3| | |] eqn:R; try discriminate. cbn [next_do] in E.
        destruct (IH _ _ _ _ _ R (same_good _ _ S3 G)) as (A & B & C). destruct (IH _ _ _ _ _ E A) as (A2 & B2 & C2).
        pose proof S3 as (I3 & _). split; [exact A2|]. split; [lia|]. intros x K PL.
        rewrite (span_trans st st3 st' G1 ltac:(lia) B2). apply (C2 x K PL). rewrite (same_span st st2 st3 st3 S3 (same_refl _)).
        apply (d_base g n b ops x _ K). apply C. apply (placed_child cur n); [unfold child; rewrite K; reflexivity|congruence].
  - (* Operator *) unfold claim.
    destruct (pick cond sel_post ops st) as [p st1] eqn:P1. destruct (pick_same _ _ _ _ _ P1) as [S1 W1].
    destruct p as [[]|].
    + destruct (IH _ _ _ _ _ E (yylex_good st1)) as (A & B & C). destruct (LEX st st1 S1 G st' A B) as [L SP]. split; [exact A|]. split; [exact L|].
      intros x K PL v D. rewrite SP. destruct (W1 tt eq_refl) as (o & Io & So). destruct o; try discriminate. cbn in So. injection So as ->.
      replace (v ++ ptok st :: span (yylex st1) st') with ((v ++ [ptok st]) ++ span (yylex st1) st') by (rewrite <- app_assoc; reflexivity).
      apply (C x K PL). exact (d_post g n b ops x (ptok st) v K Io D).
    + destruct (pick cond sel_bin ops st1) as [q st2] eqn:P2. destruct (pick_same _ _ _ _ _ P2) as [S2 W2]. pose proof (same_trans _ _ _ S1 S2) as S3.
      destruct q as [[]|].
      * destruct (IH _ _ _ _ _ E (yylex_good st2)) as (A & B & C). destruct (LEX st st2 S3 G st' A B) as [L SP]. split; [exact A|]. split; [exact L|].
        intros x K PL v D. rewrite SP. destruct (W2 tt eq_refl) as (o & Io & So). destruct o; try discriminate. cbn in So. injection So as ->.
        destruct S1 as (_ & -> & _). exact (d_bin g n b ops x (ptok st1) v _ K Io D (C x K PL)).
      * destruct (pick cond sel_tern ops st2) as [q st3] eqn:P3. destruct (pick_same _ _ _ _ _ P3) as [S4 W4]. destruct q; [discriminate|].
        injection E as <-. pose proof (same_trans _ _ _ S3 S4) as S5. split; [exact (same_good _ _ S5 G)|]. split; [destruct S5 as (-> & _); lia|].
        intros x K PL v D. rewrite <- (same_span st st st st3 (same_refl _) S5), span_nil, app_nil_r. exact D.
Qed.
End G.
