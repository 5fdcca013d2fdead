(** The generated parser: more fuel changes nothing; blocked errors stay
    blocked; what try restores; where recovery goes on. *)
From Coq Require Import List Bool PeanoNat Lia.
From Verif Require Import Base GrammarModel GrammarSpec GrammarProofs FirstProofs ParserModel ParserSpec ParserProofs.
Import ListNotations.

Section G.
Variable g : grammar.
Variables first follow : table.
Variable tok : nat -> id.
Variable cond : nat -> bool.
Notation kind := (kind g).
Notation run := (run g first follow tok cond).
Notation yylex := (yylex tok).

Lemma flatten_more f : forall work ns, flatten g f work = Some ns -> forall f', f <= f' -> flatten g f' work = Some ns.
Proof.
  induction f as [|f IH]; intros work ns E f' L; [discriminate|]. destruct f' as [|f']; [lia|]. cbn [flatten] in E |- *.
  destruct work as [|m work]; [exact E|].
  destruct (kind m) as [| | |s|s|i c a|i c a|ii|l r|l r|i s|tt c|i|i|bb oo xx|] eqn:K;
    try (destruct (flatten g f work) as [rest|] eqn:F; [|discriminate]; rewrite (IH _ _ F f' ltac:(lia)); exact E).
  apply (IH _ _ E). lia.
Qed.
Lemma skip_more f : forall n st o, skip g follow tok f n st = o -> o <> Out -> forall f', f <= f' -> skip g follow tok f' n st = o.
Proof.
  induction f as [|f IH]; intros n st o E N f' L; [cbn in E; congruence|]. destruct f' as [|f']; [lia|]. cbn [skip] in E |- *.
  destruct (Nat.eqb (ptok st) (geof g) || (is_term g (ptok st) && follow n (ptok st)))%bool; [exact E|]. apply (IH _ _ _ E N). lia.
Qed.
Definition more (f f' : nat) : Prop := forall cur cc j st o, run f cur cc j st = o -> o <> Out -> run f' cur cc j st = o.
Lemma next_more a a' (k k' : pstate -> outcome) o : next_do a k = o -> o <> Out ->
  (forall o, a = o -> o <> Out -> a' = o) -> (forall st o, k st = o -> o <> Out -> k' st = o) -> next_do a' k' = o.
Proof.
  intros E N A K. destruct a as [st|st| |] eqn:EA; cbn [next_do] in E.
  - rewrite (A _ eq_refl) by discriminate. cbn [next_do]. exact (K _ _ E N).
  - rewrite (A _ eq_refl) by discriminate. exact E.
  - congruence.
  - rewrite (A _ eq_refl) by discriminate. exact E.
Qed.
Lemma called_more c a a' o : called c a = o -> o <> Out -> (forall o, a = o -> o <> Out -> a' = o) -> called c a' = o.
Proof.
  intros E N A. destruct a as [st|st| |] eqn:EA; cbn [called] in E; try (rewrite (A _ eq_refl) by discriminate; exact E). congruence.
Qed.
Lemma run_more_step f : more f (S f).
Proof.
  unfold more. induction f as [|f IH]; intros cur cc j st o E N; [cbn in E; congruence|].
  cbn [ParserModel.run] in E. remember (S f) as f1 eqn:F1. cbn [ParserModel.run]. subst f1.
  assert (GUARD : forall b n st0 (k k' h h' : pstate -> outcome),
     (let (go, st1) := guarded g cond b n st0 in if go then k st1 else h st1) = o ->
     (forall st o, k st = o -> o <> Out -> k' st = o) -> (forall st o, h st = o -> o <> Out -> h' st = o) ->
     (let (go, st1) := guarded g cond b n st0 in if go then k' st1 else h' st1) = o).
  { intros b n st0 k k' h h' E0 A B. destruct (guarded g cond b n st0) as [go st1]. destruct go; [exact (A _ _ E0 N)|exact (B _ _ E0 N)]. }
  assert (EOFC : forall s st0 o0, (if mem s (gstart g) && negb (Nat.eqb (ptok st0) (geof g)) then Fail st0 else Done st0) = o0 ->
     o0 <> Out -> (if mem s (gstart g) && negb (Nat.eqb (ptok st0) (geof g)) then Fail st0 else Done st0) = o0) by auto.
  destruct j as [n|es|ns|n b ops|n b ops].
  - destruct (kind n) as [| | |s|s|i c a|i c a|ii|l r|l r|i s|t c|i|i|b ops x|] eqn:K; try exact E.
    + apply (called_more _ _ _ _ E N). intros o0 E0 N0. exact (IH _ _ _ _ _ E0 N0).
    + destruct (search_rule g s) as [e|]; [|exact E]. destruct (kind e) eqn:Ke; try exact E.
      refine (GUARD _ _ _ _ _ _ _ E _ _); [|auto]. intros st1 o1 E1 N1. apply (next_more _ _ _ _ _ E1 N1); [intros; eapply IH; eassumption|auto].
    + apply (next_more _ _ _ _ _ E N); [intros; eapply IH; eassumption|]. intros st1 o1 E1 N1.
      destruct (test g first n (ptok st1)); [exact (IH _ _ _ _ _ E1 N1)|exact E1].
    + destruct (test g first n (ptok st)); [|exact E]. apply (next_more _ _ _ _ _ E N); intros; eapply IH; eassumption.
    + destruct ii as [i|]; [exact (IH _ _ _ _ _ E N)|exact E].
    + destruct (flatten g f [l; r]) as [ns|] eqn:F; [|congruence]. rewrite (flatten_more _ _ _ F (S f) ltac:(lia)). exact (IH _ _ _ _ _ E N).
    + apply (next_more _ _ _ _ _ E N); intros; eapply IH; eassumption.
    + destruct c as [c|].
      * destruct (run f cur true (Item t) (block true st)) as [st1|st1| |] eqn:R; try congruence; rewrite (IH _ _ _ _ _ R) by discriminate; try exact E.
        exact (IH _ _ _ _ _ E N).
      * destruct (run f cur true (Item t) st) as [st1|st1| |] eqn:R; try congruence; rewrite (IH _ _ _ _ _ R) by discriminate; try exact E.
        apply (skip_more _ _ _ _ E N). lia.
    + destruct (kind i) eqn:Ki; try exact E; exact (IH _ _ _ _ _ E N).
    + exact (IH _ _ _ _ _ E N).
    + exact (IH _ _ _ _ _ E N).
  - destruct es as [|e es]; [exact E|]. destruct (kind e) eqn:K; try exact (IH _ _ _ _ _ E N).
    refine (GUARD _ _ _ _ _ _ _ E _ _).
    + intros st1 o1 E1 N1. apply (next_more _ _ _ _ _ E1 N1); [intros; eapply IH; eassumption|auto].
    + intros st1 o1 E1 N1. exact (IH _ _ _ _ _ E1 N1).
  - destruct ns as [|m ns]; [exact E|]. refine (GUARD _ _ _ _ _ _ _ E _ _); intros st1 o1 E1 N1; exact (IH _ _ _ _ _ E1 N1).
  - destruct (pick cond sel_pre ops st) as [p st1]. destruct p; [exact (IH _ _ _ _ _ E N)|].
    destruct (pick cond sel_paren ops st1) as [q st2]. destruct q as [u|].
    + destruct (test g first cur (ptok (yylex st2))); [|exact E]. apply (next_more _ _ _ _ _ E N).
      * intros o1 E1 N1. apply (called_more _ _ _ _ E1 N1). intros; eapply IH; eassumption.
      * intros st3 o1 E1 N1. destruct (Nat.eqb (ptok st3) u); [|exact E1]. destruct (ask cond st3) as [c st4]. destruct c; [|exact E1]. exact (IH _ _ _ _ _ E1 N1).
    + destruct (test g first (base_symbol g b) (ptok st2)); [|exact E]. apply (next_more _ _ _ _ _ E N); intros; eapply IH; eassumption.
  - destruct (pick cond sel_post ops st) as [p st1]. destruct p; [exact (IH _ _ _ _ _ E N)|].
    destruct (pick cond sel_bin ops st1) as [q st2]. destruct q; [exact (IH _ _ _ _ _ E N)|].
    destruct (pick cond sel_tern ops st2) as [q st3]. exact E.
Qed.
Lemma run_more f f' : f <= f' -> more f f'.
Proof.
  induction 1 as [|f' L IH]; unfold more; [auto|]. intros cur cc j st o E N. apply (run_more_step f'); [|exact N]. exact (IH _ _ _ _ _ E N).
Qed.

(** ** Blocked errors *)
Definition loud (n : id) : Prop := exists b ops x, kind n = NOper b ops x.
Definition keeps (quiet_ops : Prop) (st : pstate) (o : outcome) : Prop :=
  match o with
  | Done st' | Fail st' => pblock st' = pblock st /\ perr st <= perr st' /\ (quiet_ops -> pblock st = true -> perr st' = perr st)
  | _ => True
  end.
Lemma keeps_from Q a b o : pblock b = pblock a -> perr b = perr a -> keeps Q b o -> keeps Q a o.
Proof. intros B C. destruct o; cbn; auto; rewrite B, C; auto. Qed.
Lemma keeps_refl_done Q a b : pblock b = pblock a -> perr b = perr a -> keeps Q a (Done b).
Proof. intros B C. cbn. rewrite B, C. repeat split; auto. Qed.
Lemma keeps_refl_fail Q a b : pblock b = pblock a -> perr b = perr a -> keeps Q a (Fail b).
Proof. intros B C. cbn. rewrite B, C. repeat split; auto. Qed.
Lemma keeps_next Q st o k : keeps Q st o -> (forall st', keeps Q st' (k st')) -> keeps Q st (next_do o k).
Proof.
  intros A K. destruct o as [st1|st1| |]; cbn [next_do]; try exact A. cbn in A. destruct A as (B & C & D). specialize (K st1).
  destruct (k st1) as [st2|st2| |]; cbn in K |- *; auto; destruct K as (B2 & C2 & D2); (split; [congruence|]); (split; [lia|]);
    intros q T; rewrite D2 by (auto; congruence); apply D; assumption.
Qed.
Lemma report_keeps Q st c st' : keeps Q st (Fail st') -> keeps Q st (Fail (report c st')).
Proof.
  unfold report. intros (B & C & D). destruct c; [exact (conj B (conj C D))|]. cbn [orb]. destruct (pblock st') eqn:P; [cbn; rewrite P; auto|].
  cbn. split; [congruence|]. split; [lia|]. intros q T. congruence.
Qed.
Lemma ask_keeps st c st' : ask cond st = (c, st') -> pblock st' = pblock st /\ perr st' = perr st.
Proof. unfold ask. intros E. injection E as _ <-. auto. Qed.
Lemma guarded_keeps b n st c st' : guarded g cond b n st = (c, st') -> pblock st' = pblock st /\ perr st' = perr st.
Proof. unfold guarded. destruct b; [destruct (is_cond g n)|]; try apply ask_keeps; intros E; injection E as _ <-; auto. Qed.
Lemma pick_keeps {A} (sel : op -> option (id * A)) ops : forall st r st', pick cond sel ops st = (r, st') -> pblock st' = pblock st /\ perr st' = perr st.
Proof.
  induction ops as [|o ops IH]; intros st r st' E; cbn [pick] in E; [injection E as _ <-; auto|].
  destruct (sel o) as [[t a]|]; [|exact (IH _ _ _ E)]. destruct (Nat.eqb (ptok st) t); [|exact (IH _ _ _ E)].
  destruct (ask cond st) as [c st1] eqn:AE. pose proof (ask_keeps _ _ _ AE) as [B C]. destruct c; [injection E as _ <-; auto|].
  destruct (IH _ _ _ E). split; congruence.
Qed.
Lemma skip_keeps Q f : forall n st, keeps Q st (skip g follow tok f n st).
Proof.
  induction f as [|f IH]; intros n st; [exact I|]. cbn [skip].
  destruct (Nat.eqb (ptok st) (geof g) || (is_term g (ptok st) && follow n (ptok st)))%bool; [apply keeps_refl_done; reflexivity|].
  apply (keeps_from Q st (yylex st)); [reflexivity|reflexivity|apply IH].
Qed.
Definition calm : Prop := forall n, ~ loud n.
Lemma run_keeps f : forall cur cc j st, (forall n b ops, j = Operand n b ops \/ j = Operator n b ops -> loud n) -> keeps calm st (run f cur cc j st).
Proof.
  induction f as [|f IH]; intros cur cc j st J; [exact I|]. cbn [ParserModel.run].
  assert (IHI : forall cur cc n st, keeps calm st (run f cur cc (Item n) st)) by (intros; apply IH; intros ? ? ? [?|?]; discriminate).
  assert (IHR : forall cur cc es st, keeps calm st (run f cur cc (Rules es) st)) by (intros; apply IH; intros ? ? ? [?|?]; discriminate).
  assert (CALLED : forall c o, keeps calm st o -> keeps calm st (called c o)).
  { intros c o. destruct o; cbn [called]; auto. apply report_keeps. }
  assert (EOFC : forall s st, keeps calm st (if mem s (gstart g) && negb (Nat.eqb (ptok st) (geof g)) then Fail st else Done st)).
  { intros s st0. destruct (mem s (gstart g) && negb (Nat.eqb (ptok st0) (geof g)))%bool; [apply keeps_refl_fail|apply keeps_refl_done]; reflexivity. }
  destruct j as [n|es|ns|n b ops|n b ops].
  - destruct (kind n) as [| | |s|s|i c a|i c a|ii|l r|l r|i s|t c|i|i|b ops x|] eqn:K; try exact I.
    + apply keeps_refl_done; reflexivity.
    + destruct (Nat.eqb (ptok st) n); [apply keeps_refl_done; reflexivity|]. apply report_keeps. apply keeps_refl_fail; reflexivity.
    + apply CALLED, IHR.
    + destruct (search_rule g s) as [e|]; [|exact I]. destruct (kind e) eqn:Ke; try exact I.
      destruct (guarded _ _ _ _ st) as [go st1] eqn:GE. destruct (guarded_keeps _ _ _ _ _ GE) as [B C]. destruct go; [|apply keeps_refl_done; congruence].
      apply (keeps_from calm st st1 _ B C). apply keeps_next; [apply IHI|apply EOFC].
    + apply keeps_next; [apply IHI|]. intros st1. destruct (test g first n (ptok st1)); [apply IHI|apply keeps_refl_done; reflexivity].
    + destruct (test g first n (ptok st)); [apply keeps_next; [apply IHI|intros; apply IHI]|apply keeps_refl_done; reflexivity].
    + destruct ii as [i|]; [apply IHI|apply keeps_refl_done; reflexivity].
    + destruct (flatten g f [l; r]); [|exact I]. apply IH. intros ? ? ? [?|?]; discriminate.
    + apply keeps_next; [apply IHI|intros; apply IHI].
    + destruct c as [c|].
      * pose proof (IHI cur true t (block true st)) as A. destruct (run f cur true (Item t) (block true st)) as [st1|st1| |]; try exact I.
        -- cbn in A |- *. split; [reflexivity|]. destruct A as (_ & B & C). split; [lia|]. intros q _. apply C; auto.
        -- pose proof (IHI cur cc c (rewind tok (pidx st - 1) (block (pblock st) st1))) as D. cbn in A. destruct A as (_ & A2 & A3).
           destruct (run f cur cc (Item c) _) as [st2|st2| |]; try exact I; cbn in D |- *; destruct D as (D1 & D2 & D3);
             (split; [exact D1|]); (split; [lia|]); intros q T; rewrite (D3 q T); apply A3; auto.
      * pose proof (IHI cur true t st) as A. destruct (run f cur true (Item t) st) as [st1|st1| |]; try exact A.
        change (match skip g follow tok f n (if Nat.eqb (pidx st - 1) (pidx st1 - 1) && negb (Nat.eqb (ptok st1) (geof g)) then yylex st1 else st1) with
                | Done st' | Fail st' => pblock st' = pblock st /\ perr st <= perr st' /\ (calm -> pblock st = true -> perr st' = perr st)
                | _ => True end).
        cbn in A. destruct A as (A1 & A2 & A3).
        pose proof (skip_keeps calm f n (if Nat.eqb (pidx st - 1) (pidx st1 - 1) && negb (Nat.eqb (ptok st1) (geof g)) then yylex st1 else st1)) as D.
        assert (X : let s := (if Nat.eqb (pidx st - 1) (pidx st1 - 1) && negb (Nat.eqb (ptok st1) (geof g)) then yylex st1 else st1) in pblock s = pblock st1 /\ perr s = perr st1)
          by (destruct (Nat.eqb (pidx st - 1) (pidx st1 - 1) && negb (Nat.eqb (ptok st1) (geof g)))%bool; split; reflexivity).
        cbn zeta in X. destruct X as [X1 X2].
        destruct (skip g follow tok f n _) as [st2|st2| |]; try exact I; cbn in D; rewrite X1, X2 in D; destruct D as (D1 & D2 & D3);
          (split; [congruence|]); (split; [lia|]); intros q T; rewrite D3 by (auto; congruence); apply A3; auto.
    + destruct (kind i) eqn:Ki; try exact I; apply IHI.
    + apply IHI.
    + apply IH. intros m b' ops' [E|E]; [|discriminate]. injection E as <- <- <-. exists b, ops, x. exact K.
  - destruct es as [|e es]; [apply keeps_refl_fail; reflexivity|]. destruct (kind e) eqn:K; try apply IHR.
    destruct (guarded _ _ _ _ st) as [go st1] eqn:GE. destruct (guarded_keeps _ _ _ _ _ GE) as [B C].
    apply (keeps_from calm st st1 _ B C). destruct go; [apply keeps_next; [apply IHI|apply EOFC]|apply IHR].
  - destruct ns as [|m ns]; [apply keeps_refl_fail; reflexivity|].
    destruct (guarded _ _ _ _ st) as [go st1] eqn:GE. destruct (guarded_keeps _ _ _ _ _ GE) as [B C].
    apply (keeps_from calm st st1 _ B C). destruct go; [apply IHI|]. apply IH. intros ? ? ? [?|?]; discriminate.
  - assert (LOUD : loud n) by (apply (J n b ops); left; reflexivity).
    assert (NEXT1 : forall cc st, keeps calm st (run f cur cc (Operand n b ops) st)) by (intros; apply IH; intros ? ? ? [E|E]; [injection E as <- <- <-; exact LOUD|discriminate]).
    assert (NEXT2 : forall cc st, keeps calm st (run f cur cc (Operator n b ops) st)) by (intros; apply IH; intros ? ? ? [E|E]; [discriminate|injection E as <- <- <-; exact LOUD]).
    destruct (pick cond sel_pre ops st) as [p st1] eqn:P1. destruct (pick_keeps _ _ _ _ _ P1) as [B1 C1]. destruct p.
    { apply (keeps_from calm st (yylex st1)); [exact B1|exact C1|apply NEXT1]. }
    destruct (pick cond sel_paren ops st1) as [q st2] eqn:P2. destruct (pick_keeps _ _ _ _ _ P2) as [B2 C2]. apply (keeps_from calm st st2); [congruence|congruence|].
    destruct q as [u|].
    + apply (keeps_from calm st2 (yylex st2)); [reflexivity|reflexivity|]. destruct (test g first cur (ptok (yylex st2))); [|apply keeps_refl_fail; reflexivity].
      apply keeps_next.
      * pose proof (IHR cur false (env g cur) (yylex st2)) as A. destruct (run f cur false (Rules (env g cur)) (yylex st2)); cbn [called]; try exact A. apply report_keeps. exact A.
      * intros st3. destruct (Nat.eqb (ptok st3) u); [|apply keeps_refl_fail; reflexivity]. destruct (ask cond st3) as [c st4] eqn:AE.
        destruct (ask_keeps _ _ _ AE) as [B4 C4]. apply (keeps_from calm st3 st4 _ B4 C4). destruct c; [|apply keeps_refl_fail; reflexivity].
        apply (keeps_from calm st4 (yylex st4)); [reflexivity|reflexivity|apply NEXT2].
    + destruct (test g first (base_symbol g b) (ptok st2)).
      * apply keeps_next; [apply IHI|intros; apply NEXT2].
      * cbn. split; [reflexivity|]. split; [lia|]. intros q. destruct (q n LOUD).
  - assert (LOUD : loud n) by (apply (J n b ops); right; reflexivity).
    assert (NEXT1 : forall cc st, keeps calm st (run f cur cc (Operand n b ops) st)) by (intros; apply IH; intros ? ? ? [E|E]; [injection E as <- <- <-; exact LOUD|discriminate]).
    assert (NEXT2 : forall cc st, keeps calm st (run f cur cc (Operator n b ops) st)) by (intros; apply IH; intros ? ? ? [E|E]; [discriminate|injection E as <- <- <-; exact LOUD]).
    destruct (pick cond sel_post ops st) as [p st1] eqn:P1. destruct (pick_keeps _ _ _ _ _ P1) as [B1 C1]. destruct p.
    { apply (keeps_from calm st (yylex st1)); [exact B1|exact C1|apply NEXT2]. }
    destruct (pick cond sel_bin ops st1) as [q st2] eqn:P2. destruct (pick_keeps _ _ _ _ _ P2) as [B2 C2]. destruct q.
    { apply (keeps_from calm st (yylex st2)); [cbn; congruence|cbn; congruence|apply NEXT1]. }
    destruct (pick cond sel_tern ops st2) as [q st3] eqn:P3. destruct (pick_keeps _ _ _ _ _ P3) as [B3 C3]. destruct q; [exact I|].
    apply keeps_refl_done; congruence.
Qed.

(** ** Positions *)
Definition moves (st : pstate) (o : outcome) : Prop :=
  match o with Done st' | Fail st' => good tok st' /\ pidx st <= pidx st' | _ => True end.
Lemma moves_from a b o : pidx a <= pidx b -> moves b o -> moves a o.
Proof. intros L. destruct o; cbn; auto; intros [A B]; split; auto; lia. Qed.
Lemma moves_next st o k : moves st o -> (forall st', good tok st' -> moves st' (k st')) -> moves st (next_do o k).
Proof.
  intros A K. destruct o as [st1|st1| |]; cbn [next_do]; try exact A. destruct A as [A1 A2]. exact (moves_from st st1 _ A2 (K st1 A1)).
Qed.
Lemma moves_same st b o : same st b -> good tok st -> (good tok b -> moves b o) -> moves st o.
Proof. intros S1 G H. apply (moves_from st b); [destruct S1 as (-> & _); lia|]. apply H. exact (same_good tok _ _ S1 G). Qed.
Lemma moves_lex st o : (good tok (yylex st) -> moves (yylex st) o) -> moves st o.
Proof. intros H. apply (moves_from st (yylex st)); [cbn; lia|]. apply H. apply yylex_good. Qed.
Lemma moves_here st : good tok st -> moves st (Done st) /\ moves st (Fail st).
Proof. intros G. split; (split; [exact G|lia]). Qed.
Lemma report_moves c st st' : moves st (Fail st') -> moves st (Fail (report c st')).
Proof. unfold report. destruct (c || pblock st')%bool; auto. Qed.
Lemma skip_moves f : forall n st, good tok st -> moves st (skip g follow tok f n st).
Proof.
  induction f as [|f IH]; intros n st G; [exact I|]. cbn [skip].
  destruct (Nat.eqb (ptok st) (geof g) || (is_term g (ptok st) && follow n (ptok st)))%bool; [apply moves_here; exact G|].
  apply moves_lex. apply IH.
Qed.
Lemma run_moves f : forall cur cc j st, good tok st -> moves st (run f cur cc j st).
Proof.
  induction f as [|f IH]; intros cur cc j st G; [exact I|]. cbn [ParserModel.run].
  assert (CALLED : forall c o, moves st o -> moves st (called c o)).
  { intros c o. destruct o; cbn [called]; auto. apply report_moves. }
  assert (EOFC : forall s st, good tok st -> moves st (if mem s (gstart g) && negb (Nat.eqb (ptok st) (geof g)) then Fail st else Done st)).
  { intros s st0 G0. destruct (mem s (gstart g) && negb (Nat.eqb (ptok st0) (geof g)))%bool; apply moves_here; exact G0. }
  destruct j as [n|es|ns|n b ops|n b ops].
  - destruct (kind n) as [| | |s|s|i c a|i c a|ii|l r|l r|i s|t c|i|i|b ops x|] eqn:K; try exact I.
    + apply moves_here; exact G.
    + destruct (Nat.eqb (ptok st) n); [apply moves_lex; intros; apply moves_here; assumption|]. apply report_moves, moves_here; exact G.
    + apply CALLED, IH. exact G.
    + destruct (search_rule g s) as [e|]; [|exact I]. destruct (kind e) eqn:Ke; try exact I.
      destruct (guarded _ _ _ _ st) as [go st1] eqn:GE. destruct (guarded_same _ _ _ _ _ _ _ GE) as [S1 _].
      apply (moves_same st st1 _ S1 G). intros G1. destruct go; [|apply moves_here; exact G1].
      apply moves_next; [apply IH; exact G1|intros; apply EOFC; assumption].
    + apply moves_next; [apply IH; exact G|]. intros st1 G1. destruct (test g first n (ptok st1)); [apply IH; exact G1|apply moves_here; exact G1].
    + destruct (test g first n (ptok st)); [apply moves_next; [apply IH; exact G|intros; apply IH; assumption]|apply moves_here; exact G].
    + destruct ii as [i|]; [apply IH; exact G|apply moves_here; exact G].
    + destruct (flatten g f [l; r]); [|exact I]. apply IH; exact G.
    + apply moves_next; [apply IH; exact G|intros; apply IH; assumption].
    + destruct c as [c|].
      * pose proof (IH cur true (Item t) (block true st) G) as A. destruct (run f cur true (Item t) (block true st)) as [st1|st1| |]; try exact I.
        -- exact A.
        -- apply (moves_from st (rewind tok (pidx st - 1) (block (pblock st) st1))); [destruct G; cbn; lia|]. apply IH. apply yylex_good.
      * pose proof (IH cur true (Item t) st G) as A. destruct (run f cur true (Item t) st) as [st1|st1| |]; try exact A.
        destruct A as [A1 A2]. apply (moves_from st st1 _ A2).
        destruct (Nat.eqb (pidx st - 1) (pidx st1 - 1) && negb (Nat.eqb (ptok st1) (geof g)))%bool; [apply moves_lex; apply skip_moves|apply skip_moves; exact A1].
    + destruct (kind i) eqn:Ki; try exact I; apply IH; exact G.
    + apply IH; exact G.
    + apply IH; exact G.
  - destruct es as [|e es]; [apply moves_here; exact G|]. destruct (kind e) eqn:K; try (apply IH; exact G).
    destruct (guarded _ _ _ _ st) as [go st1] eqn:GE. destruct (guarded_same _ _ _ _ _ _ _ GE) as [S1 _].
    apply (moves_same st st1 _ S1 G). intros G1. destruct go; [apply moves_next; [apply IH; exact G1|intros; apply EOFC; assumption]|apply IH; exact G1].
  - destruct ns as [|m ns]; [apply moves_here; exact G|].
    destruct (guarded _ _ _ _ st) as [go st1] eqn:GE. destruct (guarded_same _ _ _ _ _ _ _ GE) as [S1 _].
    apply (moves_same st st1 _ S1 G). intros G1. destruct go; apply IH; exact G1.
  - destruct (pick cond sel_pre ops st) as [p st1] eqn:P1. destruct (pick_same _ _ _ _ _ _ P1) as [S1 _]. apply (moves_same st st1 _ S1 G). intros G1.
    destruct p; [apply moves_lex; apply IH|].
    destruct (pick cond sel_paren ops st1) as [q st2] eqn:P2. destruct (pick_same _ _ _ _ _ _ P2) as [S2 _]. apply (moves_same st1 st2 _ S2 G1). intros G2.
    destruct q as [u|].
    + apply moves_lex. intros G3. destruct (test g first cur (ptok (yylex st2))); [|apply moves_here; exact G3].
      apply moves_next.
      * pose proof (IH cur false (Rules (env g cur)) (yylex st2) G3) as A. destruct (run f cur false (Rules (env g cur)) (yylex st2)); cbn [called]; try exact A. apply report_moves. exact A.
      * intros st3 G4. destruct (Nat.eqb (ptok st3) u); [|apply moves_here; exact G4]. destruct (ask cond st3) as [c st4] eqn:AE.
        apply (moves_same st3 st4 _ (ask_same _ _ _ _ AE) G4). intros G5. destruct c; [apply moves_lex; apply IH|apply moves_here; exact G5].
    + destruct (test g first (base_symbol g b) (ptok st2)); [apply moves_next; [apply IH; exact G2|intros; apply IH; assumption]|].
      exact (proj2 (moves_here st2 G2)).
  - destruct (pick cond sel_post ops st) as [p st1] eqn:P1. destruct (pick_same _ _ _ _ _ _ P1) as [S1 _]. apply (moves_same st st1 _ S1 G). intros G1.
    destruct p; [apply moves_lex; apply IH|].
    destruct (pick cond sel_bin ops st1) as [q st2] eqn:P2. destruct (pick_same _ _ _ _ _ _ P2) as [S2 _]. apply (moves_same st1 st2 _ S2 G1). intros G2.
    destruct q; [apply moves_lex; apply IH|].
    destruct (pick cond sel_tern ops st2) as [q st3] eqn:P3. destruct (pick_same _ _ _ _ _ _ P3) as [S3 _]. apply (moves_same st2 st3 _ S3 G2). intros G3.
    destruct q; [exact I|apply moves_here; exact G3].
Qed.

(** ** try/rollback and try/recover *)
Lemma skip_spec f : forall n st st', skip g follow tok f n st = Done st' -> good tok st ->
  good tok st' /\ pidx st <= pidx st' /\
  (ptok st' = geof g \/ is_term g (ptok st') = true /\ follow n (ptok st') = true) /\
  (forall k, pidx st - 1 <= k -> k < pidx st' - 1 -> tok k <> geof g /\ ~ (is_term g (tok k) = true /\ follow n (tok k) = true)).
Proof.
  induction f as [|f IH]; intros n st st' E G; [discriminate|]. cbn [skip] in E. pose proof (proj1 G) as G1.
  destruct (Nat.eqb (ptok st) (geof g) || (is_term g (ptok st) && follow n (ptok st)))%bool eqn:T.
  - injection E as <-. split; [exact G|]. split; [lia|]. split; [|intros k A B; lia].
    apply orb_true_iff in T. destruct T as [T|T]; [left; apply Nat.eqb_eq; exact T|right; apply andb_true_iff; exact T].
  - destruct (IH n (yylex st) st' E (yylex_good tok st)) as (A & B & C & D). split; [exact A|]. cbn [pidx ParserModel.yylex] in B, D.
    split; [lia|]. split; [exact C|]. intros k L1 L2. apply orb_false_iff in T. destruct T as [T1 T2]. apply Nat.eqb_neq in T1.
    destruct (Nat.eq_dec k (pidx st - 1)) as [->|N].
    + destruct G as [_ <-]. split; [exact T1|]. intros [X Y]. rewrite X, Y in T2. discriminate.
    + apply D; lia.
Qed.
Lemma skip_ends n (w : list id) st : (forall k, length w <= k -> tok k = geof g) -> exists f st', skip g follow tok f n st = Done st' .
Proof.
  intros W. remember (length w + 2 - pidx st) as m eqn:M.
  revert st M. induction m as [|m IH]; intros st M.
  - exists 2. cbn [skip]. destruct (Nat.eqb (ptok st) (geof g) || (is_term g (ptok st) && follow n (ptok st)))%bool; [eauto|].
    assert (X : ptok (yylex st) = geof g) by (cbn; apply W; lia). rewrite X, Nat.eqb_refl. cbn [orb]. eauto.
  - destruct (IH (yylex st)) as (f & st' & E); [cbn; lia|].
    destruct (Nat.eqb (ptok st) (geof g) || (is_term g (ptok st) && follow n (ptok st)))%bool eqn:T.
    + exists 1. cbn [skip]. rewrite T. eauto.
    + exists (S f). cbn [skip]. rewrite T. eauto.
Qed.
Lemma skip_not_fail f : forall n st st', skip g follow tok f n st <> Fail st'.
Proof.
  induction f as [|f IH]; intros n st st'; cbn [skip]; [discriminate|].
  destruct (Nat.eqb (ptok st) (geof g) || (is_term g (ptok st) && follow n (ptok st)))%bool; [discriminate|apply IH].
Qed.

(** ** The end of a start symbol *)
Lemma ends_at_end f : forall cur cc es st st', run f cur cc (Rules es) st = Done st' -> (forall e, In e es -> rule_of g cur e = true) ->
  mem cur (gstart g) = true -> ptok st' = geof g.
Proof.
  induction f as [|f IH]; intros cur cc es st st' E R M; [discriminate|]. cbn [ParserModel.run] in E. destruct es as [|e es]; [discriminate|].
  assert (Re : rule_of g cur e = true) by (apply R; left; reflexivity).
  assert (R' : forall e, In e es -> rule_of g cur e = true) by (intros; apply R; right; assumption).
  unfold rule_of in Re. destruct (kind e) as [| | |?|?|? ? ?|? ? ?|?|? ?|? ?|i s|? ?|?|?|? ? ?|] eqn:K; try discriminate. apply Nat.eqb_eq in Re. subst s.
  destruct (guarded g cond (rule_test g first follow e i cur (ptok st)) i st) as [go st1] eqn:GE. destruct go; [|exact (IH _ _ _ _ _ E R' M)].
  destruct (run f cur cc (Item i) st1) as [st2| | |]; try discriminate. cbn [next_do] in E. rewrite M in E. cbn [andb] in E.
  destruct (Nat.eqb_spec (ptok st2) (geof g)) as [T|T]; [|discriminate]. cbn in E. injection E as <-. exact T.
Qed.
End G.

(** Words are made of declared tokens. *)
Lemma words_declared g : well_formed g = true -> forall n w, derives g n w -> inside g n = true -> forall y, In y w -> In y (gterms g).
Proof.
  intros WF n w D0.
  assert (UP : forall n m, inside g n = true -> kind g n <> NOther -> child g n m -> inside g m = true).
  { intros n0 m I KN C. unfold child in C.
    pose proof (shaped g WF n0 KN) as SH. unfold shape in SH. rewrite I in SH.
    assert (IN : forall m, below g m n0 = true -> inside g m = true) by (intros m' B; eapply below_inside; eassumption).
    destruct (kind g n0) as [| | |s|s|i c a|i c a|[i|]|l r|l r|i s|tt [c|]|i|i|bb ops x|] eqn:K; try (destruct C; fail); repeat rewrite andb_true_iff in SH;
      try (subst m; apply IN; apply SH); try (destruct C as [-> | ->]; apply IN; apply SH). }
  assert (SYM : forall n s, kind g n = NNon s \/ kind g n = NInl s -> inside g n = true -> inside g s = true).
  { intros n0 s K I. pose proof (shaped g WF n0) as SH. unfold shape in SH. rewrite I in SH. destruct K as [K|K]; rewrite K in SH; specialize (SH ltac:(discriminate));
      unfold is_sym in SH; apply andb_true_iff in SH; apply SH. }
  assert (OPS : forall n b ops x o, kind g n = NOper b ops x -> In o ops ->
    match o with OPre t | OPost t | OBin t => In t (gterms g) | OTern s t | OParen s t => In s (gterms g) /\ In t (gterms g) end).
  { intros n0 b ops x o K I. destruct (oper_shape g WF n0 b ops x K) as (_ & _ & CH). clear K. revert CH. generalize x at 2. intros y. revert y.
    induction ops as [|o' ops IH]; intros y CH; [destruct I|]. cbn [chain] in CH. apply andb_true_iff in CH. destruct CH as [_ CH].
    destruct (kind g y) as [| | |s|s|i c a|i c a|ii|l r|l r|i s|tt c|i|i|bb oo xx|]; try discriminate. repeat rewrite andb_true_iff in CH. destruct CH as [[_ SP] CH].
    destruct I as [<- | I]; [|eapply IH; eassumption]. apply spells_toks in SP.
    destruct o' as [u|u|u|u v|u v]; [apply (tok_in g WF); exact SP|apply (tok_in g WF); exact SP|apply (tok_in g WF); exact SP| |];
      (destruct SP as [S1 S2]; split; apply (tok_in g WF); assumption). }
  induction D0 as [n K|n K|s e i w Ks He Ke D IH|e i s w Ke D IH|n s w K D IH|n s w K D IH
    |n i c a w K D IH|n i c a u w K Du IHu Dw IHw|n i c a K|n i c a u w K Du IHu Dw IHw
    |n K|n i w K D IH|n l r w K D IH|n l r w K D IH|n l r u w K Du IHu Dw IHw
    |n tt c w K D IH|n tt c w K D IH|n i w K D IH|n i w K D IH
    |n b ops x w K D IH|n b ops x tk w K I D IH|n b ops x tk w K I D IH|n b ops x tk u w K I Du IHu Dw IHw
    |n b ops x s0 t0 u v w K I Du IHu Dv IHv Dw IHw|n b ops x s0 t0 w K I D IH]; intros IN y Hy.
  - destruct Hy.
  - destruct Hy as [<- | []]. pose proof (shaped g WF n) as SH. unfold shape in SH. rewrite IN, K in SH. apply mem_in. apply SH. discriminate.
  - apply IH; [|exact Hy]. apply (UP e); [apply (rule_kind g WF e He)|congruence|unfold child; rewrite Ke; reflexivity].
  - apply IH; [|exact Hy]. apply (UP e); [exact IN|congruence|unfold child; rewrite Ke; reflexivity].
  - apply IH; [|exact Hy]. exact (SYM n s (or_introl K) IN).
  - apply IH; [|exact Hy]. exact (SYM n s (or_intror K) IN).
  - apply IH; [|exact Hy]. apply (UP n); [exact IN|congruence|unfold child; rewrite K; reflexivity].
  - apply in_app_or in Hy. destruct Hy as [Hy|Hy]; [|apply IHw; assumption]. apply IHu; [|exact Hy]. apply (UP n); [exact IN|congruence|unfold child; rewrite K; reflexivity].
  - destruct Hy.
  - apply in_app_or in Hy. destruct Hy as [Hy|Hy]; [|apply IHw; assumption]. apply IHu; [|exact Hy]. apply (UP n); [exact IN|congruence|unfold child; rewrite K; reflexivity].
  - destruct Hy.
  - apply IH; [|exact Hy]. apply (UP n); [exact IN|congruence|unfold child; rewrite K; reflexivity].
  - apply IH; [|exact Hy]. apply (UP n); [exact IN|congruence|unfold child; rewrite K; auto].
  - apply IH; [|exact Hy]. apply (UP n); [exact IN|congruence|unfold child; rewrite K; auto].
  - apply in_app_or in Hy. destruct Hy as [Hy|Hy]; [apply IHu|apply IHw]; try exact Hy; (apply (UP n); [exact IN|congruence|unfold child; rewrite K; auto]).
  - apply IH; [|exact Hy]. apply (UP n); [exact IN|congruence|unfold child; rewrite K; destruct c; auto].
  - apply IH; [|exact Hy]. apply (UP n); [exact IN|congruence|unfold child; rewrite K; auto].
  - apply IH; [|exact Hy]. apply (UP n); [exact IN|congruence|unfold child; rewrite K; auto].
  - apply IH; [|exact Hy]. apply (UP n); [exact IN|congruence|unfold child; rewrite K; auto].
  - apply IH; [|exact Hy]. apply (UP n); [exact IN|congruence|unfold child; rewrite K; auto].
  - pose proof (OPS n b ops x _ K I) as O. destruct Hy as [<- | Hy]; [exact O|apply IH; assumption].
  - pose proof (OPS n b ops x _ K I) as O. apply in_app_or in Hy. destruct Hy as [Hy|[<- | []]]; [apply IH; assumption|exact O].
  - pose proof (OPS n b ops x _ K I) as O. apply in_app_or in Hy. destruct Hy as [Hy|[<- | Hy]]; [apply IHu; assumption|exact O|apply IHw; assumption].
  - pose proof (OPS n b ops x _ K I) as [O1 O2]. apply in_app_or in Hy. destruct Hy as [Hy|[<- | Hy]]; [apply IHu; assumption|exact O1|].
    apply in_app_or in Hy. destruct Hy as [Hy|[<- | Hy]]; [apply IHv; assumption|exact O2|apply IHw; assumption].
  - pose proof (OPS n b ops x _ K I) as [O1 O2]. destruct Hy as [<- | Hy]; [exact O1|]. apply in_app_or in Hy. destruct Hy as [Hy|[<- | []]]; [apply IH; assumption|exact O2].
Qed.
