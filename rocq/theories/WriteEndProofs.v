(** Where a section of lexer rules can end. *)
From Coq Require Import List Ascii String Bool PeanoNat Lia ZArith.
From Verif Require Import FlexModel FlexSpec FlexProofs ScanModel ScanSpec ScanProofs ScanCodeProofs ScanPlaceProofs ScanTextProofs ScanWordProofs WriteTokenProofs UnicodeNameProofs.
Import ListNotations.

(** The words that declarations start with. *)
Definition declares (t : token) : bool :=
  match t with
  | Chr _ => false
  | Tok n => existsb (String.eqb n)
      ["T_EXPORT_MACRO"; "T_EXPORT_MACRO_HEADER"; "T_TOKEN_DECLARATION"; "T_TOKEN_STREAM_DECLARATION"; "T_NAMESPACE_DECLARATION";
       "T_PARSERCLASS_DECLARATION"; "T_LEXERCLASS_DECLARATION"; "T_INPUT_STREAM"; "T_AST_DECLARATION"; "T_PARSER_DECLARATION_HEADER";
       "T_PARSER_BITS_HEADER"; "T_AST_HEADER"; "T_LEXER_DECLARATION_HEADER"; "T_LEXER_BITS_HEADER"; "T_INPUT_ENCODING"; "T_TABLE_LEXER";
       "T_SEQUENCE_LEXER"; "T_AST_BASE"; "T_PARSER_BASE"; "T_LEXER_BASE"; "T_LEXER"]%string
  end.
(** What ends without a semicolon. *)
Definition opens_code (t : token) : Prop := t = Tok "T_FAIL" \/ t = Tok "T_ENTER_RULE_SET" \/ t = Tok "T_LEAVE_RULE_SET".

(** What the rules of a start condition do. *)
Definition does (m : mode) (r : rule) (s : scanner) (o : outcome) : Prop :=
  match m, o with
  | RULE_LEXER, Go x => pos x = pos s /\ (smode x = RULE_LEXER \/ smode x = CODE)
  | RULE_LEXER, Give k _ x => declares k = false /\ k <> Tok "T_CODE" /\ (smode x = RULE_LEXER /\ pos x = pos s \/ smode x = INITIAL /\ pos x = RuleBody /\ k = Chr ";" /\ r = semi_rule)
  | RULE_LEXER, Reject _ => False
  | CODE, Go x => pos x = pos s /\ smode x = CODE
  | CODE, Give k _ x => k = Tok "T_CODE" /\ pos x = pos s /\ smode x = match pos s with RuleLexer => RULE_LEXER | _ => INITIAL end
  | CODE, Reject _ => False
  | INITIAL, Go x => pos x = pos s /\ (smode x = INITIAL \/ smode x = CODE \/ smode x = RULE_ARGUMENTS /\ pos s = RuleBody)
  | INITIAL, Give k _ x => ~ opens_code k /\ (k = Tok "T_LEXER" -> smode x = INITIAL /\ pos x = RuleLexer) /\ (k = Tok "T_STRING" -> smode x = INITIAL /\ pos x = pos s) /\
      (k = Tok "T_ARROW" -> pos s = RuleLexer -> smode x = RULE_LEXER /\ pos x = RuleLexer) /\ (smode x = RULE_LEXER -> pos x = RuleLexer)
  | INITIAL, Reject _ => False
  | _, Go x => smode x <> RULE_LEXER
  | _, Give k _ x => ~ opens_code k /\ k <> Tok "T_LEXER" /\ smode x <> RULE_LEXER
  | _, Reject x => smode x <> RULE_LEXER
  | _, _ => True
  end.
Ltac done_ := repeat match goal with |- _ /\ _ => split | |- ~ _ => intro | |- _ -> _ => intro end; unfold opens_code in *; try congruence; try tauto; try (intuition congruence).
Lemma act_does m r cfg s t : In r (rules m) -> smode s = m -> does m r s (act r cfg s t).
Proof.
  intros I M. destruct m; cbn [rules] in I.
  all: repeat (destruct I as [<- | I]); try contradiction I.
  all: cbv [act r0 skip nl nl_more more_of one word valued bracket start_code]; repeat match goal with |- context [if ?b then _ else _] => destruct b end;
    destruct s as [sm sp so scl scc syl sk ssh sof se smo sll sec]; cbn in M; subst sm; try destruct sp;
    cbv [does begin place opens code_starts newline yymore count_newlines smode pos open]; try exact Logic.I; done_.
  all: try (right; repeat split; reflexivity).
Qed.

(** The same for a step. *)
Definition sane (s : scanner) : Prop := smode s = RULE_LEXER -> pos s = RuleLexer.
Lemma does_unkept m r s o t : does m r (append_line t (unkept s)) o -> does m r s o.
Proof. destruct s. exact (fun H => H). Qed.
Lemma step_does cfg st s : s <> [] -> exists r, does (smode st) r st (match fst (step cfg st s) with Go x => Go x | o => o end) /\
  (r = semi_rule -> exists u, snd (step cfg st s) = ";"%char :: u) \/
  (exists x, fst (step cfg st s) = Go x /\ (smode x = smode st /\ pos x = pos st \/ smode x <> RULE_LEXER /\ smode st <> RULE_LEXER /\ smode st <> CODE /\ smode st <> INITIAL)).
Proof.
  intros NE. destruct (step_cases cfg st s NE) as [(r & n & h & B & I & H & A & LE & LG & D) | (_ & c & u & -> & E)].
  - exists r. cbv zeta in D. pose proof (act_does _ r cfg (append_line (kept st ++ firstn h s) (unkept st)) (kept st ++ firstn h s) I eq_refl) as F.
    apply does_unkept in F. destruct D as [(_ & E) | (x & c & u & Q & -> & E)]; rewrite E; cbn [fst snd].
    + left. split; [destruct (act r cfg _ _); exact F|]. intros ->. apply best_some in B. destruct B as (_ & M & _). exact (semi_rest _ _ _ M).
    + right. rewrite Q in F. eexists. split; [reflexivity|]. right.
      destruct (smode st) eqn:MS; cbn [does] in F; change (smode (append_line (kept st ++ firstn h (c :: u)) (unkept st))) with (smode st) in F; rewrite ?MS in F; lazymatch type of F with False => destruct F | _ => idtac end; (split; [exact F|split; [|split]; discriminate]).
  - exists no_rule. right. rewrite E. eexists. split; [reflexivity|]. left. split; reflexivity.
Qed.
Lemma tokens_also x r y l : tokens_of (also x r) = y :: l -> x = y /\ tokens_of r = l.
Proof. destruct r; cbn; intros H; inversion H; auto. Qed.
(** How the first token of a text comes about. *)
Lemma scan_first f cfg st s x l : tokens_of (scan f cfg st s) = x :: l -> s <> [] /\ exists f', f = S f' /\
  ((exists st' u, step cfg st s = (Go st', u) /\ tokens_of (scan f' cfg st' u) = x :: l) \/
   (exists st' u, step cfg st s = (Give (ltok x) (lval x) st', u) /\ tokens_of (scan f' cfg st' u) = l)).
Proof.
  destruct f as [|f]; [discriminate|]. cbn [scan]. destruct s as [|c u]; [unfold at_end; destruct (smode st); discriminate|]. intros H. split; [discriminate|]. exists f. split; [reflexivity|].
  destruct (step cfg st (c :: u)) as [[y | k v y | y | y |] rest]; try discriminate H.
  - left. eauto.
  - right. apply tokens_also in H. destruct H as (<- & <-). eexists _, _. split; reflexivity.
Qed.
(** Steps in each of the start conditions that matter. *)
Lemma lexer_step cfg st s : s <> [] -> smode st = RULE_LEXER ->
  match step cfg st s with
  | (Go x, _) => pos x = pos st /\ (smode x = RULE_LEXER \/ smode x = CODE)
  | (Give k _ x, u) => declares k = false /\ k <> Tok "T_CODE" /\ (smode x = RULE_LEXER /\ pos x = pos st \/ smode x = INITIAL /\ k = Chr ";" /\ exists w, u = ";"%char :: w)
  | (Reject _, _) => False
  | _ => True
  end.
Proof.
  intros NE M. destruct (step_does cfg st s NE) as (r & [(D & SR) | (x & E & D)]); rewrite M in D; destruct (step cfg st s) as [o u]; cbn [fst snd] in *.
  - destruct o; cbn [does] in D; auto. destruct D as (A & B & [C|(C & _ & C' & C'')]); [auto|]. split; [exact A|]. split; [exact B|]. right. auto.
  - subst o. destruct D as [(D1 & D2) | (_ & D & _)]; [|congruence]. auto.
Qed.
Lemma code_step cfg st s : s <> [] -> smode st = CODE ->
  match step cfg st s with
  | (Go x, _) => pos x = pos st /\ smode x = CODE
  | (Give k _ x, u) => k = Tok "T_CODE" /\ pos x = pos st /\ smode x = match pos st with RuleLexer => RULE_LEXER | _ => INITIAL end
  | (Reject _, _) => False
  | _ => True
  end.
Proof.
  intros NE M. destruct (step_does cfg st s NE) as (r & [(D & SR) | (x & E & D)]); rewrite M in D; destruct (step cfg st s) as [o u]; cbn [fst snd] in *.
  - destruct o; cbn [does] in D; auto.
  - subst o. destruct D as [(D1 & D2) | (_ & _ & D & _)]; [|congruence]. auto.
Qed.
Lemma initial_step cfg st s : s <> [] -> smode st = INITIAL ->
  match step cfg st s with
  | (Go x, _) => pos x = pos st /\ (smode x = INITIAL \/ smode x = CODE \/ smode x = RULE_ARGUMENTS /\ pos st = RuleBody)
  | (Give k _ x, _) => ~ opens_code k /\ (k = Tok "T_LEXER" -> smode x = INITIAL /\ pos x = RuleLexer) /\ (k = Tok "T_STRING" -> smode x = INITIAL /\ pos x = pos st) /\
      (k = Tok "T_ARROW" -> pos st = RuleLexer -> smode x = RULE_LEXER /\ pos x = RuleLexer) /\ (smode x = RULE_LEXER -> pos x = RuleLexer)
  | (Reject _, _) => False
  | _ => True
  end.
Proof.
  intros NE M. destruct (step_does cfg st s NE) as (r & [(D & SR) | (x & E & D)]); rewrite M in D; destruct (step cfg st s) as [o u]; cbn [fst snd] in *.
  - destruct o; cbn [does] in D; auto.
  - subst o. destruct D as [(D1 & D2) | (_ & _ & _ & D)]; [|congruence]. auto.
Qed.
Lemma other_step cfg st s : s <> [] -> smode st <> INITIAL -> smode st <> RULE_LEXER -> smode st <> CODE ->
  match step cfg st s with
  | (Go x, _) => smode x <> RULE_LEXER
  | (Give k _ x, _) => ~ opens_code k /\ k <> Tok "T_LEXER" /\ smode x <> RULE_LEXER
  | _ => True
  end.
Proof.
  intros NE M1 M2 M3. destruct (step_does cfg st s NE) as (r & [(D & SR) | (x & E & D)]); destruct (step cfg st s) as [o u]; cbn [fst snd] in *.
  - destruct (smode st) eqn:MS; try congruence; destruct o; cbn [does] in D; auto.
  - subst o. destruct D as [(D1 & D2) | (D & _)]; congruence.
Qed.
(** A semicolon in front is the next token. *)
Lemma semicolons u : exists n v, u = repeat ";"%char n ++ v /\ over (chars ";") v.
Proof.
  induction u as [|c u (n & v & -> & O)]; [exists 0, []; split; [reflexivity|exact I]|].
  destruct (ascii_dec c ";") as [-> |N]; [exists (S n), v; auto|]. exists 0, (c :: repeat ";"%char n ++ v). split; [reflexivity|]. intros [E|[]]. congruence.
Qed.
Lemma semicolon_next cfg st u : smode st = INITIAL -> exists v st' w, step cfg st (";"%char :: u) = (Give (Chr ";") v st', w).
Proof.
  intros M. destruct (semicolons u) as (n & v & -> & O).
  assert (B : best (rules (smode st)) (";"%char :: repeat ";"%char n ++ v) = Some (nth 3 (rules INITIAL) no_rule, S n, S n)).
  { rewrite M. rewrite (best_nth INITIAL ";"%char _ [3; 64]) by (vm_compute; reflexivity). cbn [map best].
    rewrite m_dot by discriminate. rewrite m_plain by reflexivity.
    change (pat (nth 3 (rules INITIAL) no_rule)) with (plus (chr ";")).
    change (";"%char :: repeat ";"%char n ++ v) with (repeat ";"%char (S n) ++ v). rewrite longest_plus_run by exact O. reflexivity. }
  rewrite (step_best cfg _ _ _ _ _ B). eexists _, _, _. reflexivity.
Qed.

(** No declaration follows a single semicolon. *)
Lemma inside_no_declaration cfg f : forall st s x l, smode st = RULE_LEXER \/ smode st = CODE -> tokens_of (scan f cfg st s) = x :: l -> declares (ltok x) = false.
Proof.
  induction f as [|f IH]; intros st s x l M H; [discriminate H|]. destruct (scan_first _ _ _ _ _ _ H) as (NE & f' & E & D). injection E as <-. clear H.
  destruct M as [M|M].
  - pose proof (lexer_step cfg st s NE M) as L. destruct D as [(st' & u & E & H) | (st' & u & E & _)]; rewrite E in L.
    + destruct L as (_ & L). exact (IH _ _ _ _ L H).
    + exact (proj1 L).
  - pose proof (code_step cfg st s NE M) as L. destruct D as [(st' & u & E & H) | (st' & u & E & _)]; rewrite E in L.
    + destruct L as (_ & L). exact (IH _ _ _ _ (or_intror L) H).
    + destruct L as (-> & _). reflexivity.
Qed.
Lemma code_first cfg f : forall st s x l, smode st = CODE -> tokens_of (scan f cfg st s) = x :: l ->
  ltok x = Tok "T_CODE" /\ exists f' st' u, tokens_of (scan f' cfg st' u) = l /\ smode st' = match pos st with RuleLexer => RULE_LEXER | _ => INITIAL end.
Proof.
  induction f as [|f IH]; intros st s x l M H; [discriminate H|]. destruct (scan_first _ _ _ _ _ _ H) as (NE & f' & E & D). injection E as <-. clear H.
  pose proof (code_step cfg st s NE M) as L. destruct D as [(st' & u & E & H) | (st' & u & E & H)]; rewrite E in L.
  - destruct L as (P & L). rewrite <- P. exact (IH _ _ _ _ L H).
  - destruct L as (K & _ & L). split; [exact K|]. eauto.
Qed.
Lemma semicolon_no_declaration cfg f : forall st s x y l, smode st = RULE_LEXER -> tokens_of (scan f cfg st s) = x :: y :: l -> ltok x = Chr ";" -> declares (ltok y) = false.
Proof.
  induction f as [|f IH]; intros st s x y l M H X; [discriminate H|]. destruct (scan_first _ _ _ _ _ _ H) as (NE & f' & E & D). injection E as <-. clear H.
  pose proof (lexer_step cfg st s NE M) as L. destruct D as [(st' & u & E & H) | (st' & u & E & H)]; rewrite E in L.
  - destruct L as (_ & [L|L]); [exact (IH _ _ _ _ _ L H X)|]. destruct (code_first _ _ _ _ _ _ L H) as (K & _). congruence.
  - destruct L as (_ & _ & [(L & _) | (L & _ & w & ->)]).
    + exact (inside_no_declaration _ _ _ _ _ _ (or_introl L) H).
    + destruct (scan_first _ _ _ _ _ _ H) as (_ & f'' & _ & D). destruct (semicolon_next cfg st' w L) as (v & s2 & w2 & Q). rewrite Q in D.
      destruct D as [(a & b & E' & _) | (a & b & E' & _)]; [discriminate E'|]. injection E' as <- _ _ _. reflexivity.
Qed.
Lemma lexer_code cfg f : forall st s x y z l, smode st = RULE_LEXER -> pos st = RuleLexer -> tokens_of (scan f cfg st s) = x :: y :: z :: l -> ltok x = Tok "T_CODE" -> ltok y = Chr ";" -> declares (ltok z) = false.
Proof.
  induction f as [|f IH]; intros st s x y z l M P H X Y; [discriminate H|]. destruct (scan_first _ _ _ _ _ _ H) as (NE & f' & E & D). injection E as <-. clear H.
  pose proof (lexer_step cfg st s NE M) as L. destruct D as [(st' & u & E & H) | (st' & u & E & H)]; rewrite E in L.
  - destruct L as (Q & [L|L]); [exact (IH _ _ _ _ _ _ L (eq_trans Q P) H X Y)|]. destruct (code_first _ _ _ _ _ _ L H) as (_ & f2 & st2 & u2 & H2 & M2). rewrite Q, P in M2.
    exact (semicolon_no_declaration _ _ _ _ _ _ _ M2 H2 Y).
  - destruct L as (_ & N & _). congruence.
Qed.
(** Sections without rules. *)
Lemma arrow_section cfg f : forall st s x y z l, smode st = INITIAL -> pos st = RuleLexer -> tokens_of (scan f cfg st s) = x :: y :: z :: l -> ltok x = Tok "T_ARROW" -> ltok y = Chr ";" -> declares (ltok z) = false.
Proof.
  induction f as [|f IH]; intros st s x y z l M P H X Y; [discriminate H|]. destruct (scan_first _ _ _ _ _ _ H) as (NE & f' & E & D). injection E as <-. clear H.
  pose proof (initial_step cfg st s NE M) as L. destruct D as [(st' & u & E & H) | (st' & u & E & H)]; rewrite E in L.
  - destruct L as (Q & [L|[L|(_ & L)]]); [exact (IH _ _ _ _ _ _ L (eq_trans Q P) H X Y)| |congruence]. destruct (code_first _ _ _ _ _ _ L H) as (K & _). congruence.
  - destruct L as (_ & _ & _ & L & _). destruct (L X P) as (L1 & L2). exact (semicolon_no_declaration _ _ _ _ _ _ _ L1 H Y).
Qed.
Lemma string_section cfg f : forall st s w x y z l, smode st = INITIAL -> pos st = RuleLexer -> tokens_of (scan f cfg st s) = w :: x :: y :: z :: l -> ltok w = Tok "T_STRING" -> ltok x = Tok "T_ARROW" -> ltok y = Chr ";" -> declares (ltok z) = false.
Proof.
  induction f as [|f IH]; intros st s w x y z l M P H W X Y; [discriminate H|]. destruct (scan_first _ _ _ _ _ _ H) as (NE & f' & E & D). injection E as <-. clear H.
  pose proof (initial_step cfg st s NE M) as L. destruct D as [(st' & u & E & H) | (st' & u & E & H)]; rewrite E in L.
  - destruct L as (Q & [L|[L|(_ & L)]]); [exact (IH _ _ _ _ _ _ _ L (eq_trans Q P) H W X Y)| |congruence]. destruct (code_first _ _ _ _ _ _ L H) as (K & _). congruence.
  - destruct L as (_ & _ & L & _). destruct (L W) as (L1 & L2). exact (arrow_section _ _ _ _ _ _ _ _ L1 (eq_trans L2 P) H X Y).
Qed.
(** A token and what the state is then. *)
Lemma scan_at f cfg : forall st s a x l, sane st -> tokens_of (scan f cfg st s) = a ++ x :: l ->
  exists f' st' s' st2 u, sane st' /\ s' <> [] /\ step cfg st' s' = (Give (ltok x) (lval x) st2, u) /\ tokens_of (scan f' cfg st2 u) = l.
Proof.
  assert (S1 : forall st s, s <> [] -> sane st -> match step cfg st s with (Go x, _) => sane x | (Give _ _ x, _) => sane x | _ => True end).
  { intros st s NE SN. destruct (smode st) eqn:M.
    - pose proof (initial_step cfg st s NE M) as L. destruct (step cfg st s) as [[] u]; auto.
      + intros Q. destruct L as (_ & [L|[L|(L & _)]]); congruence.
      + destruct L as (_ & _ & _ & _ & L). exact L.
    - pose proof (code_step cfg st s NE M) as L. destruct (step cfg st s) as [[] u]; auto.
      + intros Q. destruct L as (_ & L). congruence.
      + destruct L as (_ & L1 & L2). intros Q. rewrite L1. rewrite Q in L2. destruct (pos st); congruence.
    - pose proof (other_step cfg st s NE) as L. rewrite M in L. specialize (L ltac:(discriminate) ltac:(discriminate) ltac:(discriminate)). destruct (step cfg st s) as [[] u]; auto; intros Q; tauto.
    - pose proof (other_step cfg st s NE) as L. rewrite M in L. specialize (L ltac:(discriminate) ltac:(discriminate) ltac:(discriminate)). destruct (step cfg st s) as [[] u]; auto; intros Q; tauto.
    - pose proof (other_step cfg st s NE) as L. rewrite M in L. specialize (L ltac:(discriminate) ltac:(discriminate) ltac:(discriminate)). destruct (step cfg st s) as [[] u]; auto; intros Q; tauto.
    - pose proof (other_step cfg st s NE) as L. rewrite M in L. specialize (L ltac:(discriminate) ltac:(discriminate) ltac:(discriminate)). destruct (step cfg st s) as [[] u]; auto; intros Q; tauto.
    - pose proof (lexer_step cfg st s NE M) as L. destruct (step cfg st s) as [[] u]; auto.
      + destruct L as (L & _). intros _. rewrite L. exact (SN M).
      + destruct L as (_ & _ & [(_ & L)|(L & _)]); intros Q; [rewrite L; exact (SN M)|congruence]. }
  induction f as [|f IH]; intros st s a x l SN H; [destruct a; discriminate H|].
  destruct a as [|y a].
  - cbn [app] in H. destruct (scan_first _ _ _ _ _ _ H) as (NE & f' & E & D). injection E as <-. specialize (S1 st s NE SN).
    destruct D as [(st' & u & E & D) | (st' & u & E & D)]; rewrite E in S1; [exact (IH st' u [] x l S1 D)|]. exists f, st, s, st', u. auto.
  - cbn [app] in H. destruct (scan_first _ _ _ _ _ _ H) as (NE & f' & E & D). injection E as <-. specialize (S1 st s NE SN).
    destruct D as [(st' & u & E & D) | (st' & u & E & D)]; rewrite E in S1; [exact (IH st' u (y :: a) x l S1 D)|exact (IH st' u a x l S1 D)].
Qed.
Lemma no_section f cfg st s a w x y z l : sane st -> tokens_of (scan f cfg st s) = a ++ w :: x :: y :: z :: l -> opens_code (ltok w) -> ltok x = Tok "T_CODE" -> ltok y = Chr ";" -> declares (ltok z) = false.
Proof.
  intros SN H W X Y. destruct (scan_at f cfg st s a w _ SN H) as (f' & st' & s' & st2 & u & SN' & NE & E & H').
  destruct (smode st') eqn:M.
  1:{ pose proof (initial_step cfg st' s' NE M) as L. rewrite E in L. destruct L as (L & _). contradiction. }
  1:{ pose proof (code_step cfg st' s' NE M) as L. rewrite E in L. destruct L as (L & _). rewrite L in W. destruct W as [W|[W|W]]; discriminate W. }
  5:{ pose proof (lexer_step cfg st' s' NE M) as L. rewrite E in L. destruct L as (_ & _ & [(L1 & L2) | (_ & L & _)]).
      - rewrite (SN' M) in L2. exact (lexer_code _ _ _ _ _ _ _ _ L1 L2 H' X Y).
      - rewrite L in W. destruct W as [W|[W|W]]; discriminate W. }
  all: pose proof (other_step cfg st' s' NE) as L; rewrite M, E in L; specialize (L ltac:(discriminate) ltac:(discriminate) ltac:(discriminate)); destruct L as (L & _); contradiction.
Qed.
Lemma no_empty_section f cfg st s a w b x y z l : sane st -> tokens_of (scan f cfg st s) = a ++ w :: b ++ x :: y :: z :: l -> ltok w = Tok "T_LEXER" -> (b = [] \/ exists v, b = [v] /\ ltok v = Tok "T_STRING") -> ltok x = Tok "T_ARROW" -> ltok y = Chr ";" -> declares (ltok z) = false.
Proof.
  intros SN H W B X Y. destruct (scan_at f cfg st s a w _ SN H) as (f' & st' & s' & st2 & u & SN' & NE & E & H').
  destruct (smode st') eqn:M.
  1:{ pose proof (initial_step cfg st' s' NE M) as L. rewrite E in L. destruct L as (_ & L & _). destruct (L W) as (L1 & L2).
      destruct B as [-> | (v & -> & V)]; cbn [app] in H'; [exact (arrow_section _ _ _ _ _ _ _ _ L1 L2 H' X Y)|exact (string_section _ _ _ _ _ _ _ _ _ L1 L2 H' V X Y)]. }
  1:{ pose proof (code_step cfg st' s' NE M) as L. rewrite E in L. destruct L as (L & _). rewrite L in W. discriminate W. }
  5:{ pose proof (lexer_step cfg st' s' NE M) as L. rewrite E in L. destruct L as (L & _). rewrite W in L. discriminate L. }
  all: pose proof (other_step cfg st' s' NE) as L; rewrite M, E in L; specialize (L ltac:(discriminate) ltac:(discriminate) ltac:(discriminate)); destruct L as (_ & L & _); contradiction.
Qed.
