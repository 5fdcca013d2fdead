(** What is proved about the scanner of grammar files. *)
From Coq Require Import List Ascii String Bool PeanoNat ZArith Lia.
From Verif Require Import FlexModel FlexSpec FlexProofs ScanModel ScanSpec ScanProofs ScanPlaceProofs
  ScanCodeProofs ScanTextProofs ScanWordProofs.
Import ListNotations.

Definition plain_cfg : config := Config BeautifulCode (chars "x.g").
Definition full_cfg : config := Config FullLineNumbers (chars "x.g").
Lemma gives cfg st s t v n st1 s1 l st' s' :
  s <> [] -> step cfg st s = (Give t v st1, s1) -> n = yyline st1 -> reads cfg st1 s1 l st' s' ->
  reads cfg st s (Lexeme t v n :: l) st' s'.
Proof. intros A B -> C. eapply rd_give; eassumption. Qed.
Ltac one_step := first [eapply gives; [discriminate | vm_compute; reflexivity | vm_compute; reflexivity |]
                       | eapply rd_go; [discriminate | vm_compute; reflexivity |]].
Ltac run := repeat one_step.

Ltac not_there := let J := fresh in intro J; vm_compute in J; repeat (destruct J as [J | J]; [discriminate J |]); exact J.

(** No part of a known text is as said. *)
Ltac no_split := intros a b E; exfalso; repeat (destruct a as [| ? a]; [discriminate E | cbn in E; first [discriminate E | injection E as _ E]]).

(** ** C79: code blocks *)
(** The text between `[:` and `:]` becomes one token, unchanged up to the first NUL. *)
Theorem C79_code_block : forall cfg st body rest,
  smode st = INITIAL \/ smode st = RULE_LEXER -> lines cfg = BeautifulCode -> code_body body ->
  exists st', reads cfg st (OPEN ++ body ++ CLOSE ++ rest)
      [Lexeme (Tok "T_CODE") (cstr body) (yyline st')] st' rest /\
    smode st' = (match pos st with RuleLexer => RULE_LEXER | _ => INITIAL end) /\
    kept st' = [] /\ pos st' = pos st /\ yyline st' = yyline st + newlines body /\ echoed st' = echoed st.
Proof.
  intros cfg st body rest M B CB. destruct (block_run cfg st body rest M CB) as (st' & v & R & -> & H).
  exists st'. split; [| exact H]. unfold copy_code in R. rewrite B in R. exact R.
Qed.
Print Assumptions C79_code_block.

(** A block that no `:]` ends is an error, whatever else is in it. *)
Theorem C79_unclosed_block : forall cfg st t,
  smode st = INITIAL \/ smode st = RULE_LEXER -> never_closed t ->
  exists l c, scan_from cfg st (OPEN ++ t) = LexError [] l c.
Proof. exact block_unclosed. Qed.
Print Assumptions C79_unclosed_block.

Example C79_example_body : code_body (chars " x[a::b] = y; // ") /\
  scan_file plain_cfg (chars "[: x[a::b] = y; // :] a") =
  Scanned [Lexeme (Tok "T_CODE") (chars " x[a::b] = y; // ") 1; Lexeme (Tok "T_IDENTIFIER") (chars "a") 1]
    (Scanner INITIAL RuleBody 0 1 2 1 [] (chars "[: x[a::b] = y; // :] a") 22 false false 1 []).
Proof.
  split; [| vm_compute; reflexivity]. split.
  - intros (u & E). apply (f_equal (@rev ascii)) in E. rewrite rev_app_distr in E. vm_compute in E. discriminate E.
  - no_split.
Qed.

(** It is not so that the first `:]` ends a block: not after a colon. *)
Theorem C79_first_close_refuted :
  ~ (forall cfg a b, lines cfg = BeautifulCode -> (forall u v, a <> u ++ CLOSE ++ v) -> ~ In NUL a ->
       exists st', reads cfg start (OPEN ++ a ++ CLOSE ++ b) [Lexeme (Tok "T_CODE") a (yyline st')] st' b).
Proof.
  intro H. specialize (H plain_cfg (chars " A:") [] eq_refl). destruct H as (st' & R).
  - no_split.
  - not_there.
  - apply reads_scan in R. rewrite scan_from_nil in R.
    assert (X : scan_from plain_cfg start (OPEN ++ chars " A:" ++ CLOSE ++ []) = LexError [] 1 6) by (vm_compute; reflexivity).
    rewrite X in R. cbn [after] in R. unfold at_end in R. destruct (smode st'); discriminate R.
Qed.
Print Assumptions C79_first_close_refuted.

(** ** C80: where the compiler looks for code *)
(** With line directives, every character of a block is given the line and the column it
    has in the grammar file. *)
Theorem C80_code_positions : forall cfg p body rest l st,
  let file := p ++ OPEN ++ body ++ CLOSE ++ rest in
  reads cfg start file l st (OPEN ++ body ++ CLOSE ++ rest) ->
  smode st = INITIAL -> echoed st = [] -> code_body body -> lines cfg <> BeautifulCode ->
  ~ In NUL file -> no_lone_cr file -> no_lexer file ->
  exists st' v n pad,
    reads cfg st (OPEN ++ body ++ CLOSE ++ rest) [Lexeme (Tok "T_CODE") v (yyline st')] st' rest /\
    v = [LF] ++ directive cfg n ++ [LF] ++ pad ++ body /\
    forall a b, body = a ++ b -> directed n (pad ++ a) = place_after (p ++ OPEN ++ a).
Proof.
  intros cfg p body rest l st file R M EC CB B NN NC NL.
  destruct (block_run cfg st body rest (or_introl M) CB) as (st' & v & R' & -> & _).
  rewrite (reads_line cfg p _ l st R NC), (reads_column cfg p _ l st R EC NL NN) in R'.
  rewrite block_value in R'; [| exact B | intro J; apply NN; unfold file; do 2 (apply in_or_app; right); apply in_or_app; left; exact J].
  exists st'. eexists. exists (1 + newlines p), (repeat SP (List.length (last_line p) + 2)).
  split; [exact R' |]. split; [reflexivity |]. intros a b _. apply block_places.
Qed.
Print Assumptions C80_code_positions.

(** Lines are right also in grammars with lexer rules. *)
Theorem C80_code_lines : forall cfg p body rest l st,
  let file := p ++ OPEN ++ body ++ CLOSE ++ rest in
  reads cfg start file l st (OPEN ++ body ++ CLOSE ++ rest) ->
  smode st = INITIAL \/ smode st = RULE_LEXER -> code_body body -> lines cfg <> BeautifulCode ->
  ~ In NUL body -> no_lone_cr file ->
  exists st' v pad,
    reads cfg st (OPEN ++ body ++ CLOSE ++ rest) [Lexeme (Tok "T_CODE") v (yyline st')] st' rest /\
    v = [LF] ++ directive cfg (1 + newlines p) ++ [LF] ++ pad ++ body /\ (forall c, In c pad -> c = SP).
Proof.
  intros cfg p body rest l st file R M CB B NN NC.
  destruct (block_run cfg st body rest M CB) as (st' & v & R' & -> & _).
  rewrite (reads_line cfg p _ l st R NC) in R'. rewrite block_value in R' by assumption.
  exists st'. eexists. eexists. split; [exact R' |]. split; [reflexivity |]. intros c J. apply repeat_spec in J. exact J.
Qed.
Print Assumptions C80_code_lines.

Definition example_file : text := chars "-- two lines" ++ [LF] ++ chars "  [: int x;" ++ [LF] ++ chars "y :] ;".
Example C80_example :
  scan_file full_cfg example_file =
  Scanned [Lexeme (Tok "T_CODE") ([LF] ++ chars "# 2 " ++ [QUOTE] ++ chars "x.g" ++ [QUOTE] ++ chars " 1" ++ [LF] ++
             chars "     int x;" ++ [LF] ++ chars "y ") 3; Lexeme (Chr ";") [] 3]
    (Scanner INITIAL RuleBody 0 2 4 3 [] (chars "y :] ;") 5 false false 1 []) /\
  no_lone_cr example_file /\ no_lexer example_file /\ ~ In NUL example_file.
Proof.
  split; [vm_compute; reflexivity |]. repeat split.
  - intros a b E. exfalso. assert (J : In CR example_file) by (rewrite E; apply in_elt).
    revert J; not_there.
  - intros a b E. assert (J : In "%"%char example_file) by (rewrite E; apply in_or_app; right; left; reflexivity).
    revert J; not_there.
  - not_there.
Qed.


(** ** C81: the lines of tokens *)
(** A token given when [p] has been read is reported for the line [p] ends in. *)
Theorem C81_token_lines : forall cfg p rest x,
  no_lone_cr (p ++ rest) -> given cfg p rest x -> lline x = 1 + newlines p.
Proof.
  intros cfg p rest x NC (l & st & s & st' & R & NE & ST & ->).
  assert (R' : reads cfg start (p ++ rest) (l ++ [Lexeme (ltok x) (lval x) (yyline st')]) st' rest).
  { eapply reads_app; [exact R |]. eapply rd_give; [exact NE | exact ST | apply rd_none]. }
  exact (reads_line cfg p rest _ st' R' NC).
Qed.
Print Assumptions C81_token_lines.

Example C81_example :
  given plain_cfg (chars "a [: x" ++ [CR; LF] ++ chars " :]" ++ [LF] ++ chars "b") (chars " ;") (Lexeme (Tok "T_IDENTIFIER") (chars "b") 3).
Proof.
  do 4 eexists. split; [do 8 one_step; apply rd_none |]. split; [discriminate |]. split; vm_compute; reflexivity.
Qed.

(** With CR alone as the end of a line the lines are wrong after lexer rules. *)
Theorem C81_lone_cr_refuted :
  ~ (forall cfg p rest x, given cfg p rest x -> lline x = 1 + newlines p).
Proof.
  intro H. specialize (H plain_cfg (chars "%lexer -> ;" ++ [CR] ++ chars ";a") (chars ";") (Lexeme (Tok "T_IDENTIFIER") (chars "a") 1)).
  cbn [lline] in H. assert (G : 1 = 2); [| discriminate G]. apply H.
  do 4 eexists. split; [do 6 one_step; apply rd_none |]. split; [discriminate |]. split; vm_compute; reflexivity.
Qed.
Print Assumptions C81_lone_cr_refuted.

(** ** C82: arguments of rules *)
(** Arguments without brackets (but in strings) become one token, unchanged. *)
Theorem C82_arguments : forall cfg st body rest,
  smode st = INITIAL -> pos st = RuleBody -> lines cfg = BeautifulCode ->
  plain_arguments body -> (forall u, body <> COLON :: u) ->
  exists st', reads cfg st ("["%char :: body ++ "]"%char :: rest)
      [Lexeme (Tok "T_RULE_ARGUMENTS") (cstr body) (yyline st')] st' rest /\
    smode st' = INITIAL /\ kept st' = [] /\ pos st' = RuleBody /\ yyline st' = yyline st + newlines body /\
    echoed st' = echoed st.
Proof.
  intros cfg st body rest M Po B P N. destruct (args_run cfg st body rest M Po P N) as (st' & v & R & -> & H).
  exists st'. split; [| exact H]. unfold copy_code in R. rewrite B in R. exact R.
Qed.
Print Assumptions C82_arguments.

Example C82_example : plain_arguments (chars "x, " ++ [QUOTE] ++ chars "a]" ++ [QUOTE] ++ chars ", y") /\
  scan_file plain_cfg (chars "b[x, " ++ [QUOTE] ++ chars "a]" ++ [QUOTE] ++ chars ", y]") =
  Scanned [Lexeme (Tok "T_IDENTIFIER") (chars "b") 1;
           Lexeme (Tok "T_RULE_ARGUMENTS") (chars "x, " ++ [QUOTE] ++ chars "a]" ++ [QUOTE] ++ chars ", y") 1]
    (Scanner INITIAL RuleBody (-1) 1 0 1 [] (chars "b[x, " ++ [QUOTE] ++ chars "a]" ++ [QUOTE] ++ chars ", y]") 12 false false 11 []).
Proof.
  split; [| vm_compute; reflexivity].
  do 3 (apply pa_char; [not_there |]). apply (pa_string (chars "a]")).
  - intros c [<- | [<- | []]]; not_there.
  - do 3 (apply pa_char; [not_there |]). apply pa_nil.
Qed.

(** Arguments with brackets lose everything up to the last inner `]`. *)
Theorem C82_nested_brackets_refuted :
  exists st', reads plain_cfg start (chars "b[a[i], 3]")
    [Lexeme (Tok "T_IDENTIFIER") (chars "b") 1; Lexeme (Tok "T_RULE_ARGUMENTS") (chars ", 3") 1] st' [] .
Proof. eexists. run. apply rd_none. Qed.
Print Assumptions C82_nested_brackets_refuted.

(** With line directives, the column of the arguments is that of the last code block. *)
Theorem C82_argument_columns_refuted :
  exists p body pad st',
    reads full_cfg start (p ++ chars "[" ++ body ++ chars "]")
      [Lexeme (Tok "T_IDENTIFIER") p 1;
       Lexeme (Tok "T_RULE_ARGUMENTS") ([LF] ++ directive full_cfg 1 ++ [LF] ++ pad ++ body) 1] st' [] /\
    plain_arguments body /\ directed 1 pad <> place_after (p ++ chars "[").
Proof.
  exists (chars "b"), (chars "x"), []. eexists. split; [run; apply rd_none |]. split; [| discriminate].
  apply pa_char; [not_there | apply pa_nil].
Qed.
Print Assumptions C82_argument_columns_refuted.

(** ** C83: strings *)
Theorem C83_string : forall cfg st w s,
  smode st = INITIAL \/ smode st = RULE_LEXER -> kept st = [] -> string_body w ->
  exists st', reads cfg st (QUOTE :: w ++ QUOTE :: s) [Lexeme (Tok "T_STRING") (cstr w) (yyline st)] st' s /\
    smode st' = smode st /\ kept st' = [] /\ pos st' = pos st /\ yyline st' = yyline st.
Proof.
  intros cfg st w s M K SB. destruct (string_step cfg st w s M K SB) as (st' & ST & (A & (B & _) & C) & D).
  exists st'. split; [rewrite <- C; eapply rd_give; [discriminate | exact ST | apply rd_none] |]. auto.
Qed.
Print Assumptions C83_string.

(** A quote that is not closed in its line is an error. *)
Theorem C83_unclosed_string : forall cfg st w s,
  smode st = INITIAL -> ~ In QUOTE w -> (s = [] \/ exists c t, s = c :: t /\ (c = CR \/ c = LF)) ->
  exists col, scan_from cfg st (QUOTE :: w ++ s) = LexError [] (yyline st) col.
Proof. intros. eexists. apply open_string_error; assumption. Qed.
Print Assumptions C83_unclosed_string.

Definition escaped : text := chars "a\" ++ [QUOTE] ++ chars "b; [: ".
Example C83_example : string_body escaped /\
  scan_file plain_cfg ([QUOTE] ++ escaped ++ [QUOTE]) = Scanned [Lexeme (Tok "T_STRING") escaped 1]
    (Scanner INITIAL RuleBody 0 0 0 1 [] ([QUOTE] ++ escaped ++ [QUOTE]) 0 false false 11 []).
Proof.
  split; [| vm_compute; reflexivity]. repeat split; [not_there | not_there | |].
  - intros (u & E). apply (f_equal (@rev ascii)) in E. rewrite rev_app_distr in E. vm_compute in E. discriminate E.
  - intros a b E. do 2 (destruct a as [| ? a]; [discriminate E |]; cbn in E; injection E as <- E).
    destruct a as [| ? a]; [exists (chars "a"); reflexivity |]. exfalso. cbn in E. injection E as _ E. revert a b E. no_split.
Qed.

(** A string that ends in an escaped backslash does not end there if another quote follows
    in the line. *)
Theorem C83_backslash_refuted :
  exists st', reads plain_cfg start ([QUOTE; BSL; BSL; QUOTE] ++ chars " , " ++ [QUOTE] ++ chars "x" ++ [QUOTE; LF])
    [Lexeme (Tok "T_STRING") ([BSL; BSL; QUOTE] ++ chars " , ") 1; Lexeme (Tok "T_IDENTIFIER") (chars "x") 1] st' [QUOTE; LF].
Proof. eexists. run. apply rd_none. Qed.
Print Assumptions C83_backslash_refuted.

(** ** C84: types of variables *)
(** In `: type ;` a type of two or more characters is given unchanged ... *)
Theorem C84_variable_type : forall cfg st w rest,
  smode st = RULE_PARAMETERS_VARNAME -> kept st = [] -> ~ In ";"%char w -> 2 <= List.length w ->
  exists st', reads cfg st (w ++ ";"%char :: rest) [Lexeme (Tok "T_IDENTIFIER") (cstr w) (yyline st')] st' rest /\
    smode st' = RULE_PARAMETERS_HEADER /\ kept st' = [] /\ pos st' = pos st /\ yyline st' = yyline st + newlines w /\
    echoed st' = echoed st.
Proof. intros cfg st w rest M K N L. exact (proj1 (type_run cfg st w rest M K N) L). Qed.
Print Assumptions C84_variable_type.

(** ... and one of a single character (or none) makes the generator read outside of its
    buffer. *)
Theorem C84_short_type_refuted : forall cfg st w rest,
  smode st = RULE_PARAMETERS_VARNAME -> kept st = [] -> ~ In ";"%char w -> List.length w < 2 ->
  scan_from cfg st (w ++ ";"%char :: rest) = LexBroken [].
Proof. intros cfg st w rest M K N L. exact (proj2 (type_run cfg st w rest M K N) L). Qed.
Print Assumptions C84_short_type_refuted.

(** The blanks before the semicolon are kept, though the scanner means to drop them. *)
Example C84_example :
  (exists st', reads plain_cfg start (chars "-> a[member variable x: int ;]")
     [Lexeme (Tok "T_ARROW") [] 1; Lexeme (Tok "T_IDENTIFIER") (chars "a") 1; Lexeme (Chr "[") [] 1;
      Lexeme (Tok "T_MEMBER") [] 1; Lexeme (Tok "T_VARIABLE") [] 1; Lexeme (Tok "T_IDENTIFIER") (chars "x") 1;
      Lexeme (Chr ":") [] 1; Lexeme (Tok "T_IDENTIFIER") (chars "int ") 1; Lexeme (Chr "]") [] 1] st' []) /\
  scan_file plain_cfg (chars "-> a[member variable x: T;]") =
  LexBroken [Lexeme (Tok "T_ARROW") [] 1; Lexeme (Tok "T_IDENTIFIER") (chars "a") 1; Lexeme (Chr "[") [] 1;
      Lexeme (Tok "T_MEMBER") [] 1; Lexeme (Tok "T_VARIABLE") [] 1; Lexeme (Tok "T_IDENTIFIER") (chars "x") 1;
      Lexeme (Chr ":") [] 1].
Proof. split; [eexists; run; apply rd_none | vm_compute; reflexivity]. Qed.

(** ** C85: gaps *)
(** Blanks, line ends and comments between tokens change nothing but the line. *)
Theorem C85_gaps : forall cfg g st s,
  smode st = INITIAL \/ smode st = RULE_PARAMETERS_HEADER \/ smode st = RULE_LEXER ->
  kept st = [] -> gap g -> no_gap s ->
  exists st', reads cfg st (g ++ s) [] st' s /\ smode st' = smode st /\ kept st' = [] /\ pos st' = pos st /\
    open st' = open st /\ code_line st' = code_line st /\ code_col st' = code_col st /\ echoed st' = echoed st /\
    yyline st' = yyline st + newlines g.
Proof.
  intros cfg g st s M K G N.
  destruct (gap_reads cfg (S (List.length g)) g st s (Nat.lt_succ_diag_r _) M K G N) as (st' & R & A & B & (F1 & F2 & F3 & F4 & F5) & Y).
  exists st'. repeat split; assumption.
Qed.
Print Assumptions C85_gaps.

Example C85_example : gap (chars " -- a comment; [: " ++ [LF] ++ [TAB]) /\
  scan_file plain_cfg (chars "a -- a comment; [: " ++ [LF] ++ [TAB] ++ chars "b") =
  Scanned [Lexeme (Tok "T_IDENTIFIER") (chars "a") 1; Lexeme (Tok "T_IDENTIFIER") (chars "b") 2]
    (Scanner INITIAL RuleBody 0 0 0 2 [] ([TAB] ++ chars "b") 1 false false 1 []).
Proof.
  split; [| vm_compute; reflexivity]. apply g_blank; [left; reflexivity |].
  apply (g_comment (chars " a comment; [: ") LF [TAB]); [not_there | not_there | right; reflexivity |].
  apply g_lf, g_blank; [do 2 right; left; reflexivity | apply g_nil].
Qed.

(** ** C86: words, numbers, keywords *)
Theorem C86_words : forall cfg st w s,
  smode st = INITIAL -> kept st = [] -> is_word w -> over (UPPER ++ LOWER ++ DIGITS) s ->
  ~ (w = chars "try" /\ exists u, s = chars "/recover" ++ u \/ s = chars "/rollback" ++ u) ->
  exists st', reads cfg st (w ++ s) [Lexeme (fst (word_token w)) (snd (word_token w)) (yyline st)] st' s /\
    smode st' = INITIAL /\ kept st' = [] /\ pos st' = pos st /\ yyline st' = yyline st.
Proof.
  intros cfg st w s M K W O N. destruct (word_step cfg st w s M K W O N) as (st' & ST & (A & (B & _) & C) & D).
  exists st'. split.
  - rewrite <- C. eapply rd_give; [| exact ST | apply rd_none]. destruct W as (c & u & -> & _). discriminate.
  - split; [congruence |]. auto.
Qed.
Print Assumptions C86_words.

Theorem C86_numbers : forall cfg st w s,
  smode st = INITIAL -> kept st = [] -> is_number w -> over DIGITS s ->
  exists st', reads cfg st (w ++ s) [Lexeme (fst (number_token w)) (snd (number_token w)) (yyline st)] st' s /\
    smode st' = INITIAL /\ kept st' = [] /\ pos st' = pos st /\ yyline st' = yyline st.
Proof.
  intros cfg st w s M K W O. destruct (number_step cfg st w s M K W O) as (st' & ST & (A & (B & _) & C) & D).
  exists st'. split.
  - rewrite <- C. eapply rd_give; [| exact ST | apply rd_none]. destruct W as (NE & _). destruct w; [contradiction | discriminate].
  - split; [congruence |]. auto.
Qed.
Print Assumptions C86_numbers.

(** The longest keyword is taken, and what follows it need not be a gap. *)
Theorem C86_keywords : forall cfg st k n s,
  smode st = INITIAL -> In (k, n) keywords -> keyword_at k (chars k ++ s) ->
  exists st', reads cfg st (chars k ++ s) [Lexeme (Tok n) [] (yyline st)] st' s /\
    kept st' = [] /\ yyline st' = yyline st /\
    smode st' = (if String.eqb k "%parserclass" || String.eqb k "%lexerclass" then PARSERCLASS else INITIAL) /\
    pos st' = (if String.eqb k "%<" then RuleBody else if String.eqb k "%>" then RuleFooter
               else if String.eqb k "%lexer" then RuleLexer else pos st).
Proof.
  intros cfg st k n s M J KA. destruct (keyword_step cfg st k n s M J KA) as (st0 & ST & (A & (B & _) & C) & D).
  exists (after_keyword k st0). split.
  - replace (yyline st) with (yyline (after_keyword k st0)).
    + eapply rd_give; [| exact ST | apply rd_none]. destruct (keyword_head k n J) as (k' & -> & _). discriminate.
    + rewrite <- C. unfold after_keyword. destruct (String.eqb k "%parserclass" || String.eqb k "%lexerclass"); [reflexivity |].
      destruct (String.eqb k "%<"); [reflexivity |]. destruct (String.eqb k "%>"); [reflexivity |]. destruct (String.eqb k "%lexer"); reflexivity.
  - unfold after_keyword. rewrite <- C, <- M, <- A, <- B, <- D.
    destruct (String.eqb_spec k "%parserclass") as [-> | _]; [repeat split; exact D |].
    destruct (String.eqb_spec k "%lexerclass") as [-> | _]; [repeat split; exact D |]. cbn [orb].
    destruct (String.eqb k "%<"); [repeat split |]. destruct (String.eqb k "%>"); [repeat split |]. destruct (String.eqb k "%lexer"); repeat split.
Qed.
Print Assumptions C86_keywords.

Example C86_example :
  keyword_at "%token" (chars "%tokens A, catchB 07") /\
  exists st', reads plain_cfg start (chars "%tokens A, catchB 07")
    [Lexeme (Tok "T_TOKEN_DECLARATION") [] 1; Lexeme (Tok "T_IDENTIFIER") (chars "s") 1; Lexeme (Tok "T_TERMINAL") (chars "A") 1;
     Lexeme (Chr ",") [] 1; Lexeme (Tok "T_IDENTIFIER") (chars "catchB") 1; Lexeme (Tok "T_NUMBER") (chars "07") 1] st' [].
Proof.
  split; [| eexists; run; apply rd_none]. split; [exists (chars "s A, catchB 07"); reflexivity |].
  intros k' n s J E. vm_compute in J. repeat (destruct J as [J | J]; [injection J as <- <-; first [discriminate E | vm_compute; lia] |]). destruct J.
Qed.

(** ** C87: characters that mean nothing *)
(** Outside of code and so on such a character is an error, reported for its place. *)
Theorem C87_meaningless : forall cfg p c rest l st,
  let file := p ++ c :: rest in
  ~ In "255"%char file -> ~ In NUL file -> no_lone_cr file -> no_lexer file ->
  reads cfg start file l st (c :: rest) -> smode st = INITIAL -> echoed st = [] -> meaningless c ->
  scan_file cfg file = after l (LexError [] (fst (place_after p)) (snd (place_after p))).
Proof.
  intros cfg p c rest l st file N255 NN NC NL R M EC X. unfold scan_file. rewrite readable_all by exact N255.
  change (scan (S (List.length file)) cfg start file) with (scan_from cfg start file).
  rewrite (reads_scan _ _ _ _ _ _ R), (meaningless_error cfg st c rest M X).
  rewrite (reads_line cfg p _ l st R NC), (reads_column cfg p _ l st R EC NL NN). reflexivity.
Qed.
Print Assumptions C87_meaningless.

Example C87_example : meaningless "$"%char /\
  scan_file plain_cfg (chars "a" ++ [LF] ++ chars " b$ c") =
    LexError [Lexeme (Tok "T_IDENTIFIER") (chars "a") 1; Lexeme (Tok "T_IDENTIFIER") (chars "b") 2] 2 2.
Proof. split; [unfold meaningless; not_there | vm_compute; reflexivity]. Qed.

(** In lexer rules they are dropped (and written to the standard output). *)
Theorem C87_lexer_rules_refuted :
  exists st', reads plain_cfg start (chars "%lexer -> a$b$ A;")
    [Lexeme (Tok "T_LEXER") [] 1; Lexeme (Tok "T_ARROW") [] 1; Lexeme (Tok "T_UNQUOTED_STRING") (chars "a") 1;
     Lexeme (Tok "T_UNQUOTED_STRING") (chars "b") 1; Lexeme (Tok "T_TERMINAL") (chars "A") 1; Lexeme (Chr ";") [] 1] st' [] /\
  echoed st' = chars "$$".
Proof. eexists. split; [run; apply rd_none | reflexivity]. Qed.
Print Assumptions C87_lexer_rules_refuted.

(** A byte 255 ends the file: what follows is not read, and nothing is reported. *)
Theorem C87_byte_255_refuted : forall cfg p q,
  ~ In "255"%char p -> scan_file cfg (p ++ "255"%char :: q) = scan_file cfg p.
Proof. intros cfg p q N. unfold scan_file. rewrite readable_cut, readable_all by exact N. reflexivity. Qed.
Print Assumptions C87_byte_255_refuted.

Theorem C87_all_bytes_read : forall cfg bytes,
  ~ In "255"%char bytes -> scan_file cfg bytes = scan_from cfg start bytes.
Proof. intros cfg bytes N. unfold scan_file. rewrite readable_all by exact N. reflexivity. Qed.
Print Assumptions C87_all_bytes_read.

(** ** C88: scanning ends *)
Theorem C88_scanning_ends : forall cfg bytes, scan_file cfg bytes <> NoFuel.
Proof. intros cfg bytes. exact (scan_from_fuel cfg _ start (readable bytes) (Nat.lt_succ_diag_r _)). Qed.
Print Assumptions C88_scanning_ends.

Example C88_example : scan_file plain_cfg (repeat "["%char 5) = LexError [] 1 4.
Proof. vm_compute. reflexivity. Qed.
