(** What is proved about the parser of grammar files. *)
From Coq Require Import List NArith Ascii String Bool PeanoNat Lia.
From Verif Require Import FlexModel ScanModel ScanProps DeclModel YaccModel YaccSpec YaccReadProofs GramModel GramTableProofs GramProofs GramSpec GramFineProofs GramReadProofs GramRuleProofs GramFileProofs.
Import ListNotations.
Open Scope string_scope.
Open Scope list_scope.

(** A grammar file, its tokens, and what is read. *)
Definition small_file : text :=
  chars "%token A, B (" ++ [QUOTE] ++ chars "bee" ++ [QUOTE] ++ chars "); -- comment" ++ [LF] ++
  chars "%ast_base s " ++ [QUOTE] ++ chars "Base" ++ [QUOTE] ++ [LF] ++
  chars "x=A #y:t @ B [: go(); :] | ?[: c :] 0 -> s ;; B t+ -> t [: done(); :] ;;".
Definition small_tokens : list (N * val) := Eval vm_compute in
  match scan_file plain_cfg small_file with Scanned l _ => input l | _ => [] end.
Lemma small_scanned : exists l s, scan_file plain_cfg small_file = Scanned l s /\ input l = small_tokens.
Proof. eexists _, _. split; vm_compute; reflexivity. Qed.
Lemma to_node_ (V : Type) p r l u x : nth_error productions (N.to_nat p) = Some r -> x = NT (lhs r) -> trees_of productions V (rhs r) l u ->
  tree_of productions V x (Node p l) u.
Proof. intros A -> B. econstructor; eassumption. Qed.
Ltac reading := unfold read_tokens; rewrite states_eq; vm_compute.

(** ** C89: what is accepted is a sentence, and the actions are done in the order of the text *)
Theorem C89_accepted_is_sentence : forall cfg bytes l s n ast v w,
  scan_file cfg bytes = Scanned l s -> read_tokens n ast (input l) = Accepted val world v w ->
  exists t, tree_of productions val (start_symbol productions) t (input l) /\
    does val world sem [] t (empty_world ast) v w.
Proof. intros cfg bytes l s n ast v w H. apply accepted_tree. eapply scanned_proper, H. Qed.
Print Assumptions C89_accepted_is_sentence.

Example C89_example : exists v w, read_tokens 2000 true small_tokens = Accepted val world v w /\
  terminals w = [(chars "A", chars "A"); (chars "B", chars "bee")] /\ bases w = [(chars "s", chars "Base")] /\
  rev (events w) =
  [Set_ "decl" []; PushSymbol (chars "t"); PushSymbol (chars "s")] ++
  [PushRule (IEvolve (IAlternative
     (ICons (IAnnotation (chars "x") false true (ITerminal (chars "A") (chars "A")))
       (IAction (ICons (IAnnotation (chars "y") true false (INonTerminal (chars "t") []))
                  (IStar (ICons (ITerminal (chars "B") (chars "bee")) (IAnnotation (chars "y") true false (INonTerminal (chars "t") [])))))
          (chars " go(); ")))
     (ICondition (chars " c ") IZero)) (chars "s") [] [])] ++
  [PushSymbol (chars "t"); PushSymbol (chars "t")] ++
  [PushRule (IEvolve (ICons (ITerminal (chars "B") (chars "bee")) (IPlus (INonTerminal (chars "t") []))) (chars "t") [] (chars " done(); "));
   Add "bits" []].
Proof. eexists _, _. split; [reading; reflexivity |]. split; [| split]; vm_compute; reflexivity. Qed.

(** ** C90: reading ends *)
(** Whatever the tokens, the parser comes to an end and never to a place its table does not
    provide for: it accepts, stops with a message, or reports a syntax error. *)
Theorem C90_reading_ends : forall cfg bytes l s ast,
  scan_file cfg bytes = Scanned l s ->
  exists n, forall m, n <= m ->
    read_tokens m ast (input l) = read_tokens n ast (input l) /\
    match read_tokens m ast (input l) with
    | Accepted _ _ _ _ | SyntaxError _ _ _ _ | Stopped _ _ => True
    | Stuck _ _ | YaccModel.NoFuel _ _ => False
    end.
Proof.
  intros cfg bytes l s ast H. destruct (reading_ends ast (input l) (input_small l)) as [n E]. exists n. intros m L.
  pose proof (reading_more n m ast (input l) L E) as R. split; [exact R |]. rewrite R.
  pose proof (reading_never_stuck n ast (input l) (scanned_proper _ _ _ _ H)) as K.
  destruct (read_tokens n ast (input l)); [exact I | exact I | exact I | apply K; reflexivity | apply E; reflexivity].
Qed.
Print Assumptions C90_reading_ends.

Example C90_example_error : read_tokens 2000 true (firstn 3 small_tokens) <> YaccModel.NoFuel val world /\
  exists w, read_tokens 2000 true (firstn 3 small_tokens) = SyntaxError val world [] w.
Proof. split; [reading; discriminate |]. eexists. reading. reflexivity. Qed.
Example C90_example_stop :
  read_tokens 2000 true [(tok_of "T_LEXER", VText []); (tok_of "T_ARROW", VText []); (tok_of "T_NAMED_REGEXP", VText (chars "x"));
    (tok_of "';'", VText []); (tok_of "';'", VText [])] = Stopped val world.
Proof. reading. reflexivity. Qed.

(** ** C91: syntax errors *)
(** What was read before the error is the beginning of a sentence: nothing is read past the
    first token that cannot follow. *)
Theorem C91_error_place : forall cfg bytes l s n ast r w,
  scan_file cfg bytes = Scanned l s -> read_tokens n ast (input l) = SyntaxError val world r w ->
  exists u v, input l = u ++ r /\ sentence productions val (u ++ v).
Proof. intros cfg bytes l s n ast r w H. apply error_prefix. eapply scanned_proper, H. Qed.
Print Assumptions C91_error_place.

(** The error depends on what was read and on the next token, not on what follows. *)
Theorem C91_error_local : forall n ast l r w,
  read_tokens n ast l = SyntaxError val world r w ->
  exists u, l = u ++ r /\
    forall r', option_map fst (hd_error r') = option_map fst (hd_error r) ->
      read_tokens n ast (u ++ r') = SyntaxError val world r' w.
Proof.
  intros n ast l r w H. destruct (error_only_next n ast l r w H) as (u & E & F). exists u. split; [exact E |].
  intros r' A. apply F. destruct r as [| [x a] r], r' as [| [y b] r']; cbn in A |- *; try discriminate A; [reflexivity |]. injection A as ->. reflexivity.
Qed.
Print Assumptions C91_error_local.

Example C91_example : exists w,
  read_tokens 2000 true (firstn 20 small_tokens ++ [(tok_of "';'", VText [])]) = SyntaxError val world [(tok_of "';'", VText [])] w.
Proof. eexists. reading. reflexivity. Qed.

(** It is not so that only texts that are no sentences are refused: a lexer rule without
    expression, code and action, `;` (which skips the empty word), is taken for the end of
    the rule set. *)
Definition tk (x : string) : N * val := (tok_of x, VText []).
Theorem C91_sentence_refuted :
  ~ (forall l, sentence productions val l -> exists n ast v w, read_tokens n ast l = Accepted val world v w \/ read_tokens n ast l = Stopped val world).
Proof.
  intro H. destruct (H [tk "T_LEXER"; tk "T_ARROW"; tk "';'"; tk "';'"]) as (n & ast & v & w & R).
  - unfold sentence. assert (E : exists u, (exists t, tree_of productions val (start_symbol productions) t u) /\
      u = [tk "T_LEXER"; tk "T_ARROW"; tk "';'"; tk "';'"]).
    { pose (nd := fun l r ts => Node (V := val) (pos (l ++ " : " ++ r)%string (map (fun p => (fst (fst p) ++ " : " ++ snd (fst p))%string) written) 0) ts).
      pose (lf := fun x => Leaf (tok_of x) (VText [])).
      eexists. split.
      - exists (nd "system" "code_opt @1 declarations rules code_opt"
          [nd "code_opt" "" []; nd "@1" "" [];
           nd "declarations" "declaration"
             [nd "declaration" "T_LEXER @3 T_ARROW lexer_declaration_rest ';'"
               [lf "T_LEXER"; nd "@3" "" []; lf "T_ARROW";
                nd "lexer_declaration_rest" "regexp code_opt opt_lexer_action ';' @5 lexer_declaration_rest"
                  [nd "regexp" "regexp1" [nd "regexp1" "regexp2" [nd "regexp2" "regexp3" [nd "regexp3" "regexp4" [nd "regexp4" "regexp5"
                     [nd "regexp5" "regexp6" [nd "regexp6" "regexp7" [nd "regexp7" "" []]]]]]]];
                   nd "code_opt" "" []; nd "opt_lexer_action" "" []; lf "';'"; nd "@5" "" []; nd "lexer_declaration_rest" "" []];
                lf "';'"]];
           nd "rules" "" []; nd "code_opt" "" []]).
        vm_compute. repeat first [eapply to_leaf | (eapply to_node_; [vm_compute; reflexivity | reflexivity | cbn [rhs]]) | eapply ts_nil | eapply ts_cons].
      - vm_compute. reflexivity. }
    destruct E as (u & T & ->). exact T.
  - assert (M : forall m, 2000 <= m -> read_tokens m ast [tk "T_LEXER"; tk "T_ARROW"; tk "';'"; tk "';'"] = read_tokens 2000 ast [tk "T_LEXER"; tk "T_ARROW"; tk "';'"; tk "';'"]).
    { intros m L. apply reading_more; [exact L |]. destruct ast; reading; discriminate. }
    assert (N : read_tokens n ast [tk "T_LEXER"; tk "T_ARROW"; tk "';'"; tk "';'"] <> YaccModel.NoFuel val world).
    { destruct R as [R | R]; rewrite R; discriminate. }
    rewrite <- (reading_more n (n + 2000) ast _ (Nat.le_add_r _ _) N), (M (n + 2000) ltac:(lia)) in R.
    destruct ast; revert R; reading; intros [R | R]; discriminate R.
Qed.
Print Assumptions C91_sentence_refuted.

(** ** C92: grammar files are read as written *)
(** Whoever prints a file from what is meant, with parentheses where the precedence of the
    operators asks for them, gets it back: the tokens are accepted, and everything the rest
    of the generator uses is as meant. *)
Theorem C92_file_read : forall ast f l,
  readable ast f -> map (fun x => (ltok x, lval x)) l = file_show f ->
  exists n v w, read_tokens n ast (input l) = Accepted val world v w /\
    option_map (@rev event) (file_events f) = Some (events w) /\
    (forall x, lookup x (terminals w) = first_of (file_tokens f) x) /\
    (forall x, lookup x (bases w) = file_base f x) /\
    declare_all initial_type (flat_map GramSpec.dtype (all_decls f)) = Some (automaton w) /\
    hasLexer w = existsb is_lexer (all_decls f) /\
    needStateManagement w = existsb rule_try (rules_ f) /\ needOperatorStack w = existsb rule_operators (rules_ f) /\
    undefined w = false.
Proof.
  intros ast f l Rd E. destruct (file_read ast f Rd) as (v & w & H & F). unfold R in H. rewrite <- E in H.
  replace (inp (map (fun x => (ltok x, lval x)) l)) with (input l) in H by (unfold inp, input; rewrite map_map; reflexivity).
  destruct (reads_whole productions grammar_states 0 fine_productions cnt (at_ [] contexts) (at_ [] first_sets) (at_ false nullable) fine_checked val world sem
    (class_of "system") (input l) (empty_world ast) v w (match next grammar_states 0 (NT (cnt (class_of "system"))) with Some s => s | None => 0%N end) H) as [n P].
  - eexists. split; [vm_compute; reflexivity | left; reflexivity].
  - vm_compute. reflexivity.
  - vm_compute. reflexivity.
  - exists n, v, w. split; [| exact F]. unfold read_tokens. rewrite states_eq. exact P.
Qed.
Print Assumptions C92_file_read.

(** So a sequence of tokens has one meaning. *)
Theorem C92_one_meaning : forall ast f g, readable ast f -> readable ast g -> file_show f = file_show g ->
  file_events f = file_events g /\ (forall x, describe f x = describe g x) /\ (forall x, file_base f x = file_base g x).
Proof.
  intros ast f g Rf Rg E. set (l := map (fun x => Lexeme (fst x) (snd x) 0) (file_show f)).
  assert (L : map (fun x => (ltok x, lval x)) l = file_show f).
  { unfold l. rewrite map_map. rewrite <- map_id. apply map_ext. intros []; reflexivity. }
  destruct (C92_file_read ast f l Rf L) as (n & v & w & P & A & B & C & _). rewrite E in L.
  destruct (C92_file_read ast g l Rg L) as (n' & v' & w' & P' & A' & B' & C' & _).
  assert (W : w = w').
  { assert (Q : read_tokens (n + n') ast (input l) = Accepted val world v w) by (rewrite (reading_more n (n + n')); [exact P | lia | rewrite P; discriminate]).
    assert (Q' : read_tokens (n + n') ast (input l) = Accepted val world v' w') by (rewrite (reading_more n' (n + n')); [exact P' | lia | rewrite P'; discriminate]).
    rewrite Q in Q'. injection Q' as _ W. exact W. }
  subst w'. split; [| split].
  - rewrite <- A' in A. destruct (file_events f), (file_events g); cbn in A; try discriminate A; [| reflexivity].
    injection A as A. f_equal. rewrite <- (rev_involutive l0), A. apply rev_involutive.
  - intro x. unfold describe. rewrite <- B, <- B'. reflexivity.
  - intro x. rewrite <- C, <- C'. reflexivity.
Qed.
Print Assumptions C92_one_meaning.

(** A file with everything in it. *)
Definition whole_file : file := File (Some (chars "head"))
  (DTokens (chars "A", None) [(chars "PLUS", Some (chars "+")); (chars "A", Some (chars "other"))])
  [DMember false ConstructorCode (chars "init"); DBits true (chars "bits"); DType (Some true) []; DStream (chars "Stream");
   DSet AstHeader (chars "a.h"); DSet AstHeader (chars "b.h"); DNamespace (chars "Ns"); DAst (chars "ast"); DBase (chars "s") (chars "Base");
   DLexer None
     [LDefine (SBrackets (AThen (ARange (chars "a-z")) (AWord (chars "_")))) (chars "letter");
      LRule (SThen (SName (chars "letter")) (SStar (SOr (SName (chars "letter")) (SWord (chars "0"))))) (Some (chars "go")) (Return (chars "A"));
      LLook (SSep (SOr (SString (chars "x")) SNothing) (SBut SAny (SNot (SString (chars "y"))))) (SOrNothing (SMaybe (SWord (chars "z")))) None Skip;
      LFail (chars "fail")];
   DLexer (Some (chars "in")) [LBar (SString (chars "p")) (SPlus (SAnd SAny SAny)) None Continue; LEnter (chars "enter"); LLeave (chars "leave")]]
  [RRule (IOr (IThen (IBind false true (chars "x") (ATok (chars "A"))) (IThen (IListOf (IAtom (ASym (chars "t") (Some (chars "1")))) (IAtom (ATok (chars "PLUS")))) (IOnlyCode (chars "c"))))
     (IWhen (chars "cond") (IThen (IMany (IOr (IAtom (ATok (chars "A"))) IEmpty)) (IRollback (IAtom (ASym (chars "t") None)) (IWithCode (IInlined (chars "u")) (chars "d"))))))
     (chars "s") (VarsCode (Var true true false (chars "p") (Some (true, chars "s"))) [Var false false true (chars "q") None] (Some (chars "end")));
   ROperators (chars "t") None [OBin (Op None (chars "PLUS") (Some (chars "c"))) (PNumber (chars "1")) Left; OPost (Op (Some (chars "b")) (chars "A") None) PZero (Some (IsRight (chars "r")));
     OParen (Op None (chars "A") None) (Op None (chars "A") None)] (chars "e") (CodeVars (chars "k") (Var false true false (chars "v") (Some (false, chars "int"))) [])]
  None.
Example C92_example_readable : readable true whole_file.
Proof. repeat split; [eexists; vm_compute; reflexivity | eexists; vm_compute; reflexivity]. Qed.
Example C92_example_tokens : firstn 17 (file_show whole_file) =
  [(Tok "T_CODE", chars "head"); (Tok "T_TOKEN_DECLARATION", []); (Tok "T_TERMINAL", chars "A"); (Chr ",", []); (Tok "T_TERMINAL", chars "PLUS");
   (Chr "(", []); (Tok "T_STRING", chars "+"); (Chr ")", []); (Chr ",", []); (Tok "T_TERMINAL", chars "A"); (Chr "(", []); (Tok "T_STRING", chars "other"); (Chr ")", []); (Chr ";", []);
   (Tok "T_PARSERCLASS_DECLARATION", []); (Chr "(", []); (Tok "T_CONSTRUCTOR", [])].
Proof. vm_compute. reflexivity. Qed.
Example C92_example_means : describe whole_file (chars "PLUS") = chars "+" /\ describe whole_file (chars "A") = chars "A" /\
  file_base whole_file (chars "s") = Some (chars "Base") /\ file_base whole_file (chars "t") = Some (chars "EAst").
Proof. vm_compute. repeat split. Qed.

(** False without the conditions: a condition in an operand of `@` is lost in the copy, and
    the priority 0 of %post without associativity frees a string literal. *)
Definition file_of (r : rule_src) : file := File None (DStream (chars "S")) [] [r] None.
Definition shown (f : file) : list lexeme := map (fun x => Lexeme (fst x) (snd x) 0) (file_show f).
Theorem C92_condition_refuted :
  exists r n v w, read_tokens n true (input (shown (file_of r))) = Accepted val world v w /\
    option_map (@rev event) (file_events (file_of r)) <> Some (events w) /\ undefined w = false.
Proof.
  exists (RRule (IListOf (IWhen (chars "c") (IAtom (ATok (chars "A")))) (IAtom (ATok (chars "B")))) (chars "s") (FootCode None)), 2000.
  eexists _, _. split; [reading; reflexivity |]. split; [vm_compute; discriminate | reflexivity].
Qed.
Print Assumptions C92_condition_refuted.
Theorem C92_post_refuted :
  exists r n v w, read_tokens n true (input (shown (file_of r))) = Accepted val world v w /\ undefined w = true.
Proof.
  exists (ROperators (chars "t") None [OPost (Op None (chars "A") None) PZero None] (chars "e") (FootCode None)), 2000.
  eexists _, _. split; [reading; reflexivity | reflexivity].
Qed.
Print Assumptions C92_post_refuted.

(** ** C93: rules *)
(** The rules the generator works on are those of the file, in its order, and the symbols
    are entered in the order of their mention, of a rule what stands before `->` first. *)
Definition pushed_rules (l : list event) : list GramModel.item := flat_map (fun e => match e with PushRule i => [i] | _ => [] end) l.
Definition pushed_symbols (l : list event) : list text := flat_map (fun e => match e with PushSymbol x => [x] | _ => [] end) l.
Lemma lexer_silent e s : forall l a l', lmeans_all e l s = Some (a, l') -> pushed_rules a = [] /\ pushed_symbols a = [].
Proof.
  induction s as [| x s IH]; intros l a l' M; cbn [lmeans_all] in M; [injection M as <- <-; split; reflexivity |].
  destruct (lmeans e l x) as [[a1 l1] |] eqn:M1; [| discriminate]. destruct (lmeans_all e l1 s) as [[a2 l2] |] eqn:M2; [| discriminate]. injection M as <- <-.
  destruct (IH _ _ _ M2) as [A B]. unfold pushed_rules, pushed_symbols in *. rewrite !flat_map_app, A, B, !app_nil_r. clear - M1.
  destruct x; cbn [lmeans] in M1; repeat match type of M1 with context [rmeans ?n ?y] => destruct (rmeans n y); try discriminate M1 end;
    injection M1 as <- <-; split; reflexivity.
Qed.
Lemma decls_silent ds : forall l a, dmeans_all l ds = Some a -> pushed_rules (fst a) = [] /\ pushed_symbols (fst a) = [].
Proof.
  induction ds as [| d ds IH]; intros l a M; cbn [dmeans_all] in M; [injection M as <-; split; reflexivity |].
  destruct (dmeans l d) as [[a1 l1] |] eqn:M1; [| discriminate]. destruct (dmeans_all l1 ds) as [[a2 l2] |] eqn:M2; [| discriminate]. injection M as <-. cbn [fst].
  destruct (IH _ _ M2) as [A B]. cbn [fst] in A, B. unfold pushed_rules, pushed_symbols in *. rewrite !flat_map_app, A, B, !app_nil_r. clear - M1.
  destruct d as [x m v | x v | x s | ty v | x | [] v | v | v | x v | e s]; cbn [dmeans set_means] in M1; try (injection M1 as <- <-; split; reflexivity).
  destruct (lmeans_all _ l s) as [[a2 l2] |] eqn:M2; [| discriminate]. injection M1 as <- <-. cbn [flat_map app]. exact (lexer_silent _ _ _ _ _ M2).
Qed.
Theorem C93_rules_read : forall ast f l,
  readable ast f -> map (fun x => (ltok x, lval x)) l = file_show f ->
  exists n v w, read_tokens n ast (input l) = Accepted val world v w /\
    pushed_rules (rev (events w)) = map (rule_means (describe f)) (rules_ f) /\
    pushed_symbols (rev (events w)) = flat_map rule_symbols (rules_ f).
Proof.
  intros ast f l Rd E. destruct (C92_file_read ast f l Rd E) as (n & v & w & P & A & _). exists n, v, w. split; [exact P |].
  destruct Rd as ((a & M) & _). unfold file_events in A. rewrite M in A. cbn [option_map] in A. apply (f_equal (fun o => match o with Some x => x | None => [] end)) in A. cbv beta iota in A. rewrite <- A, rev_involutive.
  destruct (decls_silent _ _ _ M) as [S1 S2].
  unfold pushed_rules, pushed_symbols. rewrite !flat_map_app. cbn [flat_map app]. fold pushed_rules. fold pushed_symbols.
  change (flat_map (fun e => match e with PushRule i => [i] | _ => [] end) (fst a)) with (pushed_rules (fst a)).
  change (flat_map (fun e => match e with PushSymbol x => [x] | _ => [] end) (fst a)) with (pushed_symbols (fst a)).
  rewrite S1, S2, !app_nil_r. cbn [app]. clear. split; induction (rules_ f) as [| r rs IH]; try reflexivity; cbn [flat_map map];
    rewrite flat_map_app, IH; unfold rule_events; rewrite flat_map_app; cbn [flat_map app].
  - f_equal. rewrite flat_map_concat_map, map_map, <- flat_map_concat_map. induction (rule_symbols r); [reflexivity | assumption].
  - rewrite app_nil_r. f_equal. rewrite flat_map_concat_map, map_map, <- flat_map_concat_map. induction (rule_symbols r) as [| x xs IHx]; [reflexivity |]. cbn [flat_map]. rewrite IHx. reflexivity.
Qed.
Print Assumptions C93_rules_read.

(** Code after an item belongs to that item alone, an operand of `@` is one primary item, and
    `|` is looser than conditions. *)
Example C93_example : let a := IAtom (ATok (chars "A")) in let b := IAtom (ATok (chars "B")) in
  map fst (ishow (IOr (IWhen (chars "c") (IThen a (IWithCode (IListOf b a) (chars "x")))) b)) =
  [Chr "?"; Tok "T_CODE"; Tok "T_TERMINAL"; Tok "T_TERMINAL"; Chr "@"; Tok "T_TERMINAL"; Tok "T_CODE"; Chr "|"; Tok "T_TERMINAL"] /\
  map fst (ishow (IThen (IThen a b) (IOnlyCode (chars "x")))) =
  [Tok "T_TERMINAL"; Tok "T_TERMINAL"; Chr "("; Tok "T_CODE"; Chr ")"].
Proof. split; vm_compute; reflexivity. Qed.
