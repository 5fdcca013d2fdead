(** The parser of grammar files: the productions of /repo/src/kdev-pg-parser.yy with their
    semantic actions, run by the parser of YaccModel on the tokens of ScanModel.

    What is changed in the model: QString::fromUtf8 is left out, texts are the bytes of the
    file.  What the actions write into globalSystem and never read again is kept as a list
    of events, in the order of the actions.  Regular expressions are kept as they are
    written; RegexpModel and LexRuleModel have the automata, the warnings about rules that
    accept the empty word or nothing are left out.  Freeing operators (made by new) with
    free() in 615-620 is taken to do what is meant.  Line numbers of messages are left out. *)
From Coq Require Import List NArith Ascii String Bool PeanoNat.
From Verif Require Import YaccModel FlexModel ScanModel DeclModel.
Import ListNotations.
Open Scope string_scope.
Open Scope list_scope.

(** ** What the actions make *)
(** Regular expressions of lexer rules, 302-445.  XNamed: a named one, with what the name
    stood for.  XChars: T_UNQUOTED_STRING in brackets. *)
Inductive rex :=
| XEps | XAny | XString (t : text) | XRange (t : text) | XChars (t : text) | XNamed (x : rex)
| XOr (x y : rex) | XAnd (x y : rex) | XBut (x y : rex) | XNot (x : rex) | XOpt (x : rex)
| XCat (x y : rex) | XSep (x y : rex) | XStar (x : rex) | XPlus (x : rex).

(** kdev-pg-ast.h 280-330: VariableDeclarationItem; mNext is the rest of the list. *)
Inductive vtype := TypeNode | TypeToken | TypeVariable.
Record declaration := Declaration {
  dargument : bool; dmember : bool; dtype : vtype; dsequence : bool; dname : text; dtypename : text }.

(** kdev-pg-ast.h 62-280, made by the functions of kdev-pg.cpp 20-190, 406-413.
    ICode: an ActionItem without an item.  IBad: what a wrong cast gives. *)
Inductive item :=
| IZero
| ITerminal (name description : text)
| INonTerminal (symbol arguments : text)
| IInline (symbol : text)
| IPlus (i : item)
| IStar (i : item)
| IAction (i : item) (code : text)
| ICode (code : text)
| IAlternative (l r : item)
| ICons (l r : item)
| ITryRecover (i : item)
| ITryRollback (i c : item)
| IAnnotation (name : text) (sequence member : bool) (i : item)
| ICondition (code : text) (i : item)
| IOperator (name base : text) (ops : list operators)
| IEvolve (i : item) (symbol : text) (decls : list declaration) (code : text)
| IBad
with operator := Operator (tok : item) (cond code : text)
with operators :=
| Bin (o : operator) (left priority : text)
| Tern (o p : operator) (left priority : text)
| Pre (o : operator) (priority : text)
| Post (o : operator) (left priority : text)
| Paren (o p : operator).

Inductive member_kind := PublicDeclaration | ProtectedDeclaration | PrivateDeclaration | ConstructorCode | DestructorCode.

(** What is written into globalSystem.  Set_ and Add are for the members that are texts or
    lists of texts; Add appends. *)
Inductive lexer_rule := Plain (x : rex) | Lookahead (x y : rex) | Barrier (x y : rex).
Inductive event :=
| Set_ (field : string) (t : text)
| Add (field : string) (t : text)
| Member (of : string) (k : member_kind) (code : text)
| EnterLexer (e : text)
| LexerRule (e : text) (r : lexer_rule) (code : text)
| FailCode (e code : text)
| EnterCode (e code : text)
| LeaveCode (e code : text)
| PushSymbol (name : text)
| PushRule (i : item).

(** What the actions read, and the events, the last first. *)
Record world := World {
  generateAst : bool;
  hasLexer : bool;
  automaton : nat;                     (* GDFA::type *)
  env : text;                          (* lexerEnv, 21 *)
  action_end : text;                   (* r, 31 *)
  regexps : list (text * rex);         (* regexpById *)
  terminals : list (text * text);      (* with their descriptions *)
  bases : list (text * text);          (* astBaseClasses *)
  ops : list operators;                (* operatorNode *)
  needStateManagement : bool;
  needOperatorStack : bool;
  undefined : bool;                    (* something was done that has no defined behaviour *)
  events : list event }.

Definition empty_world (ast : bool) : world := World ast false initial_type [] [] [] [] [] [] false false false [].

Definition log (e : event) (w : world) : world :=
  World (generateAst w) (hasLexer w) (automaton w) (env w) (action_end w) (regexps w) (terminals w) (bases w) (ops w) (needStateManagement w) (needOperatorStack w)
    (undefined w) (e :: events w).
Notation "w <+ e" := (log e w) (at level 61, left associativity).
Definition set_automaton (t : nat) (w : world) : world :=
  World (generateAst w) (hasLexer w) t (env w) (action_end w) (regexps w) (terminals w) (bases w) (ops w) (needStateManagement w) (needOperatorStack w) (undefined w) (events w).
Definition ends_with (t : text) (w : world) : world :=
  World (generateAst w) (hasLexer w) (automaton w) (env w) t (regexps w) (terminals w) (bases w) (ops w) (needStateManagement w) (needOperatorStack w) (undefined w) (events w).
Definition bad (w : world) : world :=
  World (generateAst w) (hasLexer w) (automaton w) (env w) (action_end w) (regexps w) (terminals w) (bases w) (ops w) (needStateManagement w) (needOperatorStack w) true (events w).
Definition need_state (w : world) : world :=
  World (generateAst w) (hasLexer w) (automaton w) (env w) (action_end w) (regexps w) (terminals w) (bases w) (ops w) true
    (needOperatorStack w) (undefined w) (events w).
Definition need_operators (w : world) : world :=
  World (generateAst w) (hasLexer w) (automaton w) (env w) (action_end w) (regexps w) (terminals w) (bases w) (ops w)
    (needStateManagement w) true (undefined w) (events w).
Definition set_ops (o : list operators) (w : world) : world :=
  World (generateAst w) (hasLexer w) (automaton w) (env w) (action_end w) (regexps w) (terminals w) (bases w) o (needStateManagement w) (needOperatorStack w) (undefined w) (events w).

Definition lookup {A} (x : text) (l : list (text * A)) : option A :=
  match find (fun e => if list_eq_dec ascii_dec (fst e) x then true else false) l with Some e => Some (snd e) | None => None end.

(** 179-180: astBaseClasses[...] = ... *)
Definition set_base (x b : text) (w : world) : world :=
  World (generateAst w) (hasLexer w) (automaton w) (env w) (action_end w) (regexps w) (terminals w) ((x, b) :: bases w) (ops w) (needStateManagement w) (needOperatorStack w)
    (undefined w) (events w).
(** 190-192: regexpById[...] = ... *)
Definition name_regexp (x : text) (r : rex) (w : world) : world :=
  World (generateAst w) (hasLexer w) (automaton w) (env w) (action_end w) ((x, r) :: regexps w) (terminals w) (bases w) (ops w) (needStateManagement w) (needOperatorStack w)
    (undefined w) (events w).
(** 185-186; that the first action of a rule set is the one for failing is left to
    [actions_of] below. *)
Definition enter_lexer (e : text) (w : world) : world :=
  World (generateAst w) true (automaton w) e (action_end w) (regexps w) (terminals w) (bases w) (ops w) (needStateManagement w) (needOperatorStack w) (undefined w)
    (EnterLexer e :: events w).
(** 102-156; [None]: exit(-1). *)
Definition lexer_type (d : lexer_decl) (w : world) : option world :=
  if hasLexer w then None else option_map (fun t => set_automaton t w) (declare (automaton w) d).
(** kdev-pg.h 190-198: pushTerminal; the first description stays. *)
Definition push_terminal (x d : text) (w : world) : world :=
  match lookup x (terminals w) with
  | Some _ => w
  | None => World (generateAst w) (hasLexer w) (automaton w) (env w) (action_end w) (regexps w) (terminals w ++ [(x, d)]) (bases w)
              (ops w) (needStateManagement w) (needOperatorStack w) (undefined w) (events w)
  end.
(** kdev-pg.h 138-146: terminal(). *)
Definition terminal (x : text) (w : world) : item :=
  match lookup x (terminals w) with Some d => ITerminal x d | None => ITerminal x x end.
(** 567-573: a new OperatorItem. *)
Definition no_operators (w : world) : world := set_ops [] w.
Definition push_operator (o : operators) (w : world) : world := set_ops (ops w ++ [o]) w.

(** kdev-pg-clone-tree.cpp: the visits put copies on a stack (CloneModel, where nodes have
    addresses).  [None]: an empty stack is popped. *)
Fixpoint visit (i : item) (st : list item) : option (list item) :=
  let one f o := match o with Some (j :: st) => Some (f j :: st) | _ => None end in
  match i with
  | IZero | ITerminal _ _ | IOperator _ _ _ | INonTerminal _ _ | IInline _ | IBad => Some (i :: st)
  | IPlus j => one IPlus (visit j st)
  | IStar j => one IStar (visit j st)
  | ICode c => one (fun j => IAction j c) (Some st)
  | IAction j c => one (fun j => IAction j c) (visit j st)
  | IAlternative l r =>
    match visit l st with
    | Some (l :: st) => one (IAlternative l) (visit r st)
    | _ => None
    end
  | ICons l r =>
    match visit l st with
    | Some (l :: st) => one (ICons l) (visit r st)
    | _ => None
    end
  | ITryRecover j => one ITryRecover (visit j st)
  | ITryRollback j c =>
    match visit j st with
    | Some (j :: st) => one (ITryRollback j) (visit c st)
    | _ => None
    end
  | IAnnotation x s m j => one (IAnnotation x s m) (visit j st)
  | ICondition _ j => visit j st
  | IEvolve j s d c => one (fun j => IEvolve j s d c) (visit j st)
  end.
Definition clone (i : item) : option item := match visit i [] with Some (j :: _) => Some j | _ => None end.

(** 528-537, 588-611 need the values, which follow. *)
Inductive val :=
| VNone
| VText (t : text)
| VLiteral (t : text)          (* a string literal of the program *)
| VItem (i : item)
| VRex (x : rex)
| VMember (k : member_kind) (code : text)
| VStorage (member : bool)
| VArgument (argument : bool)
| VKind (t : vtype)
| VDecls (l : list declaration)
| VOper (o : operator).

(** %type, 66-77: the members of the union. *)
Definition txt (v : val) : text := match v with VText t | VLiteral t => t | _ => [] end.
Definition itm (v : val) : item := match v with VItem i => i | _ => IBad end.
Definition rex_of (v : val) : rex := match v with VRex x => x | _ => XEps end.
Definition mkind (v : val) : member_kind := match v with VMember k _ => k | _ => PublicDeclaration end.
Definition mcode (v : val) : text := match v with VMember _ c => c | _ => [] end.
Definition member (v : val) : bool := match v with VStorage b => b | _ => false end.
Definition argument (v : val) : bool := match v with VArgument b => b | _ => false end.
Definition kind (v : val) : vtype := match v with VKind t => t | _ => TypeNode end.
Definition decls (v : val) : list declaration := match v with VDecls l => l | _ => [] end.
Definition oper (v : val) : operator := match v with VOper o => o | _ => Operator IBad [] [] end.
Definition nothing : val := VNone.

(** 530-534: postfix_item '@' primary_item. *)
Definition list_of (x y : item) (w : world) : val * world :=
  match clone y, clone x with
  | Some y', Some x' => (VItem (ICons x (IStar (ICons y' x'))), w)
  | _, _ => (VItem IBad, bad w)
  end.
(** kdev-pg.h 65-76: capitalized; names are ASCII. *)
Definition capitalized (t : text) : text :=
  match t with
  | [] => []
  | c :: u => (if (N.leb 97 (N_of_ascii c) && N.leb (N_of_ascii c) 122)%bool then ascii_of_N (N_of_ascii c - 32) else c) :: u
  end.
(** 588-611: the base is cast to NonTerminalItem whatever it is. *)
Definition operator_rule (base : item) (name : text) (l : list declaration) (code : text) (w : world) : val * world :=
  match base with
  | INonTerminal s _ =>
    let w := match lookup s (bases w) with Some _ => w | None => set_base s (capitalized name ++ chars "Ast") w end in
    (VItem (IEvolve (IOperator name s (ops w)) name l code), w <+ PushSymbol name)
  | _ => (VItem IBad, bad w)
  end.
(** 618: free($3). *)
Definition free_text (v : val) (w : world) : world := match v with VLiteral _ => bad w | _ => w end.

(** ** Actions
    [v n] is $n.  pass n: $$ = $n, as bison does for n = 1 if there is no action. *)
Definition semantics := list val -> list val -> world -> option (val * world).
Definition arg (vs : list val) (n : nat) : val := nth (pred n) vs VNone.
Definition pass (n : nat) : semantics := fun vs _ w => Some (arg vs n, w).
Definition nil : semantics := fun _ _ w => Some (VNone, w).
Definition gives (f : (nat -> val) -> val) : semantics := fun vs _ w => Some (f (arg vs), w).
Definition acts (f : (nat -> val) -> world -> world) : semantics := fun vs _ w => Some (VNone, f (arg vs) w).
Definition may (f : (nat -> val) -> world -> option world) : semantics :=
  fun vs _ w => match f (arg vs) w with Some w => Some (VNone, w) | None => None end.
Definition both (f : (nat -> val) -> world -> val * world) : semantics := fun vs _ w => Some (f (arg vs) w).
(** A mid-rule action after n symbols. *)
Definition mid (n : nat) (f : (nat -> val) -> world -> option (val * world)) : semantics :=
  fun _ below w => f (arg (rev (firstn n below))) w.
Definition rex2 (f : rex -> rex -> rex) : semantics := gives (fun v => VRex (f (rex_of (v 1)) (rex_of (v 3)))).
(** 345-359, 429-443; [None]: exit(-1). *)
Definition act_named : semantics :=
  fun vs _ w => match lookup (txt (arg vs 1)) (regexps w) with Some x => Some (VRex (XNamed x), w) | None => None end.

(** ** The grammar, 79-692
    Line, left side, right side, action.  @1, @2, ... are the mid-rule actions. *)
Definition written : list (string * string * semantics) :=
  [ ("$accept", "system $end", nil);
    (* 81 *) ("@1", "", mid 1 (fun v w => Some (nothing, w <+ Set_ "decl" (txt (v 1)))));
    (* 81 *) ("system", "code_opt @1 declarations rules code_opt", acts (fun v w => w <+ Add "bits" (txt (v 5))));
    (* 88 *) ("declarations", "declaration", pass 1);
    (* 89 *) ("declarations", "declarations declaration", pass 1);
    (* 93 *) ("declaration", "T_PARSERCLASS_DECLARATION member_declaration_rest", acts (fun v w => w <+ Member "parserclass" (mkind (v 2)) (mcode (v 2))));
    (* 95 *) ("declaration", "T_PARSERCLASS_DECLARATION '(' T_BITS ')' T_CODE", acts (fun v w => w <+ Add "bits" (txt (v 5))));
    (* 97 *) ("declaration", "T_LEXERCLASS_DECLARATION member_declaration_rest", acts (fun v w => w <+ Member "lexerclass" (mkind (v 2)) (mcode (v 2))));
    (* 99 *) ("declaration", "T_LEXERCLASS_DECLARATION '(' T_BITS ')' T_CODE", acts (fun v w => w <+ Add "lexerBits" (txt (v 5))));
    (* 101 *) ("declaration", "T_TOKEN_DECLARATION declared_tokens ';'", pass 1);
    (* 102 *) ("declaration", "T_TABLE_LEXER", may (fun v w => lexer_type TableLexer w));
    (* 116 *) ("declaration", "T_SEQUENCE_LEXER", may (fun v w => lexer_type SequenceLexer w));
    (* 130 *) ("declaration", "T_INPUT_ENCODING T_STRING", may (fun v w => lexer_type (InputEncoding (map N_of_ascii (txt (v 2)))) w));
    (* 157 *) ("declaration", "T_TOKEN_STREAM_DECLARATION T_IDENTIFIER ';'", acts (fun v w => w <+ Set_ "tokenStream" (txt (v 2))));
    (* 159 *) ("declaration", "T_EXPORT_MACRO T_STRING", acts (fun v w => w <+ Set_ "exportMacro" (txt (v 2))));
    (* 161 *) ("declaration", "T_EXPORT_MACRO_HEADER T_STRING", acts (fun v w => w <+ Set_ "exportMacroHeader" (txt (v 2))));
    (* 163 *) ("declaration", "T_NAMESPACE_DECLARATION T_CODE", acts (fun v w => w <+ Set_ "namespaceCode" (txt (v 2))));
    (* 165 *) ("declaration", "T_AST_DECLARATION T_CODE", acts (fun v w => w <+ Set_ "astCode" (txt (v 2))));
    (* 167 *) ("declaration", "T_PARSER_DECLARATION_HEADER T_STRING", acts (fun v w => w <+ Add "parserDeclarationHeaders" (txt (v 2))));
    (* 169 *) ("declaration", "T_PARSER_BITS_HEADER T_STRING", acts (fun v w => w <+ Add "parserBitsHeaders" (txt (v 2))));
    (* 171 *) ("declaration", "T_AST_HEADER T_STRING", acts (fun v w => w <+ Add "astHeaders" (txt (v 2))));
    (* 173 *) ("declaration", "T_LEXER_DECLARATION_HEADER T_STRING", acts (fun v w => w <+ Add "lexerDeclarationHeaders" (txt (v 2))));
    (* 175 *) ("declaration", "T_INPUT_STREAM T_STRING", acts (fun v w => w <+ Set_ "inputStream" (txt (v 2))));
    (* 177 *) ("declaration", "T_LEXER_BITS_HEADER T_STRING", acts (fun v w => w <+ Add "lexerBitsHeaders" (txt (v 2))));
    (* 179 *) ("declaration", "T_AST_BASE T_IDENTIFIER T_STRING", acts (fun v w => set_base (txt (v 2)) (txt (v 3)) w));
    (* 181 *) ("declaration", "T_PARSER_BASE T_STRING", acts (fun v w => w <+ Set_ "parserBaseClass" (txt (v 2))));
    (* 183 *) ("declaration", "T_LEXER_BASE T_STRING", acts (fun v w => w <+ Set_ "lexerBaseClass" (txt (v 2))));
    (* 185 *) ("@2", "", mid 2 (fun v w => Some (nothing, enter_lexer (txt (v 2)) w)));
    (* 185 *) ("declaration", "T_LEXER T_STRING @2 T_ARROW lexer_declaration_rest ';'", pass 1);
    (* 186 *) ("@3", "", mid 1 (fun v w => Some (nothing, enter_lexer (chars "start") w)));
    (* 186 *) ("declaration", "T_LEXER @3 T_ARROW lexer_declaration_rest ';'", pass 1);
    (* 190 *) ("@4", "", mid 4 (fun v w => Some (nothing, name_regexp (txt (v 3)) (rex_of (v 1)) w)));
    (* 190 *) ("lexer_declaration_rest", "regexp T_ARROW T_IDENTIFIER ';' @4 lexer_declaration_rest", pass 1);
    (* 193 *) ("@5", "", mid 4 (fun v w => Some (nothing, w <+ LexerRule (env w) (Plain (rex_of (v 1))) (txt (v 2) ++ action_end w))));
    (* 193 *) ("lexer_declaration_rest", "regexp code_opt opt_lexer_action ';' @5 lexer_declaration_rest", pass 1);
    (* 203 *) ("@6", "", mid 8 (fun v w => Some (nothing, w <+ LexerRule (env w) (Lookahead (rex_of (v 1)) (rex_of (v 4))) (txt (v 6) ++ action_end w))));
    (* 203 *) ("lexer_declaration_rest", "regexp T_LOOKAHEAD '(' regexp ')' code_opt opt_lexer_action ';' @6 lexer_declaration_rest", pass 1);
    (* 235 *) ("@7", "", mid 8 (fun v w => Some (nothing, w <+ LexerRule (env w) (Barrier (rex_of (v 1)) (rex_of (v 4))) (txt (v 6) ++ action_end w))));
    (* 235 *) ("lexer_declaration_rest", "regexp T_BARRIER '(' regexp ')' code_opt opt_lexer_action ';' @7 lexer_declaration_rest", pass 1);
    (* 277 *) ("@8", "", mid 2 (fun v w => Some (nothing, w <+ FailCode (env w) (txt (v 2)))));
    (* 277 *) ("lexer_declaration_rest", "T_FAIL T_CODE @8 lexer_declaration_rest", pass 1);
    (* 281 *) ("@9", "", mid 2 (fun v w => Some (nothing, w <+ EnterCode (env w) (txt (v 2)))));
    (* 281 *) ("lexer_declaration_rest", "T_ENTER_RULE_SET T_CODE @9 lexer_declaration_rest", pass 1);
    (* 285 *) ("@10", "", mid 2 (fun v w => Some (nothing, w <+ LeaveCode (env w) (txt (v 2)))));
    (* 285 *) ("lexer_declaration_rest", "T_LEAVE_RULE_SET T_CODE @10 lexer_declaration_rest", pass 1);
    (* 290 *) ("lexer_declaration_rest", "", nil);
    (* 293 *) ("opt_lexer_action", "T_TERMINAL", acts (fun v w => ends_with ([LF] ++ chars "lxRETURN(" ++ txt (v 1) ++ chars ")" ++ [LF]) w));
    (* 296 *) ("opt_lexer_action", "T_CONTINUE", acts (fun v w => ends_with ([LF] ++ chars "lxCONTINUE;" ++ [LF]) w));
    (* 299 *) ("opt_lexer_action", "", acts (fun v w => ends_with ([LF] ++ chars "lxSKIP" ++ [LF]) w));
    (* 303 *) ("regexp", "regexp '|' regexp1", rex2 XOr);
    (* 304 *) ("regexp", "regexp1", pass 1);
    (* 308 *) ("regexp1", "regexp1 '&' regexp2", rex2 XAnd);
    (* 309 *) ("regexp1", "regexp2", pass 1);
    (* 313 *) ("regexp2", "regexp3 '^' regexp2", rex2 XBut);
    (* 314 *) ("regexp2", "regexp3", pass 1);
    (* 318 *) ("regexp3", "'~' regexp3", gives (fun v => VRex (XNot (rex_of (v 2)))));
    (* 319 *) ("regexp3", "'?' regexp3", gives (fun v => VRex (XOpt (rex_of (v 2)))));
    (* 320 *) ("regexp3", "regexp4", pass 1);
    (* 324 *) ("regexp4", "regexp4 regexp5", gives (fun v => VRex (XCat (rex_of (v 1)) (rex_of (v 2)))));
    (* 325 *) ("regexp4", "regexp5", pass 1);
    (* 329 *) ("regexp5", "regexp5 '@' regexp6", rex2 XSep);
    (* 330 *) ("regexp5", "regexp6", pass 1);
    (* 334 *) ("regexp6", "regexp6 '*'", gives (fun v => VRex (XStar (rex_of (v 1)))));
    (* 335 *) ("regexp6", "regexp6 '+'", gives (fun v => VRex (XPlus (rex_of (v 1)))));
    (* 336 *) ("regexp6", "regexp7", pass 1);
    (* 340 *) ("regexp7", "'(' regexp ')'", pass 2);
    (* 341 *) ("regexp7", "'[' aregexp ']'", pass 2);
    (* 342 *) ("regexp7", "'.'", gives (fun v => VRex XAny));
    (* 343 *) ("regexp7", "T_STRING", gives (fun v => VRex (XString (txt (v 1)))));
    (* 344 *) ("regexp7", "T_UNQUOTED_STRING", gives (fun v => VRex (XString (txt (v 1)))));
    (* 345 *) ("regexp7", "T_NAMED_REGEXP", act_named);
    (* 360 *) ("regexp7", "", gives (fun v => VRex XEps));
    (* 364 *) ("aregexp", "aregexp '|' aregexp1", rex2 XOr);
    (* 365 *) ("aregexp", "aregexp1", pass 1);
    (* 369 *) ("aregexp1", "aregexp1 '&' aregexp2", rex2 XAnd);
    (* 370 *) ("aregexp1", "aregexp2", pass 1);
    (* 374 *) ("aregexp2", "aregexp3 '^' aregexp2", rex2 XBut);
    (* 375 *) ("aregexp2", "aregexp3", pass 1);
    (* 379 *) ("aregexp3", "'~' aregexp3", gives (fun v => VRex (XNot (rex_of (v 2)))));
    (* 380 *) ("aregexp3", "'?' aregexp3", gives (fun v => VRex (XOpt (rex_of (v 2)))));
    (* 381 *) ("aregexp3", "aregexp4", pass 1);
    (* 385 *) ("aregexp4", "aregexp4 aregexp5", gives (fun v => VRex (XOr (rex_of (v 1)) (rex_of (v 2)))));
    (* 386 *) ("aregexp4", "aregexp5", pass 1);
    (* 390 *) ("aregexp5", "aregexp5 '@' aregexp6", rex2 XSep);
    (* 391 *) ("aregexp5", "aregexp6", pass 1);
    (* 395 *) ("aregexp6", "aregexp6 '*'", gives (fun v => VRex (XStar (rex_of (v 1)))));
    (* 396 *) ("aregexp6", "aregexp6 '+'", gives (fun v => VRex (XPlus (rex_of (v 1)))));
    (* 397 *) ("aregexp6", "aregexp7", pass 1);
    (* 401 *) ("aregexp7", "'(' regexp ')'", pass 2);
    (* 402 *) ("aregexp7", "'[' aregexp ']'", pass 2);
    (* 403 *) ("aregexp7", "'.'", gives (fun v => VRex XAny));
    (* 404 *) ("aregexp7", "T_STRING", gives (fun v => VRex (XString (txt (v 1)))));
    (* 405 *) ("aregexp7", "T_RANGE", gives (fun v => VRex (XRange (txt (v 1)))));
    (* 428 *) ("aregexp7", "T_UNQUOTED_STRING", gives (fun v => VRex (XChars (txt (v 1)))));
    (* 429 *) ("aregexp7", "T_NAMED_REGEXP", act_named);
    (* 444 *) ("aregexp7", "", gives (fun v => VRex XEps));
    (* 449 *) ("member_declaration_rest", "'(' T_PUBLIC T_DECLARATION ')' T_CODE", gives (fun v => VMember PublicDeclaration (txt (v 5))));
    (* 451 *) ("member_declaration_rest", "'(' T_PROTECTED T_DECLARATION ')' T_CODE", gives (fun v => VMember ProtectedDeclaration (txt (v 5))));
    (* 453 *) ("member_declaration_rest", "'(' T_PRIVATE T_DECLARATION ')' T_CODE", gives (fun v => VMember PrivateDeclaration (txt (v 5))));
    (* 455 *) ("member_declaration_rest", "'(' T_CONSTRUCTOR ')' T_CODE", gives (fun v => VMember ConstructorCode (txt (v 4))));
    (* 457 *) ("member_declaration_rest", "'(' T_DESTRUCTOR ')' T_CODE", gives (fun v => VMember DestructorCode (txt (v 4))));
    (* 462 *) ("declared_tokens", "T_TERMINAL", acts (fun v w => push_terminal (txt (v 1)) (txt (v 1)) w));
    (* 463 *) ("declared_tokens", "T_TERMINAL '(' T_STRING ')'", acts (fun v w => push_terminal (txt (v 1)) (txt (v 3)) w));
    (* 464 *) ("declared_tokens", "declared_tokens ',' T_TERMINAL", acts (fun v w => push_terminal (txt (v 3)) (txt (v 3)) w));
    (* 465 *) ("declared_tokens", "declared_tokens ',' T_TERMINAL '(' T_STRING ')'", acts (fun v w => push_terminal (txt (v 3)) (txt (v 5)) w));
    (* 471 *) ("rules", "", nil);
    (* 471 *) ("rules", "rules item ';'", acts (fun v w => w <+ PushRule (itm (v 2))));
    (* 475 *) ("primary_item", "'0'", gives (fun v => VItem IZero));
    (* 476 *) ("primary_item", "'(' option_item ')'", pass 2);
    (* 477 *) ("primary_item", "try_item", pass 1);
    (* 478 *) ("primary_item", "primary_atom", pass 1);
    (* 479 *) ("primary_item", "T_INLINE T_IDENTIFIER", both (fun v w => (VItem (IInline (txt (v 2))), w <+ PushSymbol (txt (v 2)))));
    (* 480 *) ("primary_item", "name scope primary_atom", gives (fun v => VItem (IAnnotation (txt (v 1)) false (member (v 2)) (itm (v 3)))));
    (* 481 *) ("primary_item", "'#' name scope primary_atom", gives (fun v => VItem (IAnnotation (txt (v 2)) true (member (v 3)) (itm (v 4)))));
    (* 485 *) ("primary_atom", "T_IDENTIFIER rule_arguments_opt", both (fun v w => (VItem (INonTerminal (txt (v 1)) (txt (v 2))), w <+ PushSymbol (txt (v 1)))));
    (* 486 *) ("primary_atom", "T_TERMINAL", both (fun v w => (VItem (terminal (txt (v 1)) w), w)));
    (* 490 *) ("try_item", "T_TRY_RECOVER '(' option_item ')'", both (fun v w => (VItem (ITryRecover (itm (v 3))), need_state w)));
    (* 495 *) ("try_item", "T_TRY_ROLLBACK '(' option_item ')' T_CATCH '(' option_item ')'", both (fun v w => (VItem (ITryRollback (itm (v 3)) (itm (v 7))), need_state w)));
    (* 502 *) ("rule_arguments_opt", "", gives (fun v => VText []));
    (* 503 *) ("rule_arguments_opt", "T_RULE_ARGUMENTS", pass 1);
    (* 507 *) ("name", "T_IDENTIFIER", pass 1);
    (* 517 *) ("scope", "'='", gives (fun v => VStorage true));
    (* 518 *) ("scope", "':'", gives (fun v => VStorage false));
    (* 522 *) ("unary_item", "primary_item '+'", gives (fun v => VItem (IPlus (itm (v 1)))));
    (* 523 *) ("unary_item", "primary_item '*'", gives (fun v => VItem (IStar (itm (v 1)))));
    (* 524 *) ("unary_item", "primary_item", pass 1);
    (* 525 *) ("unary_item", "'?' primary_item", gives (fun v => VItem (IAlternative (itm (v 2)) IZero)));
    (* 529 *) ("postfix_item", "unary_item", pass 1);
    (* 530 *) ("postfix_item", "postfix_item '@' primary_item", both (fun v w => list_of (itm (v 1)) (itm (v 3)) w));
    (* 535 *) ("postfix_item", "postfix_item T_CODE", gives (fun v => VItem (IAction (itm (v 1)) (txt (v 2)))));
    (* 536 *) ("postfix_item", "T_CODE", gives (fun v => VItem (ICode (txt (v 1)))));
    (* 540 *) ("item_sequence", "postfix_item", pass 1);
    (* 541 *) ("item_sequence", "item_sequence postfix_item", gives (fun v => VItem (ICons (itm (v 1)) (itm (v 2)))));
    (* 545 *) ("conditional_item", "item_sequence", pass 1);
    (* 546 *) ("conditional_item", "'?' T_CODE item_sequence", gives (fun v => VItem (ICondition (txt (v 2)) (itm (v 3)))));
    (* 550 *) ("option_item", "conditional_item", pass 1);
    (* 551 *) ("option_item", "option_item '|' conditional_item", gives (fun v => VItem (IAlternative (itm (v 1)) (itm (v 3)))));
    (* 555 *) ("item", "option_item T_ARROW T_IDENTIFIER T_CODE '[' variableDeclarations ']'", both (fun v w => (VItem (IEvolve (itm (v 1)) (txt (v 3)) (decls (v 6)) (txt (v 4))), w <+ PushSymbol (txt (v 3)))));
    (* 560 *) ("item", "option_item T_ARROW T_IDENTIFIER '[' variableDeclarations ']' code_opt", both (fun v w => (VItem (IEvolve (itm (v 1)) (txt (v 3)) (decls (v 5)) (txt (v 7))), w <+ PushSymbol (txt (v 3)))));
    (* 565 *) ("item", "option_item T_ARROW T_IDENTIFIER code_opt", both (fun v w => (VItem (IEvolve (itm (v 1)) (txt (v 3)) [] (txt (v 4))), w <+ PushSymbol (txt (v 3)))));
    (* 567 *) ("@11", "", mid 0 (fun v w => if generateAst w then Some (nothing, no_operators w) else None));
    (* 567 *) ("item", "@11 operatorRule", both (fun v w => (v 2, need_operators w)));
    (* 577 *) ("code_opt", "", gives (fun v => VText []));
    (* 578 *) ("code_opt", "T_CODE", pass 1);
    (* 583 *) ("operatorDeclarations", "operatorDeclaration operatorDeclarations", pass 1);
    (* 584 *) ("operatorDeclarations", "", nil);
    (* 588 *) ("operatorRule", "T_LOPR primary_atom operatorDeclarations T_ROPR T_IDENTIFIER '[' variableDeclarations ']' code_opt", both (fun v w => operator_rule (itm (v 2)) (txt (v 5)) (decls (v 7)) (txt (v 9)) w));
    (* 596 *) ("operatorRule", "T_LOPR primary_atom operatorDeclarations T_ROPR T_IDENTIFIER T_CODE '[' variableDeclarations ']'", both (fun v w => operator_rule (itm (v 2)) (txt (v 5)) (decls (v 8)) (txt (v 6)) w));
    (* 604 *) ("operatorRule", "T_LOPR primary_atom operatorDeclarations T_ROPR T_IDENTIFIER code_opt", both (fun v w => operator_rule (itm (v 2)) (txt (v 5)) [] (txt (v 6)) w));
    (* 615 *) ("operatorDeclaration", "T_BIN operator priority assoc", acts (fun v w => push_operator (Bin (oper (v 2)) (txt (v 4)) (txt (v 3))) w));
    (* 616 *) ("operatorDeclaration", "T_TERN operator operator priority assoc", acts (fun v w => push_operator (Tern (oper (v 2)) (oper (v 3)) (txt (v 5)) (txt (v 4))) w));
    (* 617 *) ("operatorDeclaration", "T_PRE operator priority", acts (fun v w => push_operator (Pre (oper (v 2)) (txt (v 3))) w));
    (* 618 *) ("operatorDeclaration", "T_POST operator priority", acts (fun v w => free_text (v 3) (push_operator (Post (oper (v 2)) (chars "0") (txt (v 3))) w)));
    (* 619 *) ("operatorDeclaration", "T_POST operator priority assoc", acts (fun v w => push_operator (Post (oper (v 2)) (txt (v 4)) (txt (v 3))) w));
    (* 620 *) ("operatorDeclaration", "T_PAREN operator operator", acts (fun v w => push_operator (Paren (oper (v 2)) (oper (v 3))) w));
    (* 624 *) ("priority", "'0'", gives (fun v => VLiteral (chars "0")));
    (* 625 *) ("priority", "T_NUMBER", pass 1);
    (* 626 *) ("priority", "T_PRIORITY T_CODE", pass 2);
    (* 630 *) ("assoc", "T_LEFT_ASSOC", gives (fun v => VLiteral (chars "1")));
    (* 631 *) ("assoc", "T_RIGHT_ASSOC", gives (fun v => VLiteral (chars "0")));
    (* 632 *) ("assoc", "T_IS_LEFT_ASSOC T_CODE", gives (fun v => VText (chars "(" ++ txt (v 2) ++ chars "?1:0)")));
    (* 639 *) ("assoc", "T_IS_RIGHT_ASSOC T_CODE", gives (fun v => VText (chars "(" ++ txt (v 2) ++ chars "?0:1)")));
    (* 649 *) ("operator", "'?' T_CODE T_TERMINAL T_CODE", both (fun v w => (VOper (Operator (terminal (txt (v 3)) w) (txt (v 2)) (txt (v 4))), w)));
    (* 650 *) ("operator", "'?' T_CODE T_TERMINAL", both (fun v w => (VOper (Operator (terminal (txt (v 3)) w) (txt (v 2)) []), w)));
    (* 651 *) ("operator", "T_TERMINAL T_CODE", both (fun v w => (VOper (Operator (terminal (txt (v 1)) w) [] (txt (v 2))), w)));
    (* 652 *) ("operator", "T_TERMINAL", both (fun v w => (VOper (Operator (terminal (txt (v 1)) w) [] []), w)));
    (* 656 *) ("variableDeclarations", "variableDeclaration", pass 1);
    (* 657 *) ("variableDeclarations", "variableDeclarations variableDeclaration", gives (fun v => VDecls (decls (v 1) ++ decls (v 2))));
    (* 669 *) ("variableDeclaration", "declarationType_opt storageType variableType T_IDENTIFIER ':' T_IDENTIFIER", gives (fun v => VDecls [Declaration (argument (v 1)) (member (v 2)) (kind (v 3)) false (txt (v 4)) (txt (v 6))]));
    (* 671 *) ("variableDeclaration", "declarationType_opt storageType T_TOKEN T_IDENTIFIER ';'", gives (fun v => VDecls [Declaration (argument (v 1)) (member (v 2)) TypeToken false (txt (v 4)) []]));
    (* 673 *) ("variableDeclaration", "declarationType_opt storageType variableType '#' T_IDENTIFIER ':' T_IDENTIFIER", gives (fun v => VDecls [Declaration (argument (v 1)) (member (v 2)) (kind (v 3)) true (txt (v 5)) (txt (v 7))]));
    (* 675 *) ("variableDeclaration", "declarationType_opt storageType T_TOKEN '#' T_IDENTIFIER ';'", gives (fun v => VDecls [Declaration (argument (v 1)) (member (v 2)) TypeToken true (txt (v 5)) []]));
    (* 680 *) ("declarationType_opt", "", gives (fun v => VArgument false));
    (* 681 *) ("declarationType_opt", "T_ARGUMENT", gives (fun v => VArgument true));
    (* 685 *) ("storageType", "T_MEMBER", gives (fun v => VStorage true));
    (* 686 *) ("storageType", "T_TEMPORARY", gives (fun v => VStorage false));
    (* 690 *) ("variableType", "T_NODE", gives (fun v => VKind TypeNode));
    (* 691 *) ("variableType", "T_VARIABLE", gives (fun v => VKind TypeVariable)) ].

(** ** Symbols as numbers *)
Fixpoint split (cur : string) (s : string) : list string :=
  match s with
  | EmptyString => match cur with EmptyString => [] | _ => [cur] end
  | String c s => if Ascii.eqb c " " then match cur with EmptyString => split "" s | _ => cur :: split "" s end
                  else split (cur ++ String c EmptyString)%string s
  end.
Definition words (s : string) : list string := split "" s.
Fixpoint uniq (seen l : list string) : list string :=
  match l with
  | [] => rev seen
  | x :: l => if existsb (String.eqb x) seen then uniq seen l else uniq (x :: seen) l
  end.
Fixpoint pos (x : string) (l : list string) (n : N) : N :=
  match l with [] => n | y :: l => if String.eqb x y then n else pos x l (N.succ n) end.

Definition nonterminals : list string := Eval vm_compute in uniq [] (map (fun p => fst (fst p)) written).
(** $end is number 0. *)
Definition tokens : list string := Eval vm_compute in
  "$end" :: filter (fun x => negb (String.eqb x "$end") && negb (existsb (String.eqb x) nonterminals))
              (uniq [] (flat_map (fun p => words (snd (fst p))) written)).
Definition nt_of (x : string) : N := pos x nonterminals 0.
Definition tok_of (x : string) : N := pos x tokens 0.
Definition symbol (x : string) : sym := if existsb (String.eqb x) nonterminals then NT (nt_of x) else T (tok_of x).
Definition productions : list prod := Eval vm_compute in
  map (fun p => Prod (nt_of (fst (fst p))) (map symbol (words (snd (fst p))))) written.
Definition nnt : N := N.of_nat (List.length nonterminals).
Definition nt : N := N.of_nat (List.length tokens).
Definition sem (p : N) : list val -> list val -> world -> option (val * world) :=
  nth (N.to_nat p) (map snd written) nil.

(** The table; GramTableProofs has it as a list of states. *)
Definition grammar_table : table := lalr productions nnt nt 2000.

(** ** Tokens of the scanner
    A character token is its own name; an unknown character is no token of the grammar. *)
Definition token_name (t : token) : string :=
  match t with Chr c => String "'" (String c (String "'" EmptyString)) | Tok n => n end.
Definition input (l : list lexeme) : list (N * val) := map (fun x => (tok_of (token_name (ltok x)), VText (lval x))) l.

(** yyparse() on the tokens of a file. *)
Definition read_tokens (fuel : nat) (ast : bool) (l : list (N * val)) : result val world :=
  parse productions grammar_table 0 val world sem fuel [] (empty_world ast) l.

(** ** What the events leave in globalSystem *)
(** A QString member, from its initial value; the last assignment and what was added. *)
Fixpoint field (x : string) (init : text) (evs : list event) : text :=
  match evs with
  | [] => init
  | Set_ y t :: evs => if String.eqb x y then t else field x init evs
  | Add y t :: evs => if String.eqb x y then field x init evs ++ t else field x init evs
  | _ :: evs => field x init evs
  end.
(** A QStringList member. *)
Fixpoint fields (x : string) (evs : list event) : list text :=
  match evs with
  | [] => []
  | Add y t :: evs => if String.eqb x y then fields x evs ++ [t] else fields x evs
  | _ :: evs => fields x evs
  end.
(** lexerActions[e], without the action made of the length of a lookahead. *)
Fixpoint actions_of (e : text) (evs : list event) : list text :=
  match evs with
  | [] => []
  | EnterLexer e' :: evs =>
    let l := actions_of e evs in
    if list_eq_dec ascii_dec e e' then match l with [] => [chars "qDebug() << " ++ [QUOTE] ++ chars "error" ++ [QUOTE] ++ chars "; exit(-1);"] | _ => l end else l
  | LexerRule e' _ c :: evs => if list_eq_dec ascii_dec e e' then actions_of e evs ++ [c] else actions_of e evs
  | FailCode e' c :: evs =>
    let l := actions_of e evs in
    if list_eq_dec ascii_dec e e' then match l with [] => [] | _ :: l => c :: l end else l
  | _ :: evs => actions_of e evs
  end.
