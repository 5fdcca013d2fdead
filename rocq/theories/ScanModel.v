(** The scanner of grammar files: src/kdev-pg-lexer.ll.

    Simplifications: the token codes are names; [calloc] does not fail; the line buffer
    never runs out of memory; numbers do not overflow; `char` is signed (as on x86), so
    that the byte 255 read by [inp] is EOF. *)
From Coq Require Import List Ascii String Bool PeanoNat ZArith Decimal DecimalString.
From Verif Require Import FlexModel.
Import ListNotations.

Definition CR : ascii := "013"%char.
Definition LF : ascii := "010"%char.
Definition FF : ascii := "012"%char.
Definition TAB : ascii := "009"%char.
Definition SP : ascii := " "%char.
Definition QUOTE : ascii := "034"%char.
Definition BSL : ascii := "\"%char.

(** kdev-pg-lexer.ll 93-96: the named patterns. *)
Definition blanks : text := [SP; FF; TAB].
Definition Whitespace : re := oneof blanks.
Definition Newline : re := RAlt (lit_ [CR; LF]) (RAlt (chr CR) (chr LF)).
Definition StringRe : re :=
  RSeq (chr QUOTE)
    (RSeq (RStar (RAlt (noneof [CR; LF; QUOTE]) (RSeq (chr BSL) (noneof [CR; LF]))))
       (chr QUOTE)).
Definition letter (c : ascii) : bool := between "a" "z" c || between "A" "Z" c.
Definition digit (c : ascii) : bool := between "0" "9" c.
Definition under (c : ascii) : bool := is "_" c.
Definition hex (c : ascii) : bool := digit c || between "a" "f" c || between "A" "F" c.
Definition bsl (l : string) : re := RSeq (chr BSL) (oneof (chars l)).
Definition CharRe : re :=
  RAlt (RCls (fun c => under c || letter c || digit c))
  (RAlt (RSeq (bsl "xXuU") (upto 6 (RCls hex)))
  (RAlt (RSeq (bsl "oO") (RSeq (RCls (between "0" "7")) (RStar (RCls (between "0" "7")))))
  (RAlt (RSeq (bsl "dD") (upto 7 (RCls digit)))
  (RAlt (RSeq (bsl "yY") (upto 21 (oneof (chars "01"))))
        (RSeq (chr BSL) (RCls (between " " "127"))))))).

(** 97-103: start conditions; 73-83: the scanner's own variables. *)
Inductive mode := INITIAL | CODE | PARSERCLASS | RULE_ARGUMENTS | RULE_PARAMETERS_HEADER
                | RULE_PARAMETERS_VARNAME | RULE_LEXER.
Inductive position := RuleBody | RuleFooter | RuleLexer.

(** kdev-pg.h 152 *)
Inductive policy := BeautifulCode | CompatibilityLineNumbers | FullLineNumbers.
Record config := Config { lines : policy; path : text }.

(** [kept]: the text yymore() keeps; [shown], [offset], [ended], [more], [last_len]:
    yyTextLine, currentOffset, endOfLine, yymoreFlag and lastTextLeng (347-351, 396);
    [echoed]: what flex's default rule wrote to stdout. *)
Record scanner := Scanner {
  smode : mode; pos : position; open : Z; code_line : nat; code_col : nat;
  yyline : nat; kept : text; shown : text; offset : nat; ended : bool; more : bool;
  last_len : nat; echoed : text }.

(** 75-82, 348-351: the initial values (those without one are zero). *)
Definition start : scanner :=
  Scanner INITIAL RuleBody 0 0 0 1 [] [] 0 false false 0 [].

Definition begin (m : mode) (s : scanner) : scanner :=
  Scanner m (pos s) (open s) (code_line s) (code_col s) (yyline s) (kept s) (shown s)
    (offset s) (ended s) (more s) (last_len s) (echoed s).
Definition place (p : position) (s : scanner) : scanner :=
  Scanner (smode s) p (open s) (code_line s) (code_col s) (yyline s) (kept s) (shown s)
    (offset s) (ended s) (more s) (last_len s) (echoed s).
Definition opens (z : Z) (s : scanner) : scanner :=
  Scanner (smode s) (pos s) z (code_line s) (code_col s) (yyline s) (kept s) (shown s)
    (offset s) (ended s) (more s) (last_len s) (echoed s).
Definition code_starts (l c : nat) (s : scanner) : scanner :=
  Scanner (smode s) (pos s) (open s) l c (yyline s) (kept s) (shown s)
    (offset s) (ended s) (more s) (last_len s) (echoed s).
Definition echo (c : ascii) (s : scanner) : scanner :=
  Scanner (smode s) (pos s) (open s) (code_line s) (code_col s) (yyline s) (kept s) (shown s)
    (offset s) (ended s) (more s) (last_len s) (echoed s ++ [c]).
Definition unkept (s : scanner) : scanner :=
  Scanner (smode s) (pos s) (open s) (code_line s) (code_col s) (yyline s) [] (shown s)
    (offset s) (ended s) (more s) (last_len s) (echoed s).

(** 33: YYMORE *)
Definition yymore (t : text) (s : scanner) : scanner :=
  Scanner (smode s) (pos s) (open s) (code_line s) (code_col s) (yyline s) t (shown s)
    (offset s) (ended s) true (last_len s) (echoed s).

(** 361-365: newline() *)
Definition newline (s : scanner) : scanner :=
  Scanner (smode s) (pos s) (open s) (code_line s) (code_col s) (S (yyline s)) (kept s)
    (shown s) (offset s) true (more s) (last_len s) (echoed s).

(** 367-372: countNewlines() *)
Definition count_newlines (t : text) (s : scanner) : scanner :=
  Scanner (smode s) (pos s) (open s) (code_line s) (code_col s)
    (yyline s + List.length (filter (Ascii.eqb LF) t)) (kept s)
    (shown s) (offset s) (ended s) (more s) (last_len s) (echoed s).

(** A text as a C string ends before its first NUL. *)
Fixpoint cstr (t : text) : text :=
  match t with [] => [] | c :: u => if Ascii.eqb c "000" then [] else c :: cstr u end.

(** 391-418: appendLineBuffer(), 375-380: clearLineBuffer().  The doubling of the buffer
    is left out. *)
Definition append_line (yytext : text) (s : scanner) : scanner :=
  let line := if ended s then [] else shown s in
  Scanner (smode s) (pos s) (open s) (code_line s) (code_col s) (yyline s) (kept s)
    (line ++ skipn (if more s then last_len s else 0) (cstr yytext))
    (List.length line) false false (List.length (cstr yytext)) (echoed s).

(** What an action leads to: scanning goes on, a token is returned, a lexical error is
    reported (yyerror, 420-454, exits), REJECT, or memory outside of yytext is read. *)
Inductive token := Chr (c : ascii) | Tok (n : string).
Inductive outcome :=
| Go (s : scanner)
| Give (t : token) (v : text) (s : scanner)
| Fails (s : scanner)
| Reject (s : scanner)
| Broken.

(** 43-46: COPY_TO_YYLVAL *)
Definition copy (t : text) : text := cstr t.

Definition decimal (n : nat) : text := chars (NilZero.string_of_uint (Nat.to_uint n)).

(** 47-68: COPY_CODE_TO_YYLVAL *)
Definition copy_code (cfg : config) (s : scanner) (t : text) : text :=
  match lines cfg with
  | BeautifulCode => copy t
  | p =>
    [LF] ++ chars "#" ++
    (match p with CompatibilityLineNumbers => chars "line" | _ => [] end) ++
    [SP] ++ decimal (code_line s) ++ [SP; QUOTE] ++ path cfg ++ [QUOTE] ++
    (match p with FullLineNumbers => chars " 1" | _ => [] end) ++
    [LF] ++ repeat SP (code_col s) ++ cstr t
  end.

(** A rule: the pattern, what has to follow (flex's trailing context) and the action,
    which gets yytext. *)
Record rule := Rule { pat : re; trail : option re; act : config -> scanner -> text -> outcome }.

Definition r0 (p : re) (a : config -> scanner -> text -> outcome) : rule := Rule p None a.
Definition skip (p : re) : rule := r0 p (fun _ s _ => Go s).
Definition nl : rule := r0 Newline (fun _ s _ => Go (newline s)).
Definition nl_more : rule := r0 Newline (fun _ s t => Go (yymore t (newline s))).
Definition more_of (p : re) : rule := r0 p (fun _ s t => Go (yymore t s)).
(** A rule that returns its one character. *)
Definition one (c : ascii) : rule := r0 (chr c) (fun _ s _ => Give (Chr c) [] s).
Definition word (w n : string) : rule := r0 (lit w) (fun _ s _ => Give (Tok n) [] s).
Definition valued (p : re) (n : string) : rule :=
  r0 p (fun _ s t => Give (Tok n) (copy t) s).

(** [yytext++; COPY_TO_YYLVAL(yytext, yyleng - 2)] *)
Definition inner (t : text) : text := firstn (List.length t - 2) (tl t).

Definition comment : re := RSeq (lit "--") (RStar (noneof [CR; LF])).
Definition dot : re := noneof [LF].

Definition start_code : config -> scanner -> text -> outcome :=
  fun _ s _ => Go (begin CODE (code_starts (yyline s) (offset s + 2) s)).

(** 108-169, 187-196, 306, 328-342: the rules of the start condition INITIAL. *)
Definition initial_rules : list rule :=
  [ skip (RStar Whitespace); nl; skip comment;
    r0 (plus (chr ";")) (fun _ s _ => Give (Chr ";") [] (place RuleBody s));
    r0 (lit "->") (fun _ s _ =>
      Give (Tok "T_ARROW") []
        (match pos s with RuleLexer => begin RULE_LEXER s | _ => place RuleFooter s end));
    word ".=" "T_INLINE";
    one "("; one ")"; one "{"; one "}"; one ","; one "0"; one "#"; one "."; one ":"; one "=";
    one "+"; one "*"; one "?"; one "@"; one "|"; one "&";
    word "try/recover" "T_TRY_RECOVER"; word "try/rollback" "T_TRY_ROLLBACK";
    word "catch" "T_CATCH";
    word "%export_macro" "T_EXPORT_MACRO";
    word "%export_macro_header" "T_EXPORT_MACRO_HEADER";
    word "%token" "T_TOKEN_DECLARATION";
    word "%token_stream" "T_TOKEN_STREAM_DECLARATION";
    word "%namespace" "T_NAMESPACE_DECLARATION";
    r0 (lit "%parserclass") (fun _ s _ =>
      Give (Tok "T_PARSERCLASS_DECLARATION") [] (begin PARSERCLASS s));
    r0 (lit "%lexerclass") (fun _ s _ =>
      Give (Tok "T_LEXERCLASS_DECLARATION") [] (begin PARSERCLASS s));
    word "%input_stream" "T_INPUT_STREAM";
    word "%ast_extra_members" "T_AST_DECLARATION";
    word "%parser_declaration_header" "T_PARSER_DECLARATION_HEADER";
    word "%parser_bits_header" "T_PARSER_BITS_HEADER";
    word "%ast_header" "T_AST_HEADER";
    word "%lexer_declaration_header" "T_LEXER_DECLARATION_HEADER";
    word "%lexer_bits_header" "T_LEXER_BITS_HEADER";
    word "%input_encoding" "T_INPUT_ENCODING";
    word "%table_lexer" "T_TABLE_LEXER";
    word "%sequence_lexer" "T_SEQUENCE_LEXER";
    word "%ast_base" "T_AST_BASE"; word "%parser_base" "T_PARSER_BASE";
    word "%lexer_base" "T_LEXER_BASE";
    word "%bin" "T_BIN"; word "%pre" "T_PRE"; word "%post" "T_POST"; word "%tern" "T_TERN";
    word "%paren" "T_PAREN"; word "%priority" "T_PRIORITY";
    r0 (lit "%<") (fun _ s _ => Give (Tok "T_LOPR") [] (place RuleBody s));
    r0 (lit "%>") (fun _ s _ => Give (Tok "T_ROPR") [] (place RuleFooter s));
    word "%left" "T_LEFT_ASSOC"; word "%right" "T_RIGHT_ASSOC";
    word "%isLeft" "T_IS_LEFT_ASSOC"; word "%isRight" "T_IS_RIGHT_ASSOC";
    r0 (lit "%lexer") (fun _ s _ => Give (Tok "T_LEXER") [] (place RuleLexer s));
    r0 (chr "[") (fun _ s _ =>
      match pos s with
      | RuleBody =>
        Go (begin RULE_ARGUMENTS (opens 0 (code_starts (yyline s) (code_col s) s)))
      | RuleFooter => Give (Chr "[") [] (begin RULE_PARAMETERS_HEADER s)
      | RuleLexer => Go s
      end);
    r0 (lit "[:") start_code;
    valued (plus (RCls (fun c => under c || between "A" "Z" c))) "T_TERMINAL";
    valued (RSeq (RCls (fun c => under c || letter c))
                 (RStar (RCls (fun c => under c || letter c || digit c)))) "T_IDENTIFIER";
    valued (plus (RCls digit)) "T_NUMBER";
    r0 StringRe (fun _ s t => Give (Tok "T_STRING") (copy (inner t)) s);
    r0 dot (fun _ s _ => Fails s) ].

(** 171-184 *)
Definition parserclass_rules : list rule :=
  [ skip (RStar Whitespace); nl; one "(";
    word "public" "T_PUBLIC"; word "private" "T_PRIVATE"; word "protected" "T_PROTECTED";
    word "declaration" "T_DECLARATION"; word "constructor" "T_CONSTRUCTOR";
    word "destructor" "T_DESTRUCTOR"; word "bits" "T_BITS";
    r0 (chr ")") (fun _ s _ => Give (Chr ")") [] (begin INITIAL s));
    r0 dot (fun _ s _ => Reject (begin INITIAL s)) ].

Definition space_nl : re := oneof [SP; FF; TAB; CR; LF].
Definition bracket (c : ascii) (d : Z) : rule :=
  r0 (chr c) (fun _ s _ => Give (Chr c) [] (opens (open s + d) s)).

(** 198-231 *)
Definition lexer_rules : list rule :=
  [ skip comment; nl;
    r0 (RSeq (chr "{") (RSeq (RCls (fun c => letter c || under c))
         (RSeq (RStar (RCls (fun c => letter c || under c || digit c))) (chr "}"))))
       (fun _ s t => Give (Tok "T_NAMED_REGEXP") (copy (inner t)) s);
    Rule (RSeq (plus (chr ";")) (plus (RAlt (RSeq comment (oneof [CR; LF])) space_nl)))
         (Some (plus (chr ";")))
         (fun _ s t =>
            Give (Chr ";") [] (begin INITIAL (place RuleBody (count_newlines t s))));
    r0 (plus (chr ";")) (fun _ s _ => Give (Chr ";") [] s);
    bracket "[" 1; bracket "]" (-1); bracket "(" 1; bracket ")" (-1);
    one "?"; one "|"; one "^";
    valued (RSeq CharRe (RSeq (chr "-") CharRe)) "T_RANGE";
    one "&"; one "~"; one "*"; one "+"; one "@"; one ".";
    word "->" "T_ARROW"; word "%continue" "T_CONTINUE"; word "%fail" "T_FAIL";
    word "%enter" "T_ENTER_RULE_SET"; word "%leave" "T_LEAVE_RULE_SET";
    word "%la" "T_LOOKAHEAD"; word "%ba" "T_BARRIER";
    r0 (lit "[:") start_code;
    Rule (plus (RCls (fun c => under c || between "A" "Z" c)))
         (Some (RSeq (RStar space_nl) (chr ";")))
         (fun _ s t => Give (Tok "T_TERMINAL") (copy t) s);
    Rule (plus (RCls (fun c => under c || letter c || digit c)))
         (Some (RSeq (RStar space_nl) (chr ";")))
         (fun _ s t => Give (Tok "T_IDENTIFIER") (copy t) s);
    valued (plus CharRe) "T_UNQUOTED_STRING";
    skip Whitespace;
    r0 StringRe (fun _ s t => Give (Tok "T_STRING") (copy (inner t)) s) ].

(** 240-253 *)
Definition arguments_rules : list rule :=
  [ nl_more; more_of StringRe; more_of (chr QUOTE);
    more_of (RStar (noneof ["["%char; "]"%char; LF; CR; QUOTE]));
    r0 (chr "[") (fun _ s t => Go (yymore t (opens (open s + 1) s)));
    r0 (chr "]") (fun cfg s t =>
      let s := opens (open s - 1) s in
      if Z.ltb (open s) 0
      then Give (Tok "T_RULE_ARGUMENTS")
             (copy_code cfg s (firstn (List.length t - 1) t)) (begin INITIAL s)
      else Go s) ].

(** 262-278 *)
Definition header_rules : list rule :=
  [ skip (RStar Whitespace); nl; skip comment;
    r0 (RSeq (chr ":") (RStar Whitespace)) (fun _ s _ =>
      Give (Chr ":") [] (begin RULE_PARAMETERS_VARNAME s));
    one "#"; word "member" "T_MEMBER"; word "temporary" "T_TEMPORARY";
    word "argument" "T_ARGUMENT"; word "node" "T_NODE"; word "token" "T_TOKEN";
    word "variable" "T_VARIABLE"; one ";";
    valued (RSeq (RStar (RCls (fun c => under c || letter c)))
                 (plus (RCls (fun c => under c || letter c || digit c)))) "T_IDENTIFIER";
    r0 (chr "]") (fun _ s _ => Give (Chr "]") [] (begin INITIAL s));
    r0 dot (fun _ s _ => Reject (begin INITIAL s)) ].

(** 280-303.  The loop `for (int i = length-1; i < 1; i--)` is not entered if the length is
    two or more; otherwise it reads yytext[i-1] for i = 0, -1, ... (the `break` is that of
    the switch) and never ends by itself. *)
Definition varname_rules : list rule :=
  [ nl_more; more_of (RStar (noneof [";"%char; CR; LF]));
    r0 (chr ";") (fun _ s t =>
      let length := List.length t - 1 in
      if Nat.leb 2 length
      then Give (Tok "T_IDENTIFIER") (copy (firstn length t)) (begin RULE_PARAMETERS_HEADER s)
      else Broken);
    r0 dot (fun _ s _ => Reject (begin INITIAL s)) ].

(** 307-318 *)
Definition code_rules : list rule :=
  [ nl_more; more_of (RStar (noneof [":"%char; LF; CR]));
    more_of (RSeq (plus (chr ":")) (RStar (noneof [":"%char; "]"%char; LF; CR])));
    r0 (lit ":]") (fun cfg s t =>
      Give (Tok "T_CODE") (copy_code cfg s (firstn (List.length t - 2) t))
        (match pos s with RuleLexer => begin RULE_LEXER s | _ => begin INITIAL s end)) ].

Definition rules (m : mode) : list rule :=
  match m with
  | INITIAL => initial_rules
  | CODE => code_rules
  | PARSERCLASS => parserclass_rules
  | RULE_ARGUMENTS => arguments_rules
  | RULE_PARAMETERS_HEADER => header_rules
  | RULE_PARAMETERS_VARNAME => varname_rules
  | RULE_LEXER => lexer_rules
  end.

(** What a rule matches at [s]: with the trailing context, and without. *)
Definition matched (r : rule) (s : text) : option (nat * nat) :=
  match trail r with
  | None => match longest (pat r) s with Some n => Some (n, n) | None => None end
  | Some t =>
    match longest (RSeq (pat r) t) s with
    | Some n =>
      match longest (pat r) (firstn n s) with Some h => Some (n, h) | None => None end
    | None => None
    end
  end.

(** The rule flex takes: the longest match of at least one character, the first of equals.
    [None]: flex's default rule. *)
Fixpoint best (l : list rule) (s : text) : option (rule * nat * nat) :=
  match l with
  | [] => None
  | r :: l' =>
    match matched r s with
    | Some (S n, h) =>
      match best l' s with
      | Some (r', n', h') => if Nat.ltb (S n) n' then Some (r', n', h') else Some (r, S n, h)
      | None => Some (r, S n, h)
      end
    | _ => best l' s
    end
  end.

(** One step: the text matched is taken off the input, YY_USER_ACTION (41) comes before
    each action.  REJECT falls back to flex's default rule for one character (ECHO): `.` is
    the last rule of its start condition and no rule matches a character otherwise. *)
Definition step (cfg : config) (st : scanner) (s : text) : outcome * text :=
  match best (rules (smode st)) s with
  | Some (r, n, h) =>
    let t := kept st ++ firstn h s in
    match act r cfg (append_line t (unkept st)) t with
    | Reject st' =>
      match s with
      | c :: u => (Go (echo c (append_line (kept st ++ [c]) st')), u)
      | [] => (Reject st', [])
      end
    | o => (o, skipn h s)
    end
  | None =>
    match s with
    | c :: u => (Go (echo c (append_line (kept st ++ [c]) (unkept st))), u)
    | [] => (Fails st, [])
    end
  end.

(** A token, its value and the line it is reported for (yyLine when it is returned). *)
Record lexeme := Lexeme { ltok : token; lval : text; lline : nat }.

Inductive scanned :=
| Scanned (l : list lexeme) (s : scanner)
| LexError (l : list lexeme) (line column : nat)
| LexBroken (l : list lexeme)
| NoFuel.

Definition also (x : lexeme) (r : scanned) : scanned :=
  match r with
  | Scanned l s => Scanned (x :: l) s
  | LexError l a b => LexError (x :: l) a b
  | LexBroken l => LexBroken (x :: l)
  | NoFuel => NoFuel
  end.

(** 232-237, 254-259, 319-324: the end of the file in an unclosed part is an error. *)
Definition at_end (st : scanner) : scanned :=
  match smode st with
  | CODE | RULE_ARGUMENTS | RULE_LEXER => LexError [] (yyline st) (offset st)
  | _ => Scanned [] st
  end.

Fixpoint scan (fuel : nat) (cfg : config) (st : scanner) (s : text) : scanned :=
  match fuel with
  | 0 => NoFuel
  | S f =>
    match s with
    | [] => at_end st
    | _ =>
      match step cfg st s with
      | (Go st', u) => scan f cfg st' u
      | (Give t v st', u) => also (Lexeme t v (yyline st')) (scan f cfg st' u)
      | (Fails st', _) => LexError [] (yyline st') (offset st')
      | (Reject _, _) => NoFuel
      | (Broken, _) => LexBroken []
      end
    end
  end.

(** 35-39, 353-359: YY_INPUT and inp(): the byte 255 is taken for the end of the file. *)
Fixpoint readable (s : text) : text :=
  match s with [] => [] | c :: u => if Ascii.eqb c "255" then [] else c :: readable u end.

(** All tokens of a file. *)
Definition scan_file (cfg : config) (bytes : text) : scanned :=
  let s := readable bytes in scan (S (List.length s)) cfg start s.
