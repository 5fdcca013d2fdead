(** What a grammar file's text means to its author: places in the text, code blocks, rule
    arguments, strings, gaps between tokens.  Nothing here refers to the scanner, except
    for the last part, which says what has been read when. *)
From Coq Require Import List Ascii String Bool PeanoNat Decimal DecimalString.
From Verif Require Import FlexModel ScanModel.
Import ListNotations.

(** ** Places in a text *)
(** The number of line ends: LF, CR LF, or CR alone. *)
Fixpoint newlines (t : text) : nat :=
  match t with
  | [] => 0
  | c :: u =>
    (if Ascii.eqb c LF then 1
     else if Ascii.eqb c CR
          then match u with d :: _ => if Ascii.eqb d LF then 0 else 1 | [] => 1 end
          else 0) + newlines u
  end.

(** The text after the last line end. *)
Fixpoint last_line_from (cur t : text) : text :=
  match t with
  | [] => cur
  | c :: u => if Ascii.eqb c LF || Ascii.eqb c CR then last_line_from [] u
              else last_line_from (cur ++ [c]) u
  end.
Definition last_line (t : text) : text := last_line_from [] t.

(** Line and column (counted from 1 and 0) of what comes after [t]. *)
Definition place_after (t : text) : nat * nat :=
  (1 + newlines t, List.length (last_line t)).

(** CR LF is not cut in two. *)
Definition cuts (a b : text) : Prop := exists a' b', a = a' ++ [CR] /\ b = LF :: b'.

(** No CR without LF. *)
Definition no_lone_cr (t : text) : Prop :=
  forall a b, t = a ++ CR :: b -> exists b', b = LF :: b'.

(** The NUL character, and files without lexer rules. *)
Definition NUL : ascii := "000"%char.
Definition no_lexer (t : text) : Prop := forall a b, t <> a ++ chars "%lexer" ++ b.

(** ** Code blocks *)
Definition OPEN : text := chars "[:".
Definition COLON : ascii := ":"%char.
Definition CLOSE : text := chars ":]".
Definition ends_in (c : ascii) (t : text) : Prop := exists u, t = u ++ [c].

(** The block [: body :] ends at the first `:]` that no colon stands before. *)
Definition code_body (body : text) : Prop :=
  ~ ends_in COLON body /\
  forall a b, body = a ++ CLOSE ++ b -> ends_in COLON a.

(** There is no such place in [t]. *)
Definition never_closed (t : text) : Prop :=
  forall a b, t = a ++ CLOSE ++ b -> ends_in COLON a.

(** The line directive for line [n], and the place it gives to what comes after [t], where
    [t] starts in the line after the directive. *)
Definition directive (cfg : config) (n : nat) : text :=
  (match lines cfg with CompatibilityLineNumbers => chars "#line " | _ => chars "# " end) ++
  chars (NilZero.string_of_uint (Nat.to_uint n)) ++ [SP; QUOTE] ++ path cfg ++ [QUOTE] ++
  (match lines cfg with FullLineNumbers => chars " 1" | _ => [] end).
Definition directed (n : nat) (t : text) : nat * nat :=
  (n + newlines t, List.length (last_line t)).

(** ** Arguments of rules, strings *)
(** Text without brackets, but for those in (simple) strings. *)
Inductive plain_arguments : text -> Prop :=
| pa_nil : plain_arguments []
| pa_char c a : ~ In c (chars "[]" ++ [QUOTE]) -> plain_arguments a -> plain_arguments (c :: a)
| pa_string w a : (forall c, In c w -> ~ In c [QUOTE; BSL; CR; LF]) ->
    plain_arguments a -> plain_arguments (QUOTE :: w ++ QUOTE :: a).

(** The inside of a string literal: in one line, each quote after a backslash, no backslash
    at the end. *)
Definition string_body (w : text) : Prop :=
  ~ In CR w /\ ~ In LF w /\ ~ ends_in BSL w /\
  forall a b, w = a ++ QUOTE :: b -> ends_in BSL a.

(** ** Gaps *)
(** Blanks, line ends and comments. *)
Inductive gap : text -> Prop :=
| g_nil : gap []
| g_blank c g : In c blanks -> gap g -> gap (c :: g)
| g_cr g : gap g -> gap (CR :: g)
| g_lf g : gap g -> gap (LF :: g)
| g_comment w c g : ~ In CR w -> ~ In LF w -> c = CR \/ c = LF -> gap (c :: g) ->
    gap (chars "--" ++ w ++ c :: g).

(** What does not go on with a gap. *)
Definition no_gap (s : text) : Prop :=
  match s with
  | [] => True
  | c :: u => ~ In c [SP; FF; TAB; CR; LF] /\ ~ (exists v, s = chars "--" ++ v)
  end.

(** ** Words, numbers, keywords *)
Definition UPPER : text := chars "ABCDEFGHIJKLMNOPQRSTUVWXYZ_".
Definition LOWER : text := chars "abcdefghijklmnopqrstuvwxyz".
Definition DIGITS : text := chars "0123456789".

(** [s] does not go on with a character of [l]. *)
Definition over (l s : text) : Prop := match s with [] => True | c :: _ => ~ In c l end.

Definition is_word (w : text) : Prop :=
  exists c u, w = c :: u /\ In c (UPPER ++ LOWER) /\ forall d, In d u -> In d (UPPER ++ LOWER ++ DIGITS).
Definition is_number (w : text) : Prop := w <> [] /\ forall d, In d w -> In d DIGITS.

(** The token of a word, and its value; the same for numbers. *)
Definition text_dec : forall a b : text, {a = b} + {a <> b} := list_eq_dec ascii_dec.
Definition word_token (w : text) : token * text :=
  if forallb (fun c => if in_dec ascii_dec c UPPER then true else false) w then (Tok "T_TERMINAL", w)
  else if text_dec w (chars "catch") then (Tok "T_CATCH", []) else (Tok "T_IDENTIFIER", w).
Definition number_token (w : text) : token * text :=
  if text_dec w (chars "0") then (Chr "0", []) else (Tok "T_NUMBER", w).

(** The keywords with a percent sign, in the order of kdev-pg-lexer.ll, and their tokens. *)
Definition keywords : list (string * string) := [
  ("%export_macro", "T_EXPORT_MACRO"); ("%export_macro_header", "T_EXPORT_MACRO_HEADER");
  ("%token", "T_TOKEN_DECLARATION"); ("%token_stream", "T_TOKEN_STREAM_DECLARATION");
  ("%namespace", "T_NAMESPACE_DECLARATION"); ("%parserclass", "T_PARSERCLASS_DECLARATION");
  ("%lexerclass", "T_LEXERCLASS_DECLARATION"); ("%input_stream", "T_INPUT_STREAM");
  ("%ast_extra_members", "T_AST_DECLARATION");
  ("%parser_declaration_header", "T_PARSER_DECLARATION_HEADER");
  ("%parser_bits_header", "T_PARSER_BITS_HEADER"); ("%ast_header", "T_AST_HEADER");
  ("%lexer_declaration_header", "T_LEXER_DECLARATION_HEADER");
  ("%lexer_bits_header", "T_LEXER_BITS_HEADER"); ("%input_encoding", "T_INPUT_ENCODING");
  ("%table_lexer", "T_TABLE_LEXER"); ("%sequence_lexer", "T_SEQUENCE_LEXER");
  ("%ast_base", "T_AST_BASE"); ("%parser_base", "T_PARSER_BASE"); ("%lexer_base", "T_LEXER_BASE");
  ("%bin", "T_BIN"); ("%pre", "T_PRE"); ("%post", "T_POST"); ("%tern", "T_TERN");
  ("%paren", "T_PAREN"); ("%priority", "T_PRIORITY"); ("%<", "T_LOPR"); ("%>", "T_ROPR");
  ("%left", "T_LEFT_ASSOC"); ("%right", "T_RIGHT_ASSOC"); ("%isLeft", "T_IS_LEFT_ASSOC");
  ("%isRight", "T_IS_RIGHT_ASSOC"); ("%lexer", "T_LEXER")]%string.

(** Keyword [k] stands at the start of [t], and no longer one does. *)
Definition keyword_at (k : string) (t : text) : Prop :=
  (exists s, t = chars k ++ s) /\
  forall k' n s, In (k', n) keywords -> t = chars k' ++ s -> List.length (chars k') <= List.length (chars k).

(** Characters no token of a grammar starts with (outside of code, arguments and so on). *)
Definition meaningless (c : ascii) : Prop :=
  ~ In c (UPPER ++ LOWER ++ DIGITS ++ chars ";(){},#.:=+*?@|&[%-" ++ [QUOTE; SP; FF; TAB; CR; LF]).

(** ** Reading *)
(** From state [st] with [s] to come, the tokens [l] are given, and state [st'] with [s'] to
    come is reached. *)
Inductive reads (cfg : config) : scanner -> text -> list lexeme -> scanner -> text -> Prop :=
| rd_none st s : reads cfg st s [] st s
| rd_go st s st1 s1 l st' s' :
    s <> [] -> step cfg st s = (Go st1, s1) -> reads cfg st1 s1 l st' s' ->
    reads cfg st s l st' s'
| rd_give st s t v st1 s1 l st' s' :
    s <> [] -> step cfg st s = (Give t v st1, s1) -> reads cfg st1 s1 l st' s' ->
    reads cfg st s (Lexeme t v (yyline st1) :: l) st' s'.

(** Token [x] is given when [p] has been read of the file [p ++ rest]. *)
Definition given (cfg : config) (p rest : text) (x : lexeme) : Prop :=
  exists l st s st', reads cfg start (p ++ rest) l st s /\ s <> [] /\
    step cfg st s = (Give (ltok x) (lval x) st', rest) /\ lline x = yyline st'.

(** The scanner is where the rules of a grammar are written. *)
Definition outside (st : scanner) : Prop := smode st = INITIAL /\ kept st = [].

(** [l] comes before the tokens of [r]. *)
Fixpoint after (l : list lexeme) (r : scanned) : scanned :=
  match l with [] => r | x :: l' => also x (after l' r) end.
