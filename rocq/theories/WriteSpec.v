(** How a list of tokens is written into a grammar file: the text of each token in its place,
    what must not follow it, and what may stand between two tokens.  Nothing here refers to
    the scanner's rules; the start conditions only name the parts of a file. *)
From Coq Require Import List Ascii String Bool PeanoNat.
From Verif Require Import FlexModel ScanModel ScanSpec.
Import ListNotations.

(** A part of a file, and what the grammar is at: the body of a rule (or between rules), the
    part behind its arrow, lexer rules. *)
Definition context : Type := (mode * position)%type.

Definition WORD : text := UPPER ++ LOWER ++ DIGITS.
Definition any (_ : text) : Prop := True.
Definition all_in (l w : text) : Prop := forall d, In d w -> In d l.

(** The words of the declarations of variables. *)
Definition header_words : list (string * string) := [
  ("member", "T_MEMBER"); ("temporary", "T_TEMPORARY"); ("argument", "T_ARGUMENT"); ("node", "T_NODE");
  ("token", "T_TOKEN"); ("variable", "T_VARIABLE")]%string.
Definition header_token (w : text) : token * text :=
  match find (fun x => if text_dec w (chars (fst x)) then true else false) header_words with
  | Some x => (Tok (snd x), [])
  | None => (Tok "T_IDENTIFIER", w)
  end.
(** The words behind %parserclass and %lexerclass. *)
Definition class_words : list (string * string) := [
  ("public", "T_PUBLIC"); ("private", "T_PRIVATE"); ("protected", "T_PROTECTED"); ("declaration", "T_DECLARATION");
  ("constructor", "T_CONSTRUCTOR"); ("destructor", "T_DESTRUCTOR"); ("bits", "T_BITS")]%string.

(** The words of lexer rules. *)
Definition lexer_words : list (string * string) := [
  ("%continue", "T_CONTINUE"); ("%fail", "T_FAIL"); ("%enter", "T_ENTER_RULE_SET"); ("%leave", "T_LEAVE_RULE_SET");
  ("%la", "T_LOOKAHEAD"); ("%ba", "T_BARRIER")]%string.
Definition SPACES : text := [SP; FF; TAB; CR; LF].
(** Characters as lexer rules spell them: letters, digits, and anything (but control
    characters) after a backslash. *)
Definition printable (c : ascii) : Prop := 32 <= nat_of_ascii c <= 127.
Inductive spelling : text -> Prop :=
| sp_nil : spelling []
| sp_plain c w : In c WORD -> spelling w -> spelling (c :: w)
| sp_escape c w : printable c -> spelling w -> spelling (BSL :: c :: w).
(** One character: by itself, after a backslash, or by its number. *)
Definition HEX : text := chars "0123456789abcdefABCDEF".
Inductive single : text -> Prop :=
| si_plain c : In c WORD -> single [c]
| si_escape c : printable c -> single [BSL; c]
| si_number c d w : In c (chars "xXuU") -> all_in HEX (d :: w) -> List.length (d :: w) <= 6 -> single (BSL :: c :: d :: w)
| si_octal c d w : In c (chars "oO") -> all_in (chars "01234567") (d :: w) -> single (BSL :: c :: d :: w)
| si_decimal c d w : In c (chars "dD") -> all_in DIGITS (d :: w) -> List.length (d :: w) <= 7 -> single (BSL :: c :: d :: w).
(** What a lexer rule ends with. *)
Definition ends_rule (s : text) : Prop := exists b u, all_in SPACES b /\ s = b ++ ";"%char :: u.

(** In context [q] token [x] is written [w]; [follow] has to hold of what comes next, and
    [q'] is the context after it. *)
Inductive writes : context -> token * text -> text -> (text -> Prop) -> context -> Prop :=
| w_word p w : is_word w ->
    writes (INITIAL, p) (word_token w) w
      (fun s => over WORD s /\ ~ (w = chars "try" /\ exists u, s = chars "/recover" ++ u \/ s = chars "/rollback" ++ u)) (INITIAL, p)
| w_number p w : is_number w -> writes (INITIAL, p) (number_token w) w (over DIGITS) (INITIAL, p)
| w_keyword p k n : In (k, n) keywords ->
    writes (INITIAL, p) (Tok n, []) (chars k) (fun s => keyword_at k (chars k ++ s))
      (if String.eqb k "%parserclass" || String.eqb k "%lexerclass" then PARSERCLASS else INITIAL,
       if String.eqb k "%<" then RuleBody else if String.eqb k "%>" then RuleFooter else if String.eqb k "%lexer" then RuleLexer else p)
| w_char p c : In c (chars "(){},#:=+*?@|&") -> writes (INITIAL, p) (Chr c, []) [c] any (INITIAL, p)
| w_semicolon p n : writes (INITIAL, p) (Chr ";", []) (repeat ";"%char (S n)) (over (chars ";")) (INITIAL, RuleBody)
| w_arrow p : p <> RuleLexer -> writes (INITIAL, p) (Tok "T_ARROW", []) (chars "->") any (INITIAL, RuleFooter)
| w_inline p : writes (INITIAL, p) (Tok "T_INLINE", []) (chars ".=") any (INITIAL, p)
| w_recover p : writes (INITIAL, p) (Tok "T_TRY_RECOVER", []) (chars "try/recover") any (INITIAL, p)
| w_rollback p : writes (INITIAL, p) (Tok "T_TRY_ROLLBACK", []) (chars "try/rollback") any (INITIAL, p)
| w_string m p w : m = INITIAL \/ m = RULE_LEXER -> string_body w -> writes (m, p) (Tok "T_STRING", w) ([QUOTE] ++ w ++ [QUOTE]) any (m, p)
| w_code m p w : m = INITIAL \/ m = RULE_LEXER -> code_body w ->
    writes (m, p) (Tok "T_CODE", w) (OPEN ++ w ++ CLOSE) any (match p with RuleLexer => RULE_LEXER | _ => INITIAL end, p)
| w_arguments w : plain_arguments w -> (forall u, w <> COLON :: u) ->
    writes (INITIAL, RuleBody) (Tok "T_RULE_ARGUMENTS", w) (["["%char] ++ w ++ ["]"%char]) any (INITIAL, RuleBody)
(* Declarations of variables. *)
| w_open : writes (INITIAL, RuleFooter) (Chr "[", []) (chars "[") (over [COLON]) (RULE_PARAMETERS_HEADER, RuleFooter)
| w_close p : writes (RULE_PARAMETERS_HEADER, p) (Chr "]", []) (chars "]") any (INITIAL, p)
| w_header p w : w <> [] -> all_in WORD w ->
    writes (RULE_PARAMETERS_HEADER, p) (header_token w) w (over WORD) (RULE_PARAMETERS_HEADER, p)
| w_header_char p c : In c (chars "#;") -> writes (RULE_PARAMETERS_HEADER, p) (Chr c, []) [c] any (RULE_PARAMETERS_HEADER, p)
| w_colon p b : all_in blanks b ->
    writes (RULE_PARAMETERS_HEADER, p) (Chr ":", []) (":"%char :: b) (over blanks) (RULE_PARAMETERS_VARNAME, p)
| w_type p w : ~ In ";"%char w -> 2 <= List.length w ->
    writes (RULE_PARAMETERS_VARNAME, p) (Tok "T_IDENTIFIER", w) (w ++ [";"%char]) any (RULE_PARAMETERS_HEADER, p)
(* Lexer rules.  A semicolon before another one, with something between them, ends them. *)
| w_lexer_arrow : writes (INITIAL, RuleLexer) (Tok "T_ARROW", []) (chars "->") any (RULE_LEXER, RuleLexer)
| w_lexer_names p : writes (RULE_LEXER, p) (Tok "T_ARROW", []) (chars "->") any (RULE_LEXER, p)
| w_lexer_char p c : In c (chars "]()?|^&~*+@.") -> writes (RULE_LEXER, p) (Chr c, []) [c] any (RULE_LEXER, p)
| w_lexer_open p : writes (RULE_LEXER, p) (Chr "[", []) (chars "[") (over [COLON]) (RULE_LEXER, p)
| w_lexer_word p k n : In (k, n) lexer_words -> writes (RULE_LEXER, p) (Tok n, []) (chars k) any (RULE_LEXER, p)
| w_lexer_name p w : is_word w -> writes (RULE_LEXER, p) (Tok "T_NAMED_REGEXP", w) (["{"%char] ++ w ++ ["}"%char]) any (RULE_LEXER, p)
| w_lexer_string p w : w <> [] -> spelling w ->
    writes (RULE_LEXER, p) (Tok "T_UNQUOTED_STRING", w) w
      (fun s => over (WORD ++ [BSL; "-"%char]) s /\ (all_in WORD w -> ~ ends_rule s)) (RULE_LEXER, p)
| w_lexer_range p a b : single a -> single b ->
    writes (RULE_LEXER, p) (Tok "T_RANGE", a ++ "-"%char :: b) (a ++ "-"%char :: b) (over WORD) (RULE_LEXER, p)
| w_lexer_terminal p w : w <> [] -> all_in UPPER w -> writes (RULE_LEXER, p) (Tok "T_TERMINAL", w) w ends_rule (RULE_LEXER, p)
| w_lexer_identifier p w : w <> [] -> all_in WORD w -> ~ all_in UPPER w ->
    writes (RULE_LEXER, p) (Tok "T_IDENTIFIER", w) w ends_rule (RULE_LEXER, p)
| w_lexer_semicolon p n : writes (RULE_LEXER, p) (Chr ";", []) (repeat ";"%char (S n))
    (fun s => forall g u, gap g -> s <> g ++ ";"%char :: u) (RULE_LEXER, p)
| w_lexer_end p n g : gap g -> g <> [] ->
    writes (RULE_LEXER, p) (Chr ";", []) (repeat ";"%char (S n) ++ g) (fun s => exists u, s = ";"%char :: u) (INITIAL, RuleBody)
(* Members of the generated classes. *)
| w_class p k n : In (k, n) class_words -> writes (PARSERCLASS, p) (Tok n, []) (chars k) any (PARSERCLASS, p)
| w_class_open p : writes (PARSERCLASS, p) (Chr "(", []) (chars "(") any (PARSERCLASS, p)
| w_class_close p : writes (PARSERCLASS, p) (Chr ")", []) (chars ")") any (INITIAL, p).

(** What may stand in front of a token: blanks, line ends and comments; no comments behind
    %parserclass, and nothing in front of the type of a variable. *)
Definition gap_in (m : mode) (g : text) : Prop :=
  match m with
  | INITIAL | RULE_PARAMETERS_HEADER | RULE_LEXER => gap g
  | PARSERCLASS => all_in SPACES g
  | _ => g = []
  end.

(** The tokens [ts] are written as [s], from context [q] to [q']. *)
Inductive written : context -> list (token * text) -> text -> context -> Prop :=
| wr_end q g : gap_in (fst q) g -> written q [] g q
| wr_token q g x w follow q1 ts s q' :
    gap_in (fst q) g -> writes q x w follow q1 -> follow s -> written q1 ts s q' ->
    written q (x :: ts) (g ++ w ++ s) q'.

(** A whole file begins and ends between rules. *)
Definition outer : context := (INITIAL, RuleBody).
Definition file_text (ts : list (token * text)) (s : text) : Prop :=
  written outer ts s outer /\ ~ In NUL s /\ ~ In "255"%char s.

(** The text a token is stored with: its own; code and arguments of rules come behind a line
    directive, if there are any. *)
Definition holds_code (x : token) : Prop := x = Tok "T_CODE" \/ x = Tok "T_RULE_ARGUMENTS".
Definition copied (cfg : config) (x y : text) : Prop :=
  match lines cfg with
  | BeautifulCode => y = x
  | _ => exists n b, y = [LF] ++ directive cfg n ++ [LF] ++ repeat SP b ++ x
  end.
Definition stored (cfg : config) (x y : token * text) : Prop :=
  fst y = fst x /\ (holds_code (fst x) -> copied cfg (snd x) (snd y)) /\ (~ holds_code (fst x) -> snd y = snd x).
