(** The driver: main() of /repo/src/kdev-pg-main.cpp 160-531, ProblemSummaryPrinter
    (kdev-pg-checker.cpp 387-424), and which files generateOutput, generateLexer and
    generateVisitor of kdev-pg-generate.cpp write and which headers of the same set these
    include.

    Left out: QCoreApplication's own options, the texts of messages, the contents of files
    but for #include, failing writes, dumping regular expressions with names (--automata),
    upper and lower case outside of ASCII.  Reading the grammar file is a parameter here. *)
From Coq Require Import List NArith Ascii String Bool PeanoNat.
From Verif Require Import FlexModel GramModel GraphModel.
Import ListNotations.
Open Scope string_scope.
Open Scope list_scope.

(** kdev-pg.h 78-90 *)
Inductive policy := Permissive | Strict | Ignore.
Inductive lines := FullLineNumbers | BeautifulCode | CompatibilityLineNumbers.

(** The variables of main() 162-172 and the members of globalSystem that are set, with their
    values at the start (kdev-pg.h 106-117).  [file]: the name of KDevPG::file, which is open
    if it is not empty. *)
Record options := Options {
  language : text;
  ns : text;
  output : bool;
  ast : bool;
  serialize : bool;
  debug : bool;
  token_text : bool;
  conflicts : policy;
  line_numbers : lines;
  table : bool;
  parser : bool;
  parser_said : bool;
  lexer : bool;
  lexer_said : bool;
  new_visitor : text;
  inherit : bool;
  dump_terminals : bool;
  dump_symbols : bool;
  dump_rules : bool;
  dump_automata : bool;
  file : text }.
Definition no_options : options := Options [] [] true true false false false Permissive FullLineNumbers false true false true false [] false false false false false [].
Definition set_language (v : text) (o : options) : options := Options v (ns o) (output o) (ast o) (serialize o) (debug o) (token_text o) (conflicts o) (line_numbers o) (table o) (parser o) (parser_said o) (lexer o) (lexer_said o) (new_visitor o) (inherit o) (dump_terminals o) (dump_symbols o) (dump_rules o) (dump_automata o) (file o).
Definition set_ns (v : text) (o : options) : options := Options (language o) v (output o) (ast o) (serialize o) (debug o) (token_text o) (conflicts o) (line_numbers o) (table o) (parser o) (parser_said o) (lexer o) (lexer_said o) (new_visitor o) (inherit o) (dump_terminals o) (dump_symbols o) (dump_rules o) (dump_automata o) (file o).
Definition set_output (v : bool) (o : options) : options := Options (language o) (ns o) v (ast o) (serialize o) (debug o) (token_text o) (conflicts o) (line_numbers o) (table o) (parser o) (parser_said o) (lexer o) (lexer_said o) (new_visitor o) (inherit o) (dump_terminals o) (dump_symbols o) (dump_rules o) (dump_automata o) (file o).
Definition set_ast (v : bool) (o : options) : options := Options (language o) (ns o) (output o) v (serialize o) (debug o) (token_text o) (conflicts o) (line_numbers o) (table o) (parser o) (parser_said o) (lexer o) (lexer_said o) (new_visitor o) (inherit o) (dump_terminals o) (dump_symbols o) (dump_rules o) (dump_automata o) (file o).
Definition set_serialize (v : bool) (o : options) : options := Options (language o) (ns o) (output o) (ast o) v (debug o) (token_text o) (conflicts o) (line_numbers o) (table o) (parser o) (parser_said o) (lexer o) (lexer_said o) (new_visitor o) (inherit o) (dump_terminals o) (dump_symbols o) (dump_rules o) (dump_automata o) (file o).
Definition set_debug (v : bool) (o : options) : options := Options (language o) (ns o) (output o) (ast o) (serialize o) v (token_text o) (conflicts o) (line_numbers o) (table o) (parser o) (parser_said o) (lexer o) (lexer_said o) (new_visitor o) (inherit o) (dump_terminals o) (dump_symbols o) (dump_rules o) (dump_automata o) (file o).
Definition set_token_text (v : bool) (o : options) : options := Options (language o) (ns o) (output o) (ast o) (serialize o) (debug o) v (conflicts o) (line_numbers o) (table o) (parser o) (parser_said o) (lexer o) (lexer_said o) (new_visitor o) (inherit o) (dump_terminals o) (dump_symbols o) (dump_rules o) (dump_automata o) (file o).
Definition set_conflicts (v : policy) (o : options) : options := Options (language o) (ns o) (output o) (ast o) (serialize o) (debug o) (token_text o) v (line_numbers o) (table o) (parser o) (parser_said o) (lexer o) (lexer_said o) (new_visitor o) (inherit o) (dump_terminals o) (dump_symbols o) (dump_rules o) (dump_automata o) (file o).
Definition set_line_numbers (v : lines) (o : options) : options := Options (language o) (ns o) (output o) (ast o) (serialize o) (debug o) (token_text o) (conflicts o) v (table o) (parser o) (parser_said o) (lexer o) (lexer_said o) (new_visitor o) (inherit o) (dump_terminals o) (dump_symbols o) (dump_rules o) (dump_automata o) (file o).
Definition set_table (v : bool) (o : options) : options := Options (language o) (ns o) (output o) (ast o) (serialize o) (debug o) (token_text o) (conflicts o) (line_numbers o) v (parser o) (parser_said o) (lexer o) (lexer_said o) (new_visitor o) (inherit o) (dump_terminals o) (dump_symbols o) (dump_rules o) (dump_automata o) (file o).
Definition set_parser (v : bool) (o : options) : options := Options (language o) (ns o) (output o) (ast o) (serialize o) (debug o) (token_text o) (conflicts o) (line_numbers o) (table o) v (parser_said o) (lexer o) (lexer_said o) (new_visitor o) (inherit o) (dump_terminals o) (dump_symbols o) (dump_rules o) (dump_automata o) (file o).
Definition set_parser_said (v : bool) (o : options) : options := Options (language o) (ns o) (output o) (ast o) (serialize o) (debug o) (token_text o) (conflicts o) (line_numbers o) (table o) (parser o) v (lexer o) (lexer_said o) (new_visitor o) (inherit o) (dump_terminals o) (dump_symbols o) (dump_rules o) (dump_automata o) (file o).
Definition set_lexer (v : bool) (o : options) : options := Options (language o) (ns o) (output o) (ast o) (serialize o) (debug o) (token_text o) (conflicts o) (line_numbers o) (table o) (parser o) (parser_said o) v (lexer_said o) (new_visitor o) (inherit o) (dump_terminals o) (dump_symbols o) (dump_rules o) (dump_automata o) (file o).
Definition set_lexer_said (v : bool) (o : options) : options := Options (language o) (ns o) (output o) (ast o) (serialize o) (debug o) (token_text o) (conflicts o) (line_numbers o) (table o) (parser o) (parser_said o) (lexer o) v (new_visitor o) (inherit o) (dump_terminals o) (dump_symbols o) (dump_rules o) (dump_automata o) (file o).
Definition set_new_visitor (v : text) (o : options) : options := Options (language o) (ns o) (output o) (ast o) (serialize o) (debug o) (token_text o) (conflicts o) (line_numbers o) (table o) (parser o) (parser_said o) (lexer o) (lexer_said o) v (inherit o) (dump_terminals o) (dump_symbols o) (dump_rules o) (dump_automata o) (file o).
Definition set_inherit (v : bool) (o : options) : options := Options (language o) (ns o) (output o) (ast o) (serialize o) (debug o) (token_text o) (conflicts o) (line_numbers o) (table o) (parser o) (parser_said o) (lexer o) (lexer_said o) (new_visitor o) v (dump_terminals o) (dump_symbols o) (dump_rules o) (dump_automata o) (file o).
Definition set_dump_terminals (v : bool) (o : options) : options := Options (language o) (ns o) (output o) (ast o) (serialize o) (debug o) (token_text o) (conflicts o) (line_numbers o) (table o) (parser o) (parser_said o) (lexer o) (lexer_said o) (new_visitor o) (inherit o) v (dump_symbols o) (dump_rules o) (dump_automata o) (file o).
Definition set_dump_symbols (v : bool) (o : options) : options := Options (language o) (ns o) (output o) (ast o) (serialize o) (debug o) (token_text o) (conflicts o) (line_numbers o) (table o) (parser o) (parser_said o) (lexer o) (lexer_said o) (new_visitor o) (inherit o) (dump_terminals o) v (dump_rules o) (dump_automata o) (file o).
Definition set_dump_rules (v : bool) (o : options) : options := Options (language o) (ns o) (output o) (ast o) (serialize o) (debug o) (token_text o) (conflicts o) (line_numbers o) (table o) (parser o) (parser_said o) (lexer o) (lexer_said o) (new_visitor o) (inherit o) (dump_terminals o) (dump_symbols o) v (dump_automata o) (file o).
Definition set_dump_automata (v : bool) (o : options) : options := Options (language o) (ns o) (output o) (ast o) (serialize o) (debug o) (token_text o) (conflicts o) (line_numbers o) (table o) (parser o) (parser_said o) (lexer o) (lexer_said o) (new_visitor o) (inherit o) (dump_terminals o) (dump_symbols o) (dump_rules o) v (file o).
Definition set_file (v : text) (o : options) : options := Options (language o) (ns o) (output o) (ast o) (serialize o) (debug o) (token_text o) (conflicts o) (line_numbers o) (table o) (parser o) (parser_said o) (lexer o) (lexer_said o) (new_visitor o) (inherit o) (dump_terminals o) (dump_symbols o) (dump_rules o) (dump_automata o) v.

(** QString::startsWith and mid *)
Fixpoint after (p x : text) : option text :=
  match p, x with
  | [], _ => Some x
  | a :: p, b :: x => if Ascii.eqb a b then after p x else None
  | _, _ => None
  end.
Definition is (x : text) (y : string) : bool := same x (chars y).

(** 179-331: one argument.  [None]: exit(EXIT_SUCCESS).  [opens]: QFile::open succeeds; it does
    not with an empty name. *)
Section A.
Variable opens : text -> bool.
Definition argument (x : text) (o : options) : option options :=
  match after (chars "--output=") x with
  | Some v => Some (set_output true (set_language v o))
  | None =>
  match after (chars "--namespace=") x with
  | Some v => Some (set_ns v o)
  | None =>
  if is x "--no-output" then Some (set_output false o)
  else if is x "--no-ast" then Some (set_ast false o)
  else if is x "--with-ast" then Some (set_ast true o)
  else if is x "--serialize-visitor" then Some (set_serialize true o)
  else if is x "--ignore-conflicts" then Some (set_conflicts Ignore o)
  else if is x "--strict-conflicts" then Some (set_conflicts Strict o)
  else if is x "--permissive-conflicts" then Some (set_conflicts Permissive o)
  else if is x "--debug-visitor" then Some (set_debug true o)
  else if is x "--token-text" then Some (set_token_text true o)
  else if is x "--no-parser" then Some (set_parser_said true (set_parser false o))
  else if is x "--with-parser" then Some (set_parser_said true (set_parser true o))
  else if is x "--no-lexer" then Some (set_lexer_said true (set_lexer false o))
  else if is x "--with-lexer" then Some (set_lexer_said true (set_lexer true o))
  else if is x "--beautiful-code" then Some (set_line_numbers BeautifulCode o)
  else if is x "--error-aware-code" then Some (set_line_numbers FullLineNumbers o)
  else if is x "--compatible-error-aware-code" then Some (set_line_numbers CompatibilityLineNumbers o)
  else if is x "--visitor-table" then Some (set_table true o)
  else if is x "--visitor-switch" then Some (set_table false o)
  else
  match after (chars "--new-visitor=") x with
  | Some v => Some (set_output false (set_conflicts Ignore (set_new_visitor v o)))
  | None =>
  if is x "--inherit-default-visitor" then Some (set_inherit true o)
  else if is x "--inherit-abstract-visitor" then Some (set_inherit false o)
  else if is x "--help" || is x "--version" || is x "--author" || is x "--usage" then None
  else if is x "--terminals" then Some (set_dump_terminals true o)
  else if is x "--symbols" then Some (set_dump_symbols true o)
  else if is x "--rules" then Some (set_dump_rules true o)
  else if is x "--automata" then Some (set_dump_automata true o)
  else match file o with
       | [] => Some (match x with [] => o | _ => if opens x then set_file x o else o end)
       | _ => Some o
       end
  end end end.
Fixpoint arguments (l : list text) (o : options) : option options :=
  match l with [] => Some o | x :: l => match argument x o with Some o => arguments l o | None => None end end.
End A.

(** What is known of the grammar after yyparse and finishedParsing: whether there are rules,
    hasLexer, the names in lexerEnvs, tokenStream, and what the checks count: errors, and
    conflicts with conflictHandling not Ignore.  [reads]: exit in yyparse, or these. *)
Record grammar_read := Grammar_read { has_rules : bool; has_lexer : bool; states : list text; stream_name : text; checks : nat * nat }.
Inductive reading := Exits | Reads (g : grammar_read).

(** The regular expression at 430 *)
Definition letter (x : ascii) : bool := let n := N_of_ascii x in (N.leb 65 n && N.leb n 90) || (N.leb 97 n && N.leb n 122) || N.eqb n 95.
Definition digit (x : ascii) : bool := let n := N_of_ascii x in N.leb 48 n && N.leb n 57.
Definition identifier (x : text) : bool := match x with [] => false | a :: x => letter a && forallb (fun b => letter b || digit b) x end.

(** ** The files, kdev-pg-generate.cpp
    The part of the name behind the prefix, and the parts of the names of the headers with the
    same prefix that are included. *)
Definition out_file := (string * list string)%type.
Definition if_ {A} (b : bool) (l : list A) : list A := if b then l else [].
(** 38-528 *)
Definition parser_files (o : options) (lexed : bool) : list out_file :=
  if_ (ast o) [("ast.h", ["ast-fwd.h"]); ("ast-fwd.h", [])] ++
  [("tokentype.h", []); ("parser.h", "tokentype.h" :: if_ lexed ["lexer.h"] ++ if_ (ast o) ["ast-fwd.h"])] ++
  if_ (ast o) [("visitor.h", ["ast.h"]); ("defaultvisitor.h", ["visitor.h"])] ++
  if_ (serialize o) [("serializevisitor.h", ["defaultvisitor.h"])] ++
  if_ (debug o) [("debugvisitor.h", ["defaultvisitor.h"])] ++
  if_ (token_text o || debug o) [("tokentext.h", ["tokentype.h"])] ++
  [("parser.cpp", "parser.h" :: if_ (ast o) ["ast.h"])] ++
  if_ (ast o) [("visitor.cpp", ["visitor.h"]); ("defaultvisitor.cpp", ["defaultvisitor.h"])].
(** 530-769 *)
Definition lexer_files : list out_file := [("lexer.h", ["tokentype.h"]); ("lexer.cpp", ["lexer.h"])].
(** 771-865; QString::toLower *)
Definition lower (x : text) : text := map (fun a => let n := N_of_ascii a in if N.leb 65 n && N.leb n 90 then ascii_of_N (n + 32) else a) x.
Definition named_file (o : options) (f : out_file) : text * list text := (language o ++ chars (fst f), map (fun x => language o ++ chars x) (snd f)).
Definition visitor_files (o : options) : list (text * list text) :=
  [(language o ++ lower (new_visitor o) ++ chars ".h", [language o ++ chars (if inherit o then "defaultvisitor.h" else "visitor.h")]);
   (language o ++ lower (new_visitor o) ++ chars ".cpp", [language o ++ chars "defaultvisitor.h"])].

(** ** The rest of main()
    The exit status, what is written for the user to look at (438-503), and the generated
    files.  Undefined: dotOutput of a null pointer, 485. *)
Inductive status := Success | Failure.
Record result := Result { exit : status; dumped : list text; generated : list (text * list text) }.
Inductive outcome := Ran (r : result) | Undefined.
(** 350-352 *)
Definition does_parser (o : options) (g : grammar_read) : bool := if parser_said o then parser o else has_rules g.
(** 353-418, 420-425, 431-440 *)
Definition parser_errors (o : options) (g : grammar_read) : nat := if does_parser o g then if has_rules g then fst (checks g) else 1 else 0.
Definition conflict_count (o : options) (g : grammar_read) : nat :=
  if does_parser o g && has_rules g then match conflicts o with Ignore => 0 | _ => snd (checks g) end else 0.
Definition lexer_missing (o : options) (g : grammar_read) : bool := lexer_said o && lexer o && negb (has_lexer g).
Definition does_lexer (o : options) (g : grammar_read) : bool := if lexer_said o then lexer o && has_lexer g else has_lexer g.
Definition lexer_errors (o : options) (g : grammar_read) : nat :=
  (if lexer_missing o g then 1 else 0) +
  (if does_lexer o g then (if existsb (fun x => is x "start") (states g) then 0 else 1) + (if identifier (stream_name g) then 0 else 1) else 0).
Definition errors (o : options) (g : grammar_read) : nat := parser_errors o g + lexer_errors o g.
Definition dumps (o : options) (g : grammar_read) : list text :=
  if_ (dump_terminals o) [chars "kdev-pg-terminals"] ++ if_ (dump_symbols o) [chars "kdev-pg-symbols"] ++ if_ (dump_rules o) [chars "kdev-pg-rules"] ++
  if_ (dump_automata o) (map (fun x => chars "kdev-pg-lexer-state-" ++ x ++ chars ".dot") (states g)).
Definition finish (o : options) (g : grammar_read) : outcome :=
  let fails := Ran (Result Failure (dumps o g) []) in
  if dump_automata o && negb (does_lexer o g) && negb (match states g with [] => true | _ => false end) then Undefined
  else if negb (Nat.eqb (errors o g) 0) then fails
  else if match conflicts o with Strict => negb (Nat.eqb (conflict_count o g) 0) | _ => false end then fails
  else if negb (dump_terminals o || dump_symbols o || dump_rules o) && output o && match language o with [] => true | _ => false end then fails
  else Ran (Result Success (dumps o g)
    (if_ (output o && does_parser o g) (map (named_file o) (parser_files o (has_lexer g))) ++
     if_ (output o && does_lexer o g) (map (named_file o) lexer_files) ++
     match new_visitor o with [] => [] | _ => visitor_files o end)).
(** main(); the namespace (333-334) has no effect on what is modelled here.  The parser of
    grammar files looks at generateAst. *)
Definition main (opens : text -> bool) (reads : text -> bool -> reading) (args : list text) : outcome :=
  match arguments opens args no_options with
  | None => Ran (Result Success [] [])
  | Some o =>
    match file o with
    | [] => Ran (Result Failure [] [])
    | x => match reads x (ast o) with Exits => Ran (Result Failure [] []) | Reads g => finish o g end
    end
  end.
