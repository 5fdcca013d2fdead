# Formal model of kdevelop-pg-qt

A Rocq/Coq 8.16.1 model of the runtime headers, the lexer automata, the grammar
analysis, the generated lexer and parser and the smaller generators of
kdevelop-pg-qt (source in /repo, read as text).

Layout of `rocq/theories`:

* `*Model.v`: the executable definitions; each cites the file and lines it follows.
* `*Spec.v`: specifications that do not use the functions of the model.
* `*Proofs.v`, `CsetLaws.v`: lemmas.
* `*Props.v`: the property theorems, each with `Print Assumptions`, and beside
  them examples with concrete values that meet the hypotheses.

Names: `..._refuted`: the property as a user expects it is false of the code,
with a witness.  `..._partial`: proved under a guard that the property itself does
not have, or for a part of it.  `..._exact`: says for which inputs it holds.

## Trusted base

* Coq's kernel.
* The reading of the C++ source in the `*Model.v` files.
* Axioms: none.  `Print Assumptions` says "Closed under the global context" for
  every theorem in `*Props.v`.  (`coqchk` also lists the seven constants
  `Coq.ssr.ssrunder.Under_rel.*` of the standard library, which get loaded with
  `Lia`; no theorem depends on them.)

No functors, module types, plugins or changed kernel flags.

## How code is modelled

* Functions are total Gallina functions.  Undefined behaviour, failed assertions
  and reads outside a buffer are outcomes of their own (`None`, `Fault`,
  `Overrun`, `Bad`, `Null`, ...), and the theorems say that they do not occur, or when.
* Loops without an obvious measure have fuel; running out of it is one more
  outcome.  It is excluded by theorems with explicit bounds (C45, C58, C60, C68).
* `int`/`size_t` are `Z`/`N`/`nat`; where the code wraps around (memory pool sizes,
  allocator indices, operator priorities, UTF arithmetic) the model does so too.
  Where it does not wrap for realistic sizes this is said at the definition.
* Iteration over hash containers: the theorems on automata hold for every order.
* `malloc`/`new` do not fail.

| module | code | properties |
|---|---|---|
| LocationTable | include/kdev-pg-location-table.h | C01-C03 |
| TokenStream | include/kdev-pg-token-stream.h, LA/yylex/rewind of generated parsers, read() of generated lexers | C04-C06 |
| MemoryPool, Allocator, ListNode | the headers of these names | C07-C11 |
| BitArray | kdev-pg-bit-array.h, 64-bit little-endian machine | C12, C13 |
| CharSet | kdev-pg-regexp-helper.h: SeqCharSet, TableCharSet, code for branches | C14-C19 |
| Automaton, Thompson, Reach, Subset, Dfa, DfaOps, Minimize, Smallest, NfaDiag, NfaBuilt, NfaMax, NfaApi | kdev-pg-regexp.cpp 75-910, generic in the character set | C20-C33, C60, C61 |
| Regexp | actions for regular expressions, kdev-pg-parser.yy 302-445 | C62 |
| Lexer, LexRule | DFA::codegen, lx macros, actions for lexer rules, parser.yy 189-276 | C34, C35, C63, C64 |
| Utf | decoding iterators, include/kdev-pg-char-sets.h 271-612 | C36-C39 |
| Iter, Ruleset | the lexer with rule sets (generate.cpp 570-590, 656-738) over the iterators of char-sets.h as objects with a state; of user code only the calls of lxSET_RULE_SET | C114, C115 |
| Range | GNFA::range, anyChar, word, character collections; generated-kdev-utf8-tuples.h | C40, C41, C65-C67 |
| Grammar, First, Follow, FirstSound, FollowSound, GrammarTerm, GrammarLoop | kdev-pg-first.cpp, -follow.cpp, -bnf-visitor.cpp, reducesToEpsilon | C42-C46, C116 |
| Parser, ParserKeep | kdev-pg-code-gen.cpp as what the generated code does | C47-C49, C56, C68-C70 |
| Error, End, Report, Count, Recover | nothing new: where the parser of Parser finds errors, that it ends, which failures are reported, and how often | C77, C78, C120, C122, C123 |
| Flex, Scan | `src/kdev-pg-lexer.ll`: all start conditions, patterns and actions, the line buffer, YY_INPUT; flex itself as its manual says (longest match, then the first rule, trailing context, yymore, REJECT) | C79-C88 |
| Yacc, Gram | `src/kdev-pg-parser.yy`: all productions and actions; the LALR(1) tables with the settling of conflicts, and bison's parsing, as its manual says | C89-C93 |
| Graph, Lang, Origin, File | `src/kdev-pg.cpp` (making nodes), `kdev-pg.h` (pushTerminal, pushSymbol, pushRule, finishedParsing), the nodes of BnfVisitor; the language of a file, and the whole way from its tokens to accepted texts | C94-C97 |
| Undef | UndefinedSymbolChecker and UndefinedTokenChecker by names, with annotations and variables | C98, C99 |
| Driver | kdev-pg-main.cpp (options, flow, dumps, exit status), the names and includes of the files kdev-pg-generate.cpp writes | C100-C102 |
| Run | what the checks count for a grammar file (InlineChecker on its nodes included); the way from file and command line to the verdict of the parser | C103 |
| Emit, Cpp | the text kdev-pg-code-gen.cpp 21-890 writes for the parse functions, as tokens of C++; a small C++ (CppSpec: reading and execution of the statements that occur) | C104-C106 |
| Write, WriteEnd | nothing new: how tokens and grammars are written as bytes (WriteSpec, WriteFileSpec), scanned and read back | C107-C109 |
| Print | kdev-pg-pretty-printer.cpp over the nodes of the Gram module; FIRST and FOLLOW lists of the dump are left out | C110 |
| Unicode | kdev-pg-unicode-loader.cpp (files as given bytes; asserts and reads behind a line are outcomes of their own) and the uses of regexpById in kdev-pg-parser.yy 185-192; QString keys are the bytes of the names | C111, C112 |
| Debug | kdev-pg-debug-visitor-gen.cpp as run by the default visitor; lines as their parts, trees with the node members in order | C113 |
| Checker, Complete, Conflict, Dep | kdev-pg-checker.cpp; which checks make the parser complete; the follow dependencies recorded in kdev-pg-follow.cpp 118-203 and FollowDepChecker | C48, C70, C71, C117-C119 |
| Look | kdev-pg-beautifier.cpp: IteratorQTextStream over a string; its user is any sequence of calls | C121 |
| Stub | kdev-pg-visitor-gen.cpp, -default-visitor-gen, -new-visitor-gen, -default-visitor-bits-gen, -new-visitor-bits-gen: the functions declared and defined | C124 |
| Guard | the include guards in kdev-pg-generate.cpp, for ASCII names and signed char | C125 |
| Describe, Number | pushTerminal, the order of QMap, GenerateTokenTexts, the description in calls of expectedToken; a part of C++'s string literals as the specification | C126, C127 |
| Text | unescaped(), range literals | C53, C72 |
| Decl | lexer kind, token numbers, start symbols, rule lookup | C50, C51, C54, C55 |
| Ast | kinds, visitor dispatch, order of the structs | C52, C59 |
| Clone | kdev-pg-clone-tree.cpp, the `@` operator | C57 |
| Operator | visitOperator, GenerateParserRule for operator expressions, with the AST | C58 |
| Tree | the AST of ordinary rules: visitAnnotation, node creation and spans in GenerateParserRule | C73 |
| Item | the syntax tree with names and declarations, DefaultVisitor, searchRule, env | C74-C76 |
| Inline | InlineChecker: exceptions, the cut of cycles, operator symbols | C74 |
| Members | GenerateAstRule, CodeGenerator's declarations and assignments, parse method signatures and initialisation, the default visitor | C75, C76 |

Choices that matter for reading the theorems:

* *Automata.*  State sets are lists of booleans; `BitArrayProps` justifies this for
  arrays that are not shrunk.  Vector accesses have defaults, and the theorems show
  that the automata stay well-formed, so that the defaults are never used.
* *Lexer.*  The text that codegen writes and its execution are one step.  The
  iterator is a parameter; the theorems for whole runs use iterators with one unit
  per character, and `Iter` carries them over to encoded text.
* *Grammar.*  A finite table of nodes with addresses as numbers; the visitors walk
  it as the code does, with the visited sets they have.
* *Parser.*  Generated code is modelled by what it does on a token stream.  User
  code in actions does nothing to the stream; user conditions are an oracle that
  may answer differently each time it is asked (the count of questions is part of
  the state).  AST building is left out there and covered by `Tree`, `Operator` and `ListNode`.
* *Tree.*  The run of `Parser` with the variables of the functions.  A node's variables
  are all annotated names of its rule; members and temporaries are not told apart, and
  rules with arguments are left out.  C73 relates the result to an independent
  derivation relation that collects the annotated pieces.
* *Operator.*  The AST is a heap of cells.  The base symbol's parser is a parameter
  that consumes at least one token.
* *Graph.*  Nodes are numbered in the order of their making; the order of the rules after
  finishedParsing (sorted by address) is any permutation.  A token that is not declared is
  a new node at every mention.
* *Numbers of elements, positions and lines* are unbounded where the code has `int`.

## Properties

The statements are in `properties.jsonl`, the theorems of each in `MANIFEST.json`.
How each is approached:

* C01-C03: invariant of the line table, spec by counting the newline offsets;
  `std::lower_bound` as the loop it is.
* C04-C06: refinement of the stream to a list with a cursor, induction on traces.
* C07-C10: invariants over request sequences, with any addresses malloc may return.
* C11: heap of nodes refines a list.
* C12, C13: words and bits; padding bits are canonical.
* C14-C17: membership as spec; induction on the merge loops; canonical form.
* C18, C19: the tree of comparisons is evaluated and compared with the transitions.
* C20-C23, C26, C27, C30: languages as predicates on words, run relation as spec.
* C24, C25: subset construction with an arbitrary order of the work list.
* C28, C61: partition refinement; Myhill-Nerode.
* C29, C31-C33: reachability and path lengths.
* C34, C35, C62-C64: composition of the above with the driver loop.
* C36-C41, C65-C67: encoders as spec, arithmetic case analysis, exact sets.
* C42-C46: derivation relation as spec; the passes as monotone state changes with a
  measure.
* C117: the visitor reports exactly the flagged parts of a rule; the flags by C42-C46, C116.
* C118: induction on the rule, whose parts come before it.
* C119: the recorded dependencies as a graph; a FOLLOW member has a way to a cause, and
  the search visits every node it can reach once.
* C120: induction on the run, over an inductive class of rule parts (ReportSpec).
* C121: lines as an inductive relation; invariant with the lines read and looked at.
* C122: induction on the run; the depth of calls as a ranking of the nodes.
* C123: from the induction of C120; skipping keeps the messages.
* C124: the names of operator symbols are told apart by their prefixes.
* C125: case analysis over all bytes; equal lengths split the texts.
* C126: literals as an inductive relation; the table of terminals as the first declarations.
* C127: the table is sorted; sorted lists with the same elements are equal.
* C116: what is put into a FOLLOW set comes from a place in a derivation; the places of
  the added nodes of loops and operators are those of the written ones.
* C47-C49, C56, C68-C71: induction on the execution, and on derivations.
* C50-C55, C57, C59, C72: each its own small spec.
* C74: the stack of the checker as a path; well-foundedness of inlining.
* C77: the beginnings of sentences (`viable`); what a failing run read is one, and a run
  depends only on the tokens it read.
* C78: descent in (tokens left, items reachable with nothing read); what is passed with
  nothing read is `idle`.
* C79-C88: derivatives of regular expressions against their languages; which rules can
  match at a character is computed for each of the 256; places in the text as spec.
* C89-C91: the tables are computed in Coq from the productions; checks on them (each
  computed once) carry the invariants of the generic parser: the stack spells a viable
  prefix, every reduction has its right side on the stack, reductions without reading end.
* C92, C93: what is meant as source syntax, printed to tokens.  A finer grammar, whose
  productions the table reads without exception (checked by computation), derives all that
  is printed; the effects of the actions are compared with the meaning.
* C94-C97: every item of a file has a node that looks as it does (`rep`), and every node
  comes from an item or is one of BnfVisitor's; so derivations from nodes and sentences of
  the file are the same, and conditions on the file give those of C42, C47, C70 and C78.
* C98, C99: reports as a list over the items; exact characterisation by the source text.
* C100-C102: for every option the settings it changes (`effect`); the last word of a
  command line as an inductive relation; reasons to fail and files as inductive relations.
* C103: composition of C101, C99 and C96.
* C104-C106: the text reads as a tree (readers with fuel enough, composed), the tree is
  executed along the run of the parser (forward simulation with the local variables of the
  enclosing try blocks kept); the generator ends by descent through the nodes and, at inlined
  symbols, through the order of inlining.
* C107-C109: every token with the text that writes it and what must not follow (33 kinds);
  the scanner reads it and is in the next context; lists by induction.  A file stored with
  directives is the same file with other code (`file_with`), and what matters is the same.
* C110: printed text read back with the scanner and parser of C107 and C92; ways through a
  right side as an inductive relation.
* C111, C112: the grammar of data files as an inductive relation; the map of classes as what
  the lines say, added up; an invariant of the scanner for what cannot be written.
* C114: a simulation between the lexer over characters and over units; C115: the token relation of
  C35 with the rule set as an index, and its uniqueness.
* C113: a dump is uniquely decodable: lines of members, then of deeper nodes.
* C75, C76: scoping of C++ as an inductive relation; a node conforms to its struct;
  the calls are compared with the preorder of the tree.
* C58: the operator stack as a list of frames around a tree; the reading that
  respects priorities is unique and is the one built.

## Findings

What the refutations show about the code:

* Location table: a shrinking resize writes outside; equal line starts make the
  answer depend on the cache.
* Memory pool and allocator: requests above the block size fail; `contains` of an
  allocator without blocks.
* BitArray: size 0; shrinking leaves bits in the padding.
* `star` is wrong when the automaton has a way back to its start state (`(a* b)*`);
  `minimize` stops early when an initial group is empty; unboundedness is
  over-reported and `maxLength` then recurses.
* Range automata are wrong in UTF-8 above 0x800 in general and in UTF-16 outside
  the basic plane; `.` misses characters; strings in UTF-16 are read with the UCS-2
  iterator and Latin-1 strings as UTF-8 bytes.
* A truncated UTF-8 sequence at the end is read beyond the buffer; a low surrogate
  half at the end of a transcoded text is lost.
* A rule or branch that consists of code only is not nullable for FIRST;
  reducesToEpsilon over-approximates on nodes it has seen before; `isZero` follows a
  null pointer for `A | [: code :]` (C118).
* A FIRST/FOLLOW conflict caused by an operator is reported with an empty explanation
  (C119).
* A wrong first token, text after the end, and a choice without a fitting branch in a
  start rule are rejected without a call of expectedToken or expectedSymbol (C120).
* One wrong token is reported once for each call that is open (C122).
* A wrong token directly inside try/recover is skipped without any message (C123).
* `--inherit-default-visitor`: in GenerateNewVisitorBitsRule the argument of a macro hides
  the class name, so every function is defined for a class called like the symbol (C124);
  its bodies lack a semicolon.
* generateLexer does not clean the language before it becomes an include guard (C125).
* Descriptions of tokens are escaped in tokenText, but not in calls of expectedToken (C126).
* The parser skips an inlined rule whose test fails; `A+ A`, `?A A`, `(A* | B) C` and an
  empty branch before others reject sentences without a warning; `0*` loops.
* Left recursion as in `(s A | 0) -> s` is not reported; the parser does not end (C78).
* try/rollback restores the token stream but not the AST: what the failed attempt
  stored stays, sequences get elements twice (C73).
* Operator expressions: a ternary operator that is not at the root loses its second
  part; a postfix operator after a ternary one overwrites its first operand;
  parentheses fail in a start symbol.
* Declarations: `%input_encoding` after a lexer kind computes another kind;
  TokenTypeSize need not exceed all token numbers; a symbol with two rules can be
  taken for a start symbol or be emitted twice.
* Cyclic inlining: the checker reports it but does not cut every cycle, and the next
  traversal does not end (C74).
* The output does not compile (C75, C76): `x:A` with AST generation; `x=A` together with
  `#x=B`; two arguments of one name; an argument member of an inlined rule; two rules
  for a symbol; a node member declared after another member (the visitor's parameter
  has no name).  No checker looks at these.
* The scanner: a type of one character in a rule's parameters (`x: T;`) reads outside the
  buffer, and blanks after a type are kept; arguments with brackets (`b[a[i], 3]`) lose
  their beginning; `"\\"` does not end at its second quote if the line has another;
  `::]` does not end a block; unknown characters in lexer rules are dropped; a byte 255
  ends the file silently; with line directives the column of rule arguments is that of
  the last code block; CR alone is not counted after a `;` in lexer rules.
* Base classes of nested operator expressions may be emitted after their users.
* `x @ y` drops conditions in the copy and pops an empty stack for bare code.
* The grammar of grammar files has some 200 conflicts that are settled silently; an empty
  lexer rule `;` ends the rule set (C91).  `%post X 0` without associativity frees a
  string literal (C92).
* Undefined symbols: what operators are applied to, all variables of a rule but the first,
  and the tokens of operators are not looked at; a report on a type may name the variable.
* The command line: `--no-ast --debug-visitor` (or serialize), `--no-lexer` with a lexer, and
  a grammar with lexer rules only give files that include headers nobody generates; the .cpp
  of a new visitor does not include its header; `--automata --no-lexer` follows a null
  pointer if there are lexer rules (the outcome `Undefined` of `DriverModel.main`).
* Printed rules (--rules, conflicts): rules with operators and branches of code alone come out
  as ` -> x` and `(A | )`, which are no rules (C110).
* Sections of lexer rules: one that is empty or ends with `%fail`, `%enter` or `%leave` is not left
  by its semicolon; no declaration can follow it (C108).
* Classes of characters: not loaded before the first `%lexer` without a state;
  loading adds to classes that the file defined before and replaces `num`;
  `ascii-range` and `latin1-range` cannot be written, names have no hyphen
  (C112). Empty lines of the data files go into a class without a name. Ranges
  such as 4E00..9FCB accept junk in UTF-8 (C111, from C40).
* The debug visitor: the text of a node with more than 31 characters loses its last one and counts
  one too few; a node without tokens between tokens that are apart shows all the rest (C113).
* Lexers over encoded input: `%la` and `%ba` count characters and go back by units, so a token may end
  inside a character; with QUtf8ToUtf16Iterator no character outside the basic plane can begin a
  token but the first one, as its second half stays pending when the lexer goes back (C114).
* Rule sets: `%enter` code of `start` does not run at the beginning; `lxSET_RULE_SET` twice in an
  action leaves the first set twice (C115).
* FIRST/FOLLOW conflicts after `x+` and after `?x` are not looked for; `B* (A | A) B` has a
  FIRST/FOLLOW warning and no conflict (C117).
* FOLLOW is too large after `x (A | A)` and if rules that only use each other use the symbol
  (C116).
* Not modelled, seen in reading: `lxLENGTH` is the position, not the length of the lexeme (php.g uses
  it as the latter); QStringIterator::plain() is no reference and cannot be assigned to; AST members rely on zeroed pool memory.

## Not modelled

Qt itself and file handling; the C code of the scanners and parsers flex and bison make
(their documented behaviour is modelled; bison's default reductions are left out, they
do more actions before an error is noticed, and read nothing more); the printing of messages (yyerror); the spelling of the generated C++ beyond the control flow of the parse functions: statements
about the tree, messages and user code are single tokens there (of the other files only names
and includes are modelled); the contents of the dumps but for the rules; the serialization
visitor (its text tests and fills a QDataStream in ways Qt does not offer); astyle.
User code in grammars, except as oracles.
Floating-point and threads do not occur in the modelled code; the exceptions of
InlineChecker are results of the model's functions.
