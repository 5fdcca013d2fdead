{"id": "C01", "title": "Line/column of an offset is exact", "statement": "After any sequence of newline(o) calls with strictly increasing offsets o >= 0, positionAt(x) for every x >= 0 returns line = number of recorded newlines at offsets < x and column = x minus the offset just after the last of these newlines (or x itself on line 0). A negative offset returns (-1,-1).", "quantifier": "every increasing sequence of newline offsets, every query offset, every interleaving of queries and newlines", "why_tests_cant": "the number of tables, offsets and interleavings is unbounded and the answer goes through a cache, a fast path and a binary search", "anchors": ["src/include/kdev-pg-location-table.h: LocationTable::positionAt, LocationTable::newline"]}
{"id": "C02", "title": "Earlier position queries never change a later answer", "statement": "The answer of positionAt depends only on the newlines recorded so far; the remembered last line (a mutable cache written by const queries) is not observable.", "quantifier": "every pair of query histories over the same table", "why_tests_cant": "a stale cache shows only after a particular query history; histories are unbounded", "anchors": ["src/include/kdev-pg-location-table.h: LocationTable::positionAt, lastLine"]}
{"id": "C03", "title": "Recording lines never writes outside the line table", "statement": "For every initial size >= 1 and any number of newline() calls, each store is inside the current buffer, and no previously recorded line start is lost when the buffer grows.", "quantifier": "every initial size and every number of newlines", "why_tests_cant": "growth happens at unboundedly many capacities; an off-by-one corrupts memory only there", "anchors": ["src/include/kdev-pg-location-table.h: LocationTable::newline, LocationTable::resize"]}
{"id": "C04", "title": "Token stream behaves like a list with a cursor", "statement": "Any sequence of push, read, rewind, reset and clear calls that respects the documented index ranges behaves like an append-only list of tokens plus a cursor; read past the end yields a token of kind 1000 (EOF) and never alters an existing token.", "quantifier": "every sequence of operations from an empty stream", "why_tests_cant": "operation sequences are unbounded; EOF is materialised lazily so an error appears only in certain orders", "anchors": ["src/include/kdev-pg-token-stream.h: TokenStreamBase::read, push, rewind, reset, clear, index, size"]}
{"id": "C05", "title": "Parser lookahead LA(k) does not disturb parsing", "statement": "LA(k) for k >= 1 returns the token that k-1 further yylex() calls would make current, and leaves the current token, the stream position and all buffered tokens as they were.", "quantifier": "every stream state with a current token, every k >= 1, every remaining input", "why_tests_cant": "depends on buffered versus not yet read tokens and on k beyond the end of input", "anchors": ["src/kdev-pg-code-gen.cpp: GenerateParserDeclarations (LA)", "src/include/kdev-pg-token-stream.h: TokenStreamBase::read"]}
{"id": "C06", "title": "Rewinding replays the same tokens", "statement": "rewind(i) followed by n reads delivers exactly the tokens i..i+n-1 delivered before; the tokens seen after backtracking never depend on how much was read before the rewind.", "quantifier": "every reachable stream state, index i within the documented range and every n", "why_tests_cant": "backtracking depth and history are unbounded", "anchors": ["src/include/kdev-pg-token-stream.h: TokenStreamBase::rewind, read", "src/kdev-pg-code-gen.cpp: Parser::rewind"]}
{"id": "C07", "title": "Memory pool hands out disjoint zeroed blocks", "statement": "For every sequence of allocate(n) calls the returned regions are pairwise disjoint, lie inside a live block of the pool, and are zero-initialised; earlier regions stay valid.", "quantifier": "every sequence of request sizes", "why_tests_cant": "the block chain and its growth by a factor of four depend on the whole request history", "anchors": ["src/include/kdev-pg-memory-pool.h: MemoryPool::allocate, BlockType::init, BlockType::allocate"]}
{"id": "C08", "title": "Memory pool allocation always succeeds", "statement": "allocate(n) terminates and returns a usable region for every n >= 0.", "quantifier": "every request size and every history", "why_tests_cant": "block sizes are computed in 64 bits but passed as 32-bit int; the failing sizes are above one GiB", "anchors": ["src/include/kdev-pg-memory-pool.h: MemoryPool::allocate, BlockType::init0"]}
{"id": "C09", "title": "Block allocator hands out disjoint in-bounds regions", "statement": "For every sequence of allocate(n) calls the returned regions are pairwise disjoint and lie inside an allocated block.", "quantifier": "every sequence of element counts", "why_tests_cant": "block switches depend on the history; overflow needs a particular size/offset combination", "anchors": ["src/include/kdev-pg-allocator.h: Allocator::allocate"]}
{"id": "C10", "title": "Allocator membership test is exact", "statement": "contains(p) is true exactly when p points into one of the blocks the allocator owns, in particular it is false for every pointer when nothing was allocated.", "quantifier": "every allocation history and every pointer", "why_tests_cant": "the empty history and block boundaries are corner cases of an unbounded space", "anchors": ["src/include/kdev-pg-allocator.h: Allocator::contains", "src/kdev-pg-bnf-visitor.cpp: BnfVisitor::isInternal"]}
{"id": "C11", "title": "AST sequences keep all elements in order", "statement": "Appending elements one by one with snoc and then walking from front() once around visits exactly the appended elements in order; count, at, front, back and hasNext agree with that list.", "quantifier": "every sequence of elements and every handle (any node of the list) used for appending", "why_tests_cant": "list lengths are unbounded and snoc may be called through any node", "anchors": ["src/include/kdev-pg-list.h: ListNode, snoc"]}
{"id": "C12", "title": "Bit arrays store bits independently", "statement": "A new bit array of size n reads 0 at every index < n; writing index i changes the bit i and nothing else.", "quantifier": "every size (including multiples of the word size), every sequence of writes", "why_tests_cant": "word boundaries and sizes are unbounded", "anchors": ["src/kdev-pg-bit-array.h: BitArray::operator[], setZerosAtEnd"]}
{"id": "C13", "title": "Bit array comparison and hashing agree with content", "statement": "Two bit arrays of equal size are == exactly when all bits agree, == arrays have equal hash, and < is a strict total order compatible with ==.", "quantifier": "every pair of arrays reachable by construction and writes", "why_tests_cant": "padding bits in the last word must never leak; depends on the write history", "anchors": ["src/kdev-pg-bit-array.h: BitArray::operator==, operator<, qHash"]}
{"id": "C14", "title": "Character set algebra is exact (sequence representation)", "statement": "After union, intersection and difference a character is accepted exactly when the boolean combination of the operands accepts it; results keep sorted, non-empty, non-touching ranges.", "quantifier": "every pair of well-formed sets and every character", "why_tests_cant": "range lists are unbounded and the merge loops have many boundary cases", "anchors": ["src/kdev-pg-regexp-helper.h: SeqCharSet::getUnion, intersection, difference, accepts"]}
{"id": "C15", "title": "Character set complement is exact (sequence representation)", "statement": "negate() accepts a character of the codec exactly when the set did not accept it before.", "quantifier": "every well-formed non-epsilon set and every character of the codec", "why_tests_cant": "sets touching 0 and the top of the codec take different paths", "anchors": ["src/kdev-pg-regexp-helper.h: SeqCharSet::negate"]}
{"id": "C16", "title": "Sequence and table character sets are interchangeable", "statement": "Any expression built from ranges, union, intersection, difference and complement accepts the same characters in the sequence and the table representation.", "quantifier": "every set expression and every character of the codec", "why_tests_cant": "expressions are unbounded", "anchors": ["src/kdev-pg-regexp-helper.h: SeqCharSet, TableCharSet"]}
{"id": "C17", "title": "Character set equality is extensional", "statement": "Two well-formed sets compare equal exactly when they accept the same characters.", "quantifier": "every pair of well-formed sets", "why_tests_cant": "needs canonicity of every representable set", "anchors": ["src/kdev-pg-regexp-helper.h: SeqCharSet::operator==, TableCharSet::operator=="]}
{"id": "C18", "title": "Generated branch code follows the automaton (sequence lexer)", "statement": "The if-tree generated for a state jumps, for every input character below the codec size, to the target of the transition accepting it, and to the end label if there is none.", "quantifier": "every list of transitions with pairwise disjoint well-formed sets and every character", "why_tests_cant": "trees are arbitrarily large, each leaf drops comparisons implied by its ancestors", "anchors": ["src/kdev-pg-regexp-helper.h: CharSetCondition<SeqCharSet>::codegen, operator()"]}
{"id": "C19", "title": "Generated branch code follows the automaton (table lexer)", "statement": "The switch generated for a state jumps, for every input character, to the target of the transition accepting it and to the end label otherwise, and contains no duplicate case label.", "quantifier": "every list of transitions with pairwise disjoint sets and every character", "why_tests_cant": "unbounded number of transition lists", "anchors": ["src/kdev-pg-regexp-helper.h: CharSetCondition<TableCharSet>::operator()"]}
{"id": "C20", "title": "Regular expression union", "statement": "a |= b accepts exactly the words accepted by a or by b.", "quantifier": "every pair of automata that the API can build and every word", "why_tests_cant": "automata and words are unbounded", "anchors": ["src/kdev-pg-regexp.cpp: NFA::operator|=, adjust"]}
{"id": "C21", "title": "Regular expression concatenation", "statement": "a <<= b accepts exactly the words uv with u accepted by a and v accepted by b.", "quantifier": "every pair of automata that the API can build and every word", "why_tests_cant": "automata and words are unbounded", "anchors": ["src/kdev-pg-regexp.cpp: NFA::operator<<="]}
{"id": "C22", "title": "Regular expression star", "statement": "*a accepts exactly the finite concatenations of words accepted by a.", "quantifier": "every automaton that the API can build and every word", "why_tests_cant": "automata and words are unbounded", "anchors": ["src/kdev-pg-regexp.cpp: NFA::operator*"]}
{"id": "C23", "title": "Literals and character classes", "statement": "word(s) accepts exactly s; a character set automaton accepts exactly the one-letter words of the set; emptyWord accepts exactly the empty word; empty accepts nothing.", "quantifier": "every string, set and word", "why_tests_cant": "unbounded strings", "anchors": ["src/kdev-pg-regexp.cpp: NFA(CharSet), NFA(), emptyWord, GNFA::word"]}
{"id": "C24", "title": "Determinisation preserves the language and the rule priority", "statement": "dfa() accepts a word with action i exactly when the automaton accepts it by accepting state i and by no accepting state with smaller index, whatever the iteration order of the hash containers.", "quantifier": "every automaton, every word, every hash order", "why_tests_cant": "automata, words and hash orders are unbounded", "anchors": ["src/kdev-pg-regexp.cpp: NFA::dfa, follow, closure"]}
{"id": "C25", "title": "Determinised automata are deterministic", "statement": "From every state of dfa() and every character at most one target state is possible.", "quantifier": "every automaton, state and character", "why_tests_cant": "overlap splitting is an unbounded rewriting loop", "anchors": ["src/kdev-pg-regexp.cpp: NFA::follow, dfa"]}
{"id": "C26", "title": "Complement of a regular expression", "statement": "negate() accepts exactly the words over the codec alphabet that the expression did not accept.", "quantifier": "every automaton and every word", "why_tests_cant": "automata and words are unbounded", "anchors": ["src/kdev-pg-regexp.cpp: NFA::negate"]}
{"id": "C27", "title": "Intersection and difference of regular expressions", "statement": "a &= b accepts exactly the words accepted by both, a ^= b exactly the words accepted by a and not by b.", "quantifier": "every pair of automata that the API can build and every word", "why_tests_cant": "automata and words are unbounded", "anchors": ["src/kdev-pg-regexp.cpp: NFA::operator&=, operator^="]}
{"id": "C28", "title": "Minimisation preserves the recognised language and actions", "statement": "minimize() never changes which words are accepted nor with which action.", "quantifier": "every determinised automaton and every word", "why_tests_cant": "partition refinement depends on the whole automaton", "anchors": ["src/kdev-pg-regexp.cpp: DFA::minimize, sameGroup"]}
{"id": "C29", "title": "Removing useless states preserves the language", "statement": "eliminateUnarrivableStates() and eliminateInactiveStates() keep acceptance and action of every word (as long as the start state survives).", "quantifier": "every deterministic automaton and every word", "why_tests_cant": "automata and words are unbounded", "anchors": ["src/kdev-pg-regexp.cpp: DFA::filterStates, eliminateUnarrivableStates, eliminateInactiveStates"]}
{"id": "C30", "title": "Converting an automaton back keeps its language", "statement": "nfa() of a deterministic automaton accepts a word by accepting index i exactly when the deterministic automaton does.", "quantifier": "every deterministic automaton and every word", "why_tests_cant": "automata and words are unbounded", "anchors": ["src/kdev-pg-regexp.cpp: DFA::nfa"]}
{"id": "C31", "title": "Empty-word diagnosis is exact", "statement": "acceptsEpsilon() is true exactly when the empty word is accepted.", "quantifier": "every automaton", "why_tests_cant": "graph search over unbounded automata", "anchors": ["src/kdev-pg-regexp.cpp: NFA::acceptsEpsilon", "src/kdev-pg-parser.yy: lexer_declaration_rest"]}
{"id": "C32", "title": "Emptiness diagnosis is exact", "statement": "isEmpty() is true exactly when no word is accepted.", "quantifier": "every automaton", "why_tests_cant": "graph search over unbounded automata", "anchors": ["src/kdev-pg-regexp.cpp: NFA::isEmpty", "src/kdev-pg-parser.yy: lexer_declaration_rest"]}
{"id": "C33", "title": "Length bounds of a regular expression are exact", "statement": "minLength() is the length of the shortest accepted word (-1 if none), maxLength() the length of the longest one (-1 if none, -2 if unbounded).", "quantifier": "every automaton that the API can build", "why_tests_cant": "two-queue breadth-first search with a shared visited set; depends on the whole graph", "anchors": ["src/kdev-pg-regexp.cpp: NFA::minLength, maxLength, isUnbounded"]}
{"id": "C34", "title": "Generated lexer takes the longest match, earliest rule first", "statement": "One step of the generated lexer consumes the longest non-failing prefix matched by some rule and runs the action of the first such rule; if no prefix matches it runs the fail action without consuming.", "quantifier": "every list of rules and every input", "why_tests_cant": "rules and inputs are unbounded", "anchors": ["src/kdev-pg-regexp.cpp: DFA::codegen, NFA(list), dfa", "src/kdev-pg-generate.cpp: LEXER_CORE_IMPL"]}
{"id": "C35", "title": "Generated lexer covers the input", "statement": "Repeated reads cut the input into consecutive pieces in order, and every emitted token spans exactly its piece (begin = first, end = last character index); after the input an EOF token follows.", "quantifier": "every lexer whose rules do not accept the empty word, every input", "why_tests_cant": "number of tokens is unbounded", "anchors": ["src/kdev-pg-generate.cpp: lxNAMED_TOKEN, lxEOF, LEXER_CORE_IMPL"]}
{"id": "C36", "title": "UTF-8 input decodes to the encoded characters", "statement": "Iterating QUtf8ToUcs4Iterator over the UTF-8 encoding of any sequence of scalar values other than Unicode non-characters yields these values in order and then stops.", "quantifier": "every sequence of scalar values", "why_tests_cant": "sequences are unbounded and four encoding lengths interact with the non-character filter", "anchors": ["src/include/kdev-pg-char-sets.h: QUtf8ToUcs4Iterator::next, hasNext"]}
{"id": "C37", "title": "Decoding arbitrary bytes stays inside the buffer", "statement": "For any byte sequence, valid or not, the UTF-8 iterators read only bytes of the buffer and terminate.", "quantifier": "every byte sequence", "why_tests_cant": "malformed inputs are unbounded", "anchors": ["src/include/kdev-pg-char-sets.h: QUtf8ToUcs4Iterator::next, QUtf8ToUtf16Iterator::next"]}
{"id": "C38", "title": "UTF-16 input decodes to the encoded characters", "statement": "Iterating QUtf16ToUcs4Iterator over the UTF-16 encoding of any sequence of scalar values yields these values in order.", "quantifier": "every sequence of scalar values", "why_tests_cant": "sequences are unbounded", "anchors": ["src/include/kdev-pg-char-sets.h: QUtf16ToUcs4Iterator::next"]}
{"id": "C39", "title": "UTF-8 to UTF-16 transcoding loses nothing", "statement": "Iterating QUtf8ToUtf16Iterator over the UTF-8 encoding of any sequence of scalar values other than non-characters yields its UTF-16 encoding.", "quantifier": "every sequence of scalar values", "why_tests_cant": "sequences are unbounded; the second half of a surrogate pair is delivered by a later call", "anchors": ["src/include/kdev-pg-char-sets.h: QUtf8ToUtf16Iterator::next, hasNext"]}
{"id": "C40", "title": "Code point ranges in UTF-8 automata", "statement": "range(b,e) in a UTF-8 lexer accepts exactly the UTF-8 encodings of the code points c with b <= c < e.", "quantifier": "every b and e up to 0x110000 and every byte sequence", "why_tests_cant": "about 10^12 pairs of bounds with byte-sequence languages", "anchors": ["src/kdev-pg-regexp.cpp: addUtf8Range, GNFA::range", "src/generated-kdev-utf8-tuples.h: getUtf8Tuples"]}
{"id": "C41", "title": "Code point ranges in UTF-16 automata", "statement": "range(b,e) in a UTF-16 lexer accepts exactly the UTF-16 encodings of the code points c with b <= c < e.", "quantifier": "every b and e up to 0x110000 and every code unit sequence", "why_tests_cant": "about 10^12 pairs of bounds", "anchors": ["src/kdev-pg-regexp.cpp: UTF16_IMPL, GNFA::range"]}
{"id": "C42", "title": "FIRST sets are complete", "statement": "If an item of the grammar derives a token string starting with token t then t is in its FIRST set, and if it derives the empty string it is treated as nullable.", "quantifier": "every grammar and every derivation", "why_tests_cant": "derivations are unbounded; the fixpoint iterates over shared and cyclic nodes", "anchors": ["src/kdev-pg-first.cpp: computeFirst, NextFirst", "src/kdev-pg-bnf-visitor.cpp: BnfVisitor", "src/kdev-pg.cpp: reducesToEpsilon"]}
{"id": "C43", "title": "FIRST sets are not too large", "statement": "A token in the FIRST set of an item really starts some string derivable from the item (for grammars whose symbols all derive something).", "quantifier": "every grammar without a repeated terminal object inside one item, every item", "why_tests_cant": "over-approximation depends on the fixpoint over the whole grammar", "anchors": ["src/kdev-pg-first.cpp: computeFirst, NextFirst", "src/kdev-pg.cpp: reducesToEpsilon"]}
{"id": "C44", "title": "Nullability test is exact", "statement": "reducesToEpsilon(item) is true exactly when the item derives the empty token string.", "quantifier": "every grammar and item", "why_tests_cant": "depends on node sharing across the item", "anchors": ["src/kdev-pg.cpp: reducesToEpsilon"]}
{"id": "C45", "title": "FIRST and FOLLOW computation terminates", "statement": "computeFirst() and computeFollow() stop after finitely many passes on every grammar.", "quantifier": "every grammar, including cyclic and left-recursive ones", "why_tests_cant": "termination cannot be tested", "anchors": ["src/kdev-pg-first.cpp: computeFirst", "src/kdev-pg-follow.cpp: computeFollow"]}
{"id": "C46", "title": "FOLLOW sets are complete", "statement": "If in some derivation from a start symbol an occurrence of an item is directly followed by token t (or end of input), then t (or EOF) is in the FOLLOW set of the item.", "quantifier": "every grammar and derivation", "why_tests_cant": "derivations are unbounded", "anchors": ["src/kdev-pg-follow.cpp: computeFollow, NextFollow"]}
{"id": "C47", "title": "Generated parser accepts only sentences of the grammar", "statement": "If the generated parse function of a start symbol returns true, the tokens it consumed (up to EOF) are derivable from that symbol, whatever the FIRST/FOLLOW sets and semantic conditions are (no try/recover).", "quantifier": "every grammar, every token stream, every outcome of embedded conditions", "why_tests_cant": "grammars and inputs are unbounded", "anchors": ["src/kdev-pg-code-gen.cpp: CodeGenerator, GenerateParserRule"]}
{"id": "C48", "title": "Generated parser accepts every sentence of a conflict-free grammar", "statement": "If the tool reports no FIRST/FIRST and FIRST/FOLLOW conflict and no error, the generated parser accepts every token string derivable from the start symbol.", "quantifier": "every grammar and every sentence", "why_tests_cant": "grammars and sentences are unbounded", "anchors": ["src/kdev-pg-code-gen.cpp: CodeGenerator::visitAlternative, visitStar, visitPlus, visitEvolve", "src/kdev-pg-checker.cpp: FirstFirstConflictChecker, FirstFollowConflictChecker"]}
{"id": "C49", "title": "Backtracking blocks restore the parser", "statement": "If the try part of try/rollback fails at any point, the catch part starts with the same current token and stream index as the try part did.", "quantifier": "every grammar, token stream and failure point", "why_tests_cant": "failure points are unbounded", "anchors": ["src/kdev-pg-code-gen.cpp: CodeGenerator::visitTryCatch"]}
{"id": "C50", "title": "Start symbol detection", "statement": "A symbol is treated as start symbol exactly when it is never used on the right-hand side of a rule.", "quantifier": "every sequence of rules", "why_tests_cant": "depends on the order and number of mentions", "anchors": ["src/kdev-pg.h: World::pushSymbol", "src/kdev-pg-parser.yy: item, primary_atom"]}
{"id": "C51", "title": "Token numbers are unique", "statement": "The generated token enumeration gives pairwise different values, EOF is always 1000 and no other token has that value.", "quantifier": "every set of token names", "why_tests_cant": "unbounded sets of names", "anchors": ["src/kdev-pg-token-type-gen.cpp: GenerateToken, GenerateTokenType"]}
{"id": "C52", "title": "Visitor dispatch reaches the right method", "statement": "For every AST node kind that a parser can create, the generated visitor table entry at kind-1000 is the visit method of exactly that kind, and kinds are pairwise different.", "quantifier": "every set of symbols with any subset of operator symbols", "why_tests_cant": "table and enum are generated by two separate loops that must stay aligned for all symbol sets", "anchors": ["src/kdev-pg-ast-gen.cpp: GenerateAst::operator()", "src/kdev-pg-visitor-bits-gen.cpp: GenerateVisitorBits::operator()"]}
{"id": "C53", "title": "String escapes denote the intended characters", "statement": "unescaped() maps every escaped spelling of a character sequence back to that sequence; text without backslash is unchanged.", "quantifier": "every character sequence and every escape spelling", "why_tests_cant": "unbounded strings; numeric escapes end at the first non-digit", "anchors": ["src/kdev-pg.cpp: unescaped"]}
{"id": "C54", "title": "Encoding and lexer kind declarations combine", "statement": "After any sequence of %table_lexer, %sequence_lexer and %input_encoding declarations the automaton type has the last declared encoding and the last declared kind.", "quantifier": "every sequence of declarations", "why_tests_cant": "sequences are unbounded", "anchors": ["src/kdev-pg-parser.yy: declaration (T_TABLE_LEXER, T_SEQUENCE_LEXER, T_INPUT_ENCODING)", "src/kdev-pg-regexp.h: AutomatonType"]}
{"id": "C55", "title": "Every rule lookup finds the rules of its symbol", "statement": "After sorting, the lookup of a symbol returns one of its rules if it has any and nothing otherwise.", "quantifier": "every list of rules and every pointer order", "why_tests_cant": "pointer orders are arbitrary", "anchors": ["src/kdev-pg.h: World::finishedParsing, searchRule, ruleComp"]}
{"id": "C56", "title": "Alternatives are tried in the written order", "statement": "The generated if/else chain lists exactly the operands of nested alternatives, each once, in source order.", "quantifier": "every nesting of alternatives", "why_tests_cant": "trees are unbounded", "anchors": ["src/kdev-pg-code-gen.cpp: CodeGenerator::visitAlternative"]}
{"id": "C57", "title": "Copied items are faithful", "statement": "Cloning an item (used by the '@' list operator) yields an item that derives the same strings and shares no sequence/alternative nodes with the original.", "quantifier": "every item tree", "why_tests_cant": "trees are unbounded", "anchors": ["src/kdev-pg-clone-tree.cpp: CloneTree", "src/kdev-pg-parser.yy: postfix_item"]}
{"id": "C58", "title": "Operator expressions keep operand order", "statement": "For every well-formed operator expression the tree built by the generated operator parser lists operands and operators in input order and respects priorities and associativity.", "quantifier": "every operator table with fixed priorities and every expression", "why_tests_cant": "expressions are unbounded", "anchors": ["src/kdev-pg-code-gen.cpp: CodeGenerator::visitOperator, GenerateParserRule"]}
{"id": "C59", "title": "AST base classes are emitted before derived ones", "statement": "Every AST struct whose declared base is generated by the tool is emitted after that base, each struct exactly once; cycles do not hang the tool.", "quantifier": "every base-class table", "why_tests_cant": "graph-shaped inputs are unbounded", "anchors": ["src/kdev-pg-ast-gen.cpp: GenerateAst::operator(), GenerateAstRule::operator()"]}
{"id": "C60", "title": "Automaton constructions end", "statement": "Determinisation, complement, intersection and difference of regular expression automata always finish with a result.", "quantifier": "every pair of regular expression automata, every order of the hash containers", "why_tests_cant": "the subset construction runs a worklist whose length is not bounded in advance", "anchors": ["src/kdev-pg-regexp.cpp: NFA::dfa, NFA::follow, NFA::negate, operator&=, operator^="]}
{"id": "C61", "title": "Minimised automata are the smallest", "statement": "No automaton with the same accepted words and actions has fewer states than the result of minimize().", "quantifier": "every regular expression automaton, and every deterministic automaton whose edges can be taken", "why_tests_cant": "quantifies over all equivalent automata", "anchors": ["src/kdev-pg-regexp.cpp: DFA::minimize"]}
{"id": "C62", "title": "Regular expressions mean what the manual says", "statement": "The automaton built for a lexer regular expression (strings, ranges, | & ^ ~ ? * + @, named expressions) accepts exactly the textbook language of the expression.", "quantifier": "every expression", "why_tests_cant": "expressions and words are unbounded", "anchors": ["src/kdev-pg-parser.yy: regexp rules"]}
{"id": "C63", "title": "Lookahead rules consume exactly the text before the lookahead", "statement": "A lexer rule with %la matches a word of the rule followed by a word of the lookahead, and the token ends before the lookahead.", "quantifier": "every rule and fixed-length lookahead, every input", "why_tests_cant": "rules and inputs are unbounded", "anchors": ["src/kdev-pg-parser.yy: lexer_declaration_rest (T_LOOKAHEAD)"]}
{"id": "C64", "title": "Barrier rules never consume the barrier", "statement": "The text consumed by a lexer rule with %ba is a word of the rule that contains no word of the barrier.", "quantifier": "every rule and fixed-length barrier, every input", "why_tests_cant": "rules and inputs are unbounded", "anchors": ["src/kdev-pg-parser.yy: lexer_declaration_rest (T_BARRIER)"]}
{"id": "C65", "title": "The any-character expression", "statement": "'.' in a lexer accepts exactly the encodings of single characters of the lexer's encoding.", "quantifier": "every encoding and every sequence of code units", "why_tests_cant": "the sequences are unbounded and the automaton depends on the order of hash containers", "anchors": ["src/kdev-pg-regexp.cpp: GNFA::anyChar"]}
{"id": "C66", "title": "String literals in lexer rules", "statement": "A string literal in a lexer rule accepts exactly the encoding of its characters in the lexer's encoding.", "quantifier": "every encoding and every string", "why_tests_cant": "strings are unbounded", "anchors": ["src/kdev-pg-regexp.cpp: GNFA::word", "src/include/kdev-pg-char-sets.h: Codec2FromUtf8Iterator"]}
{"id": "C67", "title": "Ranges in one-unit encodings and character collections", "statement": "In ASCII, Latin-1, UCS-2 and UCS-4 lexers range(b,e) accepts exactly the characters from b below e that the encoding has; a collection accepts exactly the encodings of its members.", "quantifier": "every b and e, every collection", "why_tests_cant": "about 10^12 pairs of bounds, unbounded collections", "anchors": ["src/kdev-pg-regexp.cpp: GNFA::range, GNFA::collection"]}
{"id": "C68", "title": "Recovery resumes where the surrounding rule can go on", "statement": "After a failure inside try/recover the parser skips to the first following token that can follow the block, or to EOF; it makes progress if the block consumed nothing, it never fails there and it ends on every finite input.", "quantifier": "every grammar, every FOLLOW table, every input and failure point", "why_tests_cant": "inputs and failure points are unbounded", "anchors": ["src/kdev-pg-code-gen.cpp: CodeGenerator::visitTryCatch, generateRecovery"]}
{"id": "C69", "title": "Blocked errors stay silent", "statement": "While errors are blocked (the try part of try/rollback) the generated parser reports no error.", "quantifier": "every grammar, input and failure point", "why_tests_cant": "grammars and inputs are unbounded", "anchors": ["src/kdev-pg-code-gen.cpp: CodeGenerator::visitTryCatch, visitOperator, generateParserCall"]}
{"id": "C70", "title": "The generated parser decides its language", "statement": "For a grammar the tool reports nothing about, the generated parser accepts a token sequence exactly if the grammar derives it.", "quantifier": "every such grammar, every finite token sequence", "why_tests_cant": "grammars and sentences are unbounded", "anchors": ["src/kdev-pg-code-gen.cpp", "src/kdev-pg-checker.cpp", "src/kdev-pg-first.cpp", "src/kdev-pg-follow.cpp"]}
{"id": "C71", "title": "Empty operands are reported", "statement": "If the tool reports no error, no operand of an operator expression derives the empty sequence.", "quantifier": "every grammar", "why_tests_cant": "needs all derivations of every grammar", "anchors": ["src/kdev-pg-checker.cpp: EmptyOperatorChecker"]}
{"id": "C72", "title": "Range literals denote their bounds", "statement": "A range literal of a lexer specification, with any escapes in its bounds, denotes exactly the characters from its first to its last bound.", "quantifier": "every pair of characters and every escaped spelling of them", "why_tests_cant": "pairs of characters times spellings", "anchors": ["src/kdev-pg-parser.yy: regexp (T_RANGE)", "src/kdev-pg.cpp: unescaped"]}
{"id": "C73", "title": "The AST is the tree of the text", "statement": "For an accepted text the node that the parse function of a symbol returns is the tree of a derivation: its span is the derived text, a sequence variable holds all annotated pieces in order, any other variable the last one; nodes lie inside the nodes that hold them; for a grammar the tool reports nothing about the tree is the only one.", "quantifier": "every grammar without operator expressions, every text and every assignment of variables to annotations", "why_tests_cant": "grammars, texts and trees are unbounded", "anchors": ["src/kdev-pg-code-gen.cpp: CodeGenerator::visitAnnotation, generateParserCall, GenerateParserRule", "src/include/kdev-pg-list.h: snoc"]}
{"id": "C74", "title": "Cyclic inlining is reported", "statement": "The tool reports an error exactly if rules inline each other in a circle or a rule inlines an operator symbol; if it does not, every later traversal of the rules ends.", "quantifier": "every grammar", "why_tests_cant": "grammars and depths of inlining are unbounded", "anchors": ["src/kdev-pg-inline-checker.cpp", "src/kdev-pg-inline-checker.h", "src/kdev-pg-default-visitor.cpp"]}
{"id": "C75", "title": "Names in the generated declarations", "statement": "The AST struct of a symbol has exactly the members declared for it, each once; the parse method has the declared arguments, uses only variables in scope and members of the struct, with their types, and stores every annotated piece.", "quantifier": "every grammar, every symbol, with and without AST generation", "why_tests_cant": "grammars are unbounded; tests compile a few of them", "anchors": ["src/kdev-pg-ast-gen.cpp: GenerateAstRule", "src/kdev-pg-code-gen.cpp: CodeGenerator, GenerateParserRule, GenerateLocalDeclarations, GenerateParseMethodSignature, GenerateTokenVariableInitialization"]}
{"id": "C76", "title": "The default visitor visits every node", "statement": "The generated default visitor calls visitNode for every node of an AST, each once, a node before its children and these in the order of the members; its methods compile.", "quantifier": "every grammar, every tree", "why_tests_cant": "grammars and trees are unbounded", "anchors": ["src/kdev-pg-default-visitor-bits-gen.cpp", "src/kdev-pg-visitor-gen.cpp"]}
{"id": "C77", "title": "Errors are at the first wrong token", "statement": "If the generated parser rejects a text, the tokens before the one it stopped at are the beginning of a sentence, and together with that token they are not.", "quantifier": "every grammar the tool reports nothing about, every text", "why_tests_cant": "needs all continuations of every text", "anchors": ["src/kdev-pg-code-gen.cpp: CodeGenerator, GenerateParserRule"]}
{"id": "C78", "title": "The generated parser ends", "statement": "On every text the generated parser ends, with the verdict whether the text is a sentence.", "quantifier": "every grammar the tool reports nothing about, every text, every outcome of the conditions", "why_tests_cant": "a parser that does not end cannot be told from a slow one, texts are unbounded", "anchors": ["src/kdev-pg-code-gen.cpp: CodeGenerator, GenerateParserRule", "src/kdev-pg-checker.cpp: EmptyFirstChecker, FirstFollowConflictChecker"]}
{"id": "C79", "title": "Code blocks are taken over unchanged", "statement": "The text between [: and the first :] that no colon stands before becomes one code token with exactly this text; a block without such an end is a lexical error.", "quantifier": "every text of the block, every text after it, every state of the scanner outside of code", "why_tests_cant": "the texts of code blocks are unbounded", "anchors": ["src/kdev-pg-lexer.ll: CODE, COPY_CODE_TO_YYLVAL"]}
{"id": "C80", "title": "Line directives name the place of code in the grammar", "statement": "With line directives every character of a code block is given the line and column it has in the grammar file.", "quantifier": "every file without NUL, lone CR and lexer rules, every block, every character of it; the line also with lexer rules", "why_tests_cant": "needs every text before and inside of the block", "anchors": ["src/kdev-pg-lexer.ll: COPY_CODE_TO_YYLVAL, newline, appendLineBuffer"]}
{"id": "C81", "title": "Tokens carry the line they end in", "statement": "The line number at a token is one more than the number of line ends read up to it.", "quantifier": "every file without lone CR, every token", "why_tests_cant": "files are unbounded; the count is spread over the actions of all start conditions", "anchors": ["src/kdev-pg-lexer.ll: newline, countNewlines"]}
{"id": "C82", "title": "Rule arguments are taken over unchanged", "statement": "The text between [ and ] after a symbol becomes one token with exactly this text.", "quantifier": "every text without brackets outside of strings", "why_tests_cant": "texts are unbounded", "anchors": ["src/kdev-pg-lexer.ll: RULE_ARGUMENTS"]}
{"id": "C83", "title": "String literals end at their quote", "statement": "A string literal gives the text between its quotes, quotes after a backslash included; a quote not closed in its line is a lexical error.", "quantifier": "every text of the string, every text after it", "why_tests_cant": "the longest match depends on everything that follows in the line", "anchors": ["src/kdev-pg-lexer.ll: String"]}
{"id": "C84", "title": "Types of variables are taken over unchanged", "statement": "The text between : and ; in a rule's parameters becomes one token with exactly this text.", "quantifier": "every text without semicolon of two or more characters", "why_tests_cant": "texts are unbounded", "anchors": ["src/kdev-pg-lexer.ll: RULE_PARAMETERS_VARNAME"]}
{"id": "C85", "title": "Layout does not matter", "statement": "Blanks, line ends and comments between tokens change nothing but the line count.", "quantifier": "every gap, before every text, in grammar rules, rule parameters and lexer rules", "why_tests_cant": "gaps are unbounded and so are the texts around them", "anchors": ["src/kdev-pg-lexer.ll"]}
{"id": "C86", "title": "Words, numbers and keywords are told apart", "statement": "A word is a terminal exactly if it has only capital letters and underscores, otherwise an identifier (but catch, try/recover and try/rollback); 0 and numbers are told apart; of the keywords with a percent sign the longest is taken.", "quantifier": "every word, number and keyword, every text after it", "why_tests_cant": "words and the texts after them are unbounded", "anchors": ["src/kdev-pg-lexer.ll"]}
{"id": "C87", "title": "Meaningless characters are reported at their place", "statement": "A character no token starts with is a lexical error, reported with its line and column; all bytes of the file are read.", "quantifier": "every file without the bytes 0 and 255, lone CR and lexer rules, every place in it", "why_tests_cant": "needs all texts before the character", "anchors": ["src/kdev-pg-lexer.ll: yyerror, inp, appendLineBuffer"]}
{"id": "C88", "title": "Scanning ends", "statement": "The scanner ends on every file.", "quantifier": "every sequence of bytes", "why_tests_cant": "files are unbounded, and patterns may match the empty text", "anchors": ["src/kdev-pg-lexer.ll"]}
{"id": "C89", "title": "Accepted grammar files are sentences", "statement": "What the parser of grammar files accepts is a sentence of its grammar, and the actions of one derivation tree are done in the order of the text.", "quantifier": "every file, with and without AST", "why_tests_cant": "files are unbounded; the grammar has conflicts that are settled by rules of thumb", "anchors": ["src/kdev-pg-parser.yy"]}
{"id": "C90", "title": "Reading a grammar file ends", "statement": "The parser of grammar files ends on every file: it accepts, stops with a message, or reports a syntax error.", "quantifier": "every file, with and without AST", "why_tests_cant": "files are unbounded; empty rules may be reduced without reading anything", "anchors": ["src/kdev-pg-parser.yy"]}
{"id": "C91", "title": "Syntax errors are reported at the first wrong token", "statement": "What was read before a syntax error is the beginning of a sentence, and the error does not depend on what follows the token it is reported at.", "quantifier": "every file with a syntax error", "why_tests_cant": "needs all continuations of every text", "anchors": ["src/kdev-pg-parser.yy"]}
{"id": "C92", "title": "Grammar files are read as written", "statement": "A file printed from what is meant, with parentheses where the precedence of the operators asks for them, is accepted, and all that is read from it (rules, lexer rules with named expressions, declared tokens, base classes, lexer kind, settings) is as meant; so a sequence of tokens has one meaning.", "quantifier": "every file with at least one declaration whose named expressions are defined before use, whose lexer kind comes before lexer rules, and whose operands of @ have no conditions and no lone code", "why_tests_cant": "files are unbounded; the grammar has some 200 conflicts, whose settlement decides what a text means", "anchors": ["src/kdev-pg-parser.yy"]}
{"id": "C93", "title": "Rules and symbols come in the order of the file", "statement": "The rules the generator works on are those of the file in its order, with the operators binding as documented, and symbols are entered in the order they are mentioned.", "quantifier": "every file as in C92", "why_tests_cant": "files are unbounded", "anchors": ["src/kdev-pg-parser.yy: rules, item", "src/kdev-pg.h: pushRule, pushSymbol"]}
{"id": "C94", "title": "The grammar in memory says what the file says", "statement": "The nodes made from a grammar file are trees over shared symbols and declared tokens, as the later phases take for granted, and every symbol stands for exactly the sentences the file describes for it, whatever order the rules are sorted into.", "quantifier": "every readable file whose rules use declared tokens only, every order of the rules", "why_tests_cant": "files and sentences are unbounded", "anchors": ["src/kdev-pg.cpp: zero, plus, star, action, alternative, cons, evolve, annotation, condition, nonTerminal, terminal, operatorSymbol", "src/kdev-pg.h: pushTerminal, pushSymbol, pushRule, finishedParsing", "src/kdev-pg-bnf-visitor.cpp"]}
{"id": "C95", "title": "From the grammar file to accepted texts", "statement": "A text that the parser generated from a grammar file accepts is a sentence of the file's start symbol, read to its end.", "quantifier": "every readable file with declared tokens, no try/recover, inlined rules that can be empty and are not operator rules, one rule per operator symbol and no token named EOF; all sets, conditions and texts", "why_tests_cant": "spans all phases of the generator, for all files and all texts", "anchors": ["src/kdev-pg-parser.yy", "src/kdev-pg-first.cpp", "src/kdev-pg-follow.cpp", "src/kdev-pg-code-gen.cpp"]}
{"id": "C96", "title": "The generated parser decides the language of the file", "statement": "If the tool reports neither error nor conflict and the sets are careful, the generated parser accepts exactly the sentences of the file; without left recursion it ends on every text, with the right verdict.", "quantifier": "every file as in C95 without branches that are nothing but code; every text; conditions that hold", "why_tests_cant": "spans all phases of the generator, for all files and all texts", "anchors": ["src/kdev-pg-parser.yy", "src/kdev-pg-checker.cpp", "src/kdev-pg-code-gen.cpp"]}
{"id": "C97", "title": "FIRST in terms of the file", "statement": "The computations of FIRST and FOLLOW end for every file, and FIRST of a symbol holds every token that one of its sentences begins with, and marks it if it can be empty.", "quantifier": "every readable file with declared tokens; for the contents: no branch of code only, no empty operand of operators", "why_tests_cant": "sentences are unbounded", "anchors": ["src/kdev-pg-first.cpp", "src/kdev-pg-follow.cpp"]}
{"id": "C98", "title": "Undefined symbols are reported", "statement": "A symbol mentioned in a rule, a rule's first variable or an annotation is reported as undefined just when it has no rule, with the name of the rule it occurs in; a grammar all of whose symbols have rules gives no report.", "quantifier": "every readable file, every order of its rules", "why_tests_cant": "files are unbounded", "anchors": ["src/kdev-pg-checker.cpp: UndefinedSymbolChecker", "src/kdev-pg-main.cpp: main"]}
{"id": "C99", "title": "Undeclared tokens are reported", "statement": "A token in an ordinary rule is reported just when it is not declared and not EOF; without reports, and if the tokens of operators are declared and EOF is not used, all tokens of the file are declared.", "quantifier": "every readable file, every order of its rules", "why_tests_cant": "files are unbounded", "anchors": ["src/kdev-pg-checker.cpp: UndefinedTokenChecker"]}
{"id": "C100", "title": "The last word on the command line counts", "statement": "Every setting has the value that the last option about it gives, or its default; information options end the run; unknown options do nothing but count as the name of the file if there is none yet and they can be opened.", "quantifier": "every command line", "why_tests_cant": "command lines are unbounded", "anchors": ["src/kdev-pg-main.cpp: main"]}
{"id": "C101", "title": "Exit status and generated files", "statement": "A run that gets to read its file fails just when one of the documented reasons holds; a failed run leaves no generated files; a successful one leaves just those the options and the grammar ask for.", "quantifier": "every command line, every grammar read", "why_tests_cant": "options combine in unboundedly many ways with all grammars", "anchors": ["src/kdev-pg-main.cpp: main", "src/kdev-pg-checker.cpp: ProblemSummaryPrinter", "src/kdev-pg-generate.cpp"]}
{"id": "C102", "title": "Generated files fit together", "statement": "Every header with the common prefix that a generated file includes is generated in the same run, just when: no serialize or debug visitor without an AST, no parser without the lexer of the same file, no lexer without parser.", "quantifier": "every successful run with output and without --new-visitor", "why_tests_cant": "options combine in many ways with all grammars", "anchors": ["src/kdev-pg-generate.cpp", "src/kdev-pg-main.cpp: main"]}
{"id": "C103", "title": "Success with strict conflicts means a right parser", "statement": "If the tool, run with --strict-conflicts, exits with success on a file, the parser it generated gives the right verdict on every text.", "quantifier": "every command line, every file as in C96 whose operators use declared tokens and whose rules do not use EOF", "why_tests_cant": "spans the command line, all phases of the generator and the generated parser, for all files and texts", "anchors": ["src/kdev-pg-main.cpp: main", "src/kdev-pg-checker.cpp", "src/kdev-pg-code-gen.cpp"]}
{"id": "C104", "title": "The text of the parser is C++", "statement": "For every symbol of a file the generator writes, in finitely many steps, a function whose text can be read as the body of a C++ function in exactly one way: every else has its if, every block is closed, every goto that is written has the form of one.", "quantifier": "every readable file whose tokens are declared, whose symbols have rules, whose operator rules have an operator after an operand and none with three operands, and that inlines nothing in itself; every order of the rules and functions", "why_tests_cant": "files are unbounded; a test compiles the text of a few", "anchors": ["src/kdev-pg-code-gen.cpp"]}
{"id": "C105", "title": "Running the text is running the parser", "statement": "If the parser as modelled by what it does ends, so does the function whose text was generated, executed statement by statement, with the same answer and in the same state: tokens read, state of the error messages, depth of blocking.", "quantifier": "every file as in C104, every token stream, every outcome of the user's conditions, every state, every symbol", "why_tests_cant": "unboundedly many files, inputs and states; gotos, nested try blocks and loops interact", "anchors": ["src/kdev-pg-code-gen.cpp"]}
{"id": "C106", "title": "Success of the tool means the right text", "statement": "If the tool, run with --strict-conflicts, exits with success on a file, the text of the parser it generated, read as C++ and executed, ends on every input and accepts just the sentences of the file.", "quantifier": "every command line, every file as in C103 and C104, every input", "why_tests_cant": "spans the command line, all phases of the generator, the generated text and its execution", "anchors": ["src/kdev-pg-main.cpp: main", "src/kdev-pg-checker.cpp", "src/kdev-pg-code-gen.cpp"]}
{"id": "C107", "title": "Tokens written into a file are scanned as these tokens", "statement": "A file made of the texts of tokens, each in a place where it can stand and not running into the next, with blanks, line ends and comments between them, is scanned as just these tokens with their texts; code and arguments of rules come behind a line directive unless directives are switched off. So a file writes one list of tokens only.", "quantifier": "every list of tokens, every choice of gaps, every policy for line directives; files without NUL and byte 255", "why_tests_cant": "token texts, gaps and their order are unbounded; the scanner's rules depend on the longest match, on start conditions and on what was read before", "anchors": ["src/kdev-pg-lexer.ll", "src/kdev-pg-parser.yy"]}
{"id": "C108", "title": "Every grammar can be written down", "statement": "For every grammar whose names, codes and texts have the form the language asks for there is a text, and the text is scanned as the grammar's tokens.", "quantifier": "every grammar in which a lexer section ends with a rule that has a semicolon", "why_tests_cant": "grammars are unbounded; the contexts of lexer rules, variable declarations and class members differ", "anchors": ["src/kdev-pg-lexer.ll", "src/kdev-pg-parser.yy"]}
{"id": "C109", "title": "From the bytes of a grammar file to the verdict of its parser", "statement": "The bytes of a file are read, in one way, as the grammar they write, up to line directives in front of code, which do not change the language. If the tool, run with --strict-conflicts, exits with success on these bytes, the text of the parse functions accepts just the sentences of the grammar written.", "quantifier": "every grammar that can be read, every way to write it, every command line, every input", "why_tests_cant": "spans the scanner, the parser of grammars, all phases of the generator and the generated text", "anchors": ["src/kdev-pg-lexer.ll", "src/kdev-pg-parser.yy", "src/kdev-pg-main.cpp: main", "src/kdev-pg-code-gen.cpp"]}
{"id": "C110", "title": "Printed rules read as the rules", "statement": "What the tool prints of a rule (in kdev-pg-rules and in reports of conflicts) is, with the semicolons that end a rule, the text of a rule for the same symbol with the same ways through it: the same tokens and symbols, stored in the same variables, attempts in the same places. Only code, conditions, arguments and inlining are left out. All printed rules together, behind the declarations, are a file that is read like the original one and describes the same language.", "quantifier": "every rule and every file whose rules have something besides code wherever something must be written; not rules with operators", "why_tests_cant": "right sides nest without bound; precedence, flattened alternatives and the expansion of @ have to survive printing, scanning and parsing", "anchors": ["src/kdev-pg-pretty-printer.cpp", "src/kdev-pg-main.cpp: DebugRule", "src/kdev-pg-checker.cpp"]}
{"id": "C111", "title": "Named classes have the characters that the data files list", "statement": "Loading data files in the format of the Unicode database succeeds, and for each name listed, in lower case and with underscores for blanks and hyphens, there is a class that accepts just the characters listed under it in any of the files, in the encoding of the lexer; num has those of numeric, digit and decimal.", "quantifier": "all data files in the format (any comments, padding, digits in any case, lines with or without a final line feed), all names, all encodings and both kinds of character sets", "why_tests_cant": "the files have thousands of ranges and the language of a class is infinite in its combinations; UTF-8 and UTF-16 translations of ranges differ by range", "anchors": ["src/kdev-pg-unicode-loader.cpp", "src/kdev-pg-regexp.cpp: GNFA::range, GNFA::character"]}
{"id": "C112", "title": "A name of a regular expression means what it was defined to mean", "statement": "From the first plain lexer section on, a name stands for its last definition in the file or else for the class of the data. Every class can be written, in every lexer section, and definitions are never changed.", "quantifier": "all sequences of lexer sections and definitions, all data files, all grammar files", "why_tests_cant": "any order of sections and definitions; the table is global state filled on the way", "anchors": ["src/kdev-pg-parser.yy: declaration, lexer_declaration_rest", "src/kdev-pg-unicode-loader.cpp: loadUnicodeData", "src/kdev-pg-lexer.ll: T_NAMED_REGEXP"]}
{"id": "C113", "title": "The debug visitor shows the whole tree", "statement": "A dump has one line for each node, parents first and indented by depth, and one for each element of a member. Trees with the same dump have the same shape: types, members, children and the places of their tokens. The text of a node is shown as it stands, line ends made visible, shortened in the middle if it is long.", "quantifier": "all trees, token streams, contents and depths", "why_tests_cant": "trees nest without bound; that nothing is lost is about all pairs of trees", "anchors": ["src/kdev-pg-debug-visitor-gen.cpp", "src/kdev-pg-default-visitor-bits-gen.cpp"]}
{"id": "C114", "title": "Lexing encoded text is lexing its characters", "statement": "Over the UTF-8 bytes or UTF-16 units of a text the generated lexer returns the tokens it would return over the characters of the text, each with the units of its characters, ends where it would end there, and makes the same changes of rule sets; also with lookaheads and barriers, and when it goes back after reading on.", "quantifier": "all lexers (automata, actions, rule sets), all texts without non-characters, all numbers of reads, all input iterators that decode", "why_tests_cant": "texts and automata are unbounded; going back over characters of several units only shows with particular pairs of rules and texts", "anchors": ["src/include/kdev-pg-char-sets.h", "src/kdev-pg-generate.cpp: LEXER_CORE_IMPL", "src/kdev-pg-regexp.cpp: DFA::codegen", "src/kdev-pg-parser.yy: lexer_declaration_rest"]}
{"id": "C115", "title": "Rule sets", "statement": "In each rule set the rules of this set alone decide the next token: the longest match, the first rule for it; the set for the next token is the one last chosen by an action. Skipped text and continued lexemes go on in the new set. The code for leaving runs for the set that is left and the code for entering for the one that is entered, in turn, and each set that is left was entered. The program ends only where no rule of a set without %fail matches.", "quantifier": "all lexers with rule sets, all texts, all positions", "why_tests_cant": "any number of sets and switches, interleaved with continued lexemes; failures depend on the history", "anchors": ["src/kdev-pg-generate.cpp: generateLexer", "src/kdev-pg-parser.yy: lexer_declaration_rest"]}
{"id": "C116", "title": "FOLLOW sets are not too large", "statement": "Every token (or the end of the input) in the FOLLOW set of a symbol or written item comes directly after an occurrence of it in some derivation from a start symbol; so conflicts are only reported for what can happen.", "quantifier": "every grammar, symbol and item, every token", "why_tests_cant": "that no derivation has the token there is about all derivations", "anchors": ["src/kdev-pg-follow.cpp: computeFollow, NextFollow", "src/kdev-pg.cpp: reducesToEpsilon"]}
{"id": "C117", "title": "Conflicts are found, and warnings are about conflicts", "statement": "If two branches, or two rules of a symbol, can begin with the same token, there is a FIRST/FIRST warning about them. If an item can begin with a token that can also come after it, there is a FIRST/FOLLOW warning about it. Every warning is about such a place.", "quantifier": "every grammar, item and token", "why_tests_cant": "both the existence of a clash and its absence are about all derivations", "anchors": ["src/kdev-pg-checker.cpp: FirstFirstConflictChecker, FirstFollowConflictChecker", "src/kdev-pg.cpp: isZero, reducesToEpsilon"]}
{"id": "C118", "title": "The checks of a grammar come to an end", "statement": "For every grammar the conflict, emptiness and undefined-symbol checks visit each rule completely and end with a list of warnings; nothing is read through a null pointer.", "quantifier": "every well-formed grammar, every FIRST and FOLLOW table", "why_tests_cant": "rules nest without bound", "anchors": ["src/kdev-pg-checker.cpp", "src/kdev-pg.cpp: isZero", "src/kdev-pg-ast.h: nodeCast"]}
{"id": "C119", "title": "FIRST/FOLLOW conflicts are explained", "statement": "For every token in a FIRST/FOLLOW conflict (but the end of the input) the warning names at least one item of the grammar that begins with this token and can come after the place in conflict; everything named begins with the token; the search ends although the dependencies are cyclic.", "quantifier": "every grammar, item and token", "why_tests_cant": "dependencies form arbitrary cyclic graphs over the rules and the nodes added for loops and operators", "anchors": ["src/kdev-pg-checker.cpp: FollowDepChecker::check", "src/kdev-pg-follow.cpp: addFirstToFollowDep, addFollowToFollowDep", "src/kdev-pg-bnf-visitor.cpp: isInternal"]}
{"id": "C120", "title": "What is rejected is reported", "statement": "If a parse function returns false while errors are not blocked, expectedToken or expectedSymbol has been called at least once; in particular for every text that parseS() of a start symbol rejects.", "quantifier": "every grammar, token stream and state", "why_tests_cant": "rejected texts are infinitely many; a failure without a message is noticed only for the texts somebody tries", "anchors": ["src/kdev-pg-code-gen.cpp: generateParserSymbolCall (79-153), visitAlternative, visitEvolve, visitOperator", "src/kdev-pg-code-gen.cpp: GenerateParserRule"]}
{"id": "C121", "title": "Looking ahead loses no line", "statement": "The beautifier gets every line of the generated text once and in order, however often it looks ahead in between, as long as it resets the look-ahead before it goes on; what it sees ahead are the lines that come next, and hasMoreLines says whether there are any.", "quantifier": "every text and every sequence of calls", "why_tests_cant": "the calls depend on the generated text, which may be any", "anchors": ["src/kdev-pg-beautifier.cpp: IteratorQTextStream", "src/kdev-pg-beautifier.h"]}
{"id": "C122", "title": "One message for one mistake", "statement": "A parse that succeeds without recovering from an error calls neither expectedToken nor expectedSymbol; a parse that fails calls them once.", "quantifier": "every grammar, token stream and state", "why_tests_cant": "the number of messages depends on how deep the calls are nested, which is unbounded", "anchors": ["src/kdev-pg-code-gen.cpp: 79-153, 357-423, 782-784"]}
{"id": "C123", "title": "What is skipped is reported", "statement": "If what stands in try/recover fails and tokens are skipped, while errors are not blocked, expectedToken or expectedSymbol is called; a text accepted without a message is therefore a sentence.", "quantifier": "every grammar, token stream and state", "why_tests_cant": "texts with errors are infinitely many; a missing message is noticed only where somebody looks for it", "anchors": ["src/kdev-pg-code-gen.cpp: visitTryCatch, generateRecovery, generateTokenTest, 79-153"]}
{"id": "C124", "title": "The functions of a visitor are there", "statement": "In every generated visitor class (the default visitor, and the one of --new-visitor with and without --inherit-default-visitor) each declared visit function overrides one of Visitor, is declared once and defined once, and nothing else is defined.", "quantifier": "every set of symbols, every class name", "why_tests_cant": "declarations and definitions are written by separate loops over arbitrary sets of symbols", "anchors": ["src/kdev-pg-visitor-gen.cpp", "src/kdev-pg-default-visitor-gen.cpp", "src/kdev-pg-new-visitor-gen.cpp", "src/kdev-pg-default-visitor-bits-gen.cpp", "src/kdev-pg-new-visitor-bits-gen.cpp"]}
{"id": "C125", "title": "Include guards work", "statement": "The name after #ifndef and #define in every generated header is one identifier, and no two generated headers, of one language or of two, have the same one; so a header is never skipped the first time it is included and never read a second time.", "quantifier": "every --output and --new-visitor name, every header", "why_tests_cant": "names are arbitrary texts; a clash shows only when two particular headers meet in one translation unit", "anchors": ["src/kdev-pg-generate.cpp: generateOutput (39-44 and the #ifndef lines), generateLexer (532, 543), generateVisitor (773-785)"]}
{"id": "C126", "title": "Descriptions of tokens come out as declared", "statement": "tokenText of a token's number is the description of its first declaration, and so is the description handed to expectedToken; other numbers give \"unknown token\".", "quantifier": "every list of token declarations, every description, every number", "why_tests_cant": "descriptions are arbitrary texts with quotes and backslashes, which have to survive being written as C++ literals", "anchors": ["src/kdev-pg.h: pushTerminal", "src/kdev-pg-code-gen.cpp: GenerateTokenTexts (1252-1267), generateTokenTest (141)", "src/kdev-pg-parser.yy: declared_tokens"]}
{"id": "C127", "title": "Token numbers follow the alphabet", "statement": "The number of EOF is 1000, that of another token 1001 plus the count of tokens before it in the alphabet; so it depends only on which tokens are declared, not on order, repetition or descriptions. A token keeps its number when other tokens are added.", "quantifier": "every list of token declarations", "why_tests_cant": "lists of declarations are unbounded; two particular orders show nothing about the others", "anchors": ["src/kdev-pg.h: pushTerminal, TerminalSet", "src/kdev-pg-token-type-gen.cpp", "src/kdev-pg-follow.cpp: NextFollow::NextFollow"]}
