{"id": "C01", "title": "Identifier normalisation is canonical", "statement": "normalized_meta_identifier(s) is exactly the maximal runs of non-gap characters of s joined by single spaces (so: no leading/trailing gap, no double gap, no gap character other than ' ', all non-gap characters kept in order), and it is idempotent.", "quantifier": "every string s over all Unicode characters, any length", "why_tests_cant": "infinitely many strings and gap placements; a test fixes a handful", "anchors": ["src/lib.rs:normalized_meta_identifier", "src/lex/mod.rs:is_gap_separator_char"]}
{"id": "C02", "title": "Identifier keys ignore gaps and nothing else", "statement": "keyed_meta_identifier(s) is s with exactly the gap characters deleted; it is idempotent, invariant under normalisation, and two identifiers share a key iff their words concatenate to the same text.", "quantifier": "every (pair of) string(s)", "why_tests_cant": "equality of keys over all pairs of strings cannot be sampled", "anchors": ["src/lib.rs:keyed_meta_identifier", "src/lib.rs:normalized_meta_identifier"]}
{"id": "C03", "title": "Locations count lines and columns of the text read so far", "statement": "After reading text t starting at (l,c), the reported line is l plus the number of '\\n' in t and the reported column is c+|t| when t has no newline, else 1 plus the number of characters after the last newline; reading t1 then t2 reports the same location as reading t1t2.", "quantifier": "every text, every starting location, every split", "why_tests_cant": "unbounded texts and splits", "anchors": ["src/lib.rs:Location::push", "src/lib.rs:Location::push_str", "src/lib.rs:Location::push_chars"]}
{"id": "C04", "title": "Location ordering is a total order that agrees with reading order", "statement": "Location::cmp is a total order (reflexive, antisymmetric, transitive, total; Equal iff ==) that agrees with the derived PartialOrd used by '<', and a location reached after reading at least one more character is strictly greater.", "quantifier": "all triples of locations; all texts", "why_tests_cant": "order laws range over all triples", "anchors": ["src/lib.rs:impl Ord for Location", "src/lib.rs:Location (derive PartialOrd)"]}
{"id": "C05", "title": "Lexing is independent of how the text is fragmented", "statement": "For an unlimited Lexer, feeding a text through any sequence of push(char)/push_str(fragment) calls followed by flush() succeeds iff parse_str on the whole text succeeds, and then yields exactly the same rules (including locations) in the same order.", "quantifier": "every text and every way to cut it into fragments (including empty fragments and single chars)", "why_tests_cant": "exponentially many splittings of infinitely many texts", "anchors": ["src/lex/mod.rs:Lexer::push", "src/lex/mod.rs:Lexer::push_str", "src/lex/mod.rs:Lexer::flush", "src/lex/mod.rs:parse_str", "src/lex/tokenizer/mod.rs:Tokenizer::tokenize"]}
{"id": "C06", "title": "The error reported does not depend on fragmentation", "statement": "If lexing a text fails, every fragmentation of it reports the same error (location and message).", "quantifier": "every failing text, every fragmentation", "why_tests_cant": "needs comparing all splittings; the interesting cases need two different errors in one text", "anchors": ["src/lex/mod.rs:Lexer::push_str", "src/lex/mod.rs:Lexer::append"]}
{"id": "C07", "title": "A buffer limit only rejects texts whose tokens are too long", "statement": "With max_buffer_size = m > 0 a text is rejected for exceeding the buffer only when one of its tokens needs more than m characters, independent of fragmentation.", "quantifier": "every text, limit and fragmentation", "why_tests_cant": "depends on the interaction of chunk sizes and token sizes", "anchors": ["src/lex/tokenizer/mod.rs:Tokenizer::ensure_capacity", "src/lib.rs:Syntax::read_from", "src/lex/mod.rs:parse"]}
{"id": "C08", "title": "A buffer limit bounds buffering and never changes an accepted result", "statement": "With max_buffer_size = m > 0 the lexer never holds more than m undetermined characters after any history of calls, and whenever a limited lexer accepts a fragmented text it returns exactly the rules of the unlimited lexer.", "quantifier": "every call history, every limit", "why_tests_cant": "a bound on a state reached by any history", "anchors": ["src/lex/tokenizer/mod.rs:Tokenizer::ensure_capacity", "src/lex/mod.rs:Lexer::with_capacity"]}
{"id": "C09", "title": "Lexing never panics", "statement": "No input text makes parse_str (or any sequence of push/push_str/flush calls on a Lexer) panic; every bad input is reported as an Err.", "quantifier": "every text and call sequence", "why_tests_cant": "absence of a panic over all inputs", "anchors": ["src/lex/mod.rs:read_syntactic_factor", "src/lex/tokenizer/mod.rs:Tokenizer::flush", "src/lex/mod.rs:build_syntax_rule"]}
{"id": "C10", "title": "reset() restores a fresh lexer after any history", "statement": "After any history of calls, including failed ones, reset() makes every later call behave exactly as on a newly constructed lexer with the same name and limit.", "quantifier": "every call history before and after the reset", "why_tests_cant": "all histories, including error paths that leave partial state", "anchors": ["src/lex/mod.rs:Lexer::reset", "src/lex/tokenizer/mod.rs:Tokenizer::reset", "src/lib.rs:Location::reset"]}
{"id": "C11", "title": "push(char) and flush() never lose a rule", "statement": "A single push(char) or flush() completes at most one syntax rule, so returning an Option never drops a completed rule.", "quantifier": "every lexer state reachable by successful calls, every character", "why_tests_cant": "needs an invariant over all reachable states", "anchors": ["src/lex/mod.rs:Lexer::push", "src/lex/mod.rs:Lexer::flush"]}
{"id": "C12", "title": "Accepted syntax is ISO 14977 syntax (soundness)", "statement": "If parse_str succeeds, the text tokenises losslessly and each terminated token run is derivable from the EBNF grammar (definition-list / single-definition / term / factor / primary with alternative symbols, gaps and comments allowed between symbols) with exactly the returned syntax tree.", "quantifier": "every text", "why_tests_cant": "all texts; trees of unbounded depth", "anchors": ["src/lex/mod.rs:build_syntax_rule", "src/lex/mod.rs:read_definition_list", "src/lex/mod.rs:read_enclosed_definition_list"]}
{"id": "C13", "title": "All grammatical syntax is accepted (completeness) with the right tree", "statement": "Every token run derivable from the EBNF grammar is accepted and yields the derived tree (up to the location attached to empty sequences); hence the grammar is unambiguous.", "quantifier": "every derivation, unbounded nesting", "why_tests_cant": "all derivations", "anchors": ["src/lex/mod.rs:read_single_definition", "src/lex/mod.rs:read_syntactic_term", "src/lex/mod.rs:read_syntactic_factor", "src/lex/mod.rs:read_syntactic_primary"]}
{"id": "C14", "title": "Tokenisation is lossless, maximal-munch and position exact", "statement": "A text is lexically accepted iff it can be cut into valid tokens each followed by a legal next character; that cut is unique, concatenating the token texts gives back the text, and every token carries the location of its first character.", "quantifier": "every text", "why_tests_cant": "all texts", "anchors": ["src/lex/tokenizer/mod.rs:read_next", "src/lex/tokenizer/mod.rs:terminal_string", "src/lex/tokenizer/mod.rs:special_sequence", "src/lex/tokenizer/mod.rs:comment"]}
{"id": "C15", "title": "Gaps and comments between symbols are irrelevant", "statement": "Inserting or removing gap-separator sequences and comments between symbols (not inside a meta-identifier's words) does not change the resulting tree apart from locations.", "quantifier": "every grammatical token run and every insertion", "why_tests_cant": "all insertion positions", "anchors": ["src/lex/mod.rs:skip_comment_or_gap_separator"]}
{"id": "C16", "title": "The final terminator is optional", "statement": "If parse_str(s) succeeds, appending ';' (or '.') to s succeeds with exactly the same rules.", "quantifier": "every accepted text", "why_tests_cant": "all texts", "anchors": ["src/lex/mod.rs:Lexer::flush", "src/lex/tokenizer/mod.rs:Tokenizer::flush"]}
{"id": "C17", "title": "Lexer output is well formed", "statement": "Every rule returned has a non-empty normalised meta-identifier, every definition-list and single-definition in it is non-empty, terminal strings are non-empty printable ASCII not containing both quote kinds, special sequences contain no '?', repetition counts fit in 32 bits, and referenced identifiers are non-empty and normalised, at every depth.", "quantifier": "every accepted text, every node of the tree", "why_tests_cant": "trees of unbounded depth", "anchors": ["src/lex/mod.rs:read_meta_identifier", "src/lex/mod.rs:SyntaxRule"]}
{"id": "C18", "title": "Displaying rules and parsing them back gives the same rules", "statement": "For every list of rules produced by the lexer, parsing its Display text yields the same rules up to locations.", "quantifier": "every lexer-produced rule list", "why_tests_cant": "round trip over all trees", "anchors": ["src/lex/mod.rs:impl Display for SyntaxRule", "src/lib.rs:impl Display for Syntax", "src/lex/mod.rs:impl Display for SyntacticPrimary"]}
{"id": "C19", "title": "Duplicate definitions are rejected, others are not", "statement": "Syntax::new fails with a duplicate error iff two rules have the same identifier modulo gaps; the error is located at the first rule that repeats an earlier identifier and names the position of the earlier one.", "quantifier": "every rule list", "why_tests_cant": "all lists", "anchors": ["src/validity/mod.rs:new_syntax"]}
{"id": "C20", "title": "A Syntax never refers to an undefined identifier", "statement": "If Syntax::new succeeds, every meta-identifier referenced anywhere in any rule (at any nesting depth) is defined.", "quantifier": "every rule list, every depth", "why_tests_cant": "all trees", "anchors": ["src/validity/mod.rs:make_sure_all_meta_identifiers_are_defined"]}
{"id": "C21", "title": "Rule lookup is faithful", "statement": "On a successful Syntax, rules() and rule(i) are the given rules in order, get_syntax_rule(id) returns the unique rule whose identifier equals id modulo gaps (None iff there is none), canonical_name(id) is that rule's identifier.", "quantifier": "every accepted rule list and every query string", "why_tests_cant": "all queries", "anchors": ["src/lib.rs:Syntax::get_syntax_rule", "src/lib.rs:Syntax::canonical_name", "src/lib.rs:Syntax::rule"]}
{"id": "C22", "title": "Building a Syntax from lexed rules never panics", "statement": "Syntax::new does not panic on any rule list produced by the lexer (its internal canonical-name assertion always holds).", "quantifier": "every lexer output", "why_tests_cant": "all texts", "anchors": ["src/validity/mod.rs:new_syntax", "src/lex/mod.rs:read_meta_identifier"]}
{"id": "C23", "title": "Reading a syntax from a byte stream is independent of read sizes", "statement": "lex::parse over a byte stream returns, for every way the stream hands out its bytes, the same rules as parse_str on the decoded text (unlimited buffer).", "quantifier": "every byte sequence, every sequence of read sizes", "why_tests_cant": "all I/O schedules", "anchors": ["src/lex/mod.rs:parse", "src/io/mod.rs:Decoder::push", "src/io/mod.rs:Decoder::flush"]}
{"id": "C24", "title": "MarkableReader behaves as a cursor over the text", "statement": "For every history of read_chars/mark/reset_to_mark/unmark calls and every chunking of the underlying stream, a MarkableReader delivers exactly the characters of the underlying text at the cursor, location() is the location of the cursor, reset_to_mark returns the number of characters undone and moves the cursor back to where the mark was taken.", "quantifier": "every operation history, every text, every chunking of the source", "why_tests_cant": "all interleavings of marks and reads", "anchors": ["src/io/mod.rs:MarkableReader", "src/io/mod.rs:UnreadBuffer"]}
{"id": "C25", "title": "The reader's internal assertions never fire", "statement": "No history of MarkableReader calls trips one of the reader's debug assertions or arithmetic underflows (i.e. a debug build does not panic).", "quantifier": "every operation history", "why_tests_cant": "all histories", "anchors": ["src/io/mod.rs:UnreadBuffer::append", "src/io/mod.rs:UnreadBuffer::revert", "src/io/mod.rs:UnreadBuffer::mark"]}
{"id": "C26", "title": "A released mark stays invalid", "statement": "Once a mark has been consumed by reset_to_mark or unmark, using it again is an Err and does not move the reader.", "quantifier": "every operation history", "why_tests_cant": "requires histories in which identifiers are reused", "anchors": ["src/io/mod.rs:UnreadBuffer::remove_mark", "src/io/mod.rs:UnreadBuffer::truncate_buffer_if_stack_empty"]}
{"id": "C27", "title": "Look-ahead does not consume", "statement": "is_eof, prefix_matches and peek answer the question about the remaining text exactly and leave the cursor, location and outstanding marks unchanged; skip(n) advances by min(n, remaining) and returns that number; read_all returns all remaining text.", "quantifier": "every reader state, every argument, every chunking", "why_tests_cant": "all states", "anchors": ["src/io/mod.rs:MarkableCharReader::is_eof", "src/io/mod.rs:MarkableCharReader::prefix_matches", "src/io/mod.rs:MarkableCharReader::peek", "src/io/mod.rs:MarkableCharReader::skip", "src/io/mod.rs:CharReader::read_all"]}
{"id": "C28", "title": "Decoder output is independent of fragmentation", "statement": "Concatenating the outputs of Decoder::push over any fragmentation of a byte sequence plus flush() equals decoding the sequence at once, for any encoding whose converter is an incremental transducer.", "quantifier": "every byte sequence, every fragmentation, every internal output-buffer schedule", "why_tests_cant": "all fragmentations", "anchors": ["src/io/mod.rs:Decoder::convert"]}
{"id": "C29", "title": "CharDecodeReader delivers the complete decoded stream", "statement": "Reading a CharDecodeReader to the end yields exactly the decoding of all the bytes of the stream, for every chunking of the byte stream and every sequence of read sizes.", "quantifier": "every byte stream, chunking and read sizes", "why_tests_cant": "all I/O schedules; trailing partial sequences", "anchors": ["src/io/mod.rs:CharDecodeReader::read_chars"]}
{"id": "C30", "title": "Parsing depends only on the text", "statement": "Parser::parse gives the same result (events or error) for every chunking of the input stream and every pre-existing set of marks on the reader: it is a function of the graph, the entry rule, the remaining text and the start location.", "quantifier": "every graph, text and chunking", "why_tests_cant": "all I/O schedules", "anchors": ["src/parser/machine.rs:LexMachine::parse", "src/parser/machine.rs:LexMachine::parse_to_subroutine_end"]}
{"id": "C31", "title": "Success means the whole input was matched", "statement": "If parse returns events, the entire remaining input has been consumed; unconsumed input is an error located at the first unconsumed character.", "quantifier": "every grammar and input", "why_tests_cant": "all inputs", "anchors": ["src/parser/machine.rs:LexMachine::parse"]}
{"id": "C32", "title": "Accepted inputs belong to the language of the grammar", "statement": "If Parser::parse succeeds for rule R on text t then t belongs to the language of R: concatenation of all terms of a single-definition, choice between definitions, option, repetition, n-fold repetition, reference to rules (exceptions only removing words).", "quantifier": "every syntax, every input", "why_tests_cant": "all grammars and texts", "anchors": ["src/parser/graph.rs:LexGraph::compile", "src/parser/graph.rs:register_syntactic_primary", "src/parser/machine.rs:LexMachine::parse_to_subroutine_end"]}
{"id": "C33", "title": "The first matching definition wins", "statement": "In a definition-list the first definition that matches at the current position is the one used, later ones are not tried, and a failed alternative leaves no events and no consumed input behind.", "quantifier": "every definition-list, every input", "why_tests_cant": "all grammars", "anchors": ["src/lib.rs (Definition Priority)", "src/parser/machine.rs:Step::Or"]}
{"id": "C34", "title": "Events are well nested", "statement": "The event list of a successful parse starts with Begin of the requested rule, ends with its End, and every Begin is closed by an End of the same label in stack order.", "quantifier": "every grammar, input and scanner emitting balanced events", "why_tests_cant": "all executions", "anchors": ["src/parser/machine.rs:Step::Alias", "src/parser/machine.rs:remove_empty_begin_end_pair"]}
{"id": "C35", "title": "Token events spell the input", "statement": "Concatenating the token texts of a successful parse gives exactly the input, and each token event carries the location of its first character.", "quantifier": "every grammar and input", "why_tests_cant": "all executions, including backtracking ones", "anchors": ["src/parser/machine.rs:Step::Repetition", "src/parser/machine.rs:TerminalStringScanner", "src/parser/mod.rs:CharsScanner"]}
{"id": "C36", "title": "Empty begin/end pairs are removed", "statement": "The events returned by parse contain no empty Begin/End pair except possibly the root, and the filter removes nothing else.", "quantifier": "every event list", "why_tests_cant": "nesting depth is unbounded", "anchors": ["src/parser/machine.rs:remove_empty_begin_end_pair"]}
{"id": "C37", "title": "Parsing always returns", "statement": "Parser::parse terminates (with events or an error) on every input for every syntax.", "quantifier": "every grammar and input", "why_tests_cant": "non-termination cannot be observed by a test", "anchors": ["src/parser/machine.rs:LexMachine::parse_to_subroutine_end"]}
{"id": "C38", "title": "Repeated sequences cannot loop without progress", "statement": "A repeated-sequence whose body matches without consuming input is reported as a Livelock error instead of looping: whenever the body succeeds at some position without moving, parsing stops with that error located there.", "quantifier": "every repeated-sequence and input", "why_tests_cant": "absence of an infinite loop", "anchors": ["src/parser/machine.rs:Step::Repetition"]}
{"id": "C39", "title": "Repetition counts are exact and greedy", "statement": "'n * x' matches exactly n consecutive x; '[x]' matches x if x matches and otherwise nothing; '{x}' matches as many consecutive x as match.", "quantifier": "every body, count and input", "why_tests_cant": "all counts and inputs", "anchors": ["src/parser/machine.rs:Step::Repetition", "src/parser/graph.rs:register_syntactic_factor"]}
{"id": "C40", "title": "Exceptions remove exactly the fully matching texts", "statement": "'f - e' matches iff f matches and e does not match the entire text f matched; the exception is tried on exactly that text starting at the same location.", "quantifier": "every factor, exception and (multi-line) input", "why_tests_cant": "line/column driven capture over all texts", "anchors": ["src/parser/machine.rs:TermWithExceptionScanner"]}
{"id": "C41", "title": "The deepest error is reported for a choice", "statement": "When every definition of a list fails, the reported location is the furthest location at which any of them failed.", "quantifier": "every definition-list and input", "why_tests_cant": "all combinations of alternatives", "anchors": ["src/parser/machine.rs:Step::Or (error selection)"]}
{"id": "C42", "title": "Parsers exist exactly for defined rules", "statement": "Parser::new(graph, id) is Some iff id (modulo gaps) is defined in the syntax, and its name() is the canonical name of that rule.", "quantifier": "every syntax and identifier", "why_tests_cant": "all identifiers", "anchors": ["src/parser/machine.rs:LexMachine::new", "src/parser/graph.rs:LexGraph::compile"]}
{"id": "C43", "title": "Parsing with a valid Syntax never panics", "statement": "For a graph compiled from a Syntax accepted by Syntax::new, Parser::parse never panics.", "quantifier": "every accepted syntax and input", "why_tests_cant": "absence of panic over all executions", "anchors": ["src/parser/machine.rs:Step::Alias (expect)", "src/validity/mod.rs"]}
{"id": "C44", "title": "CharsScanner matches the longest allowed run", "statement": "CharsScanner consumes the longest prefix of at most max characters satisfying the predicate, matches iff it has at least min characters, reports it as one token at its start location, and on Unmatch consumes nothing.", "quantifier": "every predicate, bounds and input", "why_tests_cant": "all predicates and inputs", "anchors": ["src/parser/mod.rs:CharsScanner::scan"]}
{"id": "C45", "title": "RegExScanner consumes exactly the match", "statement": "RegExScanner consumes exactly the text matched at the current position (at most 256 characters, otherwise an error) and consumes nothing when there is no match at the current position.", "quantifier": "every regex (as an oracle) and input", "why_tests_cant": "all regexes", "anchors": ["src/parser/mod.rs:RegExScanner::scan"]}
{"id": "C46", "title": "Forwarding behaves like a reference", "statement": "A special sequence that forwards to rule X matches iff X matches at the current position.", "quantifier": "every grammar, target and input", "why_tests_cant": "failure paths of all targets", "anchors": ["src/parser/machine.rs:SpecialSequenceScanner"]}
{"id": "C47", "title": "Rules concatenate", "statement": "Lexing s1 followed by s2, where s1 is accepted and ends with a terminator symbol, gives the rules of s1 followed by the rules of s2 read from the location where s1 ends.", "quantifier": "every pair of texts", "why_tests_cant": "all pairs", "anchors": ["src/lex/mod.rs:Lexer"]}
{"id": "C48", "title": "Syntax-tree locations point at the construct", "statement": "Each non-empty primary and each rule returned by parse_str carries the location of an offset of the source text at which the text of that construct starts (bracket, quoted string, special sequence, first word of identifier).", "quantifier": "every accepted text and node", "why_tests_cant": "all nodes of all trees", "anchors": ["src/lex/mod.rs:read_syntactic_primary", "src/lex/tokenizer/mod.rs:Tokenizer::move_location"]}
{"id": "C49", "title": "AST::token spells the leaves", "statement": "AST::token() of any tree is the concatenation of its leaf tokens in left-to-right order; a node is a leaf iff it is not an inner node.", "quantifier": "every AST", "why_tests_cant": "unbounded trees", "anchors": ["src/lib.rs:AST::token", "src/lib.rs:AST::is_leaf"]}
{"id": "C50", "title": "Reading errors of the stream surface as errors", "statement": "If the underlying stream fails, lex::parse fails with the location reached by the lexer, MarkableReader reads fail with the cursor location, and previously buffered characters stay readable after a reset.", "quantifier": "every stream prefix and failure point", "why_tests_cant": "all failure points", "anchors": ["src/lex/mod.rs:parse", "src/io/mod.rs:MarkableReader::read_chars"]}
{"id": "C51", "title": "Lexing failures are neither premature nor late", "statement": "Once push/push_str of an unlimited Lexer has returned an Err, no continuation of the text pushed so far is accepted; and a text no continuation of which can be cut into tokens is reported by the call that completes it.", "quantifier": "every text, every fragmentation, every continuation", "why_tests_cant": "quantifies over all continuations of a text", "anchors": ["src/lex/mod.rs:Lexer::push_str", "src/lex/tokenizer/mod.rs:Tokenizer::tokenize"]}
{"id": "C52", "title": "Lexical failures stay until reset", "statement": "When the text given to a Lexer so far cannot be continued to a text of tokens, every later push/push_str of more text fails and flush() does not succeed, until reset() is called, whatever calls failed in between.", "quantifier": "every history of push and push_str calls, failed ones included", "why_tests_cant": "all call histories", "anchors": ["src/lex/mod.rs:Lexer", "src/lex/tokenizer/mod.rs:Tokenizer"]}
{"id": "C53", "title": "Every location in a syntax tree lies in the text", "statement": "Every primary of every rule returned by parse_str, empty sequences included, carries a location reached by a prefix of the source text.", "quantifier": "every accepted text and node", "why_tests_cant": "all nodes of all trees", "anchors": ["src/lex/mod.rs:read_syntactic_primary"]}
{"id": "C54", "title": "Garbled bytes are reported where they are", "statement": "A Decoder that is told to stop at garbled input decodes a byte sequence successfully exactly when no byte of it is garbled, for every fragmentation; otherwise its error is located just behind the first garbled character.", "quantifier": "every byte sequence, every fragmentation, every converter that reports replacements", "why_tests_cant": "all fragmentations and positions of the garbled bytes", "anchors": ["src/io/mod.rs:Decoder::convert", "src/io/mod.rs:Decoder::push", "src/io/mod.rs:Decoder::flush"]}
{"id": "C55", "title": "Syntax::read_from_str is parse_str followed by Syntax::new", "statement": "Syntax::read_from_str(name, s, 0) returns a syntax exactly when parse_str(name, s) returns rules from which Syntax::new builds that syntax; a byte order mark at the start of s is dropped.", "quantifier": "every text of Unicode scalar values, every UTF-8 converter, every output-buffer size", "why_tests_cant": "all texts, including those longer than the read buffer", "anchors": ["src/lib.rs:read_from", "src/lib.rs:read_from_utf8", "src/lib.rs:read_from_str", "src/lex/mod.rs:parse"]}
{"id": "C56", "title": "Syntax errors name what is missing and quote what is there", "statement": "Every Err of Parser::parse on a readable text is one of three: it points to a place of the text, quotes the text there (eight characters, or EOF) and names a construct of the rules that does not match at that place; it says EOF expected at the end of a match of the rule, before unread text; or it is an error that stops the parse (a repetition that matches nothing, forwarding to an unknown rule, the error of a scanner). When all definitions of a rule fail, the error is the one of the last definition among those that got furthest, or names them all if none got anywhere.", "quantifier": "every accepted syntax, every scanner configuration, every text and every reader of it", "why_tests_cant": "all grammars and inputs; the reported construct depends on every alternative tried", "anchors": ["src/parser/machine.rs:err_expected_but_stream_not", "src/parser/machine.rs:stream_prefix_to_string", "src/parser/machine.rs:parse_to_subroutine_end", "src/parser/graph.rs:register_definition_list"]}
{"id": "C57", "title": "A failing source is reported, or does not matter", "statement": "For scanners that do not forward: Parser::parse on a source that fails behind its text returns that failure, located where the text stops, or it returns exactly the error it returns for every text that continues the one read so far. It never succeeds.", "quantifier": "every accepted syntax, every scanner configuration without forwarding, every text and failure, every continuation of the text, every reader", "why_tests_cant": "all grammars, all places of the failure and all continuations", "anchors": ["src/parser/machine.rs:parse", "src/parser/machine.rs:err_expected_but_stream_not", "src/io/mod.rs:MarkableReader"]}
{"id": "C58", "title": "How a syntax is written down does not matter", "statement": "Two texts made of the same EBNF symbols (other white space, comments, line breaks, alternative spellings of brackets and separators), or a syntax and its displayed form read back, give parsers that answer every input with the same events and errors, up to the definition locations in the events, as long as the scanners of special sequences do not look at where the sequence stands.", "quantifier": "every accepted text, every text with the same symbols, every placeless scanner configuration, every input", "why_tests_cant": "all pairs of texts and all inputs; compilation places rules by location and looks them up by name", "anchors": ["src/lex/mod.rs:parse_str", "src/parser/graph.rs:LexGraph::compile", "src/parser/machine.rs:parse"]}
{"id": "C59", "title": "Only the rules that can be reached matter, and not their order", "statement": "The rules of a text in any other order give a parser that answers every input the same. Without forwarding scanners, two syntaxes that agree on the rules reached from the start rule by references give the same answers; in particular rules may be added to a syntax whose references are all defined.", "quantifier": "every accepted syntax, every permutation of its rules, every set of further rules, every input", "why_tests_cant": "all grammars and all inputs; rules are compiled into one shared graph of numbered steps", "anchors": ["src/parser/graph.rs:LexGraph::compile", "src/parser/graph.rs:LexGraph::index_of_label", "src/parser/machine.rs:parse"]}
{"id": "C60", "title": "Names may be replaced", "statement": "If the names of rules and references are replaced throughout so that names that differ still differ, the parser for the renamed rule answers every input with the same events up to the labels of Begin and End, and with the same errors up to the names in what was expected.", "quantifier": "every accepted syntax, every replacement of names that keeps names apart, every scanner configuration that hands out tokens and does not forward, every input", "why_tests_cant": "all grammars, renamings and inputs; the parser mixes rule names with internal names starting with a dollar sign", "anchors": ["src/parser/graph.rs:LexGraph::index_of_label", "src/parser/machine.rs:parse_to_subroutine_end", "src/parser/machine.rs:parse"]}
{"id": "C61", "title": "The text of an error tells where and what", "statement": "Every error reads as the name of its source, its line and column in decimal, and its message; a quotation in a message is a literal of Rust for the quoted text, and a character that can not be used is also given by its code point (U+ and at least four hexadecimal digits). Locations that display alike are alike. The messages about an EBNF text, about rules and about a text that is parsed all read differently, including their arguments and quotations; hence two such errors of the same source that display alike are the same error. The errors of the lexer, of parse_str, of Syntax::new and of Parser::parse with the scanners of the library are all of this kind.", "quantifier": "every lexer state, every text, every list of rules, every grammar, every input, every behaviour of the escaping of characters beyond ASCII", "why_tests_cant": "all texts and all pairs of errors; a quotation might end early, or one message might be read as another", "anchors": ["src/lib.rs:Display for Error", "src/lib.rs:Display for Location", "src/parser/machine.rs:stream_prefix_to_string", "src/lex/tokenizer/mod.rs:Tokenizer::read_next"]}
{"id": "C62", "title": "Lexing errors point at what they complain about", "statement": "Every Err of the lexer says one of three things about the text: at the named place it does not begin with a token (and the message names the character or the unclosed or empty construct that is there); or a token at the named place does not fit what stands before it, namely the tokens before it can be continued to a syntax while with it they cannot (for a bracket: with it and the tokens up to the one that should have been preceded by the closing bracket); or the buffer limit was exceeded. The place always lies in the text. A text has at most one lexical fault, and it never passes unnoticed.", "quantifier": "every text, every fragmentation, every buffer limit", "why_tests_cant": "all wrong texts; 'can be continued to a syntax' quantifies over all continuations", "anchors": ["src/lex/tokenizer/mod.rs:read_next", "src/lex/mod.rs:Lexer::append", "src/lex/mod.rs:read_definition_list", "src/lex/mod.rs:read_enclosed_definition_list"]}
{"id": "C63", "title": "LL(1) rules are parsed exactly", "statement": "If the rules reachable for a start rule can be parsed by looking one character ahead (alternatives begin with different characters, a vanishing alternative comes last and does not clash with what may follow, what follows an optional or repeated part cannot begin it; no exceptions, nothing behind a bare group, no left recursion, no repetition of something empty), then parse on a complete text always returns, returns Ok exactly for the words of the language of the start rule, and Err for every other text. The condition is decidable by a computation for rules whose special sequences read characters of a class.", "quantifier": "every such rule set, every complete text of at most 4294967295 characters, every reader reachable through the API, debug and release builds", "why_tests_cant": "equality of two infinite sets of texts, for an infinite class of grammars", "anchors": ["src/parser/machine.rs:parse", "src/parser/graph.rs:compile"]}
{"id": "C64", "title": "A scanner written by the user sees the text and nothing else", "statement": "A user's SpecialSequenceScanner that reads, compares, peeks, skips and uses its own marks answers what its program answers on the remaining text, whatever the chunking of the stream and the marks outstanding, and every mark the parser holds stays usable and leads to the same place.", "quantifier": "every scanner program, reader history, chunking and set of marks", "why_tests_cant": "all programs of the user and all reader states", "anchors": ["src/parser/mod.rs:SpecialSequenceScanner", "src/io/mod.rs:MarkableCharReader", "src/parser/machine.rs:LexMachine::run"]}
{"id": "C65", "title": "A parse keeps the caller's marks", "statement": "After Parser::parse, successful or not, every mark the caller had placed on the reader before can still be reset to, which leads to the place it marked and returns the number of characters from there to where the parse left the reader, or released, which does not move the reader.", "quantifier": "every graph, entry rule, reader history, set of marks and outcome", "why_tests_cant": "all parses and all histories of marks", "anchors": ["src/parser/mod.rs:Parser::parse", "src/io/mod.rs:MarkableReader::reset_to_mark"]}
{"id": "C66", "title": "The events of a parse describe a derivation", "statement": "Whenever Parser::parse accepts a text, the text can be derived from the entry rule as the grammar is written, and (when no option or repetition body leaves events behind on failure) the returned events are exactly those of such a derivation, without adjacent empty Begin/End pairs: every Begin/End stands for a rule the derivation uses there, every token for a terminal or special sequence of it, in order, with label, location and text.", "quantifier": "every grammar in which nothing follows a bare group, every configuration without forwarding, every entry rule, reader history, fuel and debug flag", "why_tests_cant": "an existence claim about derivations for all grammars and texts", "anchors": ["src/parser/mod.rs:Parser::parse", "src/parser/machine.rs:Machine::parse", "src/parser/graph.rs:Graph::compile"]}
{"id": "C67", "title": "LL(1) rules: the events describe the only derivation", "statement": "With rules that can be parsed by looking one character ahead and whose constructs all have a word, the events of an accepted text agree with those of every derivation of the text (up to tokens without text and rules without tokens), and their tokens spell exactly the text, each at its location.", "quantifier": "every LL(1) grammar (by a computable check), every derivation, text, reader history, fuel and debug flag", "why_tests_cant": "uniqueness over all derivations of all texts", "anchors": ["src/parser/mod.rs:Parser::parse", "src/parser/machine.rs:Machine::parse", "src/parser/graph.rs:Graph::compile"]}
{"id": "C68", "title": "Errors stand after a beginning that can be continued", "statement": "When Parser::parse rejects a text, the location of the error is the location of a place in the text at or after the start of the parse, and the text from the start up to that place is the beginning of a text the entry rule can produce: the parser never blames a place after the grammar had already ruled the text out.", "quantifier": "every grammar in which nothing follows a bare group and every construct has a word, every configuration of library scanners, entry rule, reader history, fuel and debug flag", "why_tests_cant": "an existence claim about continuations for all grammars and rejected texts", "anchors": ["src/parser/mod.rs:Parser::parse", "src/parser/machine.rs:Machine::parse", "src/lib.rs:Error"]}
{"id": "C69", "title": "Parsing bytes is parsing the text they encode", "statement": "A MarkableReader made by with_encoding or for_bytes answers every call as a reader over the decoded text would, however the bytes arrive; so Parser::parse over the UTF-8 bytes of a text returns exactly what it returns over the text itself (without a leading byte order mark), with the same events, errors and locations.  For other encodings the text is the one the bytes determine whatever follows them.", "quantifier": "every table of encodings, incremental converter, text, fragmentation of its bytes, graph, entry rule, fuel and debug flag; every sequence of reader calls", "why_tests_cant": "all fragmentations of all byte streams and all call sequences", "anchors": ["src/io/mod.rs:MarkableReader::with_encoding", "src/io/mod.rs:MarkableReader::for_bytes", "src/io/mod.rs:CharDecodeReader::new", "src/parser/mod.rs:Parser::parse"]}
{"id": "C70", "title": "Files and encoding labels", "statement": "lex::parse_file on a file that holds a text in UTF-8 returns rules exactly when parse_str accepts the text, and the same ones; Syntax::read_from likewise.  A file that cannot be opened is reported first, an unknown encoding label next and before anything is read; both errors stand at line 1, column 1 of the named source.  With a known label no constructor fails.", "quantifier": "every table of encodings, file system, text, fragmentation, label, name and buffer limit (for the errors)", "why_tests_cant": "all files and fragmentations", "anchors": ["src/lex/mod.rs:parse_file", "src/lex/mod.rs:parse", "src/io/mod.rs:Decoder::new", "src/lib.rs:Syntax::read_from"]}
{"id": "C71", "title": "Laws of the notation that change nothing", "statement": "Rewriting a syntax by these laws, any number of times, at any place, in either direction, changes neither which texts Parser::parse accepts nor its events nor where its errors stand: a group of one sequence at the end of a sequence, a group that is an alternative or a whole definition, empty terms and terms counted zero times, an alternative that comes twice, alternatives after an empty one, an option directly in an option, parentheses around something counted or excepted.  Only what an error says was expected may differ (and, between syntaxes written down, the locations of definitions).", "quantifier": "every pair of rule sets related by rewriting, configuration, entry rule, reader at any state, text, build mode", "why_tests_cant": "all grammars, rewritings and texts", "anchors": ["src/parser/graph.rs", "src/parser/mod.rs:Parser::parse", "src/lex/mod.rs:Syntax"]}
{"id": "C72", "title": "Laws of the notation that keep what is accepted", "statement": "Writing a count as a sum of counts (3 * x as x, 2 * x) and an option at the end of a sequence as a choice with an empty alternative ([x] as (x|)), together with the laws of C71, any number of times and at any place, changes neither which texts Parser::parse accepts nor where errors stand.", "quantifier": "every pair of rule sets related by rewriting, configuration (with nested events of scanners in debug builds), entry rule, reader at any state, text", "why_tests_cant": "all grammars, rewritings and texts", "anchors": ["src/parser/graph.rs", "src/parser/mod.rs:Parser::parse"]}
{"id": "C73", "title": "What follows a group does not count; with it left out accepted texts are in the language", "statement": "Leaving out of every sequence what follows a group that stands by itself gives a syntax that also compiles and whose parser answers the same.  Whatever groups a syntax has, a text Parser::parse accepts is in the language of the syntax so reduced, has a derivation in it which the events describe, and an error stands after a beginning of a text of that language.", "quantifier": "every syntax that can be read, configuration without forwarding, entry rule, reader at any state, text", "why_tests_cant": "all grammars and texts", "anchors": ["src/parser/graph.rs:268", "src/parser/mod.rs:Parser::parse"]}
{"id": "C74", "title": "Refactoring keeps what is accepted", "statement": "Giving a part of a definition a name of its own, or writing out the definitions a name stands for (as a group where a sequence ends, in a counted term or in an exception; a rule of one sequence anywhere), reordering rules, adding rules and dropping rules that are no longer needed, any number of times and together with the laws of C72, changes neither which texts Parser::parse accepts for the entry rule nor where errors stand.", "quantifier": "every pair of rule sets related by refactoring steps, configuration without forwarding (with nested events of scanners in debug builds), entry rule, reader at any state, text", "why_tests_cant": "all grammars, refactorings and texts", "anchors": ["src/parser/graph.rs", "src/parser/mod.rs:Parser::parse"]}
{"id": "C75", "title": "Where a text stands in its source only moves places", "statement": "Parser::parse on two readers with the same text before them, whatever their sources are called and whatever was read from them before, gives the same events and the same errors, with every source location moved to the corresponding place: on the line where the text begins by the difference of columns, further down by the difference of lines.  In particular the name of a source shows only in locations.", "quantifier": "every compiled syntax, configuration whose user scanners only hand locations on, entry rule, pair of readers at any state, text", "why_tests_cant": "all grammars, texts, start locations and reader histories", "anchors": ["src/parser/machine.rs", "src/parser/mod.rs:Parser::parse", "src/lib.rs:Location::push"]}
{"id": "C76", "title": "The name given to the source of a syntax shows only in locations", "statement": "Any calls of push, push_str, flush and reset on two lexers made with different names, and Syntax::read_from, lex::parse and parse_str on the same input under different names, give the same rules, syntaxes, errors and panics, but for the name in locations: every location is at the same line and column under the other name, except that of an empty definition in empty brackets, which is \"<unknown>\" under both (C53).  The rules are displayed alike, and the parsers made from them give the same answers but for the locations of definitions.", "quantifier": "all pairs of names, all call histories, all encodings, byte streams (failing ones included), limits; for parsers every entry rule, configuration whose scanners ignore where the special sequence stands, and text", "why_tests_cant": "all names, inputs and call histories", "anchors": ["src/lex/mod.rs", "src/lex/tokenizer/mod.rs", "src/validity/mod.rs", "src/lib.rs:Syntax::read_from"]}
{"id": "C77", "title": "A parse needs depth in proportion to its text", "statement": "For a syntax without left recursion, Parser::parse of a complete text of n characters returns within 3 + (n+1)*(number of rules + 1)*(size of the syntax + 1) levels of recursion and loop rounds, whatever the text, the entry rule and how the text arrives; more room never changes the answer, so whether a text is accepted is decided by that run.  No smaller order suffices: for a='(',a,')'|'x' the text of n nested parentheses is accepted but needs more than 3n.", "quantifier": "all syntaxes without left recursion, configurations (user scanners included), entry rules, readers, texts, debug or release", "why_tests_cant": "a bound for all texts and all syntaxes; tests see only the depth of the inputs they run", "anchors": ["src/parser/mod.rs", "src/parser/machine.rs"]}
{"id": "C78", "title": "The number of events grows with the text at most in proportion", "statement": "For a syntax without left recursion whose bracketed bodies leave no events behind when they fail (tidy), scanned by scanners that forward nothing and give at most M events per match (the library's give at most one), every successful Parser::parse of a complete text of n characters returns at most a + b*n events, where a and b depend on the syntax and M alone.  For other syntaxes this is false: S=['x',S,'y'],['x',S] returns at least 2^n - 1 characters of tokens for the text x^n, because the failed first bracket leaves its events.", "quantifier": "all tidy syntaxes without left recursion, frugal configurations, entry rules, readers, texts, debug or release", "why_tests_cant": "a bound over all texts and all syntaxes; a test shows the length of one answer", "anchors": ["src/parser/machine.rs", "src/parser/mod.rs"]}
{"id": "C79", "title": "A parse returns exactly when no rule is tried again where it is being tried", "statement": "Parser::parse of a complete text returns (events, an error or a panic) if and only if, following the rules that the parse tries and the places of the text where it tries them, it never comes to the body of a rule at a place where that same body is already being tried. Otherwise it never returns. A rule can only go round like this if it is left-recursive in the sense of C37; a left-recursive rule such as S='a'|S,'b' still returns for the texts beginning with a, and for no others.", "quantifier": "all accepted syntaxes, configurations of scanners (forwarding included), entry rules, readers and complete texts, debug or release", "why_tests_cant": "non-termination cannot be observed by a test, and that nothing else makes a parse run forever is a statement about all syntaxes and texts", "anchors": ["src/parser/mod.rs", "src/parser/machine.rs", "src/parser/graph.rs"]}
{"id": "C80", "title": "The integers of the code are wide enough", "statement": "With line and column numbers and stream positions as u64, nesting depths of comments and brackets as i32 and the counter of repetitions as u32, as in the code, no addition overflows and every result is the one of unbounded arithmetic: (1) for every history of Lexer::push, push_str, flush and reset in which the characters and the calls together are fewer than 2^31, whatever errors occur on the way; (2) for every history of calls on a MarkableReader, and every Parser::parse on it afterwards, such that the starting line and the starting column plus the length of the text stay below 2^64. Both bounds are tight: a rule with 2^31 + 1 opening brackets (2^31 + 4 characters) overflows the i32 depth, and a text whose column would reach 2^64 overflows the u64.", "quantifier": "all source names and buffer limits, all histories of lexer calls, all readers (starting location, chunks, failing source), all histories of reader calls, all syntaxes, configurations and entry rules, debug or release", "why_tests_cant": "overflow needs inputs of gigabytes, and that none occurs below the bound is a statement about all inputs and all histories of calls", "anchors": ["src/lib.rs", "src/lex/tokenizer/mod.rs", "src/lex/mod.rs", "src/io/mod.rs", "src/parser/machine.rs"]}
{"id": "C81", "title": "Debug builds and release builds differ only where a debug assertion fails", "statement": "(1) For every history of calls on a Lexer, every history of calls on a MarkableReader and every Parser::parse, a release build gives the same results as a debug build up to the call that a debug assertion stops in the debug build. (2) A client that calls reset() after a failed call on a Lexer never meets the assertion of the lexer, so both builds give it the same results throughout; parse_str is such a client. (3) After a grammatical error and without reset(), no call brings a rule: a debug build stops whenever a rule ends; a release build repeats the same error, unless the error says that a bracket is not closed. In that case it may go on and return a rule that runs over a terminator (witness: a=(b; then c=d); ). (4) A parse that a debug assertion stops is accepted by the release build, and needs a scanner whose events do not nest; with other scanners, those of the library among them, the builds agree, in the state of the reader too.", "quantifier": "all source names, buffer limits and call histories of a Lexer; all readers, sources and operations; all graphs, scanners, entry addresses, readers and fuels", "why_tests_cant": "tests run in one build; that no history separates the builds is a statement about all of them", "anchors": ["src/lex/mod.rs:142-183", "src/lex/mod.rs:326-365", "src/io/mod.rs:245-262", "src/parser/machine.rs:32-42", "src/parser/machine.rs:290-353"]}
{"id": "C82", "title": "The example of the documentation parses exactly its programs", "statement": "The grammar of the example in the crate's documentation is read from text, whatever the name of its source, and compiled with the scanners of the example, and there is a parser for `program`. On every text, Parser::parse returns: Ok exactly for the texts of the form PROGRAM, gap, identifier, gap, BEGIN, gap, any number of assignments each with a semicolon and a gap, END., where a gap is a run of whitespace or ASCII control characters, an assignment gives an identifier a number, an identifier or a string, and a string holds no control character and no quote; Err for all others. The events of an accepted program nest, and their tokens read one after the other are the text, each at its location; the whole sequence of rules entered, tokens and rules left is the one tree of the program: a pair for each rule down to the single letters, digits and characters of strings, and nothing of the attempts that failed, such as reading END as the name of a variable.", "quantifier": "all source names of the grammar, all readers however filled and read before, all texts of at most 2^32-1 characters, both builds", "why_tests_cant": "the documentation runs one program; the rules are not LL(1) (an identifier may begin like END.), so that no program is refused needs an argument about all of them", "anchors": ["src/lib.rs:1-88", "src/parser/mod.rs:141-203", "src/parser/machine.rs:44-353"]}
{"id": "C83", "title": "The constructors of CharsScanner and RegExScanner", "statement": "On any reader, with m the characters ahead that satisfy the predicate, up to the first that does not: with_one_of reads one character if m is not empty; with_zero_or_more reads m; with_one_or_more reads m if it is not empty; with_min(n) reads m if it has n characters at least; with_max(n) reads the first n characters of m; with_range(a, b) reads the first b characters of m if a <= b and m has a characters at least. What is read is handed out as one token at the place where it begins. In all other cases the scanner does not match and the reader stays where it was. RegExScanner::from_str gives, for an expression that the regex engine takes, a scanner named after it that reads what the engine finds at once (up to 256 characters); an expression that the engine refuses is an error at the given place, with the text of the engine.", "quantifier": "all predicates, bounds, readers and texts, both builds; all regex engines and expressions", "why_tests_cant": "tests try a few predicates on short texts with one buffer layout", "anchors": ["src/parser/mod.rs:147-219"]}
{"id": "C84", "title": "Rules whose choices never have to be undone are parsed exactly", "statement": "Let the words of a rule be those of its definitions, the words of exceptions taken away. If (1) nothing in the rules stops a parse, nothing follows a group that is a term by itself, exceptions use no exceptions, and there is no left recursion, and (2) in every text of the rule, where an alternative is right no earlier one finds a different word, where an option is over its body finds no word but the empty one, where a repetition is over its body finds none, and a special sequence finds the right one of its words, then Parser::parse returns on every text: Ok exactly for the words of the rule, Err for all others. How much of the text is needed to decide is not limited. LL(1) rules (C63) meet the condition; where the next k characters decide, it can be computed, exceptions included. Without it the claim fails, for alternatives, options and repetitions.", "quantifier": "all rules, configurations whose scanners nest their events, readers however filled and read before, texts of at most 2^32-1 characters, both builds; all k for the computation", "why_tests_cant": "that no word is refused is a statement about all words of a language; tests try some", "anchors": ["src/parser/mod.rs:35-120", "src/parser/machine.rs:44-353", "src/parser/graph.rs:1-305"]}
{"id": "C85", "title": "The texts on which lexing panics, exactly", "statement": "parse_str panics exactly when the text has zero or more correct rules, then a rule whose first mistake, reading from the left, is a repetition count (at most 2^32-1) with nothing but gaps and comments between it and the bracket that closes the innermost open one, every bracket around it being closed within the rule by one of its kind, and when the rest of the text consists of tokens, the last possibly unfinished. Then the panic is an index out of range. However the text is cut into push and push_str calls, a Lexer without limit panics on the same such texts; with a limit it panics on no others. The same count is only an Err at the end of a rule, behind an earlier mistake, inside a bracket that is not closed, when it is too large, and (parse_str) before a character that begins no token.", "quantifier": "all texts, cuts into calls and limits", "why_tests_cant": "an exact description of an infinite set of texts; tests find members and non-members only", "anchors": ["src/lex/mod.rs:426-462", "src/lex/mod.rs:547-576", "src/lex/mod.rs:326-365", "src/lex/mod.rs:35-43"]}
{"id": "C86", "title": "Exactly when a parse panics or stops", "statement": "Say that a parse comes to a construct at a place of the text if the rules lead there: from a reference to the definitions of its rule, from a list of definitions to the first and then, after each failure, to the next one, through a sequence as far as its terms match, through the rounds of a repetition, from a factor to its exception on the text the factor matched. With rules read from a text and nesting scanners, Parser::parse of a complete text panics if and only if it comes to a reference to a rule that does not exist. It gives an error that is not an expectation about the text if and only if it comes to a construct that stops with just this error: an unbounded repetition whose round matches without moving, a special sequence forwarding to an unknown rule, or a scanner failing with this error; nothing around it rescues the parse. With the scanners of the library such an error is the infinite loop, at exactly the place of the round, or a regular expression matching more than 256 characters.", "quantifier": "all rules, configurations, entry rules, readers, complete texts, debug or release", "why_tests_cant": "an equivalence over all syntaxes and texts; tests show single parses", "anchors": ["src/parser/machine.rs:47-171", "src/parser/machine.rs:174-336", "src/parser/mod.rs"]}
{"id": "C87", "title": "Exactly when a buffer limit rejects a text", "statement": "A token is certain once no further text can make another token of it (most brackets, quotations and comments as soon as they end; words, numbers, gaps, '(', '/', '*' once the next character is seen). A Lexer with max_buffer_size m > 0 fails with the too-long error if and only if some push or push_str, all calls before it having succeeded, hands over more characters than m minus the number of characters behind the last certain token of the text given so far; the error is that of the first such call, names these two numbers and m, and is located where the kept characters begin. If there is no such call the lexer does exactly what one without limit does. In particular a correct text pushed character by character is accepted if and only if each token has fewer than m characters, or just m and is certain by itself or the last one; a text given at once is rejected for its length if and only if it has more than m characters.", "quantifier": "all texts, limits, names and cuts into calls", "why_tests_cant": "an exact condition over all texts and all ways to cut them", "anchors": ["src/lex/tokenizer/mod.rs:46-139", "src/lex/mod.rs:parse"]}
{"id": "C88", "title": "Which mistake of a text is reported", "statement": "A text is broken if behind some tokens comes something that begins no token and that no further text can mend; it is wrong if a beginning of it that ends with a terminator is made of tokens but not of rules. Both mistakes are unique and stay whatever is added. For every way to cut the text into calls of push and push_str: if the texts of some of the first calls together are wrong but not broken, the outcome is that of the wrong rule, whatever comes behind; otherwise, if the text is broken, the outcome is the error of the broken place; otherwise the outcome is that of the whole text given at once. So given at once a broken text reports the broken place, character by character a wrong text reports the wrong rule, and the outcome is independent of the cut if and only if the text is not both broken and wrong.", "quantifier": "all texts, names and cuts into calls", "why_tests_cant": "an exact condition over all texts and all ways to cut them", "anchors": ["src/lex/mod.rs:parse", "src/lex/tokenizer/mod.rs:46-139"]}
{"id": "C89", "title": "What a markable reader holds and how it names its marks", "statement": "What a reader keeps can be told from the calls and their answers alone: its place, its outstanding marks, how far the source was read, how many characters are held and how many were given up before. Under a mark everything newly read is held; without marks held characters are given up when a read reaches their end from before it, and stay otherwise. The identifier of a mark is its place less the number of characters given up, so two marks have the same identifier exactly when the reader went on between them by as much as was given up. After any history of calls that returned, the next call panics exactly in a debug build, when no mark is outstanding, characters are held, the reader is at their end, and the call takes at least one character from a source that has one.", "quantifier": "all operation histories, sources, fragmentations and ends of the source", "why_tests_cant": "an exact condition over all histories", "anchors": ["src/io/mod.rs:UnreadBuffer", "src/io/mod.rs:MarkableReader"]}
{"id": "C90", "title": "Which events of a parse spell the text", "statement": "The events of a successful parse consist of events that belong to the text - they spell it, token by token at their places, and form a derivation of it - and of the events that bodies of options and repetitions handed out before they were given up, each at the point where it was given up. The tokens spell the text exactly when no token with a text was handed out by a body that was given up. An empty pair of events is left exactly where a rule other than the first held at least one empty pair and nothing else.", "quantifier": "all rules, texts, and configurations without forwarding", "why_tests_cant": "an exact condition over all executions, including backtracking ones", "anchors": ["src/parser/machine.rs:Step::Repetition", "src/parser/machine.rs:remove_empty_begin_end_pair"]}
{"id": "C91", "title": "What forwarding does, exactly", "statement": "A special sequence that forwards does what the body of the named rule (with a dollar sign before the name: a reference to the rule) does from where its scanner stands, except that a failure is taken for a match of what was read until the failure, with the events handed out until then; it is an error exactly if no rule has the name. So a rule that consists of such a sequence accepts a text exactly if its target reads it to the end, whether it matches or fails.", "quantifier": "all rules, scanners, targets and texts", "why_tests_cant": "failure paths of all targets", "anchors": ["src/parser/machine.rs:SpecialSequenceScanner"]}
{"id": "C92", "title": "Rules with all their locations", "statement": "Parsing a text succeeds with a list of rules exactly if the tokens of the text have a derivation with these rules, every part at its place: rules and primaries at their first token, an empty sequence at the symbol that ends it (bar, comma, minus or terminator), or, at the end of brackets, at the last token before the closing bracket. A part whose location is not in the text exists exactly if the text has an opening bracket directly followed by a closing one.", "quantifier": "all texts and names of sources", "why_tests_cant": "locations of all parts of all texts", "anchors": ["src/lex/mod.rs:read_syntactic_primary", "src/lex/mod.rs:read_enclosed_definition_list"]}
{"id": "C93", "title": "Where a parse leaves the reader", "statement": "A parse never leaves its reader behind where it started. After a parse that failed without being stopped in the middle the reader stands either behind what the rule matched, with text left, or where the rule gave up: a choice of several definitions and a term with an exception go back to their beginning, everything else stays where the part that failed has left the reader (so the reader is in general not where it was). The place of the error is still ahead of the reader, and a further parse with the reader treats what is left like a text by itself.", "quantifier": "all rules, configurations of scanners, readers and texts", "why_tests_cant": "all ways in which a parse of any text by any rules can fail", "anchors": ["src/parser/machine.rs:parse", "src/parser/machine.rs:parse_to_subroutine_end"]}
{"id": "C94", "title": "How long a parse takes", "statement": "A parse that ends executes exactly as many instructions as the rules ask for the text: each definition, term, group, reference and repetition costs what its parts cost, an alternative that fails costs what was tried before it failed. The number does not depend on how the text arrives (chunks, marks, earlier reading), on debug assertions or on room to spare. No polynomial in the length of the text bounds it: with S='(',S,')'|'(',S,']'|'x'; the accepted text of n opening parentheses, x and n closing brackets takes 11*2^n-6 instructions.", "quantifier": "all rules, configurations of scanners, readers and texts; all n for the exponential family", "why_tests_cant": "a count for every parse of every text, and growth beyond every polynomial", "anchors": ["src/parser/machine.rs:parse", "src/parser/machine.rs:parse_to_subroutine_end"]}
{"id": "C95", "title": "Rules with one character of look-ahead are parsed in linear time", "statement": "If one character tells the alternatives of the rules apart (LL(1)) and every construct of the rules has a word, a parse of any text, accepted or not, ends after at most a + b*n instructions, n being the length of the text and a and b numbers computed from the rules alone. Both conditions can be computed. Without the second the claim is false: S='(',S,U|'(',S,']'|'x'; U='(',U; is LL(1), and accepting n opening parentheses, x and n closing brackets takes 12*2^n-7 instructions.", "quantifier": "all LL(1) productive rules, configurations of scanners, readers and texts", "why_tests_cant": "a bound on the parses of all texts by all such rules, including rejected ones", "anchors": ["src/parser/machine.rs:parse", "src/parser/machine.rs:parse_to_subroutine_end"]}
{"id": "C96", "title": "Left recursion can be computed", "statement": "Whether some rule of a syntax is left-recursive (may be tried again, directly or through others, where it began: after parts that can match nothing, in exceptions, through forwarding) is decided exactly by a computation over the rules, given for each special sequence whether its scanner can match nothing and where it can forward to; for the scanners of the library other than regular expressions this is read off the scanner. If the answer is no, every parse of every text returns. The converse is false: with S=|S,'a'; the answer is yes and every parse returns.", "quantifier": "all rules with distinct names, configurations of scanners, readers and texts", "why_tests_cant": "the check speaks about all parses of all texts, and is exact for all rules", "anchors": ["src/parser/machine.rs:parse_to_subroutine_end", "src/parser/mod.rs:Parser::parse", "src/lib.rs:Syntax::new"]}
{"id": "C97", "title": "A parse returns within exponential time or never", "statement": "For every syntax there is a number b such that every parse of a text of n characters which returns (accepting, rejecting or panicking) executes at most b^(n+1) instructions; b is computed from the sizes and the number of the rules. Left-recursive rules are no exception. A parse that has not returned after that many instructions (plus n + 2 turns for loops over characters) never returns, so whether a given parse returns can be found out by running it. (Exponential time is reached: C94.)", "quantifier": "all rules with distinct names, configurations of scanners, starting rules, readers, chunkings and texts", "why_tests_cant": "the bound ranges over all rules and texts, and no run of finite length shows by itself that a parse never returns", "anchors": ["src/parser/machine.rs:parse_to_subroutine_end", "src/parser/mod.rs:Parser::parse"]}
{"id": "C98", "title": "What a parse makes the reader hold", "statement": "A choice between definitions, a term with an exception, a factor asked for at least twice and a CharsScanner set a mark that stays in the reader when they match. So after every successful parse with a rule that begins with one of these (directly or through references and groups) the reader has at least one mark more than before and its buffer holds every character of the text, however long. A rule of terminals one after the other (with references and groups) leaves the marks as they were, and a reader that held nothing holds nothing afterwards.", "quantifier": "all rules, configurations, readers with any history of operations, chunkings and texts, debug and release builds", "why_tests_cant": "the claim is about what stays in memory after parses of arbitrarily long texts with arbitrary rules; the results of the parses do not show it", "anchors": ["src/parser/machine.rs:parse_to_subroutine_end", "src/parser/machine.rs:TermWithExceptionScanner::scan", "src/parser/machine.rs:SpecialSequenceScanner::scan", "src/parser/mod.rs:CharsScanner::scan", "src/io/mod.rs:MarkableReader"]}
{"id": "C99", "title": "What reading an EBNF text costs", "statement": "Reading an EBNF text looks at or moves at most 84 * (n + 1) * (n + k + 1) characters and tokens, where n is the length of the text and k the number of pieces it is pushed in, whether it is accepted or not. With a buffer limit m the tokenizer does at most |s| + 4 m + 1 for a piece s. The square is reached: parse_str of any accepted text with t tokens moves at least (t - 2)(t - 1)/2 tokens; a comment of n characters pushed one by one costs at least n * n / 2; n brackets inside each other cost at least n * n however the text is cut.", "quantifier": "all texts, all cuts into pieces, all buffer limits; all depths of brackets and lengths of comments", "why_tests_cant": "the claim bounds the work for texts of every length and gives families on which the work grows with the square; a test measures single texts", "anchors": ["src/lex/mod.rs:Lexer::append", "src/lex/mod.rs:read_enclosed_definition_list", "src/lex/mod.rs:parse_str", "src/lex/tokenizer/mod.rs:Tokenizer::tokenize", "src/lex/tokenizer/mod.rs:read_next"]}
{"id": "C100", "title": "How deep the calls go when an EBNF text is read, and what a buffer limit does not bound", "statement": "When a text is accepted with at least one rule, the calls of the recursive descent stand 6 * d + 6 deep inside each other, where d is the depth of the brackets of the deepest rule, however the text is cut into fragments. For every text, accepted or not, they stand at most 3 * n + 9 deep, n being the length of the text. A buffer limit bounds none of this: for every limit of two or more and every n there is a text accepted under the limit, pushed one character at a time, whose rule has a name of 2 * n + 1 characters and brackets n deep.", "quantifier": "all texts, all cuts into fragments, all buffer limits; all n", "why_tests_cant": "the depth of calls is not observable by a test short of a stack overflow, and no single text shows that a limit bounds nothing", "anchors": ["src/lex/mod.rs:Lexer::append", "src/lex/mod.rs:build_syntax_rule", "src/lex/mod.rs:read_enclosed_definition_list", "src/lex/mod.rs:Lexer::push", "src/lex/tokenizer/mod.rs:Tokenizer::push_str"]}
{"id": "C101", "title": "Rules whose choices never have to be undone have one derivation for each text, exceptions included", "statement": "Let no two alternatives that can stand at the same place have a word in common other than the empty one, and let no choice have to be undone (as in C84; rules need not be LL(1) and may have exceptions).  Then two derivations of the same text from the start rule have the same events, up to tokens without text and rules without tokens.  Every accepted text has a derivation; if no body of brackets leaves events behind when it fails, the events of the parse are those of this derivation without empty pairs, and so those of every derivation.  The conditions can be computed from the rules.", "quantifier": "all rules meeting the conditions, all scanners that spell and nest, all texts up to the largest count, all derivations", "why_tests_cant": "tests look at the derivation the parser found, not at all other derivations of the text", "anchors": ["src/parser/mod.rs:Parser::parse", "src/parser/machine.rs:Machine::parse", "src/parser/mod.rs:Event"]}
{"id": "C102", "title": "A parse gives the same result with any reader of the user's that serves the text", "statement": "Parser::parse takes any MarkableCharReader.  Let a reader of the user's serve a text: location is where it stands, read_chars gives some of the next characters and none only at the end, or fails there with an error located at the end (after a failed look-ahead the reader stands at the end), reset goes back to a usable mark and says how far, unmark releases it, mark names a new mark unlike the usable ones of other positions; how marks are named, how much one read gives, and whether newer marks survive is up to the reader.  Then, with the default methods of the trait or with others that agree with them, a parse returns exactly what it returns with the library's own reader over the characters left and the same ending, leaves the reader after the same characters and keeps the marks that stood before.  The library's reader in a release build meets these laws, and a parse with it is the same program.", "quantifier": "all readers that meet the laws, all states of them with any marks standing, all texts, all rules and scanners of C30, debug and release", "why_tests_cant": "tests use the library's readers; the laws quantify over every implementation of the trait", "anchors": ["src/io/mod.rs:MarkableCharReader", "src/io/mod.rs:CharReader", "src/parser/mod.rs:Parser::parse", "src/parser/machine.rs:LexMachine::parse"]}
{"id": "C103", "title": "A MarkableReader over any CharReader of the user's behaves like one over the text itself", "statement": "MarkableReader::new takes any Box<dyn CharReader>.  Let the user's reader give a text: each read gives between one and the requested number of the next characters, how many is up to the reader; at the end it gives none, or fails with one and the same error.  Then a parse over it returns exactly what it returns over the text in one piece with the same ending, in debug and release builds; every parse and every sequence of calls (mark, reset, peek, skip, ...) is answered as over some division of the text in chunks, and in a release build as a cursor over the text.  A MarkableReader is such a reader itself, so readers can be stacked.", "quantifier": "all CharReaders that give a text and all states of them, all endings, all states of the buffer, all rules and scanners, all sequences of calls other than read_all and reads of no characters", "why_tests_cant": "the reader is an arbitrary program that may choose the size of each piece depending on everything asked of it before", "anchors": ["src/io/mod.rs:CharReader::read_chars", "src/io/mod.rs:MarkableReader::new", "src/io/mod.rs:UnreadBuffer::append", "src/parser/mod.rs:Parser::parse"]}
{"id": "C104", "title": "Scanners that answer alike may be exchanged", "statement": "If two GraphConfigs give the special sequences of the rules scanners that answer alike (at every place of every text both match up to the same place with the same events, or neither matches, or both forward or fail alike), then every parse gives the same result with both: the same events, or errors at the same place, the same errors if the scanners have the same symbols.  A RegExScanner for min to max characters of a class answers like CharsScanner::with_range exactly up to max = 256; with a larger max it fails where there are 257 characters of the class.  A scanner of the user's that reads one character and looks at it answers like CharsScanner::with_one_of.  Scanners answer alike exactly if calling scan on any reader whose source does not fail, with a mark outstanding, gives the same reaction and leaves the reader at the same place (where it matches or forwards), or gives the same error.", "quantifier": "all rules, all pairs of configurations, all readers and texts, both builds; all classes of characters, all ranges", "why_tests_cant": "what a scanner may be replaced by depends on its answers at all places of all texts, also inside exceptions, choices that are undone and forwarded rules", "anchors": ["src/parser/mod.rs:141-251", "src/parser/graph.rs:256-266", "src/parser/machine.rs:174-260"]}
{"id": "C105", "title": "The events of a parse make a tree that spells the text", "statement": "A program that turns events into AST values (a leaf for each Token, a node of what came since the Begin for each End, refusing an End that does not fit) succeeds exactly on nested events.  On the events of a successful parse it gives one tree: a node at the place where the parse began, whose walk from left to right meets exactly the tokens, Begins and Ends of the events with their locations.  If the bodies of options and repetitions leave no events behind when they fail, AST::token of the tree is the text that was parsed, and AST::token of each part of the tree is the piece of the text that begins at the AST::location of that part.", "quantifier": "all event lists; all rules, readers and texts, both builds, all scanners that emit nested events (spelling what they read, for the second part)", "why_tests_cant": "trees of any depth and width, and every part of each of them, for all grammars and texts", "anchors": ["src/lib.rs:370-448", "src/parser/machine.rs:remove_empty_begin_end_pair", "src/parser/mod.rs:Event"]}
{"id": "C106", "title": "Rules that grow keep their texts and their events", "statement": "A syntax may be extended by alternatives anywhere and in any order, by optional and repeated parts between the terms of a definition, by making a term optional or repeated, by exceptions that take away less, and by further rules.  If with the extended rules no choice has to be undone (computable, C84, C101), every text that the old rules accept is accepted by the new ones, with the same events, but for tokens without text, rules without tokens, and the places in the syntax that events carry.  Whether rules grew in this way can be computed.  Where choices have to be undone, an extension can make texts be refused.", "quantifier": "all pairs of rules and configurations, all readers and texts up to the limit of the counter, both builds", "why_tests_cant": "all texts of the old rules and all extensions; one more alternative can end a repetition elsewhere", "anchors": ["src/parser/machine.rs:44-137", "src/parser/graph.rs", "src/lex/mod.rs:186-275"]}
{"id": "C107", "title": "A part of a parse is the parse of that part", "statement": "With rules whose choices never have to be undone (computable, C84, C101), what a rule encloses in the events of a successful parse (from a Begin to the End that belongs to it) is what parsing the enclosed text by itself with the parser of that rule gives, at the same location, but for tokens without text, rules without tokens, and the places in the syntax that events carry.  If a rule is { item }, a text is accepted exactly if it is made of texts that the parser of the item accepts, and its events are those of the items one after the other, inside the Begin and End of the list.  Where choices are undone, a part may be parsed differently by itself.", "quantifier": "all rules and configurations whose scanners tell words (those of the library do), all readers and texts up to the limit of the counter, all parts of their events, both builds", "why_tests_cant": "all parts of all texts: what follows a part could decide about choices inside of it", "anchors": ["src/parser/machine.rs:44-137", "src/parser/machine.rs:325-360", "src/parser/graph.rs"]}
{"id": "C108", "title": "A part of a text may be exchanged for another text of its rule", "statement": "With rules whose choices never have to be undone (computable, C84, C101) and that take nothing away from what refers to rules (computable), let a rule enclose a part of the events of a successful parse.  If the text of that part is exchanged for any other text that the parser of that rule accepts, the whole text is accepted as well, and its events are the events before the part, those of parsing the other text by itself, and the events behind the part, but for tokens without text, rules without tokens, and locations.  Where something is taken away from what refers to rules, the exchanged text may be refused.", "quantifier": "all rules and configurations whose scanners say words (those of the library do), all readers and texts up to the limit of the counter, all parts of their events, all texts exchanged for them, both builds", "why_tests_cant": "all texts, all parts of them, and all texts that could take their places: what stands around a part could be parsed differently with another part", "anchors": ["src/parser/machine.rs:44-137", "src/parser/machine.rs:325-360", "src/parser/graph.rs"]}
