{"id": "C01", "title": "Regrouping keeps every operand and operator in order", "statement": "Whenever resolving an infix expression under a fixity table succeeds, reading the result left to right gives exactly the operands and operators of the input, in the same order, none lost, added or altered.", "quantifier": "every fixity table and every infix expression (any length, any operands)", "why_tests_cant": "A test checks a few chains of three or four operators; a dropped or swapped operand can hide in any interleaving of shifts and reductions.", "anchors": ["src/syntax/fixity.rs:Fixities::rewrite", "src/syntax/fixity.rs:Rule::reduce", "src/syntax/fixity.rs:Resolver::resolve_expr"]}
{"id": "C02", "title": "Result obeys precedence and associativity everywhere", "statement": "In a successfully resolved infix expression every operator that is the direct child of another either binds strictly tighter, or has the same precedence and both are infixl (left child) or both are infixr (right child).", "quantifier": "every fixity table, every infix expression, every operator node of the result", "why_tests_cant": "The number of operator/fixity combinations is unbounded; tests only fix three operators.", "anchors": ["src/syntax/fixity.rs:Fixities::rewrite", "src/syntax/fixity.rs:Rule::from_fixities"]}
{"id": "C03", "title": "Resolution finds the one legal grouping exactly when there is one", "statement": "Resolution of an infix expression succeeds if and only if some grouping of it obeys precedence and associativity, that grouping is unique, and it is the one returned.", "quantifier": "every fixity table and every infix expression", "why_tests_cant": "Non-existence of any legal grouping (the error case) quantifies over all trees; tests cannot enumerate them.", "anchors": ["src/syntax/fixity.rs:Fixities::rewrite"]}
{"id": "C04", "title": "Ambiguity errors name a genuine conflict", "statement": "When resolution reports an error, the two operators named occur in the expression in that order, the fixities reported are the ones in effect, they have equal precedence and are neither both infixl nor both infixr, and every operator strictly between them binds tighter.", "quantifier": "every fixity table and every infix expression that is rejected", "why_tests_cant": "Requires relating the error to an arbitrary chain and stack history.", "anchors": ["src/syntax/fixity.rs:AssocError", "src/syntax/fixity.rs:Rule::error", "src/syntax/fixity.rs:Fixities::rewrite"]}
{"id": "C05", "title": "Resolution never panics", "statement": "Resolving any expression under any table ends with a tree or an ambiguity error: the operand/operator stack assertions and unwraps in the resolver can never fire.", "quantifier": "every expression tree (also ones the parser never builds) and every fixity table", "why_tests_cant": "Absence of an assertion failure over all stack histories is an invariant, not a test.", "anchors": ["src/syntax/fixity.rs:Rule::reduce", "src/syntax/fixity.rs:Fixities::rewrite"]}
{"id": "C06", "title": "Agreement with the Haskell Report's algorithm", "statement": "For negation-free infix expressions resolution gives the same tree, or rejects the same expressions, as the reference fixity-resolution algorithm of the Haskell 2010 Report (section 10.6).", "quantifier": "every fixity table and every infix expression", "why_tests_cant": "Equivalence of two algorithms on all inputs.", "anchors": ["src/syntax/fixity.rs:Fixities::rewrite", "README.md"]}
{"id": "C07", "title": "Resolving an AST regroups every nested chain and nothing else", "statement": "If resolving an AST reports no error then every expression is changed only by regrouping infix chains: each chain, wherever it is nested (groups, tuples, lists, applications, lambda bodies, let bodies, operands), becomes its legal grouping under the fixities in scope there; literals, names, patterns, parentheses and declarations are untouched.", "quantifier": "every AST and every starting table", "why_tests_cant": "Arbitrary nesting of all expression forms.", "anchors": ["src/syntax/fixity.rs:Resolver::resolve_ast", "src/syntax/fixity.rs:VisitMut for Resolver", "src/syntax/ast.rs:walk_expr_mut", "src/syntax/ast.rs:walk_ast_mut"]}
{"id": "C08", "title": "Resolution is idempotent", "statement": "Resolving an already resolved AST again under the same table succeeds and changes neither the AST nor the table. Resolving again what is left of a rejected one reports the same errors and changes neither.", "quantifier": "every AST and table, whether the first resolution succeeds or not", "why_tests_cant": "Needs the invariant that re-entering an already grouped tree never shifts differently.", "anchors": ["src/syntax/fixity.rs:VisitMut for Resolver", "src/syntax/fixity.rs:Fixities::rewrite"]}
{"id": "C09", "title": "let fixities are in force exactly inside the let body", "statement": "While resolving let <decl> in body, operators listed in the declaration have the declared fixity, all others keep the fixity they had outside; inner lets shadow outer ones; the rest of the input is resolved as if the let were absent.", "quantifier": "every nesting of lets, declarations and surrounding expressions", "why_tests_cant": "Scoping is a statement about all nestings and continuations.", "anchors": ["src/syntax/fixity.rs:VisitMut for Resolver", "src/syntax/ast.rs:Expr::Let"]}
{"id": "C10", "title": "Leaving a let restores the table exactly", "statement": "After resolving any expression, the fixity table is exactly what it was before (same operators, fixities and listing order), whether or not errors were found, provided no let in it lists one operator twice; with a duplicate the local fixity leaks into the session.", "quantifier": "every expression and every table", "why_tests_cant": "An invariant over arbitrary nested save/restore sequences; the duplicate case is a corner no test covers.", "anchors": ["src/syntax/fixity.rs:VisitMut for Resolver", "src/syntax/fixity.rs:Fixities::remove", "src/syntax/fixity.rs:Resolver::add_fixity"]}
{"id": "C11", "title": "Declarations are hoisted and the last one wins", "statement": "All fixity declarations of one input take effect before any of its expressions is resolved, wherever they are written; after the input the session table maps each operator to its last declaration in that input, or to what it was before.", "quantifier": "every AST (any mix of declarations and expressions) and starting table", "why_tests_cant": "Quantifies over all orders and repetitions of declarations.", "anchors": ["src/syntax/fixity.rs:Resolver::load_fixities", "src/syntax/fixity.rs:Resolver::resolve_ast", "src/repl/session.rs:ReplSession::feed_input"]}
{"id": "C12", "title": "Fixity table behaves as a map keyed by operator name", "statement": "Lookup returns the most recently inserted fixity for that operator name, whether spelled promoted or not, the default infixl 9 if never inserted or removed since; insertion never changes other operators, re-insertion keeps the listing position and returns the old fixity, removal keeps the order of the others.", "quantifier": "every sequence of insert, remove and lookup operations", "why_tests_cant": "A history property over unbounded operation sequences.", "anchors": ["src/syntax/fixity.rs:Fixities::insert", "src/syntax/fixity.rs:Fixities::get", "src/syntax/fixity.rs:Fixities::remove", "src/syntax/ast.rs:PartialEq for Infix"]}
{"id": "C13", "title": "Only relative precedence of the operators present matters", "statement": "Resolution gives the same result for any two tables that agree on associativities and on the precedence comparison between the operators occurring in the expression; entries for other operators are irrelevant.", "quantifier": "every pair of such tables and every expression", "why_tests_cant": "Quantifies over pairs of tables.", "anchors": ["src/syntax/fixity.rs:Rule::from_fixities", "src/syntax/fixity.rs:Fixities::rewrite"]}
{"id": "C14", "title": "Resolution errors are reported once and do not leak", "statement": "Resolving an input fails exactly when some chain on the way in is ambiguous; the error list is then non-empty and duplicate-free, and afterwards no pending error remains, so a later input is judged on its own.", "quantifier": "every AST, table and history of earlier inputs", "why_tests_cant": "History property over all input sequences.", "anchors": ["src/syntax/fixity.rs:Resolver::resolve_ast", "src/syntax/fixity.rs:Resolver::store_error", "src/syntax/fixity.rs:Resolver::take_errors"]}
{"id": "C15", "title": "A rejected line leaves no partial effect", "statement": "If an input does not parse, the session's fixity table is unchanged even when valid declarations precede the error; if it parses but is ambiguous its declarations do take effect and nothing is printed on standard output.", "quantifier": "every session state and every input text", "why_tests_cant": "All prefixes/positions of errors.", "anchors": ["src/repl/session.rs:ReplSession::feed_input", "src/repl/session.rs:ReplSession::read_buffer"]}
{"id": "C16", "title": "Presets load the documented fixities", "statement": "After :load --math or :load --prelude every operator of the preset has its documented fixity and every other operator keeps its own, whatever was loaded before; the count reported is the number of operators in the preset.", "quantifier": "every table before loading", "why_tests_cant": "Any prior table and any overlap with the preset.", "anchors": ["src/syntax/fixity.rs:Resolver::load_arithmetic", "src/syntax/fixity.rs:Resolver::load_hs_prelude", "src/repl/session.rs:HELP_MSG"]}
{"id": "C17", "title": "Iterating an AST yields the declarations in source order", "statement": "Iterating over an AST built by pushing declarations yields exactly those declarations, in push order from the front and reverse order from the back, under any mix of front and back steps, with the remaining count always right.", "quantifier": "every declaration sequence and every interleaving of next and next_back", "why_tests_cant": "All interleavings of two cursors over three parallel vectors.", "anchors": ["src/syntax/ast.rs:Ast::push", "src/syntax/ast.rs:iter_decls!", "src/syntax/ast.rs:AstIter"]}
{"id": "C18", "title": "Printed grouping depends only on the tree", "statement": "The text printed for an expression does not depend on the session's fixity table, only on the expression.", "quantifier": "every expression and every pair of tables", "why_tests_cant": "Pairs of tables.", "anchors": ["src/syntax/fixity.rs:Printer::write_expr", "src/syntax/fixity.rs:Printer::write_grouped"]}
{"id": "C19", "title": "Printed expressions read back as the same expression under any fixities", "statement": "Stripping colours from what is printed for a resolved expression and feeding it back under any fixity table gives the same expression up to redundant parentheses.", "quantifier": "every expression of the printable fragment and every fixity table", "why_tests_cant": "Round-trip over all trees and tables.", "anchors": ["src/syntax/fixity.rs:Printer::write_expr", "src/syntax/parser.rs:Parser::expression", "src/syntax/lexer.rs:Lexer::lex"]}
{"id": "C20", "title": "Printing a parsed expression never panics", "statement": "The only expression form the printer cannot print (negation) is never produced by parsing or resolution, so printing the result of any input succeeds.", "quantifier": "every input text", "why_tests_cant": "All parses.", "anchors": ["src/syntax/fixity.rs:Printer::write_expr", "src/syntax/parser.rs:Parser::atom"]}
{"id": "C21", "title": "Printed text is balanced and colour never leaks", "statement": "In the text printed for an expression, brackets written by the printer are balanced and properly nested, and every colour sequence opened is reset before the text ends, provided the names in the expression contain no escape character; this is so for everything parsed from a source without one.", "quantifier": "every printable expression without escape characters in names; every source without escape characters", "why_tests_cant": "All nestings.", "anchors": ["src/syntax/fixity.rs:Printer::write_expr", "src/syntax/fixity.rs:Printer::write_pat", "src/text/style.rs:Config::write_start", "src/text/style.rs:Config::write_end"]}
{"id": "C22", "title": "The fixity listing is complete and faithful", "statement": "The :fixities listing mentions every operator of the table exactly once, on the line that carries exactly its associativity and precedence, one line per distinct fixity; reading the listing back gives the same table.", "quantifier": "every fixity table", "why_tests_cant": "All tables, any number of fixity classes.", "anchors": ["src/syntax/fixity.rs:Printer::write_fixities", "src/syntax/fixity.rs:FixityEntries::write_fixities", "src/syntax/fixity.rs:Fixity::write_alignable"]}
{"id": "C23", "title": "Lexing always terminates and makes progress", "statement": "Asking for the next token terminates on every source, and every token other than end-of-input and the unknown-character error consumes at least one character; at an unknown character the lexer yields the same error forever.", "quantifier": "every source text and every lexer position", "why_tests_cant": "Termination for all inputs including nested comments.", "anchors": ["src/syntax/lexer.rs:Lexer::lex", "src/syntax/lexer.rs:Lexer::block_comment", "src/syntax/lexer.rs:Lexer::bump_char"]}
{"id": "C24", "title": "Reported positions are the true byte offset, line and column", "statement": "At every token boundary the reported byte position is the number of bytes consumed, the line is one plus the number of newlines consumed and the column one plus the characters since the last newline, for sources where no newline is followed by a carriage return; consequently slicing the source at token boundaries never panics. With a newline followed by a carriage return the position is wrong and the lexer can panic.", "quantifier": "every source text and every reachable lexer state", "why_tests_cant": "Multi-byte characters and all token kinds in any order.", "anchors": ["src/syntax/lexer.rs:Lexer::bump_char", "src/syntax/lexer.rs:Lexer::curr_loc", "src/syntax/lexer.rs:Lexer::eat_while", "src/syntax/token.rs:Index<LocSpan> for str"]}
{"id": "C25", "title": "Name and operator tokens carry exactly the text they span", "statement": "The name carried by an identifier token is the source text between the token's start and end positions, likewise for operator tokens; spans of successive tokens never overlap and go forward.", "quantifier": "every source text and every token in it", "why_tests_cant": "All sources.", "anchors": ["src/syntax/lexer.rs:Lexer::ident", "src/syntax/lexer.rs:Lexer::operator", "src/syntax/lexer.rs:Lexer::bump_char"]}
{"id": "C26", "title": "Longest match", "statement": "An identifier token extends as far as identifier characters followed by sub/superscripts go, an operator token as far as operator characters followed by sub/superscripts go, a number as far as digits go: the character after the token could not have continued it.", "quantifier": "every source text and every such token", "why_tests_cant": "All sources.", "anchors": ["src/syntax/lexer.rs:Lexer::eat_with_trailing", "src/syntax/lexer.rs:Lexer::eat_while", "src/text/grapheme.rs:is_infix_char"]}
{"id": "C27", "title": "Reserved words and symbols are never names", "statement": "No identifier token is one of _, infixl, infixr, infix, let, in, and no ordinary operator token is one of ~~, \\, -, ->, @.", "quantifier": "every source text", "why_tests_cant": "All sources.", "anchors": ["src/syntax/lexer.rs:Lexer::ident", "src/syntax/lexer.rs:Lexer::operator"]}
{"id": "C28", "title": "Integer literals have their decimal value", "statement": "A digit sequence lexes to its decimal value (leading zeros allowed) if that value is below 2^64 and to an overflow error otherwise.", "quantifier": "every digit sequence and whatever follows it", "why_tests_cant": "Boundary and unbounded lengths.", "anchors": ["src/syntax/lexer.rs:Lexer::number", "src/syntax/token.rs:From<std::num::ParseIntError> for IntError"]}
{"id": "C29", "title": "String literals decode their escapes", "statement": "A terminated string literal yields its characters with recognised escapes replaced, an escaped newline dropping following whitespace, other escaped characters standing for themselves; an unterminated one is an error and never a string.", "quantifier": "every source text", "why_tests_cant": "All escape combinations.", "anchors": ["src/syntax/lexer.rs:Lexer::string", "src/text/grapheme.rs:get_escaped", "src/text/grapheme.rs:is_escapable"]}
{"id": "C30", "title": "Leading white space does not change the tokens", "statement": "Putting white space before a source changes none of its tokens, only their positions.", "quantifier": "every source text and every white-space prefix", "why_tests_cant": "All sources.", "anchors": ["src/syntax/lexer.rs:Lexer::eat_whitespace", "src/syntax/lexer.rs:Lexer::new"]}
{"id": "C31", "title": "Comments are skipped", "statement": "A line comment is skipped up to the newline; a well-nested block comment is skipped up to its closing mark and lexing resumes with the very next character; an unterminated block comment is an error.", "quantifier": "every comment body, nesting depth and following text", "why_tests_cant": "All nestings.", "anchors": ["src/syntax/lexer.rs:Lexer::line_comment", "src/syntax/lexer.rs:Lexer::block_comment", "src/syntax/lexer.rs:Lexer::operator"]}
{"id": "C32", "title": "Character literals denote the right character", "statement": "A one-character literal denotes that character, an escape its control character, a unicode escape of up to six hex digits the scalar value, non-scalar values being errors; the token ends at the closing quote.", "quantifier": "every character and every hex string", "why_tests_cant": "Whole code-point range.", "anchors": ["src/syntax/lexer.rs:Lexer::char"]}
{"id": "C33", "title": "Both spellings of a promoted operator are the same operator", "statement": "For every identifier of two or more characters whose second character is not an apostrophe (that spelling is a character literal), surrounding it with backquotes or prefixing it with an apostrophe lexes to the same operator, carrying the identifier as name.", "quantifier": "every identifier and following text", "why_tests_cant": "All identifiers and contexts.", "anchors": ["src/syntax/lexer.rs:Lexer::promoted_operator", "src/syntax/lexer.rs:Lexer::char", "README.md"]}
{"id": "C34", "title": "Parsing terminates, and panics only for known reasons", "statement": "Parsing any source text terminates; it panics only if the source contains a newline followed by a carriage return, an identifier starting with an uppercase letter or an underscore, or a precedence above 9 in a declaration.", "quantifier": "every source text", "why_tests_cant": "Termination and panic freedom for all inputs.", "anchors": ["src/syntax/parser.rs:parse", "src/syntax/parser.rs:Parser::parse_into", "src/syntax/parser.rs:Parser::fixity", "src/syntax/lexer.rs:identifier"]}
{"id": "C35", "title": "A successful parse accounts for every token", "statement": "If parsing succeeds, the whole source was read without lexical error and its token sequence is exactly the one spelled by the AST according to the grammar: nothing is skipped or invented.", "quantifier": "every source text that parses", "why_tests_cant": "All sources and all grammar derivations.", "anchors": ["src/syntax/parser.rs:parse", "src/syntax/parser.rs:Parser::decl", "src/syntax/parser.rs:Parser::expression", "src/syntax/parser.rs:Parser::pattern"]}
{"id": "C36", "title": "Parsed trees are in flat form", "statement": "Parsing produces infix chains in which no operand is a bare infix expression, application arguments are atomic, no negation, no precedence above 9, no empty operator list.", "quantifier": "every source text that parses", "why_tests_cant": "All sources.", "anchors": ["src/syntax/parser.rs:Parser::binary", "src/syntax/parser.rs:Parser::application", "src/syntax/parser.rs:Parser::infix_decl"]}
{"id": "C37", "title": "Fixity declarations parse to what they say", "statement": "infixl/infixr/infix, an optional digit 0-9 (9 if absent) and a non-empty comma-separated operator list parse to that associativity, precedence and list, in order; without a digit the list must not start with - or @, which is refused.", "quantifier": "every associativity, precedence and operator list", "why_tests_cant": "All lists.", "anchors": ["src/syntax/parser.rs:Parser::infix_decl", "src/syntax/parser.rs:Parser::fixity", "README.md"]}
{"id": "C38", "title": "Parse errors point into the source", "statement": "The location of every parse error is a position inside the source (or its end) and its line and column agree with its byte position.", "quantifier": "every source that fails to parse", "why_tests_cant": "All failing sources.", "anchors": ["src/syntax/parser.rs:Error::loc", "src/syntax/parser.rs:Parser::eat"]}
{"id": "C39", "title": "Application layout rule", "statement": "On a single line, consecutive atoms form one application, associated to the left, in order; over several lines an atom continues the application exactly if its first token ends to the right of where the first token of the application ended.", "quantifier": "every sequence of atoms on one line; every two atoms laid out freely", "why_tests_cant": "All sequences.", "anchors": ["src/syntax/parser.rs:Parser::application"]}
{"id": "C40", "title": "Single-line sources parse by the grammar", "statement": "Every token sequence generated by the documented expression grammar, written on one line, parses to the tree of its derivation.", "quantifier": "every derivation in the supported grammar fragment", "why_tests_cant": "Completeness over all derivations.", "anchors": ["src/syntax/parser.rs:Parser::expression", "README.md"]}
{"id": "C41", "title": "Interning is a bijection that never changes", "statement": "Interning returns equal symbols exactly for equal strings, a symbol's text is the interned string, and no later interning changes it.", "quantifier": "every history of intern and lookup calls (below 2^32 distinct strings)", "why_tests_cant": "All histories.", "anchors": ["src/text/lexicon.rs:Lexicon::intern", "src/text/lexicon.rs:Lexicon::lookup", "src/text/symbol.rs:Symbol"]}
{"id": "C42", "title": "Predefined symbols have their fixed numbers", "statement": "In every history each predefined name interns to its fixed symbol, and each named constant has its declared text.", "quantifier": "every history of intern calls", "why_tests_cant": "All histories.", "anchors": ["src/text/lexicon.rs:symbols!", "src/text/lexicon.rs:PREDEFINED"]}
{"id": "C43", "title": "Interned text is never moved", "statement": "The buffer holding interned text is never grown in place, so every slice handed out stays valid and unchanged for the rest of the run.", "quantifier": "every history of intern calls and every string length", "why_tests_cant": "Memory safety over all histories.", "anchors": ["src/text/lexicon.rs:Lexicon::alloc"]}
{"id": "C44", "title": "Styled text is wrapped in well-formed escape sequences", "statement": "Displaying styled text writes ESC[, the semicolon-separated codes of exactly the attributes set (0 if none) and m, then the text, then ESC[0m; setting then unsetting or toggling twice an attribute restores the configuration.", "quantifier": "every configuration and every text", "why_tests_cant": "All attribute combinations and setter histories.", "anchors": ["src/text/style.rs:Config::write_start", "src/text/style.rs:Config::bytes", "src/text/style.rs:Style"]}
{"id": "C45", "title": "Background setters emit background codes", "statement": "Setting an ANSI background colour emits the background code of that colour, distinct from the foreground code.", "quantifier": "every ANSI colour", "why_tests_cant": "Stated for the whole palette.", "anchors": ["src/text/color.rs:AnsiColor::as_bg", "src/text/color.rs:Color::bg_bytes", "src/text/color.rs:Bg"]}
{"id": "C46", "title": "RGB hex conversion", "statement": "A 24-bit value converts to its three bytes and back, larger values are rejected by the checked conversion; increments and decrements saturate and change only the named channels.", "quantifier": "every 32-bit value and every colour", "why_tests_cant": "Whole 32-bit range.", "anchors": ["src/text/color.rs:Rgb::from_hex_checked", "src/text/color.rs:Rgb::from_hex_be_bytes", "src/text/color.rs:Rgb::incr"]}
{"id": "C47", "title": "Rainbow colours cycle", "statement": "The colour of nesting depth n is the n mod 7-th rainbow colour, so neighbouring depths always differ in colour.", "quantifier": "every depth", "why_tests_cant": "All depths.", "anchors": ["src/text/color.rs:Rainbow::color", "src/syntax/fixity.rs:Printer::write_grouped"]}
{"id": "C48", "title": "Command prefix test", "statement": "is_prefix(p, s) holds exactly when the first white-space separated word of s is p, so it is false for empty p or p containing white space.", "quantifier": "every pair of strings", "why_tests_cant": "All strings.", "anchors": ["src/text/grapheme.rs:is_prefix", "src/repl/session.rs:read_command"]}
{"id": "C49", "title": "Stripping a command prefix", "statement": "strip_prefix(p, s) returns the rest of s after its first word p, trimmed, when p is the first word, else s unchanged.", "quantifier": "every pair of strings", "why_tests_cant": "All strings incl. leading white space and multi-byte characters.", "anchors": ["src/text/grapheme.rs:strip_prefix"]}
{"id": "C50", "title": "numlen counts digits", "statement": "numlen(n) is the length of the decimal representation of n, and numlen_base::<B>(n) the number of base-B digits.", "quantifier": "every integer and base >= 2", "why_tests_cant": "All integers.", "anchors": ["src/text/grapheme.rs:numlen", "src/text/grapheme.rs:numlen_base"]}
{"id": "C51", "title": "Line buffering in the REPL", "statement": "Every line has exactly one reading. A blank line changes nothing; a line ending in a backslash, or opening braces without closing them, is buffered and nothing is evaluated; a command line while text is buffered is refused without effect; otherwise the buffered text and the current line are evaluated together, once, and the buffer is emptied. Histories that amount to the same evaluations and commands have the same effects.", "quantifier": "every session state and every input line, every history", "why_tests_cant": "All line sequences.", "anchors": ["src/repl/session.rs:run_repl", "src/repl/session.rs:ReplSession::read_buffer"]}
{"id": "C52", "title": "Commands change only what they say", "statement": ":help, :info, :fixities, :cd, :shell and unknown commands leave the fixity table unchanged; :clear --fixities, :clear --session and :reset empty it and report how many fixities were removed; :history commands do not touch it; besides writing, a command changes the directory, runs a program, reads files, clears or writes the history exactly as its arguments say, and no other line does any of this.", "quantifier": "every session state and every command line", "why_tests_cant": "All states and command strings.", "anchors": ["src/repl/session.rs:read_command", "src/syntax/fixity.rs:Resolver::clear"]}
{"id": "C53", "title": "The session ends only when asked", "statement": "The loop ends exactly on end-of-input, interrupt, or a :q/:quit command (with or without --no-history) while nothing is buffered; on leaving, history is saved exactly for :q and :quit without --no-history; no text stops the program otherwise.", "quantifier": "every sequence of lines", "why_tests_cant": "All line sequences.", "anchors": ["src/repl/session.rs:run_repl", "src/repl/session.rs:read_command"]}
{"id": "C54", "title": "Loading a Haskell file reads its fixity lines", "statement": "For a .hs file exactly the lines beginning (after trimming) with infix are used, in order, each as its own declaration.", "quantifier": "every file content", "why_tests_cant": "All files.", "anchors": ["src/repl/session.rs:ReplSession::read_file"]}
{"id": "C55", "title": "End to end: what is printed is the legal grouping", "statement": "In any session, entering a line whose first item is an expression prints that expression grouped according to the fixities declared so far (and on that line), or an ambiguity error.", "quantifier": "every session history and every line", "why_tests_cant": "Composition of lexing, parsing, resolution and printing over all histories.", "anchors": ["src/repl/session.rs:ReplSession::read_buffer", "src/repl/session.rs:ReplSession::feed_input", "src/syntax/fixity.rs:Resolver::print_expr"]}
{"id": "C56", "title": "The lexer implements a lexical grammar", "statement": "On every source without a newline directly followed by a carriage return the lexer reaches end of input without error exactly when the source belongs to the lexical grammar (white space, comments, words, numbers, strings, characters, operators, punctuation), and yields exactly its tokens; the grammar is unambiguous; every other token yielded is a described mistake at its true position.", "quantifier": "every source text and token sequence", "why_tests_cant": "Equivalence of a program and a grammar over all texts.", "anchors": ["src/syntax/lexer.rs:Lexer::lex", "src/syntax/lexer.rs:Lexer::next"]}
{"id": "C57", "title": "A minus sign in a pattern is kept", "statement": "A pattern written with a leading minus sign parses to the negated pattern wherever patterns may be negated.", "quantifier": "every pattern and position", "why_tests_cant": "All patterns and positions.", "anchors": ["src/syntax/parser.rs:Parser::inner_pat", "src/syntax/parser.rs:Parser::paren_pat"]}
{"id": "C58", "title": "The empty list pattern is written []", "statement": "In a lambda, the pattern [] parses to the empty list pattern.", "quantifier": "every lambda with that pattern", "why_tests_cant": "All bodies.", "anchors": ["src/syntax/parser.rs:Parser::brack_pat"]}
{"id": "C59", "title": "The prompt shows whether text is pending", "statement": "The first prompt is shown at the start; each event changes the prompt in one determined way; the continuation prompt is shown exactly while text typed earlier waits to be evaluated.", "quantifier": "every history of lines and events", "why_tests_cant": "All histories, all ways of splitting a text over lines.", "anchors": ["src/repl/session.rs:ReplSession::prompt_str", "src/repl/session.rs:run_repl"]}
{"id": "C60", "title": "A rejected text is blamed on one of its tokens", "statement": "The message for a text that is not a sequence of declarations and expressions names a token that really stands in the text, or a mistake that is really there, or the end of the text, in the spelling of the text, with the true position of its gap or its end, and, when something else was expected, says what.", "quantifier": "every session state and every rejected text", "why_tests_cant": "All wrong texts; messages are built from lexer state after the fact.", "anchors": ["src/syntax/parser.rs:Error", "src/repl/session.rs:Error", "src/repl/session.rs:ReplSession::read_buffer"]}
{"id": "C61", "title": "Every command line gets its response", "statement": "For each command line the actions on the outside and the text written are those of a fixed table: help, quitting, changing directory, clearing, history, reset, listing, information on operators, loading, running a program, or the message that the command is unknown; no command line stops the program otherwise, unless a loaded text does.", "quantifier": "every reachable session, every command line, every answer of the system", "why_tests_cant": "All command lines and all states; numbers and lists depend on the whole history.", "anchors": ["src/repl/session.rs:ReplSession::read_command"]}
{"id": "C62", "title": "Loading files reports on each in turn", "statement": "The files named in a load command are read in order; each unreadable one is reported and skipped; each text that parses is reported with the number and the list of its declarations, or with its genuine clashes, and its declarations are in force for the next ones; each other text is reported with the position and the blamed token and changes nothing.", "quantifier": "every reachable session, every list of paths, every file system", "why_tests_cant": "All file contents and orders of files.", "anchors": ["src/repl/session.rs:ReplSession::read_file", "src/repl/session.rs:ReplSession::read_command"]}
{"id": "C63", "title": "The first token that cannot be there is the one blamed", "statement": "When a text is rejected because of a token, the text before that token can be completed to an accepted text, and every text that begins the same up to and including that token is rejected with the same error; when the end of the text is blamed, the text can be completed (provided it does not end in a character literal written as a unicode escape, which takes the next character with it).", "quantifier": "every rejected text without newline-return whose blamed token is not itself a lexical mistake, and every continuation", "why_tests_cant": "All texts, all prefixes and all continuations.", "anchors": ["src/syntax/parser.rs:Parser", "src/syntax/parser.rs:Parser::eat", "src/syntax/parser.rs:Parser::expression"]}
{"id": "C64", "title": "Starting the program touches only its own files", "statement": "Starting leaves everything that exists on disk unchanged and creates at most the directory .pemdas below the home directory and one empty history file; the place is the home directory unless none is known or a file is in the way; a second start changes nothing; the loop is entered whatever happens to the files.", "quantifier": "every state of the disk, every refusal by the system, every home directory", "why_tests_cant": "All disk states and all failures of the system.", "anchors": ["src/repl/setup.rs:try_cfg_dir", "src/repl/setup.rs:try_history_path", "src/repl/session.rs:ReplSession::new"]}
{"id": "C65", "title": "Removing the files of the program removes nothing else", "statement": "Removal deletes only the history file and the directory itself once it is empty, and it undoes a start that created them. It says that the history file is deleted exactly if it is, and that the directory could not be deleted exactly if it is still there and readable.", "quantifier": "every state of the disk", "why_tests_cant": "All disk states.", "anchors": ["src/repl/setup.rs:uninstall_artifacts"]}
{"id": "C66", "title": "Composed styled text looks as its parts ask", "statement": "When styled items are appended, prepended, chained, shared over an iterator, highlighted or nested, the terminal shows exactly their texts in order, every character with the attributes of all the styles around it, and ends with no attributes in force.", "quantifier": "every composition of texts and styles, every terminal state for the texts", "why_tests_cant": "All nestings; only a terminal shows the attributes.", "anchors": ["src/text/style.rs:Style::append", "src/text/style.rs:Style::then_with", "src/text/style.rs:Highlighted", "src/text/style.rs:wrapped_blue"]}
{"id": "C67", "title": "Table interface of the resolver", "statement": "remove_last removes exactly the entries asked for, as far as they are consumed, newest first, and leaves the others; add_fixity returns the replaced fixity and changes no other operator; loading the declarations of a program before resolving it changes nothing, so Resolver::resolved is resolving with an empty table.", "quantifier": "every table, every count, every program", "why_tests_cant": "All tables; laziness and order of the iterator.", "anchors": ["src/syntax/fixity.rs:Fixities::remove_last", "src/syntax/fixity.rs:Resolver::add_fixity", "src/syntax/fixity.rs:Resolver::resolved"]}
{"id": "C68", "title": "Names, operators and symbols compare consistently", "statement": "The width of a name is the number of bytes it takes when printed; an operator equals exactly the well-cased name it is converted to; operators are equal iff their symbols are; a symbol equals a character iff it is that one character.", "quantifier": "every name, operator, symbol and character, every Unicode table", "why_tests_cant": "All names including non-ASCII ones.", "anchors": ["src/syntax/ast.rs:Ident::width", "src/syntax/ast.rs:Infix::as_ident", "src/text/symbol.rs:PartialEq<char>"]}
{"id": "C69", "title": "Fractional numbers convert to their value", "statement": "The conversion of a fractional literal to a floating-point number yields integer part, fraction and power of ten as written, and does not panic.", "quantifier": "every fractional literal value", "why_tests_cant": "All exponents and fractions; no such literal is ever lexed, so no test reaches it.", "anchors": ["src/syntax/token.rs:Float::to_f64", "src/syntax/token.rs:Float::string"]}
{"id": "C70", "title": "Visitors reach every subexpression once, in reading order", "statement": "A visitor that acts on an expression and then walks on acts exactly once on each subexpression, outer before inner and left before right.", "quantifier": "every expression, every visitor of this form", "why_tests_cant": "All shapes of expressions.", "anchors": ["src/syntax/ast.rs:walk_expr", "src/syntax/ast.rs:Visit"]}
{"id": "C71", "title": "Spans select the text between two places", "statement": "Indexing a text by the span between two places in it yields the text between them, the span counts its line breaks and is empty iff the text is; indexing panics exactly for positions that are not character boundaries in order.", "quantifier": "every text, every span", "why_tests_cant": "All texts, including multi-byte characters.", "anchors": ["src/syntax/token.rs:LocSpan::lines", "src/syntax/token.rs:LocSpan::is_empty", "src/syntax/token.rs:Index<LocSpan> for str"]}
{"id": "C72", "title": "In every text exactly one thing comes next", "statement": "At every place of a text, after white space and comments, exactly one of the following comes next, with exactly one extent: the end, a token (longest match), a lexical mistake (unclosed or empty character literal, ill-formed escape, unclosed string, unknown character, ...), or a name in neither letter case; next reports that thing with the place where it ends, and the lexer then stands right behind it; it panics exactly at the odd name.", "quantifier": "every text without newline-return, every place, every Unicode table", "why_tests_cant": "All texts and all places, including malformed literals and non-ASCII characters.", "anchors": ["src/syntax/lexer.rs:Lexer::next", "src/syntax/lexer.rs:Lexer::peek", "src/syntax/lexer.rs:Lexer::char", "src/syntax/lexer.rs:Lexer::string", "src/syntax/lexer.rs:Lexer::block_comment"]}
{"id": "C73", "title": "The outcome of parsing is the verdict of reading from left to right", "statement": "Read from left to right, a text is a program; or there is a first place at which what comes next (a token, the end, a lexical mistake, a name in neither case, a precedence above 9) cannot continue any program that begins this way. parse accepts with exactly the tree of that program in the first case; in the second it reports that very token, mistake or end as found, or panics, exactly if the first obstacle is an odd name or a precedence above 9. Nothing behind the first obstacle matters.", "quantifier": "every text without newline-return (for blaming the end: not ending in a unicode escape, which would swallow any continuation)", "why_tests_cant": "All texts and, for each prefix, all continuations.", "anchors": ["src/syntax/parser.rs:parse", "src/syntax/parser.rs:Parser::eat", "src/syntax/parser.rs:Parser::fixity", "src/syntax/lexer.rs:Lexer::next"]}
{"id": "C74", "title": "Character classes are those documented", "statement": "White space is the Unicode White_Space list; letters, digits and hexadecimal digits in ASCII are the usual ones and beyond ASCII those of the Unicode tables; a name starts with an underscore or a cased letter and goes on with letters, numbers, underscores and primes; no character both starts a name and is white, a digit, an operator character or punctuation; digits of any radix have their place in 0-9a-z as value; escapes and radix letters are the listed ones.", "quantifier": "every character, every radix, every Unicode table", "why_tests_cant": "All code points and all radixes.", "anchors": ["src/text/grapheme.rs:is_num_char", "src/text/grapheme.rs:is_ident_start", "src/text/grapheme.rs:is_ident_char", "src/text/grapheme.rs:is_infix_char", "src/text/grapheme.rs:get_escaped", "src/text/grapheme.rs:is_escapable", "src/text/grapheme.rs:IntPrefix::from_char"]}
{"id": "C75", "title": "Positions count the bytes of UTF-8", "statement": "The length of a text is the number of bytes of its UTF-8 encoding; slicing by byte positions returns the text whose encoding is the bytes between them, and panics exactly for positions that are out of order or not between characters; the position the lexer reports is the number of bytes of the text read so far.", "quantifier": "every text, every pair of positions, every state of the lexer", "why_tests_cant": "All texts with characters of one to four bytes.", "anchors": ["src/syntax/lexer.rs:Lexer::bump_char", "src/syntax/token.rs:Index<LocSpan> for str", "src/syntax/lexer.rs:Lexer::curr_loc"]}
{"id": "C76", "title": "Only the tokens and the order of their columns matter", "statement": "Two texts with the same tokens, whose ends stand in the same order from left to right, are both rejected or are the same program; so on one line spacing and comments do not matter, and moving all lines to the right together changes nothing as long as no token spans lines.", "quantifier": "every pair of texts without newline-return, every amount of indentation", "why_tests_cant": "All texts and all layouts.", "anchors": ["src/syntax/parser.rs:Parser::application", "src/syntax/parser.rs:Parser::expression", "src/syntax/parser.rs:parse"]}
{"id": "C77", "title": "Closed programs can be concatenated", "statement": "A program that ends with a semicolon and a newline can be followed by any text: together they are a program iff that text is one, and the declarations and expressions are those of both, in order.", "quantifier": "every accepted text ending this way, every further text", "why_tests_cant": "All pairs of texts.", "anchors": ["src/syntax/parser.rs:parse", "src/syntax/parser.rs:Parser::decl", "src/syntax/lexer.rs:Lexer::next"]}
{"id": "C78", "title": "What is typed, printed and typed again is the same", "statement": "If a program is parsed and resolved, each of its expressions that is plain, as decided on the expression as typed, is printed so that the printed text is read as one expression, equal to the resolved one up to grouping parentheses and local declarations, and no table of operators changes it any more. Whatever programs have been read and whatever built-in tables loaded or cleared, if the names declared as operators are plain, the listing of the operators is a program that declares exactly the same table.", "quantifier": "every text without newline-return, every resolver, every sequence of programs, presets and clearings", "why_tests_cant": "All programs and all histories.", "anchors": ["src/syntax/fixity.rs:Resolver::resolve_ast", "src/syntax/fixity.rs:Printer::write_expr", "src/syntax/fixity.rs:Printer::write_fixities", "src/syntax/parser.rs:parse", "src/syntax/lexer.rs:Lexer::next"]}
{"id": "C79", "title": "A symbol is one text, in every thread and for ever", "statement": "Threads do not influence each other's symbols. In each thread a symbol means the text with its number in that thread, keeps this meaning while the thread lives, and the predefined symbols mean the same everywhere; a symbol taken to another thread means the same there exactly if that thread has given the same number to the same text; a text handed out by lookup can be read until its thread ends.", "quantifier": "every interleaving of calls and ends of threads, every allocator", "why_tests_cant": "All schedules of any number of threads.", "anchors": ["src/text/lexicon.rs:Interner::lookup", "src/text/lexicon.rs:Interner::intern", "src/text/lexicon.rs:lookup", "src/text/lexicon.rs:intern", "src/text/symbol.rs:Symbol::as_str"]}
{"id": "C80", "title": "Whatever is a text can be interned", "statement": "intern, intern_iter and intern_n take anything that is AsRef<str>: for texts they answer the symbols that interning one after the other gives, in order; every argument that itself uses the interner while being read makes the call panic, after the texts before it have been interned.", "quantifier": "every history of calls, every argument, iterator and array", "why_tests_cant": "All sequences of arguments and all earlier histories.", "anchors": ["src/text/lexicon.rs:Interner::intern", "src/text/lexicon.rs:Interner::intern_iter", "src/text/lexicon.rs:Interner::intern_n", "src/text/symbol.rs:AsRef<str> for Symbol", "src/text/symbol.rs:intern_n"]}
{"id": "C81", "title": "Reading into a program adds exactly the declarations before the first obstacle", "statement": "parse_into adds to the program, after what is there, the declarations with which the text begins, up to its end or to the first place where no declaration begins; nothing that was there is lost or moved, on any text. Its outcome is that of parse, at the same place. After a success reading on adds nothing. A closed program and a further text can be read in one go or in two.", "quantifier": "every program to add to, every text (for which declarations: every text without newline-return and lexical mistakes)", "why_tests_cant": "All programs and all texts, including rejected ones.", "anchors": ["src/syntax/parser.rs:Parser::parse_into", "src/syntax/parser.rs:Parser::parse", "src/syntax/parser.rs:Parser::decl", "src/syntax/ast.rs:Ast::push"]}
{"id": "C82", "title": "Items between separators", "statement": "sep_by1 succeeds exactly if the text begins with an item, and then any number of separators each followed by an item; it returns the items in order and stops only where no separator follows. This holds for every parser that reads exactly the items of a grammar, such as those of declarations and operators, and every separator that is a punctuation token.", "quantifier": "every item parser with a grammar, every separator, every text without newline-return and lexical mistakes", "why_tests_cant": "All item parsers, separators and texts.", "anchors": ["src/syntax/parser.rs:Parser::sep_by1", "src/syntax/parser.rs:Parser::bump_on"]}
{"id": "C83", "title": "README: declarations", "statement": "Every text that the README's syntax reference calls a fixity declaration is read as the declaration it describes: the given associativity, the given precedence or 9, and exactly the given operators in order.", "quantifier": "every text of the README's rule fixity, whatever the operators and white space", "why_tests_cant": "All declarations of the documented syntax.", "anchors": ["src/syntax/parser.rs:Parser::infix_decl", "src/syntax/parser.rs:Parser::parse", "src/syntax/lexer.rs:Lexer::next"]}
{"id": "C84", "title": "README: expressions", "statement": "Every text on one line whose tokens the README's grammar derives as an expression is read as one expression.", "quantifier": "every sentence of the README's rule expr", "why_tests_cant": "All sentences of the documented grammar.", "anchors": ["src/syntax/parser.rs:Parser::expr", "src/syntax/parser.rs:Parser::parse"]}
{"id": "C85", "title": "README: names and line comments", "statement": "Every identifier of the README is read as a variable; a name of more than one character after an apostrophe is the same operator as the name between backquotes; two tildes are a comment up to the end of the line unless an operator character or a script follows, and then begin an operator.", "quantifier": "every identifier of the README, every text after the tildes, every name and text after it", "why_tests_cant": "All identifiers and all following texts.", "anchors": ["src/syntax/lexer.rs:Lexer::next", "src/syntax/lexer.rs:Lexer::ident", "src/syntax/lexer.rs:Lexer::operator", "src/syntax/lexer.rs:Lexer::promoted_operator", "src/syntax/parser.rs:parse"]}
{"id": "C86", "title": "README: unicode escapes", "statement": "A character written as a unicode escape, with an upper or lower case u, with or without plus sign and leading zeros, stands for that character in character and string literals.", "quantifier": "every Unicode scalar value, every spelling with up to six digits", "why_tests_cant": "All characters and spellings.", "anchors": ["src/syntax/lexer.rs:Lexer::char", "src/syntax/lexer.rs:Lexer::string", "src/syntax/parser.rs:parse"]}
{"id": "C87", "title": "Texts made of bytes and characters", "statement": "bytestring accepts exactly the sequences of bytes that are the UTF-8 encoding of a text, and returns them. charstring and combine_chars do not panic for any characters, and return a text that can be read and has exactly these characters.", "quantifier": "every sequence of bytes, every sequence of characters", "why_tests_cant": "All byte sequences, including overlong forms and surrogates; tests that read freed memory may see the right bytes by luck.", "anchors": ["src/text/grapheme.rs:bytestring", "src/text/grapheme.rs:charstring", "src/text/grapheme.rs:combine_chars"]}
{"id": "C88", "title": "The text of a character and of an identifier", "statement": "Char::as_str returns a readable text with just that character, or the empty text at the end of input; Ident::as_str returns the text that Display writes for the identifier.", "quantifier": "every character, every identifier", "why_tests_cant": "All characters and identifiers.", "anchors": ["src/syntax/token.rs:Char::as_str", "src/syntax/ast.rs:Ident::as_str"]}
{"id": "C89", "title": "The table of fixities is a hash table", "statement": "The insertion-ordered hash table of fixities answers every sequence of requests (contains, get, insert, remove, pop, iterate) as a list of pairs with one entry per operator symbol in order of first insertion would, and never panics, whatever the hasher and however the table probes and moves its slots; this needs that equal operators have equal hashes, and is equivalent to it.", "quantifier": "every sequence of requests, every hash of symbols, every probing order", "why_tests_cant": "All hash collisions, probe orders and histories of growth.", "anchors": ["src/syntax/fixity.rs:Fixities::insert", "src/syntax/fixity.rs:Fixities::get_defined", "src/syntax/fixity.rs:Fixities::remove", "src/syntax/ast.rs:Hash for Infix", "src/syntax/ast.rs:PartialEq for Infix"]}
{"id": "C90", "title": "Looking up by a borrowed key", "statement": "An operator can be looked up by its symbol alone, and a symbol by its text, in a hash table with such keys: the result is that of looking up the key itself.", "quantifier": "every table of operators the program can make; every table keyed by symbols", "why_tests_cant": "All tables and keys.", "anchors": ["src/syntax/ast.rs:Borrow<Symbol> for Infix", "src/text/symbol.rs:Borrow<str> for Symbol"]}
{"id": "C91", "title": "The interner is a hash table", "statement": "The interner with a hash table from texts to symbols answers every sequence of requests (intern, look up) as one that searches all texts in order would, and never reads a key whose memory is gone, whatever the hasher, the allocator and the way the table probes and moves its slots; interning a text twice gives the same symbol and changes nothing, and its text is the one interned exactly as long as there are no more than 2^32 texts.", "quantifier": "every sequence of requests, every hash, probing order and allocator", "why_tests_cant": "All collisions, reallocations and histories of growth.", "anchors": ["src/text/lexicon.rs:Lexicon::intern", "src/text/lexicon.rs:Lexicon::lookup", "src/text/lexicon.rs:Lexicon::alloc"]}
{"id": "C92", "title": "Comparing the next character", "statement": "The next character of the input (or its end) is equal to a given character exactly if it is that character; two are equal exactly if they are the same; the length is the number of bytes.", "quantifier": "every character and the end of input", "why_tests_cant": "All characters.", "anchors": ["src/syntax/token.rs:PartialEq<char> for Char", "src/syntax/token.rs:Deref for Char", "src/syntax/token.rs:Char::len_utf8"]}
{"id": "C93", "title": "Debug texts can be told apart", "statement": "The text shown for a character, a string or a literal determines it: two are shown alike only if they are equal, and with any text after a character or string one sees where it ends.", "quantifier": "all texts, characters and literals, all Unicode tables", "why_tests_cant": "All pairs of texts.", "anchors": ["src/syntax/token.rs:Display for Literal", "src/syntax/token.rs:Display for Float"]}
{"id": "C94", "title": "Symbols, colours and formats can be told apart", "statement": "The debug text of a symbol determines its number and its text, the text of a colour the colour, the name of a format is its number in decimal; comparing a format, or the struct of its name, with a byte or a format succeeds exactly for the same.", "quantifier": "all symbols, texts, colours, formats, bytes", "why_tests_cant": "All pairs.", "anchors": ["src/text/symbol.rs:Debug for Symbol", "src/text/symbol.rs:Debug for DebugSymbol", "src/text/color.rs:Display for Color", "src/text/style.rs:AnsiFormat::as_str", "src/text/style.rs:PartialEq<u8> for AnsiFormat"]}
{"id": "C95", "title": "The counters of the lexer do not overflow", "statement": "No addition to the line, column or byte counters of the lexer overflows exactly if all lines and columns of the text fit 32 bits (and its length 64), in particular for every text of less than 2^32 - 1 characters; then checked and wrapping arithmetic give the same states. There are texts of 2^32 - 1 characters for which one overflows. The depth of a block comment, an i32, does not overflow in a text of less than 2^32 characters and does after 2^31 nested opening marks.", "quantifier": "all texts, all states of the lexer", "why_tests_cant": "Overflow needs texts of gigabytes; unit tests cannot cover them.", "anchors": ["src/syntax/lexer.rs:bump_char", "src/syntax/lexer.rs:block_comment", "src/syntax/token.rs:Row", "src/syntax/token.rs:Col"]}
{"id": "C96", "title": "Names do not matter", "statement": "Renaming literals, operands and patterns in any way, and operators so that different ones stay different, everywhere in a program and in the table in force, renames the result of resolution: the same groupings, the same table afterwards, the same errors in the same order.", "quantifier": "all programs, tables and renamings", "why_tests_cant": "A relation between two runs, over all pairs of programs that differ in names.", "anchors": ["src/syntax/fixity.rs:Resolver", "src/syntax/fixity.rs:Fixities"]}
{"id": "C97", "title": "What stands in parentheses can be resolved on its own", "statement": "Putting an expression in parentheses in the place of a variable: the whole is accepted exactly if the expression with the variable is and the expression in parentheses is, under the fixities in force where it stands; the result is the one result in the place of the variable in the other.", "quantifier": "all expressions, variables and fixities", "why_tests_cant": "A relation between three runs, over all pairs of expressions.", "anchors": ["src/syntax/fixity.rs:Resolver", "src/syntax/fixity.rs:rewrite"]}
{"id": "C98", "title": "Resolution takes quadratic time at most", "statement": "The resolver compares operators at most as often as the square of the number of operators in the program, and copies at most as many nodes as the program has nodes for each operator, however deeply things are nested. For a row of k operators that group to the right it makes exactly k(k-1)/2 comparisons, to the left exactly k-1; in both cases it copies k(k+2) nodes. So there is no linear bound for either.", "quantifier": "all programs and tables, rows of every length", "why_tests_cant": "Running times on a few inputs do not bound the growth.", "anchors": ["src/syntax/fixity.rs:visit_expr", "src/syntax/fixity.rs:rewrite"]}
{"id": "C99", "title": "Left and right are treated alike", "statement": "Writing every infix expression of a program from right to left and exchanging infixl and infixr, in its declarations and in the table in force, exchanges left and right in the result: one is accepted exactly if the other is, and the groupings are mirror images.", "quantifier": "all programs as the parser delivers them, all tables", "why_tests_cant": "A relation between two runs, over all pairs of programs; the resolver itself works from left to right.", "anchors": ["src/syntax/fixity.rs:rewrite", "src/syntax/fixity.rs:Rule::from_fixities"]}
{"id": "C100", "title": "A listing kept in a file restores the table", "statement": "What :fixities shows, kept in a file that is not a Haskell source and loaded in any session, defines everything again that was defined, in place of what that session had, and leaves the rest; in a new session the very same fixities are in force. This holds after every history, provided the operators made of names can be typed after an apostrophe: at least two characters, the second not an apostrophe, and no line break or escape character. The texts evaluated have no newline directly before a carriage return.", "quantifier": "all histories, all sessions, all files with the listing", "why_tests_cant": "Round trip through printing, lexing, parsing and resolution over all tables that can be reached.", "anchors": ["src/repl/session.rs:read_command", "src/repl/session.rs:read_file", "src/syntax/fixity.rs:print_fixities"]}
{"id": "C101", "title": "The help and the commands agree", "statement": "Every command line that the layout of the help text offers, with its blanks filled in any way, is served in every session: something is done or written other than an error message first. Every command line whose first word the help does not offer is called unknown. The greeting offers nothing that the help does not.", "quantifier": "all command lines offered by the help, all sessions and environments", "why_tests_cant": "The blanks can be filled in infinitely many ways, and the sessions are arbitrary.", "anchors": ["src/repl/session.rs:HELP_MSG", "src/repl/session.rs:read_command"]}
{"id": "C102", "title": "Sessions that know the same answer the same", "statement": "Two sessions with the same fixities defined, in whatever order and however they came about, with the same pending text and history file, give the same answers to every further sequence of inputs, up to the order of the lines of a listing of all fixities, and know the same afterwards. Lines that declare different operators may therefore be exchanged.", "quantifier": "all pairs of reachable sessions, all further inputs and environments", "why_tests_cant": "The past of a session and its future are both unbounded; a test sees a few of each.", "anchors": ["src/repl/session.rs:read_line", "src/repl/session.rs:read_command", "src/syntax/fixity.rs:Fixities::insert"]}
{"id": "C103", "title": "Every grouping that fits the levels can be asked for", "statement": "For an infix chain of different operators and any way to group it, there is a table with precedences below n for which resolution delivers that grouping exactly when the number of levels the grouping needs, counted by its changes of side, is at most n. Hence the ten precedences of the language reach every grouping of up to twenty different operators, and not all of twenty-one.", "quantifier": "all groupings of all chains of different operators, all numbers of levels", "why_tests_cant": "The tables and the groupings are infinite in number; that no table gives a grouping cannot be tested.", "anchors": ["src/syntax/fixity.rs:Fixities::rewrite", "src/syntax/fixity.rs:Rule::from_fixities"]}
{"id": "C104", "title": "Declarations typed, loaded, in pieces or again", "statement": "A program whose lets list no operator twice has the same effect on the fixities whether it is typed or loaded from a file. Loading it whole and loading it in two pieces, the first ending in a semicolon and a newline, leads to the same session. Loading it a second time changes nothing. Loading several files with one command is the same as loading them with two, one after the other.", "quantifier": "all programs, all reachable sessions without pending text, all environments", "why_tests_cant": "All programs and all places to cut them.", "anchors": ["src/repl/session.rs:read_file", "src/repl/session.rs:read_command", "src/repl/session.rs:feed_input"]}
{"id": "C105", "title": "Operators of the same level stand for each other", "statement": "If the operators of an expression without let are replaced by others, several possibly by the same one, such that associativities and the order of precedences stay the same, then the expression is accepted exactly if it was before, comes out in the same grouping with the new operators in it, and the pairs of operators that cannot be grouped are the same with the new names.", "quantifier": "all expressions without let, all replacements of operators, literals, names and patterns, all tables before and after", "why_tests_cant": "All shapes, all tables and all replacements, injective or not.", "anchors": ["src/syntax/fixity.rs:Fixities::rewrite", "src/syntax/fixity.rs:Rule::from_fixities"]}
{"id": "C106", "title": "A let declares for its body what a declaration declares for the program", "statement": "The expressions of a program with fixity declarations are accepted, and grouped, exactly as the same expressions without the declarations inside lets for them, in the same order. Lets of different operators can change places, a let of several operators can be split, a let that is declared over again inside or that changes nothing for the operators of its body can be left out, and in general lists of lets can be replaced by others that give the operators of the body the same fixities.", "quantifier": "all tables, all declarations and lets that list no operator twice, all parsed expressions", "why_tests_cant": "All nestings of lets and all bodies.", "anchors": ["src/syntax/fixity.rs:VisitMut for Resolver", "src/syntax/fixity.rs:Resolver::load_fixities", "src/syntax/fixity.rs:Resolver::resolve_ast"]}
{"id": "C107", "title": "Parentheses can be put around whatever is grouped together", "statement": "A parsed expression that evaluates to some grouping is what is typed for that grouping. Typed with parentheses around any of the parts of the grouping, at any depth, it evaluates to the grouping with these parentheses. Parentheses around an operand of an infix expression can be left out exactly if its operator may head that operand; in general an expression is the value of what is typed for it exactly if every operator fits where it stands, under the fixities in force there.", "quantifier": "all tables, all parsed expressions whose lets list no operator twice, all ways to put parentheses", "why_tests_cant": "All expressions and all subsets of their parts.", "anchors": ["src/syntax/fixity.rs:Fixities::rewrite", "src/syntax/fixity.rs:VisitMut for Resolver", "src/syntax/fixity.rs:Resolver::resolve_ast"]}
{"id": "C108", "title": "Texts of expressions can be put together to texts of larger ones", "statement": "If some whole lines of text are read as one expression, with a semicolon after them and without, then: in parentheses they are read as that expression in parentheses, and only then; one of them, an operator on a line and another one are read as one infix chain, the operator standing inside of a lambda or let that the first ends in; one in parentheses before another in parentheses further to the right is an application; any number of them with commas after them in brackets are a list, and two or more with commas between them in parentheses a tuple. Each result is again such a text.", "quantifier": "all texts, all operators, any number of components, any nesting", "why_tests_cant": "All texts, including comments, line breaks and layout, and all ways to nest them.", "anchors": ["src/syntax/parser.rs:Parser::expression", "src/syntax/parser.rs:Parser::paren_expr", "src/syntax/parser.rs:Parser::brack_expr", "src/syntax/parser.rs:Parser::application"]}
{"id": "C109", "title": "An expression in parentheses can be exchanged for another wherever it stands", "statement": "Take a program in which some whole lines that are read as one expression stand in parentheses, at any depth and with any text before and after, but not between a lambda and its arrow. With the text of any other expression in the same parentheses it is read as well, and as the same program with the one expression in place of the other in one place. So whether the text around it makes a program does not depend on the expression, and an expression can be written in another way (spaces, comments, line breaks, redundant spellings) without changing the program.", "quantifier": "all texts before and after, all expressions and all texts of them, any depth", "why_tests_cant": "All programs around the parentheses and all expressions in them.", "anchors": ["src/syntax/parser.rs:Parser::expression", "src/syntax/parser.rs:Parser::paren_expr", "src/syntax/parser.rs:Parser::application", "src/syntax/parser.rs:Parser::parse"]}
{"id": "C110", "title": "Other names in the text are other names in what is read, and nothing else", "statement": "Whether a text is a program depends on the kinds of its tokens and the order of their columns only: not on how names and operators are spelled, nor on the contents of characters and strings. If the names, operators and literals (but integers, minus and at) of a text are replaced token by token, the program read is the old one with the names, operators and literals replaced in the same way everywhere, in expressions, patterns and declarations. On one line the new names may be longer or shorter. If different names stay different, resolving the new program gives the result and the errors of the old one with the names replaced.", "quantifier": "all texts, all replacements of names and literals", "why_tests_cant": "All texts and all ways to rename; a test only tries some names, and a parser may treat a name specially that no test tries.", "anchors": ["src/syntax/parser.rs:Parser::parse", "src/syntax/parser.rs:Parser::expression", "src/syntax/parser.rs:Parser::pattern", "src/syntax/parser.rs:Parser::infix"]}
{"id": "C111", "title": "Texts with tokens of the same kinds are rejected alike", "statement": "If two texts consist of tokens of the same kinds with columns in the same order and one of them is rejected, so is the other, with the same message (the same kind of error and the same expected token) about the token at the same place in the sequence. If the parser panics on one, it panics on the other for the same reason. In particular layout that keeps the tokens and the order of their columns does not change what is complained about.", "quantifier": "all texts that are sequences of tokens", "why_tests_cant": "All pairs of texts, accepted or not; tests of errors look at single texts and single messages.", "anchors": ["src/syntax/parser.rs:Parser::parse", "src/syntax/parser.rs:Parser::eat", "src/syntax/parser.rs:Parser::expression", "src/syntax/parser.rs:Error"]}
{"id": "C112", "title": "Lambdas and lets around a text, and lambdas with several parameters", "statement": "Whatever lines are read as parameters between a backslash and an arrow and whatever lines are read as a declaration of operators: with the backslash and the arrow, or with let and in, put before an expression in parentheses, in any number and order, they are read as exactly those lambdas and lets around it. Parameters can be put one after the other. A lambda with several parameters and a lambda within a lambda are read as the same expression.", "quantifier": "all texts of parameters, declarations and expressions", "why_tests_cant": "All parameters, declarations and bodies, nested to any depth; tests only try some.", "anchors": ["src/syntax/parser.rs:Parser::lambda", "src/syntax/parser.rs:Parser::atom", "src/syntax/parser.rs:Parser::infix_decl"]}
{"id": "C113", "title": "The program read says what the text says, in the same order", "statement": "The names, operators and literals of a text, from left to right, are those of the program read from it, from left to right, declarations included: reading loses none, adds none, repeats none and moves none. Left out are only the precedences after infixl, infixr and infix and minus signs among the parameters of a lambda. Grouping the operators afterwards does not change the sequence either, whether there are errors or not. An expression read from the start of a text says what the text says up to where it ends. The text printed for an expression that can be read back (C19) says what the expression says, apart from the declarations of its lets, which are not printed. So what is printed in answer to a plain expression without lets says what was typed.", "quantifier": "all texts that are read, all tables of fixities", "why_tests_cant": "All texts of any length and nesting; tests compare single programs.", "anchors": ["src/syntax/parser.rs:Parser::parse", "src/syntax/parser.rs:Parser::expression", "src/syntax/parser.rs:Parser::pattern", "src/syntax/fixity.rs:Resolver::resolve_ast"]}
{"id": "C114", "title": "Brackets match in every text that is read", "statement": "In a text that is read as a program, every opening parenthesis and bracket is closed by the right closing one, every backslash has its arrow and every let its in, all of them properly nested; a text that leaves one open, closes one too many or interleaves two is never a program.", "quantifier": "all texts that are read", "why_tests_cant": "All texts of any length and nesting; tests only leave out some brackets in some texts.", "anchors": ["src/syntax/parser.rs:Parser::paren_expr", "src/syntax/parser.rs:Parser::brack_expr", "src/syntax/parser.rs:Parser::lambda", "src/syntax/parser.rs:Parser::pattern"]}
{"id": "C115", "title": "A program is no larger than its text, and resolving it takes quadratic time at most", "statement": "A text of n tokens is read as expressions with less than 2n nodes and less than n operators together; n tokens need at least n characters. So with any table of fixities resolving what is read from a text makes at most as many comparisons of precedences as the square of the length of the text, and copies at most twice as many nodes.", "quantifier": "all texts that are read, all tables of fixities", "why_tests_cant": "All texts of any length: tests cannot measure growth, they only run single inputs.", "anchors": ["src/syntax/parser.rs:Parser::parse", "src/syntax/parser.rs:Parser::application", "src/syntax/fixity.rs:Fixities::rewrite", "src/syntax/fixity.rs:Resolver::resolve_ast"]}
{"id": "C116", "title": "Only what the declarations say in the end matters", "statement": "Two programs with the same expressions whose declarations, on top of what is known already, give every operator the same fixity in the end are resolved alike: the same groupings, the same errors and the same fixities afterwards. So declarations that share no operator can be written in any order, a declaration of several operators can be split into several declarations, and a declaration whose operators are all declared again later or that only repeats what is in force can be left out.", "quantifier": "all programs, all tables of fixities", "why_tests_cant": "All programs and all ways to write down the same fixities; tests only compare some.", "anchors": ["src/syntax/fixity.rs:Resolver::load_fixities", "src/syntax/fixity.rs:Resolver::resolve_ast", "src/syntax/fixity.rs:Fixities::insert_many_with_fixity", "src/syntax/fixity.rs:VisitMut for Resolver"]}
{"id": "C117", "title": "Fixities of operators that do not occur do not matter", "statement": "Two programs with the same expressions whose declarations, on top of what is known already, give every operator that occurs in the expressions the same fixity in the end are resolved alike: the same groupings and the same errors, whatever is known or declared about other operators. So declarations of operators that do not occur can be left out, and a let that declares no operator of its body leaves the body grouped as it is without it, with the same errors.", "quantifier": "all programs, all tables of fixities, all lets", "why_tests_cant": "All programs and all declarations of other operators; tests only leave out some.", "anchors": ["src/syntax/fixity.rs:Resolver::load_fixities", "src/syntax/fixity.rs:Resolver::resolve_ast", "src/syntax/fixity.rs:Fixities::get", "src/syntax/fixity.rs:Fixities::rewrite", "src/syntax/fixity.rs:VisitMut for Resolver"]}
{"id": "C118", "title": "What a rejected program is told, and what is left of it", "statement": "When a chain of operators cannot be grouped, the error names the first operator, reading from left to right, that cannot be grouped with what stands before it and the nearest operator of the same precedence before it; there is only one such pair, and adding more to the right of the chain does not change it; what comes before the named operator can be grouped by itself. The chain is then left as it was written, with everything inside it, while every other chain is grouped as usual. The errors returned for a program are those of its chains in reading order, each told once, and chains inside one that is left alone are not reported. So errors and remaining expressions are determined by the expressions and the fixities in force, and a typed or loaded text that is rejected in this way is answered by one message that tells exactly these errors.", "quantifier": "all programs whose lets list no operator twice, all tables of fixities", "why_tests_cant": "All programs with any number of clashes at any depth; tests look at single clashes.", "anchors": ["src/syntax/fixity.rs:Fixities::rewrite", "src/syntax/fixity.rs:Rule::from_fixities", "src/syntax/fixity.rs:VisitMut for Resolver", "src/syntax/fixity.rs:Resolver::store_error", "src/syntax/fixity.rs:Resolver::resolve_ast", "src/repl/session.rs:ReplSession::feed_input", "src/repl/session.rs:ReplSession::read_file"]}
