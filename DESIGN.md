# Formal model of pemdas in Rocq

pemdas is a REPL which reads infix expressions and Haskell-style fixity
declarations, regroups the expressions according to the fixities, and prints
them with explicit parentheses.  This directory contains a model of the Rust
code written as total, computable Gallina functions, separate specifications,
and machine-checked proofs of the properties listed in `properties.jsonl`.

Build: `cd rocq && coq_makefile -f _CoqProject -o Makefile && make -j4`
(Coq 8.16.1, standard library only).

## 1. Layout

| files in `rocq/theories` | contents |
|---|---|
| `Prelim Chars Syntax Fixity Lexer Parser Printer Messages Repl Setup Interner Style Docs Grapheme Extras Threads` | the model, one file per Rust module or group of functions; every definition cites the file and lines it follows |
| `Spec*.v` | specifications: relations and predicates that do not mention the functions of the model (data types of `Syntax.v` and character classes are shared; `SpecViable.v` speaks of what the entry point `parse` accepts) |
| `Proof*.v` | lemmas |
| `Props*.v` | the claimed theorems, each followed by `Print Assumptions` and by an `Example` that meets its hypotheses on a non-trivial case |

`properties.jsonl` lists the properties, `MANIFEST.json` maps them to theorem
names, `seeded/LOG.jsonl` records the wrong-program experiments (section 7).

## 2. Trusted base

* **Coq 8.16.1's kernel**, including its virtual machine (`vm_compute` is used
  for concrete witnesses).
* **Axioms: none.**  `Print Assumptions` answers *Closed under the global
  context* for every theorem named in `MANIFEST.json` (the command stands after
  each of them in `Props*.v`).  The environment contains seven constants of the
  standard library's `Coq.ssr.ssrunder.Under_rel` (`Under_rel`, `Under_relE`,
  `Under_rel_from_rel`, `Over_rel`, `over_rel`, `over_rel_done`,
  `under_rel_done`) because library files load that module; no theorem depends
  on them.
* **The transcription** of the Rust source into Gallina (section 3), done by
  reading; the code was neither built nor run.
* **The Rust standard library and crates** behave as documented where the model
  replaces them:
  * `str`/`char` methods (`trim`, `split_whitespace`, `lines`, `starts_with`,
    `trim_matches`, `len_utf8`, slicing by byte offset, `char::from_u32`,
    `from_str_radix`, `parse::<usize>`), transcribed on lists of code points;
  * `Debug` of `char`, `str` (escaping) and of integers, `Display` of integers;
  * `IndexMap` as an association list in insertion order (`insert` keeps the
    place and the key of an existing entry, `swap_remove`/`remove` as
    documented), `HashMap` as a finite map;
  * `Path::extension`, `PathBuf::join` and `display`;
  * `String` appends in place while the capacity suffices (the interner relies
    on it), the granted capacity is an arbitrary function `>=` the request.
* **The Unicode tables** for characters above U+007F are an arbitrary record
  `ucd` of predicates; every theorem quantifies over it.  White space is the
  exact Unicode `White_Space` list, ASCII is exact.  Theorems that need facts
  about the tables take `letters U` (`SpecLexer.v`) as a hypothesis: cased
  characters are alphabetic, alphabetic and numeric characters are not white
  space, no character is both lower and upper case.  These hold for every
  version of Unicode.  C78 also takes `scripts U` (`SpecTyped.v`): the digits and signs that are
  superscripts or subscripts in the language have no case.  `ucd_none` shows that the hypotheses are satisfiable.

## 3. What is modelled

Columns: source lines, where the model is.

| source | modelled | model |
|---|---|---|
| `syntax/token.rs` | data types; `Loc` display, `Index<LocSpan>`; `LocSpan`; literals and tokens as text; `Float`; all error texts; `Char` and its comparisons | `Syntax.v`, `Prelim.v`, `Printer.v`, `Messages.v`, `Extras.v`, `Compare.v` |
| `syntax/lexer.rs` | everything: state, `bump_char`, white space, both comment forms, numbers, characters with all escapes, strings with continuation lines, promoted operators, identifiers, operators, `peek`, `next`, iterator; the counters as machine numbers | `Lexer.v`, `Counters.v` |
| `syntax/parser.rs` | everything: errors, `many`/`many_since`/`wrapped`/`comma_sep` loops with explicit fuel, declarations, expressions, `let`, lambda, patterns, sections, tuples, lists, layout of applications, `parse`, `parse_expr`, `parse_into`, `sep_by1`, `write_with_path` | `Parser.v`, `Messages.v`, `Into.v` |
| `syntax/ast.rs` | data types, `Ast` with its three vectors, `push`, iterators, `Infix`/`Ident` equality, conversion, width and display, both visitors | `Syntax.v`, `Fixity.v`, `Printer.v`, `Extras.v` |
| `syntax/fixity.rs` | `Prec`, `Assoc`, `Fixity`, `Fixities` (table, `extend`, presets), `Rule`, the two-stack `rewrite`, the visitor with save and restore at `let`, `Resolver`, error display, `FixityTable` listing, the printer with colours, `remove_last`, `add_fixity`, `resolved`; the `IndexMap` with its hash table, `Hash` and `Borrow` of the keys; the number of comparisons and copies made | `Fixity.v`, `Costs.v`, `Printer.v`, `Messages.v`, `Extras.v`, `Hashed.v` |
| `repl/session.rs` | everything except the calls into rustyline: prompt, start message, `read_line`, `read_buffer`, `read_file`, every command, error display, the loop | `Repl.v`, `Messages.v` |
| `repl/setup.rs`, `repl.rs`, `main.rs` | everything: choice of the directory, creation of the history file, start of the loop, removal of the files with its messages | `Setup.v` |
| `text/lexicon.rs` | `Lexicon` with explicit buffers and references, `intern`, `lookup`, predefined symbols; its hash table; the thread-local interner with its `RefCell`, `intern_iter`, `intern_n` | `Interner.v`, `HashedLexicon.v`, `Threads.v` |
| `text/symbol.rs` | `Symbol`, its comparisons with texts and characters, `Hash`, `Borrow`, `Debug`, `Display` | `Interner.v`, `Extras.v`, `Hashed.v`, `Compare.v` |
| `text/style.rs`, `text/color.rs` | `Style`, `And`, `Then`, `Highlighted` and their combinators, setters, escape sequences, joining, `Rgb` (including `f32`-free conversions), rainbow; formats with their structs and comparisons | `Style.v`, `Docs.v`, `Compare.v` |
| `text/grapheme.rs` | character classes, `is_prefix`, `strip_prefix`, splitting, `numlen`; `bytestring`, `charstring`, `combine_chars` with their buffers, also `Char::as_str` and `Ident::as_str` | `Chars.v`, `Grapheme.v`, `Buffers.v` |

### Modelling decisions

* Characters are `N`, strings are `list N`.  Byte offsets use UTF-8 lengths, so
  slicing at a wrong offset is the explicit outcome `Panic PSlice`.
* Symbols are modelled by their strings; `Interner.v` proves that symbol
  equality coincides with string equality and that a symbol keeps its string
  (C41 to C43).
* A panic (`assert!`, `unwrap`, `todo!`, `unimplemented!`, slicing, indexing) is
  an explicit outcome with its cause.  Loops that are not structural carry fuel
  with an explicit out-of-fuel outcome; it is proved unreachable (C23, C34, C53).
* A REPL step takes what `readline` returned together with the answers of the
  environment (contents of files, results of `chdir` and of child processes) and
  yields the list of actions in order (text on stdout, text on stderr, prompt,
  history calls, file reads, spawned processes) and the next status.  The
  answers are arbitrary, and the `k`-th read within a line may answer
  differently from the others.

* `Fixity.v` takes the `IndexMap` to be a list of pairs.  `Hashed.v` models it as
  the library builds it (a vector of entries, a hash table of positions) and C89
  proves that no request can tell the difference.  Of the hash table itself only
  its contract is assumed: a search looks at least at the slots stored under its
  hash, possibly at others, in any order.

* `Interner.v` takes the interner's `FnvHashMap` to be a list searched from the
  front.  `HashedLexicon.v` models it as a hash table with keys that point into
  the buffers, under the same contract; C91 proves that no request can tell the
  difference and that no key dangles.

### Simplifications

* `usize` is 64 bit.  The line and column counters of `Lexer.v` are unbounded, and
  so is the depth of a block comment; `Counters.v` has them as 32 bit numbers, and
  C95 proves when this makes no difference.  Stack overflow and allocation failure are not modelled.
* Text written by a printing macro before a panic inside that same call is not
  recorded.
* The two ways a child process can fail (spawn, wait) are one answer.
* `Setup.v`: a disk maps paths to files and directories, two different paths are
  different places, listing a directory does not fail half way.
* `Buffers.v`: reading through a reference into dropped memory is one outcome of
  its own, whatever the memory holds by then.
* `str::lines` keeps a carriage return before a newline (the caller trims).

### Not modelled

* rustyline (editing, completion, what a history file contains), the operating
  system (its answers are arbitrary).
* Rounding of `Float::to_f64` (its exact decimal value is modelled).  `Derive`d `Debug`, `Hash`, `Clone`.
* `text/style.rs`: the `Show!` macro, `Debug` and number formats of styled items.

### Comparison with the repository's own tests

`UnitTests.v` runs the unit tests of the repository on the model (as examples;
they support no claim).  All pass.

## 4. Specifications

* `SpecFixity.v`: the reading of an expression (its operands and operators in
  order), legality of every operator edge, "regroups" (same reading everywhere,
  nested chains resolved with the fixities in force at that point), genuine
  clashes, and the algorithm of section 10.6 of the Haskell 2010 report.
* `SpecRename.v`: renaming of everything in a program; an expression in
  parentheses in the place of a variable (C96, C97).
* `SpecMirror.v`: a program written from right to left, with `infixl` and `infixr`
  exchanged (C99).
* `SpecHelp.v`: the command lines that a help text offers, read off its layout,
  and the ways to fill in their blanks (C101).
* `SpecLets.v`: declarations written as lets around an expression (C106).
* `SpecParens.v`: which expressions are values, and expressions with more
  parentheses (C107).
* `SpecCompose.v`: texts of expressions, and the larger texts made of them (C108).
* `SpecExchange.v`: expressions and programs that differ in one place (C109).
* `SpecRespell.v`: tokens of the same kind, other names and literals in a text and in a program (C110).
* `SpecSimilar.v`: the same complaint about the tokens at the same place of two texts (C111).
* `SpecLayers.v`: texts of parameters and declarations, lambdas and lets around a text (C112).
* `SpecSaid.v`: the names, operators and literals of a sequence of tokens and of a program, in order (C113).
* `SpecMatch.v`: what it means that brackets, lambdas and lets match in a sequence of tokens (C114).
* `SpecRejected.v`: the first clash of a chain, what is left of an expression with ungroupable chains and what is reported about it (C118).
* `SpecLevels.v`: the number of levels of precedence that a grouping needs (C103).
* `SpecAlike.v`: when two sessions know the same and when their answers are the
  same (C102).
* `SpecLexer.v`, `SpecLexRun.v`: a lexical grammar: which text is which token,
  which text may stand between tokens, what is an error, and where.
* `SpecChars.v`: the lists of white space, letters, digits, escapes and radix letters;
  UTF-8 encoding and the boundaries between encoded characters.
* `SpecParser.v`: a grammar with layout as an inductive relation on token lists,
  and the same grammar without layout for single lines.
* `SpecViable.v`, `SpecOutcome.v`: which texts begin a program, what comes next
  in a text (a token, the end, a mistake, a name in neither case), and the
  verdict on a text read from left to right.  `judged` mentions only the
  lexical grammar and the grammar.  A text that ends in a character literal
  written as a unicode escape has no continuation that leaves this literal as it
  is (C32), so no verdict on its end is stated (`escape_end`).
* `SpecShape.v`: when two token sequences have their columns in the same order,
  indentation of a text, texts closed by a semicolon and a newline.
* `SpecPrinter.v`: which expressions can be read back, removal of colours,
  balance of brackets and escape sequences.
* `SpecTyped.v`: a boolean test on typed expressions and operators for being
  printed readably, and the tables of operators one can arrive at (C78).
* `SpecRepl.v`: classification of lines (`reads`), effect of each command on the
  fixities in force, which texts are evaluated, how a history determines the
  fixities (`evolution`), what is written.
* `SpecCrash.v`: which lines stop the program by a panic, in terms of the verdict on
  the text.
* `SpecOutput.v`: the change of the prompt at each event, the texts of messages
  about rejected texts, the table of responses to command lines, the reports on
  loaded files.  The text of the help screen is shared with the model, and the
  text of a literal in a message is a parameter.
* `SpecInto.v`: which declarations a list of tokens begins with and whether
  anything is left; a program with declarations added; items between separators (C81, C82).
* `SpecThreads.v`: what each thread has interned, in which order, and what a
  symbol means in a thread (C79, C80).
* `SpecReadme.v`: the syntax reference of `README.md`, rule by rule: the text of a
  declaration with its meaning, identifiers, and the grammar of expressions on
  tokens (C83 to C86).
* `SpecInterner.v`, `SpecStyle.v`, `SpecGrapheme.v`, `SpecAst.v`,
  `SpecSetup.v`, `SpecDocs.v`, `SpecExtras.v`.

## 5. Statuses

`proved`: the statement holds of the model for all inputs in the domain the
statement names.  `partial`: the code violates what the statement asks; the
theorem suffixed `_partial` proves it where it does hold and the theorem
suffixed `_refuted` exhibits a counterexample of the model.

## 6. Where the code disagrees with what one would expect

Fixities and printing
* A `let` that declares one operator twice leaks the declaration (C10).
* `:fixities --math` gives `*`, `/`, `%` precedence 6, the same as `+` and `-`,
  instead of the documented 7; `--prelude` announces 23 fixities and loads 24
  (C16).
* Printed text is not always readable: a lambda that is applied is printed
  without parentheses, `let` is dropped, a promoted operator of one letter is
  printed as an unterminated character, a section of a name loses its
  quotes, escapes such as `\u{1b}` are not accepted by the lexer, `[]` as a
  pattern (C19).  Every round trip adds another pair of parentheses.
* Printing a negation panics (`todo!`), but the parser never produces one (C20).

Lexer
* After a newline the sequence `\n\r` is counted as one character, so positions
  are wrong and a token can be cut in the middle of a character (panic) (C24).
* The character after the closing mark of a block comment is swallowed (C31);
  so is the one after a unicode escape in a character literal (C32).  If that is
  a newline, the next line's first argument belongs to the literal, except after
  the comma of a tuple (C108).
* A string with a continuation line has a span that starts inside it (C25).
* An apostrophe followed by one character that is not closed makes an operator
  of whatever that character is, even a space or an escape (C19, C21).

Parser
* The pattern `[]` is refused and `[]]` is accepted (C58, C114); a minus sign before
  an element of a tuple or list pattern is dropped (C57).
* `infixl -` is refused although `-` is an operator in expressions.
* An error is reported at the end of the token before the offending one; the end
  of input is shown as a NUL character between quotes (C38, C60).
* `infixl 10 +`, a name that starts with an upper case letter and `''` reach
  `todo!`/`assert!` and stop the REPL (C34, C53).

README
* A lone backslash or arrow is an `infix` of the README but cannot be declared;
  `infixl -` needs a number (C83).
* `f \x -> x + y` is one expression of the README; the program reads two, or a
  list of two between brackets, and refuses it between parentheses; `(-)` is
  refused; layout is not mentioned (C84).
* Identifiers that begin with an upper case letter or an underscore stop the
  program (C85).
* `"\U+0041"` does not print `"A"`: escapes in strings lose their backslash (C86).

REPL
* `:reset` reports one operator too few (C52).
* `:load` of a `.hs` file joins its `infix` lines without separator: a trailing
  comment swallows the rest, positions refer to the joined text (C54); "N
  fixities read" counts declarations, not operators; errors of a load go to
  stdout; only the first of two quotes is stripped from a quoted path.
* A line that ends with a backslash shows the initial prompt although text is
  pending, and after the braces are closed the continuation prompt may stay (C59).
* `:history --save PATH` reports another path than the one written;
  `:history --setfoo` is accepted; `:save` is announced and not implemented, `:cd` without
  a path is announced and refused, and so is `:clear --fixities history` (C101);
  `:info` misses a newline.
* The configuration directory is below the `HOME` of the machine that compiled
  the program: `option_env!` is evaluated at compile time.  Without it the history is `./.history`, but
  removal in the current directory looks for `.pemdas_history`, and calls the
  directory non-empty even if nothing is left in it (C65).

Text
* Background setters for ANSI colours emit foreground codes (C45); changing an
  RGB colour by 0 changes it, and the setters for green and blue are crossed
  (C46); stripping a prefix after leading white space cuts at the wrong place
  and can panic (C49); text after a styled part within a style loses the style
  (C66); the exponent of a `Float` is written without `e` and a negative one
  makes `to_f64` panic (C69); `Normal` as a colour resets the whole style (C44).
* `charstring`, `combine_chars` and `Char::as_str` return a reference into a
  vector that is dropped on return; the unit test of `charstring` reads freed
  memory (C87, C88).  `Ident::as_str` panics except for `[]`: its buffer for
  `(,)` has no room, the other arms are `todo!` (C88).
* `Char::Eof == '\0'` holds and `Char::Eof.len_utf8()` is 1, although the end of
  input is not the character NUL and has no bytes: equality is not transitive
  (C92).  The program never makes this comparison.
* A fractional literal without fraction is displayed like the integer, and a
  positive exponent like further digits (C93).
* `Symbol` implements `Borrow<str>` but hashes its number, so a table keyed by
  symbols does not find them by their text (C90).
* A `Symbol` can be sent to another thread, where it means another text or
  panics, and the `&'static str` of a symbol dangles once its thread has ended
  (C79).  `intern` accepts a `Symbol` but panics on it, as it does on an
  iterator that interns (C80).

## 7. Wrong programs

For each round a copy of the development is made outside `/verif`, one
definition of the model is edited the way a programmer could have erred, and
everything that depends on it is rebuilt.  `seeded/LOG.jsonl` has one line per
edit: the definition, the edit, the claim it breaks, the proofs and theorems
that failed, and the theorems tightened when nothing of the right property
failed.
