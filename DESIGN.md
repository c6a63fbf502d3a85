# Formal model of beancount-parser-lima in Rocq (Coq 8.16.1)

## Approach

The model is a set of total, computable Gallina functions, one per Rust
function or method, each with a comment citing the Rust file and lines.
Panics are explicit values (`Panic`), never hidden by totality.  Loops which
are not structurally recursive take fuel and return `None` when it does not
suffice; the theorems show that it always does, or quantify over it.  Things
outside the crate (file system, glob matching, Unicode tables, decimals, the
escape decoder, hash orders) are parameters which the theorems quantify over.

Four kinds of files in `rocq/theories`:

* model files (table below): definitions only, no proofs;
* `Spec*.v`: specifications, written without the functions of the model
  (relations on texts, token positions, events).  They use its data types;
* `*Facts.v` and the other files of lemmas;
* `P_*.v`: the theorems, named after the property (`C07_...`), each with its
  `Print Assumptions`, and `Example`s which show that concrete, non-trivial
  cases meet the hypotheses.

Where the code does not have the property a user would expect, the defect is a
theorem with the suffix `_refuted`, an explicit counterexample, and the
theorems next to it say what does hold.

### What is modelled

| file | models |
| --- | --- |
| `Base.v` | strings (lists of Unicode scalars), UTF-8 lengths, byte slicing, `Span`, `Spanned`, association lists standing for HashMap/HashSet/BTreeMap |
| `Text.v` | `trim.rs`; `trimmed_span`, `byte_to_rune` of `sources.rs` |
| `Path.v` | `std::path` on Unix (components, join, parent); `resolved_included_path` of `sources.rs` |
| `Sources.v` | `BeancountSources` and `SyntheticSources`: `resolve_span`, `error_source_text`, `create_synthetic_span` and what they call |
| `Read.v` | `read_with_includes`, `content_iter`, `error_paths` of `sources.rs` |
| `SortM.v` | `sort.rs`, and the sorting key of directives |
| `Types.v` | the data of `types.rs`, its validators (`Account`, `Subaccount`, `AccountTypeName`, `AccountName`, `Currency`, `Key`, `TagOrLinkIdentifier`, flags), `AccountTypeNames`, equality of spanned values |
| `Decimal.v` | `Expr::evaluate`, `ExprValue::from`, over any decimal arithmetic meeting `SpecDecimal.dec_ops_ok` |
| `Cost.v` | `CostSpecBuilder` |
| `Options.v` | `options.rs`: parsing, assimilation, lookups |
| `Token.v`, `LexPost.v` | tokens; `RecoveryAttempter`, `KeywordThenColonToKey`, `EolIndentHandler` and their composition |
| `Regex.v`, `Lexer.v` | matching by derivatives; the rules of `Token` and `RecoveryToken`, the callbacks, `lex` |
| `Peg.v` | the combinators of chumsky which are used |
| `Grammar.v` | `parsers.rs` from expressions to directives |
| `Parse.v` | `parsers.rs`: pragmas, declarations, files, recovery; `lib.rs`: `BeancountParser::new`, `parse`, `includes` |
| `Miss.v`, `MissGrammar.v`, `MissParse.v` | `Peg.v`, `Grammar.v` and `Parse.v` again, with the errors of failing parsers |
| `MissMessages.v` | `From<ParserError>` for `Error` of `parsers.rs` |
| `Pragma.v` | `lib.rs`: `PragmaProcessor` |
| `Display.v` | `format.rs` and the `Display` implementations of directives and their parts |
| `Report.v` | errors and warnings as the user builds them (`ErrorOrWarning`, `Spanned::error`, `with_annotation`), their `Display`, and `write_errors_or_warnings` of both kinds of sources up to what ariadne is asked to draw |
| `Shown.v` | `Display` of `Token` and `LexerError` |
| `Checks.v` | the programs: the documentation's example, `examples/check.rs`, `examples/dump.rs` |
| `Messages.v` | the `Display` texts of the error types of `types.rs` and `options.rs`, `fmt_include_context` of `lib.rs`, and the `Error` or `Warning` which is made for each report |

### What is not modelled

* Texts from other crates: those of errors of `Decimal` and `usize` parsing,
  of globs and of reading files are arbitrary (`message_env`).
* What a syntax error says was expected, and the contexts chumsky attaches to
  errors ("while parsing ...").  In `Parse.v` a syntax error is the source and
  the position of a token (`C_Syntax`); where it is placed, and the rest of
  what it says, are in `Miss.v`, `MissGrammar.v`, `MissParse.v` and
  `MissMessages.v`, which are the same parsers with their errors (C70_results).
* How ariadne draws a report (the model ends with what it is asked to draw);
  `Debug` implementations other than that of spans.
* `Display` of `MetaKeyValue` on its own, and formatting with width
  or precision; a writer which fails while a directive is displayed.
* Truncation of source numbers to 32 bits; memory and time.
* Other platforms than Unix for paths.

## Plan per property

For each: what is modelled and how it is proved.

* C01: bucket sort and its iterator; permutation, order and stability against a relational specification.
* C02, C06, C07, C44, C47: `PragmaProcessor::next` as a step function; the run is shown to be a `walk` over the declarations (a relation on events), with a measure; everything else is read off the walk.
* C03: `parse` as a whole, as the composition of the specifications of its stages.
* C04, C38: the scan for includes against the grammar of pragmas; invariant of the reading loop.
* C05, C34: reading over any file system; measure (unvisited canonical paths, pending includes); the whole result is specified by `read_as`.
* C08–C11: push and pop; specification by folding over the events before.
* C12–C14: assimilation of options; specification by first occurrence.
* C15, C16: invariant over histories of renamings; classification by prefix.
* C17, C18, C49: validators and option values against character languages and a relation `reads`.
* C19, C46: expression parser against an inductive grammar (sound, complete, longest); display reads back.
* C20: evaluation against exact rationals, with scale and rounding.
* C21–C25, C36, C37, C39: the grammar as relations on ranges of token positions; each parser is sound and complete for its relation, including errors, warnings and spans; recovery is a relation too.
* C26–C29: the post-processing of tokens against a specification of lines, indents and spans.
* C30, C41–C43: derivatives against denotational matching; longest match; each token against a direct description of its text.
* C31–C33: spans against splittings of the text.
* C35: paths by components.
* C40: the whole of parsing is invariant under permutation of the files, if no included file sets rules; otherwise refuted.
* C45, C48: equality and lookup ignore places.
* C50: success and its result are characterised: sound and complete for `succeeds`.
* C51, C52: display, then read, lex, parse: the same directives.
* C53: all spans of a result against the texts of the sources.
* C54: what is handed to the renderer of reports (`write_report`): every label against the text its span designates; the writer is arbitrary, and what is asked of it is a list of actions performed up to the first failure.
* C55: building up an error or a warning, and displaying it.
* C56: the text of each error against a specification of what it lists; which inputs give which text is an equivalence.
* C57: the composition of C53, C54 and C56.
* C58: as C52, with plugins.
* C59: the display of each token against the text at its place.
* C60: the program against a verdict for each directive; sums as exact rationals.
* C61: the program against the history of each account, and this against dates, by the order C03 gives.
* C62: empty lines between directives leave the tokens the same; then as C52.
* C63: two runs of every parser of the grammar over two inputs with the same tokens go in step (`Sim*.v`: a relation of results, states and errors, kept by each combinator and each parser, by the recovery, the pass over the pragmas and the sorting), so both give the same outcome, a panic included; reading by a relation between two runs (`AlikeOptions.v`).
* C64: `SpecLayout.v` says what a text set out as lines of words is; `LayoutLex.v` shows that each word, run of blanks and end of line is the longest lexeme where it stands and what the handling of ends of lines makes of the runs; with C63 the whole parse follows.
* C65: every parser of the grammar which succeeds goes forward, so the fuel of the model (the number of tokens left) is never used up, neither in the recovery nor in the list of declarations nor in the pass over the pragmas; each hypothesis of C04 is decidable, and what makes it fail is a cause named in `SpecTotal.v`.
* C66: `SpecRecovery.v` says what a file with rubbish in between its declarations is; that is shown to be an instance of the relation `declared` of C39, which is unambiguous, and then C03 gives the errors of the whole parse.
* C67: the relation of C63 allows one input to have an end of line at its end which the other has not; the layouts of C64 are closed under putting a newline at the end, and their tokens differ by just that.
* C68: a success leaves no error, so each event of the walk of C03 is one without an error; by induction on the order in which files were read, each of them is reached, since the keyword of an include occurs nowhere but in include pragmas, so that the scan of C38 and the parser find the same ones.
* C69: the tokens with the includes replaced are an inductive relation over the tokens of the files; by induction on the walk of C03, the declarations met on it are those which the pasted tokens are read as, file by file, since a declaration is read in the same way from the same tokens at another place (the simulation of C63), given rules which agree; the pass over them differs only by the includes, which change neither tags, keys nor options. That there is something to paste is a second induction on the walk.
* C70: every parser of the grammar a second time, with the furthest failure it has met, as chumsky keeps it; that the results are the same is proved parser by parser. Likewise that the failure kept is placed at a token at or after the start, and, for two inputs with the same first tokens, that the parsers do the same as long as the furthest failure is among these. A syntax error is thus a function of the tokens up to its place.
* C71: from C70 and C59.
* C72: the core of C69 (what is declared in some tokens is declared alike where these tokens are in another text), applied to the two texts one after the other; for texts of words on lines, that the tokens of the whole are those of the parts (from C64).
* C73: no declaration goes on past a line which is ended and not followed by an indented one (two runs of the parsers, on the text and on the text cut there, go in step: C63), so a text can be split at such places; the pieces are copied as for C69; a directive changes neither tags, keys nor options, so the pass over the others gives the same.  That the other text has nothing which panics is not assumed but follows (Parts.v): an expression stays within its line.
* C74: the text between the pushes is copied as for C73; as long as no pop fails, what is pushed is what is pushed without the outer push, and that below it, so the pass yields the same directives with it in addition.
* C75: as C73, with four pieces; directives and plugins change neither rules, tags, keys nor options, so each block yields the same at either place, and the order is that of a stable sort (C01). C75_permute_text: by induction on the permutation, with being alike an equivalence (AlikeEquiv.v).
* C76: as C75; a stable sort of all directives, marked as taken or kept, gives a stable sort of either group when the others are left out.
* C77: as C73; the options which are stored are, kind by kind, those which were given, in the order in which they were given (SaidFacts.v).
* C78: the converse of C69. The text which is spread is parsed from the left; each piece is copied into its file (as for C73, from the text into the files), by induction on how the text is spread, which yields the declarations of every file, the walk over them and that each include of it finds its files; nothing is due in the pass over that walk since nothing is due in the pass over the text. That the files have nothing which panics follows from that of the text. C78_move_text says what that comes to, reading of the files included, for some lines which are moved into one file.
* C79: the tokens of the second text are the same, further on. Each parser does the same on them (a simulation as for C73, but by a relation on positions), warnings before make no difference, rules which nothing sets stay, so the whole file is that of the second text after the declarations of the first; of the pass over the pragmas only the number of values on each stack matters for its errors.
* C80: with each account token renamed and nothing moved, every reading of the grammar of the text under the old names is one of the renamed text under the new names, with the accounts in what is read renamed; a value read in the renamed text is an account or was there before, which is what is needed where the longest is taken. So the declarations are those of the text, renamed; stacks, pushed metadata and sorting do not look at accounts. The rest is as in C72, with the text of options in front.
* C81: as in C80, every reading of the text is one of the text with other names, with the names in what is read changed. That nothing is repeated where it was not before needs that different names stay different; where tags and links come out of a hash set their order is unknown, so the metadata is the same up to that order. The stacks of pushed tags and keys are those of the text with their names changed, and empty for all other names.
* C82: the theorem of C81 takes a change of dates as well. The sorted list is one by the order of dates, by open and balance, and by place; the change keeps each of these, as every date of a directive is one among the tokens.
* C83: the theorem of C81 takes a change of strings as well. Where an option is read its two strings are the same; a string counts as too long by its number of lines; payee and narration are there when their strings are not empty.
* C84: the files correspond one to one since includes are kept. In each the change of names is made at the same places first (the lemmas of C81 to C83) and then the tokens are moved to their new places (the lemmas of C63). The order of processing is the same one under the change, so what is pushed, the reports due (also for files included again) and what is yielded correspond; keys of pushed metadata are matched by their places, of which there is one per key. C84_words and C85_words say what the change is on the text, by the words of C64.
* C85: as C84, with the lemmas of C80. The renaming is one of each declaration under the rules in force there, since under any rules the names of account types are valid ones, and the rules change in the same way.
* C86: the readings of a text are mapped to those of the text with the other numbers at the same places. An expression is read up to the same token, since what can be read as one depends on the kinds of the tokens only; its value is that of C20. Each part readable as an expression must have a value in both texts (`calculable`), as the longest value of metadata is sought among values. Where no operator follows a number this holds for all numbers (C86_alone). Then the tokens are moved to their new places as in C84.
* C87: as C84, with the lemmas of C86. Numbers which were different may become equal, so values of pushed metadata are compared by where they were pushed: from one place only one value can be pushed (`walk_one_push`), which follows from the tiling of the files.
* C73 to C77 are proved twice: about any texts whose tokens are those of the parts put together (C73_delete, C73_insert, C74_tag, C74_meta, C75_swap, C76_take, C76_split, C76_put, C77_option_delete, C77_option_insert, C77_plugin_delete, C77_plugin_insert), and about texts of words on lines, where that follows from C64 (C73_delete_text, C73_insert_text, C74_tag_text, C75_swap_text, C75_permute_text, C76_split_text, C76_put_text, and the four of C77 with _text).

Nothing in the list is considered inexpressible.

## The model against the project's own tests

`conform/run.sh` extracts the model and runs it on the tests of the project.
It agrees with the expected result of all 225 ledgers in `test-cases/` and of
all 43 tests of `src/lexer/tests.rs` whose text is a literal.  The tests of
`src/types/tests.rs` and `src/parsers/tests.rs` are computed in
`RepoTests.v`.  This is evidence that the model is the code; no theorem rests
on it.

## Trusted base

* The kernel of Coq 8.16.1, with its virtual machine (`vm_compute` is used in
  concrete cases only, and in the `_refuted` theorems).
* Axioms: none.  `Print Assumptions` says "Closed under the global context"
  for every theorem listed below.  Loading the standard library's ssreflect
  files brings the constants of `Coq.ssr.ssrunder` into the environment, which
  `coqchk` counts as axioms; no theorem depends on them.
* The fidelity of the model to the Rust text, definition by definition.  The
  comments cite the lines and say where something is simplified.
* What is assumed of other crates.  As hypotheses of the theorems:
  * `unicode_ok`: the tables for Lu, Lo and Nd are what they are on ASCII;
  * `dec_ops_ok`: rust_decimal's operations are exact where the result is
    representable and panic or round where it is not (C20, and addition in C60,
    C61); `partitions`: what is documented of `itertools::partition` (C60);
    `reads_decimals`, `decimals_fit`: what `Decimal::from_str` does with digits;
  * `display_ok`: how decimals and dates are displayed, and that a hash set or
    map is iterated over in some order;
  * `environment_ok`: likewise for the sets in the parsers;
  * canonicalization respects equality of paths, and the root has a canonical
    name; for termination of reading, finitely many canonical names;
  * `fine_content`: nothing in the file panics: no division by zero, no
    non-ASCII currency in an option or a directive's currency, no date in
    other than ASCII digits.  The panics themselves are theorems.
  As modelling decisions, without a hypothesis:
  * logos 0.16: the longest match of any rule wins, then the rule of highest
    priority; how far a failure extends is arbitrary, at least one character;
  * chumsky 0.12: ordered choice without backtracking into a success;
    `SimpleState` is not rewound when an alternative fails, emitted errors are;
    `recover_with(skip_then_retry_until(any, end))` tries again after each
    token and accepts only a success without errors; the error of a failure is
    the furthest of all those met, a custom one before others at the same place
    (`Miss.v`); its text is "found 'x' expected y" or that of the custom error;
  * ariadne 0.6: labels count characters, and of several texts of the same name
    the last is shown;
  * `HashMap`, `HashSet`: finite maps whose order is arbitrary where it is
    observable (parameters or permutations);
  * `std::path`, `str` and iterators of the standard library as in `Base.v`,
    `Text.v` and `Path.v`.

## Defects of the code found on the way

* `trimmed_span` cuts a multi-byte last character, so that `resolve_span`
  returns no text and `error_source_text` panics (C31, C32).
* A second fragment for the same synthetic source gets wrong line numbers if
  there are non-ASCII characters before it (C33).
* A span of an unknown source in inline text is reported with a file name (C31, C33).
* A file whose last line is blanks only ends in an `Indent`, not an `Eol` (C27),
  which is a syntax error (C64).
* A heading or other ignored line is not ignored on the first line of a file (C64).
* Division by zero in an expression panics (C20), so does a non-ASCII currency
  (C18, C49), and a date with digits other than ASCII ones (C42).
* A file included first through a symbolic link to one which was read is reported as a
  duplicate (C07); files of a glob are processed last one first (C47).
* Options for account names in included files apply to whichever files come
  later in the order of a hash map (C40).
* `long_string_maxlines`: the last one wins, unlike all other options (C12).
* Display: a tolerance after the currency, a total price as `@ #`, strings
  unescaped: none of these parse back (C51, C58); renamed account types (C52).
* An included file called `inline` is shown in reports in place of inline
  text; so is a synthetic source with the name of a file (C54).
* The message for a refused initial of an account name says that it must be
  ASCII, which it need not be; that for render_commas does not mention 0 and 1
  (C56).
* A key with no value followed by blanks gets a reversed span (C53).
* In syntax errors a tag or link is named without its sign, like a keyword (C59).
* The documented program adds up amounts of different currencies (example `ex_currencies`).
* After a syntax error a declaration with an error of its own is skipped without reporting that error; a file
  which ends in a syntax error loses all of its declarations, includes among them (C66).
* On one date a close is sorted as any other directive, so check.rs reports a transaction which
  follows it in the text as posting to a closed account (C61).

## Theorems

All are closed under the global context (no axioms).
* C01 Directives come out date-sorted, stably, with Open and Balance first: `C01_sort_stable` (P_Sort), `C01_sort_permutation` (P_Sort), `C01_generic_stable` (P_Sort), `C01_dates_total` (P_Sort).
* C02 No directive is lost or duplicated across includes: `C02_each_directive_once` (P_Pragma), `C02_in_order` (P_Pragma).
* C03 Ok exactly when there are no errors; warnings are never lost: `C03_parse` (P_Parse).
* C04 The pragma pass always finds the glob of every include: `C04_parse_does_not_panic` (P_Parse), `C04_panics_iff` (P_Pragma), `C04_includes_globbed` (P_Read), `C04_pass_does_not_panic` (P_Read).
* C05 Reading includes terminates and reads each file once: `C05_errors` (P_Complete), `C05_terminates` (P_Read), `C05_reads` (P_Read), `C05_root_unreadable` (P_Read), `C05_tables_consistent` (P_Read), `C05_ids` (P_Read), `C05_read_once` (P_Read).
* C06 Pragma processing terminates on every include graph: `C06_terminates` (P_Pragma), `C06_bound_immaterial` (P_Pragma), `C06_entered_once` (P_Pragma).
* C07 Duplicate includes are ignored only in the identical tag/metadata context: `C07_reports` (P_Pragma), `C07_included_again` (P_Pragma), `C07_root_included` (P_Pragma), `C07_unreadable` (P_Pragma), `C07_first_include_of_link_refuted` (P_Read).
* C08 pushtag/poptag behave as a stack per tag: `C08_tags` (P_Pragma).
* C09 pushmeta/popmeta behave as a stack per key: `C09_metadata` (P_Pragma).
* C10 Unbalanced push/pop is always reported: `C10_unbalanced` (P_Pragma), `C10_balanced` (P_Pragma).
* C11 A directive's own tags and metadata take precedence over pushed ones: `C11_own_precedence` (P_Pragma).
* C12 Single-valued options: first occurrence wins, every repeat is an error: `C12_first_wins` (P_Options), `C12_reports` (P_Options), `C12_report_at` (P_Options), `C12_rejected_unchanged` (P_Options), `C12_maxlines_last_wins` (P_Options), `C12_options_of_walk` (P_Pragma).
* C13 Multi-valued options: keyed accumulation, duplicates rejected: `C13_entries` (P_Options), `C13_first_entries_meaning` (P_Options), `C13_duplicate_reported` (P_Options).
* C14 Tolerance lookup falls back to the wildcard: `C14_tolerance_fallback` (P_Options).
* C15 Account type names stay a bijection: `C15_update_accepts` (P_Types), `C15_update_rejects` (P_Types), `C15_update_same` (P_Types), `C15_names_bijection` (P_Types).
* C16 Accounts are classified by the names in force: `C16_account_new` (P_Types), `C16_account_errors` (P_Types), `C16_reachable_names` (P_Types).
* C17 Identifier validators accept exactly their documented languages: `C17_account_type_name` (P_Types), `C17_account_name` (P_Types), `C17_key` (P_Types), `C17_tag_link` (P_Types), `C17_flag_letter` (P_Types), `C17_account_type_name_errors` (P_Types), `C17_account_name_errors` (P_Types), `C17_key_errors` (P_Types), `C17_tag_link_errors` (P_Types), `C17_flag_letter_errors` (P_Types), `C17_subaccount` (P_Types), `C17_subaccount_errors` (P_Types).
* C18 Currency validation: `C18_accepts` (P_Types), `C18_panics` (P_Types), `C18_total_refuted` (P_Types), `C18_errors` (P_Types), `C18_short` (P_Types).
* C19 Arithmetic precedence and associativity: `C19_reads_longest` (P_Arith), `C19_fails` (P_Arith), `C19_terminates` (P_Arith), `C19_unambiguous` (P_Arith), `C19_shape` (P_Arith), `C19_tree_read_back` (P_Arith).
* C20 Expression value and its precision: `C20_evaluates_tree` (P_Expr), `C20_value` (P_Expr), `C20_scale` (P_Expr), `C20_division_by_zero_panics` (P_Expr), `C20_panics_only_if` (P_Expr).
* C21 Long strings warn exactly when they exceed the limit: `C21_file_warnings` (P_File), `C21_directive` (P_Grammar), `C21_string` (P_Grammar), `C21_warning` (P_Grammar).
* C22 Payee and narration: `C22_titles` (P_Grammar), `C22_third` (P_Grammar).
* C23 Duplicate tags, links, keys and currencies are all reported and kept once: `C23_metadata` (P_Grammar), `C23_tags_links` (P_Grammar), `C23_currencies` (P_Grammar), `C23_merge` (P_Grammar), `C23_directive` (P_Grammar).
* C24 Cost specification fields are set at most once: `C24_accepts` (P_Cost), `C24_rejects` (P_Cost), `C24_order_irrelevant` (P_Cost), `C24_errors` (P_Cost).
* C25 Price annotations: `C25_reads` (P_Grammar).
* C26 Line structure of the token stream: `C26_lines` (P_Lex), `C26_layout` (P_Lex), `C26_structure` (P_Lex), `C26_lexed` (P_Shown).
* C27 A final end-of-line is supplied: `C27_final_eol` (P_Lex), `C27_always_final_eol_refuted` (P_Lex).
* C28 Keywords are keys exactly when followed by a colon: `C28_keyword_then_colon` (P_Lex).
* C29 Token spans are ordered, disjoint, in bounds and on character boundaries: `C29_spans` (P_Lexer), `C29_raw_spans` (P_Lexer), `C29_recovery_within` (P_Lexer).
* C30 Maximal munch: `C30_maximal_munch` (P_Lexer), `C30_unambiguous` (P_Lexer), `C30_complete` (P_Lexer), `C30_lex` (P_Lexer), `C30_token_text` (P_Lexer), `C30_parser` (P_Parse).
* C31 resolve_span tells the truth about lines and text: `C31_white_space` (P_Sources), `C31_resolve_span_text` (P_Sources), `C31_resolve_span_text_nonascii` (P_Sources), `C31_resolve_span_nonascii_refuted` (P_Sources), `C31_resolve_span_blank` (P_Sources), `C31_resolve_span_invalid` (P_Sources), `C31_resolve_span_unknown_source` (P_Sources), `C31_inline_has_no_name_refuted` (P_Sources), `C31_resolve_span_cases` (P_Sources).
* C32 error_source_text returns the trimmed text or panics, exactly characterised: `C32_error_source_text` (P_Sources), `C32_error_source_text_blank` (P_Sources), `C32_error_source_text_invalid` (P_Sources), `C32_error_source_text_unknown_source` (P_Sources), `C32_error_source_text_panics_iff` (P_Sources), `C32_error_source_text_total_refuted` (P_Sources).
* C33 Synthetic spans stay valid: `C33_synthetic_span_designates` (P_Sources), `C33_synthetic_sources` (P_Sources), `C33_synthetic_span_resolves` (P_Sources), `C33_synthetic_span_resolves_blank` (P_Sources), `C33_synthetic_span_nonascii` (P_Sources), `C33_original_spans_kept` (P_Sources), `C33_synthetic_lines_refuted` (P_Sources), `C33_inline_has_no_name_refuted` (P_Sources).
* C34 Source lookup for error reports never fails: `C34_resolve_span_never_panics` (P_Sources).
* C35 Relative includes resolve against the including file: `C35_path_equality` (P_Sources), `C35_include_relative` (P_Sources), `C35_include_absolute` (P_Sources), `C35_absolute_iff` (P_Sources), `C35_include_inline` (P_Sources), `C35_include_no_directory` (P_Sources).
* C36 Directive grammar: what is written is what is parsed: `C36_sound` (P_Grammar), `C36_terminates` (P_Grammar), `C36_no_panic` (P_Grammar), `C36_reads` (P_Grammar), `C36_rejects` (P_Grammar), `C36_unambiguous` (P_Grammar).
* C37 Postings and their metadata attach where written: `C37_lines` (P_Grammar).
* C38 Every include pragma is discovered by the first pass: `C38_tiled` (P_Complete), `C38_scan` (P_Includes), `C38_includes` (P_Includes), `C38_complete` (P_Includes), `C38_exact` (P_Includes).
* C39 A syntax error never turns into silent success: `C39_file` (P_File), `C39_unambiguous` (P_File), `C39_tokens_accounted_for` (P_File), `C39_clean` (P_File), `C39_no_syntax_error` (P_File), `C39_parse` (P_Parse).
* C40 Result independent of hash map iteration order: `C40_nothing_set` (P_Order), `C40_files` (P_Order), `C40_parse` (P_Order), `C40_order_matters_refuted` (P_Order).
* C41 Number literals: `C41_number` (P_Lexer).
* C42 Dates and times: `C42_date` (P_Lexer), `C42_date_only` (P_Lexer), `C42_time` (P_Lexer), `C42_time_only` (P_Lexer), `C42_date_panics_refuted` (P_Lexer), `C42_time_out_of_range_refuted` (P_Lexer).
* C43 String literals without backslash are returned verbatim: `C43_verbatim` (P_Lexer), `C43_string` (P_Lexer).
* C44 Plugins are reported in order: `C44_plugins` (P_Pragma).
* C45 Equality of spanned values ignores position: `C45_eq_ignores_span` (P_Types), `C45_hash_agrees` (P_Types), `C45_lookup_by_text` (P_Types), `C45_insert_keeps_first_span` (P_Types).
* C46 Displayed expressions parse back: `C46_read_back` (P_Display), `C46_parsed` (P_RoundTrip).
* C47 Processing order of includes: `C47_walk` (P_Pragma), `C47_own_order` (P_Pragma).
* C48 Metadata lookup: `C48_key_value` (P_Types), `C48_order_independent` (P_Types).
* C49 Option text is read as documented: `C49_option_value` (P_Options), `C49_option_parse` (P_Options), `C49_unknown_option` (P_Options), `C49_wrong_value` (P_Options), `C49_option_panics` (P_Options).
* C50 Parsing succeeds exactly when the files are well formed, and returns their directives: `C50_success_sound` (P_Parse), `C50_success_complete` (P_Parse), `C50_parser_options` (P_Parse).
* C51 Displayed directives parse back: `C51_tolerance_shown` (P_Display), `C51_total_price_shown` (P_Display), `C51_read_back` (P_Display), `C51_in_order` (P_Display), `C51_tolerance_refuted` (P_Display), `C51_total_price_refuted` (P_Display), `C51_quote_refuted` (P_Display), `C51_split_string_refuted` (P_Display).
* C52 Parse, display, parse again: `C52_common` (P_RoundTrip), `C52_can_be_read` (P_RoundTrip), `C52_round_trip` (P_RoundTrip), `C52_names_refuted` (P_RoundTrip).
* C53 Every place in a parse result is where the thing is written: `C53_success` (P_Places), `C53_failure` (P_Places), `C53_resolved` (P_Places), `C53_missing_value_refuted` (P_Places).
* C54 Written reports show what was meant: `C54_drawing` (P_Report), `C54_texts` (P_Report), `C54_shown` (P_Report), `C54_points` (P_Report), `C54_written` (P_Report), `C54_written_alone` (P_Report), `C54_synthetic_texts` (P_Report), `C54_synthetic_shown` (P_Report), `C54_synthetic_written` (P_Report), `C54_synthetic_written_alone` (P_Report), `C54_inline_name_refuted` (P_Report), `C54_synthetic_name_refuted` (P_Report), `C54_synthetic_place_refuted` (P_Report).
* C55 Building an error or warning: `C55_built` (P_Report), `C55_built_within` (P_Report), `C55_about_element` (P_Report), `C55_display` (P_Report), `C55_told` (P_Report), `C55_directive_named` (P_Report).
* C56 Error messages say what is wrong: `C56_account_type_name` (P_Messages), `C56_account_name` (P_Messages), `C56_key` (P_Messages), `C56_tag_or_link` (P_Messages), `C56_currency` (P_Messages), `C56_flag_letter` (P_Messages), `C56_account` (P_Messages), `C56_option` (P_Messages), `C56_cost` (P_Messages), `C56_message_tells_why` (P_Messages), `C56_report` (P_Messages), `C56_one_message` (P_Messages), `C56_advice` (P_Messages), `C56_account_name_initial_refuted` (P_Messages), `C56_render_commas_refuted` (P_Messages), `C56_hint` (P_Messages).
* C57 Errors and warnings of a parse, written, mark what they are about: `C57_warnings` (P_Written), `C57_errors` (P_Written).
* C58 A whole ledger, plugins and directives, can be displayed and parsed again: `C58_can_be_read` (P_Ledger), `C58_read_back` (P_Ledger), `C58_in_order` (P_Ledger), `C58_round_trip` (P_Ledger), `C58_plugin_quote_refuted` (P_Ledger).
* C59 A syntax error names a token by the text it is written as: `C59_token_names` (P_Shown), `C59_told_apart` (P_Shown), `C59_tag_sign_refuted` (P_Shown).
* C60 The documented program reports exactly the transactions which do not balance: `C60_balances` (P_Checks), `C60_program` (P_Checks), `C60_failure` (P_Checks), `C60_sums_fit` (P_Checks).
* C61 check.rs reports exactly the postings to accounts which are not open: `C61_checks` (P_Checks), `C61_program` (P_Checks), `C61_known_by_date` (P_Checks), `C61_closed_by_date` (P_Checks).
* C62 What dump.rs prints can be parsed again: `C62_can_be_read` (P_Dump), `C62_read_back` (P_Dump), `C62_program` (P_Dump), `C62_round_trip` (P_Dump).
* C63 Only the tokens matter: `C63_parse` (P_Layout), `C63_read` (P_Layout), `C63_whole` (P_Layout).
* C64 The layout of a ledger does not matter: `C64_word` (P_Words), `C64_tokens` (P_Words), `C64_relaid` (P_Words), `C64_whole` (P_Words), `C64_first_heading_refuted` (P_Words), `C64_last_blanks_refuted` (P_Words).
* C65 Parsing comes to an end, and panics only for a value or a currency which cannot be represented: `C65_file` (P_Total), `C65_terminates` (P_Total), `C65_panics` (P_Total).
* C66 What is wrong in one place does not hide the rest: `C66_elsewhere` (P_Recovery), `C66_bad_date` (P_Recovery), `C66_file` (P_Recovery), `C66_parse` (P_Recovery), `C66_next_error_refuted` (P_Recovery), `C66_last_refuted` (P_Recovery).
* C67 A newline at the end of a file makes no difference: `C67_newline` (P_Newline), `C67_tokens` (P_Newline), `C67_parse` (P_Newline), `C67_whole` (P_Newline), `C67_whole_newline` (P_Newline), `C67_blank_end_refuted` (P_Newline).
* C68 A success leaves nothing out: `C68_nothing_left` (P_Complete), `C68_includes` (P_Complete), `C68_sources` (P_Complete).
* C69 An include is as good as the text of what it includes: `C69_paste` (P_Paste), `C69_can_be_pasted` (P_Paste), `C69_rules_refuted` (P_PasteNeeds), `C69_rules_first_refuted` (P_PasteNeeds), `C69_documents_refuted` (P_PasteNeeds).
* C70 Syntax errors are where the text goes wrong: `C70_results` (P_Miss), `C70_place` (P_Miss), `C70_prefix` (P_Miss), `C70_no_repair` (P_Miss).
* C71 A syntax error names what is found at its place: `C71_says` (P_MissText).
* C72 One ledger after another: `C72_append` (P_Append), `C72_swap` (P_Append), `C72_text` (P_Append), `C72_rules_refuted` (P_Append), `C72_options_refuted` (P_Append).
* C73 A directive stands for itself: `C73_delete` (P_Local), `C73_insert` (P_Local), `C73_rules_refuted` (P_Local), `C73_delete_text` (P_Text), `C73_insert_text` (P_Text).
* C74 Pushes around a ledger: `C74_tag_text` (P_Text), `C74_tag` (P_Wrap), `C74_meta` (P_Wrap).
* C75 Where a directive stands matters only among its equals: `C75_permute_text` (P_Permute), `C75_tied_refuted` (P_Permute), `C75_swap` (P_Swap), `C75_push_refuted` (P_Swap), `C75_swap_text` (P_Text).
* C76 Part of a ledger stands for itself: `C76_take` (P_Block), `C76_split` (P_Block), `C76_put` (P_Block), `C76_push_refuted` (P_Block), `C76_split_text` (P_BlockText), `C76_put_text` (P_BlockText).
* C77 An option or a plugin has no effect but what it says: `C77_option_delete` (P_Said), `C77_option_insert` (P_Said), `C77_plugin_delete` (P_Said), `C77_plugin_insert` (P_Said), `C77_option_delete_text` (P_SaidText), `C77_option_insert_text` (P_SaidText), `C77_plugin_delete_text` (P_SaidText), `C77_plugin_insert_text` (P_SaidText), `C77_rival_refuted` (P_SaidText), `C77_rule_refuted` (P_SaidText).
* C78 Splitting a ledger into files changes nothing: `C78_split` (P_Split), `C78_both` (P_Split), `C78_rules_refuted` (P_Split), `C78_lines_refuted` (P_Split), `C78_move_text` (P_SplitText).
* C79 A correct ledger in front of a text changes none of its errors: `C79_after` (P_After), `C79_iff` (P_After), `C79_text` (P_After), `C79_rules_refuted` (P_After), `C79_options_refuted` (P_After).
* C80 Accounts and account types can be renamed: `C80_accounts` (P_Rename), `C80_rename` (P_Rename), `C80_types` (P_Rename), `C80_taken_refuted` (P_Rename).
* C81 Currencies, tags, links and keys are just names: `C81_names` (P_Names), `C81_exchange` (P_Names), `C81_merged_refuted` (P_Names).
* C82 Of the dates only the order matters: `C82_dates` (P_Names), `C82_order_refuted` (P_Names).
* C83 What a string says matters only in options and includes: `C83_all` (P_Names), `C83_strings` (P_Names), `C83_options_refuted` (P_Names), `C83_empty_refuted` (P_Names).
* C84 Names, dates and strings can be changed throughout a ledger of several files: `C84_files` (P_NamesFiles), `C84_exactly` (P_NamesFiles), `C84_includes_refuted` (P_NamesFiles), `C84_order_refuted` (P_NamesFiles), `C84_words` (P_ReplaceWords).
* C85 Accounts can be renamed throughout a ledger of several files: `C85_files` (P_RenameFiles), `C85_exactly` (P_RenameFiles), `C85_types_refuted` (P_RenameFiles), `C85_words` (P_ReplaceWords).
* C86 Numbers can be changed throughout a ledger: `C86_numbers` (P_Numbers), `C86_alone` (P_Numbers), `C86_zero_refuted` (P_Numbers), `C86_words` (P_NumbersWords).
* C87 Numbers can be changed throughout a ledger of several files: `C87_files` (P_NumbersFiles), `C87_exactly` (P_NumbersFiles), `C87_alone` (P_NumbersFiles), `C87_words` (P_NumbersWords).
