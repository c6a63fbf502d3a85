{"id": "C01", "title": "Directives come out date-sorted, stably, with Open and Balance first", "statement": "The directives of a ParseSuccess are a permutation of the directives produced by walking the declarations in include order; they are ordered by date, on equal dates every Open precedes every Balance and every Balance precedes every other kind, and directives with equal (date, kind rank) keep the order in which they were produced.", "quantifier": "all sequences of directives (any length, any dates and kinds)", "why_tests_cant": "A unit test checks a few ledgers; stability and permutation must hold for every ledger.", "anchors": ["src/lib.rs: BeancountParser::parse", "src/sort.rs: SortIteratorAdaptor, Sort"]}
{"id": "C02", "title": "No directive is lost or duplicated across includes", "statement": "When parse succeeds, the returned directives are, as a multiset, exactly one augmented copy of each directive parsed from the root and from each file reached by a processed include pragma; no file contributes twice, even if included repeatedly, through a glob, or cyclically.", "quantifier": "all file systems, include graphs (cyclic ones included) and declaration lists", "why_tests_cant": "Include graphs are unboundedly many; tests try a handful of shapes.", "anchors": ["src/lib.rs: PragmaProcessor::next, PragmaProcessor::new"]}
{"id": "C03", "title": "Ok exactly when there are no errors; warnings are never lost", "statement": "parse returns Ok iff neither the syntactic pass nor the pragma pass recorded an error; in both outcomes all warnings of both passes are returned, in order.", "quantifier": "all parser inputs", "why_tests_cant": "Needs to hold for every combination of errors from two passes.", "anchors": ["src/lib.rs: BeancountParser::parse"]}
{"id": "C04", "title": "The pragma pass always finds the glob of every include", "statement": "For every file system and every root content, each include pragma reached while processing declarations refers to a glob that the reading pass has already resolved, so the 'impossible, I hope' panic is never reached (with a static file system, and provided parsing and reading see the same tokens).", "quantifier": "all file systems, all file contents, all include graphs", "why_tests_cant": "Relates two separate traversals (breadth-first read, depth-first pragma pass) over arbitrary graphs.", "anchors": ["src/lib.rs: PragmaProcessor::next (Include), get_includes", "src/parsers.rs: includes, pragma", "src/sources.rs: read_with_includes"]}
{"id": "C05", "title": "Reading includes terminates and reads each file once", "statement": "Building BeancountSources terminates for every finite file system, cyclic include graphs included; each canonical file (other than unreadable names that do not canonicalise) is read at most once, source ids are dense and unique, and the name table index of each content is its source id.", "quantifier": "all file systems with finitely many canonical files, all include graphs", "why_tests_cant": "Termination over arbitrary cyclic graphs.", "anchors": ["src/sources.rs: BeancountSources::read_with_includes"]}
{"id": "C06", "title": "Pragma processing terminates on every include graph", "statement": "Iterating over the declarations terminates for all parsed sources and all glob tables, self-including and mutually including files included, and every file's declarations are entered at most once.", "quantifier": "all declaration maps, glob tables and include cycles", "why_tests_cant": "Recursion over a cyclic graph guarded by removing entries from a map.", "anchors": ["src/lib.rs: PragmaProcessor::next"]}
{"id": "C07", "title": "Duplicate includes are ignored only in the identical tag/metadata context", "statement": "Including an already-entered file again produces no error and no directives exactly when the active pushed tags and pushed metadata stacks equal those at the first include; otherwise a 'duplicate include' error is reported, which lists the tags and metadata pushed at either place. Re-including the root is always an error. Unreadable files and empty globs are errors.", "quantifier": "all include sequences and push/pop contexts", "why_tests_cant": "Quantifies over all interleavings of push/pop with includes.", "anchors": ["src/lib.rs: PragmaProcessor::next (Include), IncludeContext"]}
{"id": "C08", "title": "pushtag/poptag behave as a stack per tag", "statement": "After any sequence of pushtag and poptag pragmas, a tag is applied to a following directive iff it has more effective pushes than pops, where a pop with nothing pushed only reports an error; the applied tag carries the span of the innermost outstanding push.", "quantifier": "all finite sequences of push/pop pragmas", "why_tests_cant": "Histories of arbitrary length.", "anchors": ["src/lib.rs: PragmaProcessor::next (Pushtag, Poptag)", "src/parsers.rs: Metadata::augment_tags"]}
{"id": "C09", "title": "pushmeta/popmeta behave as a stack per key", "statement": "After any sequence of pushmeta and popmeta pragmas, the value applied to a following directive under a key is the value of the innermost outstanding pushmeta of that key, and none if all have been popped; a pop with nothing pushed only reports an error.", "quantifier": "all finite sequences of push/pop pragmas", "why_tests_cant": "Histories of arbitrary length.", "anchors": ["src/lib.rs: PragmaProcessor::next (Pushmeta, Popmeta)", "src/parsers.rs: Metadata::augment_key_values"]}
{"id": "C10", "title": "Unbalanced push/pop is always reported", "statement": "At the end of input there is exactly one error per outstanding pushtag and exactly one per key with outstanding pushmeta; there is one error per pop without a matching push; balanced sequences report none.", "quantifier": "all finite sequences of push/pop pragmas", "why_tests_cant": "Histories of arbitrary length.", "anchors": ["src/lib.rs: PragmaProcessor::result, PragmaProcessor::next"]}
{"id": "C11", "title": "A directive's own tags and metadata take precedence over pushed ones", "statement": "Augmenting a directive never removes or changes a tag or key/value already present; it adds precisely those pushed tags and keys which the directive lacks; nothing but tags and key/values changes.", "quantifier": "all directives and all push contexts", "why_tests_cant": "All combinations of own and pushed metadata.", "anchors": ["src/parsers.rs: Metadata::augment_tags, Metadata::augment_key_values"]}
{"id": "C12", "title": "Single-valued options: first occurrence wins, every repeat is an error", "statement": "For each single-valued option the value reported by Options is that of its first occurrence in processing order, later occurrences leave it unchanged, and each later occurrence yields one 'duplicate' error pointing at the repeat and related to the first.", "quantifier": "all sequences of option pragmas", "why_tests_cant": "Histories of arbitrary length.", "anchors": ["src/options.rs: Options::assimilate, Options::update_optional"]}
{"id": "C13", "title": "Multi-valued options: keyed accumulation, duplicates rejected", "statement": "documents, operating_currency and inferred_tolerance_default accumulate one entry per distinct key; the entry is the first value given for the key; a repeat of a key is an error and changes nothing.", "quantifier": "all sequences of option pragmas", "why_tests_cant": "Histories of arbitrary length.", "anchors": ["src/options.rs: update_hashmap, update_unit_hashmap"]}
{"id": "C14", "title": "Tolerance lookup falls back to the wildcard", "statement": "inferred_tolerance_default(c) is the value configured for c if any, else the value configured for '*', else none.", "quantifier": "all option histories and currencies", "why_tests_cant": "All combinations of configured currencies.", "anchors": ["src/options.rs: Options::inferred_tolerance_default, inferred_tolerance_default_fallback"]}
{"id": "C15", "title": "Account type names stay a bijection", "statement": "After any sequence of name_* options each of the five account types has exactly one name, no two types share a name, looking up a type's name yields that type and looking up any other name yields nothing; assigning a name in use by another type is rejected without any change, re-assigning a type its own name changes nothing.", "quantifier": "all sequences of name_* option updates", "why_tests_cant": "Two tables kept in sync over arbitrary histories.", "anchors": ["src/types.rs: AccountTypeNames::update, get, Default"]}
{"id": "C16", "title": "Accounts are classified by the names in force", "statement": "Account::new on 'T:N1:...:Nk' succeeds iff T is the current name of an account type and every Ni is a valid account name; then the account has that type and those names in order, and displays back as the original text.", "quantifier": "all strings and all reachable name tables", "why_tests_cant": "All strings.", "anchors": ["src/types.rs: Account::new, AccountName, AccountTypeName"]}
{"id": "C17", "title": "Identifier validators accept exactly their documented languages", "statement": "Tag, Link, Key, FlagLetter, AccountName and AccountTypeName conversions succeed exactly on the documented character languages and fail without panicking on every other string; the error says whether the text is empty, or else which first character is refused, or else lists in order every later character which is refused.", "quantifier": "all Unicode strings", "why_tests_cant": "All strings.", "anchors": ["src/types.rs: TagOrLinkIdentifier, Key, FlagLetter, AccountName, AccountTypeName"]}
{"id": "C18", "title": "Currency validation", "statement": "Currency::try_from accepts exactly the documented currency language on ASCII strings; it panics (index out of range) exactly on strings containing a non-ASCII character, because it mixes byte length with character positions; so an option such as conversion_currency with non-ASCII text panics instead of being reported.", "quantifier": "all Unicode strings", "why_tests_cant": "All strings; the panic only shows for multi-byte characters.", "anchors": ["src/types.rs: TryFrom for Currency"]}
{"id": "C19", "title": "Arithmetic precedence and associativity", "statement": "Parsing the tokens of an arithmetic expression yields the unique tree in which unary sign binds tightest, * and / bind tighter than + and -, and equal-precedence operators associate to the left; parentheses override; the longest expression prefix is consumed.", "quantifier": "all token sequences / all expression trees", "why_tests_cant": "All tree shapes and nesting depths.", "anchors": ["src/parsers.rs: expr", "src/types.rs: Expr"]}
{"id": "C20", "title": "Expression value and its precision", "statement": "The value attached to an expression is the evaluation of its tree rounded (midpoint away from zero) to the largest number of decimal places of any literal in it; it has at most that scale. Division by zero is the only way an exact evaluation fails, and it panics rather than reporting an error.", "quantifier": "all expression trees over decimals", "why_tests_cant": "All trees and operands.", "anchors": ["src/types.rs: Expr::evaluate, ExprValue::from"]}
{"id": "C21", "title": "Long strings warn exactly when they exceed the limit", "statement": "A string literal yields a 'string too long' warning iff its number of lines exceeds the long_string_maxlines in force at that point (default 64), and the string is returned unchanged either way.", "quantifier": "all strings and limits", "why_tests_cant": "All strings.", "anchors": ["src/parsers.rs: string", "src/options.rs: ParserOptions"]}
{"id": "C22", "title": "Payee and narration", "statement": "On a transaction header a single string is the narration, two are payee then narration, empty strings are reported as absent, and a third string is rejected.", "quantifier": "all header token sequences", "why_tests_cant": "All contexts and strings.", "anchors": ["src/parsers.rs: transaction_header_line, replace_some_empty_with_none"]}
{"id": "C23", "title": "Duplicate tags, links, keys and currencies are all reported and kept once", "statement": "In tags/links lists, metadata blocks, currency lists and when header tags are merged with metadata tags, each repeated item produces exactly one error and the result contains each item once; without repeats there is no error.", "quantifier": "all lists of tags, links, key/values, currencies", "why_tests_cant": "All multiplicities.", "anchors": ["src/parsers.rs: tags_links, metadata, currency_list, merge_tags, merge_links"]}
{"id": "C24", "title": "Cost specification fields are set at most once", "statement": "A cost spec in braces yields, for each of per-unit, total, currency, date, label and merge, the value of the unique component giving it; if any field is given twice the spec is rejected as an error, which lists each field once for every time it is given again, in order of the components; order of the components is irrelevant to acceptance and result.", "quantifier": "all lists of cost components", "why_tests_cant": "All permutations and repetitions.", "anchors": ["src/types.rs: CostSpecBuilder", "src/parsers.rs: cost_spec, cost_comp, compound_amount, compound_expr"]}
{"id": "C25", "title": "Price annotations", "statement": "'@' gives a per-unit and '@@' a total price; number and currency are independently optional; the annotation records exactly what was written.", "quantifier": "all token sequences following a posting's cost", "why_tests_cant": "All combinations in context.", "anchors": ["src/parsers.rs: price_annotation"]}
{"id": "C26", "title": "Line structure of the token stream", "statement": "The lexer's output never begins with an end-of-line, never contains two consecutive end-of-lines, contains no raw combined end-of-line/indent or comment token, and every Indent directly follows an end-of-line; all other tokens survive in order with their spans, except those of ignored colon lines.", "quantifier": "all raw token sequences", "why_tests_cant": "All interleavings of eol, indent, comment and colon tokens.", "anchors": ["src/lexer.rs: EolIndentHandler"]}
{"id": "C27", "title": "A final end-of-line is supplied", "statement": "The final end-of-line is forced only when no end-of-line was emitted before; the exact condition is characterised (the documented claim that it is always forced is false for multi-line input without trailing newline).", "quantifier": "all raw token sequences", "why_tests_cant": "A flag carried over arbitrary histories.", "anchors": ["src/lexer.rs: EolIndentHandler::next, lex"]}
{"id": "C28", "title": "Keywords are keys exactly when followed by a colon", "statement": "A keyword token immediately followed by a colon token becomes a key with the keyword's text; every other token, its order and all spans are unchanged.", "quantifier": "all token sequences", "why_tests_cant": "One-token lookahead over arbitrary sequences.", "anchors": ["src/lexer.rs: KeywordThenColonToKey"]}
{"id": "C29", "title": "Token spans are ordered, disjoint, in bounds and on character boundaries", "statement": "The spans of the tokens produced for a source are in increasing order, do not overlap (except that an indent is the last byte of the end of line before it), lie within the source and on character boundaries, including tokens from error recovery, which stay within the failed span.", "quantifier": "all source strings", "why_tests_cant": "All strings.", "anchors": ["src/lexer.rs: lex, RecoveryAttempter, EolIndentHandler", "src/lib.rs: lex_with_source"]}
{"id": "C30", "title": "Maximal munch", "statement": "Every token is the longest prefix of the remaining source matched by any token pattern, ties resolved by pattern priority; a failure token appears only where no pattern matches.", "quantifier": "all source strings", "why_tests_cant": "All strings.", "anchors": ["src/lexer.rs: Token regexes"]}
{"id": "C31", "title": "resolve_span tells the truth about lines and text", "statement": "For every valid span whose last non-blank character is ASCII, resolve_span returns the spanned text without trailing whitespace, with start_line = 1 + number of newlines before it and end_line = start_line + newlines inside; out-of-range or misaligned spans give empty content at line 1, never a panic. For spans ending in a non-ASCII character the content is lost (characterised).", "quantifier": "all sources and all spans", "why_tests_cant": "All strings, multi-byte included, and all spans.", "anchors": ["src/sources.rs: resolve_span, get_adjusted_source, trimmed_span, byte_to_rune", "src/trim.rs: trim_trailing_whitespace"]}
{"id": "C32", "title": "error_source_text returns the trimmed text or panics, exactly characterised", "statement": "error_source_text returns the spanned text without trailing whitespace when its last non-blank character is ASCII, and panics exactly when the last non-blank character is multi-byte.", "quantifier": "all sources and spans", "why_tests_cant": "All strings.", "anchors": ["src/sources.rs: error_source_text", "src/trim.rs"]}
{"id": "C33", "title": "Synthetic spans stay valid", "statement": "A span returned by create_synthetic_span designates exactly its fragment, never collides with a real source or a different name, and continues to do so after any further creations.", "quantifier": "all sequences of creations", "why_tests_cant": "Histories of arbitrary length.", "anchors": ["src/sources.rs: SyntheticSources::create_synthetic_span, get_adjusted_source"]}
{"id": "C34", "title": "Source lookup for error reports never fails", "statement": "For every span whatsoever, looking up its source in the sources built from any file system succeeds without panicking.", "quantifier": "all file systems and spans", "why_tests_cant": "Invariant of the reading loop over arbitrary include graphs.", "anchors": ["src/sources.rs: get_adjusted_source, read_with_includes"]}
{"id": "C35", "title": "Relative includes resolve against the including file", "statement": "An absolute include path is used as is, a relative one is joined to the directory of the including file, or used unchanged if there is none; reading and pragma passes resolve identically.", "quantifier": "all paths", "why_tests_cant": "All paths.", "anchors": ["src/sources.rs: resolve_included_path, path_dir"]}
{"id": "C36", "title": "Directive grammar: what is written is what is parsed", "statement": "For each directive kind the parser accepts a token range iff it spells such a directive, and returns exactly the written components with the spans of the tokens spelling them.", "quantifier": "all token sequences", "why_tests_cant": "All token sequences.", "anchors": ["src/parsers.rs: directive and all its alternatives"]}
{"id": "C37", "title": "Postings and their metadata attach where written", "statement": "A transaction's postings appear in source order; metadata lines before the first posting belong to the transaction, metadata lines after a posting belong to that posting.", "quantifier": "all transactions", "why_tests_cant": "All interleavings of postings and metadata lines.", "anchors": ["src/parsers.rs: transaction, posting, metadata"]}
{"id": "C38", "title": "Every include pragma is discovered by the first pass", "statement": "The include scan returns, in order, the string of every include keyword immediately followed by a string, whatever else is in the file, errors included.", "quantifier": "all token sequences", "why_tests_cant": "All token sequences, malformed ones included.", "anchors": ["src/parsers.rs: includes"]}
{"id": "C39", "title": "A syntax error never turns into silent success", "statement": "If any token of a file is not part of a successfully parsed declaration, the file's parse reports at least one error, hence parse returns Err.", "quantifier": "all token sequences", "why_tests_cant": "All malformed inputs.", "anchors": ["src/parsers.rs: file, declaration", "src/lib.rs: parse_declarations"]}
{"id": "C40", "title": "Result independent of hash map iteration order", "statement": "If no included file carries name_* or long_string_maxlines options, the result of parsing does not depend on the order in which the included files are visited: the same directives in the same order, options and plugins, and the same errors up to their order and that of the tags and metadata they list; with such options it may (counterexample).", "quantifier": "all permutations of included files", "why_tests_cant": "HashMap order is randomised per run.", "anchors": ["src/lib.rs: parse_declarations", "src/sources.rs: content_iter"]}
{"id": "C41", "title": "Number literals", "statement": "Commas are ignored; a literal with d digits after the point denotes digits / 10^d with scale d.", "quantifier": "all number tokens", "why_tests_cant": "All digit strings.", "anchors": ["src/lexer.rs: parse_number"]}
{"id": "C42", "title": "Dates and times", "statement": "A date written in ASCII digits yields exactly that calendar date if it exists and an error token otherwise, both separators being equivalent; a time of day written in ASCII digits yields that time; date and time tokens stand for nothing else. (A time out of range is not reported but split into numbers and colons, and a date in non-ASCII digits panics: both proved as refutations.)", "quantifier": "all digit strings matched by the patterns", "why_tests_cant": "All dates including leap years.", "anchors": ["src/lexer.rs: parse_date, parse_time"]}
{"id": "C43", "title": "String literals without backslash are returned verbatim", "statement": "A quoted text without quotes and backslashes inside yields a string token with exactly the text between the quotes; any string token is the text between its quotes, passed through the unescaper exactly when it has a backslash.", "quantifier": "all string literals", "why_tests_cant": "All strings.", "anchors": ["src/lexer.rs: unescape_string_literal"]}
{"id": "C44", "title": "Plugins are reported in order", "statement": "The plugins of a ParseSuccess are exactly the plugin pragmas in the order they are met in the include walk.", "quantifier": "all declaration sequences", "why_tests_cant": "All sequences.", "anchors": ["src/lib.rs: PragmaProcessor::next (Plugin)"]}
{"id": "C45", "title": "Equality of spanned values ignores position", "statement": "Comparing and hashing spanned items depends only on the items, so tables keyed by spanned tags, links and keys treat equal text at different places as one key and keep the first span.", "quantifier": "all spanned values", "why_tests_cant": "All values and spans.", "anchors": ["src/types.rs: Spanned PartialEq/Hash"]}
{"id": "C46", "title": "Displayed expressions parse back", "statement": "The textual form of any parsed expression re-parses to the same expression.", "quantifier": "all expressions in parser form", "why_tests_cant": "All trees.", "anchors": ["src/types.rs: Expr Display", "src/parsers.rs: expr"]}
{"id": "C47", "title": "Processing order of includes", "statement": "An included file's declarations are processed at the point of the include pragma, before the rest of the including file; several files matched by one glob are processed in the reverse of the glob's order.", "quantifier": "all include trees", "why_tests_cant": "All trees.", "anchors": ["src/lib.rs: PragmaProcessor::next"]}
{"id": "C48", "title": "Metadata lookup", "statement": "Metadata::key_value(k) returns the value recorded for the key with that text, whatever its position, and none otherwise.", "quantifier": "all metadata", "why_tests_cant": "All metadata.", "anchors": ["src/types.rs: Metadata::key_value"]}
{"id": "C49", "title": "Option text is read as documented", "statement": "For every option name and value text, parsing the option succeeds with a given typed value exactly when the name is a known option and the text is in that option's documented language (booleans case-insensitively, render_commas also 1/0, unsigned numbers below 2^64, CURRENCY:decimal or *:decimal tolerances, subaccounts, booking and plugin modes; documents are taken relative to the including file's directory). An unknown name is blamed exactly when it is not in the list of options; otherwise a refused value is blamed for exactly what is wrong with it; the only panic is on a non-ASCII currency.", "quantifier": "all option names, all value texts, all source paths", "why_tests_cant": "All strings; tests cover one or two values of each option.", "anchors": ["src/options.rs: BeancountOption::parse, parse_bool, parse_inferred_tolerance_default, parse_currency, parse_booking"]}
{"id": "C50", "title": "Parsing succeeds exactly when the files are well formed, and returns their directives", "statement": "Parsing returns success exactly when every file is a sequence of well-formed declarations and processing the declarations from the root file, entering each included file where it is included, gives rise to no error and leaves no tag or metadata pushed. The result is then the directives met on the way, with the tags and metadata pushed at that point, stably sorted by date; the options and plugins met on the way; and one warning for each over-long string.", "quantifier": "all sources that can be read, all contents of files, all include trees, all orders of visiting the included files", "why_tests_cant": "Relates the whole of reading, lexing, parsing, pragma processing and sorting, for all files.", "anchors": ["src/lib.rs: BeancountParser::parse, parse_declarations, PragmaProcessor", "src/parsers.rs: file", "src/sources.rs: content_iter"]}
{"id": "C51", "title": "Displayed directives parse back", "statement": "The textual form of directives, one below the other, parses without errors to the same directives (in order of date, wherever they are written, with their sets of tags, links and metadata in any order), provided their strings contain no quote and no backslash, no balance has a tolerance and no price is a total; in each of these three cases there are directives whose textual form does not parse, or parses to something else: a tolerance is shown after the currency, a total price with a hash.", "quantifier": "all lists of directives with any postings, costs, prices, metadata and expressions", "why_tests_cant": "All directives; the tests of the display compare a few literals.", "anchors": ["src/types.rs: Display for Directive and its parts", "src/format.rs", "src/lib.rs: BeancountParser::parse"]}
{"id": "C52", "title": "Parse, display, parse again", "statement": "Whatever files have been parsed without an error, displaying the resulting directives one below the other gives a text which can be read and which parses without an error to the same directives in the same order (wherever they are written, sets of tags, links and metadata in any order), provided no option renames an account type, no string of a directive contains a quote or a backslash, no balance has a tolerance and no price is a total. With a renamed account type the displayed directives alone need not parse.", "quantifier": "all files and include trees that parse without an error, all their options, pushed tags and metadata, all orders of hash sets", "why_tests_cant": "All ledgers: no hypothesis is made on the form of the directives, it follows from their having been parsed.", "anchors": ["src/lib.rs: BeancountParser::parse", "src/types.rs: Display for Directive and its parts", "src/parsers.rs: file", "src/lexer.rs: Token"]}
{"id": "C53", "title": "Every place in a parse result is where the thing is written", "statement": "After reading files and parsing them, every span in the result designates text of one of the sources which were read, cutting no character, and what is written there is the item: a date, account, currency, tag, link, key, string, flag, number of a tolerance or a booking method at a span is spelled exactly there; a directive's span starts with its date; a pushed tag is at its pushtag pragma, pushed metadata at its pushmeta; an option is at the string it is read from; errors and warnings are where what they are about is written (a duplicate tag, link, key or currency at that very text, an option error at the name or value which is wrong, a long string at that string, a push or pop without its partner at that pragma, an include error at the included name), and all that they are related to are at strings in the sources. Exceptions: the missing value of a key followed by blanks has a reversed span, which is reported as an empty text on line 1; the span of empty metadata may be reversed. Resolving the span of an item which ends in an ASCII character returns exactly its text and its lines.", "quantifier": "for every file system contents, root and included files, options, order of the files, and every directive, part of a directive, option, plugin, error and warning of the result", "why_tests_cant": "Each test looks at the spans of a few items of one file; the claim is about every span of every result, over includes, pushes and options, which are processed by different stages.", "anchors": ["src/parsers.rs: spans of all parsers", "src/lib.rs: PragmaProcessor", "src/sources.rs: resolve_span", "src/options.rs: Source"]}
{"id": "C54", "title": "Written reports show what was meant", "statement": "Writing a list of errors or warnings (write_errors_or_warnings, write_report, also of synthetic sources) never panics. Each one is drawn in order as: its kind and message, its reason labelled at its span (errors red, warnings yellow), then each context as 'in this X' and each related element as 'X', at their spans, in order; after it its annotation on a line of its own; nothing is written after the first failure of the writer. Each label is at the characters, in the text shown under its source's name, which its span designates, without blanks at the end; an invalid span is labelled at the start of its source, one of an unknown source at the start of the root. This holds also for text outside ASCII, and whatever the order in which texts are given. Exceptions: an included file called 'inline', or a synthetic source called like a file, is shown instead of the inline text or the file; synthetic text after text outside ASCII is labelled out of place.", "quantifier": "for every file system, root and included files, every list of errors and warnings with any spans, contexts, related elements and annotations, every history of synthetic spans, every writer and every point at which it fails", "why_tests_cant": "Rendered reports are compared for a few errors in one file; the claim is about all spans, all histories of synthetic sources, all failures of the writer and all orders of a hash map.", "anchors": ["src/sources.rs: write_errors_or_warnings, write_report, sources, get_adjusted_source, source_id_string_and_adjusted_rune_span, create_synthetic_span", "src/types.rs: ErrorOrWarning, Report, AnnotatedErrorOrWarning"]}
{"id": "C55", "title": "Building an error or warning", "statement": "Spanned::error and Spanned::warning give an error or warning at the element, with message 'invalid X' or 'questionable X' where X is what the element is (a directive: its keyword, or 'transaction'), the given reason, and nothing else. Any sequence of related_to, related_to_all, in_context and in_contexts leaves kind, message, reason and span as they are and adds all the elements, in order. The displayed text of an error is its message, its reason in brackets, its span in decimal numerals, and for each context its name and span; and the span can be told from it.", "quantifier": "for every error or warning, every element and directive, and every sequence of calls", "why_tests_cant": "All sequences of calls with any elements.", "anchors": ["src/types.rs: ErrorOrWarning::related_to, related_to_all, in_context, in_contexts, Spanned::error, Spanned::warning, ElementType, Display for Error"]}
{"id": "C56", "title": "Error messages say what is wrong", "statement": "For every refused account type name, account name, account, subaccount, key, tag, link, currency, flag letter, option value and cost specification, the text of the error is exactly the documented sentence listing, in order, the characters (or fields, or words) which are wrong; different reasons give different texts. Every error or warning of a parse has the message and reason for its problem, and no two texts are possible for a problem. What messages recommend is right: the listed extra characters and words are exactly the accepted ones, and the number which the warning for a long string suggests for long_string_maxlines is the least with which it is not warned about. Exceptions: for the initial of an account name and for render_commas more is accepted than the message says.", "quantifier": "for every text which is refused, every combination of option name and value, every problem report with any tags, keys and values", "why_tests_cant": "Tests compare a handful of messages; the claim is about the text for every refused input.", "anchors": ["src/types.rs: Display for AccountTypeNameError, AccountNameError, AccountError, KeyError, TagOrLinkIdentifierError, CurrencyError, FlagLetterError, CostSpecErrors, AccountTypeNames", "src/options.rs: Display for BadValueErrorKind, BeancountOptionError, ParserOptionsError", "src/lib.rs: fmt_include_context, PragmaProcessor", "src/parsers.rs: string, tags_links, metadata"]}
{"id": "C57", "title": "Errors and warnings of a parse, written, mark what they are about", "statement": "Writing the errors or the warnings which parse returned, over the same sources, never panics and asks for exactly one drawing for each, in order: an error or a warning with the message and reason for its problem, its reason marking, in the text shown for its file, exactly what it is about (without blanks at the end), and each related option or include marking a string in its file, under its name, whatever the order in which the texts are given.", "quantifier": "for every file system, root and included files (no included file being called inline), every outcome of the parse, every writer and every failure of it", "why_tests_cant": "End to end over reading, lexing, parsing, pragmas and reporting, for all inputs.", "anchors": ["src/lib.rs: BeancountParser::parse, ParseError, ParseSuccess", "src/sources.rs: write_errors_or_warnings", "src/types.rs: ErrorOrWarning"]}
{"id": "C58", "title": "A whole ledger, plugins and directives, can be displayed and parsed again", "statement": "Displaying the plugins and then the directives of a parse (without what is displayed otherwise than it is written), and reading and parsing that text, succeeds and gives the same plugins, with the same configurations, in the same order, and the same directives in the same order. A plugin whose name or configuration has a quote in it is displayed without escapes and is not read again.", "quantifier": "for every ledger, spread over any files, which is parsed with success and has no exceptional directive, and every list of plugins", "why_tests_cant": "Unit tests display single items; the claim is about all ledgers, and the composition of display, lexing, parsing and sorting.", "anchors": ["src/types.rs: Display for Plugin, Display for Directive", "src/lib.rs: ParseSuccess", "src/parsers.rs: pragma, file", "src/lexer.rs: Token"]}
{"id": "C59", "title": "A syntax error names a token by the text it is written as", "statement": "Displaying a token, as is done to say what was found in a syntax error, gives the text the token is written as at its place in the source; a number or date is given as some text which by itself is the same number or date; a string with escapes is given with the escapes undone; an end of line, an indent and an error are described by fixed words. So tokens named alike are the same, but for a keyword and a key of the same spelling. A tag and a link are named without their sign, so a tag can be named like a keyword.", "quantifier": "for every source and every token of it, and every way of displaying times", "why_tests_cant": "Tests look at the message of some syntax errors; the claim is about every token of every source.", "anchors": ["src/lexer.rs: Display for Token, Display for LexerError, lex"]}
{"id": "C60", "title": "The documented program reports exactly the transactions which do not balance", "statement": "The program of the crate's documentation, run on the directives of a parse: a transaction without postings gives one warning; one with two or more postings without an amount gives one error, related to exactly these; one with an amount for each posting gives one error exactly if the amounts, added up exactly, are not zero, which tells the sum, is at one of the amounts, related to all others, in the context of the transaction; all other directives give nothing. Errors are drawn first, and then the warnings of the parse and its own; it does not panic unless the writer fails. If the parse fails its errors and then its warnings are drawn.", "quantifier": "for every list of directives whose sums are representable, every result of a parse, every writer, and whatever order partition leaves the postings in", "why_tests_cant": "A few ledgers are checked by hand; the claim is about all transactions and all sums.", "anchors": ["src/lib.rs: crate documentation example", "examples/check-postings-balance.rs: parse", "src/types.rs: Spanned::error, related_to_all, in_context, Posting::amount", "src/sources.rs: write_errors_or_warnings"]}
{"id": "C61", "title": "check.rs reports exactly the postings to accounts which are not open", "statement": "Run on the directives of a parse, check.rs reports an error for each posting to an account which no directive before it opened, and for each posting to an account which was closed (related to the directive which closed it), in the context of posting and transaction; for each close of an unknown or closed account, and open of a closed account; a warning for an open of an open account (related to the first open); an error for amounts which do not add up to zero; and nothing else, in the order of the directives. In terms of dates: an account is known where a transaction or close is checked exactly if some open of it has the same or an earlier date, wherever it is in the files; it is closed there if it was closed at an earlier date, after being opened; on the same date the order in the text counts.", "quantifier": "for every ledger which is parsed with success, every directive and account in it, and every writer", "why_tests_cant": "It is about all histories of opening, closing and posting, and all orders of directives in files.", "anchors": ["examples/check.rs: parse, check_postings_amounts, check_postings_accounts, AccountStatus", "src/sort.rs: SortIteratorAdaptor"]}
{"id": "C62", "title": "What dump.rs prints can be parsed again", "statement": "If a parse succeeds dump.rs draws the warnings and prints each directive as it is displayed, with an empty line below it. Reading and parsing what it prints (without what is displayed otherwise than it is written) succeeds and gives the same directives in the same order, and no plugins.", "quantifier": "for every ledger, spread over any files, which is parsed with success and has no exceptional directive, and every writer", "why_tests_cant": "Composition of display, lexing with empty lines, parsing and sorting, for all ledgers.", "anchors": ["examples/dump.rs: parse", "src/types.rs: Display for Directive", "src/lexer.rs: lex", "src/parsers.rs: file"]}
{"id": "C63", "title": "Only the tokens matter", "statement": "Replace the root file and any included files by texts which consist of the same tokens, in the same order (with other spaces, comments, blank lines, number formats or spellings of the same strings). Then the same files are found, with the same numbers; and parsing them succeeds, fails or panics if and only if it did before: on success with the same directives in the same order, the same options and plugins, and warnings which say the same in the same order; on failure with errors and warnings which say the same in the same order.", "quantifier": "for every file system, root and included files, and every other text with the same tokens for each of them", "why_tests_cant": "It compares two whole runs, over all pairs of texts with the same tokens.", "anchors": ["src/lib.rs: BeancountParser::new, BeancountParser::parse, get_includes", "src/sources.rs: BeancountSources::read_with_includes", "src/parsers.rs: file", "src/options.rs: Options::assimilate"]}
{"id": "C64", "title": "The layout of a ledger does not matter", "statement": "A text whose words are set out on lines gives tokens which depend only on the words, on which of them are on one line and on which lines are indented: the blanks between words, blank lines, comments, lines ignored because of their first char, how far a line is indented and whether lines end in LF or CR LF do not change them. So a ledger all of whose files are laid out in another way gives the same directives, options and plugins, or else the same errors. Two exceptions are proved too: a heading on the very first line is not ignored, and blanks after the last end of line are a syntax error.", "quantifier": "All texts built of words, blanks, comments, ignored lines and ends of lines, of any length; all file systems, globs and environments.", "why_tests_cant": "There are infinitely many layouts of each ledger, and longest-match lexing could join any two neighbours.", "anchors": ["src/lexer.rs: Token, EolIndentHandler", "src/lib.rs: BeancountParser::parse", "src/sources.rs: BeancountSources"]}
{"id": "C65", "title": "Parsing comes to an end, and panics only for a value or a currency which cannot be represented", "statement": "Parsing a ledger always returns: no file, whatever its tokens, and no set of files keeps the parser going for ever, not even while it skips tokens to recover from syntax errors. If creating the parser panics, then a file cannot be lexed (a date or a time is written with digits other than 0 to 9). If parsing panics, then some file holds a currency which is not ASCII, or an expression whose value cannot be computed (such as a division by zero), or an option for a currency whose currency is not ASCII.", "quantifier": "every content of every file, every graph of includes, every order of the contents, every behaviour of the libraries", "why_tests_cant": "no finite set of ledgers shows that the recovery loop always ends, nor that nothing else in the parser panics", "anchors": ["src/parsers.rs: declaration, file", "src/lib.rs: BeancountParser::parse", "src/lib.rs: BeancountParser::new"]}
{"id": "C66", "title": "What is wrong in one place does not hide the rest", "statement": "A piece of text which is no declaration, in between declarations, costs exactly one syntax error, at its start: all declarations before and after it are still read, so that what is wrong with them, and with the pragmas of the whole ledger, is reported too, in order. No declaration starts anywhere but at a date which is followed by a keyword or a flag, or at the keyword of a pragma. Two exceptions are shown: the declaration right after such a piece is skipped, and its own error is not reported, if it has one; and if such a piece ends a file, then no declaration of that file is returned.", "quantifier": "every file of declarations with other tokens in between, every ledger of such files, whatever options are in force", "why_tests_cant": "the pieces may be of any length, number and content; tests with a few bad lines cannot show that the parser always finds its way back, nor that it counts each piece once", "anchors": ["src/parsers.rs: declaration, file (recover_with skip_then_retry_until)", "src/lib.rs: BeancountParser::parse"]}
{"id": "C67", "title": "A newline at the end of a file makes no difference", "statement": "A text whose words are set out on lines has the same lines if a newline is put at its end, and its tokens are the same but for one end of line at the very end. Whichever files of a ledger have such an end of line and which have not: the same files are read, and parsing succeeds, fails or panics alike, with the same directives, options, plugins, and errors and warnings which say the same in the same order. One exception is shown: a text which ends with blanks on a line of their own is an error, and with a newline after them it is not.", "quantifier": "all texts built of words, blanks, comments, ignored lines and ends of lines; all file systems, graphs of includes, globs and environments", "why_tests_cant": "The end of the tokens is met at any depth of the grammar (in postings, metadata, expressions, error recovery); a test covers one of them.", "anchors": ["src/lexer.rs: EolIndentHandler, lex", "src/parsers.rs: file, declaration, directive, metadata, posting", "src/lib.rs: BeancountParser::parse"]}
{"id": "C68", "title": "A success leaves nothing out", "statement": "If parsing a ledger succeeds, then every file which was read has been taken into account, and nothing is missing: each directive of each file is in the result exactly once, and so is each plugin; the options are those of all files. Each include of each file has found at least one file, each file it found is one of those which were read (perhaps under another name of the same file), and none of the files could not be read.", "quantifier": "every file system, graph of includes, glob and content for which parsing succeeds", "why_tests_cant": "It joins reading, parsing and the walk over the includes, for ledgers of any number of files; a directive could be lost in any of them.", "anchors": ["src/lib.rs: BeancountParser::parse, PragmaProcessor", "src/sources.rs: BeancountSources::read_with_includes, get_includes"]}
{"id": "C69", "title": "An include is as good as the text of what it includes", "statement": "If parsing a ledger which includes other files succeeds, then replacing each line with an include by the lines of the files it includes (the last file of a glob first, each file only the first time, and the same within these files) gives a text which, parsed on its own, succeeds with the same directives in the same order, the same options and the same plugins, apart from where things stand, and with the same warnings except those about a string of an include which is too long. Such a text exists for each ledger which parses. It is required that the included files set neither the names of account types, the maximal number of lines of a string, nor a documents directory, and that the root file sets the names and that number before its first include.", "quantifier": "every ledger of any number of files, nested to any depth, which parses, with every way of laying out the text with the includes replaced", "why_tests_cant": "It compares parsing a graph of files with parsing one text, for all graphs and all texts.", "anchors": ["src/lib.rs: BeancountParser::parse, PragmaProcessor", "src/sources.rs: BeancountSources::read_with_includes", "src/parsers.rs: includes, file"]}
{"id": "C70", "title": "Syntax errors are where the text goes wrong", "statement": "Every syntax error of a ledger is about one of its files and is placed at a token of that file or at its end, at or after the token where the declaration that was not understood begins. Nothing which follows can repair it: if the tokens of a file up to and including the one where the first syntax error is are kept, and so are the files before it, then whatever comes after, the first syntax error is the same one with the same errors before it, and parsing does not succeed.", "quantifier": "every ledger, every syntax error in it, and every other ledger which agrees with it up to the token at which the first syntax error is", "why_tests_cant": "It compares a ledger with every other one that begins in the same way; and the place of the error is the result of all alternatives of the grammar that were tried.", "anchors": ["src/parsers.rs: file, declaration, directive, pragma, and everything they use; From<ParserError> for Error", "src/lib.rs: BeancountParser::parse, parse_declarations"]}
{"id": "C71", "title": "A syntax error names what is found at its place", "statement": "What a syntax error says is true of the text at its span: either it says that a certain token was found, and the text at the span is that token, named as it is written there but for the exceptions of C59; or it says why an account, tag, link, key, currency or booking method is not acceptable, and what is written there is one which is not acceptable for that reason, given the account types configured at some time; or it says that the end of the input was found, and is placed at the end of the file.", "quantifier": "every ledger of any number of files, and every syntax error in it", "why_tests_cant": "The token which is named and the span which is reported come together in one error out of all failures of the alternatives; a mismatch shows only for particular texts.", "anchors": ["src/parsers.rs: From<ParserError> for Error", "src/lexer.rs: impl Display for Token", "src/lib.rs: parse_declarations"]}
{"id": "C72", "title": "One ledger after another", "statement": "If two texts without includes are each parsed successfully, the first does not set the names of account types or the maximal number of lines of a string, and only one of them has options, then the one followed by the other is parsed successfully. Its directives are those of both in the order of C01, those of the first text before those of the second where that leaves it open; its plugins are those of the first and then those of the second, its options are those of the one which has some, and its warnings are those of both. Unless it is left open for two of them, the directives and options are the same whichever of the texts comes first. Shown too: if the first sets such a name, or both set the same option, parsing the two together may fail.", "quantifier": "every two texts which parse, of any length and layout", "why_tests_cant": "Tags and metadata pushed in the first text, its rules for names and strings, the order of dates and the recovery from errors all carry over to the second; a test tries a few pairs of texts.", "anchors": ["src/lib.rs: BeancountParser::parse, PragmaProcessor", "src/parsers.rs: file, declaration", "src/lexer.rs: lex, EolIndentHandler", "src/sort.rs: SortIteratorAdaptor"]}
{"id": "C73", "title": "A directive stands for itself", "statement": "Take the lines of one directive (a line which starts with a date, and the indented lines after it) out of a text without includes which is parsed successfully: what is left is parsed successfully, with the same directives in the same order but for the one at that place, the same options and plugins, and the same warnings but for those about strings in these lines. Put the lines of a directive, which can be parsed on their own, between two lines of such a text, the second not indented: the whole is parsed successfully with just that one directive more, if the lines before that place set neither names of account types nor the number of lines a string may have (if they do, parsing may fail, which is shown).", "quantifier": "every text, every place in it, and the lines of every directive", "why_tests_cant": "That no directive depends on another one is a statement about all pairs of texts which differ by one of them.", "anchors": ["src/lib.rs: BeancountParser::parse, PragmaProcessor", "src/parsers.rs: file, declaration, directive", "src/sort.rs: SortIteratorAdaptor"]}
{"id": "C74", "title": "Pushes around a ledger", "statement": "Put a line `pushtag #t` before a text without includes which is parsed successfully, and a line `poptag #t` after it: it is parsed successfully, with the same directives in the same order, each with the tag t in addition (no matter which tags are pushed and popped within the text, t among them), the same options and plugins and the same warnings. With `pushmeta k: v` and `popmeta k:` each directive has the value v for the key k in addition, unless it already has a value for k; there is a warning more just if v is a string too long.", "quantifier": "every text which is parsed successfully, every tag, every key and every value of it", "why_tests_cant": "What is pushed must reach every directive of any text, whatever is pushed and popped in it: a test looks at one.", "anchors": ["src/lib.rs: PragmaProcessor", "src/parsers.rs: pragma", "src/parsers.rs: Metadata::augment_tags, Metadata::augment_key_values"]}
{"id": "C75", "title": "Where a directive stands matters only among its equals", "statement": "Let two adjacent blocks of lines, with nothing but directives and plugins in them, change places in a text without includes which is parsed successfully: it is parsed successfully again, with the same options, the same warnings and the same directives, in the order which sorting those of the one block after those of the other gives: only directives of the two blocks with the same date and the same rank change their order, and if there are none of these the list of directives is the same. The plugins of the two blocks change places too. Hence any number of such blocks can be put into any order: the directives, plugins, options and warnings are the same, and if of any two directives one must precede the other they are in the same order. (If a tag is pushed in one of the blocks, or if two directives have the same date and rank, this is not so, which is shown.)", "quantifier": "every text which is parsed successfully, every two adjacent blocks of lines in it and every permutation of blocks", "why_tests_cant": "A statement about all pairs of texts which differ by the order of their lines.", "anchors": ["src/lib.rs: BeancountParser::parse, PragmaProcessor", "src/sort.rs: SortIteratorAdaptor, Sort"]}
{"id": "C76", "title": "Part of a ledger stands for itself", "statement": "Take a block of lines, with nothing but directives and plugins in them, out of a text without includes which is parsed successfully: what is left is parsed successfully, with just the directives and the plugins which are not from these lines, in the order they had, the same options, and the same warnings but for those about strings in these lines. If before the block nothing is pushed and neither names of account types nor the number of lines a string may have are set, the block on its own is parsed successfully as well, with just the directives, plugins and warnings which are missing from the rest. Conversely, put such a block which can be parsed on its own between two lines of such a text, the second not indented: the whole is parsed successfully, with the directives, plugins and warnings of both. (If a tag is pushed in the block, what is left may fail, which is shown.)", "quantifier": "every text which is parsed successfully and every block of lines in it", "why_tests_cant": "That the directives of a block depend on nothing else, and nothing else on them, is a statement about all pairs of texts which differ by such a block.", "anchors": ["src/lib.rs: BeancountParser::parse, PragmaProcessor", "src/parsers.rs: file, declaration, directive, pragma", "src/sort.rs: SortIteratorAdaptor, Sort"]}
{"id": "C77", "title": "An option or a plugin has no effect but what it says", "statement": "Take the line of an option, other than the names of the five account types and the number of lines a string may have, out of a text without includes which is parsed successfully: it is parsed successfully, with the same directives and plugins, and its options say the same in the same order but for exactly the value which this line gives to its option; the warnings are the same but for those about its strings. Put such a line, with a value which the option can have, between two lines of such a text, the second not indented: it is parsed successfully with just this one value more, unless the text already has an option with which it is in conflict. The line of a plugin can be taken out or put in, and nothing changes but that the plugin, with its configuration, is missing from its place among the plugins, or is there. (A conflicting option, and an option for the parser itself, can make a ledger fail, which is shown.)", "quantifier": "every text which is parsed successfully, every option and plugin, and every place in the text", "why_tests_cant": "That an option is stored under its own name and nowhere else, and that nothing else looks at it, is a statement about all options and all texts.", "anchors": ["src/options.rs: BeancountOption::parse, ParserOptions::assimilate, Options::assimilate, Options accessors", "src/lib.rs: BeancountParser::parse, PragmaProcessor", "src/parsers.rs: option, plugin"]}
{"id": "C78", "title": "Splitting a ledger into files changes nothing", "statement": "Take a text without includes which is parsed successfully, move pieces of it into files of their own, with an include in place of each, and pieces of these into further files, to any depth; one include may stand for several files, by a pattern, and then the piece in the last of them comes first. If each piece begins with a line which is not indented, no file is included twice, the other files set neither names of account types nor the number of lines a string may have nor the directory of documents, and the root file sets no such names or number after its first include, then the files are parsed successfully, with the same directives in the same order, the same options and plugins, and the same warnings but for those about the texts of includes which are too long. Hence, with C69, the files are parsed successfully if and only if the text is.", "quantifier": "every text which is parsed successfully and every way to spread it over files", "why_tests_cant": "There are more ways to spread a text over files than any test can try, and the files are parsed in an order other than that of the text.", "anchors": ["src/lib.rs: BeancountSources, BeancountParser::parse, PragmaProcessor", "src/parsers.rs: includes, file, declaration"]}
{"id": "C79", "title": "A correct ledger in front of a text changes none of its errors", "statement": "Put a text which is parsed successfully before one which is not, both without includes. If the first does not set the names of account types or the maximal number of lines of a string, and only one of them has options, then the two together are not parsed successfully, and the errors are just those of the second text: as many, about the same problems, and each syntax error at the same token, which now comes after those of the first text; the warnings are those of both. Hence, with C72, the whole is a failure if and only if the second text alone is. Shown too: if the first sets such a name, or both set the same option, there can be errors more.", "quantifier": "every text which is parsed successfully, and every text which is not, whatever is wrong with it", "why_tests_cant": "Recovery from an error depends on all tokens around it, on what is pushed and on the rules in force; that nothing before matters is a statement about all pairs of texts.", "anchors": ["src/lib.rs: BeancountParser::parse, PragmaProcessor", "src/parsers.rs: file, declaration, directive, pragma", "src/lexer.rs: lex"]}
{"id": "C80", "title": "Accounts and account types can be renamed", "statement": "Take a text without includes which is parsed successfully and does not itself set the names of account types or the number of lines a string may have. Rename its accounts, by any function which turns every account of a type into an account of that type: it is parsed successfully, and the directives are the same, in the same order, with the accounts in them renamed, in postings, in metadata, in pushed metadata and in values of custom directives alike; options, plugins and warnings are the same. The account types can be given other names too: with a text before it in which options name them, and in which there are no other options, the accounts being written under the new names, the whole is parsed successfully, its directives are those of both texts with the accounts renamed and their types the same, and the options are as before but for these names. (Two options by which two account types would exchange their names are refused, which is shown.)", "quantifier": "every text which is parsed successfully, every renaming of its accounts, and every choice of names for the account types", "why_tests_cant": "Accounts occur in any number of places of a directive; that each is read by the names in force, and that nothing else depends on how an account is called, is a statement about all texts and all renamings.", "anchors": ["src/parsers.rs: account, file, declaration, directive, pragma, option", "src/types.rs: Account, AccountTypeNames", "src/options.rs: ParserOptions::assimilate, BeancountOption::parse", "src/lib.rs: BeancountParser::parse, PragmaProcessor"]}
{"id": "C81", "title": "Currencies, tags, links and keys are just names", "statement": "Give other names to the currencies, tags, links and metadata keys of a text without includes which is parsed successfully, so that different ones keep different names and each is still written as such a thing can be: it is parsed successfully, with the same directives in the same order in which just these names are changed (in amounts, costs, prices, lists of currencies, metadata values, keys, pushed and popped tags and metadata), the same options and plugins, and the same warnings. In particular two of them can be exchanged, or one be replaced by one which is not there: then the one text is parsed successfully if and only if the other one is. (If two currencies become one, the text may be refused, which is shown.)", "quantifier": "every text which is parsed successfully and every renaming which keeps different names different", "why_tests_cant": "That nothing depends on how a currency or a tag is called is a statement about all pairs of texts which differ by these names.", "anchors": ["src/parsers.rs: currency, tag, link, key, amount, cost_spec, price_annotation, metadata, tags_links, pragma", "src/lib.rs: PragmaProcessor", "src/parsers.rs: Metadata::merge_tags, Metadata::merge_links, Metadata::augment_tags, Metadata::augment_key_values"]}
{"id": "C82", "title": "Of the dates only the order matters", "statement": "Put other dates in place of those of a text without includes which is parsed successfully, so that of any two different ones the earlier stays the earlier: it is parsed successfully, with the same directives in the same order, in which just the dates are changed (those of the directives, those in costs and those in metadata), the same options and plugins, and the same warnings. (If the order of the dates changes, the directives come out in another order, which is shown.)", "quantifier": "every text which is parsed successfully and every change of its dates which keeps their order", "why_tests_cant": "That nothing but the order of the directives depends on a date, and that only by comparing dates, is a statement about all pairs of texts which differ by their dates.", "anchors": ["src/parsers.rs: date, directive, cost_spec, metadata", "src/sort.rs: SortIteratorAdaptor, Sort", "src/lib.rs: BeancountParser::parse"]}
{"id": "C83", "title": "What a string says matters only in options and includes", "statement": "Put other strings in place of those of a text without includes which is parsed successfully, leaving alone those which belong to options and the names of booking methods, so that empty strings stay empty, others do not become empty, and the number of lines of each stays the same: it is parsed successfully, with the same directives in the same order in which just the strings are changed (payees, narrations, comments, paths of documents, events, queries, types of custom directives, labels in costs, values of metadata), the same options, the same plugins with these strings, and the same warnings. This can be done together with other names of currencies, tags, links and keys, and with other dates in the same order. (If an option is changed the text may be refused, and an empty payee is not the same as one which is not empty; both are shown.)", "quantifier": "every text which is parsed successfully and every such change of its strings", "why_tests_cant": "That nothing depends on what a string says, but for the places named, is a statement about all pairs of texts which differ by their strings.", "anchors": ["src/parsers.rs: string, transaction_header_line, note, document, event, query, custom, cost_spec, metadata, plugin, option", "src/lib.rs: BeancountParser::parse, PragmaProcessor", "src/sort.rs: Sort"]}
{"id": "C84", "title": "Names, dates and strings can be changed throughout a ledger of several files", "statement": "Replace each file of a ledger by one in which the currencies, tags, links, keys, dates and strings are changed as in C81 to C83, all files in the same way, leaving alone what options and includes say, and such that of any two dates in any of the files the earlier one stays earlier: the same files are included, the ledger is parsed successfully if it was, and the same comes out, with the same directives in the same order in which just these are changed, the same options, plugins and warnings. If they can be changed back in this way, one ledger is parsed successfully just when the other is. The files need not be laid out in the same way: it is enough to replace those words of the text which are names, dates and strings, and what is between words by anything allowed there. (If what an include says is changed another file is looked for, and it is not enough that the order of the dates is kept within each file; both are shown.)", "quantifier": "every ledger of any number of files which is parsed successfully, every way in which files are found, and every such change of all of them", "why_tests_cant": "Tags and metadata pushed in one file reach into others, and a file included again is harmless only if what is pushed agrees: that all this survives every consistent change is a statement about all pairs of ledgers, whatever the files and their includes.", "anchors": ["src/sources.rs: BeancountSources, read_with_includes", "src/lib.rs: BeancountParser::parse, PragmaProcessor", "src/parsers.rs: file, include, pushtag, pushmeta", "src/sort.rs: Sort"]}
{"id": "C85", "title": "Accounts can be renamed throughout a ledger of several files", "statement": "Replace each file of a ledger by one in which the accounts are renamed, in all files in the same way, such that each keeps its type (its first component), whatever the types are called: the same files are included, the ledger is parsed successfully if it was, and the same comes out, with the same directives in the same order in which just the accounts are renamed, the same options, plugins and warnings. The files may set options, also ones which name account types, and need not be laid out in the same way: it is enough to replace those words of the text which are accounts. If the accounts can be renamed back, one ledger is parsed successfully just when the other is. (It is not enough to keep the types which there are without options; this is shown.)", "quantifier": "every ledger of any number of files which is parsed successfully, every way in which files are found, and every such renaming of accounts", "why_tests_cant": "Which accounts are accepted depends on options met earlier, possibly in other files: that renaming is harmless whatever these are is a statement about all ledgers and all renamings.", "anchors": ["src/types.rs: Account, AccountName", "src/options.rs: ParserOptions", "src/parsers.rs: account, file", "src/lib.rs: BeancountParser::parse, PragmaProcessor"]}
{"id": "C86", "title": "Numbers can be changed throughout a ledger", "statement": "Replace the numbers in a ledger without includes, each number by another one wherever it occurs, leaving all else: the ledger is parsed successfully if it was, as long as every expression in either text, and every part of one, can be calculated, and the same comes out: the same directives in the same order, each expression being the same one of the new numbers with what that comes to, in amounts, tolerances, costs, prices and metadata, also in metadata which is pushed, and the same options, plugins and warnings. Where no operator follows a number or a closing parenthesis nothing needs to be calculated, so any numbers can take the place of any others. If a divisor becomes zero instead, parsing panics.", "quantifier": "every text of a ledger without includes which is parsed successfully, every function from numbers to numbers, and all arithmetic the decimals may have", "why_tests_cant": "Numbers occur in many places, and how far an expression reads must not depend on its value: this is a statement about all ledgers and all replacements of numbers.", "anchors": ["src/parsers.rs: expr, expr_value, amount, compound_amount, cost_spec, price_annotation, meta_value, file", "src/types.rs: Expr, ExprValue", "src/lib.rs: BeancountParser::parse"]}
{"id": "C87", "title": "Numbers can be changed throughout a ledger of several files", "statement": "Replace each file of a ledger by one in which the numbers are others, in all files in the same way, and in which every expression, and every part of one, can be calculated as it could before: the same files are included, the ledger is parsed successfully if it was, and the same comes out, with the same directives in the same order, each expression being the same one of the new numbers with what that comes to, also in metadata which is pushed in one file and reaches others, the same options, plugins and warnings. The files need not be laid out in the same way: it is enough to replace those words of the text which are numbers. Where no operator follows a number or a closing parenthesis any numbers can take the place of any others. If they can be changed back, one ledger is parsed successfully just when the other is.", "quantifier": "every ledger of any number of files which is parsed successfully, every way in which files are found, every function from numbers to numbers, and all arithmetic the decimals may have", "why_tests_cant": "Whether a file which is included again is harmless depends on whether what is pushed has the same value, which must not be disturbed by numbers becoming equal or different: this is a statement about all ledgers and all replacements of numbers.", "anchors": ["src/sources.rs: BeancountSources, read_with_includes", "src/lib.rs: BeancountParser::parse, PragmaProcessor", "src/parsers.rs: expr_value, meta_value, pushmeta, file"]}
