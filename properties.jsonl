{"id": "C01", "title": "Version ordering is a total order that agrees with equality", "statement": "Comparing two versions with `Ord` is reflexive, antisymmetric, transitive and total, and the result is Equal exactly when the two versions are `==` (same numbers, same pre-release, same build metadata).", "quantifier": "all versions (any u32 fields, any pre-release / build-metadata strings)", "why_tests_cant": "Order laws quantify over pairs and triples of arbitrary strings; sorting crates relies on all of them.", "anchors": ["crates/semver/src/lib.rs: Version, Prerelease::cmp, BuildMetadata::cmp"]}
{"id": "C02", "title": "Pre-release precedence is SemVer 2.0 precedence", "statement": "Ordering of pre-releases is SemVer item 11: a release sorts above its pre-releases; dot separated identifiers compare left to right, numeric ones by value, alphanumeric ones by ASCII, numeric below alphanumeric, and a longer list wins when all preceding identifiers are equal.", "quantifier": "all pairs of pre-release strings that the parser accepts", "why_tests_cant": "The domain is infinite; a test samples a handful of inputs.", "anchors": ["crates/semver/src/lib.rs: Prerelease::cmp"]}
{"id": "C03", "title": "Build metadata ordering is numeric-aware and refines numeric value", "statement": "Build-metadata identifiers compare left to right; all-digit ones by numeric value and then by number of leading zeros (0 < 00 < 1 < 01 < 001 < 2), below alphanumeric ones; the order is total and Equal only for identical strings.", "quantifier": "all pairs of build-metadata strings", "why_tests_cant": "The domain is infinite; a test samples a handful of inputs.", "anchors": ["crates/semver/src/lib.rs: BuildMetadata::cmp"]}
{"id": "C04", "title": "parse_version accepts exactly the SemVer grammar and returns what was written", "statement": "A string parses as a version iff, after dropping surrounding spaces, it is `major.minor.patch[-pre][+build]` with no leading zeros, fields in u32 and non-empty valid identifiers; the result holds exactly those numbers and strings. Every other string is an error.", "quantifier": "all strings", "why_tests_cant": "The domain is infinite; a test samples a handful of inputs.", "anchors": ["crates/semver/src/parse.rs: parse_version, parse_int, parse_ident, expect_dot"]}
{"id": "C05", "title": "Numbers above u32::MAX are rejected", "statement": "A numeric field whose value does not fit in u32 makes parsing fail with an IntOverflow error covering the digits; parsing never panics and never returns a wrapped number.", "quantifier": "all digit strings", "why_tests_cant": "Only a few values around the boundary distinguish a checked multiply from a checked multiply-and-add.", "anchors": ["crates/semver/src/parse.rs: parse_int"]}
{"id": "C06", "title": "Version text round-trips", "statement": "Displaying a parsed version gives the input without its surrounding spaces, and parsing the display of any version the parser can produce gives that version back.", "quantifier": "all accepted strings / all producible versions", "why_tests_cant": "The domain is infinite; a test samples a handful of inputs.", "anchors": ["crates/semver/src/display.rs: Display for Version", "crates/semver/src/parse.rs: parse_version"]}
{"id": "C07", "title": "parse_requirement accepts exactly the requirement grammar", "statement": "A string parses as a requirement iff it is a lone wildcard, or a comma separated list of at most 32 comparators (operator, spaces, partial version) with spaces allowed around each part and no trailing comma; the result lists exactly those comparators.", "quantifier": "all strings", "why_tests_cant": "The domain is infinite; a test samples a handful of inputs.", "anchors": ["crates/semver/src/parse.rs: parse_requirement, comp_version"]}
{"id": "C08", "title": "Requirement display reproduces the source text", "statement": "Displaying a parsed requirement with `{}` gives the exact input including all spaces, and with `{:#}` the input without surrounding spaces; the padding arithmetic never underflows.", "quantifier": "all accepted requirement strings", "why_tests_cant": "Depends on every combination of spaces, operators and versions; the fuzz target only samples.", "anchors": ["crates/semver/src/display.rs: fmt_requirement, fmt_comparator, fmt_comp_version", "fuzz/fuzz_targets/fuzz_semver.rs"]}
{"id": "C09", "title": "Requirement offsets locate their text", "statement": "For every parsed requirement the operator, version and comma offsets of each comparator are increasing, lie inside the input, and point at the corresponding characters of the input.", "quantifier": "all accepted requirement strings", "why_tests_cant": "The domain is infinite; a test samples a handful of inputs.", "anchors": ["crates/semver/src/lib.rs: Comparator", "crates/semver/src/parse.rs: parse_requirement"]}
{"id": "C10", "title": "Matching a parsed requirement never panics", "statement": "Evaluating any requirement returned by the parser (or any of its comparators) against any version returns a boolean; the `unreachable!` branches of the evaluator are never reached.", "quantifier": "all accepted requirement strings, all versions", "why_tests_cant": "The panic depends on the combination of operator and version shape the parser can emit.", "anchors": ["crates/semver/src/eval.rs: matches_greater, matches_less, matches_caret", "crates/semver/src/parse.rs: parse_requirement"]}
{"id": "C11", "title": "Comparators denote the documented version intervals", "statement": "A comparator accepts a release version iff the version lies in the interval Cargo documents for it (`^`/blank: up to the next left-most non-zero change, `~`: up to the next minor or major, `=`/wildcards: the named prefix, `<,<=,>,>=`: against the bounds of the named prefix).", "quantifier": "all comparators the parser can produce, all versions", "why_tests_cant": "The domain is infinite; a test samples a handful of inputs.", "anchors": ["crates/semver/src/eval.rs: matches_impl"]}
{"id": "C12", "title": "Pre-release versions need an explicit opt-in", "statement": "A version with a pre-release tag satisfies a requirement only if some comparator names the same major.minor.patch with a pre-release tag; a release version is unaffected by this rule.", "quantifier": "all requirements and versions", "why_tests_cant": "The domain is infinite; a test samples a handful of inputs.", "anchors": ["crates/semver/src/eval.rs: matches_requirement, pre_is_compatible"]}
{"id": "C13", "title": "A requirement is the conjunction of its comparators", "statement": "A requirement accepts a release version iff each comparator does; the answer does not depend on the order or duplication of comparators; a one-comparator requirement agrees with that comparator's own `matches`.", "quantifier": "all requirements and versions", "why_tests_cant": "The domain is infinite; a test samples a handful of inputs.", "anchors": ["crates/semver/src/eval.rs: matches_requirement, matches_comparator"]}
{"id": "C14", "title": "Build metadata never influences matching", "statement": "Changing the build metadata of the version, or of any comparator, does not change whether the requirement matches.", "quantifier": "all requirements and versions", "why_tests_cant": "The domain is infinite; a test samples a handful of inputs.", "anchors": ["crates/semver/src/eval.rs"]}
{"id": "C15", "title": "Semver errors point at what they say", "statement": "Every error returned by the version and requirement parsers marks whole characters of the input, on its line, and the marked text is what the error says it is: the quoted character or trailing text is the one that stands there, the missing part is missing right there, the named number is the major, minor or patch number by the dots in front of it, an overflowing number does not fit, and so on for every kind of error. (The part named for trailing characters is wrong; this is recorded as refuted.)", "quantifier": "all valid UTF-8 strings, start positions and build profiles", "why_tests_cant": "The domain is infinite; a test samples a handful of inputs.", "anchors": ["crates/semver/src/parse.rs", "crates/semver/src/error.rs: Diagnostic::span"]}
{"id": "C16", "title": "InlineStr stores and returns any identifier string", "statement": "Creating an inline string from any string of non-NUL ASCII and reading it back gives the same bytes, whatever its length; its emptiness and equality agree with those of the bytes; cloning gives an equal, independent string; dropping every clone frees every allocation exactly once and no live string is ever freed.", "quantifier": "all strings, all sequences of create / clone / drop / read operations", "why_tests_cant": "Memory layout bugs show up only for particular lengths, bytes and operation orders.", "anchors": ["crates/semver/src/inlinestr.rs"]}
{"id": "C17", "title": "Positions are totally ordered in reading order", "statement": "Positions are ordered by line and then by column; moving a position along a line by n and back gives the original position; the order of two positions on a line is that of their columns.", "quantifier": "all positions", "why_tests_cant": "The domain is infinite; a test samples a handful of inputs.", "anchors": ["crates/common/src/lib.rs: Pos, Span"]}
{"id": "C18", "title": "Rolling back diagnostics restores the earlier state", "statement": "Taking a mark, reporting any diagnostics and resetting to the mark leaves exactly the errors, warnings and infos that were there when the mark was taken.", "quantifier": "all sequences of diagnostics before and after the mark", "why_tests_cant": "Quantifies over histories.", "anchors": ["crates/common/src/diagnostic.rs: Diagnostics::mark, reset"]}
{"id": "C19", "title": "Diagnostics are displayed in source order without loss", "statement": "Sorting diagnostics permutes them into non-decreasing start position and keeps the relative order of those that start at the same position.", "quantifier": "all diagnostic lists", "why_tests_cant": "The domain is infinite; a test samples a handful of inputs.", "anchors": ["crates/common/src/diagnostic.rs: sort_diagnostics"]}
{"id": "C20", "title": "The lexer is total and its literal texts come from the input", "statement": "Lexing terminates without panic on every input; the token stream ends in a single EOF; the text stored for every token is the corresponding slice of the input.", "quantifier": "all inputs (sequences of unicode scalar values)", "why_tests_cant": "Slicing panics depend on where multi-byte characters fall.", "anchors": ["crates/toml/src/lex.rs: lex, Lexer"]}
{"id": "C21", "title": "Token positions are true positions", "statement": "The position of every token is the line number (count of preceding newlines) and byte offset within the line of its first character; token positions strictly increase.", "quantifier": "all inputs", "why_tests_cant": "The domain is infinite; a test samples a handful of inputs.", "anchors": ["crates/toml/src/lex.rs: Lexer::next_token, CharIter"]}
{"id": "C22", "title": "No input character is lost by the lexer", "statement": "Concatenating, in order, the source text of all tokens and the skipped blanks gives the input back.", "quantifier": "all inputs", "why_tests_cant": "The domain is infinite; a test samples a handful of inputs.", "anchors": ["crates/toml/src/lex.rs"]}
{"id": "C23", "title": "Strings denote exactly the characters written", "statement": "For every string value, writing it as a basic string (escaping quotes, backslashes and control characters) or, when allowed, as a literal string, and lexing it reports no error and yields exactly that value; for every accepted string literal the value is the TOML unescaping of its text.", "quantifier": "all string values", "why_tests_cant": "The domain is infinite; a test samples a handful of inputs.", "anchors": ["crates/toml/src/lex.rs: string, basic_escape, unicode_escape"]}
{"id": "C24", "title": "Illegal string content is always reported", "statement": "A string containing an illegal escape sequence, a code point that is not a unicode scalar value, or that is not closed, always yields an error diagnostic.", "quantifier": "all inputs", "why_tests_cant": "The domain is infinite; a test samples a handful of inputs.", "anchors": ["crates/toml/src/lex.rs: string"]}
{"id": "C25", "title": "Decimal integers are read exactly or rejected", "statement": "A decimal integer literal with correctly placed underscores is read as its exact value when it fits in i64 and reported as overflowing otherwise; leading zeros are reported.", "quantifier": "all digit strings", "why_tests_cant": "The domain is infinite; a test samples a handful of inputs.", "anchors": ["crates/toml/src/parse/num.rs"]}
{"id": "C26", "title": "Prefixed integers are read exactly or rejected", "statement": "A hexadecimal, octal or binary literal is read as its exact value when it fits in i64 and reported as overflowing otherwise.", "quantifier": "all digit strings", "why_tests_cant": "The domain is infinite; a test samples a handful of inputs.", "anchors": ["crates/toml/src/parse/num.rs: parse_prefixed_int_literal"]}
{"id": "C27", "title": "Underscores in numbers are only allowed between digits", "statement": "A number in which an underscore is not surrounded by digits is reported as an error; otherwise removing the underscores does not change the value.", "quantifier": "all literals", "why_tests_cant": "The domain is infinite; a test samples a handful of inputs.", "anchors": ["crates/toml/src/parse/num.rs"]}
{"id": "C28", "title": "Floats follow the TOML float grammar", "statement": "A literal is accepted as a float iff it matches the TOML float grammar (integer part, optional fraction, optional exponent, inf and nan), and its value is that of its text with underscores removed.", "quantifier": "all literals", "why_tests_cant": "The domain is infinite; a test samples a handful of inputs.", "anchors": ["crates/toml/src/parse/num.rs", "crates/toml/src/parse/lit.rs"]}
{"id": "C29", "title": "Accepted dates and times are valid calendar values", "statement": "Every accepted date has month 1-12 and a day valid in that month including leap years, every time has hour<24, minute<60, second<=60, and the fields are the digits written.", "quantifier": "all literals", "why_tests_cant": "The domain is infinite; a test samples a handful of inputs.", "anchors": ["crates/toml/src/parse/datetime.rs"]}
{"id": "C30", "title": "Date-time literals are rejected when malformed", "statement": "A literal that is not exactly an RFC 3339 date, time or date-time is reported as an error rather than silently accepted.", "quantifier": "all literals", "why_tests_cant": "The domain is infinite; a test samples a handful of inputs.", "anchors": ["crates/toml/src/parse/datetime.rs"]}
{"id": "C31", "title": "Parsing never panics", "statement": "Parsing any token sequence produced by the lexer terminates without panicking.", "quantifier": "all inputs", "why_tests_cant": "Panics depend on rare combinations of tokens and positions.", "anchors": ["crates/toml/src/parse.rs"]}
{"id": "C32", "title": "Nesting depth is bounded", "statement": "Values nested deeper than the recursion limit are reported as an error and never overflow the stack; the recursion depth of the parser never exceeds the limit.", "quantifier": "all inputs", "why_tests_cant": "Unbounded nesting.", "anchors": ["crates/toml/src/parse.rs: RECURSION_LIMIT"]}
{"id": "C33", "title": "Every comment is kept and attached once", "statement": "Each comment token of the document ends up in the parsed document exactly once, in order.", "quantifier": "all documents", "why_tests_cant": "The domain is infinite; a test samples a handful of inputs.", "anchors": ["crates/toml/src/parse.rs: comment handling"]}
{"id": "C34", "title": "Well-formed documents parse to what they say", "statement": "For every abstract TOML document, parsing its written form yields no errors and exactly its headers, keys and values in order.", "quantifier": "all abstract documents", "why_tests_cant": "The domain is infinite; a test samples a handful of inputs.", "anchors": ["crates/toml/src/parse.rs"]}
{"id": "C35", "title": "Path indices in the document map are valid", "statement": "Every reference stored in the document map from an entry to its defining header, key or array points to an existing definition, so looking up the source lines of any entry never fails.", "quantifier": "all documents", "why_tests_cant": "Invariant over arbitrary insert sequences.", "anchors": ["crates/toml/src/map.rs: ParentId, collect_lines"]}
{"id": "C36", "title": "The document map contains exactly the assigned values", "statement": "If mapping a document reports no errors, looking up any path gives the value assigned to that path, and no other value paths exist.", "quantifier": "all documents", "why_tests_cant": "The domain is infinite; a test samples a handful of inputs.", "anchors": ["crates/toml/src/map.rs: map"]}
{"id": "C37", "title": "Duplicate definitions are errors and the first one wins", "statement": "Assigning a key that already has a value, or redefining a table, is reported as an error and leaves the earlier definition in place.", "quantifier": "all documents", "why_tests_cant": "The domain is infinite; a test samples a handful of inputs.", "anchors": ["crates/toml/src/map.rs"]}
{"id": "C38", "title": "Mapping only adds: errors never remove entries", "statement": "Processing a further statement of a document never removes or changes the value found at a path that was already present.", "quantifier": "all documents", "why_tests_cant": "Invariant over histories.", "anchors": ["crates/toml/src/map.rs"]}
{"id": "C39", "title": "Dependencies are extracted with their section's kind and target", "statement": "Checking a manifest lists exactly one dependency for every entry that is a string or a table in a dependency section (dependencies, dev-dependencies, build-dependencies, the old underscore names if the new name is absent; at the top or under target.<name>), and nothing else; the dependency carries that section's kind and target, the key's name, and the version, source, features and flags that its keys say.", "quantifier": "all manifests", "why_tests_cant": "The domain is infinite; a test samples a handful of inputs.", "anchors": ["crates/ide/src/check.rs"]}
{"id": "C40", "title": "Dependency source conflicts are reported", "statement": "A dependency with a git source and a registry or path, or with two of branch, tag and rev, is reported with an error at each of the conflicting keys and listed as conflicting; branch, tag or rev without git is an error; a source key beside `workspace = true` is a warning at that key; `workspace = false` is an error. These are reported for no other dependency.", "quantifier": "all dependency tables", "why_tests_cant": "The domain is infinite; a test samples a handful of inputs.", "anchors": ["crates/ide/src/check.rs"]}
{"id": "C41", "title": "Sparse index addresses follow the registry layout", "statement": "The index address of a crate is `1/n`, `2/nn`, `3/n/nnn` or `ab/cd/abcd…` for the name as given; every non-empty ASCII name has one, distinct names have distinct ones, and the only names for which computing it fails are the empty one and those with a character across a cut of the layout. The layout's lower-casing is not done.", "quantifier": "all crate names", "why_tests_cant": "The domain is infinite; a test samples a handful of inputs.", "anchors": ["crates/ide/src/index/fetch.rs: sparse_index_url"]}
{"id": "C42", "title": "Fetched crates list versions in order with normalised features", "statement": "A response is accepted exactly if it has a line, every line decodes and all lines have one name; the crate's versions are then one per line, in semver order (lines with equal versions in the order of the lines); each version's features are those of its line, by name, with sorted members in normalised form (a plain name of an optional dependency becomes `dep:name`), `default` kept apart. Of a feature in both `features` and `features2` only the members of the latter are kept.", "quantifier": "all index responses and all line decoders", "why_tests_cant": "Order, completeness and error cases range over unbounded responses.", "anchors": ["crates/ide/src/index/fetch.rs: parse_crate", "crates/ide/src/index.rs"]}
{"id": "C43", "title": "Feature member ordering is a total order that agrees with equality", "statement": "Comparing feature members is a total order; Equal only for equal members.", "quantifier": "all feature members", "why_tests_cant": "The domain is infinite; a test samples a handful of inputs.", "anchors": ["crates/ide/src/index.rs"]}
{"id": "C44", "title": "Splitting text into lines", "statement": "Splitting a text into lines cuts it exactly at each \\n, drops one \\r directly before that \\n, and produces no final empty line.", "quantifier": "all texts", "why_tests_cant": "The domain is infinite; diagnostics slice these lines by position.", "anchors": ["crates/common/src/lib.rs"]}
{"id": "C45", "title": "Text shown in messages contains no control characters", "statement": "Quoting source text in a message escapes every control character, and leaves text without control characters unchanged.", "quantifier": "all texts", "why_tests_cant": "The domain is infinite; a test samples a handful of characters.", "anchors": ["crates/common/src/lib.rs: FmtStr, FmtChar"]}
{"id": "C46", "title": "Literal errors mark what they are about", "statement": "Reading a non-empty literal never panics, and the span of every error reported for it marks whole characters of the literal: it begins before one of them and ends after one of them (or is empty). The error is true of the literal: what comes before the marked characters is a well-formed literal up to the part the error names (sign, integer digits, fraction, exponent, digits of a radix, or a date-time up to the named field), the marked characters are the ones the error names, and they are wrong there: a character that is no digit of that part, a leading zero before another digit, a doubled or trailing underscore after a digit, a radix in capitals or behind a sign, a keyword misspelt at exactly that letter, a field with two digits outside the stated bounds (which are the bounds of that field, for days those of the month), a missing field, separator or fraction, an integer outside 64 bits.", "quantifier": "all literals (any characters) and positions", "why_tests_cant": "needs every malformed literal; off-by-one column bugs only show on particular shapes", "anchors": ["crates/toml/src/parse/lit.rs: parse_literal", "crates/toml/src/parse/num.rs", "crates/toml/src/parse/datetime.rs", "crates/toml/src/error.rs: LitPart, DateTimeField"]}
{"id": "C47", "title": "Only `true` and `false` are booleans", "statement": "A literal is read as a boolean exactly when it is `true` or `false`, with that value.", "quantifier": "all literals", "why_tests_cant": "negative half ranges over all other texts", "anchors": ["crates/toml/src/parse/lit.rs: parse_literal, parse_bare_literal"]}
{"id": "C48", "title": "Lexer diagnostics mark the offending text", "statement": "The span of every diagnostic of the lexer is exactly the text it is about: the illegal character, the escape sequence from its backslash, the unclosed string from its opening quote, the surplus quotes.", "quantifier": "all inputs, all diagnostics", "why_tests_cant": "Depends on multi-byte characters, line endings and nesting of escapes at arbitrary places.", "anchors": ["crates/toml/src/lex.rs: string, string_escape, comment", "crates/toml/src/error.rs: Error::span"]}
{"id": "C49", "title": "The extent of a string value is where its text stands", "statement": "The text span computed for a string literal starts just after the opening delimiter (and the line break trimmed there) and ends just before the closing delimiter.", "quantifier": "all accepted string literals at all positions", "why_tests_cant": "Depends on column, delimiter and trimmed line break together.", "anchors": ["crates/toml/src/lex.rs: StringToken::new, TextOffset::apply_to", "crates/toml/src/parse.rs: StringVal::text_span"]}
{"id": "C50", "title": "Syntax tree nodes stand where their text is", "statement": "Every key, bracket, equals sign, comma, value and comment of the syntax tree carries the position (and, for texts, the exact slice) of its text in the document; a number, boolean or date in the tree is the value its slice denotes; comment ranges of nodes refer to stored comments.", "quantifier": "all documents, including malformed ones for which a tree is returned", "why_tests_cant": "Positions depend on everything before them: multi-byte characters, line endings, strings that span lines, error recovery.", "anchors": ["crates/toml/src/parse.rs: parse, parse_value, parse_key, combine_adjacent_value, Parser::comment", "crates/toml/src/lex.rs: tokens"]}
{"id": "C51", "title": "All diagnostics mark what they are about in the document", "statement": "The span of every error reported by lexer and parser begins and ends at positions of characters of the document (or at its end), never in the middle of a character or past a line's end, and does not end before it starts; the marked text is what the error says: an 'expected X, found Y' names the text it marks (escaped), a line break, a comment or the end of the document; an illegal character or a misplaced space, comma or underscore is marked itself. The only exceptions are an illegal character in a comment, where the first byte of the preceding character is marked, and a closing curly bracket, which is named as an opening one. An error about a missing closing bracket carries a hint that stands on an opening bracket of the same kind.", "quantifier": "all documents", "why_tests_cant": "Error recovery can stop anywhere; positions are computed by hand in dozens of places.", "anchors": ["crates/toml/src/parse.rs: token_span, all Error constructions", "crates/toml/src/error.rs: Error::span"]}
{"id": "C52", "title": "Comments directly above a statement belong to it", "statement": "The comments marked as standing above a statement (assignment, table header, array header) are exactly the longest block of comment lines that ends right above the line on which the statement starts; every other comment in its range comes on that line or later.", "quantifier": "all documents without errors, all statements, any number of comments", "why_tests_cant": "Depends on line distances between arbitrarily many comments, and on no later statement changing what was stored before.", "anchors": ["crates/toml/src/parse.rs: parse, find_associated_comments, store_comments, Table::append_comment, mark_comments_above"]}
{"id": "C53", "title": "Messages about conflicting keys name and point at both keys", "statement": "Every error reported while mapping names the place that two keys of the document spell, the first of them earlier, lists in order and once each the lines of the keys enclosing them, and points at the later key and at the earlier key or its statement. Both places are in the document, the earlier one starts before the later one, and the context lines are lines of the document that begin before the error.", "quantifier": "all documents that parse, with any errors", "why_tests_cant": "Which earlier definition is named and which context lines are shown depends on the history of headers and dotted keys; tests show a few.", "anchors": ["crates/toml/src/map.rs: duplicate_key_error, get_table_to_extend, context_lines, joined_path"]}
{"id": "C54", "title": "Checking a manifest fails only on overflowing version numbers", "statement": "For every text, checking its manifest returns dependencies and diagnostics, except in a build with overflow checks when the version of a dependency contains a number from 4294967296 to 4294967299; in a release build it always returns.", "quantifier": "all texts, including malformed manifests", "why_tests_cant": "Whether any document, however malformed, reaches an unwrap/unreachable in the checks cannot be sampled.", "anchors": ["crates/ide/src/check.rs: check, parse_dependencies, parse_dependency, parse_version_req", "crates/semver/src/parse.rs"]}
{"id": "C55", "title": "Manifest diagnostics are exact", "statement": "The diagnostics of checking a manifest are exactly: wrong types of the known keys (each definition of the key, with its path, span and the lines of its enclosing keys), unknown keys, old underscore keys, missing, conflicting or ignored sources, non-string features and versions that are no requirement; nothing that is wrong is missed and nothing else is reported.", "quantifier": "all texts and all diagnostics", "why_tests_cant": "Absence of missed or spurious diagnostics quantifies over all documents.", "anchors": ["crates/ide/src/check.rs", "crates/ide/src/cargo.rs", "crates/toml/src/map.rs"]}
{"id": "C56", "title": "Displaying a diagnostic panics exactly on spans off the text", "statement": "Displaying a diagnostic on the lines of a text panics exactly when the span of the diagnostic or of its hint does not start and end at whole characters of existing lines; context lines never make it panic. A position of a document is on its lines, except between the characters of a CRLF.", "quantifier": "all diagnostics, texts, context lines and width functions", "why_tests_cant": "Off-by-one slices at byte columns fail only on particular multi-byte characters, line ends and spans.", "anchors": ["crates/common/src/diagnostic.rs: display, display_header, display_body, display_context_lines, lines"]}
{"id": "C57", "title": "A displayed diagnostic shows the right lines", "statement": "The displayed text is the heading (severity, message, line from one, characters before it), then the hint and the diagnostic in the order they start in the text, each line of their spans with the spanned part underlined and the annotation on the last, and before each the context lines that come before it and after what is already shown, once each and in order.", "quantifier": "all diagnostics with spans on the text", "why_tests_cant": "Combinations of multi-line spans, hints before/after and context lines are unbounded.", "anchors": ["crates/common/src/diagnostic.rs: display, display_body, display_line"]}
{"id": "C58", "title": "Underlines stand below the text they mark, without control characters", "statement": "On lines up to number 9999 the underline starts at the column where the marked text starts and is as wide as it, at least one column, whatever characters precede it; and no control character of the source but the tab reaches the terminal.", "quantifier": "all lines, spans and per-character widths", "why_tests_cant": "Alignment must hold for every mix of wide, zero-width and control characters.", "anchors": ["crates/common/src/diagnostic.rs: calc_width, display_line, display_body"]}
{"id": "C59", "title": "The syntax tree is in document order and nothing overlaps", "statement": "The names, dots, equals signs, values, commas and brackets of the syntax tree, read from left to right, stand in the document in this order, each inside the document and none overlapping another; so nothing of the document appears twice in the tree and no part of one statement lies inside another.", "quantifier": "all documents, including malformed ones for which a tree is returned", "why_tests_cant": "Order and disjointness relate every two nodes of trees of any size, also after error recovery.", "anchors": ["crates/toml/src/parse.rs: parse, parse_value, parse_key, parse_array_value, parse_inline_table, TableHeader, ArrayHeader, Assignment"]}
{"id": "C60", "title": "Manifest diagnostics point at text of the manifest", "statement": "Every error and warning of checking a Cargo.toml has a span that lies in the text, lists only lines of the text in increasing order, and its hint points into the text. An error in a version requirement that is written without escapes and on one line marks exactly the part of the requirement it talks about.", "quantifier": "every text of unicode scalar values whose parse does not crash, every build profile", "why_tests_cant": "needs every shape of manifest, every malformed value and every requirement error at once", "anchors": ["crates/ide/src/check.rs", "crates/ide/src/cargo.rs", "crates/semver/src/error.rs"]}
{"id": "C61", "title": "The command line tool crashes only as described", "statement": "ctoml ends with its output, or crashes because parsing or checking crashes or a diagnostic points between the halves of a line break or into a character. A text of printable characters, tabs and line feeds is never a reason to crash for validate, unless a header has a string over several lines; nor for check, if requirements are written verbatim.", "quantifier": "every text, mode, build profile and character width function", "why_tests_cant": "crashes depend on the combination of lexer, parser, map, check and display", "anchors": ["crates/cli/src/main.rs", "crates/common/src/diagnostic.rs"]}
{"id": "C62", "title": "The tool prints one message per diagnostic, in order", "statement": "ctoml prints the value and then, for every error and then every warning, one message with the documented layout; both lists are ordered by where they start, and diagnostics that start at the same place keep their order.", "quantifier": "every text, mode and build profile on which the tool does not crash", "why_tests_cant": "holds for every number and order of diagnostics", "anchors": ["crates/cli/src/main.rs", "crates/common/src/diagnostic.rs"]}
{"id": "C63", "title": "No message contains a control character of the file", "statement": "Besides the colors of the tool itself, no message of ctoml contains a control character other than tab and line feed, whatever the file, keys, strings or requirements contain.", "quantifier": "every text, mode and build profile", "why_tests_cant": "a file can contain any control character at any place that is quoted in a message", "anchors": ["crates/common/src/lib.rs FmtStr", "crates/toml/src/error.rs", "crates/semver/src/error.rs", "crates/ide/src/cargo.rs"]}
{"id": "C64", "title": "The value of a TOML document is what its statements say", "statement": "A document of the TOML grammar is parsed without errors; conflicting declarations are reported exactly if there are some; and if not, the value has at every place exactly what is declared there and nothing else.", "quantifier": "every document of the grammar", "why_tests_cant": "quantifies over all documents and all places in them", "anchors": ["crates/toml/src/parse.rs", "crates/toml/src/map.rs", "crates/toml/src/util.rs map_simple"]}
{"id": "C65", "title": "validate is silent exactly on valid TOML", "statement": "ctoml validate prints no message exactly if the text is a document of the TOML grammar (as C34) without conflicting declarations; it then prints its value.", "quantifier": "every text of unicode scalar values", "why_tests_cant": "an equivalence over all texts", "anchors": ["crates/cli/src/main.rs", "crates/toml/src"]}
{"id": "C66", "title": "Buffer diagnostics: the same ones, placed in the buffer", "statement": "Checking the lines of a buffer reports exactly the syntax, mapping and manifest errors and warnings of the lines joined by line feeds, with their messages, lines and byte columns. Every warning covers a part of the buffer (start before end, columns between characters), or may end at the start of the line after the last one; so does every error, except errors about characters in comments (C51) and errors in version requirements written with escapes or over lines (C60).", "quantifier": "every list of lines, every profile", "why_tests_cant": "a relation between every buffer and every diagnostic", "anchors": ["crates/nvim/src/lib.rs", "crates/ide/src/check.rs"]}
{"id": "C67", "title": "Fetching a crate gives what the index says, or why not", "statement": "Fetching a crate requests the address of its name (C41). A response with a status from 200 to 299 whose body is text with at least one line, each line describing a version (C69) of one name, gives a crate of that name with these versions in semver order. Otherwise the error names the crate and the address and says which: the request failed, status 404, another status, not UTF-8, an empty body, a line that describes no version, or two lines with different names. No other outcome is possible for an ASCII name whose address is accepted, unless a version number in the text is near 2^32 (C05). The name of the crate that is found is not compared with the requested one.", "quantifier": "all names, responses and JSON readers", "why_tests_cant": "every response", "anchors": ["crates/ide/src/index/fetch.rs: fetch_crate, parse_crate", "crates/ide/src/index.rs: sparse_index_url, Crate"]}
{"id": "C68", "title": "Versions and requirements in JSON", "statement": "A version is written to JSON as its text and read back as itself; a requirement that was read is written back as exactly the same text. Exactly the versions and requirements of the grammar are read; anything else gives the message of an error that is true of the text (C15).", "quantifier": "every version, requirement and string", "why_tests_cant": "infinitely many strings", "anchors": ["crates/semver/src/serde.rs"]}
{"id": "C69", "title": "What a line of the index means", "statement": "A line is read as a version exactly if it is JSON that describes one: an object with each of the required members once and the optional ones at most once, in any order and among unknown ones, each of its type (versions and requirements of the grammar; name and features without escapes), or an array of all members in order; features given twice count with their last members at their first place. Reading panics only in debug builds and only on a number near 2^32. A `rust_version` without patch number, as crates.io writes them, makes the line unreadable.", "quantifier": "every JSON value", "why_tests_cant": "members in every order, of every type, repeated or absent", "anchors": ["crates/ide/src/index/fetch.rs: VersionDeserialize", "crates/ide/src/index.rs: Dependency, DependencyKind", "crates/semver/src/serde.rs"]}
{"id": "C70", "title": "Messages are right about what they mark", "statement": "The description, annotation and hint of every diagnostic is true of the text that it marks. A lexing or parsing error quotes the character or text found there, names the kind of string, number part or date-time field it stands in, and gives the bounds or the expected text that apply; an expected closing bracket has a hint at an opening one. A conflict between keys names the place both keys spell, says why the later cannot extend what an earlier one stands for, and lists the lines of the enclosing keys. Version errors name the number and the character. Manifest diagnostics name the place, the wanted and the found kind of value, the keys in conflict, and the new name of an old key. Known wrong texts: an illegal character in a comment is marked beside itself, pre-release and build metadata are exchanged in version messages, a closing curly bracket is quoted as an opening one, and a table is called an array in one hint.", "quantifier": "every document, version, requirement and manifest, and every diagnostic reported for it", "why_tests_cant": "there are about ninety kinds of messages with parameters taken from arbitrary text; a test pins a few sentences", "anchors": ["crates/toml/src/error.rs: description, annotation, hint", "crates/semver/src/error.rs: description, annotation", "crates/ide/src/cargo.rs: Error, Warning, Hint", "crates/toml/src/map.rs"]}
{"id": "C71", "title": "Arguments and exit code of the command line tool", "statement": "`ctoml <mode> <file>` works on the file exactly if the mode is `validate` or `check` and the path ends in a file name (in check mode `Cargo.toml`), slashes and single dots behind it aside. Any other arguments lead to one message about the first of them that is wrong, the usage, both on standard error, no output, and failure, whatever files there are; so does a file that cannot be read. Otherwise the value, the messages of C62 and a table of times go to standard output and the exit code is success, even if the document has errors. The tool panics only if an argument it looks at is no unicode, working on the document panics (C61), or the system clock goes back.", "quantifier": "every list of arguments, every content of the file system, every sequence of clock readings", "why_tests_cant": "paths have infinitely many spellings, and the exit code must be right for every document", "anchors": ["crates/cli/src/main.rs: main, help_message"]}
{"id": "C72", "title": "Containers own what they show", "statement": "A program that uses containers through `parse` (or through `parse_with` with a text copied into the arena or one that lives as long as the program) never touches freed memory, in whatever order it creates, moves, looks at and drops them: a container that was created and not dropped shows the text it was made of and the tokens, trees and map of that text; every arena is freed exactly once, when its container is dropped, and the only arenas never freed are those of texts on which parsing panics. With `parse_with` the claim is false: its type lets the closure return any reference that is valid during the call, which a program without unsafe code can free afterwards.", "quantifier": "every history of operations on containers and buffers", "why_tests_cant": "use after free and double free depend on the order of operations; tests run a few orders and do not notice freed memory", "anchors": ["crates/toml/src/container.rs: Container::parse, Container::parse_with, Container::toml, Drop, build_container"]}
{"id": "C73", "title": "Comments directly above a value of an array belong to it", "statement": "The comments of a value in an array include exactly the longest block of comment lines directly above it.", "quantifier": "all documents without errors, all values of arrays", "why_tests_cant": "Depends on line distances between arbitrarily many comments and on what else was stored.", "anchors": ["crates/toml/src/parse.rs: mark_comments_above, parse_value"]}
{"id": "C74", "title": "The dependencies of a manifest are what its value declares", "statement": "For every text, the list of dependencies that checking returns is, one for one and with all data (kind, target, name, package, source with its requirement and git reference, default features, features, optional), the list of what the value of the document declares: the entries of the dependency sections of the document and of its targets, read field by field. They come in the order of the document, and no two have the same kind, target and name. The list does not depend on how the document is written (headers, dotted keys, inline tables, quoting).", "quantifier": "all texts, all builds (release builds: if no string of the document has a number from 4294967296 to 4294967299)", "why_tests_cant": "the same value can be written in unboundedly many ways, and any table can hold any combination of fields", "anchors": ["crates/ide/src/check.rs: check, parse_dependencies, parse_dependency, DependencyBuilder::try_build", "crates/toml/src/map.rs", "crates/semver/src/parse.rs: parse_requirement"]}
{"id": "C75", "title": "Checking is silent exactly on fine manifests", "statement": "The tool, in check mode, reports nothing exactly if the text is a valid TOML document whose value is a fine manifest: known keys only, no key by an old name, sections are tables, every dependency is a requirement or a table of known keys of the right types with exactly one source, whose requirement is one.", "quantifier": "all texts of Unicode scalar values; debug builds, and release builds if no string of the document has a number from 4294967296 to 4294967299", "why_tests_cant": "silence is a statement about every check at once; no finite set of manifests shows that nothing is missed and nothing is reported in vain", "anchors": ["crates/cli/src/main.rs", "crates/ide/src/check.rs", "crates/ide/src/cargo.rs"]}
{"id": "C76", "title": "What is below never changes what is above", "statement": "While the end of a file is being written, what its complete lines above say stays readable: if lines form a TOML document without conflicts, then for the file that starts with them and goes on with anything (more statements, conflicting ones, unfinished ones, garbage) the tree starts with their statements in their order, and the value that is printed has at every place what theirs has: tables keep their keys in order, arrays their elements, scalars stay equal. In particular a dependency given by a string in one of their sections is still reported with all its data. Documents of complete lines can be put one after the other.", "quantifier": "all documents of complete lines without conflicts, all continuations, all places of the value", "why_tests_cant": "The continuation ranges over all texts, including malformed ones that go through error recovery; a test covers one continuation.", "anchors": ["crates/toml/src/lex.rs: lex", "crates/toml/src/parse.rs: Parser::parse", "crates/toml/src/map.rs: map, insert_node_at_path, insert_top_level_assignments", "crates/cli/src/main.rs: main"]}
{"id": "C77", "title": "Nothing below is reported above", "statement": "Writing on at the end of a file brings no findings on the lines above: if complete lines are read without findings, then for the file that starts with them and goes on with anything, everything the lexer, the parser and the mapping report marks text on a line below them, from its start to its end. What lexer and parser show besides (the place of a hint, further lines) is below them as well; the hint of a finding of the mapping may be above, where the earlier key stands.", "quantifier": "all documents of complete lines without findings, all continuations, all findings for the whole text", "why_tests_cant": "The continuation ranges over all texts, and every error path of the lexer, the parser's recovery and the mapping has to be followed with the positions it reports.", "anchors": ["crates/toml/src/lex.rs: lex", "crates/toml/src/parse.rs: Parser::parse", "crates/toml/src/parse/lit.rs: parse_literal", "crates/toml/src/map.rs: map, insert_node_at_path, get_table_to_extend", "crates/toml/src/error.rs: Error::span, Error::hint, Error::context_lines"]}
{"id": "C78", "title": "Line endings do not matter", "statement": "Two texts that differ only in whether their lines end in LF or CR LF, line by line, say the same: one is a TOML document with certain statements exactly if the other is, syntax errors are reported for both or for neither, the command line tool prints the same value for both and accepts both as manifests or neither, and the manifests declare the same dependencies in the same order. Strings of several lines contain LF in either case. This holds for texts without other carriage returns and for documents without findings; for others the tool may crash on one of them only.", "quantifier": "all pairs of texts of any length that differ in line endings only, mixed in any way", "why_tests_cant": "Each line of each text can end in either way independently; the lexer treats line ends differently in comments, bare words, the four kinds of strings, after a backslash and after an opening delimiter.", "anchors": ["crates/toml/src/lex.rs: lex, newline_token, string, comment", "crates/toml/src/parse.rs: Parser::parse", "crates/cli/src/main.rs: main", "crates/ide/src/check.rs: check"]}
{"id": "C79", "title": "Layout does not matter", "statement": "Blank lines and comment lines put between complete lines, indentation, blanks and a comment at the end of a line, and other line endings change nothing about what a document says: after any number of such changes, made or undone, the text is a TOML document with the same statements exactly if it was before; the command line tool prints the same value and accepts it as a manifest exactly if it did before, and the dependencies are the same in the same order. What a document says from some line on is what the text from there on says on its own. Inside a value that spans lines this does not hold.", "quantifier": "all texts, all sequences of layout changes outside values", "why_tests_cant": "The changes can be anywhere in a text of any length and combined in any way; whether a place is inside a string depends on everything above it.", "anchors": ["crates/toml/src/lex.rs: lex", "crates/toml/src/parse.rs: Parser::parse", "crates/cli/src/main.rs: main", "crates/ide/src/check.rs: check"]}
{"id": "C80", "title": "What stands next to symbols does not matter", "statement": "Blanks can be put in, or taken out, next to every equals sign, comma, bracket and brace, and around the dots of a key, and inside the brackets of an array also line breaks and comments: after any number of such changes, in either direction, a text is a TOML document that says the same exactly if it was before, the command line tool prints the same value and accepts it as a manifest exactly if it did before, and the dependencies are the same in the same order. It does not hold next to the dot of a number, between the two brackets of the header of an array, and, for line breaks, in an inline table.", "quantifier": "all texts, all places next to symbols however deep in values, all sequences of such changes", "why_tests_cant": "Values nest to any depth, and whether a line break is allowed depends on the innermost open bracket; the changes can be combined in any way.", "anchors": ["crates/toml/src/lex.rs: lex", "crates/toml/src/parse.rs: parse_value, parse_key, parse_array_header, parse_table_header", "crates/cli/src/main.rs: main", "crates/ide/src/check.rs: check"]}
{"id": "C81", "title": "What the tool prints determines the value", "statement": "The value the command line tool prints on its standard output can be read back: if two runs print the same, the printed values are the same (tables with the same keys in the same order, arrays element by element, the same strings character by character, integers, booleans, dates and times; floats that are printed alike), and the messages after them are the same; different values never look alike, however deep they nest and whatever characters their strings hold. The printed value contains no control character but the line breaks of its layout.", "quantifier": "all values, all documents, every choice of the characters the standard library prints as they are, every float formatting of the form of f64's", "why_tests_cant": "Strings can hold any text, including text that looks like the layout; values nest to any depth.", "anchors": ["crates/cli/src/main.rs: main", "crates/toml/src/util.rs: SimpleVal", "crates/toml/src/datetime.rs: DateTime, Date, Time, Offset"]}
{"id": "C82", "title": "Every value can be written and is read back", "statement": "For every value - tables with different keys of any characters, arrays, strings of any unicode scalar values, 64-bit integers, decimal numbers of any precision, infinities and NaNs, booleans, and existing dates and times with any offset - nested at most 100 deep, the document with one line per key and values in line (keys and strings in quotes, with quotes, backslashes and control characters escaped) is valid TOML that says exactly this value: the command line tool prints that value and no message. Different values are written differently. One level deeper the document is rejected.", "quantifier": "all values, all strings and keys, all nestings up to 100, all numbers, all dates", "why_tests_cant": "There are unboundedly many values; strings hold any characters, keys may be empty or look like dotted keys, tables nest in arrays and tables.", "anchors": ["crates/toml/src/lex.rs: lex", "crates/toml/src/parse.rs: parse_value, parse_inline_table, parse_array", "crates/toml/src/map.rs: map", "crates/toml/src/util.rs: map_simple", "crates/cli/src/main.rs: main"]}
{"id": "C83", "title": "A broken line spoils only itself", "statement": "Insert one line of arbitrary text between complete lines of a valid document and another valid document. The line may contain anything - unclosed strings, invalid escapes, stray characters, unfinished keys, headers or inline tables - except: a line feed, three quotes in a row, opening brackets other than one or two with which it starts, and a hundred or more opening braces. Whatever stands on it, the document is read as the statements above, something for the line, and then exactly the statements below, in their order; and every finding (its span, its hint, its context lines) points at that line and at nothing else.", "quantifier": "every valid document in complete lines above, every such line, every valid document below", "why_tests_cant": "Each test fixes one broken line in one document; error recovery must resynchronise at the line break after any malformed header, key, value or inline table, in any position, so the claim is about all lines.", "anchors": ["crates/toml/src/parse.rs: parse (875-1110), recover_on", "crates/toml/src/parse.rs: value, inline tables", "crates/toml/src/parse/datetime.rs, num.rs: spans of literal errors", "crates/toml/src/lex.rs: lex, string, string_escape, comment"]}
{"id": "C84", "title": "What a document says about one top-level key depends on nothing else", "statement": "The value read under one top-level key, such as the dependencies of a manifest, and the conflicts reported about it are those of the items that name the key in their header or, before the first header, in their own key: all other items, whether well formed, conflicting or broken, change neither. In a TOML document the value is what its statements about the key say, whatever conflicts there are about other keys. And if a line of any text without opening brackets stands in a section that is not about the key, below complete lines and above another document, the value under the key is still what the statements above and below say about it.", "quantifier": "every text, every key; every document; every such line in a section about another key, every document above and below", "why_tests_cant": "Each test fixes one document and one defect; that nothing elsewhere can reach the value of a key ranges over all documents, all conflicts and all broken lines.", "anchors": ["crates/toml/src/map.rs: Ctx::map_asts, insert_node_at_path, get_table_to_extend", "crates/toml/src/parse.rs: parse, recover_on"]}
