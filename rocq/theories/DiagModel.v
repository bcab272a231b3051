(** Model of what diagnostics say: the texts of crates/toml/src/error.rs,
    crates/semver/src/error.rs, crates/ide/src/cargo.rs and
    crates/ide/src/error.rs.  [write!] to a [String] never fails; a text is
    the list of unicode scalar values written.  [FmtChar] and [FmtStr] are
    shown through [fmt_char] and [fmt_str] (common/src/lib.rs:187-225). *)
From Verif Require Import Base CommonModel TomlError LitModel ParseModel IdeModel DisplayModel.
From Verif Require SemverModel.

(** A piece of text in backticks, as all the messages quote. *)
Definition q (s : list N) : list N := bs "`" ++ s ++ bs "`".

(** toml/src/lex.rs:141-150 [Display for Quote] *)
Definition quote_text (k : quote) : list N :=
  match k with
  | QBasic => [34] | QBasicMulti => [34; 34; 34] | QLiteral => [39] | QLiteralMulti => [39; 39; 39]
  end.
(** toml/src/lex.rs:183-188 [Quote::singleline] *)
Definition quote_single (k : quote) : quote :=
  match k with QBasic | QBasicMulti => QBasic | QLiteral | QLiteralMulti => QLiteral end.
(** toml/src/lex.rs:197-204 [Quote::kind_str] *)
Definition quote_kind (k : quote) : list N :=
  match k with
  | QBasic => bs "basic" | QBasicMulti => bs "multi-line basic"
  | QLiteral => bs "literal" | QLiteralMulti => bs "multi-line literal"
  end.

(** toml/src/parse/lit.rs:36-56 [LitPart::to_str] *)
Definition part_text (p : lit_part) : list N :=
  match p with
  | LPGeneric => bs "literal"
  | LPIntOrFloat => bs "integer or float"
  | LPInt => bs "integer"
  | LPPrefixedInt PBin => bs "binary integer"
  | LPPrefixedInt POct => bs "octal integer"
  | LPPrefixedInt PHex => bs "hexadecimal integer"
  | LPFloatIntegral => bs "float integral"
  | LPFloatFract => bs "float fractional part"
  | LPFloatExp => bs "float exponent"
  end.
(** toml/src/parse/num.rs:15-24 [Display for Sign] *)
Definition sign_text (s : tsign) : list N := match s with SPos => bs "+" | SNeg => bs "-" end.
(** toml/src/datetime.rs:70-83 [DateTimeField::to_str] *)
Definition field_text (f : dt_field) : list N :=
  match f with
  | DYear => bs "year" | DMonth => bs "month" | DDay => bs "day"
  | DHour => bs "hour" | DMinute => bs "minute" | DSecond => bs "second"
  | DOffsetHour => bs "offset-hour" | DOffsetMinute => bs "offset-minute"
  end.

(** [{n:0width$x}]: lower-case hexadecimal, padded with zeros on the left. *)
Fixpoint hex_aux (fuel : nat) (n : N) (acc : list N) : list N :=
  match fuel with
  | O => acc
  | S f => let acc := hex_digit (n mod 16) :: acc in
           if n / 16 =? 0 then acc else hex_aux f (n / 16) acc
  end.
Definition hex (n : N) : list N := hex_aux (S (N.to_nat (N.log2 n))) n [].
Definition hex_pad (width n : N) : list N := repeat 48 (N.to_nat width - length (hex n)) ++ hex n.

(** toml/src/error.rs:199-296 [Diagnostic::description] for [Error] *)
Definition toml_description (e : terror) : list N :=
  match e with
  | EMissingQuote k _ => bs "unterminated " ++ quote_kind k ++ bs " string, missing " ++ q (quote_text k)
  | EExcessiveQuotes k _ =>
      bs "excess quotes, only up to two consecutive quotes (" ++ q (quote_text (quote_single k)) ++
      bs ") are allowed inside a multi-line string"
  | EInvalidStringChar c _ => bs "invalid character " ++ q (fmt_char c) ++ bs "in string"
  | EInvalidEscapeChar c _ =>
      bs "invalid escape character " ++ q (fmt_char c) ++
      bs ", expected one of: `u`, `U`, `b`, `t`, `n`, `f`, `r`, " ++ q [34] ++ bs ", `\`"
  | EInvalidUnicodeEscapeChar c _ =>
      bs "invalid character " ++ q (fmt_char c) ++
      bs " in unicode escape sequence, valid characters are: `a-f`, `A-F` and `0-9`"
  | EInvalidUnicodeCodepoint n cp _ =>
      bs "invalid unicode scalar " ++ q (bs "0x" ++ hex_pad n cp) ++ bs " (" ++ q (dec cp) ++ bs ")"
  | EInvalidLineEndingEscape _ => bs "invalid line ending backslash, missing newline"
  | EUnfinishedEscapeSequence _ => bs "unfinished escape sequence"
  | EInvalidCharInIdentifier c _ =>
      bs "invalid character " ++ q (fmt_char c) ++
      bs " in identifier, valid characters are: `a-z`, `A-Z`, `0-9`, `_` and `-`"
  | EMultilineBasicStringIdent _ => bs "multi-line strings cannot be used as keys"
  | EMultilineLiteralStringIdent _ => bs "multi-line strings cannot be used as keys"
  | EInvalidCommentChar c _ => bs "invalid character " ++ q (fmt_char c) ++ bs " in comment"

  | ERecursionLimitExceeded _ => bs "recursion limit of 100 exceeded"
  | EExpectedEqOrDotFound t _ => bs "expected `=` or `.`, found " ++ fmt_str t
  | EExpectedRightCurlyFound t _ _ => bs "expected `}`, found " ++ fmt_str t
  | EExpectedRightSquareFound t _ _ => bs "expected `]`, found " ++ fmt_str t
  | EExpectedDotOrRightSquareFound t _ _ => bs "expected `.` or `]`, found " ++ fmt_str t
  | EExpectedKeyFound t _ => bs "expected a key, found " ++ fmt_str t
  | EExpectedValueFound t _ => bs "expected a value, found " ++ fmt_str t
  | EMissingComma _ => bs "missing comma (`,`)"
  | EExpectedNewlineFound t _ => bs "expected a line break, found " ++ fmt_str t
  | EMissingNewline _ => bs "missing line break"
  | EInlineTableTrailingComma _ => bs "trailing commas aren't permitted in inline tables"
  | ESpaceBetweenArrayPars _ => bs "no space allowed between array header brackets"

  | EUnexpectedLiteralStart c _ => bs "unexpected character " ++ q (fmt_char c) ++ bs " at start of literal"
  | EUnexpectedLiteralChar p c _ =>
      bs "unexpected character " ++ q (fmt_char c) ++ bs " in " ++ part_text p ++
      match p with
      | LPIntOrFloat =>
          if ((97 <=? c) && (c <=? 102)) || ((65 <=? c) && (c <=? 70))
          then bs ", hexadecimal integers need to be prefixed by `0x`" else []
      | _ => []
      end
  | ELitStartsWithUnderscore p _ => part_text p ++ bs " cannot start with `_`"
  | ELitEndsWithUnderscore p _ => part_text p ++ bs " cannot end with `_`"
  | EConsecutiveUnderscoresInLiteral _ => bs "consecutive underscores (`_`) are not allowed in number literals"
  | EMissingNumDigitsAfterSign s _ => bs "missing digit after sign " ++ q (sign_text s) ++ bs ", expected at least one"
  | EInvalidLeadingZero _ => bs "invalid leading `0` in number"
  | EExpectedRadixOrDateTime c _ =>
      bs "unexpected character " ++ q (fmt_char c) ++ bs ", expected integer radix `b`, `o`, `x` or date-time"
  | EUnexpectedCharSignedLeadingZeroNum c _ => bs "unexpected character " ++ q (fmt_char c)

  | EUppercaseBareLitChar c w _ => bs "uppercase character " ++ q (fmt_char c) ++ bs " in literal, expected " ++ q w
  | EUnexpectedBareLitChar c w _ => bs "unexpected character " ++ q (fmt_char c) ++ bs " in literal, expected " ++ q w
  | EBareLitTrailingChars t w _ => bs "trailing characters " ++ q (fmt_str t) ++ bs " in literal, expected " ++ q w
  | EBareLitMissingChars w _ => bs "missing characters in literal, expected " ++ q w

  | EMissingFloatFractionalPart _ => bs "missing fractional part of float literal, expected at least one digit"
  | EFloatLiteralOverflow _ => bs "float literal overflow, number doesn't fit into a 64-bit IEEE float"

  | EEmptyPrefixedIntValue _ => bs "missing integer digits, expected at least one"
  | EPrefixedIntSignNotAllowed _ => bs "signs are not permitted for binary, octal, and hexadecimal integers"
  | EUppercaseIntRadix PBin _ => bs "found uppercase binary int prefix `B`, only lowercase `b` is permitted"
  | EUppercaseIntRadix POct _ => bs "found uppercase octal int prefix `O`, only lowercase `o` is permitted"
  | EUppercaseIntRadix PHex _ => bs "found uppercase hexadecimal int prefix `X`, only lowercase `x` is permitted"
  | EPrefixedIntValueStartsWithUnderscore _ => bs "integer literal cannot start with `_`"
  | EPrefixedIntValueEndsWithUnderscore _ => bs "integer literal cannot end with `_`"
  | EIntDigitTooBig PBin c _ => bs "binary digit " ++ q (fmt_char c) ++ bs " out of range, valid digits are `0` and `1`"
  | EIntDigitTooBig POct c _ => bs "octal digit " ++ q (fmt_char c) ++ bs " out of range, valid digits are `0-7`"
  | EIntDigitTooBig PHex c _ =>
      bs "hexadecimal digit " ++ q (fmt_char c) ++ bs " out of range, valid digits are `0-9`, `a-f`, and `A-F`"
  | EIntLiteralOverflow _ => bs "integer literal overflow, number doesn't fit into a 64-bit signed integer"

  | EUnexpectedCharInDateTime c _ => bs "unexpected character " ++ q (fmt_char c) ++ bs " in date-time"
  | EDateTimeExpectedCharFound after expected found _ =>
      bs "unexpected character " ++ q (fmt_char found) ++ bs " in date-time after " ++ field_text after ++
      bs ", expected " ++ q (fmt_char expected)
  | EDateTimeMissingChar f c _ =>
      bs "incomplete date-time, missing character " ++ q (fmt_char c) ++ bs " after " ++ field_text f
  | EDateTimeIncomplete f _ => bs "incomplete date-time, " ++ field_text f ++ bs " is missing digits"
  | EDateTimeMissing f _ => bs "incomplete date-time, missing " ++ field_text f
  | EDateTimeOutOfBounds f v lo hi _ =>
      bs "date-time " ++ field_text f ++ bs " " ++ q (dec v) ++ bs " out of range, the valid range is " ++
      q (dec lo ++ bs "..=" ++ dec hi)
  | EDateTimeMissingSubsec _ => bs "missing date-time fractional second, expected at least one digit"
  | ELocalDateTimeOffset _ => bs "local-time doesn't permit an offset, see: https://toml.io/en/v1.0.0#local-time"
  | EDateAndTimeTooFarApart _ => bs "date and time too far apart, they may only be separated by exactly one space"

  | EDuplicateKey _ path _ _ => bs "duplicate key " ++ q (fmt_str path)
  | ECannotExtendInlineTable _ path _ _ => bs "cannot extend inline table " ++ q (fmt_str path)
  | ECannotExtendInlineArray _ path _ _ => bs "cannot extend inline array " ++ q (fmt_str path)
  | ECannotExtendInlineArrayAsTable _ path _ _ => bs "cannot extend inline array " ++ q (fmt_str path) ++ bs ", not a table"
  | ECannotExtendTableWithDottedKey _ path _ _ => bs "cannot extend table " ++ q (fmt_str path) ++ bs " with dotted key"
  | ECannotExtendArrayWithDottedKey _ path _ _ => bs "cannot extend array " ++ q (fmt_str path) ++ bs " with dotted key"
  end.

(** toml/src/error.rs:298-389 [Diagnostic::annotation] for [Error] *)
Definition toml_annotation (e : terror) : list N :=
  match e with
  | EMissingQuote _ _ => bs "unterminated string"
  | EExcessiveQuotes _ _ => bs "excess quotes"
  | EInvalidStringChar _ _ => bs "invalid character"
  | EInvalidEscapeChar _ _ => bs "invalid escape character"
  | EInvalidUnicodeEscapeChar _ _ => bs "invalid unicode escape character"
  | EInvalidUnicodeCodepoint _ _ _ => bs "invalid unicode scalar"
  | EInvalidLineEndingEscape _ => bs "invalid line ending backslash"
  | EUnfinishedEscapeSequence _ => bs "unfinished escape sequence"
  | EInvalidCharInIdentifier _ _ => bs "invalid character in identifier"
  | EMultilineBasicStringIdent _ => bs "not a valid key"
  | EMultilineLiteralStringIdent _ => bs "not a valid key"
  | EInvalidCommentChar _ _ => bs "invalid character"
  | ERecursionLimitExceeded _ => bs "recursion limit of 100 exceeded"
  | EExpectedEqOrDotFound _ _ => bs "expected `=` or `.`"
  | EExpectedRightCurlyFound _ _ _ => bs "expected `}`"
  | EExpectedRightSquareFound _ _ _ => bs "expected `]`"
  | EExpectedDotOrRightSquareFound _ _ _ => bs "Expected `.` or `]`"
  | EExpectedKeyFound _ _ => bs "expected a key"
  | EExpectedValueFound _ _ => bs "expected a value"
  | EMissingComma _ => bs "missing comma (`,`)"
  | EExpectedNewlineFound _ _ => bs "expected a line break"
  | EMissingNewline _ => bs "missing line break"
  | EInlineTableTrailingComma _ => bs "trailing comma"
  | ESpaceBetweenArrayPars _ => bs "no space allowed"
  | EUnexpectedLiteralStart _ _ => bs "Unexpected character"
  | EUnexpectedLiteralChar p _ _ => bs "Unexpected character in " ++ part_text p
  | ELitStartsWithUnderscore p _ => part_text p ++ bs " cannot start with `_`"
  | ELitEndsWithUnderscore p _ => part_text p ++ bs " cannot end with `_`"
  | EConsecutiveUnderscoresInLiteral _ => bs "consecutive underscores (`_`) not allowed"
  | EMissingNumDigitsAfterSign _ _ => bs "missing digit after sign"
  | EInvalidLeadingZero _ => bs "invalid leading `0`"
  | EExpectedRadixOrDateTime _ _ => bs "unexpected character"
  | EUnexpectedCharSignedLeadingZeroNum _ _ => bs "unexpected character"
  | EUppercaseBareLitChar _ _ _ => bs "uppercase character"
  | EUnexpectedBareLitChar _ _ _ => bs "unexpected character"
  | EBareLitTrailingChars _ _ _ => bs "trailing characters"
  | EBareLitMissingChars _ _ => bs "missing characters"
  | EMissingFloatFractionalPart _ => bs "missing fractional part of float literal"
  | EFloatLiteralOverflow _ => bs "float literal overflow"
  | EEmptyPrefixedIntValue _ => bs "missing integer digits"
  | EPrefixedIntSignNotAllowed _ => bs "sign not allowed"
  | EUppercaseIntRadix _ _ => bs "uppercase radix"
  | EPrefixedIntValueStartsWithUnderscore _ => bs "integer literal cannot start with `_`"
  | EPrefixedIntValueEndsWithUnderscore _ => bs "integer literal cannot end with `_`"
  | EIntDigitTooBig PBin _ _ => bs "binary digit out of range"
  | EIntDigitTooBig POct _ _ => bs "octal digit out of range"
  | EIntDigitTooBig PHex _ _ => bs "hexadecimal digit  out of range"
  | EIntLiteralOverflow _ => bs "integer literal overflow"
  | EUnexpectedCharInDateTime _ _ => bs "unexpected character"
  | EDateTimeExpectedCharFound _ _ _ _ => bs "unexpected character"
  | EDateTimeMissingChar _ _ _ => bs "missing character"
  | EDateTimeIncomplete _ _ => bs "missing digits"
  | EDateTimeMissing f _ => bs "missing " ++ field_text f
  | EDateTimeOutOfBounds f _ _ _ _ => field_text f ++ bs " out of range"
  | EDateTimeMissingSubsec _ => bs "missing date-time fractional second"
  | ELocalDateTimeOffset _ => bs "local-time doesn't permit an offset"
  | EDateAndTimeTooFarApart _ => bs "date and time too far apart"
  | EDuplicateKey _ _ _ _ => bs "duplicate key"
  | ECannotExtendInlineTable _ _ _ _ => bs "cannot extend inline table"
  | ECannotExtendInlineArray _ _ _ _ => bs "cannot extend inline array"
  | ECannotExtendInlineArrayAsTable _ _ _ _ => bs "cannot extend inline array, not a table"
  | ECannotExtendTableWithDottedKey _ _ _ _ => bs "cannot extend table with dotted key"
  | ECannotExtendArrayWithDottedKey _ _ _ _ => bs "cannot extend array with dotted key"
  end.

(** toml/src/error.rs:391-472 which hint, and 613-626 its [annotation] *)
Definition toml_hint_text (e : terror) : list N :=
  match e with
  | EExpectedRightCurlyFound _ _ _ => bs "left `{` defined here"
  | EExpectedRightSquareFound _ _ _ | EExpectedDotOrRightSquareFound _ _ _ => bs "left `[` defined here"
  | EDuplicateKey _ _ _ _ => bs "original key defined here"
  | ECannotExtendInlineTable _ _ _ _ => bs "original table defined here"
  | ECannotExtendInlineArray _ _ _ _ | ECannotExtendInlineArrayAsTable _ _ _ _
  | ECannotExtendTableWithDottedKey _ _ _ _ | ECannotExtendArrayWithDottedKey _ _ _ _ => bs "original array defined here"
  | _ => []
  end.

(** toml/src/error.rs:116-536 [Diagnostic for Error] *)
Definition toml_diag (e : terror) : ddiag :=
  mkdiag SevError (err_span e) (toml_description e) (toml_annotation e)
    (option_map (fun s => mkhint s (toml_hint_text e)) (err_hint e)) (err_lines e).

(** ** semver/src/error.rs *)

(** semver/src/error.rs:174-180 [num_field] *)
Definition num_field_text (f : SemverModel.num_field) : list N :=
  match f with
  | SemverModel.FMajor => bs "major version number"
  | SemverModel.FMinor => bs "minor version number"
  | SemverModel.FPatch => bs "patch version number"
  end.
(** semver/src/error.rs:188-193 [ident_field] (the two names are swapped in
    the code) *)
Definition ident_field_text (f : SemverModel.ident_field) : list N :=
  match f with
  | SemverModel.FBuildMetadata => bs "pre-release identifier"
  | SemverModel.FPrerelease => bs "build-metadata"
  end.
(** The characters of a [&str] that is held as bytes. *)
Fixpoint chars_fuel (fuel : nat) (s : bytes) : list N :=
  match fuel with
  | O => []
  | S f => match utf8_first s with
           | Some c => c :: chars_fuel f (skipn (N.to_nat (len_utf8 c)) s)
           | None => []
           end
  end.
Definition chars_of (s : bytes) : list N := chars_fuel (length s) s.

(** semver/src/error.rs:56-59, 81-84 *)
Definition trailing_text (s : bytes) (f : option SemverModel.ident_field) : list N :=
  bs "unexpected characters " ++ q (fmt_str (chars_of s)) ++ bs ", after " ++
  match f with Some f => ident_field_text f | None => num_field_text SemverModel.FMajor end.

(** semver/src/error.rs:54-77 [Diagnostic::description] for [Error] *)
Definition semver_description (e : SemverModel.error) : list N :=
  match e with
  | SemverModel.TrailingCharacters s f _ => trailing_text s f
  | SemverModel.MissingField f _ => bs "missing " ++ num_field_text f
  | SemverModel.LeadingZeroNum f _ => bs "invalid leading zero in " ++ num_field_text f
  | SemverModel.InvalidIntChar c f _ => bs "invalid character " ++ q (fmt_char c) ++ bs " zero in " ++ num_field_text f
  | SemverModel.IntOverflow f _ _ => bs "integer overflow in " ++ num_field_text f
  | SemverModel.ExpectedDot c f _ => bs "expected dot after " ++ num_field_text f ++ bs ", found " ++ q (fmt_char c)
  | SemverModel.MissingDot f _ => bs "missing dot after " ++ num_field_text f
  | SemverModel.EmptyIdentifier f _ => bs "emtpy " ++ ident_field_text f
  | SemverModel.EmptyIdentifierSegment f _ => bs "emtpy identifier segment in " ++ ident_field_text f
  | SemverModel.LeadingZeroSegment f _ => bs "invalid leading zero in " ++ ident_field_text f ++ bs " segment "
  | SemverModel.InvalidOp c _ =>
      bs "invalid operator " ++ q (fmt_char c) ++
      bs ", expected one of: `=`, `>`, `>=`, `<`, `<=`, `~`, `^` or a blank version requirement"
  | SemverModel.MissingComma _ => bs "missing comma"
  | SemverModel.TrailingComma _ => bs "invalid trailing comma"
  | SemverModel.WildcardNotTheSoleComparator w _ => bs "wildcard " ++ q [SemverModel.wl_byte w] ++ bs " must be the only comparator"
  | SemverModel.ExcessiveComparators _ _ => bs "excessive number of comparators, the maximum allowed number is 32"
  | SemverModel.EmptyVersionReq _ => bs "empty version requirement"
  | SemverModel.UnexpectedAfterWildcard c f _ =>
      bs "unexpected character " ++ q (fmt_char c) ++ bs " after wildcard " ++ num_field_text f
  end.
(** semver/src/error.rs:79-106 [Diagnostic::annotation] for [Error] *)
Definition semver_annotation (e : SemverModel.error) : list N :=
  match e with
  | SemverModel.TrailingCharacters s f _ => trailing_text s f
  | SemverModel.MissingField f _ => bs "missing " ++ num_field_text f
  | SemverModel.LeadingZeroNum _ _ => bs "invalid leading zero"
  | SemverModel.InvalidIntChar _ _ _ => bs "invalid character"
  | SemverModel.IntOverflow _ _ _ => bs "integer overflow"
  | SemverModel.ExpectedDot _ _ _ => bs "expected dot"
  | SemverModel.MissingDot _ _ => bs "missing dot"
  | SemverModel.EmptyIdentifier f _ => bs "emtpy " ++ ident_field_text f
  | SemverModel.EmptyIdentifierSegment _ _ => bs "emtpy identifier segment"
  | SemverModel.LeadingZeroSegment _ _ => bs "invalid leading zero"
  | SemverModel.InvalidOp _ _ => bs "invalid operator"
  | SemverModel.MissingComma _ => bs "missing comma"
  | SemverModel.TrailingComma _ => bs "invalid trailing comma"
  | SemverModel.WildcardNotTheSoleComparator _ _ => bs "wildcard must be the only comparator"
  | SemverModel.ExcessiveComparators _ _ => bs "excessive number of comparators"
  | SemverModel.EmptyVersionReq _ => bs "empty version requirement"
  | SemverModel.UnexpectedAfterWildcard _ _ _ => bs "unexpected character"
  end.
(** semver/src/error.rs:27-107 [Diagnostic for Error]; the trait's default
    for [hint] and [context_lines] is [None] (common/src/diagnostic.rs:36-44). *)
Definition semver_diag (e : SemverModel.error) : ddiag :=
  mkdiag SevError (SemverModel.error_span e) (semver_description e) (semver_annotation e) None [].

(** ** ide/src/cargo.rs *)

(** toml/src/util.rs:16-29 [Datatype::to_str] *)
Definition datatype_text (d : datatype) : list N :=
  match d with
  | DtTable => bs "table" | DtArray => bs "array" | DtString => bs "string" | DtInt => bs "int"
  | DtFloat => bs "float" | DtBool => bs "bool" | DtDateTime => bs "date-time" | DtInvalid => bs "invalid"
  end.
(** ide/src/cargo.rs:72-93 [Diagnostic::description] for [Error] *)
Definition cargo_error_description (path : list N) (k : ekind) : list N :=
  match k with
  | WrongDatatype expected found =>
      bs "expected " ++ q (fmt_str path) ++ bs " to be of type " ++ datatype_text expected ++ bs ", found " ++ datatype_text found
  | DepWrongDatatype found =>
      bs "expected " ++ q (fmt_str path) ++ bs " to be of type string or table, found " ++ datatype_text found
  | DepWorkspaceIsFalse => bs "invalid dependency specification " ++ q (fmt_str path) ++ bs "; `workspace` cannot be false"
  | AmbigousDepSpecGitRegistry =>
      bs "dependency specification " ++ q (fmt_str path) ++ bs " is ambigous, only one of `git` or `registry` is allowed"
  | AmbigousGitSpec =>
      bs "dependency specification " ++ q (fmt_str path) ++ bs " is ambigous, only one of `branch`, `tag` or `rev` is allowed"
  | DepIgnoredGitKey key =>
      bs "invalid dependency specification " ++ q (fmt_str path) ++ bs "; " ++ q key ++ bs " without `git` is not allowed"
  end.
(** ide/src/cargo.rs:95-109 [Diagnostic::annotation] for [Error] *)
Definition cargo_error_annotation (k : ekind) : list N :=
  match k with
  | WrongDatatype expected _ => bs "expected " ++ datatype_text expected
  | DepWrongDatatype _ => bs "expected string or table"
  | DepWorkspaceIsFalse => bs "`workspace` cannot be false"
  | AmbigousDepSpecGitRegistry => bs "only one of `git` or `registry` is allowed"
  | AmbigousGitSpec => bs "only one of `branch`, `tag` or `rev` is allowed"
  | DepIgnoredGitKey _ => bs "not allowed without `git`"
  end.
(** ide/src/cargo.rs:165-187 [Diagnostic::description] for [Warning] *)
Definition cargo_warning_description (path : list N) (k : wkind) : list N :=
  let prefix := match path with [] => [] | _ => q (fmt_str path) ++ bs ": " end in
  match k with
  | DeprecatedUnderscore old new =>
      prefix ++ q old ++ bs " is deprecated in favor of " ++ q new ++ bs " and will be unsupported in the 2024 edition"
  | RedundantDeprecatedUnderscore old new _ =>
      prefix ++ q old ++ bs " is redundant with " ++ q new ++ bs " and will be unsupported in the 2024 edition"
  | MissingDepSpec => bs "missing one of `workspace`, `path`, `git` or `version`, this will be unsupported in the 2024 edition"
  | WorkspaceDepIgnoredKey _ => bs "key " ++ q (fmt_str path) ++ bs " is ignored, because `workspace` is set"
  | IgnoredUnknownKey => bs "unknown key " ++ q (fmt_str path) ++ bs " is ignored"
  end.
(** ide/src/cargo.rs:189-199 [Diagnostic::annotation] for [Warning] *)
Definition cargo_warning_annotation (k : wkind) : list N :=
  match k with
  | DeprecatedUnderscore _ new => bs "deprecated in favor of " ++ q new
  | RedundantDeprecatedUnderscore _ _ _ => bs "ignored"
  | MissingDepSpec => bs "missing one of `workspace`, `path`, `git` or `version`"
  | WorkspaceDepIgnoredKey _ => bs "key is ignored"
  | IgnoredUnknownKey => bs "unknown key is ignored"
  end.
(** ide/src/cargo.rs:201-215 [hint] for [Warning], and 248-267 its span and
    annotation *)
Definition cargo_hint (k : wkind) : option dhint :=
  match k with
  | RedundantDeprecatedUnderscore _ _ s => Some (mkhint s (bs "used instead"))
  | WorkspaceDepIgnoredKey s => Some (mkhint s (bs "defined here"))
  | _ => None
  end.
(** ide/src/cargo.rs:63-114, 156-220; ide/src/error.rs:13-57, 84-128: the
    diagnostics of a manifest *)
Definition ide_diag (d : diag) : ddiag :=
  match d with
  | DError ls path sp k => mkdiag SevError sp (cargo_error_description path k) (cargo_error_annotation k) None ls
  | DWarn ls path sp k => mkdiag SevWarning sp (cargo_warning_description path k) (cargo_warning_annotation k) (cargo_hint k) ls
  | DSemver e => semver_diag e
  end.
