(** Model of crates/toml/src/error.rs, datetime.rs and the small enums of the
    literal parser.  Only the data and the spans; the texts of messages
    are in DiagModel.v. *)
From Verif Require Import Base CommonModel.

(** toml/src/lex.rs:130-139 [Quote] *)
Inductive quote := QBasic | QBasicMulti | QLiteral | QLiteralMulti.

(** toml/src/parse/num.rs:9-12 [Sign] *)
Inductive tsign := SPos | SNeg.
(** toml/src/parse/num.rs:25-33 [Sign::val] *)
Definition sign_val (s : tsign) : Z := match s with SPos => 1%Z | SNeg => (-1)%Z end.

(** toml/src/parse/num.rs:36-40 [IntPrefix] *)
Inductive int_prefix := PBin | POct | PHex.
(** toml/src/parse/num.rs:42-47 [IntPrefix::bits] *)
Definition prefix_bits (p : int_prefix) : N := match p with PBin => 1 | POct => 3 | PHex => 4 end.

(** toml/src/parse/lit.rs:26-34 [LitPart] *)
Inductive lit_part :=
| LPGeneric | LPIntOrFloat | LPInt | LPPrefixedInt (p : int_prefix)
| LPFloatIntegral | LPFloatFract | LPFloatExp.

(** toml/src/datetime.rs:59-68 [DateTimeField] *)
Inductive dt_field := DYear | DMonth | DDay | DHour | DMinute | DSecond | DOffsetHour | DOffsetMinute.

(** toml/src/datetime.rs:19-23 [Date] *)
Record date := mkdate { dt_year : N; dt_month : N; dt_day : N }.
(** toml/src/datetime.rs:32-37 [Time] *)
Record time := mktime { tm_hour : N; tm_minute : N; tm_second : N; tm_nanos : N }.
(** toml/src/datetime.rs:51-56 [Offset] *)
Inductive offset := OUtc | OCustom (minutes : Z).
(** toml/src/datetime.rs:3-8 [DateTime] *)
Inductive datetime :=
| OffsetDateTime (d : date) (t : time) (o : offset)
| LocalDateTime (d : date) (t : time)
| LocalDate (d : date)
| LocalTime (t : time).
(** toml/src/datetime.rs:10-17 [from_optional_offset] *)
Definition from_optional_offset (d : date) (t : time) (o : option offset) : datetime :=
  match o with Some o => OffsetDateTime d t o | None => LocalDateTime d t end.

(** toml/src/error.rs:9-114 [Error].  A [FmtChar] is a code point, a [FmtStr]
    the text it wraps. *)
Inductive terror :=
| EMissingQuote (q : quote) (s : span)
| EExcessiveQuotes (q : quote) (s : span)
| EInvalidStringChar (c : N) (s : span)
| EInvalidEscapeChar (c : N) (p : pos)
| EInvalidUnicodeEscapeChar (c : N) (p : pos)
| EInvalidUnicodeCodepoint (n cp : N) (s : span)
| EInvalidLineEndingEscape (s : span)
| EUnfinishedEscapeSequence (s : span)
| EInvalidCharInIdentifier (c : N) (p : pos)
| EMultilineBasicStringIdent (s : span)
| EMultilineLiteralStringIdent (s : span)
| EInvalidCommentChar (c : N) (s : span)
| ERecursionLimitExceeded (p : pos)
| EExpectedEqOrDotFound (t : list N) (s : span)
| EExpectedRightCurlyFound (t : list N) (p : pos) (s : span)
| EExpectedRightSquareFound (t : list N) (p : pos) (s : span)
| EExpectedDotOrRightSquareFound (t : list N) (p : pos) (s : span)
| EExpectedKeyFound (t : list N) (s : span)
| EExpectedValueFound (t : list N) (s : span)
| EMissingComma (p : pos)
| EExpectedNewlineFound (t : list N) (s : span)
| EMissingNewline (p : pos)
| EInlineTableTrailingComma (p : pos)
| ESpaceBetweenArrayPars (s : span)
| EUnexpectedLiteralStart (c : N) (p : pos)
| EUnexpectedLiteralChar (l : lit_part) (c : N) (p : pos)
| ELitStartsWithUnderscore (l : lit_part) (p : pos)
| ELitEndsWithUnderscore (l : lit_part) (p : pos)
| EConsecutiveUnderscoresInLiteral (s : span)
| EMissingNumDigitsAfterSign (g : tsign) (p : pos)
| EInvalidLeadingZero (p : pos)
| EExpectedRadixOrDateTime (c : N) (p : pos)
| EUnexpectedCharSignedLeadingZeroNum (c : N) (p : pos)
| EUppercaseBareLitChar (c : N) (e : list N) (p : pos)
| EUnexpectedBareLitChar (c : N) (e : list N) (p : pos)
| EBareLitTrailingChars (t e : list N) (s : span)
| EBareLitMissingChars (e : list N) (p : pos)
| EMissingFloatFractionalPart (p : pos)
| EFloatLiteralOverflow (s : span)
| EEmptyPrefixedIntValue (p : pos)
| EPrefixedIntSignNotAllowed (p : pos)
| EUppercaseIntRadix (f : int_prefix) (p : pos)
| EPrefixedIntValueStartsWithUnderscore (p : pos)
| EPrefixedIntValueEndsWithUnderscore (p : pos)
| EIntDigitTooBig (f : int_prefix) (c : N) (p : pos)
| EIntLiteralOverflow (s : span)
| EUnexpectedCharInDateTime (c : N) (p : pos)
| EDateTimeExpectedCharFound (after : dt_field) (expected found : N) (p : pos)
| EDateTimeMissingChar (f : dt_field) (c : N) (p : pos)
| EDateTimeIncomplete (f : dt_field) (p : pos)
| EDateTimeMissing (f : dt_field) (p : pos)
| EDateTimeOutOfBounds (f : dt_field) (v lo hi : N) (s : span)
| EDateTimeMissingSubsec (p : pos)
| ELocalDateTimeOffset (p : pos)
| EDateAndTimeTooFarApart (s : span)
| EDuplicateKey (lines : list N) (path : list N) (orig new : span)
| ECannotExtendInlineTable (lines : list N) (path : list N) (orig new : span)
| ECannotExtendInlineArray (lines : list N) (path : list N) (orig new : span)
| ECannotExtendInlineArrayAsTable (lines : list N) (path : list N) (orig new : span)
| ECannotExtendTableWithDottedKey (lines : list N) (path : list N) (orig new : span)
| ECannotExtendArrayWithDottedKey (lines : list N) (path : list N) (orig new : span).

(** toml/src/error.rs:121-197 [Diagnostic::span] for [Error] *)
Definition err_span (e : terror) : span :=
  match e with
  | EMissingQuote _ s | EExcessiveQuotes _ s | EInvalidStringChar _ s => s
  | EInvalidEscapeChar _ p | EInvalidUnicodeEscapeChar _ p => span_pos p
  | EInvalidUnicodeCodepoint _ _ s | EInvalidLineEndingEscape s | EUnfinishedEscapeSequence s => s
  | EInvalidCharInIdentifier _ p => span_pos p
  | EMultilineBasicStringIdent s | EMultilineLiteralStringIdent s | EInvalidCommentChar _ s => s
  | ERecursionLimitExceeded p => span_ascii_char p
  | EExpectedEqOrDotFound _ s | EExpectedRightCurlyFound _ _ s | EExpectedRightSquareFound _ _ s
  | EExpectedDotOrRightSquareFound _ _ s | EExpectedKeyFound _ s | EExpectedValueFound _ s => s
  | EMissingComma p => span_pos p
  | EExpectedNewlineFound _ s => s
  | EMissingNewline p => span_pos p
  | EInlineTableTrailingComma p => span_ascii_char p
  | ESpaceBetweenArrayPars s => s
  | EUnexpectedLiteralStart c p | EUnexpectedLiteralChar _ c p => span_from_pos_len p (len_utf8 c)
  | ELitStartsWithUnderscore _ p | ELitEndsWithUnderscore _ p => span_ascii_char p
  | EConsecutiveUnderscoresInLiteral s => s
  | EMissingNumDigitsAfterSign _ p => span_pos p
  | EInvalidLeadingZero p => span_ascii_char p
  | EExpectedRadixOrDateTime c p | EUnexpectedCharSignedLeadingZeroNum c p => span_from_pos_len p (len_utf8 c)
  | EUppercaseBareLitChar c _ p | EUnexpectedBareLitChar c _ p => span_from_pos_len p (len_utf8 c)
  | EBareLitTrailingChars _ _ s => s
  | EBareLitMissingChars _ p | EMissingFloatFractionalPart p => span_pos p
  | EFloatLiteralOverflow s => s
  | EEmptyPrefixedIntValue p => span_pos p
  | EPrefixedIntSignNotAllowed p | EUppercaseIntRadix _ p | EPrefixedIntValueStartsWithUnderscore p
  | EPrefixedIntValueEndsWithUnderscore p => span_ascii_char p
  | EIntDigitTooBig _ c p => span_from_pos_len p (len_utf8 c)
  | EIntLiteralOverflow s => s
  | EUnexpectedCharInDateTime c p => span_from_pos_len p (len_utf8 c)
  | EDateTimeExpectedCharFound _ _ c p => span_from_pos_len p (len_utf8 c)
  | EDateTimeMissingChar _ _ p | EDateTimeIncomplete _ p | EDateTimeMissing _ p => span_pos p
  | EDateTimeOutOfBounds _ _ _ _ s => s
  | EDateTimeMissingSubsec p => span_pos p
  | ELocalDateTimeOffset p => span_ascii_char p
  | EDateAndTimeTooFarApart s => s
  | EDuplicateKey _ _ _ s | ECannotExtendInlineTable _ _ _ s | ECannotExtendInlineArray _ _ _ s
  | ECannotExtendInlineArrayAsTable _ _ _ s | ECannotExtendTableWithDottedKey _ _ _ s
  | ECannotExtendArrayWithDottedKey _ _ _ s => s
  end.

(** toml/src/error.rs:391-472 [Diagnostic::hint] for [Error], and 567-579 the
    hint's span.  The hint texts are in DiagModel.v. *)
Definition err_hint (e : terror) : option span :=
  match e with
  | EExpectedRightCurlyFound _ p _ | EExpectedRightSquareFound _ p _ | EExpectedDotOrRightSquareFound _ p _ => Some (span_ascii_char p)
  | EDuplicateKey _ _ o _ | ECannotExtendInlineTable _ _ o _ | ECannotExtendInlineArray _ _ o _
  | ECannotExtendInlineArrayAsTable _ _ o _ | ECannotExtendTableWithDottedKey _ _ o _
  | ECannotExtendArrayWithDottedKey _ _ o _ => Some o
  | _ => None
  end.
(** toml/src/error.rs:474-536 [Diagnostic::context_lines] for [Error]; none is
    the empty list, as display uses them. *)
Definition err_lines (e : terror) : list N :=
  match e with
  | EDuplicateKey ls _ _ _ | ECannotExtendInlineTable ls _ _ _ | ECannotExtendInlineArray ls _ _ _
  | ECannotExtendInlineArrayAsTable ls _ _ _ | ECannotExtendTableWithDottedKey ls _ _ _
  | ECannotExtendArrayWithDottedKey ls _ _ _ => ls
  | _ => []
  end.
