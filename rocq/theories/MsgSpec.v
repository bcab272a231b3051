(** Specification of messages: what the description and the annotation of an
    error say, in terms of the document alone.  The texts are written down
    here a second time, next to what must hold of the document for each. *)
From Verif Require Import Base CommonModel TomlError LitModel LitSpec LexModel LexSpec ParseSpec ParsePlace DisplayModel.

(** Text of the document in backticks, control characters escaped (C45). *)
Definition code (s : list N) : list N := bs "`" ++ fmt_str s ++ bs "`".

(** ** Names *)
Definition string_kind (k : quote) : list N :=
  match k with
  | QBasic => bs "basic" | QBasicMulti => bs "multi-line basic"
  | QLiteral => bs "literal" | QLiteralMulti => bs "multi-line literal"
  end.
Definition radix_name (f : int_prefix) : list N := match f with PBin => bs "binary" | POct => bs "octal" | PHex => bs "hexadecimal" end.
Definition radix_digits (f : int_prefix) : list N :=
  match f with PBin => bs "`0` and `1`" | POct => bs "`0-7`" | PHex => bs "`0-9`, `a-f`, and `A-F`" end.
Definition part_name (p : lit_part) : list N :=
  match p with
  | LPGeneric => bs "literal"
  | LPIntOrFloat => bs "integer or float"
  | LPInt => bs "integer"
  | LPPrefixedInt f => radix_name f ++ bs " integer"
  | LPFloatIntegral => bs "float integral"
  | LPFloatFract => bs "float fractional part"
  | LPFloatExp => bs "float exponent"
  end.
Definition field_name (f : dt_field) : list N :=
  match f with
  | DYear => bs "year" | DMonth => bs "month" | DDay => bs "day" | DHour => bs "hour" | DMinute => bs "minute" | DSecond => bs "second"
  | DOffsetHour => bs "offset-hour" | DOffsetMinute => bs "offset-minute"
  end.
(** A message that expected [what] and found the text [b], followed by [c]; a
    comment and a line break are named by their kind, and a closing curly
    bracket is shown as an opening one. *)
Inductive found_name (b c : list N) : list N -> Prop :=
| fn_text : b <> [] -> b <> [125] -> ~ starts_with (eq 35) b -> found_name b c (code b)
| fn_curly : b = [125] -> found_name b c (bs "`{`")
| fn_comment : starts_with (eq 35) b -> found_name b c (bs "comment")
| fn_newline : b = [] -> breaks_line c -> found_name b c (bs "`\n`")
| fn_end : b = [] -> c = [] -> found_name b c (bs "`EOF`").
(** Where the bracket is that the expected one would close. *)
Inductive opening (input : list N) (x : N) : option dhint -> Prop :=
| op_at a b : (input = a ++ x :: b) ->
    opening input x (Some (mkhint (mkspan (pos_at a) (pos_at (a ++ [x]))) (bs "left " ++ code [x] ++ bs " defined here"))).
(** Lower-case hexadecimal. *)
Definition lower_hex (hs : list N) (v : N) : Prop := hex_text hs v /\ Forall (fun c => ~ (65 <= c <= 70)) hs.
(** [b] stands in a literal, [u] before it and [w] behind it. *)
Definition in_literal (a b c u w : list N) : Prop := exists a' c', a = (a' ++ u) /\ c = (w ++ c') /\ whole_literal (u ++ b ++ w) c'.

(** ** Messages about literals

    [literal_message u v w d n]: of the part [v] that is marked of the literal
    [u ++ v ++ w], the description [d] and the annotation [n] are right. *)
Inductive literal_message : list N -> list N -> list N -> list N -> list N -> Prop :=
(* numbers *)
| l_char p x u w more : in_part p u -> ~ part_digit p x -> (x = 95 -> u = [43] \/ u = [45]) ->
    more = (if match p with LPIntOrFloat => true | _ => false end && existsb (N.eqb x) (bs "abcdefABCDEF")
            then bs ", hexadecimal integers need to be prefixed by `0x`" else []) ->
    literal_message u [x] w (bs "unexpected character " ++ code [x] ++ bs " in " ++ part_name p ++ more) (bs "Unexpected character in " ++ part_name p)
| l_starts_us p u w : before_part p u ->
    literal_message u [95] w (part_name p ++ bs " cannot start with `_`") (part_name p ++ bs " cannot start with `_`")
| l_ends_us p u w : after_digit p u -> part_next p w ->
    literal_message u [95] w (part_name p ++ bs " cannot end with `_`") (part_name p ++ bs " cannot end with `_`")
| l_consecutive p n u w : after_digit p u -> ~ begins (eq 95) w ->
    literal_message u (95 :: 95 :: repeat 95 n) w (bs "consecutive underscores (`_`) are not allowed in number literals")
      (bs "consecutive underscores (`_`) not allowed")
| l_sign s w : s = 43 \/ s = 45 -> w = [] \/ begins (eq 46) w ->
    literal_message [s] [] w (bs "missing digit after sign " ++ code [s] ++ bs ", expected at least one") (bs "missing digit after sign")
| l_zero u w : u = [] \/ u = [43] \/ u = [45] -> begins (fun c => decimal c \/ c = 95) w ->
    literal_message u [48] w (bs "invalid leading `0` in number") (bs "invalid leading `0`")
| l_radix x w : ~ decimal x -> ~ In x (bs "BEOXbeox_.") ->
    literal_message [48] [x] w (bs "unexpected character " ++ code [x] ++ bs ", expected integer radix `b`, `o`, `x` or date-time") (bs "unexpected character")
| l_signed_zero x u w : u = [43; 48] \/ u = [45; 48] -> ~ decimal x ->
    literal_message u [x] w (bs "unexpected character " ++ code [x]) (bs "unexpected character")
(* keywords: an upper-case letter for a lower-case one, another character,
   more characters, fewer *)
| l_upper x k e q u w : word_read k u (e :: q) -> x = e - 32 ->
    literal_message u [x] w (bs "uppercase character " ++ code [x] ++ bs " in literal, expected " ++ code k) (bs "uppercase character")
| l_other x k e q u w : word_read k u (e :: q) -> x <> e -> x <> e - 32 ->
    literal_message u [x] w (bs "unexpected character " ++ code [x] ++ bs " in literal, expected " ++ code k) (bs "unexpected character")
| l_trailing v k u : v <> [] -> word_read k u [] ->
    literal_message u v [] (bs "trailing characters " ++ code v ++ bs " in literal, expected " ++ code k) (bs "trailing characters")
| l_missing k u q : word_read k u q -> q <> [] ->
    literal_message u [] [] (bs "missing characters in literal, expected " ++ code k) (bs "missing characters")
(* floats *)
| l_fraction u w : before_part LPFloatFract u -> part_next LPFloatFract w ->
    literal_message u [] w (bs "missing fractional part of float literal, expected at least one digit") (bs "missing fractional part of float literal")
(* a float without digits in its exponent is taken for one that is too big *)
| l_float v : before_part LPFloatExp v ->
    literal_message [] v [] (bs "float literal overflow, number doesn't fit into a 64-bit IEEE float") (bs "float literal overflow")
(* integers *)
| l_no_digits f : literal_message [48; radix_letter f] [] [] (bs "missing integer digits, expected at least one") (bs "missing integer digits")
| l_prefixed_sign s f x w : s = 43 \/ s = 45 -> x = radix_letter f \/ x = capital_radix f ->
    literal_message [] [s] (48 :: x :: w) (bs "signs are not permitted for binary, octal, and hexadecimal integers") (bs "sign not allowed")
| l_capital f w : literal_message [48] [capital_radix f] w
    (bs "found uppercase " ++ radix_name f ++ bs " int prefix " ++ code [capital_radix f] ++ bs ", only lowercase " ++ code [radix_letter f] ++ bs " is permitted")
    (bs "uppercase radix")
| l_prefixed_starts f w : literal_message [48; radix_letter f] [95] w (bs "integer literal cannot start with `_`") (bs "integer literal cannot start with `_`")
| l_prefixed_ends f u : after_digit (LPPrefixedInt f) u ->
    literal_message u [95] [] (bs "integer literal cannot end with `_`") (bs "integer literal cannot end with `_`")
(* two spaces in one of the texts *)
| l_digit f x u w : in_part (LPPrefixedInt f) u -> ~ part_digit (LPPrefixedInt f) x -> decimal x \/ 97 <= x <= 122 \/ 65 <= x <= 90 ->
    literal_message u [x] w (radix_name f ++ bs " digit " ++ code [x] ++ bs " out of range, valid digits are " ++ radix_digits f)
      (radix_name f ++ (match f with PHex => bs " digit  out of range" | _ => bs " digit out of range" end))
| l_overflow v z : dec_int v z -> ~ (i64_min <= z <= i64_max)%Z ->
    literal_message [] v [] (bs "integer literal overflow, number doesn't fit into a 64-bit signed integer") (bs "integer literal overflow")
(* date-times *)
| l_date_char x u w : dt_start u -> (decimal x -> dt_after DSecond u) ->
    literal_message u [x] w (bs "unexpected character " ++ code [x] ++ bs " in date-time") (bs "unexpected character")
| l_date_expected f y x u w : dt_after f u -> In y (dt_next f) -> x <> y ->
    literal_message u [x] w (bs "unexpected character " ++ code [x] ++ bs " in date-time after " ++ field_name f ++ bs ", expected " ++ code [y]) (bs "unexpected character")
| l_date_missing_char f y u w : dt_after f u -> In y (dt_next f) -> w = [] \/ begins decimal w ->
    literal_message u [] w (bs "incomplete date-time, missing character " ++ code [y] ++ bs " after " ++ field_name f) (bs "missing character")
| l_date_incomplete f u w : dt_within f u -> w = [] \/ begins (fun c => In c (dt_next f)) w ->
    literal_message u [] w (bs "incomplete date-time, " ++ field_name f ++ bs " is missing digits") (bs "missing digits")
(* three digits before a colon are also taken for an hour *)
| l_date_three u w : length u = 3%nat -> dt_digits u -> begins (eq 58) w ->
    literal_message u [] w (bs "incomplete date-time, hour is missing digits") (bs "missing digits")
| l_date_missing f u w : dt_before f u -> w = [] \/ begins (fun c => In c (dt_next f)) w ->
    literal_message u [] w (bs "incomplete date-time, missing " ++ field_name f) (bs "missing " ++ field_name f)
| l_date_bounds f n lo hi u v w : dt_before f u -> dt_range f u lo hi -> ~ lo <= n <= hi -> (v = two n /\ n < 100) \/ (f = DHour /\ hour_text u v n) ->
    literal_message u v w
      (bs "date-time " ++ field_name f ++ bs " `" ++ dec n ++ bs "` out of range, the valid range is `" ++ dec lo ++ bs "..=" ++ dec hi ++ bs "`")
      (field_name f ++ bs " out of range")
| l_date_subsec x s y : dt_before DSecond x -> s < 60 -> y = [] \/ begins (fun c => In c (dt_next DSecond)) y ->
    literal_message (x ++ two s ++ [46] ++ y) [] [] (bs "missing date-time fractional second, expected at least one digit") (bs "missing date-time fractional second")
| l_local_offset x u t w : In x [90; 122; 43; 45] -> lenient_datetime u (LocalTime t) ->
    literal_message u [x] w (bs "local-time doesn't permit an offset, see: https://toml.io/en/v1.0.0#local-time") (bs "local-time doesn't permit an offset").

(** ** Messages

    [message input a b c d n h]: of the text [b] that is marked in the document
    [input], which is [a], [b] and [c], the description [d], the annotation
    [n] and the hint [h] are right. *)
Inductive message (input a b c : list N) : list N -> list N -> option dhint -> Prop :=
(* strings *)
| m_missing_quote q t : b = (delims q ++ t) -> string_stops q c ->
    message input a b c (bs "unterminated " ++ string_kind q ++ bs " string, missing " ++ code (delims q)) (bs "unterminated string") None
| m_excess q a' n : multi q -> a = (a' ++ repeat (delim q) 4) -> b = repeat (delim q) (S (S n)) -> ~ starts_with (eq (delim q)) c ->
    message input a b c (bs "excess quotes, only up to two consecutive quotes (" ++ code [delim q] ++ bs ") are allowed inside a multi-line string")
      (bs "excess quotes") None
| m_string_char x : b = [x] -> ~ plain x ->
    message input a b c (bs "invalid character " ++ code [x] ++ bs "in string") (bs "invalid character") None
| m_escape x a' c' : b = [] -> c = (x :: c') -> a = (a' ++ [92]) -> x <> 117 -> x <> 85 -> ~ is_ws x -> (forall v, ~ escape_letter x v) ->
    message input a b c
      (bs "invalid escape character " ++ code [x] ++ bs ", expected one of: `u`, `U`, `b`, `t`, `n`, `f`, `r`, `""`, `\`")
      (bs "invalid escape character") None
| m_unicode_char x a' c' n ds s : b = [] -> c = (x :: c') -> (forall d, ~ hex_digit_of x d) ->
    a = (a' ++ s) -> unicode_start n ds s -> (length ds < n)%nat ->
    message input a b c
      (bs "invalid character " ++ code [x] ++ bs " in unicode escape sequence, valid characters are: `a-f`, `A-F` and `0-9`")
      (bs "invalid unicode escape character") None
| m_codepoint ds v hs : unicode_start (length ds) ds b -> loose_hex ds v -> is_scalar v = false -> lower_hex hs v -> length hs = length ds ->
    message input a b c (bs "invalid unicode scalar `0x" ++ hs ++ bs "` (`" ++ dec v ++ bs "`)") (bs "invalid unicode scalar") None
| m_line_ending w : b = (92 :: w) -> w <> [] -> Forall is_ws w -> ~ In 10 w -> ~ starts_with is_ws c ->
    message input a b c (bs "invalid line ending backslash, missing newline") (bs "invalid line ending backslash") None
| m_unfinished : b = [92] \/ (exists n ds, unicode_start n ds b /\ (length ds < n)%nat) -> c = [] \/ starts_with (fun x => is_ws x \/ x = 34) c ->
    message input a b c (bs "unfinished escape sequence") (bs "unfinished escape sequence") None
(* keys *)
| m_key_char x c' : b = [] -> c = (x :: c') -> ~ ParseSpec.bare x ->
    message input a b c (bs "invalid character " ++ code [x] ++ bs " in identifier, valid characters are: `a-z`, `A-Z`, `0-9`, `_` and `-`")
      (bs "invalid character in identifier") None
| m_multiline_key t : b = ([34; 34; 34] ++ t) \/ b = ([39; 39; 39] ++ t) ->
    message input a b c (bs "multi-line strings cannot be used as keys") (bs "not a valid key") None
(* structure *)
| m_recursion : b = [91] \/ b = [123] ->
    message input a b c (bs "recursion limit of 100 exceeded") (bs "recursion limit of 100 exceeded") None
| m_eq_or_dot f : found_name b c f -> message input a b c (bs "expected `=` or `.`, found " ++ f) (bs "expected `=` or `.`") None
| m_curly f h : found_name b c f -> opening input 123 h ->
    message input a b c (bs "expected `}`, found " ++ f) (bs "expected `}`") h
| m_square f h : found_name b c f -> opening input 91 h ->
    message input a b c (bs "expected `]`, found " ++ f) (bs "expected `]`") h
(* an array that is not closed is marked at the end of its last line *)
| m_square_end h : b = [] -> opening input 91 h ->
    message input a b c (bs "expected `]`, found `EOF`") (bs "expected `]`") h
| m_dot_or_square f h : found_name b c f -> opening input 91 h ->
    message input a b c (bs "expected `.` or `]`, found " ++ f) (bs "Expected `.` or `]`") h
| m_key f : found_name b c f -> message input a b c (bs "expected a key, found " ++ f) (bs "expected a key") None
| m_value f : found_name b c f -> message input a b c (bs "expected a value, found " ++ f) (bs "expected a value") None
(* the mark is up to the end of the line, the message names its first part *)
| m_newline b1 r f : (b ++ c = b1 ++ r) -> found_name b1 r f ->
    message input a b c (bs "expected a line break, found " ++ f) (bs "expected a line break") None
| m_comma : b = [] -> message input a b c (bs "missing comma (`,`)") (bs "missing comma (`,`)") None
| m_missing_newline : b = [] -> c <> [] -> ~ starts_with (eq 10) c ->
    message input a b c (bs "missing line break") (bs "missing line break") None
| m_trailing_comma : b = [44] ->
    message input a b c (bs "trailing commas aren't permitted in inline tables") (bs "trailing comma") None
| m_array_pars x : only_blanks b -> x = 91 \/ x = 93 -> ends_in a x -> starts_with (eq x) c ->
    message input a b c (bs "no space allowed between array header brackets") (bs "no space allowed") None
(* literals *)
| m_literal_start x : b = [x] ->
    message input a b c (bs "unexpected character " ++ code [x] ++ bs " at start of literal") (bs "Unexpected character") None
| m_too_far : only_blanks b -> (1 < length b)%nat ->
    message input a b c (bs "date and time too far apart, they may only be separated by exactly one space") (bs "date and time too far apart") None
| m_literal u w d n : in_literal a b c u w -> literal_message u b w d n -> message input a b c d n None.
