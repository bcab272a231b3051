(** Independent specification of the lexer: where a text position is, how a
    document is cut into lexemes, and what a TOML string says.  Follows
    toml.io/en/v1.0.0 (ABNF rules [basic-string], [ml-basic-string],
    [literal-string], [ml-literal-string], [comment], [newline]). *)
From Verif Require Import Base CommonModel TomlError LitModel LexModel.

(** ** Positions *)

(** The position just after reading [s] from the start of a document: number
    of line feeds, and bytes since the last one. *)
Definition pos_step (p : pos) (c : N) : pos :=
  if c =? 10 then mkpos (p_line p + 1) 0 else mkpos (p_line p) (p_char p + len_utf8 c).
Definition pos_at (s : list N) : pos := fold_left pos_step s pos_zero.

(** [sp] is exactly where some part of [input] stands. *)
Definition covers_text (input : list N) (sp : span) : Prop :=
  exists a b c, input = a ++ b ++ c /\ sp = mkspan (pos_at a) (pos_at (a ++ b)).

(** ** Strings *)

Definition delim (q : quote) : N := match q with QBasic | QBasicMulti => 34 | _ => 39 end.
Definition escapes (q : quote) : Prop := q = QBasic \/ q = QBasicMulti.
Definition multi (q : quote) : Prop := q = QBasicMulti \/ q = QLiteralMulti.
(** The delimiter as written. *)
Definition delims (q : quote) : list N :=
  match q with QBasic => [34] | QLiteral => [39] | QBasicMulti => [34; 34; 34] | QLiteralMulti => [39; 39; 39] end.

(** Characters that may be written as they are: tab, and no other control
    character. *)
Definition plain (c : N) : Prop := c = 9 \/ ~ (c <= 31 \/ c = 127).

(** Escape letters and what they stand for. *)
Definition escape_letter (e v : N) : Prop :=
  In (e, v) [(98, 8); (116, 9); (110, 10); (102, 12); (114, 13); (34, 34); (92, 92)].

(** [hex_text ds v]: hexadecimal digits, most significant first. *)
Inductive hex_digit_of : N -> N -> Prop :=
| HX_dec d : d < 10 -> hex_digit_of (48 + d) d
| HX_lower d : 10 <= d < 16 -> hex_digit_of (87 + d) d
| HX_upper d : 10 <= d < 16 -> hex_digit_of (55 + d) d.
Inductive hex_text : list N -> N -> Prop :=
| HT_nil : hex_text [] 0
| HT_snoc ds v c d : hex_text ds v -> hex_digit_of c d -> hex_text (ds ++ [c]) (16 * v + d).

(** Characters that stand for themselves in a string with quotes [q]. *)
Definition ordinary (q : quote) (c : N) : Prop := plain c /\ c <> delim q /\ (escapes q -> c <> 92).

(** White space that a line-ending backslash swallows: at least one line
    feed among blanks, tabs, line feeds and carriage returns. *)
Definition is_ws (c : N) : Prop := c = 32 \/ c = 9 \/ c = 10 \/ c = 13.
Definition folded (w : list N) : Prop := Forall is_ws w /\ In 10 w.

Definition starts_with (P : N -> Prop) (s : list N) : Prop := exists c r, s = c :: r /\ P c.

(** [body q n src text]: between its delimiters, the source [src] of a string
    with quotes [q] stands for [text]; [n] delimiter characters come directly
    before it. *)
Inductive body (q : quote) : nat -> list N -> list N -> Prop :=
| body_end n : body q n [] []
| body_char n c s t : plain c -> c <> delim q -> (escapes q -> c <> 92) ->
    body q 0 s t -> body q n (c :: s) (c :: t)
| body_escape n e v s t : escapes q -> escape_letter e v ->
    body q 0 s t -> body q n (92 :: e :: s) (v :: t)
| body_unicode n u ds v s t : escapes q ->
    (u = 117 /\ length ds = 4%nat) \/ (u = 85 /\ length ds = 8%nat) -> hex_text ds v -> is_scalar v = true ->
    body q 0 s t -> body q n (92 :: u :: ds ++ s) (v :: t)
| body_fold n w s t : q = QBasicMulti -> folded w -> ~ starts_with is_ws s ->
    body q 0 s t -> body q n (92 :: w ++ s) t
| body_lf n s t : multi q -> body q 0 s t -> body q n (10 :: s) (10 :: t)
| body_crlf n s t : multi q -> body q 0 s t -> body q n (13 :: 10 :: s) (10 :: t)
| body_delim n s t : multi q -> (n < 2)%nat -> body q (S n) s t -> body q n (delim q :: s) (delim q :: t).

(** [toml_string q src trim text]: [src] is a complete string literal; [trim]
    is the line break directly after the opening delimiter of a multi-line
    string, which is not part of the text. *)
Definition line_break (s : list N) : Prop := s = [10] \/ s = [13; 10].
Definition toml_string (q : quote) (src trim text : list N) : Prop :=
  exists b, src = delims q ++ trim ++ b ++ delims q /\ body q 0 b text /\
    (trim = [] \/ (multi q /\ line_break trim)) /\
    (multi q -> trim = [] -> ~ starts_with (eq 10) b /\ ~ (exists r, b = 13 :: 10 :: r)).

(** [unicode_start n ds s]: [s] is a unicode escape sequence of [n] characters,
    of which [ds] are there. *)
Inductive unicode_start : nat -> list N -> list N -> Prop :=
| us_short ds : unicode_start 4 ds (92 :: 117 :: ds)
| us_long ds : unicode_start 8 ds (92 :: 85 :: ds).
(** The value of hexadecimal digits among which others count as zero. *)
Inductive loose_hex : list N -> N -> Prop :=
| LH_nil : loose_hex [] 0
| LH_digit ds v c d : loose_hex ds v -> hex_digit_of c d -> loose_hex (ds ++ [c]) (16 * v + d)
| LH_other ds v c : loose_hex ds v -> (forall d, ~ hex_digit_of c d) -> loose_hex (ds ++ [c]) (16 * v).
(** The end of the document, or of a line (for a string of several lines, only
    the last line break of the document). *)
Definition string_stops (q : quote) (rest : list N) : Prop :=
  rest = [] \/ exists lb r, line_break lb /\ rest = lb ++ r /\ (multi q -> r = []).

(** What the text [b] marked by an error, preceded by [a] and followed by
    [rest], looks like. *)
Definition err_says (e : terror) (a b rest : list N) : Prop :=
  match e with
  | EMissingQuote q _ => (exists t, b = delims q ++ t) /\ string_stops q rest
  (* the mark starts one quote early: five in a row are fine *)
  | EExcessiveQuotes q _ => multi q /\ (exists a', a = a' ++ repeat (delim q) 4) /\ (exists n, b = repeat (delim q) (S (S n))) /\ ~ starts_with (eq (delim q)) rest
  | EInvalidStringChar c _ => b = [c] /\ ~ plain c
  | EInvalidEscapeChar c _ =>
      b = [] /\ starts_with (eq c) rest /\ (exists a', a = a' ++ [92]) /\ c <> 117 /\ c <> 85 /\ ~ is_ws c /\ forall v, ~ escape_letter c v
  | EInvalidUnicodeEscapeChar c _ =>
      b = [] /\ starts_with (eq c) rest /\ (forall d, ~ hex_digit_of c d) /\
      exists a' n ds s, a = a' ++ s /\ unicode_start n ds s /\ (length ds < n)%nat
  | EInvalidUnicodeCodepoint n v _ => exists ds, n = N.of_nat (length ds) /\ unicode_start (length ds) ds b /\ loose_hex ds v /\ is_scalar v = false
  | EInvalidLineEndingEscape _ => exists w, b = 92 :: w /\ w <> [] /\ Forall is_ws w /\ ~ In 10 w /\ ~ starts_with is_ws rest
  | EUnfinishedEscapeSequence _ =>
      (b = [92] \/ exists n ds, unicode_start n ds b /\ (length ds < n)%nat) /\ (rest = [] \/ starts_with (fun c => is_ws c \/ c = 34) rest)
  | _ => False
  end.
(** The error marks exactly the text it is about. *)
Definition located (input : list N) (e : terror) : Prop :=
  exists a b c, input = a ++ b ++ c /\ err_span e = mkspan (pos_at a) (pos_at (a ++ b)) /\ err_says e a b c.
(** An illegal character in a comment is marked one character too early. *)
Definition comment_char_error (input : list N) (e : terror) : Prop :=
  exists a x c r, input = a ++ x :: c :: r /\ x <> 10 /\ c <> 10 /\ ~ plain c /\
    e = EInvalidCommentChar c (mkspan (pos_at a) (pos_plus (pos_at a) 1)).

(** ** Lexemes *)

Inductive lexeme :=
| XBlank
| XNewline
| XPunct (ty : ttype)
| XWord
| XComment
| XString (q : quote) (text : list N) (off : text_offset).

(** A document cut into pieces: each lexeme with its source text. *)
Definition tile : Type := lexeme * list N.
Definition source (ts : list tile) : list N := concat (map snd ts).

Definition punct (ty : ttype) (c : N) : Prop :=
  In (ty, c) [(TSquareLeft, 91); (TSquareRight, 93); (TCurlyLeft, 123); (TCurlyRight, 125); (TEqual, 61);
              (TDot, 46); (TComma, 44)].
(** Characters that are part of a bare word: everything that starts nothing
    else. *)
Definition word_char (c : N) : Prop :=
  ~ In c [9; 10; 32; 34; 35; 39; 44; 46; 61; 91; 93; 123; 125].

(** A string literal, closed or not: the opening delimiter, a trimmed line
    break, the text and the closing quotes, if any.  Only multi-line strings
    contain line breaks.  The stored offsets are the distances of the text from
    both ends of the literal (the last one as a byte). *)
Definition string_shape (q : quote) (off : text_offset) (s : list N) : Prop :=
  exists trim b e, s = delims q ++ trim ++ b ++ e /\
    (trim = [] \/ (multi q /\ line_break trim)) /\
    Forall (eq (delim q)) e /\ (e = [] \/ quote_len q <= tlen e) /\
    (~ multi q -> ~ In 10 b) /\
    off = match trim with [] => mkoff 0 (quote_len q) 0 (tlen e mod 256) | _ => mkoff 1 0 0 (tlen e mod 256) end.
(** The characters of a text are those of its literal, or unicode scalar values
    that escape sequences stand for. *)
Definition text_from (s text : list N) : Prop := Forall (fun c => In c s \/ is_scalar c = true) text.
(** The shape of a piece, whether or not errors were reported for it. *)
Definition shape (x : tile) : Prop :=
  match x with
  | (XBlank, s) => s = [9] \/ s = [32]
  | (XNewline, s) => line_break s
  | (XPunct ty, s) => exists c, punct ty c /\ s = [c]
  | (XWord, s) => s <> [] /\ Forall word_char s
  | (XComment, s) => exists t, s = 35 :: t /\ ~ In 10 t
  | (XString q text off, s) => string_shape q off s /\ text_from s text
  end.

(** The shape of a piece that is valid TOML, and the offsets of the text
    inside a string literal. *)
Definition valid (x : tile) : Prop :=
  match x with
  | (XComment, s) => exists t, s = 35 :: t /\ Forall plain t
  | (XString q text off, s) => exists trim, toml_string q s trim text /\
      off = match trim with
            | [] => mkoff 0 (quote_len q) 0 (quote_len q)
            | _ => mkoff 1 0 0 (quote_len q)
            end
  | _ => shape x
  end.

(** No piece could have been continued into the next one. *)
Definition ends_with (c : N) (s : list N) : Prop := exists r, s = r ++ [c].
Definition separated (x : tile) (rest : list N) : Prop :=
  match x with
  | (XWord, s) => ~ starts_with word_char rest /\ (ends_with 13 s -> ~ starts_with (eq 10) rest)
      \/ (exists r, rest = 13 :: 10 :: r)
  | (XComment, s) => rest = [] \/
      (starts_with (eq 10) rest /\ ~ ends_with 13 s) \/ (exists r, rest = 13 :: 10 :: r)
  | (XString q _ _, s) => (multi q \/ s = [delim q; delim q]) -> ~ starts_with (eq (delim q)) rest
  | _ => True
  end.
Fixpoint all_separated (ts : list tile) : Prop :=
  match ts with
  | [] => True
  | x :: r => separated x (source r) /\ all_separated r
  end.

(** The tokens that belong to a cut document.  [pre] is the text before the
    first piece, [ns] and [nl] the number of strings and of literals so far. *)
Fixpoint tile_tokens (pre : list N) (ns nl : N) (ts : list tile) : list token :=
  match ts with
  | [] => []
  | (x, s) :: r =>
      let p := pos_at pre in
      match x with
      | XBlank => tile_tokens (pre ++ s) ns nl r
      | XNewline => mktok TNewline p :: tile_tokens (pre ++ s) ns nl r
      | XPunct ty => mktok ty p :: tile_tokens (pre ++ s) ns nl r
      | XWord => mktok (TLit nl) p :: tile_tokens (pre ++ s) ns (nl + 1) r
      | XComment => mktok (TComment nl) p :: tile_tokens (pre ++ s) ns (nl + 1) r
      | XString _ _ _ => mktok (TString ns) p :: tile_tokens (pre ++ s) (ns + 1) nl r
      end
  end.
Fixpoint tile_literals (pre : list N) (ts : list tile) : list sref :=
  match ts with
  | [] => []
  | (XWord, s) :: r => mkref (tlen pre) s :: tile_literals (pre ++ s) r
  | (XComment, s) :: r => mkref (tlen pre + 1) (tl s) :: tile_literals (pre ++ s) r
  | (_, s) :: r => tile_literals (pre ++ s) r
  end.
Fixpoint tile_strings (pre : list N) (ts : list tile) : list string_token :=
  match ts with
  | [] => []
  | (XString q text off, s) :: r =>
      mkstr q (mkref (tlen pre) s) (pos_at (pre ++ s)) text off :: tile_strings (pre ++ s) r
  | (_, s) :: r => tile_strings (pre ++ s) r
  end.
Definition tokens_of (ts : list tile) : tokens :=
  mktokens (tile_tokens [] 0 0 ts) (tile_strings [] ts) (tile_literals [] ts) (mktok TEOF (pos_at (source ts))).

(** ** Reading the result *)

(** A stored slice: its text is the text of the input at its offset. *)
Definition slice_of (input : list N) (r : sref) : Prop :=
  exists a c, input = a ++ sr_text r ++ c /\ sr_off r = tlen a.

(** What a token of a type says about the text [b] at offset [off] and end
    position [e]. *)
Definition written (toks : tokens) (ty : ttype) (off : N) (b : list N) (e : pos) : Prop :=
  match ty with
  | TString id => exists s, nth_error (tk_strings toks) (N.to_nat id) = Some s /\ st_lit s = mkref off b /\ st_lit_end s = e
  | TLit id => nth_error (tk_literals toks) (N.to_nat id) = Some (mkref off b) /\ b <> [] /\ Forall word_char b
  | TComment id => exists t, b = 35 :: t /\ nth_error (tk_literals toks) (N.to_nat id) = Some (mkref (off + 1) t) /\ ~ In 10 t
  | TNewline => line_break b
  | TEOF => False
  | ty => exists c, punct ty c /\ b = [c]
  end.
(** A token stands where its text stands. *)
Definition stands_at (input : list N) (toks : tokens) (t : token) : Prop :=
  exists a b c, input = a ++ b ++ c /\ b <> [] /\ t_start t = pos_at a /\ written toks (t_ty t) (tlen a) b (pos_at (a ++ b)).

(** Document order of positions. *)
Definition pos_lt (a b : pos) : Prop := p_line a < p_line b \/ (p_line a = p_line b /\ p_char a < p_char b).
(** Each position comes before the next one. *)
Fixpoint increasing (ps : list pos) : Prop :=
  match ps with
  | [] => True
  | p :: r => match r with [] => True | q :: _ => pos_lt p q end /\ increasing r
  end.

(** A document that is lexically valid TOML. *)
Definition lexical (ts : list tile) (input : list N) : Prop :=
  source ts = input /\ Forall valid ts /\ all_separated ts.

(** TOML 1.0 proper: [mlb-escaped-nl] is a backslash, blanks, a line break,
    then blanks and line breaks; a carriage return that is not part of a line
    break is not allowed. *)
Inductive blank_lines : list N -> Prop :=
| BL_nil : blank_lines []
| BL_blank c w : c = 32 \/ c = 9 -> blank_lines w -> blank_lines (c :: w)
| BL_break s w : line_break s -> blank_lines w -> blank_lines (s ++ w).
Definition folded_strict (w : list N) : Prop := blank_lines w /\ In 10 w.

(** ** Writing a string value *)

Definition hex_of (n : N) : N := if n <? 10 then 48 + n else 55 + n.
(** Control characters are written as [\u00XX]. *)
Definition write_char (c : N) : list N :=
  if c =? 34 then [92; 34]
  else if c =? 92 then [92; 92]
  else if c =? 9 then [9]
  else if (c <=? 31) || (c =? 127) then [92; 117; 48; 48; hex_of (c / 16); hex_of (c mod 16)]
  else [c].
Definition write_basic (v : list N) : list N := [34] ++ flat_map write_char v ++ [34].
Definition write_literal (v : list N) : list N := [39] ++ v ++ [39].
