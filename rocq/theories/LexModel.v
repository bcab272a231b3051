(** Model of crates/toml/src/lex.rs.

    The input is its list of unicode scalar values; offsets are byte offsets.
    A borrowed [&str] of the input keeps its byte offset, because the parser
    later joins such slices by pointer arithmetic.  [Panic] stands for every
    panic (slice out of range or not on a character boundary, unsigned
    underflow) and for running out of fuel; LexProofs shows that neither
    happens.  Line numbers, columns and ids are unbounded (no [as u32]
    truncation). *)
From Verif Require Import Base CommonModel TomlError LitModel.

(** A call that can only return or panic. *)
Definition run (A : Type) : Type := res Empty_set A.

(** A slice [&'a str] of the input: offset of its first byte, and its text. *)
Record sref := mkref { sr_off : N; sr_text : list N }.

(** [&s[n..]] and [&s[..n]]; [None]: out of range or inside a character. *)
Fixpoint drop_bytes (n : N) (s : list N) : option (list N) :=
  if n =? 0 then Some s
  else match s with
       | [] => None
       | c :: r => if len_utf8 c <=? n then drop_bytes (n - len_utf8 c) r else None
       end.
Fixpoint take_bytes (n : N) (s : list N) : option (list N) :=
  if n =? 0 then Some []
  else match s with
       | [] => None
       | c :: r => if len_utf8 c <=? n then option_map (cons c) (take_bytes (n - len_utf8 c) r) else None
       end.
(** [&s[a..b]] *)
Definition slice (s : list N) (a b : N) : run sref :=
  if a <=? b then
    match drop_bytes a s with
    | Some t => match take_bytes (b - a) t with
                | Some u => Ok (mkref a u)
                | None => Panic
                end
    | None => Panic
    end
  else Panic.

(** toml/src/lex.rs:29-44 [TokenType] *)
Inductive ttype :=
| TString (id : N) | TLit (id : N) | TComment (id : N)
| TSquareLeft | TSquareRight | TCurlyLeft | TCurlyRight
| TEqual | TComma | TDot | TNewline | TEOF.
(** toml/src/lex.rs:23-27 [Token] *)
Record token := mktok { t_ty : ttype; t_start : pos }.

(** toml/src/lex.rs:92-98 [TextOffset] *)
Record text_offset := mkoff { to_start_line : N; to_start_char : N; to_end_line : N; to_end_char : N }.
(** toml/src/lex.rs:52-61 [StringToken] *)
Record string_token := mkstr {
  st_quote : quote;
  st_lit : sref;
  st_lit_end : pos;
  st_text : list N;
  st_offset : text_offset;
}.

(** toml/src/lex.rs:15-21 [Tokens] *)
Record tokens := mktokens {
  tk_tokens : list token;
  tk_strings : list string_token;
  tk_literals : list sref;
  tk_eof : token;
}.

(** Unsigned subtraction. *)
Definition usub (a b : N) : run N := if b <=? a then Ok (a - b) else Panic.
(** [as u8] *)
Definition as_u8 (n : N) : N := n mod 256.

(** toml/src/lex.rs:64-88 [StringToken::new] *)
Definition new_string_token (q : quote) (lit : sref) (lit_span : span) (text : list N) (text_span : span)
  : run string_token :=
  let? sl := usub (p_line (s_start text_span)) (p_line (s_start lit_span)) in
  let? el := usub (p_line (s_end lit_span)) (p_line (s_end text_span)) in
  let start_line := as_u8 sl in
  let end_line := as_u8 el in
  let? sc := if start_line =? 0
             then let? d := usub (p_char (s_start text_span)) (p_char (s_start lit_span)) in Ok (as_u8 d)
             else Ok 0 in
  let? ec := if end_line =? 0
             then let? d := usub (p_char (s_end lit_span)) (p_char (s_end text_span)) in Ok (as_u8 d)
             else Ok 0 in
  Ok (mkstr q lit (s_end lit_span) text (mkoff start_line sc end_line ec)).

(** toml/src/lex.rs:112-127 [TextOffset::apply_to] *)
Definition apply_to (o : text_offset) (lit_span : span) : run span :=
  let st := mkpos (p_line (s_start lit_span) + to_start_line o) (p_char (s_start lit_span) + to_start_char o) in
  let? l := usub (p_line (s_end lit_span)) (to_end_line o) in
  let? c := usub (p_char (s_end lit_span)) (to_end_char o) in
  Ok (mkspan st (mkpos l c)).

(** toml/src/lex.rs:156-197 [Quote::len, is_basic, is_multiline, char, multiline] *)
Definition quote_len (q : quote) : N :=
  match q with QBasic | QLiteral => 1 | QBasicMulti | QLiteralMulti => 3 end.
Definition is_basic (q : quote) : bool := match q with QBasic | QBasicMulti => true | _ => false end.
Definition is_multiline (q : quote) : bool := match q with QBasicMulti | QLiteralMulti => true | _ => false end.
Definition quote_char (q : quote) : N := match q with QBasic | QBasicMulti => 34 | _ => 39 end.
Definition quote_multi (q : quote) : quote :=
  match q with QBasic | QBasicMulti => QBasicMulti | QLiteral | QLiteralMulti => QLiteralMulti end.

(** toml/src/lex.rs:207-224 [Lexer], in three parts.  [chars] is the rest of
    the input together with its offset ([next_byte_pos]). *)
Record cursor := mkcur {
  cu_rest : list N;
  cu_next : N;
  cu_line : N;
  cu_line_start : N;
  cu_pos : N;
}.
Record litstate := mklit { li_in : bool; li_start : pos; li_byte : N }.
(** Tokens, strings, literals and the errors reported to the context. *)
Record outputs := mkout {
  o_tokens : list token;
  o_strings : list string_token;
  o_literals : list sref;
  o_errors : list terror;
}.
Record lexer := mklex { lx_cur : cursor; lx_lit : litstate; lx_out : outputs }.

(** toml/src/lex.rs:226-245 [Lexer::new] *)
Definition lexer_new (input : list N) : lexer :=
  mklex (mkcur input 0 0 0 0) (mklit false pos_zero 0) (mkout [] [] [] []).

Definition set_cur (lx : lexer) (c : cursor) : lexer := mklex c (lx_lit lx) (lx_out lx).
Definition set_lit (lx : lexer) (l : litstate) : lexer := mklex (lx_cur lx) l (lx_out lx).
Definition set_out (lx : lexer) (o : outputs) : lexer := mklex (lx_cur lx) (lx_lit lx) o.

(** toml/src/lex.rs:247-252 [newline] *)
Definition cur_newline (c : cursor) : cursor :=
  mkcur (cu_rest c) (cu_next c) (cu_line c + 1) (cu_pos c + 1) (cu_pos c + 1).
Definition newline (lx : lexer) : lexer := set_cur lx (cur_newline (lx_cur lx)).

(** toml/src/lex.rs:254-264 [store_string], [store_literal], and
    [tokens.push], [ctx.error] *)
Definition push_token (lx : lexer) (t : token) : lexer :=
  let o := lx_out lx in
  set_out lx (mkout (o_tokens o ++ [t]) (o_strings o) (o_literals o) (o_errors o)).
Definition store_string (lx : lexer) (s : string_token) : N * lexer :=
  let o := lx_out lx in
  (N.of_nat (length (o_strings o)),
   set_out lx (mkout (o_tokens o) (o_strings o ++ [s]) (o_literals o) (o_errors o))).
Definition store_literal (lx : lexer) (s : sref) : N * lexer :=
  let o := lx_out lx in
  (N.of_nat (length (o_literals o)),
   set_out lx (mkout (o_tokens o) (o_strings o) (o_literals o ++ [s]) (o_errors o))).
Definition lex_error (lx : lexer) (e : terror) : lexer :=
  let o := lx_out lx in
  set_out lx (mkout (o_tokens o) (o_strings o) (o_literals o) (o_errors o ++ [e])).

(** toml/src/lex.rs:266-270 [next] *)
Definition lnext (lx : lexer) : option N * lexer :=
  let c := lx_cur lx in
  match cu_rest c with
  | [] => (None, set_cur lx (mkcur [] (cu_next c) (cu_line c) (cu_line_start c) (cu_next c)))
  | x :: r =>
      (Some x, set_cur lx (mkcur r (cu_next c + len_utf8 x) (cu_line c) (cu_line_start c) (cu_next c)))
  end.
Definition lskip (lx : lexer) : lexer := snd (lnext lx).

(** toml/src/lex.rs:272-282 [peek], [peek2] *)
Definition lpeek (lx : lexer) : option N := hd_error (cu_rest (lx_cur lx)).
Definition lpeek2 (lx : lexer) : option N := hd_error (tl (cu_rest (lx_cur lx))).
Definition peeks (lx : lexer) (c : N) : bool :=
  match lpeek lx with Some x => x =? c | None => false end.
Definition peeks2 (lx : lexer) (c : N) : bool :=
  match lpeek2 lx with Some x => x =? c | None => false end.

(** toml/src/lex.rs:284-287 [peek_prev] *)
Definition last_char (s : list N) : option N := hd_error (rev s).
Definition peek_prev (input : list N) (lx : lexer) : run (option N) :=
  let? s := slice input 0 (cu_pos (lx_cur lx)) in Ok (last_char (sr_text s)).
Definition prev_is_cr (input : list N) (lx : lexer) : run bool :=
  let? c := peek_prev input lx in
  Ok (match c with Some x => x =? 13 | None => false end).

(** toml/src/lex.rs:289-311 [pos], [next_byte_pos], [next_pos], [pos_in_line] *)
Definition pos_in_line (lx : lexer) (byte_pos : N) : run pos :=
  let? d := usub byte_pos (cu_line_start (lx_cur lx)) in
  Ok (mkpos (cu_line (lx_cur lx)) d).
Definition lpos (lx : lexer) : run pos := pos_in_line lx (cu_pos (lx_cur lx)).
Definition next_byte_pos (lx : lexer) : N := cu_next (lx_cur lx).
Definition next_pos (lx : lexer) : run pos := pos_in_line lx (next_byte_pos lx).

(** toml/src/lex.rs:313-320 [StrState] *)
Record strstate := mkss {
  ss_text : option (list N);
  ss_text_start : pos;
  ss_text_byte : N;
  ss_quote : quote;
}.
(** toml/src/lex.rs:322-328 [push_char]; [BString::push_str], [pop] *)
Definition push_chars (st : strstate) (cs : list N) : strstate :=
  mkss (option_map (fun t => t ++ cs) (ss_text st)) (ss_text_start st) (ss_text_byte st) (ss_quote st).
Definition push_char (st : strstate) (c : N) : strstate := push_chars st [c].
Definition pop_char (st : strstate) : strstate :=
  mkss (option_map (@removelast N) (ss_text st)) (ss_text_start st) (ss_text_byte st) (ss_quote st).
Definition set_text (st : strstate) (t : list N) : strstate :=
  mkss (Some t) (ss_text_start st) (ss_text_byte st) (ss_quote st).

(** [ControlFlow] *)
Inductive flow := FContinue | FBreak.

Section Input.
  Context (input : list N).

  (** toml/src/lex.rs:766-778 [end_literal] *)
  Definition end_literal (lx : lexer) : run lexer :=
    if negb (li_in (lx_lit lx)) then Ok lx
    else
      let? lit := slice input (li_byte (lx_lit lx)) (cu_pos (lx_cur lx)) in
      let (id, lx) := store_literal lx lit in
      let lx := push_token lx (mktok (TLit id) (li_start (lx_lit lx))) in
      Ok (set_lit lx (mklit false (li_start (lx_lit lx)) (li_byte (lx_lit lx)))).

  (** toml/src/lex.rs:758-764 [start_literal] *)
  Definition start_literal (lx : lexer) : run lexer :=
    if li_in (lx_lit lx) then Ok lx
    else let? p := lpos lx in Ok (set_lit lx (mklit true p (cu_pos (lx_cur lx)))).

  (** toml/src/lex.rs:780-810 [end_string]; [str] is not used afterwards. *)
  Definition end_string (lx : lexer) (st : strstate) (text_byte_end lit_byte_end : N) : run lexer :=
    let? lit := slice input (li_byte (lx_lit lx)) lit_byte_end in
    let? text := match ss_text st with
                 | Some t => Ok t
                 | None => let? s := slice input (ss_text_byte st) text_byte_end in Ok (sr_text s)
                 end in
    let? le := pos_in_line lx lit_byte_end in
    let? te := pos_in_line lx text_byte_end in
    let lit_span := mkspan (li_start (lx_lit lx)) le in
    let? tok := new_string_token (ss_quote st) lit lit_span text (mkspan (ss_text_start st) te) in
    let (id, lx) := store_string lx tok in
    let lx := push_token lx (mktok (TString id) (s_start lit_span)) in
    Ok (set_lit lx (mklit false (li_start (lx_lit lx)) (li_byte (lx_lit lx)))).

  (** toml/src/lex.rs:812-828 [char_token], [newline_token] *)
  Definition char_token (lx : lexer) (ty : ttype) : run lexer :=
    let? lx := end_literal lx in
    let? p := lpos lx in
    Ok (push_token lx (mktok ty p)).
  Definition newline_token (lx : lexer) : run lexer := char_token lx TNewline.

  Definition is_control_char (c : N) : bool := (c <=? 31) || (c =? 127).

  (** toml/src/lex.rs:704-756 [string_closing_quote] *)
  Fixpoint skip_quotes (fuel : nat) (q : N) (lx : lexer) : run lexer :=
    match fuel with
    | O => Panic
    | S f => if peeks lx q then skip_quotes f q (lskip lx) else Ok lx
    end.
  Definition extra_quote (lx : lexer) (st : strstate) (text_end : N) : lexer * strstate * N :=
    let q := quote_char (ss_quote st) in
    if peeks lx q then (lskip lx, push_char st q, text_end + 1) else (lx, st, text_end).
  Definition string_closing_quote (lx : lexer) (st : strstate) : run (flow * lexer * strstate) :=
    let text_end := cu_pos (lx_cur lx) in
    let q := quote_char (ss_quote st) in
    if is_multiline (ss_quote st) then
      if negb (peeks lx q) then Ok (FContinue, lx, push_char st q)
      else
        let lx := lskip lx in
        if negb (peeks lx q) then Ok (FContinue, lx, push_char (push_char st q) q)
        else
          let lx := lskip lx in
          let '(lx, st, text_end) := extra_quote lx st text_end in
          let '(lx, st, text_end) := extra_quote lx st text_end in
          let? lx :=
            if peeks lx q then
              let? start := lpos lx in
              let lx := lskip lx in
              let? lx := skip_quotes (S (length (cu_rest (lx_cur lx)))) q lx in
              let? end_ := lpos lx in
              Ok (lex_error lx (EExcessiveQuotes (ss_quote st) (mkspan start (pos_plus end_ 1))))
            else Ok lx in
          let? lx := end_string lx st text_end (cu_pos (lx_cur lx) + 1) in
          Ok (FBreak, lx, st)
    else
      let? lx := end_string lx st text_end (cu_pos (lx_cur lx) + 1) in
      Ok (FBreak, lx, st).

  (** toml/src/lex.rs:562-572, 655-665: a single-line string that meets the
      end of the line inside an escape sequence. *)
  Definition recover_newline (lx : lexer) (st : strstate) : run (flow * lexer * strstate) :=
    let? p := lpos lx in
    let lx := lex_error lx (EMissingQuote (ss_quote st) (mkspan (li_start (lx_lit lx)) p)) in
    let? lx := end_string lx st (cu_pos (lx_cur lx)) (cu_pos (lx_cur lx)) in
    let? lx := newline_token lx in
    Ok (FBreak, newline lx, st).

  (** toml/src/lex.rs:618-702 [string_escape_unicode]; [remaining] is the
      value before the decrement. *)
  Definition hex_value (c : N) : option N :=
    if (48 <=? c) && (c <=? 57) then Some (c - 48)
    else if (97 <=? c) && (c <=? 102) then Some (c - 97 + 10)
    else if (65 <=? c) && (c <=? 70) then Some (c - 65 + 10)
    else None.
  Fixpoint escape_unicode (num_chars : N) (esc_start : pos) (remaining : nat) (cp : N)
      (lx : lexer) (st : strstate) : run (flow * lexer * strstate) :=
    match remaining with
    | O => Panic
    | S rem =>
        match lnext lx with
        | (None, lx) =>
            let? p := lpos lx in
            Ok (FContinue, lex_error lx (EUnfinishedEscapeSequence (mkspan esc_start p)), st)
        | (Some c, lx) =>
            let continue (cp : N) (lx : lexer) (st : strstate) :=
              match rem with
              | O =>
                  if is_scalar cp then Ok (FContinue, lx, push_char st cp)
                  else
                    let? p := lpos lx in
                    Ok (FContinue,
                        lex_error lx (EInvalidUnicodeCodepoint num_chars cp (mkspan esc_start (pos_after p c))), st)
              | _ => escape_unicode num_chars esc_start rem cp lx st
              end in
            match hex_value c with
            | Some v => continue (cp + N.shiftl v (N.of_nat rem * 4)) lx st
            | None =>
                let? p := lpos lx in
                let unfinished := lex_error lx (EUnfinishedEscapeSequence (mkspan esc_start p)) in
                if c =? 32 then continue cp unfinished (push_char st c)
                else if c =? 10 then
                  if negb (is_multiline (ss_quote st)) then recover_newline unfinished st
                  else Ok (FContinue, newline unfinished, push_char st c)
                else if c =? 34 then string_closing_quote unfinished st
                else continue cp (lex_error lx (EInvalidUnicodeEscapeChar c p)) st
            end
        end
    end.

  (** toml/src/lex.rs:586-600: whitespace after a line-ending backslash. *)
  Fixpoint eat_escape_ws (fuel : nat) (has_newline : bool) (lx : lexer) : run (bool * lexer) :=
    match fuel with
    | O => Panic
    | S f =>
        match lpeek lx with
        | Some c =>
            if (c =? 32) || (c =? 9) || (c =? 13) then eat_escape_ws f has_newline (lskip lx)
            else if c =? 10 then eat_escape_ws f true (newline (lskip lx))
            else Ok (has_newline, lx)
        | None => Ok (has_newline, lx)
        end
    end.

  (** toml/src/lex.rs:542-616 [string_escape] *)
  Definition simple_escape (c : N) : option N :=
    if c =? 98 then Some 8
    else if c =? 116 then Some 9
    else if c =? 110 then Some 10
    else if c =? 102 then Some 12
    else if c =? 114 then Some 13
    else if c =? 34 then Some 34
    else if c =? 92 then Some 92
    else None.
  Definition string_escape (esc_start : pos) (lx : lexer) (st : strstate) : run (flow * lexer * strstate) :=
    match lnext lx with
    | (None, lx) =>
        let? p := lpos lx in
        Ok (FContinue, lex_error lx (EUnfinishedEscapeSequence (mkspan esc_start p)), st)
    | (Some c, lx) =>
        if c =? 117 then escape_unicode 4 esc_start 4 0 lx st
        else if c =? 85 then escape_unicode 8 esc_start 8 0 lx st
        else match simple_escape c with
        | Some v => Ok (FContinue, lx, push_char st v)
        | None =>
            if (c =? 32) || (c =? 13) || (c =? 10) || (c =? 9) then
              let has_newline := c =? 10 in
              if negb (is_multiline (ss_quote st)) then
                let? p := lpos lx in
                let lx := lex_error lx (EUnfinishedEscapeSequence (mkspan esc_start p)) in
                if has_newline then recover_newline lx st else Ok (FContinue, lx, st)
              else
                let lx := if has_newline then newline lx else lx in
                let? (has_newline, lx) := eat_escape_ws (S (length (cu_rest (lx_cur lx)))) has_newline lx in
                if negb has_newline then
                  let? e := next_pos lx in
                  Ok (FContinue, lex_error lx (EInvalidLineEndingEscape (mkspan esc_start e)), st)
                else Ok (FContinue, lx, st)
            else
              let? p := lpos lx in
              Ok (FContinue, lex_error lx (EInvalidEscapeChar c p), st)
        end
    end.

  (** toml/src/lex.rs:436-470: the inner loop of [string] up to its [break];
      [None]: the input has ended. *)
  Fixpoint string_scan (fuel : nat) (q : quote) (lx : lexer) : run (option N * lexer) :=
    match fuel with
    | O => Panic
    | S f =>
        match lnext lx with
        | (None, lx) => Ok (None, lx)
        | (Some c, lx) =>
            if c =? quote_char q then Ok (Some c, lx)
            else if c =? 10 then Ok (Some c, lx)
            else if (c =? 92) && is_basic q then Ok (Some c, lx)
            else if c =? 9 then string_scan f q lx
            else if (c =? 13) && is_multiline q && peeks lx 10 then string_scan f q lx
            else if is_control_char c then
              let? p := lpos lx in
              string_scan f q (lex_error lx (EInvalidStringChar c (span_ascii_char p)))
            else string_scan f q lx
        end
    end.

  (** toml/src/lex.rs:437-457: the string is not closed before the end of the
      input. *)
  Fixpoint count_until_lf (s : bytes) : N :=
    match s with
    | [] => 0
    | b :: r => if b =? 10 then 0 else 1 + count_until_lf r
    end.
  Definition unterminated (lx : lexer) (st : strstate) : run lexer :=
    let? p := lpos lx in
    let? p :=
      match rev input with
      | 10 :: r =>
          let cr := match r with 13 :: _ => 1 | _ => 0 end in
          let? line_end := usub (tlen input) (1 + cr) in
          let? s := slice input 0 line_end in
          let? l := usub (p_line p) 1 in
          Ok (mkpos l (count_until_lf (rev (utf8 (sr_text s)))))
      | _ => Ok p
      end in
    let lx := lex_error lx (EMissingQuote (ss_quote st) (mkspan (li_start (lx_lit lx)) p)) in
    end_string lx st (cu_pos (lx_cur lx)) (cu_pos (lx_cur lx)).

  (** toml/src/lex.rs:433-540 [string] *)
  Fixpoint lex_string (fuel : nat) (lx : lexer) (st : strstate) : run lexer :=
    match fuel with
    | O => Panic
    | S f =>
        let start := next_byte_pos lx in
        let? (oc, lx) := string_scan (S (length (cu_rest (lx_cur lx)))) (ss_quote st) lx in
        match oc with
        | None => unterminated lx st
        | Some c =>
            let? st := match ss_text st with
                       | Some _ => let? s := slice input start (cu_pos (lx_cur lx)) in
                                   Ok (push_chars st (sr_text s))
                       | None => Ok st
                       end in
            if c =? quote_char (ss_quote st) then
              let? (fl, lx, st) := string_closing_quote lx st in
              match fl with
              | FContinue => lex_string f lx st
              | FBreak => Ok lx
              end
            else if c =? 10 then
              let? cr := prev_is_cr input lx in
              let? line_end := usub (cu_pos (lx_cur lx)) (if cr then 1 else 0) in
              if negb (is_multiline (ss_quote st)) then
                let? line_end_pos := pos_in_line lx line_end in
                let lx := lex_error lx (EMissingQuote (ss_quote st) (mkspan (li_start (lx_lit lx)) line_end_pos)) in
                let st := pop_char st in
                let? lx := end_string lx st line_end line_end in
                let lx := push_token lx (mktok TNewline line_end_pos) in
                Ok (newline lx)
              else
                let? st := if cr then
                             match ss_text st with
                             | Some _ => Ok (pop_char st)
                             | None => let? s := slice input (ss_text_byte st) line_end in
                                       Ok (set_text st (sr_text s))
                             end
                           else Ok st in
                lex_string f (newline lx) (push_char st c)
            else if is_basic (ss_quote st) && (c =? 92) then
              let? st := match ss_text st with
                         | Some _ => Ok st
                         | None => let? s := slice input (ss_text_byte st) (cu_pos (lx_cur lx)) in
                                   Ok (set_text st (sr_text s))
                         end in
              let? p := lpos lx in
              let? (fl, lx, st) := string_escape p lx st in
              match fl with
              | FContinue => lex_string f lx st
              | FBreak => Ok lx
              end
            else lex_string f lx (push_char st c)
        end
    end.

  (** toml/src/lex.rs:343-401: a quote character in the main loop. *)
  Definition quote_token (c : N) (lx : lexer) : run lexer :=
    let? lx := end_literal lx in
    let? p := lpos lx in
    let lx := set_lit lx (mklit (li_in (lx_lit lx)) p (cu_pos (lx_cur lx))) in
    let q := if c =? 34 then QBasic else QLiteral in
    let begin (q : quote) (lx : lexer) :=
      let b := next_byte_pos lx in
      let? ts := pos_in_line lx b in
      lex_string (S (length (cu_rest (lx_cur lx)))) lx (mkss None ts b q) in
    if peeks lx c then
      let lx := lskip lx in
      if peeks lx c then
        let lx := lskip lx in
        let lx := if peeks lx 10 then newline (lskip lx)
                  else if peeks lx 13 && peeks2 lx 10 then newline (lskip (lskip lx))
                  else lx in
        begin (quote_multi q) lx
      else
        let lit_span := span_from_pos_len (li_start (lx_lit lx)) 2 in
        let? tp := lpos lx in
        let b := li_byte (lx_lit lx) in
        let? lit := slice input b (b + 2) in
        let? text := slice input (b + 1) (b + 1) in
        let? tok := new_string_token q lit lit_span (sr_text text) (span_pos tp) in
        let (id, lx) := store_string lx tok in
        Ok (push_token lx (mktok (TString id) (s_start lit_span)))
    else begin q lx.

  (** toml/src/lex.rs:830-868 [comment] *)
  Fixpoint comment_scan (fuel : nat) (lx : lexer) : run lexer :=
    match fuel with
    | O => Panic
    | S f =>
        match lpeek lx with
        | None => Ok lx
        | Some c =>
            if c =? 10 then Ok lx
            else if c =? 9 then comment_scan f (lskip lx)
            else if (c =? 13) && peeks2 lx 10 then comment_scan f (lskip lx)
            else if is_control_char c then
              let? p := lpos lx in
              comment_scan f (lskip (lex_error lx (EInvalidCommentChar c (span_ascii_char p))))
            else comment_scan f (lskip lx)
        end
    end.
  Definition comment (lx : lexer) : run lexer :=
    let? lx := end_literal lx in
    let? start_pos := lpos lx in
    let text_start := cu_pos (lx_cur lx) + 1 in
    let? lx := comment_scan (S (length (cu_rest (lx_cur lx)))) lx in
    let (oc, lx) := lnext lx in
    let nl := match oc with Some _ => true | None => false end in
    let? cr := if nl then prev_is_cr input lx else Ok false in
    let? text_end := usub (cu_pos (lx_cur lx)) (if cr then 1 else 0) in
    let? lit := slice input text_start text_end in
    let (id, lx) := store_literal lx lit in
    let lx := push_token lx (mktok (TComment id) start_pos) in
    if nl then
      let? p := pos_in_line lx text_end in
      Ok (newline (push_token lx (mktok TNewline p)))
    else Ok lx.

  (** toml/src/lex.rs:332-413: one iteration of the main loop, after [next]
      returned [c]. *)
  Definition lex_step (c : N) (lx : lexer) : run lexer :=
    if (c =? 13) && peeks lx 10 then
      let? lx := newline_token lx in Ok (newline (lskip lx))
    else if c =? 10 then
      let? lx := newline_token lx in Ok (newline lx)
    else if (c =? 9) || (c =? 32) then end_literal lx
    else if (c =? 34) || (c =? 39) then quote_token c lx
    else if c =? 91 then char_token lx TSquareLeft
    else if c =? 93 then char_token lx TSquareRight
    else if c =? 123 then char_token lx TCurlyLeft
    else if c =? 125 then char_token lx TCurlyRight
    else if c =? 61 then char_token lx TEqual
    else if c =? 46 then char_token lx TDot
    else if c =? 44 then char_token lx TComma
    else if c =? 35 then comment lx
    else start_literal lx.

  Fixpoint lex_loop (fuel : nat) (lx : lexer) : run lexer :=
    match fuel with
    | O => Panic
    | S f =>
        match lnext lx with
        | (None, lx) => Ok lx
        | (Some c, lx) => let? lx := lex_step c lx in lex_loop f lx
        end
    end.

  (** toml/src/lex.rs:330-431 [lex]: the tokens and the errors reported. *)
  Definition lex : run (tokens * list terror) :=
    let? lx := lex_loop (S (length input)) (lexer_new input) in
    let? lx := end_literal lx in
    let? p := lpos lx in
    let o := lx_out lx in
    Ok (mktokens (o_tokens o) (o_strings o) (o_literals o) (mktok TEOF p), o_errors o).
End Input.
