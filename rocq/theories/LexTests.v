(** The lexer model run on inputs of toml/src/lex/test.rs; expected values are
    those of the Rust tests.  These are sanity checks of the model, not
    properties. *)
From Verif Require Import Base CommonModel TomlError LexModel.

Definition view (r : run (tokens * list terror)) :=
  match r with
  | Ok (t, es) =>
      Some (map (fun k => (t_ty k, (p_line (t_start k), p_char (t_start k)))) (tk_tokens t),
            map (fun s => (st_quote s, sr_text (st_lit s), (p_line (st_lit_end s), p_char (st_lit_end s)),
                           st_text s, st_offset s)) (tk_strings t),
            map sr_text (tk_literals t),
            (p_line (t_start (tk_eof t)), p_char (t_start (tk_eof t))),
            es)
  | _ => None
  end.
Definition at_ (l c : N) : N * N := (l, c).
Definition qq : list N := [34; 34; 34].
Definition nl : list N := [10].
Definition crlf : list N := [13; 10].

(** assign_int *)
Example t_assign_int : view (lex (bs "my_int = 98742")) =
  Some ([(TLit 0, at_ 0 0); (TEqual, at_ 0 7); (TLit 1, at_ 0 9)], [], [bs "my_int"; bs "98742"], at_ 0 14, []).
Proof. vm_compute. reflexivity. Qed.

(** assign_float *)
Example t_assign_float : view (lex (bs "my_float=0.23")) =
  Some ([(TLit 0, at_ 0 0); (TEqual, at_ 0 8); (TLit 1, at_ 0 9); (TDot, at_ 0 10); (TLit 2, at_ 0 11)],
        [], [bs "my_float"; bs "0"; bs "23"], at_ 0 13, []).
Proof. vm_compute. reflexivity. Qed.

(** assign_literal_string *)
Example t_literal_string : view (lex (bs "my.string = 'yeet\'")) =
  Some ([(TLit 0, at_ 0 0); (TDot, at_ 0 2); (TLit 1, at_ 0 3); (TEqual, at_ 0 10); (TString 0, at_ 0 12)],
        [(QLiteral, bs "'yeet\'", at_ 0 19, bs "yeet\", mkoff 0 1 0 1)], [bs "my"; bs "string"], at_ 0 19, []).
Proof. vm_compute. reflexivity. Qed.

(** assign_escaped_string *)
Example t_escaped_string : view (lex (bs "s = ""a\u93f2nope""")) =
  Some ([(TLit 0, at_ 0 0); (TEqual, at_ 0 2); (TString 0, at_ 0 4)],
        [(QBasic, bs """a\u93f2nope""", at_ 0 17, [97; 37874] ++ bs "nope", mkoff 0 1 0 1)], [bs "s"], at_ 0 17, []).
Proof. vm_compute. reflexivity. Qed.

(** multiline_string_unfinished_escape_sequence_on_newline *)
Example t_unfinished : view (lex (qq ++ bs "\t abc \u324" ++ nl ++ bs "this" ++ qq)) =
  Some ([(TString 0, at_ 0 0)],
        [(QBasicMulti, qq ++ bs "\t abc \u324" ++ nl ++ bs "this" ++ qq, at_ 1 7,
          [9] ++ bs " abc " ++ nl ++ bs "this", mkoff 0 3 0 3)], [], at_ 1 7,
        [EUnfinishedEscapeSequence (span_from_pos_len (mkpos 0 10) 5)]).
Proof. vm_compute. reflexivity. Qed.

(** multiline_string_escaped_newline *)
Example t_escaped_newline :
  let src := qq ++ bs "look \" ++ nl ++ bs "    the final string \" ++ nl ++ bs "    line\" ++ nl ++ qq in
  view (lex src) =
  Some ([(TString 0, at_ 0 0)], [(QBasicMulti, src, at_ 3 3, bs "look the final string line", mkoff 0 3 0 3)],
        [], at_ 3 3, []).
Proof. vm_compute. reflexivity. Qed.

(** multiline_string_contains_up_to_two_quotes *)
Example t_two_quotes :
  let src := bs "'''this doesn't end the string: '' but this does: '''" in
  view (lex src) =
  Some ([(TString 0, at_ 0 0)],
        [(QLiteralMulti, src, at_ 0 53, bs "this doesn't end the string: '' but this does: ", mkoff 0 3 0 3)],
        [], at_ 0 53, []).
Proof. vm_compute. reflexivity. Qed.

(** unclosed_basic_single_line_string *)
Example t_unclosed_single : view (lex (bs """some unclosed string" ++ nl)) =
  Some ([(TString 0, at_ 0 0); (TNewline, at_ 0 21)],
        [(QBasic, bs """some unclosed string", at_ 0 21, bs "some unclosed string", mkoff 0 1 0 0)], [], at_ 1 0,
        [EMissingQuote QBasic (span_from_pos_len (mkpos 0 0) 21)]).
Proof. vm_compute. reflexivity. Qed.

(** not_fully_closed_basic_multi_line_string_2 *)
Example t_unclosed_multi : view (lex (qq ++ bs "some unclosed string" ++ [34; 34])) =
  Some ([(TString 0, at_ 0 0)],
        [(QBasicMulti, qq ++ bs "some unclosed string" ++ [34; 34], at_ 0 25, bs "some unclosed string""""", mkoff 0 3 0 0)],
        [], at_ 0 25, [EMissingQuote QBasicMulti (span_from_pos_len (mkpos 0 0) 25)]).
Proof. vm_compute. reflexivity. Qed.

(** unclosed_multi_line_string_error_on_last_line *)
Example t_unclosed_last_line : view (lex (bs "'''some unclosed string" ++ nl)) =
  Some ([(TString 0, at_ 0 0)],
        [(QLiteralMulti, bs "'''some unclosed string" ++ nl, at_ 1 0, bs "some unclosed string" ++ nl, mkoff 0 3 0 0)],
        [], at_ 1 0, [EMissingQuote QLiteralMulti (span_from_pos_len (mkpos 0 0) 23)]).
Proof. vm_compute. reflexivity. Qed.

(** comment_with_newline *)
Example t_comment : view (lex (bs "# hello there" ++ nl)) =
  Some ([(TComment 0, at_ 0 0); (TNewline, at_ 0 13)], [], [bs " hello there"], at_ 1 0, []).
Proof. vm_compute. reflexivity. Qed.

(** crlf (shortened) *)
Example t_crlf : view (lex (bs "[project]" ++ crlf ++ crlf ++ bs "# comment" ++ crlf ++ bs "d = " ++ qq ++ bs "A" ++ crlf ++ qq)) =
  Some ([(TSquareLeft, at_ 0 0); (TLit 0, at_ 0 1); (TSquareRight, at_ 0 8); (TNewline, at_ 0 9); (TNewline, at_ 1 0);
         (TComment 1, at_ 2 0); (TNewline, at_ 2 9); (TLit 2, at_ 3 0); (TEqual, at_ 3 2); (TString 0, at_ 3 4)],
        [(QBasicMulti, qq ++ bs "A" ++ crlf ++ qq, at_ 4 3, bs "A" ++ nl, mkoff 0 3 0 3)],
        [bs "project"; bs " comment"; bs "d"], at_ 4 3, []).
Proof. vm_compute. reflexivity. Qed.
