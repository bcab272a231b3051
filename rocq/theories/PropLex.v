(** Theorems about the TOML lexer (C20-C24, C48, C49).  Specification:
    LexSpec.v.  [lex input] is the token stream and the list of reported
    errors. *)
From Verif Require Import Base BaseProofs CommonModel TomlError LitModel LexModel LexSpec LexBase LexStr LexLoop LexTop LexCMain LexProps LexIllegal.

(** ** C20 *)

(** Every input is lexed without a panic; all stored texts are slices of the
    input; the stream ends in one EOF at the end of the input. *)
Theorem C20_lexer_total input :
  exists toks es, lex input = Ok (toks, es) /\
    Forall (slice_of input) (tk_literals toks) /\
    Forall (fun s => slice_of input (st_lit s)) (tk_strings toks) /\
    tk_eof toks = mktok TEOF (pos_at input) /\
    Forall (fun t => t_ty t <> TEOF) (tk_tokens toks).
Proof.
  destruct (lex_sound input) as (ts & es & S & SH & _ & R & _).
  exists (tokens_of ts), es. split; [assumption|].
  destruct (tiles_slices input ts [] (eq_sym S) SH) as [H1 H2].
  split; [assumption|]. split; [assumption|]. split; [cbn [tokens_of tk_eof]; rewrite S; reflexivity|].
  pose proof (tiles_stand input (mktok TEOF (pos_at (source ts))) ts [] [] [] (tile_tokens [] 0 0 ts) (eq_sym S) SH) as ST.
  cbn [app length N.of_nat] in ST. cbn [tokens_of tk_tokens].
  eapply Forall_impl; [|exact ST]. intros t (a & b & c & _ & _ & _ & W) E. rewrite E in W. exact W.
Qed.

(** ** C21 *)

(** Every token stands at the position of its text, with the text its type
    says, and tokens come in document order, before the end. *)
Theorem C21_positions input toks es : lex input = Ok (toks, es) ->
  Forall (stands_at input toks) (tk_tokens toks) /\
  increasing (map t_start (tk_tokens toks) ++ [t_start (tk_eof toks)]).
Proof.
  intros E. destruct (lex_sound input) as (ts & es' & S & SH & _ & R & _).
  rewrite E in R. injection R as -> _.
  pose proof (tiles_stand input (mktok TEOF (pos_at (source ts))) ts [] [] [] (tile_tokens [] 0 0 ts) (eq_sym S) SH) as ST.
  split; [exact ST|]. destruct (tiles_increasing ts [] 0 0 SH) as [I _]. exact I.
Qed.

(** ** C22 *)

(** The tokens, in order, together with single blanks between them are a cut
    of the whole input: nothing is dropped, and no piece stops early. *)
Theorem C22_nothing_lost input :
  exists ts es, lex input = Ok (tokens_of ts, es) /\ source ts = input /\ Forall shape ts /\ all_separated ts.
Proof. destruct (lex_sound input) as (ts & es & S & SH & SEP & R & _). exists ts, es. auto. Qed.

(** ** C23 *)

(** No error is reported exactly for the lexically valid documents, and the
    tokens are those of the cut. *)
Theorem C23_accepted_documents input toks :
  lex input = Ok (toks, []) <-> exists ts, lexical ts input /\ toks = tokens_of ts.
Proof. exact (lex_accepts input toks). Qed.
(** The text of every string in an accepted document is what its literal
    denotes, *)
Theorem C23_string_values input toks : lex input = Ok (toks, []) ->
  Forall (fun s => exists trim, toml_string (st_quote s) (sr_text (st_lit s)) trim (st_text s)) (tk_strings toks).
Proof.
  intros E. apply lex_accepts in E. destruct E as (ts & (S & V & _) & ->).
  eapply Forall_impl; [|exact (tile_strings_valid input ts [] (eq_sym S) V)]. cbn beta. intros s (trim & H & _). eauto.
Qed.
(** a literal denotes one text, *)
Theorem C23_string_value_unique q src t1 x1 t2 x2 :
  toml_string q src t1 x1 -> toml_string q src t2 x2 -> x1 = x2.
Proof. exact (toml_string_unique q src t1 x1 t2 x2). Qed.
(** and every text can be written and read back. *)
Theorem C23_basic_roundtrip v :
  exists toks s, lex (write_basic v) = Ok (toks, []) /\ tk_tokens toks = [mktok (TString 0) pos_zero] /\
    tk_strings toks = [s] /\ st_text s = v.
Proof. eexists _, _. split; [exact (lex_one_string _ _ _ _ (write_basic_string v))|]. split; [reflexivity|]. split; reflexivity. Qed.
Theorem C23_literal_roundtrip v : Forall plain v -> ~ In 39 v ->
  exists toks s, lex (write_literal v) = Ok (toks, []) /\ tk_tokens toks = [mktok (TString 0) pos_zero] /\
    tk_strings toks = [s] /\ st_text s = v.
Proof. intros P N. eexists _, _. split; [exact (lex_one_string _ _ _ _ (write_literal_string v P N))|]. split; [reflexivity|]. split; reflexivity. Qed.

Example C23_example : lexical
  [(XWord, bs "key"); (XBlank, [32]); (XPunct TEqual, [61]); (XString QBasic (bs "a""b") (mkoff 0 1 0 1), bs """a\""b""");
   (XBlank, [32]); (XComment, bs "# x"); (XNewline, [13; 10]); (XPunct TSquareLeft, [91])]
  (bs "key =""a\""b"" # x" ++ [13; 10; 91]).
Proof.
  split; [reflexivity|]. split.
  - assert (W : forall c, c = 107 \/ c = 101 \/ c = 121 -> word_char c) by (unfold word_char; cbn [In]; lia).
    repeat apply Forall_cons; [| | | | | | | |constructor]; cbn [valid shape].
    + split; [discriminate|]. cbn [bs]. repeat (constructor; [apply W; vm_compute; tauto|]). constructor.
    + right. reflexivity.
    + exists 61. split; [unfold punct; cbn; tauto|reflexivity].
    + exists []. split; [|reflexivity]. exact (write_basic_string (bs "a""b")).
    + right. reflexivity.
    + exists (bs " x"). split; [reflexivity|]. constructor; [right; vm_compute; intros [H|H]; [apply H; reflexivity|discriminate H]|constructor; [right; vm_compute; intros [H|H]; [apply H; reflexivity|discriminate H]|constructor]].
    + right. reflexivity.
    + exists 91. split; [unfold punct; cbn; tauto|reflexivity].
  - cbn [all_separated]. repeat split.
    + left. split; [unfold word_char; intros (c & r & E & H); injection E as <- _; apply H; cbn; tauto|].
      intros _ (c & r & E & H). injection E as <- _. discriminate.
    + intros [[H|H]|H]; discriminate.
    + right. right. eexists. reflexivity.
Qed.
Example C23_escapes : write_basic [9; 34; 92; 1; 233; 128512] = bs """" ++ [9] ++ bs "\""\\\u0001" ++ [233; 128512] ++ bs """".
Proof. reflexivity. Qed.

(** ** C24 *)

(** Whatever is not lexically valid is reported. *)
Theorem C24_invalid_reported input toks es :
  (forall ts, ~ lexical ts input) -> lex input = Ok (toks, es) -> es <> [].
Proof.
  intros H E ->. apply lex_accepts in E. destruct E as (ts & L & _). exact (H ts L).
Qed.
(** In particular, for a string at the start of a document: an illegal escape
    sequence, *)
Theorem C24_illegal_escape q s e rest toks es :
  escapes q -> Forall (ordinary q) s ->
  (forall v, ~ escape_letter e v) -> e <> 117 -> e <> 85 -> (q = QBasicMulti -> ~ is_ws e) ->
  lex (delims q ++ s ++ 92 :: e :: rest) = Ok (toks, es) -> es <> [].
Proof. intros. eapply illegal_escape; eassumption. Qed.
(** a code point that is not a scalar value, *)
Theorem C24_illegal_codepoint q s u ds v rest toks es :
  escapes q -> Forall (ordinary q) s ->
  (u = 117 /\ length ds = 4%nat) \/ (u = 85 /\ length ds = 8%nat) -> hex_text ds v -> is_scalar v = false ->
  lex (delims q ++ s ++ 92 :: u :: ds ++ rest) = Ok (toks, es) -> es <> [].
Proof. intros. eapply illegal_codepoint; eassumption. Qed.
(** a control character, *)
Theorem C24_control_character q s c rest toks es :
  ~ plain c -> c <> 10 -> c <> 13 -> Forall (ordinary q) s ->
  lex (delims q ++ s ++ c :: rest) = Ok (toks, es) -> es <> [].
Proof. intros. eapply illegal_char; eassumption. Qed.
(** a string that is not closed before the end of the input, *)
Theorem C24_unclosed_at_end q s toks es :
  Forall (ordinary q) s -> lex (delims q ++ s) = Ok (toks, es) -> es <> [].
Proof. intros. eapply unclosed_eof; eassumption. Qed.
(** or of its line. *)
Theorem C24_unclosed_on_line q s rest toks es :
  ~ multi q -> Forall (ordinary q) s -> lex (delims q ++ s ++ 10 :: rest) = Ok (toks, es) -> es <> [].
Proof. intros. eapply unclosed_line; eassumption. Qed.

Example C24_surrogate : hex_text (bs "D800") 55296 /\ is_scalar 55296 = false /\ Forall (ordinary QBasic) (bs "ab").
Proof.
  split; [|split; [reflexivity|]].
  - apply (HT_snoc (bs "D80") 3456 48 0); [|apply (HX_dec 0); lia]. apply (HT_snoc (bs "D8") 216 48 0); [|apply (HX_dec 0); lia].
    apply (HT_snoc (bs "D") 13 56 8); [|apply (HX_dec 8); lia]. apply (HT_snoc [] 0 68 13); [constructor|apply (HX_upper 13); lia].
  - repeat (apply Forall_cons; [split; [right; vm_compute; intros [H|H]; [apply H; reflexivity|discriminate H]|split; discriminate]|]). constructor.
Qed.

(** Stricter than the lexer is: TOML 1.0 has no bare carriage return in the
    white space after a line-ending backslash, but none is reported. *)
Theorem C24_fold_carriage_return_refuted :
  exists w toks, folded w /\ ~ folded_strict w /\
    lex (delims QBasicMulti ++ [92] ++ w ++ bs "x" ++ delims QBasicMulti) = Ok (toks, []).
Proof.
  exists [13; 32; 10]. eexists. split; [|split].
  - split; [|cbn; tauto]. repeat constructor; unfold is_ws; tauto.
  - intros [H _]. inversion H as [|c w HC|s w L BL E]; [lia|].
    destruct L as [->| ->]; cbn [app] in E; discriminate.
  - vm_compute. reflexivity.
Qed.

(** ** C48 *)

(** Every error of the lexer marks the text it is about, except that an
    illegal character in a comment is marked at the character before it. *)
Theorem C48_error_spans_partial input toks es : lex input = Ok (toks, es) ->
  Forall (fun e => located input e \/ comment_char_error input e) es.
Proof.
  intros E. destruct (lex_sound input) as (ts & es' & _ & _ & _ & R & OK & _). rewrite E in R. injection R as _ ->. exact OK.
Qed.
(** That span can end inside a character: byte 3 of [# \u{e9}\u{1}] is not a
    character boundary. *)
Theorem C48_comment_span_refuted :
  exists input toks c sp, lex input = Ok (toks, [EInvalidCommentChar c sp]) /\ ~ covers_text input sp.
Proof.
  exists [35; 32; 233; 1]. eexists _, 1, _. split; [vm_compute; reflexivity|].
  assert (H : forall p r, [35; 32; 233; 1] = p ++ r -> p_char (pos_at p) <> 3).
  { intros p r E. destruct p as [|a0 p]; [discriminate|]. cbn [app] in E. injection E as <- E.
    destruct p as [|a1 p]; [discriminate|]. cbn [app] in E. injection E as <- E.
    destruct p as [|a2 p]; [discriminate|]. cbn [app] in E. injection E as <- E.
    destruct p as [|a3 p]; [discriminate|]. cbn [app] in E. injection E as <- E.
    destruct p as [|a4 p]; [discriminate|discriminate]. }
  intros (a & b & c & E & S). rewrite app_assoc in E. apply (H _ _ E). injection S as _ S2. rewrite <- S2. reflexivity.
Qed.
Example C48_example : exists toks, lex (bs "a = ""\q""") = Ok (toks, [EInvalidEscapeChar 113 (mkpos 0 6)]).
Proof. eexists. vm_compute. reflexivity. Qed.

(** ** C49 *)

(** The reported extent of a string's text: from just after the opening to
    just before the closing delimiter when no line break was trimmed; after a
    trimmed line break it starts on the next line at the column of the
    literal. *)
Theorem C49_text_span_partial q src trim text pre : toml_string q src trim text ->
  exists b, src = delims q ++ trim ++ b ++ delims q /\
    apply_to (offsets_of q trim) (mkspan (pos_at pre) (pos_at (pre ++ src))) =
    Ok (mkspan (match trim with
                | [] => pos_at (pre ++ delims q)
                | _ => mkpos (p_line (pos_at pre) + 1) (p_char (pos_at pre))
                end)
               (pos_at (pre ++ delims q ++ trim ++ b))).
Proof. exact (text_span_true q src trim text pre). Qed.
(** These are the offsets stored with the strings of an accepted document. *)
Theorem C49_stored_offsets input toks : lex input = Ok (toks, []) ->
  Forall (fun s => exists trim, toml_string (st_quote s) (sr_text (st_lit s)) trim (st_text s) /\
    st_offset s = offsets_of (st_quote s) trim) (tk_strings toks).
Proof.
  intros E. apply lex_accepts in E. destruct E as (ts & (S & V & _) & ->). exact (tile_strings_valid input ts [] (eq_sym S) V).
Qed.
(** Also of a string with errors, the extent can be computed, starts where the
    text of such a string starts, and ends before the quotes that end it; only
    of more than 255 quotes in a row a multiple of 256 is left in the text. *)
Theorem C49_malformed_strings input toks es s pre : lex input = Ok (toks, es) -> In s (tk_strings toks) ->
  exists trim b e, sr_text (st_lit s) = delims (st_quote s) ++ trim ++ b ++ e /\
    Forall (eq (delim (st_quote s))) e /\ (e = [] \/ quote_len (st_quote s) <= tlen e) /\
    apply_to (st_offset s) (mkspan (pos_at pre) (pos_at (pre ++ sr_text (st_lit s)))) =
    Ok (mkspan (match trim with
                | [] => pos_at (pre ++ delims (st_quote s))
                | _ => mkpos (p_line (pos_at pre) + 1) (p_char (pos_at pre))
                end)
               (pos_plus (pos_at (pre ++ delims (st_quote s) ++ trim ++ b)) (tlen e - tlen e mod 256))).
Proof.
  intros E I. destruct (lex_sound input) as (ts & es' & _ & SH & _ & R & _). rewrite E in R. injection R as -> _.
  pose proof (tile_strings_shape ts [] SH) as F. rewrite Forall_forall in F.
  exact (text_span_any _ _ _ _ (F _ I)).
Qed.
Example C49_malformed_example : exists toks es s, lex (bs "a = ""x\q""") = Ok (toks, es) /\ es <> [] /\ In s (tk_strings toks).
Proof. eexists _, _, _. split; [vm_compute; reflexivity|]. split; [discriminate|]. left. reflexivity. Qed.
(** Also the text of a string with errors is unicode if its literal is: its
    characters are those of the literal and what escape sequences stand for. *)
Theorem C23_text_characters input toks es s c : lex input = Ok (toks, es) -> In s (tk_strings toks) ->
  In c (st_text s) -> In c (sr_text (st_lit s)) \/ is_scalar c = true.
Proof.
  intros E I C. destruct (lex_sound input) as (ts & es' & _ & SH & _ & R & _). rewrite E in R. injection R as -> _.
  pose proof (tile_strings_text ts [] SH) as F. rewrite Forall_forall in F.
  specialize (F _ I). unfold text_from in F. rewrite Forall_forall in F. exact (F _ C).
Qed.
Example C23_text_characters_example : exists toks es s, lex (bs "a = ""x\q\u00e4""") = Ok (toks, es) /\ es <> [] /\ In s (tk_strings toks) /\ st_text s = [120; 228].
Proof. eexists _, _, _. split; [vm_compute; reflexivity|]. split; [discriminate|]. split; [left; reflexivity|reflexivity]. Qed.
(** With a trimmed line break the start is right only in column 0. *)
Theorem C49_trimmed_start_refuted :
  exists q src trim text pre sp, toml_string q src trim text /\
    apply_to (offsets_of q trim) (mkspan (pos_at pre) (pos_at (pre ++ src))) = Ok sp /\
    s_start sp <> pos_at (pre ++ delims q ++ trim).
Proof.
  exists QBasicMulti, (bs """""""" ++ [10] ++ bs "x" ++ bs """"""""), [10], (bs "x"), (bs "a = ").
  eexists. split; [|split; [vm_compute; reflexivity|discriminate]].
  exists (bs "x"). split; [reflexivity|]. split.
  - apply body_char; [right; vm_compute; intros [H|H]; [apply H; reflexivity|discriminate H]|discriminate|discriminate|constructor].
  - split; [right; split; [left; reflexivity|left; reflexivity]|]. discriminate.
Qed.

Print Assumptions C20_lexer_total.
Print Assumptions C21_positions.
Print Assumptions C22_nothing_lost.
Print Assumptions C23_accepted_documents.
Print Assumptions C23_string_values.
Print Assumptions C23_string_value_unique.
Print Assumptions C23_basic_roundtrip.
Print Assumptions C23_literal_roundtrip.
Print Assumptions C23_text_characters.
Print Assumptions C24_invalid_reported.
Print Assumptions C24_illegal_escape.
Print Assumptions C24_illegal_codepoint.
Print Assumptions C24_control_character.
Print Assumptions C24_unclosed_at_end.
Print Assumptions C24_unclosed_on_line.
Print Assumptions C24_fold_carriage_return_refuted.
Print Assumptions C48_error_spans_partial.
Print Assumptions C48_comment_span_refuted.
Print Assumptions C49_text_span_partial.
Print Assumptions C49_stored_offsets.
Print Assumptions C49_malformed_strings.
Print Assumptions C49_trimmed_start_refuted.
