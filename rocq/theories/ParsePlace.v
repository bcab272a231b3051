(** Specification, continued: where the nodes of a syntax tree, its comments
    and the reported errors stand in the document. *)
From Verif Require Import Base CommonModel TomlError LitModel LitSpec LexModel LexSpec ParseModel ParseSpec.

(** ** Positions inside the document *)

(** The position of a character of the document, or its end. *)
Definition pos_in (input : list N) (p : pos) : Prop :=
  exists a b, input = a ++ b /\ p = pos_at a.
Definition pos_le (a b : pos) : Prop := a = b \/ pos_lt a b.
Definition span_in (input : list N) (sp : span) : Prop :=
  pos_in input (s_start sp) /\ pos_in input (s_end sp) /\ pos_le (s_start sp) (s_end sp).

(** A character of the document. *)
Definition char_at (input : list N) (c : N) (p : pos) : Prop := exists a b, input = a ++ c :: b /\ p = pos_at a.

(** An error stands in the document; if it is about a missing bracket, its
    hint is on an opening one of the right kind. *)
Definition hint_ok (input : list N) (e : terror) : Prop :=
  match e with
  | EExpectedRightCurlyFound _ p _ => char_at input 123 p
  | EExpectedRightSquareFound _ p _ | EExpectedDotOrRightSquareFound _ p _ => char_at input 91 p
  | _ => err_hint e = None
  end.
(** [found t b c]: a message that names as [t] what stands at the text [b],
    followed by [c]: the text itself, between backticks and with control
    characters escaped; a comment or a line break by its kind (the mark of a
    line break is empty); nothing at the end of the document.  A closing curly
    bracket is shown as an opening one. *)
Definition breaks_line (s : list N) : Prop := starts_with (eq 10) s \/ exists r, s = 13 :: 10 :: r.
Definition found (t b c : list N) : Prop :=
  (t = bs "`" ++ fmt_str b ++ bs "`" /\ b <> [] /\ b <> [125] /\ ~ starts_with (eq 35) b) \/
  (t = bs "`{`" /\ b = [125]) \/
  (t = bs "comment" /\ starts_with (eq 35) b) \/
  (t = bs "`\n`" /\ b = [] /\ breaks_line c) \/
  (t = bs "`EOF`" /\ b = [] /\ c = []).
(** The whole text of a literal, followed by [c]. *)
Definition lit_char (c : N) : Prop := word_char c \/ c = 46.
Definition whole_literal (t c : list N) : Prop := Forall lit_char t /\ (~ starts_with lit_char c \/ breaks_line c).
Definition only_blanks (b : list N) : Prop := b <> [] /\ Forall (fun c => c = 9 \/ c = 32) b.
Definition ends_in (a : list N) (c : N) : Prop := exists a', a = a' ++ [c].
(** What an error says of the text [b] that it marks in [a ++ b ++ c]. *)
Definition parse_says (e : terror) (a b c : list N) : Prop :=
  match e with
  | EMissingQuote _ _ | EExcessiveQuotes _ _ | EInvalidStringChar _ _ | EInvalidEscapeChar _ _ | EInvalidUnicodeEscapeChar _ _
  | EInvalidUnicodeCodepoint _ _ _ | EInvalidLineEndingEscape _ | EUnfinishedEscapeSequence _ => err_says e a b c
  | EInvalidCharInIdentifier x _ => b = [] /\ ~ bare x /\ starts_with (eq x) c
  | EMultilineBasicStringIdent _ => exists t, b = [34; 34; 34] ++ t
  | EMultilineLiteralStringIdent _ => exists t, b = [39; 39; 39] ++ t
  | ERecursionLimitExceeded _ => b = [91] \/ b = [123]
  | EExpectedEqOrDotFound t _ | EExpectedRightCurlyFound t _ _ | EExpectedDotOrRightSquareFound t _ _ | EExpectedKeyFound t _
  | EExpectedValueFound t _ => found t b c
  | EExpectedRightSquareFound t _ _ => found t b c \/ (t = bs "`EOF`" /\ b = [])
  | EExpectedNewlineFound t _ => exists b1 r, b ++ c = b1 ++ r /\ found t b1 r
  | EMissingComma _ => b = []
  | EMissingNewline _ => b = [] /\ c <> [] /\ ~ starts_with (eq 10) c
  | EInlineTableTrailingComma _ => b = [44]
  | ESpaceBetweenArrayPars _ => only_blanks b /\ exists x, (x = 91 \/ x = 93) /\ ends_in a x /\ starts_with (eq x) c
  | EUnexpectedLiteralStart x _ => b = [x]
  | EDateAndTimeTooFarApart _ => only_blanks b /\ (1 < length b)%nat
  | _ => exists a' u w c', a = a' ++ u /\ c = w ++ c' /\ whole_literal (u ++ b ++ w) c' /\ lit_says e u b w
  end.
(** An error marks exactly the text it is about. *)
Definition err_ok (input : list N) (e : terror) : Prop :=
  (exists a b c, input = a ++ b ++ c /\ err_span e = mkspan (pos_at a) (pos_at (a ++ b)) /\ parse_says e a b c) /\ hint_ok input e.
(** A slice of the document that starts at a position. *)
Definition starts_at (input : list N) (r : sref) (p : pos) : Prop :=
  exists a b, input = a ++ sr_text r ++ b /\ sr_off r = tlen a /\ p = pos_at a.
(** ... and covers a span. *)
Definition placed (input : list N) (r : sref) (sp : span) : Prop :=
  exists a b, input = a ++ sr_text r ++ b /\ sr_off r = tlen a /\ sp = mkspan (pos_at a) (pos_at (a ++ sr_text r)).

(** ** Comments *)

(** A comment, from its [#] to the end of its line; the text is without the
    [#]. *)
Definition comment_ok (input : list N) (c : comment) : Prop :=
  exists a t b, input = a ++ 35 :: t ++ b /\ ~ In 10 t /\ (b = [] \/ starts_with (eq 10) b \/ exists r, b = 13 :: 10 :: r) /\
    c = mkcom (mkspan (pos_at a) (pos_at (a ++ 35 :: t))) (mkref (tlen a + 1) t).
(** The comments of a cut document, in order. *)
Fixpoint doc_comments (pre : list N) (ts : list tile) : list comment :=
  match ts with
  | [] => []
  | (XComment, s) :: r => mkcom (mkspan (pos_at pre) (pos_at (pre ++ s))) (mkref (tlen pre + 1) (tl s)) :: doc_comments (pre ++ s) r
  | (_, s) :: r => doc_comments (pre ++ s) r
  end.
(** Comments of the tree that belong to no statement. *)
Definition free_of (a : ast) : list comment := match a with AComment c => [c] | _ => [] end.

(** [subseq a b]: [a] is what is left of [b] after leaving some out. *)
Inductive subseq {A} : list A -> list A -> Prop :=
| ss_nil l : subseq [] l
| ss_keep x a b : subseq a b -> subseq (x :: a) (x :: b)
| ss_skip x a b : subseq a b -> subseq a (x :: b).
(** [interleave a b c]: [c] consists of [a] and [b], both in order. *)
Inductive interleave {A} : list A -> list A -> list A -> Prop :=
| il_nil : interleave [] [] []
| il_left x a b c : interleave a b c -> interleave (x :: a) b (x :: c)
| il_right x a b c : interleave a b c -> interleave a (x :: b) (x :: c).

(** A range of stored comments; [n] are stored. *)
Definition range_ok (n : N) (r : crange) : Prop := cr_start r + cr_len r <= n.

(** ** Keys *)
(** A name covers its literal, which is a word (and the whole of it the text), or a
    quoted string whose offsets and text are those of the name. *)
Definition quoted_ok (q : quote) (i : ident) : Prop :=
  exists off, string_shape q off (sr_text (id_lit i)) /\ text_from (sr_text (id_lit i)) (id_text i) /\
    id_start_off i = to_start_char off /\ id_end_off i = to_end_char off.
Definition ident_ok (input : list N) (i : ident) : Prop :=
  starts_at input (id_lit i) (id_start i) /\
  match id_kind i with
  | KPlain => sr_text (id_lit i) <> [] /\ Forall word_char (sr_text (id_lit i)) /\ id_text i = sr_text (id_lit i) /\
      id_start_off i = 0 /\ id_end_off i = 0
  | KBasic => quoted_ok QBasic i
  | KLiteral => quoted_ok QLiteral i
  end.
Definition dident_ok (input : list N) (d : dident) : Prop :=
  ident_ok input (di_ident d) /\ match di_dot d with Some p => char_at input 46 p | None => True end.
Definition key_ok (input : list N) (k : key) : Prop :=
  match k with KOne i => ident_ok input i | KDotted l => l <> [] /\ Forall (dident_ok input) l end.

(** ** Values *)

(** A date and a time, apart. *)
Definition spaced_date (t : list N) (d : datetime) : Prop :=
  exists a w b, t = a ++ w ++ b /\ w <> [] /\ Forall (fun c => c = 9 \/ c = 32) w /\ spaced a b (TvDate d).
(** A scalar covers its text, and is the value its text stands for (for
    strings, see [C23_string_values]; here, where their text starts and ends,
    and that its characters are in the literal or escaped). *)
Definition lit_ok (input : list N) (v : value) : Prop :=
  match v with
  | VString l sp t off q => placed input l sp /\ string_shape q off (sr_text l) /\ text_from (sr_text l) t
  | VInvalid l sp => placed input l sp
  | VInt l sp z => placed input l sp /\ scalar (sr_text l) (TvInt z)
  | VFloat l sp f => placed input l sp /\ scalar (sr_text l) (TvFloat f)
  | VDateTime l sp d => placed input l sp /\ (scalar (sr_text l) (TvDate d) \/ spaced_date (sr_text l) d)
  | VBool sp b => exists o, placed input (mkref o (if b then bs "true" else bs "false")) sp
  | _ => False
  end.
Definition comma_ok (input : list N) (c : option pos) : Prop := match c with Some p => char_at input 44 p | None => True end.
(** The closing bracket, or where it was expected. *)
Definition end_ok (input : list N) (c : N) (e : pend) : Prop :=
  match e with EndPar p => char_at input c p | EndNone p => pos_in input p end.
Fixpoint node_ok (input : list N) (n : N) (v : value) : Prop :=
  match v with
  | VTable p l e =>
      char_at input 123 p /\ end_ok input 125 e /\
      fold_right (fun a P => (key_ok input (as_key (ia_assign a)) /\ char_at input 61 (as_eq (ia_assign a)) /\
                              comma_ok input (ia_comma a) /\ node_ok input n (as_val (ia_assign a))) /\ P) True l
  | VArray cr p l e =>
      range_ok n cr /\ char_at input 91 p /\ end_ok input 93 e /\
      fold_right (fun a P => (range_ok n (av_comments a) /\ comma_ok input (av_comma a) /\ node_ok input n (av_val a)) /\ P) True l
  | v => lit_ok input v
  end.

(** ** Statements *)
Definition inline_tile (x : tile) : Prop := fst x <> XNewline /\ fst x <> XComment.
Definition inline (ts : list tile) : Prop := Forall inline_tile ts.
(** A string that spans lines: one between triple quotes. *)
Definition multiline_string (x : tile) : Prop := (exists q text off, fst x = XString q text off /\ multi q) /\ In 10 (snd x).
(** A bracket, a string that spans lines, a closing bracket, and nothing else
    that ends a line in between. *)
Definition multiline_brackets (ts : list tile) : Prop :=
  exists p l m1 x m2 r q, ts = p ++ l :: m1 ++ x :: m2 ++ r :: q /\
    is_punct TSquareLeft l /\ inline m1 /\ multiline_string x /\ inline m2 /\ is_punct TSquareRight r.

Definition tassign_ok (input : list N) (n : N) (a : tassign) : Prop :=
  range_ok n (ta_comments a) /\ key_ok input (as_key (ta_assign a)) /\ char_at input 61 (as_eq (ta_assign a)) /\ node_ok input n (as_val (ta_assign a)).
Definition hkey_ok (input : list N) (k : option key) : Prop := match k with Some k => key_ok input k | None => True end.
(** The distance of a closing bracket leads to it, except in a document with
    [multiline_brackets]. *)
Definition r_off_ok (input : list N) (all : list tile) (l : pos) (o : option N) : Prop :=
  match o with Some d => multiline_brackets all \/ char_at input 93 (pos_plus l d) | None => True end.
Definition theader_ok (input : list N) (all : list tile) (h : theader) : Prop :=
  char_at input 91 (th_l_par h) /\ hkey_ok input (th_key h) /\ r_off_ok input all (th_l_par h) (th_r_off h).
Definition aheader_ok (input : list N) (all : list tile) (h : aheader) : Prop :=
  char_at input 91 (fst (ah_l_pars h)) /\ char_at input 91 (snd (ah_l_pars h)) /\ hkey_ok input (ah_key h) /\
  r_off_ok input all (fst (ah_l_pars h)) (fst (ah_r_offs h)) /\ r_off_ok input all (fst (ah_l_pars h)) (snd (ah_r_offs h)).
Definition ast_ok (input : list N) (all : list tile) (n : N) (a : ast) : Prop :=
  match a with
  | AAssign a => tassign_ok input n a
  | ATable t => range_ok n (tb_comments t) /\ theader_ok input all (tb_header t) /\ Forall (tassign_ok input n) (tb_assigns t)
  | AArray t => range_ok n (ae_comments t) /\ aheader_ok input all (ae_header t) /\ Forall (tassign_ok input n) (ae_assigns t)
  | AComment c => comment_ok input c
  end.
