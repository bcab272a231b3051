(** Model of crates/toml/src/parse.rs.

    Simplifications, besides those of LexModel:
    - tokens carry what their id refers to: [resolve] looks up all ids before
      parsing, and panics if one is out of range;
    - the stack of top-level items is kept newest first;
    - a loop of the code is a [Fixpoint] on fuel or on the rest of the items;
      running out of fuel is [Panic].
    [Panic] also stands for a join of two slices that is not a slice of the
    input (undefined behaviour in the code). *)
From Verif Require Import Base CommonModel TomlError LitModel LexModel.

(** toml/src/lex.rs:23-44 [Token], [TokenType] with the referenced data *)
Inductive ity :=
| IString (s : string_token) | ILit (r : sref) | IComment (r : sref)
| ISquareLeft | ISquareRight | ICurlyLeft | ICurlyRight
| IEqual | IComma | IDot | INewline | IEOF.
Record item := mkitem { i_ty : ity; i_start : pos }.

(** toml/src/parse.rs:806-812 [Parser::string], [literal] *)
Definition lookup {A} (l : list A) (id : N) : run A :=
  match nth_error l (N.to_nat id) with Some x => Ok x | None => Panic end.
Definition resolve_token (tk : tokens) (t : token) : run item :=
  let? ty := match t_ty t with
             | TString id => let? s := lookup (tk_strings tk) id in Ok (IString s)
             | TLit id => let? r := lookup (tk_literals tk) id in Ok (ILit r)
             | TComment id => let? r := lookup (tk_literals tk) id in Ok (IComment r)
             | TSquareLeft => Ok ISquareLeft
             | TSquareRight => Ok ISquareRight
             | TCurlyLeft => Ok ICurlyLeft
             | TCurlyRight => Ok ICurlyRight
             | TEqual => Ok IEqual
             | TComma => Ok IComma
             | TDot => Ok IDot
             | TNewline => Ok INewline
             | TEOF => Ok IEOF
             end in
  Ok (mkitem ty (t_start t)).
Fixpoint resolve_all (tk : tokens) (ts : list token) : run (list item) :=
  match ts with
  | [] => Ok []
  | t :: r => let? i := resolve_token tk t in let? is_ := resolve_all tk r in Ok (i :: is_)
  end.

(** ** Syntax tree *)

(** toml/src/parse.rs:73-85 [CommentRange] *)
Record crange := mkrange { cr_start : N; cr_len : N; cr_level : N }.
(** toml/src/parse.rs:723-726 [Comment] *)
Record comment := mkcom { c_span : span; c_text : sref }.
(** toml/src/parse.rs:139-146 [AssocPos] *)
Inductive apos := Above | LineEnd | Contained.
(** toml/src/parse.rs:104-110 [AssocComment] *)
Record acomment := mkac { ac_pos : apos; ac_level : N; ac_comment : comment }.

(** toml/src/parse.rs:457-461 [IdentKind] *)
Inductive ikind := KPlain | KBasic | KLiteral.
(** toml/src/parse.rs:399-406 [Ident] *)
Record ident := mkident {
  id_lit : sref;
  id_start : pos;
  id_text : list N;
  id_start_off : N;
  id_end_off : N;
  id_kind : ikind;
}.
(** toml/src/parse.rs:359-368 [Key], [DottedIdent] *)
Record dident := mkdi { di_ident : ident; di_dot : option pos }.
Inductive key := KOne (i : ident) | KDotted (is_ : list dident).

(** toml/src/parse.rs:335-339 [Assignment] *)
Record assignment_ (V : Type) := mkassign { as_key : key; as_eq : pos; as_val : V }.
Arguments mkassign {V}. Arguments as_key {V}. Arguments as_eq {V}. Arguments as_val {V}.
(** toml/src/parse.rs:618-621 [InlineTableAssignment] *)
Record iassign_ (V : Type) := mkia { ia_assign : assignment_ V; ia_comma : option pos }.
Arguments mkia {V}. Arguments ia_assign {V}. Arguments ia_comma {V}.
(** toml/src/parse.rs:697-701 [InlineArrayValue] *)
Record avalue_ (V : Type) := mkav { av_comments : crange; av_val : V; av_comma : option pos }.
Arguments mkav {V}. Arguments av_comments {V}. Arguments av_val {V}. Arguments av_comma {V}.
(** toml/src/parse.rs:679-684 [End] *)
Inductive pend := EndPar (p : pos) | EndNone (p : pos).

(** toml/src/parse.rs:464-473, 520-590, 643-648: [Value] and its variants *)
Inductive value :=
| VString (lit : sref) (lit_span : span) (text : list N) (off : text_offset) (q : quote)
| VInt (lit : sref) (lit_span : span) (z : Z)
| VFloat (lit : sref) (lit_span : span) (f : fval)
| VBool (lit_span : span) (b : bool)
| VDateTime (lit : sref) (lit_span : span) (d : datetime)
| VTable (l_par : pos) (assigns : list (iassign_ value)) (e : pend)
| VArray (comments : crange) (l_par : pos) (vals : list (avalue_ value)) (e : pend)
| VInvalid (lit : sref) (sp : span).
Notation assignment := (assignment_ value).
Notation iassign := (iassign_ value).
Notation avalue := (avalue_ value).

(** toml/src/parse.rs:312-315 [ToplevelAssignment] *)
Record tassign := mkta { ta_comments : crange; ta_assign : assignment }.
(** toml/src/parse.rs:182-186 [TableHeader] *)
Record theader := mkth { th_l_par : pos; th_key : option key; th_r_off : option N }.
(** toml/src/parse.rs:257-261 [ArrayHeader] *)
Record aheader := mkah { ah_l_pars : pos * pos; ah_key : option key; ah_r_offs : option N * option N }.
(** toml/src/parse.rs:149-153 [Table] *)
Record table := mktb { tb_comments : crange; tb_header : theader; tb_assigns : list tassign }.
(** toml/src/parse.rs:223-227 [ArrayEntry] *)
Record aentry := mkae { ae_comments : crange; ae_header : aheader; ae_assigns : list tassign }.
(** toml/src/parse.rs:65-70 [Ast] *)
Inductive ast :=
| AAssign (a : tassign)
| ATable (t : table)
| AArray (a : aentry)
| AComment (c : comment).
(** toml/src/parse.rs:59-62 [Asts] *)
Record asts := mkasts { as_asts : list ast; as_comments : list acomment }.

(** toml/src/parse.rs:189-198 [TableHeader::new] *)
Definition par_offset (l r : pos) : run N :=
  let? d := usub (p_char r) (p_char l) in
  if d =? 0 then Panic else Ok d.
Definition opt_offset (l : pos) (r : option pos) : run (option N) :=
  match r with
  | Some p => let? d := par_offset l p in Ok (Some d)
  | None => Ok None
  end.
Definition new_theader (l : pos) (k : option key) (r : option pos) : run theader :=
  let? o := opt_offset l r in Ok (mkth l k o).
(** toml/src/parse.rs:264-283 [ArrayHeader::new] *)
Definition new_aheader (l : pos * pos) (k : option key) (r : option pos * option pos) : run aheader :=
  let? a := opt_offset (fst l) (fst r) in
  let? b := opt_offset (fst l) (snd r) in
  Ok (mkah l k (a, b)).

(** toml/src/parse.rs:409-436 [Ident::from_plain_lit], [from_string] *)
Definition plain_ident (lit : sref) (sp : span) : ident := mkident lit (s_start sp) (sr_text lit) 0 0 KPlain.
Definition string_ident (lit : sref) (sp : span) (text : list N) (o : text_offset) (k : ikind) : ident :=
  mkident lit (s_start sp) text (to_start_char o) (to_end_char o) k.
(** toml/src/parse.rs:444-446 [Ident::lit_end] *)
Definition lit_end (i : ident) : pos := pos_plus (id_start i) (tlen (sr_text (id_lit i))).

(** toml/src/parse.rs:688-693 [End::end_pos] *)
Definition end_pos (e : pend) : pos := match e with EndPar p => pos_plus p 1 | EndNone p => p end.
(** toml/src/parse.rs:491-502 [Value::start] *)
Definition val_start (v : value) : pos :=
  match v with
  | VString _ s _ _ _ | VInt _ s _ | VFloat _ s _ | VBool s _ | VDateTime _ s _ => s_start s
  | VTable p _ _ | VArray _ p _ _ => p
  | VInvalid _ s => s_end s
  end.
(** toml/src/parse.rs:505-516 [Value::end] *)
Definition val_end (v : value) : pos :=
  match v with
  | VString _ s _ _ _ | VInt _ s _ | VFloat _ s _ | VBool s _ | VDateTime _ s _ => s_end s
  | VTable _ _ e | VArray _ _ _ e => end_pos e
  | VInvalid _ s => s_end s
  end.
(** toml/src/parse.rs:635-639, 715-719 [InlineTableAssignment::end],
    [InlineArrayValue::end] *)
Definition ia_end (a : iassign) : pos :=
  match ia_comma a with Some c => pos_plus c 1 | None => val_end (as_val (ia_assign a)) end.
Definition av_end (a : avalue) : pos :=
  match av_comma a with Some c => pos_plus c 1 | None => val_end (av_val a) end.

(** ** Parser state *)

(** toml/src/parse.rs:731-748 [Parser]: the item before the cursor, and those
    from the cursor on. *)
Record pcur := mkpc { pc_prev : option item; pc_rest : list item }.
(** Cursor, errors reported, and [comment_storage]. *)
Record pst := mkps { ps_cur : pcur; ps_errs : list terror; ps_store : list acomment }.

Definition set_pcur (st : pst) (c : pcur) : pst := mkps c (ps_errs st) (ps_store st).
Definition set_store (st : pst) (s : list acomment) : pst := mkps (ps_cur st) (ps_errs st) s.
(** [ctx.error] *)
Definition perr (st : pst) (e : terror) : pst := mkps (ps_cur st) (ps_errs st ++ [e]) (ps_store st).
(** [ctx.mark], [ctx.reset] *)
Definition pmark (st : pst) : nat := length (ps_errs st).
Definition preset (st : pst) (m : nat) : pst := mkps (ps_cur st) (firstn m (ps_errs st)) (ps_store st).

(** toml/src/parse.rs:750-758 [next] *)
Definition cadv (c : pcur) : pcur :=
  match pc_rest c with
  | [] => c
  | x :: r => mkpc (Some x) r
  end.
Definition padv (st : pst) : pst := set_pcur st (cadv (ps_cur st)).
(** toml/src/parse.rs:768-771 [peek_prev] *)
Definition ppeek_prev (st : pst) : option item := pc_prev (ps_cur st).
(** toml/src/parse.rs:773-775 [jump_to_end] *)
Fixpoint last_item (o : option item) (l : list item) : option item :=
  match l with [] => o | x :: r => last_item (Some x) r end.
Definition jump_to_end (st : pst) : pst :=
  set_pcur st (mkpc (last_item (pc_prev (ps_cur st)) (pc_rest (ps_cur st))) []).

(** toml/src/parse.rs:814-818 [Parser::comment] *)
Definition mk_comment (r : sref) (start : pos) : comment :=
  mkcom (span_from_pos_len start (1 + tlen (sr_text r))) r.

(** toml/src/parse.rs:820-841 [token_fmt_str]; the text of [FmtStr] *)
Definition token_fmt_str (t : item) : list N :=
  match i_ty t with
  | IString s => bs "`" ++ fmt_str (sr_text (st_lit s)) ++ bs "`"
  | ILit r => bs "`" ++ fmt_str (sr_text r) ++ bs "`"
  | IComment _ => bs "comment"
  | ISquareLeft => bs "`[`"
  | ISquareRight => bs "`]`"
  | ICurlyLeft => bs "`{`"
  | ICurlyRight => bs "`{`"
  | IEqual => bs "`=`"
  | IComma => bs "`,`"
  | IDot => bs "`.`"
  | INewline => bs "`\n`"
  | IEOF => bs "`EOF`"
  end.
(** toml/src/parse.rs:843-867 [token_span] *)
Definition token_span (t : item) : span :=
  match i_ty t with
  | IString s => mkspan (i_start t) (st_lit_end s)
  | ILit r => span_from_pos_len (i_start t) (tlen (sr_text r))
  | IComment r => span_from_pos_len (i_start t) (1 + tlen (sr_text r))
  | INewline | IEOF => span_pos (i_start t)
  | _ => span_ascii_char (i_start t)
  end.

(** toml/src/parse.rs:23-41 [recover_on!]: skip items until one satisfies [p],
    which always holds of EOF. *)
Fixpoint skip_items (p : ity -> bool) (prev : option item) (l : list item) : pcur :=
  match l with
  | [] => mkpc prev []
  | x :: r => if p (i_ty x) then mkpc prev l else skip_items p (Some x) r
  end.
Definition recover_on (p : ity -> bool) (st : pst) : pst :=
  set_pcur st (skip_items p (pc_prev (ps_cur st)) (pc_rest (ps_cur st))).
Definition line_stop (t : ity) : bool := match t with INewline | IComment _ | IEOF => true | _ => false end.
Definition header_stop (t : ity) : bool := match t with ISquareRight => true | _ => line_stop t end.
Definition array_stop (t : ity) : bool :=
  match t with IComma | INewline | IComment _ | ISquareRight | IEOF => true | _ => false end.
Definition table_stop (t : ity) : bool :=
  match t with IComma | ICurlyRight | INewline | IComment _ | IEOF => true | _ => false end.
Definition table_end (t : ity) : bool :=
  match t with ICurlyRight | INewline | IComment _ | IEOF => true | _ => false end.

Definition array_end (t : ity) : bool := match t with ISquareRight | IEOF => true | _ => false end.
(** The guard [Error::RecursionLimitExceeded(..)] of toml/src/parse.rs:1475, 1637 *)
Definition recursion_error (e : terror) : bool := match e with ERecursionLimitExceeded _ => true | _ => false end.

(** ** Comments *)

(** toml/src/parse.rs:1273-1276 [next_comment_id] *)
Definition next_id (s : list acomment) : N := N.of_nat (length s).
(** toml/src/parse.rs:92-100 [CommentRange::append], [extend_to] *)
Definition range_append (r : crange) (id : N) : run crange :=
  let? d := usub id (cr_start r) in Ok (mkrange (cr_start r) (d + 1) (cr_level r)).
Definition range_extend_to (r : crange) (id : N) : run crange :=
  let? d := usub id (cr_start r) in Ok (mkrange (cr_start r) d (cr_level r)).

(** toml/src/parse.rs:1266-1271 [store_comment] *)
Definition store_comment (s : list acomment) (c : acomment) : N * list acomment := (next_id s, s ++ [c]).
(** toml/src/parse.rs:1234-1248 [add_comment] *)
Definition add_comment (s : list acomment) (r : crange) (c : comment) (p : apos) : run (list acomment * crange) :=
  let (id, s) := store_comment s (mkac p (cr_level r) c) in
  let? r := range_append r id in
  Ok (s, r).
(** toml/src/parse.rs:1217-1232 [add_comments] *)
Fixpoint add_comments (s : list acomment) (r : crange) (cs : list comment) (p : apos) : run (list acomment * crange) :=
  match cs with
  | [] => Ok (s, r)
  | c :: cs => let? (s, r) := add_comment s r c p in add_comments s r cs p
  end.
(** toml/src/parse.rs:1250-1264 [store_comments] *)
Definition store_comments (s : list acomment) (cs : list comment) (p : apos) (level : N) : run (list acomment * crange) :=
  add_comments s (mkrange (next_id s) 0 level) cs p.

(** toml/src/parse.rs:1179-1186 [find_associated_comments]: how many of the
    comments are not directly above [line]. *)
Fixpoint associated_position (rev_comments : list comment) (line : N) (i : N) : run (option N) :=
  match rev_comments with
  | [] => Ok None
  | c :: r =>
      let contiguous := p_line (s_start (c_span c)) + 1 =? line in
      let? line := usub line 1 in
      if contiguous then associated_position r line (i + 1) else Ok (Some i)
  end.
Definition find_associated_comments (cs : list comment) (line : N) : run N :=
  let? l := associated_position (rev cs) line 0 in
  match l with
  | None => Ok 0
  | Some l => usub (N.of_nat (length cs)) l
  end.

(** toml/src/parse.rs:1188-1205 [mark_comments_above]; the subtraction is of
    [c.line + 1] and cannot underflow. *)
Fixpoint mark_above (line level : N) (rev_store : list acomment) (i : N) : list acomment * option N :=
  match rev_store with
  | [] => ([], None)
  | c :: r =>
      if (p_line (s_start (c_span (ac_comment c))) + 1 =? line) && (match ac_pos c with Contained => true | _ => false end) then
        let (r, o) := mark_above (line - 1) level r (i + 1) in
        (mkac Above level (ac_comment c) :: r, o)
      else (c :: r, Some i)
  end.
Definition mark_comments_above (s : list acomment) (line level : N) : run (list acomment * crange) :=
  let (r, o) := mark_above line level (rev s) 0 in
  let len := match o with Some l => l | None => 0 end in
  let? start := usub (next_id s) len in
  Ok (rev r, mkrange start len level).

(** toml/src/parse.rs:1207-1215 [mark_contained_comments] *)
Fixpoint mark_contained (i a b level : N) (s : list acomment) : list acomment :=
  match s with
  | [] => []
  | c :: r =>
      (if (a <=? i) && (i <? b) && (ac_level c <? level) then mkac (ac_pos c) level (ac_comment c) else c)
      :: mark_contained (i + 1) a b level r
  end.
Definition mark_contained_comments (s : list acomment) (r : crange) (level : N) : run (list acomment) :=
  let a := cr_start r in
  let b := a + cr_len r in
  if b <=? next_id s then Ok (mark_contained 0 a b level s) else Panic.

(** toml/src/parse.rs:777-787 [eat_comment], then [add_comment] with
    [AssocPos::LineEnd] *)
Definition eat_line_comment (st : pst) (r : crange) : run (pst * crange) :=
  match pc_rest (ps_cur st) with
  | mkitem (IComment c) start :: _ =>
      let? (s, r) := add_comment (ps_store st) r (mk_comment c start) LineEnd in
      Ok (set_store (padv st) s, r)
  | _ => Ok (st, r)
  end.
(** toml/src/parse.rs:789-804, 1460-1467, 1494-1501:
    [while let Some(comment) = parser.eat_comment_and_newlines()], with
    [add_comment] and [AssocPos::Contained] as its body *)
Fixpoint eat_trivia_loop (prev : option item) (l : list item) (s : list acomment) (r : crange)
  : run (pcur * list acomment * crange) :=
  match l with
  | mkitem (IComment c) start :: l' =>
      let? (s, r) := add_comment s r (mk_comment c start) Contained in
      eat_trivia_loop (Some (mkitem (IComment c) start)) l' s r
  | mkitem INewline start :: l' => eat_trivia_loop (Some (mkitem INewline start)) l' s r
  | _ => Ok (mkpc prev l, s, r)
  end.
Definition eat_trivia (st : pst) (r : crange) : run (pst * crange) :=
  let? (c, s, r) := eat_trivia_loop (pc_prev (ps_cur st)) (pc_rest (ps_cur st)) (ps_store st) r in
  Ok (mkps c (ps_errs st) s, r).

(** ** Keys *)

(** toml/src/parse.rs:1277-1281 [KeyResult] *)
Inductive keyres := KeyOk (k : key) | KeyUnterminated (k : key) | KeyErr (e : terror).

(** toml/src/parse.rs:1310-1312: the first character that is not allowed in a
    bare key *)
Definition bare_char (c : N) : bool :=
  ((97 <=? c) && (c <=? 122)) || ((65 <=? c) && (c <=? 90)) || ((48 <=? c) && (c <=? 57)) || (c =? 95) || (c =? 45).
Fixpoint find_invalid (i : N) (s : list N) : option (N * N) :=
  match s with
  | [] => None
  | c :: r => if bare_char c then find_invalid (i + len_utf8 c) r else Some (i, c)
  end.

(** toml/src/parse.rs:1368: the result of [parse_value] *)
Inductive vres := VOk (v : value) | VErr (e : terror).

Section Parse.
  Context (input : list N) (eof : item).

  (** toml/src/parse.rs:760-766 [peek] *)
  Definition ppeek (st : pst) : item := hd eof (pc_rest (ps_cur st)).
  Definition pty (st : pst) : ity := i_ty (ppeek st).

  (** toml/src/parse.rs:1283-1360 [parse_key] *)
  Definition parse_ident (t : item) (st : pst) : (ident * pst) + (keyres * pst) :=
    match i_ty t with
    | IString s =>
        let lit_span := mkspan (i_start t) (st_lit_end s) in
        match st_quote s with
        | QBasicMulti => inr (KeyErr (EMultilineBasicStringIdent lit_span), st)
        | QLiteralMulti => inr (KeyErr (EMultilineLiteralStringIdent lit_span), st)
        | q =>
            let kind := match q with QBasic => KBasic | _ => KLiteral end in
            let i := string_ident (st_lit s) lit_span (st_text s) (st_offset s) kind in
            if (to_end_line (st_offset s) =? 0) && (to_end_char (st_offset s) =? 0)
            then inr (KeyUnterminated (KOne i), padv st)
            else inl (i, st)
        end
    | ILit r =>
        let i := plain_ident r (span_from_pos_len (i_start t) (tlen (sr_text r))) in
        match find_invalid 0 (sr_text r) with
        | Some (off, c) =>
            let e := EInvalidCharInIdentifier c (pos_plus (i_start t) off) in
            if forallb is_control_char (sr_text r) then inr (KeyErr e, st)
            else inl (i, perr st e)
        | None => inl (i, st)
        end
    | _ => inr (KeyErr (EExpectedKeyFound (token_fmt_str t) (token_span t)), st)
    end.
  Fixpoint key_loop (fuel : nat) (idents : list dident) (st : pst) : run (keyres * pst) :=
    match fuel with
    | O => Panic
    | S f =>
        match parse_ident (ppeek st) st with
        | inr r => Ok r
        | inl (i, st) =>
            let st := padv st in
            match pty st with
            | IDot => key_loop f (idents ++ [mkdi i (Some (i_start (ppeek st)))]) (padv st)
            | _ =>
                Ok (KeyOk match idents with
                          | [] => KOne i
                          | _ => KDotted (idents ++ [mkdi i None])
                          end, st)
            end
        end
    end.
  Definition parse_key (st : pst) : run (keyres * pst) := key_loop (S (length (pc_rest (ps_cur st)))) [] st.

  (** ** Literals *)

  (** toml/src/parse/lit.rs:166-194 [concat_strs], [extend_str_back],
      [extend_str_front] *)
  Definition concat_strs (a b : sref) : run sref := slice input (sr_off a) (sr_off b + tlen (sr_text b)).
  Definition extend_str_back (a : sref) (n : N) : run sref := slice input (sr_off a) (sr_off a + tlen (sr_text a) + n).
  Definition extend_str_front (a : sref) (n : N) : run sref :=
    let? s := usub (sr_off a) n in slice input s (sr_off a + tlen (sr_text a)).

  (** toml/src/parse.rs:1794-1821 [combine_adjacent_dot_and_lit] *)
  Definition pos_eqb (a b : pos) : bool := (p_line a =? p_line b) && (p_char a =? p_char b).
  Fixpoint combine_loop (prev : option item) (l : list item) (lit : sref) (sp : span) : run (pcur * sref * span) :=
    match l with
    | [] =>
        (* the peeked token is EOF *)
        Ok (mkpc prev [], lit, sp)
    | t :: r =>
        if negb (pos_eqb (i_start t) (s_end sp)) then Ok (mkpc prev l, lit, sp)
        else match i_ty t with
             | IDot =>
                 let? lit := extend_str_back lit 1 in
                 combine_loop (Some t) r lit (mkspan (s_start sp) (pos_plus (s_end sp) 1))
             | ILit n =>
                 let? lit := concat_strs lit n in
                 combine_loop (Some t) r lit (mkspan (s_start sp) (pos_plus (s_end sp) (tlen (sr_text n))))
             | _ => Ok (mkpc prev l, lit, sp)
             end
    end.
  Definition combine_adjacent (st : pst) (lit : sref) (sp : span) : run (pst * sref * span) :=
    let? (c, lit, sp) := combine_loop (pc_prev (ps_cur st)) (pc_rest (ps_cur st)) lit sp in
    Ok (set_pcur st c, lit, sp).

  (** toml/src/parse.rs:1715-1761 [try_to_parse_time_part] *)
  Definition try_to_parse_time_part (st : pst) (date_lit : sref) (date_span : span) (d : date) : run (value * pst) :=
    match pty st with
    | ILit r =>
        let t := ppeek st in
        let? (st, time_lit, time_span) := combine_adjacent (padv st) r (span_from_pos_len (i_start t) (tlen (sr_text r))) in
        let st := if p_char (s_end date_span) + 1 <? p_char (s_start time_span)
                  then perr st (EDateAndTimeTooFarApart (span_between date_span time_span)) else st in
        let? lit := concat_strs date_lit time_lit in
        let sp := span_across date_span time_span in
        match parse_time_and_offset (0, sr_text time_lit) time_span with
        | Ok (tm, o) => Ok (VDateTime lit sp (from_optional_offset d tm o), st)
        | Err e => Ok (VInvalid lit sp, perr st e)
        | Panic => Panic
        end
    | _ => Ok (VDateTime date_lit date_span (LocalDate d), st)
    end.

  (** toml/src/parse.rs:1763-1792 [try_combine_time_part] *)
  Definition try_combine_time_part (st : pst) (date_lit : sref) (date_span : span) : run (value * pst) :=
    match pty st with
    | ILit r =>
        let time_span := span_from_pos_len (i_start (ppeek st)) (tlen (sr_text r)) in
        if p_char (s_end date_span) + 5 <? p_char (s_start time_span) then Ok (VInvalid date_lit date_span, st)
        else
          let st := padv st in
          let? lit := concat_strs date_lit r in
          let? (st, lit, sp) := combine_adjacent st lit (span_across date_span time_span) in
          Ok (VInvalid lit sp, st)
    | _ => Ok (VInvalid date_lit date_span, st)
    end.

  (** toml/src/parse.rs:1384-1411: a value that starts with a literal *)
  Definition has_time_char (s : list N) : bool := existsb (fun c => (c =? 84) || (c =? 116) || (c =? 58)) s.
  Definition parse_literal_value (st : pst) (t : item) (r : sref) : run (value * pst) :=
    let? (st, lit, sp) := combine_adjacent (padv st) r (span_from_pos_len (i_start t) (tlen (sr_text r))) in
    match parse_literal (sr_text lit) sp with
    | Ok (PFloat f) => Ok (VFloat lit sp f, st)
    | Ok (PInt z) => Ok (VInt lit sp z, st)
    | Ok (PBool b) => Ok (VBool sp b, st)
    | Ok (PDateTime d) => Ok (VDateTime lit sp d, st)
    | Ok (PPartialDate d) => try_to_parse_time_part st lit sp d
    | Ok (PInvalidDateTime e) =>
        let st := perr st e in
        if negb (has_time_char (sr_text lit)) then try_combine_time_part st lit sp else Ok (VInvalid lit sp, st)
    | Err e => Ok (VInvalid lit sp, perr st e)
    | Panic => Panic
    end.

  (** toml/src/parse.rs:1412-1437: a value that starts with a dot *)
  Definition parse_dot_value (st : pst) (t : item) : run (vres * pst) :=
    let st := perr (padv st) (EUnexpectedLiteralStart 46 (i_start t)) in
    let next := ppeek st in
    match i_ty next with
    | ILit l =>
        if pos_eqb (i_start next) (pos_plus (i_start t) 1) then
          let? lit := extend_str_front l 1 in
          let? (st, lit, sp) := combine_adjacent (padv st) lit (span_from_pos_len (i_start t) (tlen (sr_text l) + 1)) in
          Ok (VOk (VInvalid lit sp), st)
        else Ok (VErr (EExpectedValueFound (token_fmt_str t) (token_span t)), st)
    | _ => Ok (VErr (EExpectedValueFound (token_fmt_str t) (token_span t)), st)
    end.

  (** toml/src/parse.rs:21 [RECURSION_LIMIT] *)
  Definition recursion_limit : N := 100.

  Section Nested.
    (** [parse_value] one level down *)
    Context (parse_inner : pst -> run (vres * pst)) (level : N).

    (** toml/src/parse.rs:1459-1545: the loop ['inline_array]; [inl]: the
        recursion limit was exceeded inside *)
    Fixpoint array_loop (fuel : nat) (ac : crange) (values : list avalue) (st : pst)
      : run (terror * pst + crange * list avalue * pst) :=
      match fuel with
      | O => Panic
      | S f =>
          let? (st, ac) := eat_trivia st ac in
          if array_end (pty st) then Ok (inr (ac, values, st))
          else
            let? (r, st) := parse_inner st in
            match r with
            | VErr e =>
                if recursion_error e then Ok (inl (e, st))
                else
                  let st := recover_on array_stop (perr st e) in
                  if array_end (pty st) then Ok (inr (ac, values, st))
                  else array_loop f ac values (padv st)
            | VOk v =>
                let? (s, vc) := mark_comments_above (ps_store st) (p_line (val_start v)) (level + 1) in
                let? (st, vc) := eat_line_comment (set_store st s) vc in
                let? (st, ac) := eat_trivia st ac in
                match pty st with
                | IComma =>
                    let? vc := range_extend_to vc (next_id (ps_store st)) in
                    let? s := mark_contained_comments (ps_store st) vc (level + 1) in
                    let comma := i_start (ppeek st) in
                    let? (st, vc) := eat_line_comment (padv (set_store st s)) vc in
                    array_loop f ac (values ++ [mkav vc v (Some comma)]) st
                | ISquareRight | IEOF => Ok (inr (ac, values ++ [mkav vc v None], st))
                | _ => array_loop f ac (values ++ [mkav vc v None]) (perr st (EMissingComma (val_end v)))
                end
            end
      end.

    (** toml/src/parse.rs:1447-1583: an inline array, after its bracket *)
    Definition parse_array (l_par : pos) (st : pst) : run (vres * pst) :=
      let ac := mkrange (next_id (ps_store st)) 0 level in
      let? (st, ac) := eat_line_comment st ac in
      let? r := array_loop (S (length (pc_rest (ps_cur st)))) ac [] st in
      match r with
      | inl (e, st) => Ok (VErr e, st)
      | inr (ac, values, st) =>
          let t := ppeek st in
          let '(r_par, st) :=
            match i_ty t with
            | ISquareRight => (Some (i_start t), padv st)
            | _ =>
                let sp := match i_ty t with
                          | IEOF => match ppeek_prev st with
                                    | Some (mkitem INewline s) => span_pos s
                                    | _ => token_span t
                                    end
                          | _ => token_span t
                          end in
                (None, perr st (EExpectedRightSquareFound (token_fmt_str t) l_par sp))
            end in
          let? ac := range_extend_to ac (next_id (ps_store st)) in
          let? s := mark_contained_comments (ps_store st) ac level in
          let e := match r_par with
                   | Some p => EndPar p
                   | None => EndNone (match rev values with v :: _ => av_end v | [] => pos_plus l_par 1 end)
                   end in
          Ok (VOk (VArray ac l_par values e), set_store st s)
      end.

    (** toml/src/parse.rs:1595-1669: the loop ['inline_table] *)
    Fixpoint table_loop (fuel : nat) (comma : option pos) (assigns : list iassign) (st : pst)
      : run (terror * pst + list iassign * pst) :=
      match fuel with
      | O => Panic
      | S f =>
          if table_end (pty st) then
            Ok (inr (assigns, match comma with Some p => perr st (EInlineTableTrailingComma p) | None => st end))
          else
            let recover (st : pst) :=
              let st := recover_on table_stop st in
              match pty st with
              | IComma => table_loop f comma assigns (padv st)
              | _ => Ok (inr (assigns, st))
              end in
            let? (k, st) := parse_key st in
            match k with
            | KeyUnterminated _ => Ok (inr (assigns, st))
            | KeyErr e => recover (perr st e)
            | KeyOk k =>
                let t := ppeek st in
                match i_ty t with
                | IEqual =>
                    let? (r, st) := parse_inner (padv st) in
                    match r with
                    | VErr e => if recursion_error e then Ok (inl (e, st)) else recover (perr st e)
                    | VOk v =>
                        let a := mkassign k (i_start t) v in
                        if table_end (pty st) then Ok (inr (assigns ++ [mkia a None], st))
                        else match pty st with
                             | IComma =>
                                 let c := Some (i_start (ppeek st)) in
                                 table_loop f c (assigns ++ [mkia a c]) (padv st)
                             | _ => table_loop f None (assigns ++ [mkia a None]) (perr st (EMissingComma (val_end v)))
                             end
                    end
                | _ => recover (perr st (EExpectedEqOrDotFound (token_fmt_str t) (token_span t)))
                end
            end
      end.

    (** toml/src/parse.rs:1593-1696: an inline table, after its bracket *)
    Definition parse_table (l_par : pos) (st : pst) : run (vres * pst) :=
      let? r := table_loop (S (length (pc_rest (ps_cur st)))) None [] st in
      match r with
      | inl (e, st) => Ok (VErr e, st)
      | inr (assigns, st) =>
          let t := ppeek st in
          let '(r_par, st) :=
            match i_ty t with
            | ICurlyRight => (Some (i_start t), padv st)
            | _ => (None, perr st (EExpectedRightCurlyFound (token_fmt_str t) l_par (token_span t)))
            end in
          let e := match r_par with
                   | Some p => EndPar p
                   | None => EndNone (match rev assigns with a :: _ => ia_end a | [] => pos_plus l_par 1 end)
                   end in
          Ok (VOk (VTable l_par assigns e), st)
      end.
  End Nested.

  (** toml/src/parse.rs:1362-1710 [parse_value].  [depth] bounds the number of
      nested calls; [Panic] when it is used up. *)
  Fixpoint parse_value (depth : nat) (level : N) (st : pst) : run (vres * pst) :=
    match depth with
    | O => Panic
    | S depth =>
        let t := ppeek st in
        match i_ty t with
        | IString s =>
            Ok (VOk (VString (st_lit s) (mkspan (i_start t) (st_lit_end s)) (st_text s) (st_offset s) (st_quote s)), padv st)
        | ILit r => let? (v, st) := parse_literal_value st t r in Ok (VOk v, st)
        | IDot => parse_dot_value st t
        | ISquareLeft =>
            let st := padv st in
            if recursion_limit <=? level then Ok (VErr (ERecursionLimitExceeded (i_start t)), jump_to_end st)
            else parse_array (parse_value depth (level + 1)) level (i_start t) st
        | ICurlyLeft =>
            let st := padv st in
            if recursion_limit <=? level then Ok (VErr (ERecursionLimitExceeded (i_start t)), jump_to_end st)
            else parse_table (parse_value depth (level + 1)) (i_start t) st
        | _ => Ok (VErr (EExpectedValueFound (token_fmt_str t) (token_span t)), st)
        end
    end.

  (** ** Statements *)

  (** toml/src/parse.rs:878-882: the local variables of [parse] *)
  Record root := mkroot {
    rt_st : pst;
    rt_asts : list ast;
    rt_prev : list comment;
    rt_newline : bool;
  }.
  Definition set_rst (r : root) (st : pst) : root := mkroot st (rt_asts r) (rt_prev r) (rt_newline r).

  (** toml/src/parse.rs:173-178, 248-253 [append_comment] *)
  Definition append_comment (cr : crange) (l : list tassign) (id : N) : run (crange * list tassign) :=
    match rev l with
    | [] => let? cr := range_append cr id in Ok (cr, l)
    | a :: r => let? c := range_append (ta_comments a) id in Ok (cr, rev r ++ [mkta c (ta_assign a)])
    end.

  (** toml/src/parse.rs:1010-1028: a comment in [parse] *)
  Definition root_comment (c : comment) (r : root) : run root :=
    if rt_newline r then
      let st := rt_st r in
      let (id, s) := store_comment (ps_store st) (mkac LineEnd 0 c) in
      let? l :=
        match rt_asts r with
        | ATable t :: l =>
            let? (c, a) := append_comment (tb_comments t) (tb_assigns t) id in Ok (ATable (mktb c (tb_header t) a) :: l)
        | AArray t :: l =>
            let? (c, a) := append_comment (ae_comments t) (ae_assigns t) id in Ok (AArray (mkae c (ae_header t) a) :: l)
        | AAssign a :: l => let? c := range_append (ta_comments a) id in Ok (AAssign (mkta c (ta_assign a)) :: l)
        | _ => Panic
        end in
      Ok (mkroot (set_store st s) l (rt_prev r) true)
    else Ok (mkroot (rt_st r) (rt_asts r) (rt_prev r ++ [c]) false).

  (** The error for a statement that does not start on a new line:
      toml/src/parse.rs:959-970, 1043-1050, 1055-1062, 1076-1083, 1091-1103 *)
  Definition expected_newline (token : item) (mark : nat) (st : pst) : pst :=
    perr (preset st mark)
      (EExpectedNewlineFound (token_fmt_str token) (mkspan (i_start token) (i_start (ppeek st)))).

  (** toml/src/parse.rs:891-903: a second bracket *)
  Definition header_open (l_table : pos) (st : pst) : option pos * pst :=
    match pty st with
    | ISquareLeft =>
        let t := ppeek st in
        let st := padv st in
        (Some (i_start t),
         if negb (p_char l_table + 1 =? p_char (i_start t))
         then perr st (ESpaceBetweenArrayPars (mkspan (pos_plus l_table 1) (i_start t))) else st)
    | _ => (None, st)
    end.
  (** toml/src/parse.rs:905-917: the key, and whether to skip the brackets *)
  Definition header_key (st : pst) : run (option key * bool * pst) :=
    let? (k, st) := parse_key st in
    Ok match k with
       | KeyOk k => (Some k, false, st)
       | KeyUnterminated k => (Some k, true, st)
       | KeyErr e => (None, false, recover_on header_stop (perr st e))
       end.
  (** toml/src/parse.rs:923-930: the first closing bracket of an array header *)
  Definition header_close1 (l_array : option pos) (st : pst) : option pos * pst :=
    match l_array with
    | Some l_par =>
        let t := ppeek st in
        match i_ty t with
        | ISquareRight => (Some (i_start t), padv st)
        | _ => (None, perr st (EExpectedDotOrRightSquareFound (token_fmt_str t) l_par (token_span t)))
        end
    | None => (None, st)
    end.
  (** toml/src/parse.rs:932-955: the last closing bracket *)
  Definition header_close2 (l_table : pos) (r_array : option pos) (st : pst) : option pos * pst :=
    let t := ppeek st in
    match i_ty t with
    | ISquareRight =>
        let st := padv st in
        (Some (i_start t),
         match r_array with
         | Some a => if negb (p_char a + 1 =? p_char (i_start t))
                     then perr st (ESpaceBetweenArrayPars (mkspan (pos_plus a 1) (i_start t))) else st
         | None => st
         end)
    | _ =>
        (None,
         perr st (match r_array with
                  | Some _ => EExpectedRightSquareFound (token_fmt_str t) l_table (token_span t)
                  | None => EExpectedDotOrRightSquareFound (token_fmt_str t) l_table (token_span t)
                  end))
    end.

  (** toml/src/parse.rs:891-956: a header, after its first bracket *)
  Definition header (l_table : pos) (st : pst) : run (option pos * option key * option pos * option pos * pst) :=
    let '(l_array, st) := header_open l_table st in
    let? (key, skip, st) := header_key st in
    if (skip : bool) then Ok (l_array, key, None, None, st)
    else
      let '(r_array, st) := header_close1 l_array st in
      let '(r_table, st) := header_close2 l_table r_array st in
      Ok (l_array, key, r_array, r_table, st).

  (** toml/src/parse.rs:887-1009: a table or array header in [parse] *)
  Definition root_header (token : item) (r : root) : run root :=
    let mark := pmark (rt_st r) in
    let l_table := i_start token in
    let? (l_array, key, r_array, r_table, st) := header l_table (padv (rt_st r)) in
    if rt_newline r && negb (Nat.eqb (pmark st) mark) then
      Ok (set_rst r (expected_newline token mark (recover_on line_stop st)))
    else
      let st := if rt_newline r then perr st (EMissingNewline (i_start token)) else st in
      let? pos := find_associated_comments (rt_prev r) (p_line l_table) in
      let n := N.to_nat pos in
      let l := rev (map AComment (firstn n (rt_prev r))) ++ rt_asts r in
      let? (s, comments) := store_comments (ps_store st) (skipn n (rt_prev r)) Above 0 in
      let st := set_store st s in
      let? a :=
        match l_array with
        | Some l_array =>
            let? h := new_aheader (l_table, l_array) key (r_array, r_table) in Ok (AArray (mkae comments h []))
        | None => let? h := new_theader l_table key r_table in Ok (ATable (mktb comments h []))
        end in
      Ok (mkroot st (a :: l) [] true).

  (** toml/src/parse.rs:1107-1134: comments that do not belong to the
      assignment, and the level of the assignment *)
  Definition place_free (s : list acomment) (free : list comment) (l : list ast) : run (list acomment * list ast * N) :=
    match l with
    | ATable t :: l =>
        let? (s, c) := add_comments s (tb_comments t) free Contained in
        Ok (s, ATable (mktb c (tb_header t) (tb_assigns t)) :: l, 1)
    | AArray t :: l =>
        let? (s, c) := add_comments s (ae_comments t) free Contained in
        Ok (s, AArray (mkae c (ae_header t) (ae_assigns t)) :: l, 1)
    | l => Ok (s, rev (map AComment free) ++ l, 0)
    end.
  (** toml/src/parse.rs:1160-1166 *)
  Definition push_assign (a : tassign) (l : list ast) : list ast :=
    match l with
    | ATable t :: l => ATable (mktb (tb_comments t) (tb_header t) (tb_assigns t ++ [a])) :: l
    | AArray t :: l => AArray (mkae (ae_comments t) (ae_header t) (ae_assigns t ++ [a])) :: l
    | l => AAssign a :: l
    end.

  (** toml/src/parse.rs:1038-1168: an assignment in [parse] *)
  Definition root_assign (depth : nat) (token : item) (r : root) : run root :=
    let nl := rt_newline r in
    let mark := pmark (rt_st r) in
    let? (k, st) := parse_key (rt_st r) in
    match k with
    | KeyUnterminated _ => Ok (set_rst r (if nl then expected_newline token mark st else st))
    | KeyErr e =>
        let st := recover_on line_stop st in
        Ok (set_rst r (if nl then expected_newline token mark st else perr st e))
    | KeyOk k =>
        let t := ppeek st in
        match i_ty t with
        | IEqual =>
            let st := padv st in
            let eq := i_start t in
            if nl && negb (Nat.eqb (pmark st) mark) then
              Ok (set_rst r (expected_newline token mark (recover_on line_stop st)))
            else
              let st := if nl then perr st (EMissingNewline (i_start token)) else st in
              let? pos := find_associated_comments (rt_prev r) (p_line eq) in
              let n := N.to_nat pos in
              let free := firstn n (rt_prev r) in
              let? (s, l, level) := place_free (ps_store st) free (rt_asts r) in
              let? (s, comments) := store_comments s (skipn n (rt_prev r)) Above level in
              let? (v, st) := parse_value depth level (set_store st s) in
              match v with
              | VErr e => Ok (mkroot (recover_on line_stop (perr st e)) l [] nl)
              | VOk v =>
                  let? comments := range_extend_to comments (next_id (ps_store st)) in
                  let a := mkta comments (mkassign k eq v) in
                  Ok (mkroot st (push_assign a l) [] true)
              end
        | _ =>
            let st := recover_on line_stop st in
            Ok (set_rst r (if nl then expected_newline token mark st
                           else perr st (EExpectedEqOrDotFound (token_fmt_str t) (token_span t))))
        end
    end.

  (** toml/src/parse.rs:884-1169: the loop ['root] *)
  Definition max_depth : nat := 101.
  Fixpoint root_loop (fuel : nat) (r : root) : run root :=
    match fuel with
    | O => Panic
    | S f =>
        let t := ppeek (rt_st r) in
        match i_ty t with
        | ISquareLeft => let? r := root_header t r in root_loop f r
        | IComment c => let? r := root_comment (mk_comment c (i_start t)) (set_rst r (padv (rt_st r))) in root_loop f r
        | INewline => root_loop f (mkroot (padv (rt_st r)) (rt_asts r) (rt_prev r) false)
        | IEOF => Ok r
        | _ => let? r := root_assign max_depth t r in root_loop f r
        end
    end.

  Definition parse_items (items : list item) : run (asts * list terror) :=
    let? r := root_loop (S (length items)) (mkroot (mkps (mkpc None items) [] []) [] [] false) in
    let l := rev (map AComment (rt_prev r)) ++ rt_asts r in
    Ok (mkasts (rev l) (ps_store (rt_st r)), ps_errs (rt_st r)).
End Parse.

(** toml/src/parse.rs:877-1177 [parse]: the items of the document and the
    errors reported by the parser. *)
Definition parse (input : list N) (tk : tokens) : run (asts * list terror) :=
  let? items := resolve_all tk (tk_tokens tk) in
  let? eof := resolve_token tk (tk_eof tk) in
  parse_items input eof items.

(** toml/src/lib.rs:21-40: lexing and parsing; the errors of both. *)
Definition lex_and_parse (input : list N) : run (asts * list terror) :=
  let? (tk, es) := lex input in
  let? (a, es') := parse input tk in
  Ok (a, es ++ es').
