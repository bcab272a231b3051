(** Specification of the parser: the grammar of TOML documents over lexemes
    (LexSpec) and what a document says.  Follows toml.io/en/v1.0.0 (ABNF rules
    [expression], [keyval], [key], [val], [array], [inline-table],
    [std-table], [array-table]); literals are those of LitSpec. *)
From Verif Require Import Base CommonModel TomlError LitModel LitSpec LexModel LexSpec ParseModel.

(** ** What a document says *)

(** Values, without positions and comments.  The keys of an inline table are
    paths. *)
Inductive tval :=
| TvStr (s : list N)
| TvInt (z : Z)
| TvFloat (f : fval)
| TvBool (b : bool)
| TvDate (d : datetime)
| TvArr (l : list tval)
| TvTab (l : list (list (list N) * tval)).
Definition path : Type := list (list N).
Inductive stmt :=
| SAssign (k : path) (v : tval)
| STable (k : path)
| SArray (k : path).

(** How deep arrays and inline tables are nested. *)
Fixpoint nest (v : tval) : N :=
  match v with
  | TvArr l => 1 + fold_right N.max 0 (map nest l)
  | TvTab l => 1 + fold_right N.max 0 (map (fun x => nest (snd x)) l)
  | _ => 0
  end.
(** Up to 100 levels are accepted; the body of a table or array entry counts
    as one. *)
Fixpoint nesting_ok (level : N) (d : list stmt) : Prop :=
  match d with
  | [] => True
  | SAssign _ v :: r => level + nest v <= 100 /\ nesting_ok level r
  | STable _ :: r | SArray _ :: r => nesting_ok 1 r
  end.

(** ** Grammar *)

Definition is_blank (x : tile) : Prop := fst x = XBlank.
Definition blanks (w : list tile) : Prop := Forall is_blank w.
(** Between the values of an array: blanks, line breaks, comments. *)
Definition is_trivia (x : tile) : Prop := fst x = XBlank \/ fst x = XNewline \/ fst x = XComment.
Definition trivia (w : list tile) : Prop := Forall is_trivia w.
Definition is_punct (ty : ttype) (x : tile) : Prop := fst x = XPunct ty.

(** Characters of a bare key: letters, digits, underscore, dash. *)
Definition bare (c : N) : Prop :=
  97 <= c <= 122 \/ 65 <= c <= 90 \/ 48 <= c <= 57 \/ c = 95 \/ c = 45.
Inductive g_ident : tile -> list N -> Prop :=
| gi_bare s : Forall bare s -> g_ident (XWord, s) s
| gi_quoted q text off s : ~ multi q -> g_ident (XString q text off, s) text.
Inductive g_key : list tile -> path -> Prop :=
| gk_one x k : g_ident x k -> g_key [x] [k]
| gk_dot x k w1 d w2 ts ks : g_ident x k -> blanks w1 -> is_punct TDot d -> blanks w2 -> g_key ts ks ->
    g_key (x :: w1 ++ d :: w2 ++ ts) (k :: ks).

(** The text of a literal: words and dots without anything between them. *)
Definition word_or_dot (x : tile) : Prop := fst x = XWord \/ is_punct TDot x.
Definition g_lit (ts : list tile) (t : list N) : Prop :=
  (exists s r, ts = (XWord, s) :: r) /\ Forall word_or_dot ts /\ source ts = t.

(** Numbers, booleans, dates and times in one piece. *)
Inductive scalar : list N -> tval -> Prop :=
| sc_dec t z : dec_int t z -> in_i64 z = true -> scalar t (TvInt z)
| sc_prefixed t v : prefixed_int t v -> scalar t (TvInt (wrap_i64 (Z.of_N v)))
| sc_float t f : toml_float t f \/ capital_float t f -> scalar t (TvFloat f)
| sc_bool t b : toml_bool t b -> scalar t (TvBool b)
| sc_date t d : lenient_datetime t d -> scalar t (TvDate d).
(** A date, a blank, and a time. *)
Inductive spaced : list N -> list N -> tval -> Prop :=
| sp_local a x b t : lenient_datetime a (LocalDate x) -> time_text b t -> spaced a b (TvDate (LocalDateTime x t))
| sp_offset a x b t ot o g : lenient_datetime a (LocalDate x) -> time_text b t -> offset_text ot o ->
    spaced a (b ++ ot ++ g) (TvDate (OffsetDateTime x t o)).

Inductive g_value : list tile -> tval -> Prop :=
| gv_string q text off s : g_value [(XString q text off, s)] (TvStr text)
| gv_scalar ts t v : g_lit ts t -> scalar t v -> g_value ts v
| gv_spaced ta a b tb t v : g_lit ta a -> is_blank b -> g_lit tb t -> spaced a t v -> g_value (ta ++ b :: tb) v
| gv_array l r ts vs : is_punct TSquareLeft l -> is_punct TSquareRight r -> g_elems ts vs ->
    g_value (l :: ts ++ [r]) (TvArr vs)
| gv_empty_table l r w : is_punct TCurlyLeft l -> is_punct TCurlyRight r -> blanks w ->
    g_value (l :: w ++ [r]) (TvTab [])
| gv_table l r ts fs : is_punct TCurlyLeft l -> is_punct TCurlyRight r -> g_fields ts fs ->
    g_value (l :: ts ++ [r]) (TvTab fs)
(** The values of an array; a comma may follow the last one. *)
with g_elems : list tile -> list tval -> Prop :=
| ge_nil w : trivia w -> g_elems w []
| ge_last w1 ts v w2 : trivia w1 -> g_value ts v -> trivia w2 -> g_elems (w1 ++ ts ++ w2) [v]
| ge_cons w1 ts v w2 c ts' vs : trivia w1 -> g_value ts v -> trivia w2 -> is_punct TComma c -> g_elems ts' vs ->
    g_elems (w1 ++ ts ++ w2 ++ c :: ts') (v :: vs)
(** The assignments of an inline table, on one line, without a comma at the
    end. *)
with g_fields : list tile -> list (path * tval) -> Prop :=
| gf_last w1 kt k w2 e w3 ts v w4 : blanks w1 -> g_key kt k -> blanks w2 -> is_punct TEqual e -> blanks w3 ->
    g_value ts v -> blanks w4 -> g_fields (w1 ++ kt ++ w2 ++ e :: w3 ++ ts ++ w4) [(k, v)]
| gf_cons w1 kt k w2 e w3 ts v w4 c ts' fs : blanks w1 -> g_key kt k -> blanks w2 -> is_punct TEqual e -> blanks w3 ->
    g_value ts v -> blanks w4 -> is_punct TComma c -> g_fields ts' fs ->
    g_fields (w1 ++ kt ++ w2 ++ e :: w3 ++ ts ++ w4 ++ c :: ts') ((k, v) :: fs).

Inductive g_stmt : list tile -> stmt -> Prop :=
| gs_assign kt k w1 e w2 ts v : g_key kt k -> blanks w1 -> is_punct TEqual e -> blanks w2 -> g_value ts v ->
    g_stmt (kt ++ w1 ++ e :: w2 ++ ts) (SAssign k v)
| gs_table l w1 kt k w2 r : is_punct TSquareLeft l -> blanks w1 -> g_key kt k -> blanks w2 -> is_punct TSquareRight r ->
    g_stmt (l :: w1 ++ kt ++ w2 ++ [r]) (STable k)
| gs_array l l' w1 kt k w2 r r' : is_punct TSquareLeft l -> is_punct TSquareLeft l' -> blanks w1 -> g_key kt k ->
    blanks w2 -> is_punct TSquareRight r -> is_punct TSquareRight r' ->
    g_stmt (l :: l' :: w1 ++ kt ++ w2 ++ [r; r']) (SArray k).

(** A line: possibly a statement, possibly a comment. *)
Inductive g_line : list tile -> list stmt -> Prop :=
| gl_empty w : blanks w -> g_line w []
| gl_stmt w1 ts s w2 : blanks w1 -> g_stmt ts s -> blanks w2 -> g_line (w1 ++ ts ++ w2) [s].
Inductive g_comment : list tile -> Prop :=
| gc_none : g_comment []
| gc_some s : g_comment [(XComment, s)].
Inductive g_doc : list tile -> list stmt -> Prop :=
| gd_last ts s c : g_line ts s -> g_comment c -> g_doc (ts ++ c) s
| gd_line ts s c n ts' d : g_line ts s -> g_comment c -> g_doc ts' d ->
    g_doc (ts ++ c ++ (XNewline, n) :: ts') (s ++ d).

(** [toml_doc input d]: [input] is a TOML document that says [d]. *)
Definition toml_doc (input : list N) (d : list stmt) : Prop :=
  exists ts, lexical ts input /\ g_doc ts d /\ nesting_ok 0 d.

(** ** What the syntax tree says *)

Definition all_some {A} (l : list (option A)) : option (list A) :=
  fold_right (fun o r => match o, r with Some x, Some r => Some (x :: r) | _, _ => None end) (Some []) l.
Definition key_path (k : key) : path :=
  match k with KOne i => [id_text i] | KDotted l => map (fun d => id_text (di_ident d)) l end.
Definition closed (e : pend) : bool := match e with EndPar _ => true | EndNone _ => false end.
Fixpoint val_of (v : value) : option tval :=
  match v with
  | VString _ _ text _ _ => Some (TvStr text)
  | VInt _ _ z => Some (TvInt z)
  | VFloat _ _ f => Some (TvFloat f)
  | VBool _ b => Some (TvBool b)
  | VDateTime _ _ d => Some (TvDate d)
  | VTable _ l e =>
      if closed e then
        option_map TvTab
          (all_some (map (fun a => option_map (pair (key_path (as_key (ia_assign a)))) (val_of (as_val (ia_assign a)))) l))
      else None
  | VArray _ _ l e => if closed e then option_map TvArr (all_some (map (fun a => val_of (av_val a)) l)) else None
  | VInvalid _ _ => None
  end.
Definition assign_of (a : tassign) : option stmt :=
  option_map (SAssign (key_path (as_key (ta_assign a)))) (val_of (as_val (ta_assign a))).
Definition header_of (f : path -> stmt) (k : option key) (closed : bool) : option stmt :=
  match k with
  | Some k => if closed then Some (f (key_path k)) else None
  | None => None
  end.
Definition is_some {A} (o : option A) : bool := match o with Some _ => true | None => false end.
Definition ast_of (a : ast) : list (option stmt) :=
  match a with
  | AAssign a => [assign_of a]
  | ATable t => header_of STable (th_key (tb_header t)) (is_some (th_r_off (tb_header t))) :: map assign_of (tb_assigns t)
  | AArray t =>
      header_of SArray (ah_key (ae_header t)) (is_some (fst (ah_r_offs (ae_header t))) && is_some (snd (ah_r_offs (ae_header t))))
      :: map assign_of (ae_assigns t)
  | AComment _ => []
  end.
(** [None] if something is missing or malformed. *)
Definition doc_of (a : asts) : option (list stmt) := all_some (flat_map ast_of (as_asts a)).

(** ** Lexemes as the parser sees them *)

Definition item_ty (pre : list N) (x : lexeme) (s : list N) : ity :=
  match x with
  | XBlank | XNewline => INewline
  | XPunct TSquareLeft => ISquareLeft
  | XPunct TSquareRight => ISquareRight
  | XPunct TCurlyLeft => ICurlyLeft
  | XPunct TCurlyRight => ICurlyRight
  | XPunct TEqual => IEqual
  | XPunct TComma => IComma
  | XPunct TDot => IDot
  | XPunct _ => IEOF
  | XWord => ILit (mkref (tlen pre) s)
  | XComment => IComment (mkref (tlen pre + 1) (tl s))
  | XString q text off => IString (mkstr q (mkref (tlen pre) s) (pos_at (pre ++ s)) text off)
  end.
Fixpoint tile_items (pre : list N) (ts : list tile) : list item :=
  match ts with
  | [] => []
  | (XBlank, s) :: r => tile_items (pre ++ s) r
  | (x, s) :: r => mkitem (item_ty pre x s) (pos_at pre) :: tile_items (pre ++ s) r
  end.
