(** Model of crates/toml/src/map.rs (and onevec.rs).

    Simplifications:
    - a reference into the syntax tree is the referenced piece of the tree;
    - the map is an association list in insertion order (the default feature
      "indexmap"); a borrow of an entry that is extended in place is a rebuilt
      entry;
    - [reprs] references held by a [Path] are copies: the borrow checker
      forbids changing them while the path is alive;
    - indices ([ParentId], [MapTableKeyRepr::Dotted]) are unbounded instead of
      [u32];
    - errors are returned in the order they are reported.
    [Panic] stands for an index out of range, [unreachable!], [unwrap] of
    [None], and for [get_unchecked] on an empty [OneVec] (undefined
    behaviour). *)
From Verif Require Import Base CommonModel TomlError LitModel LexModel ParseModel.

(** toml/src/map.rs:175-179 [MapTableKeyRepr] *)
Inductive mkey := MOne (i : ident) | MDotted (idx : N) (is_ : list dident).
(** toml/src/map.rs:145-151 [MapTableEntryReprKind] *)
Inductive mkind := MTable (t : table) | MArrayEntry (a : aentry) | MTop (a : tassign) | MInl (a : iassign).
(** toml/src/map.rs:123-129 [MapTableEntryRepr] *)
Record mrepr := mkrepr { r_parent : N; r_key : mkey; r_kind : mkind }.

(** toml/src/map.rs:103-108 [MapTableEntry] *)
Record mentry_ (V : Type) := mke { e_node : V; e_reprs : list mrepr }.
Arguments mke {V}. Arguments e_node {V}. Arguments e_reprs {V}.
(** toml/src/map.rs:243-248 [MapArrayToplevelEntry]; a [MapTable]
    (toml/src/map.rs:67-70) is a list of keys and entries. *)
Record tentry_ (V : Type) := mkte { te_table : list (list N * mentry_ V); te_parent : N; te_repr : aentry }.
Arguments mkte {V}. Arguments te_table {V}. Arguments te_parent {V}. Arguments te_repr {V}.
(** toml/src/map.rs:331-335 [MapArrayInlineEntry] *)
Record ientry_ (V : Type) := mkie { ie_node : V; ie_repr : avalue }.
Arguments mkie {V}. Arguments ie_node {V}. Arguments ie_repr {V}.
(** toml/src/map.rs:198-207, 256-261, 343-358 [MapNode], [MapArray], [Scalar].
    A scalar is the value it refers to. *)
Inductive node :=
| NTable (t : list (list N * mentry_ node))
| NTop (es : list (tentry_ node))
| NInline (parent : N) (repr : value) (es : list (ientry_ node))
| NScalar (v : value).
Notation mentry := (mentry_ node).
Notation mtable := (list (list N * mentry)).
Notation tentry := (tentry_ node).
Notation ientry := (ientry_ node).

(** toml/src/onevec.rs:29-50 [first], [last] *)
Definition first_of {A} (l : list A) : run A := match l with x :: _ => Ok x | [] => Panic end.
Fixpoint last_of {A} (l : list A) : run A := match l with [] => Panic | [x] => Ok x | _ :: r => last_of r end.

(** toml/src/map.rs:183-188 [repr_ident] *)
Definition repr_ident (k : mkey) : run ident :=
  match k with
  | MOne i => Ok i
  | MDotted idx is_ => let? d := lookup is_ idx in Ok (di_ident d)
  end.
(** toml/src/map.rs:190-195 [is_last_ident] *)
Definition is_last_ident (k : mkey) : run bool :=
  match k with
  | MOne _ => Ok true
  | MDotted idx is_ => let? n := usub (N.of_nat (length is_)) 1 in Ok (idx =? n)
  end.
(** toml/src/map.rs:165-172 [is_assignment] *)
Definition is_assignment (k : mkind) : bool := match k with MTable _ | MArrayEntry _ => false | MTop _ | MInl _ => true end.

(** ** Spans of the syntax tree *)

(** toml/src/parse.rs:439-441 [Ident::lit_span] *)
Definition lit_span (i : ident) : span := span_from_pos_len (id_start i) (tlen (sr_text (id_lit i))).
(** toml/src/parse.rs:377-396 [Key::start], [Key::end] *)
Definition key_start (k : key) : run pos :=
  match k with KOne i => Ok (id_start i) | KDotted l => let? d := first_of l in Ok (id_start (di_ident d)) end.
Definition key_end (k : key) : run pos :=
  match k with
  | KOne i => Ok (lit_end i)
  | KDotted l => let? d := last_of l in
                 Ok (match di_dot d with Some p => pos_plus p 1 | None => lit_end (di_ident d) end)
  end.
(** toml/src/parse.rs:343-356 [Assignment::span] *)
Definition assign_span (a : assignment) : run span := let? s := key_start (as_key a) in Ok (mkspan s (val_end (as_val a))).
(** toml/src/parse.rs:625-640 [InlineTableAssignment::span] *)
Definition iassign_span (a : iassign) : run span := let? s := key_start (as_key (ia_assign a)) in Ok (mkspan s (ia_end a)).
(** toml/src/parse.rs:211-220 [TableHeader::end] *)
Definition theader_end (h : theader) : run pos :=
  match th_r_off h with
  | Some o => Ok (pos_plus (pos_plus (th_l_par h) o) 1)
  | None => match th_key h with Some k => key_end k | None => Ok (pos_plus (th_l_par h) 1) end
  end.
(** toml/src/parse.rs:294-309 [ArrayHeader::end] *)
Definition aheader_end (h : aheader) : run pos :=
  match snd (ah_r_offs h), fst (ah_r_offs h) with
  | Some o, _ | None, Some o => Ok (pos_plus (pos_plus (fst (ah_l_pars h)) o) 1)
  | None, None => match ah_key h with Some k => key_end k | None => Ok (pos_plus (snd (ah_l_pars h)) 1) end
  end.
(** toml/src/parse.rs:155-172, 230-246 [Table::span], [ArrayEntry::span] *)
Definition assigns_end (l : list tassign) (h : run pos) : run pos :=
  match l with [] => h | _ => let? a := last_of l in Ok (val_end (as_val (ta_assign a))) end.
Definition kind_span (k : mkind) : run span :=
  match k with
  | MTable t => let? e := assigns_end (tb_assigns t) (theader_end (tb_header t)) in Ok (mkspan (th_l_par (tb_header t)) e)
  | MArrayEntry a => let? e := assigns_end (ae_assigns a) (aheader_end (ae_header a)) in Ok (mkspan (fst (ah_l_pars (ae_header a))) e)
  | MTop a => assign_span (ta_assign a)
  | MInl a => iassign_span a
  end.

(** ** Paths *)

(** toml/src/map.rs:374-385 [Path], [PathSegment]; innermost segment first,
    [None] is the empty list. *)
Inductive seg := SegTable (rs : list mrepr) | SegArray (i : N).
Notation path := (list seg).

(** toml/src/map.rs:486-503 [fmt_path_segment] *)
Definition plain_char (c : N) : bool :=
  ((97 <=? c) && (c <=? 122)) || ((65 <=? c) && (c <=? 90)) || ((48 <=? c) && (c <=? 57)) || (c =? 95) || (c =? 45).
Definition fmt_path_segment (text : list N) : list N :=
  match text with
  | [] => bs "''"
  | _ => if forallb plain_char text then text else bs "'" ++ fmt_str text ++ bs "'"
  end.
(** toml/src/map.rs:442-467 [fmt_path] *)
Definition seg_key (rs : list mrepr) : run (list N) :=
  let? r := first_of rs in let? i := repr_ident (r_key r) in Ok (fmt_path_segment (id_text i)).
Fixpoint fmt_path (p : path) : run (list N) :=
  match p with
  | [] => Panic
  | [SegTable rs] => seg_key rs
  | [SegArray _] => Panic
  | SegTable rs :: prev => let? b := fmt_path prev in let? k := seg_key rs in Ok (b ++ bs "." ++ k)
  | SegArray i :: prev => let? b := fmt_path prev in Ok (b ++ bs "[" ++ dec i ++ bs "]")
  end.
(** toml/src/map.rs:469-484 [joined_path] *)
Definition joined_path (p : path) (k : ident) : run (list N) :=
  match p with
  | [] => Ok (fmt_path_segment (id_text k))
  | _ => let? b := fmt_path p in Ok (b ++ bs "." ++ fmt_path_segment (id_text k))
  end.

(** toml/src/map.rs:522-536 [collect_lines] *)
Fixpoint collect_lines (p : path) (parent : N) : run (list N) :=
  match p with
  | [] => Ok []
  | SegTable rs :: prev =>
      let? r := lookup rs parent in
      let? i := repr_ident (r_key r) in
      let? ls := collect_lines prev (r_parent r) in
      Ok (p_line (id_start i) :: ls)
  | SegArray _ :: prev => collect_lines prev parent
  end.
(** [Vec::dedup] *)
Fixpoint dedup (l : list N) : list N :=
  match l with
  | x :: (y :: _) as r => if x =? y then dedup r else x :: dedup r
  | _ => l
  end.
(** toml/src/map.rs:412-421, 505-520 [context_lines] with two parents *)
Definition context_lines (p : path) (a b : N) : run (list N) :=
  match p with
  | [] => Ok []
  | _ => let? x := collect_lines p a in
         let? y := collect_lines p b in
         Ok (dedup (sort_by N.compare (x ++ y)))
  end.

(** toml/src/map.rs:1102-1113 [duplicate_key_error] *)
Definition duplicate_key_error (p : path) (orig dup : mrepr) : run terror :=
  let? ls := context_lines p (r_parent orig) (r_parent dup) in
  let? i := repr_ident (r_key dup) in
  let? t := joined_path p i in
  let? o := repr_ident (r_key orig) in
  Ok (EDuplicateKey ls t (lit_span o) (lit_span i)).

(** ** Tables *)

(** [IndexMap::get], [Entry::insert] for a vacant entry, and an occupied
    entry changed in place *)
Fixpoint tget (m : mtable) (k : list N) : option mentry :=
  match m with
  | [] => None
  | (k', e) :: r => if bytes_eqb k' k then Some e else tget r k
  end.
Definition tpush (m : mtable) (k : list N) (e : mentry) : mtable := m ++ [(k, e)].
Fixpoint tset (m : mtable) (k : list N) (e : mentry) : mtable :=
  match m with
  | [] => []
  | (k', e') :: r => if bytes_eqb k' k then (k', e) :: r else (k', e') :: tset r k e
  end.

(** toml/src/map.rs:1093-1100 [insert_repr]: the index, and the longer list *)
Definition insert_repr (rs : list mrepr) (r : mrepr) : N * list mrepr := (N.of_nat (length rs), rs ++ [r]).

(** The table an entry is extended through: its own, or that of the last
    element of an array of tables. *)
Fixpoint set_last (es : list tentry) (t : mtable) : list tentry :=
  match es with
  | [] => []
  | [e] => [mkte t (te_parent e) (te_repr e)]
  | e :: r => e :: set_last r t
  end.
Definition put_table (n : node) (t : mtable) : node :=
  match n with
  | NTable _ => NTable t
  | NTop es => NTop (set_last es t)
  | n => n
  end.

(** toml/src/map.rs:1004-1091 [get_table_to_extend].  On success: the changed
    entry, the next parent, path and table.  Otherwise the changed entry and
    the error. *)
Inductive ext_res :=
| ExtOk (e : mentry) (parent : N) (p : path) (t : mtable)
| ExtErr (e : mentry) (err : terror).

(** toml/src/map.rs:1057-1088: the loop over the representations *)
Fixpoint check_reprs (prev next : path) (all rs : list mrepr) (is_assign : bool) : run (option terror) :=
  match rs with
  | [] => Ok None
  | existing :: rest =>
      let fail (mk : list N -> list N -> span -> span -> terror) :=
        let? orig := first_of all in
        let? dupe := last_of all in
        let? ls := context_lines prev (r_parent orig) (r_parent dupe) in
        let? t := fmt_path next in
        let? sp := kind_span (r_kind orig) in
        let? i := repr_ident (r_key dupe) in
        Ok (Some (mk ls t sp (lit_span i))) in
      match r_kind existing with
      | MTable _ => if is_assign then fail ECannotExtendTableWithDottedKey else check_reprs prev next all rest is_assign
      | MArrayEntry _ => check_reprs prev next all rest is_assign
      | MTop _ | MInl _ =>
          let? l := is_last_ident (r_key existing) in
          if l then fail ECannotExtendInlineTable else check_reprs prev next all rest is_assign
      end
  end.
Definition extend_error (mk : list N -> list N -> span -> span -> terror) (prev : path) (e : mentry) (r : mrepr) : run terror :=
  let? orig := first_of (e_reprs e) in
  let? ls := context_lines prev (r_parent orig) (r_parent r) in
  let? i := repr_ident (r_key r) in
  let? t := joined_path prev i in
  let? sp := kind_span (r_kind orig) in
  Ok (mk ls t sp (lit_span i)).
Definition get_table_to_extend (prev : path) (e : mentry) (r : mrepr) : run ext_res :=
  let checked (parent : N) (rs : list mrepr) (next : path) (t : mtable) :=
    let e' := mke (e_node e) rs in
    let? err := check_reprs prev next rs rs (is_assignment (r_kind r)) in
    Ok (match err with None => ExtOk e' parent next t | Some err => ExtErr e' err end) in
  match e_node e with
  | NTable t =>
      let (parent, rs) := insert_repr (e_reprs e) r in
      checked parent rs (SegTable rs :: prev) t
  | NTop es =>
      if is_assignment (r_kind r) then
        let? err := extend_error ECannotExtendArrayWithDottedKey prev e r in
        Ok (ExtErr e err)
      else
        let (parent, rs) := insert_repr (e_reprs e) r in
        let? n := usub (N.of_nat (length es)) 1 in
        let? l := last_of es in
        checked parent rs (SegArray n :: SegTable rs :: prev) (te_table l)
  | NInline _ _ _ =>
      let? err := extend_error ECannotExtendInlineArrayAsTable prev e r in
      Ok (ExtErr e err)
  | NScalar _ =>
      let? orig := first_of (e_reprs e) in
      let? err := duplicate_key_error prev orig r in
      Ok (ExtErr e err)
  end.

(** ** Insertion *)

(** toml/src/map.rs:538-542 [InsertValue], "to be lazily mapped": a value is
    the function that maps it, and assignments the function that inserts them
    into a table.  The third case is the array entry that
    [insert_array_entry_at_path] inserts. *)
Inductive insert_value :=
| IValue (f : path -> N -> run (node * list terror))
| IAssigns (f : path -> N -> mtable -> run (mtable * list terror))
| IEntry (a : aentry) (f : path -> N -> mtable -> run (mtable * list terror)).

(** toml/src/map.rs:592-607 [map_insert_value], and, for an array entry,
    toml/src/map.rs:849-867, 956-974 *)
Definition map_insert_value (p : path) (parent : N) (v : insert_value) : run (node * list terror) :=
  match v with
  | IValue f => f p parent
  | IAssigns f => let? (m, es) := f p parent [] in Ok (NTable m, es)
  | IEntry a f => let? (m, es) := f (SegArray 0 :: p) parent [] in Ok (NTop [mkte m parent a], es)
  end.

(** toml/src/map.rs:776-792: the representations of a table that a header
    names again *)
Fixpoint super_reprs (p : path) (r : mrepr) (rs : list mrepr) : run (option terror) :=
  match rs with
  | [] => Ok None
  | x :: rest =>
      let fail := let? err := duplicate_key_error p x r in Ok (Some err) in
      match r_kind x with
      | MTable _ | MArrayEntry _ =>
          let? l := is_last_ident (r_key x) in
          if l then fail else super_reprs p r rest
      | MTop _ | MInl _ => fail
      end
  end.

(** toml/src/map.rs:739-800 [insert_node], and toml/src/map.rs:908-979
    [insert_array_entry] (the case [IEntry]).  An [Err] is reported by the
    caller (toml/src/map.rs:666-669, 733-736, 816-818, 903-905). *)
Definition insert_node (p : path) (m : mtable) (k : ident) (v : insert_value) (r : mrepr) : run (mtable * list terror) :=
  match tget m (id_text k) with
  | None =>
      let reprs := [r] in
      let? (n, es) := map_insert_value (SegTable reprs :: p) 0 v in
      Ok (tpush m (id_text k) (mke n reprs), es)
  | Some e =>
      let dup (orig : mrepr) := let? err := duplicate_key_error p orig r in Ok (m, [err]) in
      let dup_first := let? orig := first_of (e_reprs e) in dup orig in
      match v with
      | IValue _ => dup_first
      | IAssigns f =>
          match e_node e with
          | NTable t =>
              let? err := super_reprs p r (e_reprs e) in
              match err with
              | Some err => Ok (m, [err])
              | None =>
                  let (parent, rs) := insert_repr (e_reprs e) r in
                  let? (t', es) := f (SegTable rs :: p) parent t in
                  Ok (tset m (id_text k) (mke (NTable t') rs), es)
              end
          | _ => dup_first
          end
      | IEntry a f =>
          match e_node e with
          | NTop l =>
              let (parent, rs) := insert_repr (e_reprs e) r in
              let? (t', es) := f (SegArray (N.of_nat (length l)) :: SegTable rs :: p) parent [] in
              Ok (tset m (id_text k) (mke (NTop (l ++ [mkte t' parent a])) rs), es)
          | NInline _ _ _ =>
              let? err := extend_error ECannotExtendInlineArray p e r in
              Ok (m, [err])
          | _ => dup_first
          end
      end
  end.

(** toml/src/map.rs:684-713, 833-869: no entry yet for the first of [rest],
    which are the identifiers from number [i] on *)
Fixpoint new_chain (idents : list dident) (v : insert_value) (kind : mkind)
    (rest : list dident) (i : N) (p : path) (parent : N) : run (mentry * list terror) :=
  match rest with
  | [] => Panic
  | _ :: rest' =>
      let reprs := [mkrepr parent (MDotted i idents) kind] in
      match rest' with
      | [] =>
          let? (n, es) := map_insert_value (SegTable reprs :: p) 0 v in
          Ok (mke n reprs, es)
      | o2 :: _ =>
          let? (e, es) := new_chain idents v kind rest' (i + 1) (SegTable reprs :: p) 0 in
          Ok (mke (NTable (tpush [] (id_text (di_ident o2)) e)) reprs, es)
      end
  end.

(** toml/src/map.rs:675-736, 824-905: the walk along a dotted key.  The two
    loops are the same except for what is inserted. *)
Fixpoint insert_dotted (idents : list dident) (v : insert_value) (kind : mkind)
    (rest : list dident) (i : N) (p : path) (parent : N) (m : mtable) : run (mtable * list terror) :=
  match rest with
  | [] => Panic
  | o :: rest' =>
      let r := mkrepr parent (MDotted i idents) kind in
      let k := id_text (di_ident o) in
      match rest' with
      | [] => insert_node p m (di_ident o) v r
      | _ =>
          match tget m k with
          | None =>
              let? (e, es) := new_chain idents v kind rest i p parent in
              Ok (tpush m k e, es)
          | Some e =>
              let? x := get_table_to_extend p e r in
              match x with
              | ExtErr e' err => Ok (tset m k e', [err])
              | ExtOk e' next_parent next t =>
                  let? (t', es) := insert_dotted idents v kind rest' (i + 1) next next_parent t in
                  Ok (tset m k (mke (put_table (e_node e') t') (e_reprs e')), es)
              end
          end
      end
  end.

(** toml/src/map.rs:652-737 [insert_node_at_path], toml/src/map.rs:802-906
    [insert_array_entry_at_path] *)
Definition insert_node_at_path (p : path) (parent : N) (m : mtable) (k : key) (v : insert_value) (kind : mkind) : run (mtable * list terror) :=
  match k with
  | KOne i => insert_node p m i v (mkrepr parent (MOne i) kind)
  | KDotted idents => insert_dotted idents v kind idents 0 p parent m
  end.

(** toml/src/map.rs:609-650 [map_value] *)
Fixpoint map_value (v : value) (p : path) (parent : N) {struct v} : run (node * list terror) :=
  match v with
  | VTable _ l _ =>
      let? (m, es) :=
        (fix go (l : list iassign) (m : mtable) : run (mtable * list terror) :=
           match l with
           | [] => Ok (m, [])
           | a :: r =>
               let? (m, es) := insert_node_at_path p parent m (as_key (ia_assign a)) (IValue (map_value (as_val (ia_assign a)))) (MInl a) in
               let? (m, es') := go r m in
               Ok (m, es ++ es')
           end) l [] in
      Ok (NTable m, es)
  | VArray _ _ l _ =>
      let? (ns, es) :=
        (fix go (l : list avalue) (i : N) : run (list ientry * list terror) :=
           match l with
           | [] => Ok ([], [])
           | a :: r =>
               let? (n, es) := map_value (av_val a) (SegArray i :: p) parent in
               let? (ns, es') := go r (i + 1) in
               Ok (mkie n a :: ns, es ++ es')
           end) l 0 in
      Ok (NInline parent v ns, es)
  | _ => Ok (NScalar v, [])
  end.

(** toml/src/map.rs:981-1002 [insert_top_level_assignments] *)
Fixpoint insert_assigns (l : list tassign) (p : path) (parent : N) (m : mtable) : run (mtable * list terror) :=
  match l with
  | [] => Ok (m, [])
  | a :: r =>
      let? (m, es) := insert_node_at_path p parent m (as_key (ta_assign a)) (IValue (map_value (as_val (ta_assign a)))) (MTop a) in
      let? (m, es') := insert_assigns r p parent m in
      Ok (m, es ++ es')
  end.

(** toml/src/map.rs:53-55 [ROOT_PARENT] *)
Definition root_parent : N := u32_max.

(** toml/src/map.rs:544-590 [map]: one item, and all of them *)
Definition map_ast (m : mtable) (a : ast) : run (mtable * list terror) :=
  match a with
  | AAssign a => insert_node_at_path [] root_parent m (as_key (ta_assign a)) (IValue (map_value (as_val (ta_assign a)))) (MTop a)
  | ATable t =>
      match th_key (tb_header t) with
      | None => Ok (m, [])
      | Some k => insert_node_at_path [] root_parent m k (IAssigns (insert_assigns (tb_assigns t))) (MTable t)
      end
  | AArray t =>
      match ah_key (ae_header t) with
      | None => Ok (m, [])
      | Some k => insert_node_at_path [] root_parent m k (IEntry t (insert_assigns (ae_assigns t))) (MArrayEntry t)
      end
  | AComment _ => Ok (m, [])
  end.
Fixpoint map_asts (m : mtable) (l : list ast) : run (mtable * list terror) :=
  match l with
  | [] => Ok (m, [])
  | a :: r =>
      let? (m, es) := map_ast m a in
      let? (m, es') := map_asts m r in
      Ok (m, es ++ es')
  end.
Definition map_doc (l : list ast) : run (mtable * list terror) := map_asts [] l.
