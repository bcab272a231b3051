(** Specification for the map of a document: independent of MapModel's
    functions, except for its data types and for spans. *)
From Verif Require Import Base CommonModel TomlError LitModel LexModel ParseModel MapModel.

(** ** Keys of a document *)

Definition key_idents (k : key) : list ident := match k with KOne i => [i] | KDotted l => map di_ident l end.

(** [pre] followed by the first, the first two, ... of [l]. *)
Fixpoint prefixes {A} (pre l : list A) : list (list A) :=
  match l with [] => [] | x :: r => (pre ++ [x]) :: prefixes (pre ++ [x]) r end.

(** A key as it is written: the identifiers of the enclosing headers and
    assignments, from the outside in, then the key itself up to one of its
    identifiers; and the statement it belongs to. *)
Notation spelling := (list ident * mkind)%type.
Definition key_spellings (pre : list ident) (k : key) (kind : mkind) : list spelling :=
  map (fun s => (s, kind)) (prefixes pre (key_idents k)).
(** In reading order. *)
Fixpoint value_spellings (pre : list ident) (v : value) : list spelling :=
  match v with
  | VTable _ l _ =>
      flat_map (fun a => key_spellings pre (as_key (ia_assign a)) (MInl a) ++
                         value_spellings (pre ++ key_idents (as_key (ia_assign a))) (as_val (ia_assign a))) l
  | VArray _ _ l _ => flat_map (fun a => value_spellings pre (av_val a)) l
  | _ => []
  end.
Definition assign_spellings (pre : list ident) (a : tassign) : list spelling :=
  key_spellings pre (as_key (ta_assign a)) (MTop a) ++
  value_spellings (pre ++ key_idents (as_key (ta_assign a))) (as_val (ta_assign a)).
Definition ast_spellings (a : ast) : list spelling :=
  match a with
  | AAssign a => assign_spellings [] a
  | ATable t =>
      match th_key (tb_header t) with
      | Some k => key_spellings [] k (MTable t) ++ flat_map (assign_spellings (key_idents k)) (tb_assigns t)
      | None => []
      end
  | AArray t =>
      match ah_key (ae_header t) with
      | Some k => key_spellings [] k (MArrayEntry t) ++ flat_map (assign_spellings (key_idents k)) (ae_assigns t)
      | None => []
      end
  | AComment _ => []
  end.
Definition doc_spellings (l : list ast) : list spelling := flat_map ast_spellings l.

(** A dotted key has an identifier. *)
Definition key_real (k : key) : Prop := key_idents k <> [].
Definition All {A} (P : A -> Prop) : list A -> Prop :=
  fix all (l : list A) : Prop := match l with [] => True | x :: r => P x /\ all r end.
Fixpoint value_real (v : value) : Prop :=
  match v with
  | VTable _ l _ => All (fun a => key_real (as_key (ia_assign a)) /\ value_real (as_val (ia_assign a))) l
  | VArray _ _ l _ => All (fun a => value_real (av_val a)) l
  | _ => True
  end.
Definition tassign_real (a : tassign) : Prop := key_real (as_key (ta_assign a)) /\ value_real (as_val (ta_assign a)).
Definition hkey_real (k : option key) : Prop := match k with Some k => key_real k | None => True end.
Definition ast_real (a : ast) : Prop :=
  match a with
  | AAssign a => tassign_real a
  | ATable t => hkey_real (th_key (tb_header t)) /\ Forall tassign_real (tb_assigns t)
  | AArray t => hkey_real (ah_key (ae_header t)) /\ Forall tassign_real (ae_assigns t)
  | AComment _ => True
  end.

(** ** Places in the map *)

(** A key of a table, or an index of an array. *)
Inductive step := SKey (k : list N) | SIdx (i : N).
Definition keys_of (p : list step) : list (list N) := flat_map (fun s => match s with SKey k => [k] | SIdx _ => [] end) p.

(** How a place is shown in a message. *)
Definition bare (k : list N) : Prop :=
  k <> [] /\ Forall (fun c => 97 <= c <= 122 \/ 65 <= c <= 90 \/ 48 <= c <= 57 \/ c = 95 \/ c = 45) k.
Inductive shown_key : list N -> list N -> Prop :=
| sk_bare k : bare k -> shown_key k k
| sk_quoted k : ~ bare k -> shown_key k (bs "'" ++ fmt_str k ++ bs "'").
Inductive shown : list step -> list N -> Prop :=
| sh_first k t : shown_key k t -> shown [SKey k] t
| sh_key p b k t : shown p b -> shown_key k t -> shown (p ++ [SKey k]) (b ++ bs "." ++ t)
| sh_idx p b i : shown p b -> shown (p ++ [SIdx i]) (b ++ bs "[" ++ dec i ++ bs "]").

(** ** Messages *)
Definition before {A} (l : list A) (x y : A) : Prop := exists a b c, l = a ++ x :: b ++ y :: c.
Definition line_of (i : ident) : N := p_line (id_start i).
Fixpoint increasing (l : list N) : Prop :=
  match l with x :: (y :: _) as r => x < y /\ increasing r | _ => True end.
(** The lines of [a] and [b], in order and once each. *)
Definition lines_ok (a b : list ident) (ls : list N) : Prop :=
  increasing ls /\ forall n, In n ls <-> exists i, In i (a ++ b) /\ line_of i = n.

(** A key that is given a value: the whole key of an assignment. *)
Inductive gives : spelling -> value -> Prop :=
| gives_top pre a : gives (pre ++ key_idents (as_key (ta_assign a)), MTop a) (as_val (ta_assign a))
| gives_inline pre a : gives (pre ++ key_idents (as_key (ia_assign a)), MInl a) (as_val (ia_assign a)).
Definition table_value (v : value) : Prop := match v with VTable _ _ _ => True | _ => False end.
Definition array_value (v : value) : Prop := match v with VArray _ _ _ _ => True | _ => False end.
Definition assignment (k : mkind) : Prop := match k with MTop _ | MInl _ => True | _ => False end.
(** The whole key of an array header. *)
Definition array_header (x : spelling) : Prop := exists a k, ah_key (ae_header a) = Some k /\ x = (key_idents k, MArrayEntry a).

(** Why the key [new] cannot extend what the earlier key [x] for the same
    place stands for: an inline table, an inline array (named by the header of
    an array, or as a table), a table of a header or an array of headers
    (named by the dotted key of an assignment). *)
Definition reason (e : terror) (new x : spelling) : Prop :=
  match e with
  | EDuplicateKey _ _ _ _ => True
  | ECannotExtendInlineTable _ _ _ _ => exists v, gives x v /\ table_value v
  | ECannotExtendInlineArray _ _ _ _ => (exists v, gives x v /\ array_value v) /\ array_header new
  | ECannotExtendInlineArrayAsTable _ _ _ _ => exists v, gives x v /\ array_value v
  | ECannotExtendTableWithDottedKey _ _ _ _ => (exists t, snd x = MTable t) /\ assignment (snd new)
  | ECannotExtendArrayWithDottedKey _ _ _ _ => array_header x /\ assignment (snd new)
  | _ => False
  end.
(** A message names the place that two keys of the document spell, the first
    of them earlier; it lists the lines of the keys that enclose them, and
    points at the later key and at the earlier key or its statement.  It is
    right about the reason, which is an earlier key, too. *)
Definition map_err_ok (d : list spelling) (e : terror) : Prop :=
  exists place pre1 i1 kind1 pre2 i2 kind2 x,
    before d (pre1 ++ [i1], kind1) (pre2 ++ [i2], kind2) /\
    map id_text (pre1 ++ [i1]) = keys_of place /\ map id_text (pre2 ++ [i2]) = keys_of place /\
    (before d x (pre2 ++ [i2], kind2) /\ map id_text (fst x) = keys_of place /\ reason e (pre2 ++ [i2], kind2) x) /\
    let ok (ls t : list N) (new : span) := lines_ok pre1 pre2 ls /\ shown place t /\ new = lit_span i2 in
    match e with
    | EDuplicateKey ls t orig new => ok ls t new /\ orig = lit_span i1
    | ECannotExtendInlineTable ls t orig new | ECannotExtendInlineArray ls t orig new
    | ECannotExtendInlineArrayAsTable ls t orig new | ECannotExtendTableWithDottedKey ls t orig new
    | ECannotExtendArrayWithDottedKey ls t orig new => ok ls t new /\ kind_span kind1 = Ok orig
    | _ => False
    end.

(** ** References to the document *)

(** The key that representation number [n] of [rs] is, given the keys its
    parent may be ([None] for the root, that has none). *)
Definition chains : Type := N -> option (list ident * option mkind).
Definition root_chains : chains := fun _ => Some ([], None).
Definition next (c : chains) (rs : list mrepr) : chains := fun n =>
  match nth_error rs (N.to_nat n) with
  | Some r =>
      match c (r_parent r), repr_ident (r_key r) with
      | Some (s, _), Ok i => Some (s ++ [i], Some (r_kind r))
      | _, _ => None
      end
  | None => None
  end.

(** The definitions on the way to a place, innermost first, and what is
    there. *)
Fixpoint trail (acc : list (list mrepr)) (p : list step) (n : node) : option (list (list mrepr) * node) :=
  match p, n with
  | [], _ => Some (acc, n)
  | SKey k :: r, NTable t => match tget t k with Some e => trail (e_reprs e :: acc) r (e_node e) | None => None end
  | SIdx i :: r, NTop es => match nth_error es (N.to_nat i) with Some e => trail acc r (NTable (te_table e)) | None => None end
  | SIdx i :: r, NInline _ _ es => match nth_error es (N.to_nat i) with Some e => trail acc r (ie_node e) | None => None end
  | _, _ => None
  end.
(** Definition number [n] of the innermost key, with its parents: the
    identifiers of the key, from the outside in. *)
Inductive traced : list (list mrepr) -> N -> list ident -> Prop :=
| tr_root n : traced [] n []
| tr_key rs rest n r i s : nth_error rs (N.to_nat n) = Some r -> repr_ident (r_key r) = Ok i -> traced rest (r_parent r) s ->
    traced (rs :: rest) n (s ++ [i]).
(** Every reference on the trail to [p] leads to a key that the document
    spells like [p]. *)
Definition refs_ok (d : list spelling) (p : list step) (acc : list (list mrepr)) (x : node) : Prop :=
  match acc with
  | [] => True
  | rs :: _ => rs <> [] /\ forall n r, nth_error rs (N.to_nat n) = Some r ->
      exists s, traced acc n s /\ map id_text s = keys_of p /\ In (s, r_kind r) d
  end /\
  match x with
  | NTop es => forall e, In e es -> exists k, ah_key (ae_header (te_repr e)) = Some k /\ traced acc (te_parent e) (key_idents k)
  | NInline parent _ _ => exists s, traced acc parent s
  | _ => True
  end.

(** ** What a document declares *)

(** What a key is at a place: an outer key of a dotted one (in a header, an
    array header or an assignment), the table a header opens, the array an
    array header extends, the element it adds, or a value. *)
Inductive via := ByTable | ByArray | ByAssign.
Inductive role := RSuper (h : via) | RHeader | RArray | RElem | RValue (v : value).
Notation decl := (list step * role)%type.

(** The declarations of an assignment and of a value at [p]. *)
Fixpoint key_decls (p : list step) (ks : list (list N)) (value : list step -> list decl) : list decl :=
  match ks with
  | [] => []
  | [k] => value (p ++ [SKey k])
  | k :: r => (p ++ [SKey k], RSuper ByAssign) :: key_decls (p ++ [SKey k]) r value
  end.
Definition key_texts (k : key) : list (list N) := map id_text (key_idents k).
Fixpoint value_decls (v : value) (p : list step) : list decl :=
  (p, RValue v) ::
  match v with
  | VTable _ l _ =>
      flat_map (fun a => key_decls p (key_texts (as_key (ia_assign a))) (value_decls (as_val (ia_assign a)))) l
  | VArray _ _ l _ =>
      (fix go (l : list avalue) (i : N) : list decl :=
         match l with
         | [] => []
         | a :: r => value_decls (av_val a) (p ++ [SIdx i]) ++ go r (i + 1)
         end) l 0
  | _ => []
  end.
Definition assign_decls (p : list step) (a : tassign) : list decl :=
  key_decls p (key_texts (as_key (ta_assign a))) (value_decls (as_val (ta_assign a))).

(** A header goes through an array of tables by its latest element: [d] has
    what was declared before. *)
Definition step_eq_dec (a b : step) : {a = b} + {a <> b}.
Proof. decide equality; [apply (list_eq_dec N.eq_dec)|apply N.eq_dec]. Defined.
Definition is_array (r : role) : bool := match r with RArray => true | _ => false end.
Definition arrays_at (d : list decl) (p : list step) : N :=
  N.of_nat (length (filter (fun x => is_array (snd x) && (if list_eq_dec step_eq_dec (fst x) p then true else false)) d)).
Definition enter (d : list decl) (p : list step) : list step :=
  if arrays_at d p =? 0 then p else p ++ [SIdx (arrays_at d p - 1)].
Fixpoint through (d : list decl) (p : list step) (ks : list (list N)) : list step :=
  match ks with [] => p | k :: r => through d (enter d (p ++ [SKey k])) r end.
Fixpoint supers (d : list decl) (h : via) (p : list step) (ks : list (list N)) : list decl :=
  match ks with
  | [] => []
  | k :: r =>
      let q := p ++ [SKey k] in
      (if arrays_at d q =? 0 then [(q, RSuper h)] else []) ++ supers d h (enter d q) r
  end.
Definition ast_decls (d : list decl) (a : ast) : list decl :=
  match a with
  | AAssign a => assign_decls [] a
  | ATable t =>
      match th_key (tb_header t) with
      | Some k =>
          let ks := key_texts k in
          let p := through d [] (removelast ks) ++ [SKey (last ks [])] in
          supers d ByTable [] (removelast ks) ++ (p, RHeader) :: flat_map (assign_decls p) (tb_assigns t)
      | None => []
      end
  | AArray t =>
      match ah_key (ae_header t) with
      | Some k =>
          let ks := key_texts k in
          let p := through d [] (removelast ks) ++ [SKey (last ks [])] in
          let e := p ++ [SIdx (arrays_at d p)] in
          supers d ByArray [] (removelast ks) ++ (p, RArray) :: (e, RElem) :: flat_map (assign_decls e) (ae_assigns t)
      | None => []
      end
  | AComment _ => []
  end.
Fixpoint decls_from (d : list decl) (l : list ast) : list decl :=
  match l with [] => d | a :: r => decls_from (d ++ ast_decls d a) r end.
Definition doc_decls (l : list ast) : list decl := decls_from [] l.

(** Whether a place declared as [a] may not be declared as [b] later. *)
Definition clash (a b : role) : bool :=
  match a, b with
  (* a value is final, and cannot replace anything *)
  | RValue _, _ | _, RValue _ => true
  (* a table is opened once, and not after dotted keys of assignments made it *)
  | RSuper ByTable, RHeader | RSuper ByArray, RHeader => false
  | _, RHeader => true
  (* an array of tables is only extended *)
  | RArray, RArray => false
  | _, RArray => true
  (* dotted keys of assignments do not extend what a header made, nor arrays *)
  | RSuper ByTable, RSuper ByAssign | RHeader, RSuper ByAssign | RArray, RSuper ByAssign => true
  | _, _ => false
  end.
Definition valid (d : list decl) : Prop :=
  forall x y, before d x y -> fst x = fst y -> clash (snd x) (snd y) = false.

(** ** What a map holds *)
Fixpoint node_at (p : list step) (n : node) : option node :=
  match p, n with
  | [], _ => Some n
  | SKey k :: r, NTable t => match tget t k with Some e => node_at r (e_node e) | None => None end
  | SIdx i :: r, NTop es => match nth_error es (N.to_nat i) with Some e => node_at r (NTable (te_table e)) | None => None end
  | SIdx i :: r, NInline _ _ es => match nth_error es (N.to_nat i) with Some e => node_at r (ie_node e) | None => None end
  | _, _ => None
  end.
(** A table and its keys in order, an array and its length, or a scalar. *)
Inductive content := CTable (keys : list (list N)) | CArray (n : N) | CScalar (v : value).
Definition content_of (n : node) : content :=
  match n with
  | NTable t => CTable (map fst t)
  | NTop es => CArray (N.of_nat (length es))
  | NInline _ _ es => CArray (N.of_nat (length es))
  | NScalar v => CScalar v
  end.
Definition is_scalar_val (v : value) : Prop := match v with VTable _ _ _ | VArray _ _ _ _ => False | _ => True end.

(** The keys declared right below [p], by first declaration. *)
Inductive firsts {A} : list A -> list A -> Prop :=
| fi_nil : firsts [] []
| fi_new l u x : firsts l u -> ~ In x u -> firsts (l ++ [x]) (u ++ [x])
| fi_old l u x : firsts l u -> In x u -> firsts (l ++ [x]) u.
Inductive keys_below (p : list step) : list decl -> list (list N) -> Prop :=
| kb_nil : keys_below p [] []
| kb_key k r d l : keys_below p d l -> keys_below p ((p ++ [SKey k], r) :: d) (k :: l)
| kb_skip q r d l : (forall k, q <> p ++ [SKey k]) -> keys_below p d l -> keys_below p ((q, r) :: d) l.

(** What [d] declares at a place. *)
Inductive declared (d : list decl) (p : list step) : content -> Prop :=
| dc_table l ks : (p = [] \/ exists r, In (p, r) d /\ match r with RSuper _ | RHeader | RElem | RValue (VTable _ _ _) => True | _ => False end) ->
    keys_below p d l -> firsts l ks -> declared d p (CTable ks)
| dc_tables : In (p, RArray) d -> declared d p (CArray (arrays_at d p))
| dc_array c lp l e : In (p, RValue (VArray c lp l e)) d -> declared d p (CArray (N.of_nat (length l)))
| dc_scalar v : In (p, RValue v) d -> is_scalar_val v -> declared d p (CScalar v).

(** ** Growth *)

(** What is at a place stays there: a scalar or an inline array is the same, a
    table keeps its keys, in order, and the definitions of each key, and an
    array of tables keeps its elements. *)
Definition keeps (x y : node) : Prop :=
  match x, y with
  | NTable t, NTable t' =>
      (exists more, map fst t' = map fst t ++ more) /\
      forall k e, tget t k = Some e -> exists e' more, tget t' k = Some e' /\ e_reprs e' = e_reprs e ++ more
  | NTop es, NTop es' => exists more, map te_repr es' = map te_repr es ++ more
  | NInline _ v _, NInline _ w _ | NScalar v, NScalar w => v = w
  | _, _ => False
  end.
Definition grows (n n' : node) : Prop :=
  forall p x, node_at p n = Some x -> exists y, node_at p n' = Some y /\ keeps x y.
