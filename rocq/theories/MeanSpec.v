(** What a TOML document says, as one value (C64).  [ParseSpec.toml_doc] gives
    the statements of a document; here is what they amount to: which places
    they declare and how, which declarations conflict, and what is at each
    place.  Of the models only the type of printed values is used. *)
From Verif Require Import Base LitModel LitSpec ParseSpec MapSpec CliModel.

(** ** Declarations *)

(** What a key is at a place: an outer key of a dotted one (in a header, an
    array header or an assignment), the table a header opens, the array an
    array header extends, the element it adds, or a value. *)
Inductive part := PSuper (h : via) | PHeader | PArray | PElem | PValue (v : tval).
Notation said := (list step * part)%type.

(** Keys in dotted keys, and the value behind them. *)
Fixpoint said_key (p : list step) (ks : list (list N)) (value : list step -> list said) : list said :=
  match ks with
  | [] => []
  | [k] => value (p ++ [SKey k])
  | k :: r => (p ++ [SKey k], PSuper ByAssign) :: said_key (p ++ [SKey k]) r value
  end.
Fixpoint said_value (v : tval) (p : list step) : list said :=
  (p, PValue v) ::
  match v with
  | TvTab l => flat_map (fun kv => said_key p (fst kv) (said_value (snd kv))) l
  | TvArr l =>
      (fix go (l : list tval) (i : N) : list said :=
         match l with
         | [] => []
         | x :: r => said_value x (p ++ [SIdx i]) ++ go r (i + 1)
         end) l 0
  | _ => []
  end.

(** A header goes through an array of tables by its latest element: [d] has
    what was declared before. *)
Definition adds_table (r : part) : bool := match r with PArray => true | _ => false end.
Definition tables_at (d : list said) (p : list step) : N :=
  N.of_nat (length (filter (fun x => adds_table (snd x) && (if list_eq_dec step_eq_dec (fst x) p then true else false)) d)).
Definition latest (d : list said) (p : list step) : list step :=
  if tables_at d p =? 0 then p else p ++ [SIdx (tables_at d p - 1)].
Fixpoint go_through (d : list said) (p : list step) (ks : list (list N)) : list step :=
  match ks with [] => p | k :: r => go_through d (latest d (p ++ [SKey k])) r end.
Fixpoint outer_keys (d : list said) (h : via) (p : list step) (ks : list (list N)) : list said :=
  match ks with
  | [] => []
  | k :: r =>
      let q := p ++ [SKey k] in
      (if tables_at d q =? 0 then [(q, PSuper h)] else []) ++ outer_keys d h (latest d q) r
  end.
(** The statements in order; [cur] is the table that the last header opened. *)
Fixpoint said_from (d : list said) (cur : list step) (l : list stmt) : list said :=
  match l with
  | [] => d
  | SAssign k v :: r => said_from (d ++ said_key cur k (said_value v)) cur r
  | ParseSpec.STable ks :: r =>
      let p := go_through d [] (removelast ks) ++ [SKey (last ks [])] in
      said_from (d ++ outer_keys d ByTable [] (removelast ks) ++ [(p, PHeader)]) p r
  | ParseSpec.SArray ks :: r =>
      let p := go_through d [] (removelast ks) ++ [SKey (last ks [])] in
      let e := p ++ [SIdx (tables_at d p)] in
      said_from (d ++ outer_keys d ByArray [] (removelast ks) ++ [(p, PArray); (e, PElem)]) e r
  end.
Definition said_by (l : list stmt) : list said := said_from [] [] l.

(** ** Conflicts *)

(** Whether a place declared as [a] may not be declared as [b] later. *)
Definition conflict (a b : part) : bool :=
  match a, b with
  (* a value is final, and cannot replace anything *)
  | PValue _, _ | _, PValue _ => true
  (* a table is opened once, and not after dotted keys of assignments made it *)
  | PSuper ByTable, PHeader | PSuper ByArray, PHeader => false
  | _, PHeader => true
  (* an array of tables is only extended *)
  | PArray, PArray => false
  | _, PArray => true
  (* dotted keys of assignments do not extend what a header made, nor arrays *)
  | PSuper ByTable, PSuper ByAssign | PHeader, PSuper ByAssign | PArray, PSuper ByAssign => true
  | _, _ => false
  end.
Definition consistent (l : list stmt) : Prop :=
  forall x y, before (said_by l) x y -> fst x = fst y -> conflict (snd x) (snd y) = false.

(** ** Contents *)

Inductive holding := HTable (keys : list (list N)) | HArray (n : N) | HScalar (v : tval).
Definition scalar_tval (v : tval) : Prop := match v with TvTab _ | TvArr _ => False | _ => True end.
Inductive said_below (p : list step) : list said -> list (list N) -> Prop :=
| sb_nil : said_below p [] []
| sb_key k r d l : said_below p d l -> said_below p ((p ++ [SKey k], r) :: d) (k :: l)
| sb_skip q r d l : (forall k, q <> p ++ [SKey k]) -> said_below p d l -> said_below p ((q, r) :: d) l.
(** What is declared at a place: a table, its keys by first declaration; an
    array and its length; or a scalar. *)
Inductive holds_at (d : list said) (p : list step) : holding -> Prop :=
| ha_table l ks : (p = [] \/ exists r, In (p, r) d /\ match r with PSuper _ | PHeader | PElem | PValue (TvTab _) => True | _ => False end) ->
    said_below p d l -> firsts l ks -> holds_at d p (HTable ks)
| ha_tables : In (p, PArray) d -> holds_at d p (HArray (tables_at d p))
| ha_array l : In (p, PValue (TvArr l)) d -> holds_at d p (HArray (N.of_nat (length l)))
| ha_scalar v : In (p, PValue v) d -> scalar_tval v -> holds_at d p (HScalar v).

(** A printed value, place by place. *)
Fixpoint sget (t : list (list N * sval)) (k : list N) : option sval :=
  match t with [] => None | (k', v) :: r => if list_eq_dec N.eq_dec k' k then Some v else sget r k end.
Fixpoint sval_at (p : list step) (v : sval) : option sval :=
  match p with
  | [] => Some v
  | SKey k :: r => match v with STable t => match sget t k with Some x => sval_at r x | None => None end | _ => None end
  | SIdx i :: r => match v with SArray l => match nth_error l (N.to_nat i) with Some x => sval_at r x | None => None end | _ => None end
  end.
Definition holding_of (v : sval) : option holding :=
  match v with
  | STable t => Some (HTable (map fst t))
  | SArray l => Some (HArray (N.of_nat (length l)))
  | SString s => Some (HScalar (TvStr s))
  | SInt z => Some (HScalar (TvInt z))
  | SFloat f => Some (HScalar (TvFloat f))
  | SBool b => Some (HScalar (TvBool b))
  | SDateTime d => Some (HScalar (TvDate d))
  | SInvalid _ => None
  end.
(** The value that a document says: at every place what is declared there, and
    nothing anywhere else. *)
Definition means (l : list stmt) (v : sval) : Prop :=
  forall p, match sval_at p v with
            | Some x => exists h, holding_of x = Some h /\ holds_at (said_by l) p h
            | None => forall h, ~ holds_at (said_by l) p h
            end.
