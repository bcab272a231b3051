(** Model of crates/cli/src/main.rs (the part after reading the file) and of
    the conversion [map_simple] of crates/toml/src/util.rs.

    The arguments, reading the file and the measured times are not modelled:
    [ctoml] gives the value that is printed ([DebugModel]: its text), and the
    texts of the messages in the order they are printed. *)
From Verif Require Import Base CommonModel TomlError LitModel LexModel ParseModel MapModel IdeModel DisplayModel DiagModel.
From Verif Require SemverModel.

(** toml/src/util.rs:76-85 [SimpleVal]; a map is an association list in
    insertion order. *)
Inductive sval :=
| STable (t : list (list N * sval))
| SArray (l : list sval)
| SString (s : list N)
| SInt (z : Z)
| SFloat (f : fval)
| SBool (b : bool)
| SDateTime (d : datetime)
| SInvalid (s : list N).

(** [IndexMap::insert]: an existing key keeps its place. *)
Fixpoint sinsert (t : list (list N * sval)) (k : list N) (v : sval) : list (list N * sval) :=
  match t with
  | [] => [(k, v)]
  | (k', v') :: r => if bytes_eqb k' k then (k', v) :: r else (k', v') :: sinsert r k v
  end.
(** [IndexMap::from_iter] *)
Definition from_iter (l : list (list N * sval)) : list (list N * sval) :=
  fold_left (fun t kv => sinsert t (fst kv) (snd kv)) l [].

(** toml/src/util.rs:120-127 the scalars *)
Definition simple_scalar (v : value) : sval :=
  match v with
  | VString _ _ text _ _ => SString text
  | VInt _ _ z => SInt z
  | VFloat _ _ f => SFloat f
  | VBool _ b => SBool b
  | VDateTime _ _ d => SDateTime d
  | VInvalid lit _ => SInvalid (sr_text lit)
  | VTable _ _ _ | VArray _ _ _ _ => SInvalid [] (* not scalars *)
  end.
(** toml/src/util.rs:109-129 [map_simple_val], and 102-107 [map_simple]
    (inlined where it recurs) *)
Fixpoint map_simple_val (n : node) : sval :=
  match n with
  | NTable t => STable (from_iter (map (fun ke => (fst ke, map_simple_val (e_node (snd ke)))) t))
  | NTop es => SArray (map (fun e => STable (from_iter (map (fun ke => (fst ke, map_simple_val (e_node (snd ke)))) (te_table e)))) es)
  | NInline _ _ es => SArray (map (fun e => map_simple_val (ie_node e)) es)
  | NScalar v => simple_scalar v
  end.
Definition map_simple (t : mtable) : list (list N * sval) :=
  from_iter (map (fun ke => (fst ke, map_simple_val (e_node (snd ke)))) t).

(** cli/src/main.rs:10-16 [Mode] *)
Inductive mode := Validate | Check.

Section Cli.
  Context (width : list N -> N) (prof : profile).

  (** cli/src/main.rs:85-99: the loops that display and print *)
  Fixpoint show_all (text : list (list N)) (ds : list ddiag) : run (list (list N)) :=
    match ds with
    | [] => Ok []
    | d :: r => let? m := display width d text in
                let? ms := show_all text r in
                Ok ((m ++ [10]) :: ms)
    end.

  (** cli/src/main.rs:63-99: everything between reading the file and the
      report of the times.  No diagnostic is an info. *)
  Definition ctoml (mode : mode) (text : list N) : run (list (list N * sval) * list (list N)) :=
    let ls := lines text in
    let? (a, es) := lex_and_parse text in
    let? (m, es') := map_doc (as_asts a) in
    let? ds := match mode with
               | Validate => Ok []
               | Check => let? (_, ds) := check prof m in Ok ds
               end in
    let simple := map_simple m in
    let all := mkdiags (map toml_diag (es ++ es') ++ map ide_diag (errors_of ds)) (map ide_diag (warnings_of ds)) ([] : list ddiag) in
    let all := sort_diagnostics g_span g_span g_span all in
    let? me := show_all ls (d_errors all) in
    let? mw := show_all ls (d_warnings all) in
    let? mi := show_all ls (d_infos all) in
    Ok (simple, me ++ mw ++ mi).
End Cli.
