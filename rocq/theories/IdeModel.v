(** Model of crates/ide/src/check.rs, cargo.rs and toml/src/util.rs:4-57.

    Simplifications:
    - a reference into the map is the referenced piece of the map;
    - the diagnostics of a run are one list in the order they are reported
      ([Diagnostics] keeps errors and warnings apart, common/src/lib.rs:45-60);
      [errors_of] and [warnings_of] are the two lists;
    - a [FmtStr] is its characters;
    - dependencies are returned instead of pushed to [State::dependencies].
    Keys of tables are unicode scalar values, requirement texts are encoded to
    bytes for the semver model. *)
From Verif Require Import Base CommonModel TomlError LitModel LexModel ParseModel MapModel.
From Verif Require SemverModel.

(** toml/src/util.rs:4-14 [Datatype] *)
Inductive datatype := DtTable | DtArray | DtString | DtInt | DtFloat | DtBool | DtDateTime | DtInvalid.
(** toml/src/util.rs:37-57 [MapNode::datatype], [Scalar::datatype].  A scalar
    node never holds a table or an array (see [C36_contents]). *)
Definition datatype_of (n : node) : datatype :=
  match n with
  | NTable _ => DtTable
  | NTop _ | NInline _ _ _ => DtArray
  | NScalar v =>
      match v with
      | VString _ _ _ _ _ => DtString
      | VInt _ _ _ => DtInt
      | VFloat _ _ _ => DtFloat
      | VBool _ _ => DtBool
      | VDateTime _ _ _ => DtDateTime
      | VTable _ _ _ => DtTable
      | VArray _ _ _ _ => DtArray
      | VInvalid _ _ => DtInvalid
      end
  end.

(** ide/src/cargo.rs:44-61 [ErrorKind] (the variants that are used) *)
Inductive ekind :=
| WrongDatatype (expected found : datatype)
| DepWrongDatatype (found : datatype)
| DepWorkspaceIsFalse
| AmbigousDepSpecGitRegistry
| AmbigousGitSpec
| DepIgnoredGitKey (key : list N).
(** ide/src/cargo.rs:135-152 [WarningKind] *)
Inductive wkind :=
| DeprecatedUnderscore (old new : list N)
| RedundantDeprecatedUnderscore (old new : list N) (new_span : span)
| MissingDepSpec
| WorkspaceDepIgnoredKey (workspace_span : span)
| IgnoredUnknownKey.
(** ide/src/cargo.rs:25-41, 116-132 [Error], [Warning]; ide/src/error.rs:6-11:
    an error of the semver parser. *)
Inductive diag :=
| DError (lines : list N) (path : list N) (sp : span) (k : ekind)
| DWarn (lines : list N) (path : list N) (sp : span) (k : wkind)
| DSemver (e : SemverModel.error).
Definition is_warning (d : diag) : bool := match d with DWarn _ _ _ _ => true | _ => false end.
Definition errors_of (l : list diag) : list diag := filter (fun d => negb (is_warning d)) l.
Definition warnings_of (l : list diag) : list diag := filter is_warning l.

(** A run that reports. *)
Notation W A := (run (A * list diag)).
Definition wbind {A B} (m : W A) (f : A -> W B) : W B :=
  let? (a, d) := m in let? (b, d') := f a in Ok (b, d ++ d').
Notation "'let!' x ':=' m 'in' k" := (wbind m (fun x => k)) (at level 200, x pattern, m at level 100, k at level 200).
Definition wret {A} (a : A) : W A := Ok (a, []).
Definition say (d : run diag) : W unit := let? d := d in Ok (tt, [d]).
(** [for] loops *)
Fixpoint each {A B} (f : A -> W B) (l : list A) : W (list B) :=
  match l with
  | [] => wret []
  | x :: r => let! y := f x in let! ys := each f r in wret (y :: ys)
  end.
Fixpoint enumerate {A} (i : N) (l : list A) : list (N * A) :=
  match l with [] => [] | x :: r => (i, x) :: enumerate (i + 1) r end.

(** A key compared with a literal *)
Definition key_is (k : list N) (s : string) : bool := bytes_eqb k (bs s).

(** ** Values (check.rs:18-159) *)

(** toml/src/parse.rs:519-526, 561-564 [StringVal], [BoolVal] *)
Record strval := mksv { sv_lit : sref; sv_span : span; sv_text : list N; sv_off : text_offset; sv_quote : quote }.
Record boolval := mkbv { bv_span : span; bv_val : bool }.
(** toml/src/parse.rs:528-532 [StringVal::text_span] *)
Definition text_span (s : strval) : run span := apply_to (sv_off s) (sv_span s).
(** check.rs:128-158 [StringAssignment], [BoolAssignment] *)
Record strassign := mksa { sa_repr : mrepr; sa_val : strval }.
Record boolassign := mkba { ba_repr : mrepr; ba_val : boolval }.
(** check.rs:103-107 [DependencyVersion] *)
Record depversion := mkdv { dv_str : strassign; dv_req : option SemverModel.version_req }.
(** check.rs:109-119 [DependencyGitSpec] *)
Inductive gitspec := GBranch (s : strassign) | GTag (s : strassign) | GRev (s : strassign) | GConflicting | GNone.
(** check.rs:66-101 [DependencySpec] *)
Inductive depspec :=
| SWorkspace (w : boolassign)
| SGit (repo : strassign) (spec : gitspec) (version : option depversion)
| SPath (path : strassign) (version : option depversion) (registry : option strassign)
| SRegistry (version : depversion) (registry : option strassign)
| SConflicting
| SInvalid
| SMissing (registry : option strassign).
(** check.rs:121-125 [DependencyFeatures] *)
Record depfeatures := mkdf { df_default : option boolassign; df_list : list strval }.
(** check.rs:59-64 [DependencyKind] *)
Inductive depkind := Normal | Dev | Build.
(** check.rs:18-49 [Dependency] *)
Record dependency := mkdep {
  dp_name : list N; dp_package : option strassign; dp_kind : depkind; dp_target : option (list N);
  dp_spec : depspec; dp_features : depfeatures; dp_optional : option boolassign; dp_entry : mentry }.
(** check.rs:51-57 [Dependency::package] *)
Definition package_name (d : dependency) : list N :=
  match dp_package d with Some p => sv_text (sa_val p) | None => dp_name d end.

(** toml/src/map.rs:137-140 [repr_span] *)
Definition repr_span (r : mrepr) : run span :=
  let? i := repr_ident (r_key r) in
  let? s := kind_span (r_kind r) in
  Ok (mkspan (id_start i) (s_end s)).
(** toml/src/map.rs:412-421, 505-520 [context_lines] with one parent *)
Definition context_line (p : path) (parent : N) : run (list N) :=
  match p with
  | [] => Ok []
  | _ => let? ls := collect_lines p parent in Ok (dedup (sort_by N.compare ls))
  end.

(** [cargo::Error::new], [cargo::Warning::new] *)
Definition report (mk : list N -> list N -> span -> diag) (lines text : run (list N)) (sp : run span) : run diag :=
  let? l := lines in let? t := text in let? s := sp in Ok (mk l t s).
Definition error_ (k : ekind) := report (fun l t s => DError l t s k).
Definition warn_ (k : wkind) := report (fun l t s => DWarn l t s k).

(** check.rs:804-819 [wrong_datatype] *)
Definition wrong_datatype (p : path) (n : node) (expected : datatype) (r : mrepr) : run diag :=
  error_ (WrongDatatype expected (datatype_of n)) (context_line (tl p) (r_parent r)) (fmt_path p) (repr_span r).
Definition is_invalid (n : node) : bool := match n with NScalar (VInvalid _ _) => true | _ => false end.
Definition as_table (n : node) : option mtable := match n with NTable t => Some t | _ => None end.
Definition as_array (n : node) : option node := match n with NTop _ | NInline _ _ _ => Some n | _ => None end.
Definition as_string (n : node) : option strval :=
  match n with NScalar (VString l sp t o q) => Some (mksv l sp t o q) | _ => None end.
Definition as_bool (n : node) : option boolval :=
  match n with NScalar (VBool sp b) => Some (mkbv sp b) | _ => None end.
(** check.rs:660-711, 738-756 [expect_table_in_table], [expect_array_in_table],
    [expect_string_in_table], [expect_bool_in_table]: the common part *)
Definition expect {A} (want : datatype) (get : node -> option A) (p : path) (e : mentry) : W (option A) :=
  match get (e_node e) with
  | Some a => wret (Some a)
  | None =>
      if is_invalid (e_node e) then wret None
      else let! _ := each (fun r => say (wrong_datatype p (e_node e) want r)) (e_reprs e) in wret None
  end.
Definition expect_table := expect DtTable as_table.
Definition expect_array := expect DtArray as_array.
Definition expect_string (p : path) (e : mentry) : W (option strassign) :=
  let! o := expect DtString as_string p e in
  match o with
  | Some v => let? r := first_of (e_reprs e) in wret (Some (mksa r v))
  | None => wret None
  end.
Definition expect_bool (p : path) (e : mentry) : W (option boolassign) :=
  let! o := expect DtBool as_bool p e in
  match o with
  | Some v => let? r := first_of (e_reprs e) in wret (Some (mkba r v))
  | None => wret None
  end.
(** toml/src/parse.rs:703-720 [InlineArrayValue::span] *)
Definition av_span (a : avalue) : span := mkspan (val_start (av_val a)) (av_end a).
(** check.rs:714-736 [expect_string_in_array] *)
Definition expect_string_in_array (p : path) (parent : N) (e : ientry) : W (option strval) :=
  match as_string (ie_node e) with
  | Some v => wret (Some v)
  | None =>
      if is_invalid (ie_node e) then wret None
      else let! _ := say (error_ (WrongDatatype DtString (datatype_of (ie_node e)))
                            (context_line (tl p) parent) (fmt_path p) (Ok (av_span (ie_repr e)))) in
           wret None
  end.

(** check.rs:758-767 [warn_unused] *)
Definition warn_unused (p : path) (e : mentry) : W unit :=
  let! _ := each (fun r => say (warn_ IgnoredUnknownKey (context_line (tl p) (r_parent r)) (fmt_path p) (repr_span r))) (e_reprs e) in
  wret tt.

(** check.rs:769-802 [deprecated_underscore]; [path] is the path of the
    table ([None]: empty) *)
Definition deprecated_underscore (p : path) (t : mtable) (old new : list N) (e : mentry) : W bool :=
  let? (ignored, kind) :=
    match tget t new with
    | Some n =>
        let? r := first_of (e_reprs n) in
        let? s := kind_span (r_kind r) in
        Ok (true, RedundantDeprecatedUnderscore old new s)
    | None => Ok (false, DeprecatedUnderscore old new)
    end in
  let! _ := each (fun r => say (warn_ kind (context_line p (r_parent r))
                                  (match p with [] => Ok [] | _ => fmt_path p end) (repr_span r))) (e_reprs e) in
  wret ignored.

Section Check.
Context (prof : profile).

(** check.rs:609-623 [parse_version_req] *)
Definition parse_version_req (s : strassign) : W depversion :=
  let? sp := text_span (sa_val s) in
  match SemverModel.parse_requirement prof (utf8 (sv_text (sa_val s))) (s_start sp) with
  | Ok v => wret (mkdv s (Some v))
  | Err e => let! _ := say (Ok (DSemver e)) in wret (mkdv s None)
  | Panic => Panic
  end.
Definition map_version (o : option strassign) : W (option depversion) :=
  match o with Some s => let! v := parse_version_req s in wret (Some v) | None => wret None end.

(** check.rs:326-339 [DependencyBuilder] *)
Record builder := mkb {
  b_default : option boolassign; b_list : list strval; b_package : option strassign; b_workspace : option boolassign;
  b_version : option strassign; b_registry : option strassign; b_path : option strassign; b_git : option strassign;
  b_branch : option strassign; b_tag : option strassign; b_rev : option strassign; b_optional : option boolassign }.
Definition no_builder : builder := mkb None [] None None None None None None None None None None.
Definition set_default (b : builder) x := mkb x (b_list b) (b_package b) (b_workspace b) (b_version b) (b_registry b) (b_path b) (b_git b) (b_branch b) (b_tag b) (b_rev b) (b_optional b).
Definition add_features (b : builder) l := mkb (b_default b) (b_list b ++ l) (b_package b) (b_workspace b) (b_version b) (b_registry b) (b_path b) (b_git b) (b_branch b) (b_tag b) (b_rev b) (b_optional b).
Definition set_package (b : builder) x := mkb (b_default b) (b_list b) x (b_workspace b) (b_version b) (b_registry b) (b_path b) (b_git b) (b_branch b) (b_tag b) (b_rev b) (b_optional b).
Definition set_workspace (b : builder) x := mkb (b_default b) (b_list b) (b_package b) x (b_version b) (b_registry b) (b_path b) (b_git b) (b_branch b) (b_tag b) (b_rev b) (b_optional b).
Definition set_version (b : builder) x := mkb (b_default b) (b_list b) (b_package b) (b_workspace b) x (b_registry b) (b_path b) (b_git b) (b_branch b) (b_tag b) (b_rev b) (b_optional b).
Definition set_registry (b : builder) x := mkb (b_default b) (b_list b) (b_package b) (b_workspace b) (b_version b) x (b_path b) (b_git b) (b_branch b) (b_tag b) (b_rev b) (b_optional b).
Definition set_path (b : builder) x := mkb (b_default b) (b_list b) (b_package b) (b_workspace b) (b_version b) (b_registry b) x (b_git b) (b_branch b) (b_tag b) (b_rev b) (b_optional b).
Definition set_git (b : builder) x := mkb (b_default b) (b_list b) (b_package b) (b_workspace b) (b_version b) (b_registry b) (b_path b) x (b_branch b) (b_tag b) (b_rev b) (b_optional b).
Definition set_branch (b : builder) x := mkb (b_default b) (b_list b) (b_package b) (b_workspace b) (b_version b) (b_registry b) (b_path b) (b_git b) x (b_tag b) (b_rev b) (b_optional b).
Definition set_tag (b : builder) x := mkb (b_default b) (b_list b) (b_package b) (b_workspace b) (b_version b) (b_registry b) (b_path b) (b_git b) (b_branch b) x (b_rev b) (b_optional b).
Definition set_rev (b : builder) x := mkb (b_default b) (b_list b) (b_package b) (b_workspace b) (b_version b) (b_registry b) (b_path b) (b_git b) (b_branch b) (b_tag b) x (b_optional b).
Definition set_optional (b : builder) x := mkb (b_default b) (b_list b) (b_package b) (b_workspace b) (b_version b) (b_registry b) (b_path b) (b_git b) (b_branch b) (b_tag b) (b_rev b) x.

(** check.rs:355-360, 394-399 and so on: an error about the key [r] of the dependency at [p] *)
Definition key_error (p : path) (k : ekind) (r : mrepr) : run diag :=
  error_ k (context_line p (r_parent r)) (fmt_path p) (repr_span r).
Definition opt_list {A} (o : option A) : list A := match o with Some x => [x] | None => [] end.
(** check.rs:364-381: the keys that a workspace dependency ignores *)
Definition workspace_ignored (p : path) (ws : span) (r : mrepr) : run diag :=
  let text := let? i := repr_ident (r_key r) in joined_path p i in
  warn_ (WorkspaceDepIgnoredKey ws) (context_line p (r_parent r)) text (repr_span r).
Definition is_some {A} (o : option A) : bool := match o with Some _ => true | None => false end.
Definition count (l : list bool) : N := N.of_nat (length (filter (fun b => b) l)).
(** check.rs:436-457: branch, tag or revision *)
Definition git_spec (b : builder) (p : path) : W gitspec :=
  if 1 <? count [is_some (b_branch b); is_some (b_tag b); is_some (b_rev b)] then
    let! _ := each (fun a => say (key_error p AmbigousGitSpec (sa_repr a)))
                (opt_list (b_branch b) ++ opt_list (b_tag b) ++ opt_list (b_rev b)) in
    wret GConflicting
  else wret (match b_branch b, b_tag b, b_rev b with
             | Some x, _, _ => GBranch x
             | None, Some x, _ => GTag x
             | None, None, Some x => GRev x
             | None, None, None => GNone
             end).
(** check.rs:351-493: the block that computes [spec] *)
Definition build_spec (b : builder) (p : path) (e : mentry) : W depspec :=
  match b_workspace b with
  | Some w =>
      if bv_val (ba_val w) then
        let? ws := repr_span (ba_repr w) in
        let ignored := opt_list (b_version b) ++ opt_list (b_registry b) ++ opt_list (b_path b) ++ opt_list (b_git b) ++
                       opt_list (b_branch b) ++ opt_list (b_tag b) ++ opt_list (b_rev b) in
        let! _ := each (fun a => say (workspace_ignored p ws (sa_repr a))) ignored in
        wret (SWorkspace w)
      else
        let! _ := say (key_error p DepWorkspaceIsFalse (ba_repr w)) in
        wret SInvalid
  | None =>
      let! _ :=
        match b_git b with
        | None => each (fun '(k, a) => say (key_error p (DepIgnoredGitKey k) (sa_repr a)))
                    (map (pair (bs "branch")) (opt_list (b_branch b)) ++ map (pair (bs "tag")) (opt_list (b_tag b)) ++
                     map (pair (bs "rev")) (opt_list (b_rev b)))
        | Some _ => wret []
        end in
      match b_git b, b_path b, b_registry b with
      | Some g, _, Some r =>
          let! _ := say (key_error p AmbigousDepSpecGitRegistry (sa_repr g)) in
          let! _ := say (key_error p AmbigousDepSpecGitRegistry (sa_repr r)) in
          wret SConflicting
      | Some g, Some q, None =>
          let! _ := say (key_error p AmbigousDepSpecGitRegistry (sa_repr g)) in
          let! _ := say (key_error p AmbigousDepSpecGitRegistry (sa_repr q)) in
          wret SConflicting
      | Some g, None, None =>
          let! s := git_spec b p in
          let! v := map_version (b_version b) in
          wret (SGit g s v)
      | None, Some q, r =>
          let! v := map_version (b_version b) in
          wret (SPath q v r)
      | None, None, r =>
          match b_version b with
          | Some v => let! v := parse_version_req v in wret (SRegistry v r)
          | None =>
              let! _ := each (fun x => say (warn_ MissingDepSpec (context_line (tl p) (r_parent x)) (fmt_path p) (repr_span x))) (e_reprs e) in
              wret (SMissing r)
          end
      end
  end.
(** check.rs:342-505 [try_build] *)
Definition try_build (b : builder) (p : path) (e : mentry) (name : list N) (kind : depkind) (target : option (list N)) : W dependency :=
  let! spec := build_spec b p e in
  wret (mkdep name (b_package b) kind target spec (mkdf (b_default b) (b_list b)) (b_optional b) e).

(** check.rs:625-658 [parse_dependency_features]: the strings to be pushed *)
Definition parse_dependency_features (p : path) (e : mentry) : W (list strval) :=
  let! a := expect_array p e in
  match a with
  | Some (NTop _) =>
      let! _ := each (fun '(i, r) => say (error_ (WrongDatatype DtString DtTable) (context_line (tl p) (r_parent r))
                                            (fmt_path (SegArray i :: p)) (repr_span r))) (enumerate 0 (e_reprs e)) in
      wret []
  | Some (NInline parent _ es) =>
      let! l := each (fun '(i, x) => expect_string_in_array (SegArray i :: p) parent x) (enumerate 0 es) in
      wret (flat_map opt_list l)
  | _ => wret []
  end.

(** check.rs:573-607 [parse_dependency]: one entry, and the loop *)
Definition dependency_key (p : path) (t : mtable) (b : builder) (k : list N) (e : mentry) : W builder :=
  let here := SegTable (e_reprs e) :: p in
  let str (set : builder -> option strassign -> builder) := let! x := expect_string here e in wret (set b x) in
  let bool (set : builder -> option boolassign -> builder) := let! x := expect_bool here e in wret (set b x) in
  if key_is k "workspace" then bool set_workspace
  else if key_is k "version" then str set_version
  else if key_is k "registry" then str set_registry
  else if key_is k "path" then str set_path
  else if key_is k "git" then str set_git
  else if key_is k "branch" then str set_branch
  else if key_is k "tag" then str set_tag
  else if key_is k "rev" then str set_rev
  else if key_is k "package" then str set_package
  else if key_is k "optional" then bool set_optional
  else if key_is k "default-features" then bool set_default
  else if key_is k "default_features" then
    let! ignored := deprecated_underscore p t (bs "default_features") (bs "default-features") e in
    if ignored then wret b else bool set_default
  else if key_is k "features" then
    let! l := parse_dependency_features here e in wret (add_features b l)
  else let! _ := warn_unused here e in wret b.
Fixpoint parse_dependency (p : path) (t : mtable) (rest : mtable) (b : builder) : W builder :=
  match rest with
  | [] => wret b
  | (k, e) :: r => let! b := dependency_key p t b k e in parse_dependency p t r b
  end.

(** check.rs:508-571 [parse_dependencies]: one entry, and the loop *)
Definition parse_entry (p : path) (kind : depkind) (target : option (list N)) (name : list N) (e : mentry) : W (list dependency) :=
  let here := SegTable (e_reprs e) :: p in
  let wrong r := say (error_ (DepWrongDatatype (datatype_of (e_node e))) (context_line p (r_parent r)) (fmt_path here) (repr_span r)) in
  match as_string (e_node e) with
  | Some v =>
      let? r := first_of (e_reprs e) in
      let! v := parse_version_req (mksa r v) in
      wret [mkdep name None kind target (SRegistry v None) (mkdf None []) None e]
  | None =>
      match e_node e with
      | NScalar _ =>
          if is_invalid (e_node e) then wret []
          else let? r := first_of (e_reprs e) in
               let! _ := wrong r in wret []
      | NTable t =>
          let! b := parse_dependency here t t no_builder in
          let! d := try_build b here e name kind target in
          wret [d]
      | NTop _ | NInline _ _ _ =>
          let! _ := each wrong (e_reprs e) in wret []
      end
  end.
Definition parse_dependencies (p : path) (t : mtable) (kind : depkind) (target : option (list N)) : W (list dependency) :=
  let! l := each (fun '(name, e) => parse_entry p kind target name e) t in
  wret (concat l).

(** check.rs:180-184, 257-268 and so on: a section, if it is a table *)
Definition parse_section (p : path) (e : mentry) (kind : depkind) (target : option (list N)) : W (list dependency) :=
  let here := SegTable (e_reprs e) :: p in
  let! o := expect_table here e in
  match o with Some t => parse_dependencies here t kind target | None => wret [] end.
(** check.rs:190-199, 274-290 and so on: a section by its old name *)
Definition parse_old_section (p : path) (t : mtable) (old new : list N) (e : mentry) (kind : depkind) (target : option (list N)) : W (list dependency) :=
  let! ignored := deprecated_underscore p t old new e in
  if ignored then wret [] else parse_section p e kind target.
(** check.rs:180-221, 257-320: the keys common to [check] and
    [parse_target_dependencies]; [None] for other keys *)
Definition dependency_section (p : path) (t : mtable) (k : list N) (e : mentry) (target : option (list N)) : option (W (list dependency)) :=
  if key_is k "dependencies" then Some (parse_section p e Normal target)
  else if key_is k "dev-dependencies" then Some (parse_section p e Dev target)
  else if key_is k "dev_dependencies" then Some (parse_old_section p t (bs "dev_dependencies") (bs "dev-dependencies") e Dev target)
  else if key_is k "build-dependencies" then Some (parse_section p e Build target)
  else if key_is k "build_dependencies" then Some (parse_old_section p t (bs "build_dependencies") (bs "build-dependencies") e Build target)
  else None.

(** check.rs:248-324 [parse_target_dependencies] *)
Definition parse_target_dependencies (p : path) (t : mtable) (target : list N) : W (list dependency) :=
  let! l := each (fun '(k, e) =>
    match dependency_section p t k e (Some target) with
    | Some m => m
    | None => let! _ := warn_unused (SegTable (e_reprs e) :: p) e in wret []
    end) t in
  wret (concat l).
(** check.rs:233-246 [parse_target] *)
Definition parse_target (p : path) (t : mtable) : W (list dependency) :=
  let! l := each (fun '(k, e) =>
    let here := SegTable (e_reprs e) :: p in
    let! o := expect_table here e in
    match o with Some t => parse_target_dependencies here t k | None => wret [] end) t in
  wret (concat l).

(** check.rs:165-178 *)
Definition unchecked : list (list N) :=
  map bs ["package"; "lib"; "bin"; "example"; "test"; "bench"; "badges"; "features"; "lints"; "patch"; "replace"; "profile"; "workspace"]%string.
(** check.rs:160-231 [check]: one entry, and the loop *)
Definition check_key (t : mtable) (k : list N) (e : mentry) : W (list dependency) :=
  let here := [SegTable (e_reprs e)] in
  if existsb (bytes_eqb k) unchecked then wret []
  else match dependency_section [] t k e None with
       | Some m => m
       | None =>
           if bytes_eqb k (bs "target") then
             let! o := expect_table here e in
             match o with Some t => parse_target here t | None => wret [] end
           else let! _ := warn_unused here e in wret []
       end.
Definition check (t : mtable) : W (list dependency) :=
  let! l := each (fun '(k, e) => check_key t k e) t in
  wret (concat l).
End Check.
