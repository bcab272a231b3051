(** Specification of what checking a manifest finds (C39, C40, C54-C56):
    places of the map and what must stand there.  Of IdeModel only the data
    types of its results, [datatype_of], [text_span] and [av_span] are used. *)
From Verif Require Import Base CommonModel TomlError LitModel LexModel ParseModel MapModel MapSpec IdeModel.
From Verif Require SemverModel.

Definition at_key (s : string) : step := SKey (bs s).

(** ** Where dependencies are *)

(** The table of the dependency sections for all targets, and for one. *)
Inductive base : option (list N) -> list step -> Prop :=
| base_all : base None []
| base_target t : base (Some t) [at_key "target"; SKey t].
(** The section of a kind; a section by its old name counts only if there is
    none by its new name. *)
Inductive section (root : node) (b : list step) : depkind -> list step -> Prop :=
| sec_normal : section root b Normal (b ++ [at_key "dependencies"])
| sec_dev : section root b Dev (b ++ [at_key "dev-dependencies"])
| sec_dev_old : node_at (b ++ [at_key "dev-dependencies"]) root = None -> section root b Dev (b ++ [at_key "dev_dependencies"])
| sec_build : section root b Build (b ++ [at_key "build-dependencies"])
| sec_build_old : node_at (b ++ [at_key "build-dependencies"]) root = None -> section root b Build (b ++ [at_key "build_dependencies"]).
Definition dep_place (root : node) (kind : depkind) (target : option (list N)) (name : list N) (p : list step) : Prop :=
  exists b s, base target b /\ section root b kind s /\ p = s ++ [SKey name].

(** What the map has for the key at the end of a place. *)
Fixpoint entry_at (p : list step) (n : node) : option mentry :=
  match p, n with
  | [SKey k], NTable t => tget t k
  | SKey k :: r, NTable t => match tget t k with Some e => entry_at r (e_node e) | None => None end
  | SIdx i :: r, NTop es => match nth_error es (N.to_nat i) with Some e => entry_at r (NTable (te_table e)) | None => None end
  | SIdx i :: r, NInline _ _ es => match nth_error es (N.to_nat i) with Some e => entry_at r (ie_node e) | None => None end
  | _, _ => None
  end.

(** ** What a dependency says *)

(** A key of the dependency with its first definition, if it is a string or a
    boolean. *)
Definition str_field (t : mtable) (k : string) : option strassign :=
  match tget t (bs k) with
  | Some (mke (NScalar (VString l sp x o q)) (r :: _)) => Some (mksa r (mksv l sp x o q))
  | _ => None
  end.
Definition bool_field (t : mtable) (k : string) : option boolassign :=
  match tget t (bs k) with
  | Some (mke (NScalar (VBool sp b)) (r :: _)) => Some (mkba r (mkbv sp b))
  | _ => None
  end.
Definition default_field (t : mtable) : option boolassign :=
  match tget t (bs "default-features") with Some _ => bool_field t "default-features" | None => bool_field t "default_features" end.
(** The strings in the array of features. *)
Fixpoint strings_of (es : list ientry) : list strval :=
  match es with
  | [] => []
  | mkie (NScalar (VString l sp x o q)) _ :: r => mksv l sp x o q :: strings_of r
  | _ :: r => strings_of r
  end.
Definition feature_list (t : mtable) : list strval :=
  match tget t (bs "features") with Some (mke (NInline _ _ es) _) => strings_of es | _ => [] end.

Section Spec.
Context (prof : profile) (root : node).

(** The requirement in a string is read from where its text starts; it is
    absent if it is no requirement. *)
Definition requirement (s : strassign) (r : res SemverModel.error SemverModel.version_req) : Prop :=
  exists sp, text_span (sa_val s) = Ok sp /\ SemverModel.parse_requirement prof (utf8 (sv_text (sa_val s))) (s_start sp) = r.
Inductive version_of (s : strassign) : depversion -> Prop :=
| vo_ok v : requirement s (Ok v) -> version_of s (mkdv s (Some v))
| vo_err e : requirement s (Err e) -> version_of s (mkdv s None).
Inductive opt_version : option strassign -> option depversion -> Prop :=
| ov_none : opt_version None None
| ov_some s v : version_of s v -> opt_version (Some s) (Some v).

Inductive git_of (t : mtable) : gitspec -> Prop :=
| go_none : str_field t "branch" = None -> str_field t "tag" = None -> str_field t "rev" = None -> git_of t GNone
| go_branch s : str_field t "branch" = Some s -> str_field t "tag" = None -> str_field t "rev" = None -> git_of t (GBranch s)
| go_tag s : str_field t "branch" = None -> str_field t "tag" = Some s -> str_field t "rev" = None -> git_of t (GTag s)
| go_rev s : str_field t "branch" = None -> str_field t "tag" = None -> str_field t "rev" = Some s -> git_of t (GRev s)
| go_conflict a b : In (a, b) [("branch", "tag"); ("branch", "rev"); ("tag", "rev")]%string ->
    str_field t a <> None -> str_field t b <> None -> git_of t GConflicting.

(** More than one source. *)
Definition conflicting (t : mtable) : Prop :=
  str_field t "git" <> None /\ (str_field t "registry" <> None \/ str_field t "path" <> None).
Inductive spec_of (t : mtable) : depspec -> Prop :=
| so_workspace w : bool_field t "workspace" = Some w -> bv_val (ba_val w) = true -> spec_of t (SWorkspace w)
| so_no_workspace w : bool_field t "workspace" = Some w -> bv_val (ba_val w) = false -> spec_of t SInvalid
| so_conflicting : bool_field t "workspace" = None -> conflicting t -> spec_of t SConflicting
| so_git g s v : bool_field t "workspace" = None -> str_field t "git" = Some g -> ~ conflicting t ->
    git_of t s -> opt_version (str_field t "version") v -> spec_of t (SGit g s v)
| so_path p v : bool_field t "workspace" = None -> str_field t "git" = None -> str_field t "path" = Some p ->
    opt_version (str_field t "version") v -> spec_of t (SPath p v (str_field t "registry"))
| so_registry s v : bool_field t "workspace" = None -> str_field t "git" = None -> str_field t "path" = None ->
    str_field t "version" = Some s -> version_of s v -> spec_of t (SRegistry v (str_field t "registry"))
| so_missing : bool_field t "workspace" = None -> str_field t "git" = None -> str_field t "path" = None ->
    str_field t "version" = None -> spec_of t (SMissing (str_field t "registry")).

(** A string is a requirement; a table has keys; anything else is no
    dependency. *)
Inductive dependency_of (kind : depkind) (target : option (list N)) (name : list N) : mentry -> dependency -> Prop :=
| do_string l sp x o q r rs v : version_of (mksa r (mksv l sp x o q)) v ->
    dependency_of kind target name (mke (NScalar (VString l sp x o q)) (r :: rs))
      (mkdep name None kind target (SRegistry v None) (mkdf None []) None (mke (NScalar (VString l sp x o q)) (r :: rs)))
| do_table t rs s : spec_of t s ->
    dependency_of kind target name (mke (NTable t) rs)
      (mkdep name (str_field t "package") kind target s (mkdf (default_field t) (feature_list t)) (bool_field t "optional") (mke (NTable t) rs)).

(** The dependency at a place. *)
Definition dep_at (p : list step) (d : dependency) : Prop :=
  exists kind target name e, dep_place root kind target name p /\ entry_at p root = Some e /\ dependency_of kind target name e d.
Definition any_dep (p : list step) : Prop := exists kind target name, dep_place root kind target name p.

(** ** What is reported *)

(** Definition number [n] of the key at a place: the identifiers of the
    enclosing keys and its own; what a message about it points at, and the
    lines it lists. *)
Definition definition (p : list step) (n : N) (r : mrepr) (s : list ident) : Prop :=
  exists rs acc x, trail [] p root = Some (rs :: acc, x) /\ nth_error rs (N.to_nat n) = Some r /\ traced (rs :: acc) n s.
Definition marks (p : list step) (n : N) (ls : list N) (sp : span) : Prop :=
  exists r pre i ksp, definition p n r (pre ++ [i]) /\ lines_ok pre [] ls /\
    kind_span (r_kind r) = Ok ksp /\ sp = mkspan (id_start i) (s_end ksp).

(** Every definition of a value of a wrong type (a value that could not be
    parsed has no type). *)
Definition type_problem (p : list step) (want : datatype) (d : diag) : Prop :=
  exists x n ls sp tx, node_at p root = Some x /\ datatype_of x <> want /\ datatype_of x <> DtInvalid /\
    marks p n ls sp /\ shown p tx /\ d = DError ls tx sp (WrongDatatype want (datatype_of x)).
(** Every definition of a key without a meaning. *)
Definition unknown_problem (p : list step) (d : diag) : Prop :=
  exists n ls sp tx, marks p n ls sp /\ shown p tx /\ d = DWarn ls tx sp IgnoredUnknownKey.
(** Every definition of a key by its old name, in the table at a place (the
    root is shown as nothing): alone, or beside the new name. *)
Definition shown_or_empty (p : list step) (tx : list N) : Prop := (p = [] /\ tx = []) \/ shown p tx.
Definition old_problem (p : list step) (old new : string) (d : diag) : Prop :=
  exists n ls sp tx, marks (p ++ [at_key old]) n ls sp /\ shown_or_empty p tx /\
    ((node_at (p ++ [at_key new]) root = None /\ d = DWarn ls tx sp (DeprecatedUnderscore (bs old) (bs new))) \/
     (exists e r rs nsp, entry_at (p ++ [at_key new]) root = Some e /\ e_reprs e = r :: rs /\ kind_span (r_kind r) = Ok nsp /\
        d = DWarn ls tx sp (RedundantDeprecatedUnderscore (bs old) (bs new) nsp))).

(** Keys of a dependency, and their types. *)
Definition ref_keys : list string := ["branch"; "tag"; "rev"]%string.
Definition source_keys : list string := ["version"; "registry"; "path"; "git"]%string ++ ref_keys.
Definition typed_keys : list (string * datatype) :=
  map (fun k => (k, DtString)) (source_keys ++ ["package"]%string) ++
  map (fun k => (k, DtBool)) ["workspace"; "optional"; "default-features"]%string ++ [("features"%string, DtArray)].
Definition dependency_keys : list string := map fst typed_keys ++ ["default_features"%string].

(** Where a dependency says that its source is. *)
Inductive source_problem (p : list step) (t : mtable) : diag -> Prop :=
| sp_workspace_false w ls sp tx : bool_field t "workspace" = Some w -> bv_val (ba_val w) = false ->
    marks (p ++ [at_key "workspace"]) 0 ls sp -> shown p tx -> source_problem p t (DError ls tx sp DepWorkspaceIsFalse)
| sp_workspace_key w k wls wsp ls sp tx : bool_field t "workspace" = Some w -> bv_val (ba_val w) = true ->
    In k source_keys -> str_field t k <> None ->
    marks (p ++ [at_key "workspace"]) 0 wls wsp -> marks (p ++ [at_key k]) 0 ls sp -> shown (p ++ [at_key k]) tx ->
    source_problem p t (DWarn ls tx sp (WorkspaceDepIgnoredKey wsp))
| sp_git_registry k ls sp tx : bool_field t "workspace" = None ->
    str_field t "git" <> None -> str_field t "registry" <> None -> In k ["git"; "registry"]%string ->
    marks (p ++ [at_key k]) 0 ls sp -> shown p tx -> source_problem p t (DError ls tx sp AmbigousDepSpecGitRegistry)
| sp_git_path k ls sp tx : bool_field t "workspace" = None ->
    str_field t "git" <> None -> str_field t "path" <> None -> str_field t "registry" = None -> In k ["git"; "path"]%string ->
    marks (p ++ [at_key k]) 0 ls sp -> shown p tx -> source_problem p t (DError ls tx sp AmbigousDepSpecGitRegistry)
| sp_refs k ls sp tx : bool_field t "workspace" = None ->
    str_field t "git" <> None -> ~ conflicting t -> git_of t GConflicting -> In k ref_keys -> str_field t k <> None ->
    marks (p ++ [at_key k]) 0 ls sp -> shown p tx -> source_problem p t (DError ls tx sp AmbigousGitSpec)
| sp_no_git k ls sp tx : bool_field t "workspace" = None ->
    str_field t "git" = None -> In k ref_keys -> str_field t k <> None ->
    marks (p ++ [at_key k]) 0 ls sp -> shown p tx -> source_problem p t (DError ls tx sp (DepIgnoredGitKey (bs k)))
| sp_missing n ls sp tx : bool_field t "workspace" = None ->
    str_field t "git" = None -> str_field t "path" = None -> str_field t "version" = None ->
    marks p n ls sp -> shown p tx -> source_problem p t (DWarn ls tx sp MissingDepSpec).

(** The requirement of a dependency, if it is read. *)
Inductive reads (p : list step) : strassign -> Prop :=
| rd_string l sp x o q r rs : entry_at p root = Some (mke (NScalar (VString l sp x o q)) (r :: rs)) -> reads p (mksa r (mksv l sp x o q))
| rd_table t s : node_at p root = Some (NTable t) -> bool_field t "workspace" = None -> ~ conflicting t -> str_field t "version" = Some s -> reads p s.

(** The problems of the dependency at a place. *)
Inductive dep_problem (p : list step) : diag -> Prop :=
(* neither a string nor a table *)
| dp_scalar v ls sp tx : node_at p root = Some (NScalar v) ->
    datatype_of (NScalar v) <> DtString -> datatype_of (NScalar v) <> DtInvalid ->
    marks p 0 ls sp -> shown p tx -> dep_problem p (DError ls tx sp (DepWrongDatatype (datatype_of (NScalar v))))
| dp_array x n ls sp tx : node_at p root = Some x -> datatype_of x = DtArray ->
    marks p n ls sp -> shown p tx -> dep_problem p (DError ls tx sp (DepWrongDatatype DtArray))
(* its keys *)
| dp_type k want d : In (k, want) typed_keys -> type_problem (p ++ [at_key k]) want d -> dep_problem p d
| dp_old_type d : node_at (p ++ [at_key "default-features"]) root = None -> type_problem (p ++ [at_key "default_features"]) DtBool d -> dep_problem p d
| dp_old d : old_problem p "default_features" "default-features" d -> dep_problem p d
| dp_unknown k d : ~ In k (map bs dependency_keys) -> unknown_problem (p ++ [SKey k]) d -> dep_problem p d
(* the elements of its features *)
| dp_feature parent v es i x r s ls tx : node_at (p ++ [at_key "features"]) root = Some (NInline parent v es) ->
    nth_error es (N.to_nat i) = Some x -> datatype_of (ie_node x) <> DtString -> datatype_of (ie_node x) <> DtInvalid ->
    definition (p ++ [at_key "features"]) parent r s -> lines_ok s [] ls -> shown (p ++ [at_key "features"] ++ [SIdx i]) tx ->
    dep_problem p (DError ls tx (av_span (ie_repr x)) (WrongDatatype DtString (datatype_of (ie_node x))))
| dp_feature_tables es n ls sp tx : node_at (p ++ [at_key "features"]) root = Some (NTop es) ->
    marks (p ++ [at_key "features"]) n ls sp -> shown (p ++ [at_key "features"] ++ [SIdx n]) tx ->
    dep_problem p (DError ls tx sp (WrongDatatype DtString DtTable))
(* its source *)
| dp_source t d : node_at p root = Some (NTable t) -> source_problem p t d -> dep_problem p d
| dp_version s e : reads p s -> requirement s (Err e) -> dep_problem p (DSemver e).

(** The problems of a manifest. *)
Definition section_keys : list string :=
  ["dependencies"; "dev-dependencies"; "dev_dependencies"; "build-dependencies"; "build_dependencies"]%string.
Definition manifest_keys : list string :=
  ["package"; "lib"; "bin"; "example"; "test"; "bench"; "badges"; "features"; "lints"; "patch"; "replace"; "profile"; "workspace"; "target"]%string.
Inductive problem : diag -> Prop :=
| pr_dep p d : any_dep p -> dep_problem p d -> problem d
| pr_section kind target b s d : base target b -> section root b kind s -> type_problem s DtTable d -> problem d
| pr_dev target b d : base target b -> old_problem b "dev_dependencies" "dev-dependencies" d -> problem d
| pr_build target b d : base target b -> old_problem b "build_dependencies" "build-dependencies" d -> problem d
| pr_targets d : type_problem [at_key "target"] DtTable d -> problem d
| pr_target t d : type_problem [at_key "target"; SKey t] DtTable d -> problem d
| pr_unknown k d : ~ In k (map bs (section_keys ++ manifest_keys)) -> unknown_problem [SKey k] d -> problem d
| pr_unknown_target t k d : ~ In k (map bs section_keys) -> unknown_problem [at_key "target"; SKey t; SKey k] d -> problem d.

(** The requirements that are read. *)
Definition any_reads (s : strassign) : Prop := exists p, any_dep p /\ reads p s.
End Spec.
