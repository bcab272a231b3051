(** What a manifest declares, in terms of the value of the document (C74), and
    when it is fine (C75).  Values are those of CliModel, places those of
    MapSpec; requirements are read by the grammar of SemverSpec.  Nothing of
    the model of the checker is used. *)
From Verif Require Import Base MapSpec CliModel MeanSpec.
From Verif Require SemverModel SemverSpec.

(** ** The data of a dependency *)

(** A requirement as it is written, and its comparators, if it is one. *)
Record mversion := mkmv { mv_text : list N; mv_req : option (list SemverModel.comparator) }.
Inductive mref := RNone | RBranch (t : list N) | RTag (t : list N) | RRev (t : list N) | RSeveral.
Inductive msource :=
| FromWorkspace                                                            (* workspace = true *)
| FromNowhere                                                              (* workspace = false *)
| FromSeveral                                                              (* git besides path or registry *)
| FromGit (url : list N) (r : mref) (v : option mversion)
| FromPath (p : list N) (v : option mversion) (registry : option (list N))
| FromRegistry (v : mversion) (registry : option (list N))
| FromUnknown (registry : option (list N)).                                (* no git, path or version *)
Inductive mkind := ForAll | ForTests | ForBuild.
Record mdep := mkmd {
  md_kind : mkind; md_target : option (list N); md_name : list N; md_package : option (list N);
  md_source : msource; md_default : option bool; md_features : list (list N); md_optional : option bool }.

(** ** Fields *)

Definition member (v : sval) (k : string) : option sval := match v with STable t => sget t (bs k) | _ => None end.
Definition text_at (v : sval) (k : string) : option (list N) := match member v k with Some (SString s) => Some s | _ => None end.
Definition flag_at (v : sval) (k : string) : option bool := match member v k with Some (SBool b) => Some b | _ => None end.
(** The strings of an array. *)
Fixpoint strings_in (l : list sval) : list (list N) :=
  match l with [] => [] | SString s :: r => s :: strings_in r | _ :: r => strings_in r end.
Definition texts_at (v : sval) (k : string) : list (list N) := match member v k with Some (SArray l) => strings_in l | _ => [] end.
(** A field by its new name, or by its old one if there is none by the new. *)
Definition renamed_flag (v : sval) (new old : string) : option bool :=
  match member v new with Some _ => flag_at v new | None => flag_at v old end.

(** ** Dependencies *)

Definition is_requirement (s : list N) : Prop := exists cs, SemverSpec.req_grammar (utf8 s) cs.
Inductive version_in (s : list N) : mversion -> Prop :=
| vi_yes cs : SemverSpec.req_grammar (utf8 s) cs -> version_in s (mkmv s (Some cs))
| vi_no : ~ is_requirement s -> version_in s (mkmv s None).
Inductive may_version : option (list N) -> option mversion -> Prop :=
| mv_none : may_version None None
| mv_some s v : version_in s v -> may_version (Some s) (Some v).
Definition reference (v : sval) : mref :=
  match text_at v "branch", text_at v "tag", text_at v "rev" with
  | None, None, None => RNone
  | Some s, None, None => RBranch s
  | None, Some s, None => RTag s
  | None, None, Some s => RRev s
  | _, _, _ => RSeveral
  end.
Inductive source_of (v : sval) : msource -> Prop :=
| from_workspace : flag_at v "workspace" = Some true -> source_of v FromWorkspace
| from_nowhere : flag_at v "workspace" = Some false -> source_of v FromNowhere
| from_several : flag_at v "workspace" = None -> text_at v "git" <> None ->
    (text_at v "path" <> None \/ text_at v "registry" <> None) -> source_of v FromSeveral
| from_git u x : flag_at v "workspace" = None -> text_at v "git" = Some u -> text_at v "path" = None -> text_at v "registry" = None ->
    may_version (text_at v "version") x -> source_of v (FromGit u (reference v) x)
| from_path p x : flag_at v "workspace" = None -> text_at v "git" = None -> text_at v "path" = Some p ->
    may_version (text_at v "version") x -> source_of v (FromPath p x (text_at v "registry"))
| from_registry s x : flag_at v "workspace" = None -> text_at v "git" = None -> text_at v "path" = None ->
    text_at v "version" = Some s -> version_in s x -> source_of v (FromRegistry x (text_at v "registry"))
| from_unknown : flag_at v "workspace" = None -> text_at v "git" = None -> text_at v "path" = None ->
    text_at v "version" = None -> source_of v (FromUnknown (text_at v "registry")).
(** A string is a requirement, a table has fields. *)
Inductive depends (kind : mkind) (target : option (list N)) (name : list N) : sval -> mdep -> Prop :=
| dep_string s x : version_in s x ->
    depends kind target name (SString s) (mkmd kind target name None (FromRegistry x None) None [] None)
| dep_table t s : source_of (STable t) s ->
    depends kind target name (STable t)
      (mkmd kind target name (text_at (STable t) "package") s (renamed_flag (STable t) "default-features" "default_features")
         (texts_at (STable t) "features") (flag_at (STable t) "optional")).

(** ** Where they are *)

(** The tables with sections: the document, and one for each target. *)
Inductive group (doc : sval) : option (list N) -> list step -> sval -> Prop :=
| grp_all : group doc None [] doc
| grp_target ts t v : member doc "target" = Some (STable ts) -> sget ts t = Some v -> group doc (Some t) [SKey (bs "target"); SKey t] v.
(** The sections of a group; a section by an old name counts only if there is
    none by the new name. *)
Inductive section_in (g : sval) : mkind -> string -> Prop :=
| si_all : section_in g ForAll "dependencies"
| si_tests : section_in g ForTests "dev-dependencies"
| si_tests_old : member g "dev-dependencies" = None -> section_in g ForTests "dev_dependencies"
| si_build : section_in g ForBuild "build-dependencies"
| si_build_old : member g "build-dependencies" = None -> section_in g ForBuild "build_dependencies".
(** The document declares a dependency at a place. *)
Definition declares (doc : sval) (p : list step) (d : mdep) : Prop :=
  exists target b g kind key t name v,
    group doc target b g /\ section_in g kind key /\ member g key = Some (STable t) /\ sget t name = Some v /\
    p = b ++ [SKey (bs key); SKey name] /\ depends kind target name v d.

(** ** Fine manifests *)

Definition is_text (v : sval) : Prop := match v with SString _ => True | _ => False end.
Definition is_flag (v : sval) : Prop := match v with SBool _ => True | _ => False end.
Definition is_texts (v : sval) : Prop := match v with SArray l => Forall is_text l | _ => False end.
Definition text_keys : list string := ["version"; "registry"; "path"; "git"; "branch"; "tag"; "rev"; "package"]%string.
Definition flag_keys : list string := ["workspace"; "optional"; "default-features"]%string.
(** Every key has a meaning, and a value of its type. *)
Definition fine_field (k : list N) (v : sval) : Prop :=
  (In k (map bs text_keys) /\ is_text v) \/ (In k (map bs flag_keys) /\ is_flag v) \/ (k = bs "features" /\ is_texts v).
(** One source: the workspace, or a repository at no more than one reference,
    a path, or a version. *)
Definition fine_source (v : sval) : Prop :=
  match flag_at v "workspace" with
  | Some w => w = true /\ forall k, In k ["version"; "registry"; "path"; "git"; "branch"; "tag"; "rev"]%string -> text_at v k = None
  | None =>
      (forall s, text_at v "version" = Some s -> is_requirement s) /\
      match text_at v "git" with
      | Some _ => text_at v "path" = None /\ text_at v "registry" = None /\ reference v <> RSeveral
      | None => reference v = RNone /\ (text_at v "path" <> None \/ text_at v "version" <> None)
      end
  end.
Definition fine_dependency (v : sval) : Prop :=
  match v with
  | SString s => is_requirement s
  | STable t => Forall (fun kv => fine_field (fst kv) (snd kv)) t /\ fine_source v
  | _ => False
  end.
Definition fine_section (v : sval) : Prop := match v with STable t => Forall (fun kv => fine_dependency (snd kv)) t | _ => False end.
Definition sections : list string := ["dependencies"; "dev-dependencies"; "build-dependencies"]%string.
(** In the table of a target there are sections only. *)
Definition fine_target (v : sval) : Prop :=
  match v with STable t => Forall (fun kv => In (fst kv) (map bs sections) /\ fine_section (snd kv)) t | _ => False end.
(** Keys of a manifest that are not looked into. *)
Definition other_keys : list string :=
  ["package"; "lib"; "bin"; "example"; "test"; "bench"; "badges"; "features"; "lints"; "patch"; "replace"; "profile"; "workspace"]%string.
Definition fine_manifest (doc : list (list N * sval)) : Prop :=
  Forall (fun kv =>
    (In (fst kv) (map bs sections) /\ fine_section (snd kv)) \/
    (fst kv = bs "target" /\ match snd kv with STable ts => Forall (fun tv => fine_target (snd tv)) ts | _ => False end) \/
    In (fst kv) (map bs other_keys)) doc.

(** ** The order *)

(** The entries of a section that are dependencies, by name, as they come. *)
Definition entry_names (v : sval) : list (list N) :=
  match v with
  | STable t => map fst (filter (fun kv => match snd kv with SString _ | STable _ => true | _ => false end) t)
  | _ => []
  end.
(** What the key [k] of a table with sections is: a section of a kind or not. *)
Definition section_kind (g : sval) (k : list N) : option mkind :=
  let is (s : string) := if list_eq_dec N.eq_dec k (bs s) then true else false in
  let without (s : string) := match member g s with Some _ => false | None => true end in
  if is "dependencies"%string then Some ForAll
  else if is "dev-dependencies"%string then Some ForTests
  else if (is "dev_dependencies"%string && without "dev-dependencies"%string)%bool then Some ForTests
  else if is "build-dependencies"%string then Some ForBuild
  else if (is "build_dependencies"%string && without "build-dependencies"%string)%bool then Some ForBuild
  else None.
Definition section_order (g : sval) (target : option (list N)) (kv : list N * sval) : list (mkind * option (list N) * list N) :=
  match section_kind g (fst kv) with
  | Some kind => map (fun name => (kind, target, name)) (entry_names (snd kv))
  | None => []
  end.
Definition members (v : sval) : list (list N * sval) := match v with STable t => t | _ => [] end.
(** The dependencies of a manifest, each by its kind, target and name, in the
    order of the document. *)
Definition in_order (doc : sval) : list (mkind * option (list N) * list N) :=
  flat_map (fun kv =>
    if list_eq_dec N.eq_dec (fst kv) (bs "target")
    then flat_map (fun tg => flat_map (section_order (snd tg) (Some (fst tg))) (members (snd tg))) (members (snd kv))
    else section_order doc None kv) (members doc).
