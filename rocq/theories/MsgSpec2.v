(** Specification of messages, continued: keys that conflict, versions and
    requirements, and manifests.  As in MsgSpec the texts are written down a
    second time, next to what must hold for each. *)
From Verif Require Import Base CommonModel TomlError LitModel LexModel ParseModel MapModel MapSpec IdeModel IdeSpec DisplayModel MsgSpec.
From Verif Require SemverModel SemverSpec.

(** ** Keys that conflict *)

(** The text about the key [new] for the place shown as [tx], for which there
    is the key [i] of a statement [k], and for which [x] stands, too; what the
    hint marks and says.  (A table is called an array in the hint.) *)
Inductive key_text (tx : list N) (new x : spelling) (i : ident) (k : mkind) : list N -> list N -> span -> list N -> Prop :=
| kt_duplicate : key_text tx new x i k (bs "duplicate key " ++ code tx) (bs "duplicate key") (lit_span i) (bs "original key defined here")
| kt_inline_table v o : gives x v -> table_value v -> kind_span k = Ok o ->
    key_text tx new x i k (bs "cannot extend inline table " ++ code tx) (bs "cannot extend inline table") o (bs "original table defined here")
| kt_inline_array v o : gives x v -> array_value v -> array_header new -> kind_span k = Ok o ->
    key_text tx new x i k (bs "cannot extend inline array " ++ code tx) (bs "cannot extend inline array") o (bs "original array defined here")
| kt_array_as_table v o : gives x v -> array_value v -> kind_span k = Ok o ->
    key_text tx new x i k (bs "cannot extend inline array " ++ code tx ++ bs ", not a table") (bs "cannot extend inline array, not a table")
      o (bs "original array defined here")
| kt_table_dotted t o : snd x = MTable t -> assignment (snd new) -> kind_span k = Ok o ->
    key_text tx new x i k (bs "cannot extend table " ++ code tx ++ bs " with dotted key") (bs "cannot extend table with dotted key")
      o (bs "original array defined here")
| kt_array_dotted o : array_header x -> assignment (snd new) -> kind_span k = Ok o ->
    key_text tx new x i k (bs "cannot extend array " ++ code tx ++ bs " with dotted key") (bs "cannot extend array with dotted key")
      o (bs "original array defined here").
(** A diagnostic about two keys of the document for the same place. *)
Inductive key_message (d : list spelling) : ddiag -> Prop :=
| key_msg place pre1 i1 k1 pre2 i2 k2 x ls tx descr annot orig hint :
    before d (pre1 ++ [i1], k1) (pre2 ++ [i2], k2) -> before d x (pre2 ++ [i2], k2) ->
    map id_text (pre1 ++ [i1]) = keys_of place -> map id_text (pre2 ++ [i2]) = keys_of place -> map id_text (fst x) = keys_of place ->
    lines_ok pre1 pre2 ls -> shown place tx ->
    key_text tx (pre2 ++ [i2], k2) x i1 k1 descr annot orig hint ->
    key_message d (mkdiag SevError (lit_span i2) descr annot (Some (mkhint orig hint)) ls).

(** ** Versions and requirements *)
Import SemverModel SemverSpec.

Definition number_name (f : num_field) : list N :=
  match f with FMajor => bs "major version number" | FMinor => bs "minor version number" | FPatch => bs "patch version number" end.
(** The two names are exchanged in the messages. *)
Definition exchanged_name (f : ident_field) : list N :=
  match f with FPrerelease => bs "build-metadata" | FBuildMetadata => bs "pre-release identifier" end.

(** [version_message a b c d n]: of the text [b] marked in [a ++ b ++ c]. *)
Inductive version_message (a b c : bytes) : list N -> list N -> Prop :=
(* the name of the part in front is not right (C15) *)
| vm_trailing cs name d : b = utf8 cs -> b <> [] -> ~ first_in (eq 32) b -> ~ ends_with b 32 -> blank c ->
    In name [number_name FMajor; exchanged_name FPrerelease; exchanged_name FBuildMetadata] ->
    d = bs "unexpected characters " ++ code cs ++ bs ", after " ++ name -> version_message a b c d d
| vm_missing f : b = [] -> c = [] -> in_field f a ->
    version_message a b c (bs "missing " ++ number_name f) (bs "missing " ++ number_name f)
| vm_zero f : b = [48] -> first_in digit c -> in_field f a ->
    version_message a b c (bs "invalid leading zero in " ++ number_name f) (bs "invalid leading zero")
(* a word too much in the text *)
| vm_char ch f : char_text ch b -> ~ digit ch -> in_field f a ->
    version_message a b c (bs "invalid character " ++ code [ch] ++ bs " zero in " ++ number_name f) (bs "invalid character")
| vm_overflow f : all_digits b -> u32_max < dec_val b -> ~ first_in digit c -> in_field f a ->
    version_message a b c (bs "integer overflow in " ++ number_name f) (bs "integer overflow")
| vm_dot ch f : char_text ch b -> ch <> 46 -> in_field f a ->
    version_message a b c (bs "expected dot after " ++ number_name f ++ bs ", found " ++ code [ch]) (bs "expected dot")
| vm_missing_dot f : b = [] -> c = [] -> in_field f a ->
    version_message a b c (bs "missing dot after " ++ number_name f) (bs "missing dot")
(* misspelled *)
| vm_empty f : b = [] -> ends_with a (field_sign f) -> ~ first_in ident_char c -> ~ first_in (eq 46) c ->
    version_message a b c (bs "emtpy " ++ exchanged_name f) (bs "emtpy " ++ exchanged_name f)
| vm_empty_segment f : b = [] -> ~ first_in ident_char c -> ends_with a 46 \/ ends_with a (field_sign f) /\ first_in (eq 46) c ->
    version_message a b c (bs "emtpy identifier segment in " ++ exchanged_name f) (bs "emtpy identifier segment")
| vm_zero_segment ds r : b = [48] -> ends_with a 46 \/ ends_with a 45 -> c = ds ++ r -> ds <> [] -> all_digits ds -> ~ first_in ident_char r ->
    version_message a b c (bs "invalid leading zero in " ++ exchanged_name FPrerelease ++ bs " segment ") (bs "invalid leading zero")
| vm_op ch : char_text ch b -> ~ digit ch -> ~ wildcard ch -> ~ In ch (bs "=<>^~ ") ->
    version_message a b c
      (bs "invalid operator " ++ code [ch] ++ bs ", expected one of: `=`, `>`, `>=`, `<`, `<=`, `~`, `^` or a blank version requirement") (bs "invalid operator")
| vm_comma : b = [] -> c <> [] -> ~ first_in (eq 44) c -> ~ first_in (eq 32) c -> version_message a b c (bs "missing comma") (bs "missing comma")
| vm_trailing_comma : b = [44] -> blank c -> version_message a b c (bs "invalid trailing comma") (bs "invalid trailing comma")
| vm_wildcard w : wildcard w -> b = [w] -> ~ (blank a /\ blank c) ->
    version_message a b c (bs "wildcard " ++ code [w] ++ bs " must be the only comparator") (bs "wildcard must be the only comparator")
| vm_excessive : c = [] -> b <> [] -> (32 <= count_occ N.eq_dec a 44%N)%nat ->
    version_message a b c (bs "excessive number of comparators, the maximum allowed number is 32") (bs "excessive number of comparators")
| vm_empty_req : a = [] -> b = [] -> blank c -> version_message a b c (bs "empty version requirement") (bs "empty version requirement")
| vm_after_wildcard ch w : char_text ch b -> wildcard w -> ends_with a w -> ch <> 44 -> ch <> 32 ->
    version_message a b c (bs "unexpected character " ++ code [ch] ++ bs " after wildcard major version number") (bs "unexpected character")
| vm_after_wildcard_dot ch w a' f : char_text ch b -> wildcard w -> a = a' ++ [w; 46] -> in_field FPatch a -> ~ wildcard ch -> f <> FMajor ->
    version_message a b c (bs "unexpected character " ++ code [ch] ++ bs " after wildcard " ++ number_name f) (bs "unexpected character").
(** A diagnostic about a version or requirement [s] that starts at [p]. *)
Inductive version_says (p : pos) (s : bytes) : ddiag -> Prop :=
| vs a b c d n : s = a ++ b ++ c -> valid_utf8 a -> valid_utf8 b -> valid_utf8 c -> version_message a b c d n ->
    version_says p s (mkdiag SevError (mkspan (pos_plus p (blen a)) (pos_plus p (blen a + blen b))) d n None []).

(** ** Manifests *)

(** What kind of value there is; [None] for one that could not be parsed. *)
Definition kind_name (n : node) : option (list N) :=
  match n with
  | NTable _ | NScalar (VTable _ _ _) => Some (bs "table")
  | NTop _ | NInline _ _ _ | NScalar (VArray _ _ _ _) => Some (bs "array")
  | NScalar (VString _ _ _ _ _) => Some (bs "string")
  | NScalar (VInt _ _ _) => Some (bs "int")
  | NScalar (VFloat _ _ _) => Some (bs "float")
  | NScalar (VBool _ _) => Some (bs "bool")
  | NScalar (VDateTime _ _ _) => Some (bs "date-time")
  | NScalar (VInvalid _ _) => None
  end.

(** What a diagnostic about the key at a place marks: any definition of it,
    or its first one. *)
Definition points (root : node) (p : list step) (ls : list N) (sp : span) : Prop := exists n, marks root p n ls sp.
(** Which kind of value must be at a place. *)
Inductive wanted (root : node) : list step -> list N -> Prop :=
| w_section kind t b s : base t b -> section root b kind s -> wanted root s (bs "table")
| w_targets : wanted root [at_key "target"] (bs "table")
| w_target t : wanted root [at_key "target"; SKey t] (bs "table")
| w_dep p k w : any_dep root p ->
    In (k, w) [("version", "string"); ("registry", "string"); ("path", "string"); ("git", "string"); ("branch", "string"); ("tag", "string");
               ("rev", "string"); ("package", "string"); ("workspace", "bool"); ("optional", "bool"); ("default-features", "bool"); ("features", "array")]%string ->
    wanted root (p ++ [at_key k]) (bs w)
| w_old p : any_dep root p -> node_at (p ++ [at_key "default-features"]) root = None -> wanted root (p ++ [at_key "default_features"]) (bs "bool").
(** A key by its old name, in the table at [p], and its new name. *)
Inductive old_name (root : node) (p : list step) : string -> string -> Prop :=
| on_default : any_dep root p -> old_name root p "default_features" "default-features"
| on_dev t : base t p -> old_name root p "dev_dependencies" "dev-dependencies"
| on_build t : base t p -> old_name root p "build_dependencies" "build-dependencies".
(** The table at [p] in front of a message, nothing for the manifest. *)
Inductive in_table (p : list step) : list N -> Prop :=
| it_root : p = [] -> in_table p []
| it_table tx : shown p tx -> in_table p (code tx ++ bs ": ").
(** A key without a meaning, in the table at [p]. *)
Inductive unknown_key (root : node) : list step -> list N -> Prop :=
| uk_manifest k : ~ In k (map bs (section_keys ++ manifest_keys)) -> unknown_key root [] k
| uk_target t k : ~ In k (map bs section_keys) -> unknown_key root [at_key "target"; SKey t] k
| uk_dep p k : any_dep root p -> ~ In k (map bs dependency_keys) -> unknown_key root p k.
Definition first_marks (root : node) (p : list step) (ls : list N) (sp : span) : Prop := marks root p 0 ls sp.
(** A diagnostic about a manifest. *)
Inductive manifest_says (root : node) : ddiag -> Prop :=
| ms_type p x want found ls sp tx : wanted root p want -> node_at p root = Some x -> kind_name x = Some found -> found <> want ->
    points root p ls sp -> shown p tx ->
    manifest_says root (mkdiag SevError sp (bs "expected " ++ code tx ++ bs " to be of type " ++ want ++ bs ", found " ++ found) (bs "expected " ++ want) None ls)
| ms_feature p i parent v es x found r s ls tx : any_dep root p -> node_at (p ++ [at_key "features"]) root = Some (NInline parent v es) ->
    nth_error es (N.to_nat i) = Some x -> kind_name (ie_node x) = Some found -> found <> bs "string" ->
    definition root (p ++ [at_key "features"]) parent r s -> lines_ok s [] ls -> shown (p ++ [at_key "features"; SIdx i]) tx ->
    manifest_says root (mkdiag SevError (av_span (ie_repr x)) (bs "expected " ++ code tx ++ bs " to be of type string, found " ++ found) (bs "expected string") None ls)
| ms_feature_tables p n es ls sp tx : any_dep root p -> node_at (p ++ [at_key "features"]) root = Some (NTop es) ->
    marks root (p ++ [at_key "features"]) n ls sp -> shown (p ++ [at_key "features"; SIdx n]) tx ->
    manifest_says root (mkdiag SevError sp (bs "expected " ++ code tx ++ bs " to be of type string, found table") (bs "expected string") None ls)
| ms_dep p x found ls sp tx : any_dep root p -> node_at p root = Some x -> kind_name x = Some found -> found <> bs "string" -> found <> bs "table" ->
    points root p ls sp -> shown p tx ->
    manifest_says root (mkdiag SevError sp (bs "expected " ++ code tx ++ bs " to be of type string or table, found " ++ found) (bs "expected string or table") None ls)
| ms_workspace_false p t w ls sp tx : any_dep root p -> node_at p root = Some (NTable t) ->
    bool_field t "workspace" = Some w -> bv_val (ba_val w) = false -> first_marks root (p ++ [at_key "workspace"]) ls sp -> shown p tx ->
    manifest_says root (mkdiag SevError sp (bs "invalid dependency specification " ++ code tx ++ bs "; `workspace` cannot be false") (bs "`workspace` cannot be false") None ls)
(* also for a dependency with both git and path *)
| ms_git_registry p t k other ls sp tx : any_dep root p -> node_at p root = Some (NTable t) -> other = "registry"%string \/ other = "path"%string ->
    str_field t "git" <> None -> str_field t other <> None -> In k ["git"%string; other] ->
    first_marks root (p ++ [at_key k]) ls sp -> shown p tx ->
    manifest_says root (mkdiag SevError sp (bs "dependency specification " ++ code tx ++ bs " is ambigous, only one of `git` or `registry` is allowed") (bs "only one of `git` or `registry` is allowed") None ls)
| ms_refs p t k k' ls sp tx : any_dep root p -> node_at p root = Some (NTable t) -> In k ref_keys -> In k' ref_keys -> k <> k' ->
    str_field t "git" <> None -> str_field t k <> None -> str_field t k' <> None -> first_marks root (p ++ [at_key k]) ls sp -> shown p tx ->
    manifest_says root (mkdiag SevError sp (bs "dependency specification " ++ code tx ++ bs " is ambigous, only one of `branch`, `tag` or `rev` is allowed") (bs "only one of `branch`, `tag` or `rev` is allowed") None ls)
| ms_no_git p t k ls sp tx : any_dep root p -> node_at p root = Some (NTable t) -> In k ref_keys ->
    str_field t "git" = None -> str_field t k <> None -> first_marks root (p ++ [at_key k]) ls sp -> shown p tx ->
    manifest_says root (mkdiag SevError sp (bs "invalid dependency specification " ++ code tx ++ bs "; " ++ code (bs k) ++ bs " without `git` is not allowed") (bs "not allowed without `git`") None ls)
| ms_version s sp g : any_reads root s -> text_span (sa_val s) = Ok sp ->
    version_says (s_start sp) (utf8 (sv_text (sa_val s))) g -> manifest_says root g
(* warnings *)
| ms_old p old new ls sp wh : old_name root p old new -> points root (p ++ [at_key old]) ls sp -> node_at (p ++ [at_key new]) root = None -> in_table p wh ->
    manifest_says root (mkdiag SevWarning sp (wh ++ code (bs old) ++ bs " is deprecated in favor of " ++ code (bs new) ++ bs " and will be unsupported in the 2024 edition")
      (bs "deprecated in favor of " ++ code (bs new)) None ls)
| ms_redundant p old new ls sp wh e r rs nsp : old_name root p old new -> points root (p ++ [at_key old]) ls sp -> entry_at (p ++ [at_key new]) root = Some e ->
    e_reprs e = r :: rs -> kind_span (r_kind r) = Ok nsp -> in_table p wh ->
    manifest_says root (mkdiag SevWarning sp (wh ++ code (bs old) ++ bs " is redundant with " ++ code (bs new) ++ bs " and will be unsupported in the 2024 edition")
      (bs "ignored") (Some (mkhint nsp (bs "used instead"))) ls)
| ms_missing p t ls sp : any_dep root p -> node_at p root = Some (NTable t) ->
    bool_field t "workspace" = None -> str_field t "git" = None -> str_field t "path" = None -> str_field t "version" = None -> points root p ls sp ->
    manifest_says root (mkdiag SevWarning sp (bs "missing one of `workspace`, `path`, `git` or `version`, this will be unsupported in the 2024 edition")
      (bs "missing one of `workspace`, `path`, `git` or `version`") None ls)
| ms_workspace_key p t w k wls wsp ls sp tx : any_dep root p -> node_at p root = Some (NTable t) ->
    bool_field t "workspace" = Some w -> bv_val (ba_val w) = true -> In k source_keys -> str_field t k <> None ->
    first_marks root (p ++ [at_key "workspace"]) wls wsp -> first_marks root (p ++ [at_key k]) ls sp -> shown (p ++ [at_key k]) tx ->
    manifest_says root (mkdiag SevWarning sp (bs "key " ++ code tx ++ bs " is ignored, because `workspace` is set") (bs "key is ignored")
      (Some (mkhint wsp (bs "defined here"))) ls)
| ms_unknown p k ls sp tx : unknown_key root p k -> points root (p ++ [SKey k]) ls sp -> shown (p ++ [SKey k]) tx ->
    manifest_says root (mkdiag SevWarning sp (bs "unknown key " ++ code tx ++ bs " is ignored") (bs "unknown key is ignored") None ls).
