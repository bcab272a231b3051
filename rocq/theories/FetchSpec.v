(** Specification of what is read from the index (C67, C68): when a JSON value
    describes a version of a crate.  Of the models only the data types are
    used. *)
From Verif Require Import Base CommonModel IndexModel FetchModel.
From Verif Require SemverModel SemverSpec.

Notation member := (bool * bytes * jval)%type.
Definition names (ms : list member) : list bytes := map (fun m => snd (fst m)) ms.
(** An object has one member of this name, or none. *)
Definition only (ms : list member) (k : bytes) (j : jval) : Prop :=
  exists a x b, ms = a ++ (x, k, j) :: b /\ ~ In k (names a) /\ ~ In k (names b).
Definition absent (ms : list member) (k : bytes) : Prop := ~ In k (names ms).
Definition required {A} (ms : list member) (k : bytes) (R : jval -> A -> Prop) (x : A) : Prop := exists j, only ms k j /\ R j x.
Definition optional {A} (ms : list member) (k : bytes) (R : jval -> A -> Prop) (none x : A) : Prop := (absent ms k /\ x = none) \/ required ms k R x.

(** A string; one that stands in the text without escapes. *)
Definition string_of (j : jval) (s : bytes) : Prop := exists x, j = JString x s.
Definition verbatim (j : jval) (s : bytes) : Prop := j = JString true s.
Definition bool_of (j : jval) (b : bool) : Prop := j = JBool b.
Definition or_null {A} (R : jval -> A -> Prop) (j : jval) (o : option A) : Prop :=
  match o with None => j = JNull | Some x => R j x end.
Definition list_of {A} (R : jval -> A -> Prop) (j : jval) (l : list A) : Prop := exists js, j = JArray js /\ Forall2 R js l.
(** Versions and requirements are written as in the grammar of C04 and C07. *)
Definition version_of (j : jval) (v : SemverModel.version) : Prop := exists s, string_of j s /\ SemverSpec.version_grammar s v.
Definition requirement_of (j : jval) (r : SemverModel.version_req) : Prop :=
  exists s cs, string_of j s /\ SemverSpec.req_grammar s cs /\ r = SemverModel.mkreq pos_zero (blen s) cs.
(** A map from names to lists of names: the names in the order they come up
    first, each with the list it is given last. *)
Fixpoint firsts (l : list bytes) : list bytes :=
  match l with [] => [] | k :: r => k :: filter (fun x => negb (bytes_eqb x k)) (firsts r) end.
Definition features_of (j : jval) (m : imap) : Prop :=
  exists ms, j = JObject ms /\ Forall (fun x => fst (fst x) = true /\ exists l, list_of verbatim (snd x) l) ms /\
    map fst m = firsts (names ms) /\
    forall k l, In (k, l) m <-> exists a x b j, ms = a ++ (x, k, j) :: b /\ ~ In k (names b) /\ list_of verbatim j l.
Inductive kind_name : bytes -> ikind -> Prop :=
| kn_normal : kind_name (bs "normal") INormal
| kn_dev : kind_name (bs "dev") IDev
| kn_build : kind_name (bs "build") IBuild.
Inductive kind_of : jval -> ikind -> Prop :=
| ko_name x s k : kind_name s k -> kind_of (JString x s) k
| ko_object x s k : kind_name s k -> kind_of (JObject [(x, s, JNull)]) k.

(** A dependency. *)
Inductive dep_of : jval -> idep -> Prop :=
| dep_object ms d :
    required ms (bs "name") string_of (id_name d) ->
    optional ms (bs "package") (or_null string_of) None (id_package d) ->
    required ms (bs "req") requirement_of (id_req d) ->
    required ms (bs "default_features") bool_of (id_default d) ->
    required ms (bs "features") (list_of string_of) (id_features d) ->
    required ms (bs "kind") kind_of (id_kind d) ->
    optional ms (bs "target") (or_null string_of) None (id_target d) ->
    required ms (bs "optional") bool_of (id_optional d) ->
    dep_of (JObject ms) d
| dep_array n pk r df fs kd tg op d :
    string_of n (id_name d) -> or_null string_of pk (id_package d) -> requirement_of r (id_req d) -> bool_of df (id_default d) ->
    list_of string_of fs (id_features d) -> kind_of kd (id_kind d) -> or_null string_of tg (id_target d) -> bool_of op (id_optional d) ->
    dep_of (JArray [n; pk; r; df; fs; kd; tg; op]) d.
(** A version of a crate. *)
Inductive entry_of : jval -> entry -> Prop :=
| entry_object ms e :
    required ms (bs "name") verbatim (en_name e) ->
    required ms (bs "vers") version_of (en_vers e) ->
    required ms (bs "features") features_of (en_features e) ->
    optional ms (bs "features2") features_of [] (en_features2 e) ->
    required ms (bs "deps") (list_of dep_of) (en_deps e) ->
    required ms (bs "yanked") bool_of (en_yanked e) ->
    optional ms (bs "rust_version") (or_null version_of) None (en_rust e) ->
    entry_of (JObject ms) e
| entry_array n v f f2 d y r e :
    verbatim n (en_name e) -> version_of v (en_vers e) -> features_of f (en_features e) -> features_of f2 (en_features2 e) ->
    list_of dep_of d (en_deps e) -> bool_of y (en_yanked e) -> or_null version_of r (en_rust e) ->
    entry_of (JArray [n; v; f; f2; d; y; r]) e.

(** The strings in a value. *)
Inductive mentions : jval -> bytes -> Prop :=
| mn_string x s : mentions (JString x s) s
| mn_array l j s : In j l -> mentions j s -> mentions (JArray l) s
| mn_object l x k j s : In (x, k, j) l -> mentions j s -> mentions (JObject l) s.
