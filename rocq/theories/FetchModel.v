(** Model of crates/semver/src/serde.rs, of the types that
    crates/ide/src/index.rs and crates/ide/src/index/fetch.rs read from JSON,
    and of [fetch_crate].

    Strings are UTF-8 bytes.  Arguments of the model, not modelled: the text
    of JSON ([json] gives the value that a line stands for, if it stands for
    one), the request ([send] gives status and body of the response, if there
    is one), and which addresses [http_req] takes ([uri_ok]).  The code reads
    the text of a line and its values at the same time; here the text is read
    first, so of a line with both a malformed text and a malformed value it is
    always the text that counts (the outcome is the same unless the value
    makes a debug build panic). *)
From Verif Require Import Base CommonModel IndexModel.
From Verif Require SemverModel DiagModel.

(** Errors of serde are not distinguished ([ErrorKind::Json]). *)
Notation de := (res unit).

(** ** semver/src/serde.rs *)

Section Serde.
Context (prof : profile).

(** serde.rs:15-19, 42-46 [Serialize]: what [Display] writes *)
Definition serialize_version (v : SemverModel.version) : bytes := SemverModel.version_text v.
Definition serialize_requirement (r : SemverModel.version_req) : option bytes := SemverModel.fmt_requirement false r.
(** serde.rs:36-38 [visit_str] for versions, 63-65 for requirements; the
    error is the text of the parser's error (serde.rs:9-13) *)
Definition visit_version (s : bytes) : res (list N) SemverModel.version :=
  match SemverModel.parse_version prof s pos_zero with
  | Ok v => Ok v
  | Err e => Err (DiagModel.semver_description e)
  | Panic => Panic
  end.
Definition visit_requirement (s : bytes) : res (list N) SemverModel.version_req :=
  match SemverModel.parse_requirement prof s pos_zero with
  | Ok r => Ok r
  | Err e => Err (DiagModel.semver_description e)
  | Panic => Panic
  end.

(** ** Values of JSON *)

(** A string tells whether it stands in the text as it is, without escapes:
    only such a string can be borrowed.  The members of an object are in the
    order of the text and may repeat. *)
Inductive jval :=
| JNull
| JBool (b : bool)
| JNumber (s : bytes)
| JString (verbatim : bool) (s : bytes)
| JArray (l : list jval)
| JObject (l : list (bool * bytes * jval)).

(** [Deserialize for &str], [for Box<str>], [for bool] *)
Definition de_borrowed (j : jval) : de bytes := match j with JString true s => Ok s | _ => Err tt end.
Definition de_string (j : jval) : de bytes := match j with JString _ s => Ok s | _ => Err tt end.
Definition de_bool (j : jval) : de bool := match j with JBool b => Ok b | _ => Err tt end.
(** [Deserialize for Option<T>], [for Vec<T>] *)
Definition de_option {A} (d : jval -> de A) (j : jval) : de (option A) :=
  match j with JNull => Ok None | _ => let? x := d j in Ok (Some x) end.
Fixpoint de_list {A} (d : jval -> de A) (l : list jval) : de (list A) :=
  match l with
  | [] => Ok []
  | j :: r => let? x := d j in let? xs := de_list d r in Ok (x :: xs)
  end.
Definition de_vec {A} (d : jval -> de A) (j : jval) : de (list A) :=
  match j with JArray l => de_list d l | _ => Err tt end.
(** [Deserialize for IndexMap<&str, Vec<&str>>]: the members are inserted one
    by one *)
Fixpoint de_members (l : list (bool * bytes * jval)) : de imap :=
  match l with
  | [] => Ok []
  | (verbatim, k, j) :: r =>
      if verbatim then let? v := de_vec de_borrowed j in let? m := de_members r in Ok ((k, v) :: m)
      else Err tt
  end.
Definition de_features (j : jval) : de imap :=
  match j with JObject l => let? m := de_members l in Ok (imap_collect m) | _ => Err tt end.
(** serde.rs:21-25, 48-52 [deserialize_str] *)
Definition de_version (j : jval) : de SemverModel.version :=
  match j with
  | JString _ s => match visit_version s with Ok v => Ok v | Err _ => Err tt | Panic => Panic end
  | _ => Err tt
  end.
Definition de_requirement (j : jval) : de SemverModel.version_req :=
  match j with
  | JString _ s => match visit_requirement s with Ok v => Ok v | Err _ => Err tt | Panic => Panic end
  | _ => Err tt
  end.
(** index.rs:89-95 [DependencyKind] ([rename_all = "snake_case"]): a unit
    variant is its name, or an object with its name and null *)
Definition kind_named (s : bytes) : de ikind :=
  if bytes_eqb s (bs "normal") then Ok INormal
  else if bytes_eqb s (bs "dev") then Ok IDev
  else if bytes_eqb s (bs "build") then Ok IBuild
  else Err tt.
Definition de_kind (j : jval) : de ikind :=
  match j with
  | JString _ s => kind_named s
  | JObject [(_, s, JNull)] => kind_named s
  | _ => Err tt
  end.

(** ** Derived [Deserialize] of structs *)

(** A member given twice is an error; members of other names are skipped. *)
Definition once {A} (o : option A) (d : de A) : de (option A) :=
  match o with Some _ => Err tt | None => let? x := d in Ok (Some x) end.
(** A missing member is an error ... *)
Definition need {A} (o : option A) : de A := match o with Some x => Ok x | None => Err tt end.
(** ... except for an [Option], and with [#[serde(default)]]. *)
Definition or_default {A} (d : A) (o : option A) : de A := match o with Some x => Ok x | None => Ok d end.

(** index.rs:76-87 [Dependency] *)
Record pdep := mkpdep {
  pd_name : option bytes; pd_package : option (option bytes); pd_req : option SemverModel.version_req;
  pd_default : option bool; pd_features : option (list bytes); pd_kind : option ikind;
  pd_target : option (option bytes); pd_optional : option bool }.
Definition dep_member (p : pdep) (k : bytes) (j : jval) : de pdep :=
  let '(mkpdep n pk r df fs kd tg op) := p in
  if bytes_eqb k (bs "name") then let? x := once n (de_string j) in Ok (mkpdep x pk r df fs kd tg op)
  else if bytes_eqb k (bs "package") then let? x := once pk (de_option de_string j) in Ok (mkpdep n x r df fs kd tg op)
  else if bytes_eqb k (bs "req") then let? x := once r (de_requirement j) in Ok (mkpdep n pk x df fs kd tg op)
  else if bytes_eqb k (bs "default_features") then let? x := once df (de_bool j) in Ok (mkpdep n pk r x fs kd tg op)
  else if bytes_eqb k (bs "features") then let? x := once fs (de_vec de_string j) in Ok (mkpdep n pk r df x kd tg op)
  else if bytes_eqb k (bs "kind") then let? x := once kd (de_kind j) in Ok (mkpdep n pk r df fs x tg op)
  else if bytes_eqb k (bs "target") then let? x := once tg (de_option de_string j) in Ok (mkpdep n pk r df fs kd x op)
  else if bytes_eqb k (bs "optional") then let? x := once op (de_bool j) in Ok (mkpdep n pk r df fs kd tg x)
  else Ok p.
Fixpoint dep_members (p : pdep) (l : list (bool * bytes * jval)) : de pdep :=
  match l with [] => Ok p | (_, k, j) :: r => let? p := dep_member p k j in dep_members p r end.
Definition dep_done (p : pdep) : de idep :=
  let? n := need (pd_name p) in
  let? pk := or_default None (pd_package p) in
  let? r := need (pd_req p) in
  let? df := need (pd_default p) in
  let? fs := need (pd_features p) in
  let? kd := need (pd_kind p) in
  let? tg := or_default None (pd_target p) in
  let? op := need (pd_optional p) in
  Ok (mkidep n pk r df fs kd tg op).
(** A struct may also be an array of all its members in order. *)
Definition de_dep (j : jval) : de idep :=
  match j with
  | JObject l => let? p := dep_members (mkpdep None None None None None None None None) l in dep_done p
  | JArray [n; pk; r; df; fs; kd; tg; op] =>
      let? n := de_string n in
      let? pk := de_option de_string pk in
      let? r := de_requirement r in
      let? df := de_bool df in
      let? fs := de_vec de_string fs in
      let? kd := de_kind kd in
      let? tg := de_option de_string tg in
      let? op := de_bool op in
      Ok (mkidep n pk r df fs kd tg op)
  | _ => Err tt
  end.

(** fetch.rs:60-73 [DeserializeVersion] *)
Record pentry := mkpentry {
  pe_name : option bytes; pe_vers : option SemverModel.version; pe_features : option imap; pe_features2 : option imap;
  pe_deps : option (list idep); pe_yanked : option bool; pe_rust : option (option SemverModel.version) }.
Definition entry_member (p : pentry) (k : bytes) (j : jval) : de pentry :=
  let '(mkpentry n v f f2 d y r) := p in
  if bytes_eqb k (bs "name") then let? x := once n (de_borrowed j) in Ok (mkpentry x v f f2 d y r)
  else if bytes_eqb k (bs "vers") then let? x := once v (de_version j) in Ok (mkpentry n x f f2 d y r)
  else if bytes_eqb k (bs "features") then let? x := once f (de_features j) in Ok (mkpentry n v x f2 d y r)
  else if bytes_eqb k (bs "features2") then let? x := once f2 (de_features j) in Ok (mkpentry n v f x d y r)
  else if bytes_eqb k (bs "deps") then let? x := once d (de_vec de_dep j) in Ok (mkpentry n v f f2 x y r)
  else if bytes_eqb k (bs "yanked") then let? x := once y (de_bool j) in Ok (mkpentry n v f f2 d x r)
  else if bytes_eqb k (bs "rust_version") then let? x := once r (de_option de_version j) in Ok (mkpentry n v f f2 d y x)
  else Ok p.
Fixpoint entry_members (p : pentry) (l : list (bool * bytes * jval)) : de pentry :=
  match l with [] => Ok p | (_, k, j) :: r => let? p := entry_member p k j in entry_members p r end.
Definition entry_done (p : pentry) : de entry :=
  let? n := need (pe_name p) in
  let? v := need (pe_vers p) in
  let? f := need (pe_features p) in
  let? f2 := or_default [] (pe_features2 p) in
  let? d := need (pe_deps p) in
  let? y := need (pe_yanked p) in
  let? r := or_default None (pe_rust p) in
  Ok (mkentry n v f f2 d y r).
Definition de_entry (j : jval) : de entry :=
  match j with
  | JObject l => let? p := entry_members (mkpentry None None None None None None None) l in entry_done p
  | JArray [n; v; f; f2; d; y; r] =>
      let? n := de_borrowed n in
      let? v := de_version v in
      let? f := de_features f in
      let? f2 := de_features f2 in
      let? d := de_vec de_dep d in
      let? y := de_bool y in
      let? r := de_option de_version r in
      Ok (mkentry n v f f2 d y r)
  | _ => Err tt
  end.

(** ** ide/src/index/fetch.rs *)

Context (json : bytes -> option jval).
(** fetch.rs:113 [serde_json::from_str] *)
Definition decode (line : bytes) : res Empty_set (option entry) :=
  match json line with
  | None => Ok None
  | Some j => match de_entry j with Ok e => Ok (Some e) | Err _ => Ok None | Panic => Panic end
  end.

(** [std::str::from_utf8]: the characters are taken off one by one *)
Fixpoint from_utf8_fuel (fuel : nat) (s : bytes) : bool :=
  match s with
  | [] => true
  | _ =>
      match fuel with
      | O => false
      | S f =>
          match utf8_first s with
          | Some c =>
              if is_scalar c then
                match strip_prefix (utf8_char c) s with Some r => from_utf8_fuel f r | None => false end
              else false
          | None => false
          end
      end
  end.
Definition from_utf8 (s : bytes) : bool := from_utf8_fuel (length s) s.

(** error.rs:11-19 [ErrorKind], 4-9 [Error] *)
Inductive fkind := FRequest | FNotFound | FStatus (code : N) | FUtf8 | FParse (e : ierror).
Record ferror := mkferror { fe_name : bytes; fe_url : bytes; fe_kind : fkind }.

Context (uri_ok : bytes -> bool) (send : bytes -> option (N * bytes)).
(** fetch.rs:85-107 [fetch_crate_from_url]; [StatusCode::is_success] of
    http_req is 200 to 299 *)
Definition fetch_crate_from_url (url : bytes) : res fkind icrate :=
  if uri_ok url then
    match send url with
    | None => Err FRequest
    | Some (status, body) =>
        if (200 <=? status) && (status <? 300) then
          if from_utf8 body then
            match parse_crate decode body with Ok c => Ok c | Err e => Err (FParse e) | Panic => Panic end
          else Err FUtf8
        else if status =? 404 then Err FNotFound
        else Err (FStatus status)
    end
  else Panic.
(** fetch.rs:75-83 [fetch_crate] *)
Definition fetch_crate (registry : registry) (name : bytes) : res ferror icrate :=
  match sparse_index_url registry name with
  | Ok url =>
      match fetch_crate_from_url url with
      | Ok c => Ok c
      | Err k => Err (mkferror name url k)
      | Panic => Panic
      end
  | Err x => match x with end
  | Panic => Panic
  end.
End Serde.
