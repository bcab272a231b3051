(** Model of crates/ide/src/index.rs and crates/ide/src/index/fetch.rs.

    Strings are UTF-8 bytes.  The decoder of one line ([serde_json::from_str]
    with the derived [Deserialize]) is an argument of [parse_crate]: see
    FetchModel, also for the HTTP request. *)
From Verif Require Import Base CommonModel.
From Verif Require SemverModel.

(** ** ide/src/index.rs *)

(** [str::starts_with], [str::strip_prefix] *)
Fixpoint strip_prefix (p s : bytes) : option bytes :=
  match p, s with
  | [], _ => Some s
  | a :: p', b :: s' => if a =? b then strip_prefix p' s' else None
  | _ :: _, [] => None
  end.
(** [str::contains] with a string *)
Fixpoint contains (p s : bytes) : bool :=
  match strip_prefix p s with
  | Some _ => true
  | None => match s with [] => false | _ :: r => contains p r end
  end.
Definition dep_prefix : bytes := bs "dep:".
(** index.rs:37-39 [as_dep], 41-43 [is_dep], 46-48 [is_dep_feature], 50-52 [is_weak_dep_feature] *)
Definition as_dep (m : bytes) : option bytes := strip_prefix dep_prefix m.
Definition is_dep (m : bytes) : bool := match strip_prefix dep_prefix m with Some _ => true | None => false end.
Definition is_dep_feature (m : bytes) : bool := contains (bs "/") m.
Definition is_weak_dep_feature (m : bytes) : bool := contains (bs "?/") m.
(** index.rs:61-74 [Ord for FeatureMember] *)
Definition member_cmp (a b : bytes) : comparison :=
  match as_dep a, as_dep b with
  | Some x, Some y => bytes_cmp x y
  | Some _, None => Gt
  | None, Some _ => Lt
  | None, None =>
      match is_dep_feature a, is_dep_feature b with
      | true, true | false, false => bytes_cmp a b
      | true, false => Gt
      | false, true => Lt
      end
  end.
(** index.rs:89-94 [DependencyKind], 77-87 [Dependency] *)
Inductive ikind := INormal | IDev | IBuild.
Record idep := mkidep {
  id_name : bytes; id_package : option bytes; id_req : SemverModel.version_req; id_default : bool;
  id_features : list bytes; id_kind : ikind; id_target : option bytes; id_optional : bool }.
(** [IndexMap]: pairs in insertion order *)
Notation imap := (list (bytes * list bytes)).
(** index.rs:17-25 [Version], 11-15 [Crate] *)
Record iversion := mkiv {
  iv_vers : SemverModel.version; iv_yanked : bool; iv_rust : option SemverModel.version;
  iv_default : option (list bytes); iv_features : imap; iv_deps : list idep }.
Record icrate := mkic { ic_name : bytes; ic_versions : list iversion }.

(** ** ide/src/index/fetch.rs *)

(** [str::is_char_boundary] *)
Definition boundary (s : bytes) (i : N) : bool :=
  match nth_error s (N.to_nat i) with
  | None => i =? blen s
  | Some b => (b <? 128) || (192 <=? b)
  end.
(** [&s[a..b]] *)
Definition slice (s : bytes) (a b : N) : res Empty_set bytes :=
  if (a <=? b) && boundary s a && boundary s b then Ok (firstn (N.to_nat (b - a)) (skipn (N.to_nat a) s)) else Panic.
Definition index_url : bytes := bs "https://index.crates.io/".
(** fetch.rs:55-58 [DependencyRegistry] *)
Inductive registry := CratesIo | OtherRegistry (index : bytes).
(** fetch.rs:32-52 [sparse_index_url]; [unreachable!] and [todo!] panic *)
Definition sparse_index_url (r : registry) (name : bytes) : res Empty_set bytes :=
  match r with
  | CratesIo =>
      match blen name with
      | 0 => Panic
      | 1 => Ok (index_url ++ bs "1/" ++ name)
      | 2 => Ok (index_url ++ bs "2/" ++ name)
      | 3 => let? d0 := slice name 0 1 in Ok (index_url ++ bs "3/" ++ d0 ++ bs "/" ++ name)
      | _ => let? d01 := slice name 0 2 in let? d23 := slice name 2 4 in
             Ok (index_url ++ d01 ++ bs "/" ++ d23 ++ bs "/" ++ name)
      end
  | OtherRegistry _ => Panic
  end.

(** fetch.rs:60-73 [DeserializeVersion] *)
Record entry := mkentry {
  en_name : bytes; en_vers : SemverModel.version; en_features : imap; en_features2 : imap;
  en_deps : list idep; en_yanked : bool; en_rust : option SemverModel.version }.
(** error.rs:11-25 [ErrorKind], [ParseError] (the cases of [parse_crate]) *)
Inductive ierror := EJson | ENoVersion | EMismatchedNames.

Definition has_key (m : imap) (k : bytes) : bool := existsb (fun x => bytes_eqb (fst x) k) m.
(** [IndexMap::insert]: an existing key keeps its place *)
Fixpoint imap_insert (m : imap) (k : bytes) (v : list bytes) : imap :=
  match m with
  | [] => [(k, v)]
  | (k', v') :: r => if bytes_eqb k' k then (k', v) :: r else (k', v') :: imap_insert r k v
  end.
Definition imap_collect (l : imap) : imap := fold_left (fun m x => imap_insert m (fst x) (snd x)) l [].
(** [IndexMap::swap_remove]: the last pair takes the place of the removed one *)
Fixpoint replace_key (m : imap) (k : bytes) (x : bytes * list bytes) : imap :=
  match m with
  | [] => []
  | y :: r => if bytes_eqb (fst y) k then x :: r else y :: replace_key r k x
  end.
Definition swap_remove (m : imap) (k : bytes) : option (list bytes) * imap :=
  match find (fun x => bytes_eqb (fst x) k) m with
  | None => (None, m)
  | Some (_, v) =>
      match rev m with
      | [] => (None, m)
      | x :: r => (Some v, if bytes_eqb (fst x) k then rev r else replace_key (rev r) k x)
      end
  end.
(** fetch.rs:128-147: one member *)
Definition normal_member (v : entry) (m : bytes) : bytes :=
  let explicit_dep := is_dep m in
  let feat_exists := has_key (en_features v) m || has_key (en_features2 v) m in
  let opt_dep_exists := existsb (fun d => match id_kind d with INormal => true | _ => false end && id_optional d && bytes_eqb (id_name d) m) (en_deps v) in
  if negb explicit_dep && negb feat_exists && opt_dep_exists then dep_prefix ++ m else m.
(** fetch.rs:122-155 *)
Definition all_features (v : entry) : imap :=
  imap_collect (map (fun x => (fst x, sort_by member_cmp (map (normal_member v) (snd x)))) (en_features v ++ en_features2 v)).
(** [IndexMap::sort_keys] *)
Definition sort_keys (m : imap) : imap := sort_by (fun a b => bytes_cmp (fst a) (fst b)) m.
(** fetch.rs:122-168: the body of the loop after the names *)
Definition read_version (v : entry) : iversion :=
  let (d, fs) := swap_remove (all_features v) (bs "default") in
  mkiv (en_vers v) (en_yanked v) (en_rust v) d (sort_keys fs) (en_deps v).
(** [str::lines]: like [lines] of common, but without a last empty line *)
Definition str_lines (s : bytes) : list bytes :=
  match rev (lines s) with [] :: r => rev r | _ => lines s end.

Section Parse.
Context (decode : bytes -> res Empty_set (option entry)).
(** fetch.rs:110-171: the loop *)
Fixpoint read_lines (ls : list bytes) (name : option bytes) : res ierror (option bytes * list iversion) :=
  match ls with
  | [] => Ok (name, [])
  | l :: r =>
      match decode l with
      | Panic => Panic
      | Err x => match x with end
      | Ok None => Err EJson
      | Ok (Some v) =>
          let? name := match name with
                       | Some n => if bytes_eqb n (en_name v) then Ok name else Err EMismatchedNames
                       | None => Ok (Some (en_name v))
                       end in
          let? (name, vs) := read_lines r name in
          Ok (name, read_version v :: vs)
      end
  end.
(** fetch.rs:109-179 [parse_crate] *)
Definition parse_crate (s : bytes) : res ierror icrate :=
  let? (name, vs) := read_lines (str_lines s) None in
  let versions := sort_by (fun a b => SemverModel.version_cmp (iv_vers a) (iv_vers b)) vs in
  match name with
  | None => Err ENoVersion
  | Some n => Ok (mkic n versions)
  end.
End Parse.
