(** Specification of the sparse index (C41-C43).  Of IndexModel only the data
    types are used. *)
From Coq Require Export Permutation.
From Verif Require Import Base IndexModel.
From Verif Require SemverModel.

(** ** Index paths *)

(** A character: a byte below 128 alone, or a lead byte with its
    continuation bytes; a string of characters. *)
Definition chars (s : bytes) : Prop := exists cs, Forall (fun c => is_scalar c = true) cs /\ s = utf8 cs.
(** The directory of a crate, by the layout of the registry index. *)
Inductive directory : bytes -> bytes -> Prop :=
| dir_one a : directory [a] (bs "1/")
| dir_two a b : directory [a; b] (bs "2/")
| dir_three a b c : directory [a; b; c] (bs "3/" ++ [a] ++ bs "/")
| dir_more a b c d r : directory (a :: b :: c :: d :: r) ([a; b] ++ bs "/" ++ [c; d] ++ bs "/").

(** ** Members of features *)
Definition explicit (m : bytes) : Prop := exists n, m = bs "dep:" ++ n.
Definition of_dependency (m : bytes) : Prop := In 47 m.

(** ** Lines of the index *)

(** The lines of a file; the last one need not be terminated. *)
Inductive file_lines : bytes -> list bytes -> Prop :=
| fl_none : file_lines [] []
| fl_last l : ~ In 10 l -> l <> [] -> file_lines l [l]
| fl_lf l s ls : ~ In 10 l -> (forall r, l <> r ++ [13]) -> file_lines s ls -> file_lines (l ++ [10] ++ s) (l :: ls)
| fl_crlf l s ls : ~ In 10 l -> file_lines s ls -> file_lines (l ++ [13; 10] ++ s) (l :: ls).

(** What a line lists for a feature: the newer key counts. *)
Inductive lists (e : entry) (f : bytes) (l : list bytes) : Prop :=
| li_new : In (f, l) (en_features2 e) -> lists e f l
| li_old : In (f, l) (en_features e) -> ~ In f (map fst (en_features2 e)) -> lists e f l.
Definition is_feature (e : entry) (m : bytes) : Prop := In m (map fst (en_features e)) \/ In m (map fst (en_features2 e)).
Definition optional_dependency (e : entry) (m : bytes) : Prop :=
  exists d, In d (en_deps e) /\ id_kind d = INormal /\ id_optional d = true /\ id_name d = m.
(** A member that can only mean an optional dependency is written so. *)
Inductive normalised (e : entry) (m : bytes) : bytes -> Prop :=
| no_dep : ~ explicit m -> ~ is_feature e m -> optional_dependency e m -> normalised e m (bs "dep:" ++ m)
| no_same : explicit m \/ is_feature e m \/ ~ optional_dependency e m -> normalised e m m.

(** Members are in order: features, features of dependencies, dependencies;
    each by their text.  [le] is one of these. *)
Definition before (a b : bytes) : Prop := bytes_cmp a b <> Gt.
Inductive member_le (a b : bytes) : Prop :=
| ml_deps x y : a = bs "dep:" ++ x -> b = bs "dep:" ++ y -> before x y -> member_le a b
| ml_dep : ~ explicit a -> explicit b -> member_le a b
| ml_of : ~ explicit a -> ~ explicit b -> ~ of_dependency a -> of_dependency b -> member_le a b
| ml_same : ~ explicit a -> ~ explicit b -> (of_dependency a <-> of_dependency b) -> before a b -> member_le a b.

Definition sorted_by {A} (le : A -> A -> Prop) (l : list A) : Prop := forall a x b y c, l = a ++ x :: b ++ y :: c -> le x y.
(** The members of a feature. *)
Definition members (e : entry) (f : bytes) (ms : list bytes) : Prop :=
  exists l l', lists e f l /\ Forall2 (normalised e) l l' /\ Permutation l' ms /\ sorted_by member_le ms.
(** The version of a line. *)
Definition version_for (e : entry) (v : iversion) : Prop :=
  iv_vers v = en_vers e /\ iv_yanked v = en_yanked e /\ iv_rust v = en_rust e /\ iv_deps v = en_deps e /\
  (forall ms, iv_default v = Some ms <-> members e (bs "default") ms) /\
  (forall f ms, In (f, ms) (iv_features v) <-> f <> bs "default" /\ members e f ms) /\
  sorted_by (fun x y => bytes_cmp (fst x) (fst y) = Lt) (iv_features v).
(** The keys of a JSON object as the decoder keeps them are distinct. *)
Definition entry_ok (e : entry) : Prop := NoDup (map fst (en_features e)) /\ NoDup (map fst (en_features2 e)).
