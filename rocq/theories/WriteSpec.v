(** Specification of writing values as TOML (C82): which values there are to
    write, and one way of writing each: a line for every key of the document,
    values in line. *)
From Verif Require Import Base CommonModel TomlError LitModel LitSpec LexSpec CliModel.

(** The values of TOML: tables with different keys, strings and keys of
    unicode scalar values, integers of 64 bits, decimal numbers, infinities
    and NaNs, and dates and times that exist. *)
Definition unicode (s : list N) : Prop := Forall (fun c => is_scalar c = true) s.
Inductive toml_value : sval -> Prop :=
| TV_table t : NoDup (map fst t) -> Forall (fun kv => unicode (fst kv) /\ toml_value (snd kv)) t -> toml_value (STable t)
| TV_array l : Forall toml_value l -> toml_value (SArray l)
| TV_string s : unicode s -> toml_value (SString s)
| TV_int z : (- 2 ^ 63 <= z < 2 ^ 63)%Z -> toml_value (SInt z)
| TV_float f : toml_value (SFloat f)
| TV_bool b : toml_value (SBool b)
| TV_datetime d : valid_datetime d -> toml_value (SDateTime d).
(** How deep tables and arrays are nested *)
Fixpoint depth (v : sval) : N :=
  match v with
  | STable t => 1 + fold_right N.max 0 (map (fun kv => depth (snd kv)) t)
  | SArray l => 1 + fold_right N.max 0 (map depth l)
  | _ => 0
  end.

Definition write_int (z : Z) : list N := (if (z <? 0)%Z then [45] else []) ++ dec (Z.abs_N z).
Definition write_float (f : fval) : list N :=
  match f with
  | FDec neg m e => (if neg then [45] else []) ++ dec m ++ [101] ++ write_int e
  | FInf neg => (if neg then [45] else []) ++ bs "inf"
  | FNan neg => (if neg then [45] else []) ++ bs "nan"
  end.
(** Nine digits *)
Definition nine (n : N) : list N := repeat 48 (9 - length (dec n)) ++ dec n.
Definition write_time (t : time) : list N :=
  two (tm_hour t) ++ [58] ++ two (tm_minute t) ++ [58] ++ two (tm_second t) ++
  (if tm_nanos t =? 0 then [] else [46] ++ nine (tm_nanos t)).
Definition write_offset (o : offset) : list N :=
  match o with
  | OUtc => [90]
  | OCustom m => (if (m <? 0)%Z then [45] else [43]) ++ two (Z.abs_N m / 60) ++ [58] ++ two (Z.abs_N m mod 60)
  end.
Definition write_datetime (d : datetime) : list N :=
  match d with
  | OffsetDateTime d t o => date_text d ++ [84] ++ write_time t ++ write_offset o
  | LocalDateTime d t => date_text d ++ [84] ++ write_time t
  | LocalDate d => date_text d
  | LocalTime t => write_time t
  end.
(** Parts with a comma and a blank between them *)
Fixpoint listed (l : list (list N)) : list N :=
  match l with
  | [] => []
  | x :: r => x ++ match r with [] => [] | _ => [44; 32] ++ listed r end
  end.
Fixpoint write_value (v : sval) : list N :=
  match v with
  | STable t => [123] ++ listed (map (fun kv => write_basic (fst kv) ++ bs " = " ++ write_value (snd kv)) t) ++ [125]
  | SArray l => [91] ++ listed (map write_value l) ++ [93]
  | SString s => write_basic s
  | SInt z => write_int z
  | SFloat f => write_float f
  | SBool b => if b then bs "true" else bs "false"
  | SDateTime d => write_datetime d
  | SInvalid _ => []
  end.
Definition write_document (t : list (list N * sval)) : list N :=
  flat_map (fun kv => write_basic (fst kv) ++ bs " = " ++ write_value (snd kv) ++ [10]) t.
