(** Model of what the command line tool writes to its standard output: the
    value, formatted with [{:#?}] (cli/src/main.rs:81; toml/src/util.rs:87-100;
    the derived [Debug] of toml/src/datetime.rs and the builders of
    [core::fmt]), and the messages.

    Of the standard library, which characters [char::escape_debug] writes as
    they are ([shown]) and how [f64] is formatted ([fshow]) are parameters. *)
From Verif Require Import Base CommonModel TomlError LitModel DiagModel CliModel.

Section Debug.
  Context (shown : N -> bool) (fshow : fval -> list N).

  (** [char::escape_debug_ext] with single quotes as they are *)
  Definition escape_debug (c : N) : list N :=
    if c =? 0 then bs "\0"
    else if c =? 9 then bs "\t"
    else if c =? 13 then bs "\r"
    else if c =? 10 then bs "\n"
    else if c =? 92 then bs "\\"
    else if c =? 34 then [92; 34]
    else if shown c then [c]
    else bs "\u{" ++ hex c ++ bs "}".
  (** [<str as Debug>::fmt] *)
  Definition debug_str (s : list N) : list N := [34] ++ flat_map escape_debug s ++ [34].
  (** [Debug] of integers: decimal *)
  Definition debug_int (z : Z) : list N := (if (z <? 0)%Z then [45] else []) ++ dec (Z.abs_N z).

  (** [core::fmt::builders::PadAdapter]: four blanks at the start of every line *)
  Fixpoint pad (on_newline : bool) (s : list N) : list N :=
    match s with
    | [] => []
    | c :: r => (if on_newline then [32; 32; 32; 32] else []) ++ c :: pad (c =? 10) r
    end.
  (** The entries of a builder in alternate mode, each with a comma and a line
      break through its own [PadAdapter] *)
  Definition entries (l : list (list N)) : list N := flat_map (fun e => pad true (e ++ [44; 10])) l.
  (** [DebugList], [DebugMap]: nothing between the delimiters if empty *)
  Definition debug_set (left right : list N) (l : list (list N)) : list N :=
    match l with
    | [] => left ++ right
    | _ => left ++ [10] ++ entries l ++ right
    end.
  (** [DebugTuple] *)
  Definition debug_tuple (name : list N) (l : list (list N)) : list N := name ++ bs "(" ++ [10] ++ entries l ++ bs ")".
  (** [DebugStruct] *)
  Definition debug_struct (name : list N) (l : list (list N * list N)) : list N :=
    name ++ bs " {" ++ [10] ++ entries (map (fun f => fst f ++ bs ": " ++ snd f) l) ++ bs "}".

  (** toml/src/datetime.rs:18-23 *)
  Definition debug_date (d : date) : list N :=
    debug_struct (bs "Date") [(bs "year", dec (dt_year d)); (bs "month", dec (dt_month d)); (bs "day", dec (dt_day d))].
  (** toml/src/datetime.rs:31-37 *)
  Definition debug_time (t : time) : list N :=
    debug_struct (bs "Time") [(bs "hour", dec (tm_hour t)); (bs "minute", dec (tm_minute t)); (bs "second", dec (tm_second t)); (bs "nanos", dec (tm_nanos t))].
  (** toml/src/datetime.rs:50-56 *)
  Definition debug_offset (o : offset) : list N :=
    match o with OUtc => bs "Utc" | OCustom m => debug_tuple (bs "Custom") [debug_int m] end.
  (** toml/src/datetime.rs:2-8 *)
  Definition debug_datetime (d : datetime) : list N :=
    match d with
    | OffsetDateTime d t o => debug_tuple (bs "OffsetDateTime") [debug_date d; debug_time t; debug_offset o]
    | LocalDateTime d t => debug_tuple (bs "LocalDateTime") [debug_date d; debug_time t]
    | LocalDate d => debug_tuple (bs "LocalDate") [debug_date d]
    | LocalTime t => debug_tuple (bs "LocalTime") [debug_time t]
    end.

  (** toml/src/util.rs:87-100 [Debug for SimpleVal]; the entries of a map are
      [key: value] *)
  Fixpoint debug (v : sval) : list N :=
    match v with
    | STable t => debug_set (bs "{") (bs "}") (map (fun kv => debug_str (fst kv) ++ bs ": " ++ debug (snd kv)) t)
    | SArray l => debug_set (bs "[") (bs "]") (map debug l)
    | SString s => debug_str s
    | SInt z => debug_int z
    | SFloat f => fshow f
    | SBool b => if b then bs "true" else bs "false"
    | SDateTime d => debug_datetime d
    | SInvalid s => debug_tuple (bs "Invalid") [debug_str s]
    end.

  (** cli/src/main.rs:81-98: the standard output up to the report of the
      times; the messages come with their line breaks ([CliModel.show_all]) *)
  Definition stdout (v : list (list N * sval)) (msgs : list (list N)) : list N :=
    debug (STable v) ++ [10] ++ concat msgs.
End Debug.
