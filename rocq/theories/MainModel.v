(** Model of crates/cli/src/main.rs:36-139: the command line tool, its
    arguments, what it prints and its exit code.  The file system, the clock
    and the [{:#?}] of the document's value are parameters.  What a run that
    panics has printed before is not modelled. *)
From Verif Require Import Base CommonModel LexModel ParseModel MapModel DisplayModel CliModel.

(** An item of [std::env::args]; getting one that is no unicode panics. *)
Inductive arg := Text (t : list N) | NotUnicode.
Definition next_arg (l : list arg) : run (option (list N) * list arg) :=
  match l with
  | [] => Ok (None, [])
  | Text t :: r => Ok (Some t, r)
  | NotUnicode :: _ => Panic
  end.

(** The pieces of a path between its slashes, last one first
    ([Path::components], std on unix). *)
Fixpoint pieces (cur : list N) (acc : list (list N)) (p : list N) : list (list N) :=
  match p with
  | [] => rev cur :: acc
  | c :: r => if c =? 47 then pieces [] (rev cur :: acc) r else pieces (c :: cur) acc r
  end.
(** [Path::file_name]: the last component, unless it is [..]; empty pieces and
    [.] are no components of their own. *)
Definition empty_or_dot (s : list N) : bool := match s with [] => true | [46] => true | _ => false end.
Definition file_name (p : list N) : option (list N) :=
  match filter (fun s => negb (empty_or_dot s)) (pieces [] [] p) with
  | [46; 46] :: _ | [] => None
  | n :: _ => Some n
  end.

Record output := mkout { o_stdout : list N; o_stderr : list N; o_success : bool }.
Definition nl : list N := [10].
Definition ansi_underlined : list N := ansi "[4m".

(** cli/src/main.rs:133-139 [help_message] *)
Definition help_message : list N :=
  bs "ctoml <mode> <file>" ++ nl ++ nl ++ bs "modes:" ++ nl ++
  bs "  " ++ ansi_underlined ++ bs "validate" ++ ansi_clear ++ bs "  to validate arbitrary toml files" ++ nl ++
  bs "  " ++ ansi_underlined ++ bs "check" ++ ansi_clear ++ bs "     to check a `Cargo.toml` manifest" ++ nl.
(** cli/src/main.rs:17-24 [error!] and 26-35 [input_error!] *)
Definition fail (msg : list N) : output := mkout [] (ansi_red ++ bs "error: " ++ msg ++ ansi_clear ++ nl) false.
Definition input_fail (msg : list N) : output :=
  mkout [] (ansi_red ++ bs "argument error: " ++ msg ++ ansi_clear ++ nl ++ nl ++ help_message) false.

(** [{:n}] of a number *)
Definition padded (n : nat) (v : N) : list N := repeat 32 (n - length (dec v)) ++ dec v.

(** [std::fs::read_to_string]: the text, or the error as it is displayed. *)
Inductive contents := Readable (text : list N) | Unreadable (why : list N).
Definition is_text (a b : list N) : bool := if list_eq_dec N.eq_dec a b then true else false.
(** [SystemTime::duration_since(..).unwrap().as_micros()], times in
    nanoseconds *)
Definition since (a b : N) : run N := if b <=? a then Ok ((a - b) / 1000) else Panic.

Section Main.
  Context (width : list N -> N) (prof : profile) (debug : list (list N * sval) -> list N) (fs : list N -> contents)
    (** the clock at [start], [lexing], [parsing], [mapping], [checking], [end] *)
    (t0 t1 t2 t3 t4 t5 : N).

  (** cli/src/main.rs:101-127 the report of the times *)
  Definition times (mode : mode) : run (list N) :=
    let? lexing := since t1 t0 in
    let? parsing := since t2 t1 in
    let? mapping := since t3 t2 in
    let? checking := since t4 t3 in
    let? simple := since t5 t4 in
    let? total := since t5 t0 in
    Ok (nl ++ bs "lexing   " ++ padded 6 lexing ++ bs "us" ++ nl ++
        bs "parsing  " ++ padded 6 parsing ++ bs "us" ++ nl ++
        bs "mapping  " ++ padded 6 mapping ++ bs "us" ++ nl ++
        match mode with Check => bs "checking " ++ padded 4 checking ++ bs "us" ++ nl | Validate => [] end ++
        bs "simple   " ++ padded 6 simple ++ bs "us" ++ nl ++
        bs "-----------------" ++ nl ++
        bs "total    " ++ padded 6 total ++ bs "us" ++ nl).

  (** cli/src/main.rs:58-130 with a file *)
  Definition main_file (mode : mode) (path : list N) : run output :=
    match fs path with
    | Unreadable e => Ok (fail (bs "error reading from file: " ++ e))
    | Readable text =>
        let? (simple, msgs) := ctoml width prof mode text in
        let? ts := times mode in
        Ok (mkout (debug simple ++ nl ++ concat msgs ++ ts) [] true)
    end.

  (** cli/src/main.rs:36-131 [main] *)
  Definition main (args : list arg) : run output :=
    let? (_, args) := next_arg args in
    let? (m, args) := next_arg args in
    match m with
    | None => Ok (input_fail (bs "missing mode"))
    | Some mode_str =>
        let with_mode (mode : mode) : run output :=
          let? (p, _) := next_arg args in
          match p with
          | None => Ok (input_fail (bs "missing argument <file>"))
          | Some path =>
              match file_name path with
              | Some name =>
                  match mode with
                  | Check => if negb (is_text name (bs "Cargo.toml"))
                             then Ok (input_fail (bs "file isn't named `Cargo.toml`, use mode `validate` for arbitrary toml files"))
                             else main_file mode path
                  | Validate => main_file mode path
                  end
              | None => Ok (input_fail (bs "<file> path is empty"))
              end
          end in
        if is_text mode_str (bs "validate") then with_mode Validate
        else if is_text mode_str (bs "check") then with_mode Check
        else Ok (input_fail (bs "invalid mode `" ++ mode_str ++ bs "`"))
    end.
End Main.
