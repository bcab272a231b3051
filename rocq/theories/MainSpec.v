(** Specification of the command line tool (C71). *)
From Verif Require Import Base CommonModel CliModel MainModel.

(** The name of the file at the end of a path: what stands after the last
    slash, apart from slashes and single dots. *)
Definition name_ok (n : list N) : Prop := n <> [] /\ n <> bs "." /\ n <> bs ".." /\ ~ In 47 n.
Inductive nothing : list N -> Prop :=
| no_more : nothing []
| no_slash r : nothing r -> nothing (47 :: r)
| no_dot r : nothing r -> nothing (47 :: 46 :: r).
Definition file_named (p n : list N) : Prop :=
  name_ok n /\ exists a b, p = a ++ n ++ b /\ (a = [] \/ exists a', a = a' ++ [47]) /\ nothing b.

(** The arguments after the name of the program. *)
Definition mode_name (m : mode) : list N := match m with Validate => bs "validate" | Check => bs "check" end.
Inductive usage_error : list arg -> list N -> Prop :=
| ue_no_mode : usage_error [] (bs "missing mode")
| ue_mode m r : (forall mode, m <> mode_name mode) -> usage_error (Text m :: r) (bs "invalid mode `" ++ m ++ bs "`")
| ue_no_file mode : usage_error [Text (mode_name mode)] (bs "missing argument <file>")
| ue_empty mode p r : (forall n, ~ file_named p n) -> usage_error (Text (mode_name mode) :: Text p :: r) (bs "<file> path is empty")
| ue_name p n r : file_named p n -> n <> bs "Cargo.toml" ->
    usage_error (Text (mode_name Check) :: Text p :: r) (bs "file isn't named `Cargo.toml`, use mode `validate` for arbitrary toml files").
(** The tool is run in a mode on the file at a path. *)
Inductive runs_on : list arg -> mode -> list N -> Prop :=
| ro_validate p n r : file_named p n -> runs_on (Text (bs "validate") :: Text p :: r) Validate p
| ro_check p r : file_named p (bs "Cargo.toml") -> runs_on (Text (bs "check") :: Text p :: r) Check p.
(** An argument that is looked at is no unicode. *)
Inductive garbled : list arg -> Prop :=
| ga_program l : garbled (NotUnicode :: l)
| ga_mode p l : garbled (p :: NotUnicode :: l)
| ga_file p mode l : garbled (p :: Text (mode_name mode) :: NotUnicode :: l).
(** A message in red, on standard error. *)
Definition red (s : list N) : list N := [27] ++ bs "[91m" ++ s ++ [27] ++ bs "[0m" ++ [10].
Definition underlined (s : list N) : list N := [27] ++ bs "[4m" ++ s ++ [27] ++ bs "[0m".
Definition usage : list N :=
  bs "ctoml <mode> <file>" ++ [10; 10] ++ bs "modes:" ++ [10] ++
  bs "  " ++ underlined (bs "validate") ++ bs "  to validate arbitrary toml files" ++ [10] ++
  bs "  " ++ underlined (bs "check") ++ bs "     to check a `Cargo.toml` manifest" ++ [10].
(** A line of the table of times: a name and microseconds. *)
Inductive time_line (name : string) (w : nat) : N -> list N -> Prop :=
| tl us k : (k = w - length (dec us))%nat -> time_line name w us (bs name ++ repeat 32 k ++ dec us ++ bs "us" ++ [10]).
(** The table, for the times (in nanoseconds) before and after each step;
    checking is listed if it was done. *)
Inductive time_table (m : mode) (t0 t1 t2 t3 t4 t5 : N) : list N -> Prop :=
| tt l p c k s t : time_line "lexing   " 6 ((t1 - t0) / 1000) l -> time_line "parsing  " 6 ((t2 - t1) / 1000) p ->
    time_line "mapping  " 6 ((t3 - t2) / 1000) c -> time_line "checking " 4 ((t4 - t3) / 1000) k ->
    time_line "simple   " 6 ((t5 - t4) / 1000) s -> time_line "total    " 6 ((t5 - t0) / 1000) t ->
    time_table m t0 t1 t2 t3 t4 t5
      ([10] ++ l ++ p ++ c ++ (match m with Check => k | Validate => [] end) ++ s ++ bs "-----------------" ++ [10] ++ t).
Definition steady (t0 t1 t2 t3 t4 t5 : N) : Prop := t0 <= t1 /\ t1 <= t2 /\ t2 <= t3 /\ t3 <= t4 /\ t4 <= t5.
