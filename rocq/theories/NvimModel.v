(** Model of crates/nvim/src/lib.rs.

    The buffer is the list of its lines, as neovim gives them; a line that is
    not UTF-8 is undefined behaviour in the code and not modelled.  The
    conversion of the result to an object of neovim is not modelled. *)
From Verif Require Import Base CommonModel TomlError LexModel ParseModel MapModel IdeModel DisplayModel DiagModel.

(** nvim/src/lib.rs:24-31 [VimDiagnostic] *)
Record vim_diag := mkvim { v_lnum : N; v_end_lnum : N; v_col : N; v_end_col : N; v_message : list N }.
(** nvim/src/lib.rs:11-16 [VimDiagnostics] *)
Record vim_diags := mkvims { v_errors : list vim_diag; v_warnings : list vim_diag; v_infos : list vim_diag }.

(** nvim/src/lib.rs:86-97 [map_vim_diagnostic] *)
Definition map_vim_diagnostic (d : ddiag) : vim_diag :=
  mkvim (p_line (s_start (g_span d))) (p_line (s_end (g_span d)))
        (p_char (s_start (g_span d))) (p_char (s_end (g_span d))) (g_description d).

(** nvim/src/lib.rs:54-64: the text of the buffer *)
Definition buffer_text (lines : list (list N)) : list N := concat (map (fun l => l ++ [10]) lines).

(** nvim/src/lib.rs:49-84 [check_toml].  No diagnostic is an info. *)
Definition check_toml (prof : profile) (lines : list (list N)) : run vim_diags :=
  let text := buffer_text lines in
  let? (a, es) := lex_and_parse text in
  let? (m, es') := map_doc (as_asts a) in
  let? (_, ds) := check prof m in
  Ok (mkvims (map map_vim_diagnostic (map toml_diag (es ++ es') ++ map ide_diag (errors_of ds)))
             (map map_vim_diagnostic (map ide_diag (warnings_of ds))) []).
