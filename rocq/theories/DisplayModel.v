(** Model of the display part of crates/common/src/diagnostic.rs.

    Texts are lists of unicode scalar values, columns are byte offsets, and
    [slice] (LexModel) panics off a character boundary or out of range.  What
    a diagnostic says (its description and annotation) is data here.  The
    writer is a [String], so writing never fails.  Line numbers and columns
    are unbounded.  [width] stands for [UnicodeWidthStr::width] of the
    unicode-width crate, which is not modelled: every theorem holds for any
    such function. *)
From Verif Require Import Base CommonModel LitModel LexModel.

(** common/src/diagnostic.rs:66-71 [Severity] *)
Inductive severity := SevError | SevWarning | SevInfo | SevHint.

(** common/src/diagnostic.rs:73-82 [Display for Severity] *)
Definition severity_text (s : severity) : list N :=
  match s with
  | SevError => bs "error" | SevWarning => bs "warning" | SevInfo => bs "info" | SevHint => bs "hint"
  end.

(** common/src/diagnostic.rs:25-63: what the traits [Diagnostic] and
    [DiagnosticHint] give: severity, span, description, annotation, the hint
    with its annotation, and the context lines (none is the empty list,
    diagnostic.rs:111). *)
Record dhint := mkhint { h_span : span; h_annotation : list N }.
Record ddiag := mkdiag {
  g_severity : severity;
  g_span : span;
  g_description : list N;
  g_annotation : list N;
  g_hint : option dhint;
  g_lines : list N;
}.

(** common/src/diagnostic.rs:326-331 *)
Definition ansi (n : string) : list N := 27 :: bs n.
Definition ansi_clear : list N := ansi "[0m".
Definition ansi_red : list N := ansi "[91m".
Definition ansi_yellow : list N := ansi "[93m".
Definition ansi_blue : list N := ansi "[94m".
Definition ansi_cyan : list N := ansi "[96m".
(** common/src/diagnostic.rs:333-340 [ansii_esc_color] *)
Definition severity_color (s : severity) : list N :=
  match s with SevError => ansi_red | SevWarning => ansi_yellow | SevInfo => ansi_cyan | SevHint => ansi_blue end.
(** common/src/diagnostic.rs:342-349 [underline_char] *)
Definition underline_char (s : severity) : N := match s with SevHint => 45 | _ => 94 end.

(** [{n:4}]: decimal, padded on the left to four columns. *)
Definition pad4 (n : N) : list N := spaces (4 - length (dec n)) ++ dec n.

(** [&s[a..b]] and [&s[a..]] as text. *)
Definition text_slice (s : list N) (a b : N) : run (list N) := let? r := slice s a b in Ok (sr_text r).

(** common/src/diagnostic.rs:290-303 the loop of [display_line] over
    [char_indices]: [j] is the index of the first character of [rest]. *)
Fixpoint show_chars (line rest : list N) (j next_start : N) : run (list N) :=
  match rest with
  | [] => text_slice line next_start (tlen line)
  | c :: r =>
      if c =? 9 then show_chars line r (j + len_utf8 c) next_start
      else if (c <=? 31) || (c =? 127) then
        let? p := text_slice line next_start j in
        let? q := show_chars line r (j + len_utf8 c) (j + 1) in
        Ok (p ++ q)
      else show_chars line r (j + len_utf8 c) next_start
  end.
(** common/src/diagnostic.rs:286-306 [display_line] *)
Definition display_line (line_nr : N) (line : list N) : run (list N) :=
  let? t := show_chars line line 0 0 in
  Ok (ansi_blue ++ pad4 (line_nr + 1) ++ bs " |" ++ ansi_clear ++ bs " " ++ t ++ [10]).

Section Width.
  Context (width : list N -> N).

  (** common/src/diagnostic.rs:308-324 [calc_width] *)
  Fixpoint calc_width_from (line rest : list N) (j next_start : N) : run N :=
    match rest with
    | [] => let? s := text_slice line next_start (tlen line) in Ok (width s)
    | c :: r =>
        if c =? 9 then calc_width_from line r (j + len_utf8 c) next_start
        else if (c <=? 31) || (c =? 127) then
          let? p := text_slice line next_start j in
          let? w := calc_width_from line r (j + len_utf8 c) (j + 1) in
          Ok (width p + w)
        else calc_width_from line r (j + len_utf8 c) next_start
    end.
  Definition calc_width (line : list N) : run N := calc_width_from line line 0 0.

  (** common/src/diagnostic.rs:255-280 the loop of [display_body] over the
      lines of the slice; [i] counts from 0. *)
  Fixpoint body_lines (sev : severity) (ann : list N) (sp : span) (start_line num_lines i : N)
      (ls : list (list N)) : run (list N) :=
    match ls with
    | [] => Ok []
    | line :: r =>
        let? shown := display_line (start_line + i) line in
        let col_start := if i =? 0 then p_char (s_start sp) else 0 in
        let col_end := if i =? num_lines - 1 then p_char (s_end sp) else tlen line in
        let? before := text_slice line 0 col_start in
        let? num_spaces := calc_width before in
        let? spanned := text_slice line col_start col_end in
        let num_carets := N.max (width spanned) 1 in
        let last := if i =? num_lines - 1 then 32 :: ann else [] in
        let? rest := body_lines sev ann sp start_line num_lines (i + 1) r in
        Ok (shown ++ bs "     " ++ ansi_blue ++ bs "|" ++ ansi_clear ++ bs " " ++
            spaces (N.to_nat num_spaces) ++ severity_color sev ++
            repeat (underline_char sev) (N.to_nat num_carets) ++ last ++ ansi_clear ++ [10] ++ rest)
    end.
  (** common/src/diagnostic.rs:242-283 [display_body].  [end_line -
      start_line] underflows exactly when the slice below would panic. *)
  Definition display_body (sev : severity) (ann : list N) (sp : span) (text : list (list N)) : run (list N) :=
    let start_line := p_line (s_start sp) in
    let end_line := p_line (s_end sp) + 1 in
    if (start_line <=? end_line) && (end_line <=? N.of_nat (length text)) then
      body_lines sev ann sp start_line (end_line - start_line) 0
        (firstn (N.to_nat (end_line - start_line)) (skipn (N.to_nat start_line) text))
    else Panic.

  (** common/src/diagnostic.rs:164-180 [display_header] *)
  Definition display_header (d : ddiag) (text : list (list N)) : run (list N) :=
    let p := s_start (g_span d) in
    match nth_error text (N.to_nat (p_line p)) with
    | None => Panic
    | Some line =>
        let? before := text_slice line 0 (p_char p) in
        Ok (severity_color (g_severity d) ++ severity_text (g_severity d) ++ ansi_clear ++ bs ": " ++
            g_description d ++ [10] ++
            bs "    " ++ ansi_blue ++ bs "-->" ++ ansi_clear ++ bs " " ++ dec (p_line p + 1) ++ bs ":" ++
            dec (N.of_nat (length before)))
    end.

  (** common/src/diagnostic.rs:89-106 [display_context_lines] *)
  Fixpoint display_context_lines (text : list (list N)) (context : list N) (lo hi : N) : run (list N) :=
    match context with
    | [] => Ok []
    | l :: r =>
        if l <? lo then display_context_lines text r lo hi
        else if l <? hi then
          match nth_error text (N.to_nat l) with
          | None => Panic
          | Some line =>
              let? a := display_line l line in
              let? b := display_context_lines text r lo hi in
              Ok (a ++ b)
          end
        else Ok []
    end.

  (** common/src/lib.rs:143 derived [PartialOrd]: [a < b] *)
  Definition pos_ltb (a b : pos) : bool := match pos_cmp a b with Lt => true | _ => false end.

  (** common/src/diagnostic.rs:84-138 [display] *)
  Definition display (d : ddiag) (text : list (list N)) : run (list N) :=
    let? header := display_header d text in
    let main_span := g_span d in
    let? (first, current_line) :=
      match g_hint d with
      | Some h =>
          if pos_ltb (s_start (h_span h)) (s_start main_span) then
            let? c := display_context_lines text (g_lines d) 0 (p_line (s_start (h_span h))) in
            let? b := display_body SevHint (h_annotation h) (h_span h) text in
            Ok (c ++ b, p_line (s_end (h_span h)) + 1)
          else Ok ([], 0)
      | None => Ok ([], 0)
      end in
    let? c := display_context_lines text (g_lines d) current_line (p_line (s_start main_span)) in
    let? b := display_body (g_severity d) (g_annotation d) main_span text in
    let current_line := p_line (s_end main_span) + 1 in
    let? last :=
      match g_hint d with
      | Some h =>
          if pos_ltb (s_start (h_span h)) (s_start main_span) then Ok []
          else
            let? c := display_context_lines text (g_lines d) current_line (p_line (s_start (h_span h))) in
            let? b := display_body SevHint (h_annotation h) (h_span h) text in
            Ok (c ++ b)
      | None => Ok []
      end in
    Ok (header ++ [10] ++ bs "     " ++ ansi_blue ++ bs "|" ++ ansi_clear ++ [10] ++ first ++ c ++ b ++ last).
End Width.
