(** Specification of the command line tool and of the places that the
    diagnostics of a manifest point at (C60-C64). *)
From Verif Require Import Base CommonModel CommonSpec TomlError LitModel LexModel LexSpec ParseModel ParseSpec ParsePlace MapModel MapSpec IdeModel IdeSpec DisplayModel DisplaySpec DiagModel CliModel.
From Verif Require SemverModel SemverSpec.
From Coq Require Import Permutation.

(** ** Places *)

(** Lines of a document, in order, without repetition. *)
Definition lines_in (input : list N) (ls : list N) : Prop :=
  increasing ls /\ Forall (fun n => exists p, pos_in input p /\ p_line p = n) ls.
(** A string is written as it is: without escapes, on one line, and closed. *)
Definition verbatim (s : strval) : Prop :=
  sr_text (sv_lit s) = delims (sv_quote s) ++ sv_text s ++ delims (sv_quote s) /\ ~ In 10 (sv_text s).
(** An error of the requirement [text] marks a part of it where it stands in
    the document, and says what that part is. *)
Definition marks_part (input text : list N) (e : SemverModel.error) : Prop :=
  exists pre x y z post, text = x ++ y ++ z /\ input = pre ++ text ++ post /\
    SemverModel.error_span e = mkspan (pos_at (pre ++ x)) (pos_at (pre ++ x ++ y)) /\
    SemverSpec.error_says e (utf8 x) (utf8 y) (utf8 z).
(** Where a diagnostic of the manifest points: at a part of the document; so
    does its hint.  An error in a requirement points into the string that was
    read as one, at the text that it is about; if the string is not written as
    it is, the place may be off. *)
Definition diag_place (root : node) (input : list N) (d : diag) : Prop :=
  match d with
  | DError ls _ sp _ => span_in input sp /\ lines_in input ls
  | DWarn ls _ sp k => span_in input sp /\ lines_in input ls /\ forall h, cargo_hint k = Some h -> span_in input (h_span h)
  | DSemver e => exists s sp, any_reads root s /\ text_span (sa_val s) = Ok sp /\
      SemverSpec.error_marks (s_start sp) (utf8 (sv_text (sa_val s))) e /\
      (verbatim (sa_val s) -> marks_part input (sv_text (sa_val s)) e)
  end.

(** ** What is reported *)

(** The value and the diagnostics of a text: the errors of the lexer and the
    parser, then those of the mapping, then those of the check. *)
Inductive reported (prof : profile) : mode -> list N -> mtable -> list ddiag -> list ddiag -> Prop :=
| rep_validate text a es m es' :
    lex_and_parse text = Ok (a, es) -> map_doc (as_asts a) = Ok (m, es') ->
    reported prof Validate text m (map toml_diag (es ++ es')) []
| rep_check text a es m es' deps ds :
    lex_and_parse text = Ok (a, es) -> map_doc (as_asts a) = Ok (m, es') -> check prof m = Ok (deps, ds) ->
    reported prof Check text m (map toml_diag (es ++ es') ++ map ide_diag (errors_of ds)) (map ide_diag (warnings_of ds)).
(** All that a diagnostic points at is text of the document. *)
Definition showable (text : list N) (d : ddiag) : Prop :=
  span_on_text (lines text) (g_span d) /\ forall h, g_hint d = Some h -> span_on_text (lines text) (h_span h).
(** [l'] is [l] in the order in which its diagnostics start; those that start
    at the same place stay in the order of [l]. *)
Definition by_start (l l' : list ddiag) : Prop :=
  Permutation l' l /\ CommonSpec.in_order g_span l' /\ forall p, starting_at g_span p l' = starting_at g_span p l.
