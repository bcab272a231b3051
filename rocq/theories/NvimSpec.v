(** Specification of the diagnostics of a buffer (C66). *)
From Verif Require Import Base CommonModel TomlError LitModel LexModel LexSpec MapModel IdeModel IdeSpec DiagModel NvimModel CliSpec.

(** A buffer of neovim: lines without line feeds. *)
Definition buffer (lines : list (list N)) : Prop := Forall (fun l => ~ In 10 l) lines.
(** A place in the buffer: a line, and a column (in bytes) between two
    characters of it, or at one of its ends. *)
Definition in_buffer (lines : list (list N)) (lnum col : N) : Prop :=
  exists line a b, nth_error lines (N.to_nat lnum) = Some line /\ line = a ++ b /\ col = tlen a.
(** The start of the line after the last one. *)
Definition past_end (lines : list (list N)) (lnum col : N) : Prop := lnum = N.of_nat (length lines) /\ col = 0.
Definition near_buffer (lines : list (list N)) (lnum col : N) : Prop := in_buffer lines lnum col \/ past_end lines lnum col.
(** A diagnostic covers a part of the buffer. *)
Definition covers (lines : list (list N)) (d : vim_diag) : Prop :=
  near_buffer lines (v_lnum d) (v_col d) /\ near_buffer lines (v_end_lnum d) (v_end_col d) /\
  (v_lnum d < v_end_lnum d \/ v_lnum d = v_end_lnum d /\ v_col d <= v_end_col d).
