(** Independent specification of the common crate. *)
From Verif Require Import Base CommonModel.

(** Reading order of positions: line first, then column. *)
Definition pos_lt (a b : pos) : Prop :=
  p_line a < p_line b \/ (p_line a = p_line b /\ p_char a < p_char b).

(** One report to a diagnostics sink. *)
Inductive report (E W I : Type) := RErr (e : E) | RWarn (w : W) | RInfo (i : I).
Arguments RErr {E W I}. Arguments RWarn {E W I}. Arguments RInfo {E W I}.
Definition do_report {E W I} (d : diags E W I) (r : report E W I) : diags E W I :=
  match r with RErr e => diag_error d e | RWarn w => diag_warn d w | RInfo i => diag_info d i end.
Definition do_reports {E W I} (d : diags E W I) (rs : list (report E W I)) : diags E W I :=
  fold_left do_report rs d.

(** [l] is in non-decreasing start order. *)
Definition in_order {D} (span_of : D -> span) (l : list D) : Prop :=
  forall a x b y c, l = a ++ x :: b ++ y :: c -> ~ pos_lt (s_start (span_of y)) (s_start (span_of x)).

Definition pos_eqb (a b : pos) : bool := (p_line a =? p_line b) && (p_char a =? p_char b).
(** Those diagnostics of [l] that start at [p], in the order of [l]. *)
Definition starting_at {D} (span_of : D -> span) (p : pos) (l : list D) : list D :=
  filter (fun d => pos_eqb (s_start (span_of d)) p) l.

(** [text_lines s ls]: [ls] are the lines of [s]; every line but the last is
    terminated by "\n" or "\r\n". *)
Inductive text_lines : bytes -> list bytes -> Prop :=
| TL_last l : ~ In 10 l -> text_lines l [l]
| TL_lf l s ls : ~ In 10 l -> (forall r, l <> r ++ [13]) -> text_lines s ls ->
    text_lines (l ++ [10] ++ s) (l :: ls)
| TL_crlf l s ls : ~ In 10 l -> text_lines s ls -> text_lines (l ++ [13; 10] ++ s) (l :: ls).

(** Control characters that must not reach a terminal. *)
Definition is_control (c : N) : Prop := c <= 31 \/ c = 127.

(** Value of a hexadecimal digit character. *)
Definition hex_char (c v : N) : Prop :=
  nth_error (bs "0123456789abcdef") (N.to_nat v) = Some c.

(** The escape sequence that names control character [c]. *)
Inductive names_control (c : N) : list N -> Prop :=
| NC_b : c = 8 -> names_control c (bs "\b")
| NC_t : c = 9 -> names_control c (bs "\t")
| NC_n : c = 10 -> names_control c (bs "\n")
| NC_f : c = 12 -> names_control c (bs "\f")
| NC_r : c = 13 -> names_control c (bs "\r")
| NC_x a b h l : hex_char h a -> hex_char l b -> c = 16 * a + b -> names_control c (bs "\x" ++ [h; l]).
