(** Model of crates/common/src/lib.rs and the sorting part of diagnostic.rs. *)
From Verif Require Import Base.

(** common/src/lib.rs:144-149 [Pos].  Lines and columns are unbounded. *)
Record pos := mkpos { p_line : N; p_char : N }.

(** common/src/lib.rs:152 [Pos::ZERO] *)
Definition pos_zero : pos := mkpos 0 0.

(** common/src/lib.rs:160-165 [Pos::after] *)
Definition pos_after (p : pos) (c : N) : pos := mkpos (p_line p) (p_char p + len_utf8 c).

(** common/src/lib.rs:168-173 [Pos::plus] *)
Definition pos_plus (p : pos) (n : N) : pos := mkpos (p_line p) (p_char p + n).

(** common/src/lib.rs:176-181 [Pos::minus]: unsigned subtraction, [None] when
    it underflows (panic in debug builds). *)
Definition pos_minus (p : pos) (n : N) : option pos :=
  if n <=? p_char p then Some (mkpos (p_line p) (p_char p - n)) else None.

(** common/src/lib.rs:143 derived [Ord]: lexicographic in field order. *)
Definition pos_cmp (a b : pos) : comparison :=
  match p_line a ?= p_line b with
  | Eq => p_char a ?= p_char b
  | c => c
  end.

(** common/src/lib.rs:91-94 [Span] *)
Record span := mkspan { s_start : pos; s_end : pos }.

(** common/src/lib.rs:103-108 *)
Definition span_from_pos_len (p : pos) (len : N) : span := mkspan p (pos_plus p len).
(** common/src/lib.rs:111-116 *)
Definition span_pos (p : pos) : span := mkspan p p.
(** common/src/lib.rs:119-124 *)
Definition span_ascii_char (p : pos) : span := mkspan p (pos_plus p 1).
(** common/src/lib.rs:127-132 *)
Definition span_across (a b : span) : span := mkspan (s_start a) (s_end b).
(** common/src/lib.rs:135-140 *)
Definition span_between (a b : span) : span := mkspan (s_end a) (s_start b).

Section Diag.
  Context {E W I : Type}.

  (** common/src/lib.rs:29-33 [Diagnostics] *)
  Record diags := mkdiags { d_errors : list E; d_warnings : list W; d_infos : list I }.

  (** common/src/lib.rs:35-43 *)
  Definition diags_default : diags := mkdiags [] [] [].

  (** common/src/lib.rs:50-60 [error], [warn], [info] push at the end. *)
  Definition diag_error (d : diags) (e : E) : diags :=
    mkdiags (d_errors d ++ [e]) (d_warnings d) (d_infos d).
  Definition diag_warn (d : diags) (w : W) : diags :=
    mkdiags (d_errors d) (d_warnings d ++ [w]) (d_infos d).
  Definition diag_info (d : diags) (i : I) : diags :=
    mkdiags (d_errors d) (d_warnings d) (d_infos d ++ [i]).

  (** common/src/lib.rs:22-27 [DiagnosticMark] *)
  Record mark := mkmark { m_error : nat; m_warning : nat; m_info : nat }.

  (** common/src/lib.rs:62-68 [mark] *)
  Definition diag_mark (d : diags) : mark :=
    mkmark (length (d_errors d)) (length (d_warnings d)) (length (d_infos d)).

  (** common/src/lib.rs:70-74 [reset]: [Vec::truncate] keeps the first n. *)
  Definition diag_reset (d : diags) (m : mark) : diags :=
    mkdiags (firstn (m_error m) (d_errors d))
            (firstn (m_warning m) (d_warnings d))
            (firstn (m_info m) (d_infos d)).
End Diag.
Arguments diags : clear implicits.

(** [slice::sort_by], the standard library's stable sort, modelled as
    insertion sort: an element is placed before the first one that is
    strictly greater. *)
Section Sort.
  Context {A : Type} (cmp : A -> A -> comparison).
  Fixpoint sort_insert (x : A) (l : list A) : list A :=
    match l with
    | [] => [x]
    | y :: r => match cmp x y with
                | Gt => y :: sort_insert x r
                | _ => x :: y :: r
                end
    end.
  Fixpoint sort_by (l : list A) : list A :=
    match l with
    | [] => []
    | x :: r => sort_insert x (sort_by r)
    end.
End Sort.

(** common/src/diagnostic.rs:17-23 [cmp], [span_cmp]: by start position. *)
Definition span_cmp (a b : span) : comparison := pos_cmp (s_start a) (s_start b).
Definition diag_cmp {D} (span_of : D -> span) (a b : D) : comparison :=
  span_cmp (span_of a) (span_of b).

(** common/src/lib.rs:76-88 [sort_diagnostics] *)
Definition sort_diagnostics {E W I} (se : E -> span) (sw : W -> span) (si : I -> span)
    (d : diags E W I) : diags E W I :=
  mkdiags (sort_by (diag_cmp se) (d_errors d))
          (sort_by (diag_cmp sw) (d_warnings d))
          (sort_by (diag_cmp si) (d_infos d)).

(** common/src/diagnostic.rs:5-15 [lines]: split at '\n' (10), drop one
    trailing '\r' (13) of every line but the last. *)
Definition strip_cr (l : bytes) : bytes :=
  match rev l with
  | 13 :: r => rev r
  | _ => l
  end.
Fixpoint strip_terminated (ls : list bytes) : list bytes :=
  match ls with
  | [] => []
  | [l] => [l]
  | l :: r => strip_cr l :: strip_terminated r
  end.
Definition lines (input : bytes) : list bytes := strip_terminated (split_on 10 input).

(** Lower-case hexadecimal digit, as printed by [{:02x}]. *)
Definition hex_digit (n : N) : N := if n <? 10 then 48 + n else 87 + n.

(** common/src/lib.rs:187-201 [Display for FmtChar], over code points. *)
Definition fmt_char (c : N) : list N :=
  match c with
  | 8 => bs "\b"
  | 9 => bs "\t"
  | 10 => bs "\n"
  | 12 => bs "\f"
  | 13 => bs "\r"
  | _ => if (c <=? 31) || (c =? 127)
         then bs "\x" ++ [hex_digit (c / 16); hex_digit (c mod 16)]
         else [c]
  end.

(** common/src/lib.rs:218-225 [Display for FmtStr] *)
Definition fmt_str (s : list N) : list N := flat_map fmt_char s.
