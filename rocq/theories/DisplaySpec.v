(** Independent specification of how a diagnostic is shown. *)
From Verif Require Import Base CommonModel CommonSpec LitModel DisplayModel.

(** ** Places in a text given by its lines *)

(** Byte column [n] of a line is at a character of it, or at its end. *)
Definition column (line : list N) (n : N) : Prop := exists a b, line = a ++ b /\ n = tlen a.
Definition on_text (text : list (list N)) (p : pos) : Prop :=
  exists line, nth_error text (N.to_nat (p_line p)) = Some line /\ column line (p_char p).
Definition span_on_text (text : list (list N)) (sp : span) : Prop :=
  on_text text (s_start sp) /\ on_text text (s_end sp) /\ ~ pos_lt (s_end sp) (s_start sp).

(** ** Rows *)

(** Control characters are left out, except the tab. *)
Definition hidden (c : N) : bool := negb (c =? 9) && ((c <=? 31) || (c =? 127)).
Definition visible (s : list N) : list N := filter (fun c => negb (hidden c)) s.
(** The pieces of [s] between its hidden characters. *)
Fixpoint runs (s : list N) : list (list N) :=
  match s with
  | [] => [[]]
  | c :: r =>
      if hidden c then [] :: runs r
      else match runs r with p :: ps => (c :: p) :: ps | [] => [[c]] end
  end.

(** Errors are red, warnings yellow, information cyan, hints blue; hints are
    underlined with dashes, everything else with carets. *)
Definition blue : list N := 27 :: bs "[94m".
Definition plain_color : list N := 27 :: bs "[0m".
Definition sev_color (s : severity) : list N :=
  match s with SevError => 27 :: bs "[91m" | SevWarning => 27 :: bs "[93m" | SevInfo => 27 :: bs "[96m" | SevHint => blue end.
Definition sev_word (s : severity) : list N :=
  match s with SevError => bs "error" | SevWarning => bs "warning" | SevInfo => bs "info" | SevHint => bs "hint" end.
Definition sev_mark (s : severity) : N := match s with SevHint => 45 | _ => 94 end.

(** A source line, with its number counted from one. *)
Definition source_row (n : N) (line : list N) : list N :=
  blue ++ pad4 (n + 1) ++ bs " |" ++ plain_color ++ bs " " ++ visible line ++ [10].

Section Width.
  Context (width : list N -> N).
  Definition shown_width (s : list N) : N := fold_right N.add 0 (map width (runs s)).

  (** Below a line that reads [before ++ marked ++ …]: as many blanks as
      [before] is wide, then one underline character for every column of
      [marked], at least one, then [note]. *)
  Definition underline_row (sev : severity) (before marked note : list N) : list N :=
    bs "     " ++ blue ++ bs "|" ++ plain_color ++ bs " " ++ spaces (N.to_nat (shown_width before)) ++
    sev_color sev ++ repeat (sev_mark sev) (N.to_nat (N.max (width marked) 1)) ++ note ++ plain_color ++ [10].

  (** [block l a e out]: the lines from [l] to the one of [e], each with the
      part from column [a] (of the first) to [e] (of the last) underlined; the
      annotation stands on the last row. *)
  Inductive block (text : list (list N)) (sev : severity) (ann : list N) : N -> N -> pos -> list N -> Prop :=
  | block_last l x y z e :
      p_line e = l -> nth_error text (N.to_nat l) = Some (x ++ y ++ z) -> p_char e = tlen (x ++ y) ->
      block text sev ann l (tlen x) e (source_row l (x ++ y ++ z) ++ underline_row sev x y (bs " " ++ ann))
  | block_more l x y e out :
      l < p_line e -> nth_error text (N.to_nat l) = Some (x ++ y) -> block text sev ann (l + 1) 0 e out ->
      block text sev ann l (tlen x) e (source_row l (x ++ y) ++ underline_row sev x y [] ++ out).
  Definition marked text sev ann sp out : Prop :=
    block text sev ann (p_line (s_start sp)) (p_char (s_start sp)) (s_end sp) out.

  (** The context lines from [lo] on and before [hi], in order. *)
  Inductive context_rows (text : list (list N)) (lo hi : N) : list N -> list N -> Prop :=
  | context_nil : context_rows text lo hi [] []
  | context_row n ls line out : lo <= n < hi -> nth_error text (N.to_nat n) = Some line -> context_rows text lo hi ls out ->
      context_rows text lo hi (n :: ls) (source_row n line ++ out)
  | context_skip n ls out : ~ (lo <= n < hi) -> context_rows text lo hi ls out -> context_rows text lo hi (n :: ls) out.

  (** Severity and message, then where it is: the line counted from one and
      the characters before it on that line. *)
  Inductive heading (text : list (list N)) (d : ddiag) : list N -> Prop :=
  | heading_at a b : nth_error text (N.to_nat (p_line (s_start (g_span d)))) = Some (a ++ b) ->
      p_char (s_start (g_span d)) = tlen a ->
      heading text d
        (sev_color (g_severity d) ++ sev_word (g_severity d) ++ plain_color ++ bs ": " ++ g_description d ++ [10] ++
         bs "    " ++ blue ++ bs "-->" ++ plain_color ++ bs " " ++ dec (p_line (s_start (g_span d)) + 1) ++
         bs ":" ++ dec (N.of_nat (length a)) ++ [10] ++
         bs "     " ++ blue ++ bs "|" ++ plain_color ++ [10]).

  (** The whole of it: the hint and the diagnostic itself in the order they
      start in the text, each after the context lines that precede it. *)
  Inductive displayed (text : list (list N)) (d : ddiag) : list N -> Prop :=
  | displayed_plain head ctx main :
      g_hint d = None -> heading text d head ->
      context_rows text 0 (p_line (s_start (g_span d))) (g_lines d) ctx ->
      marked text (g_severity d) (g_annotation d) (g_span d) main ->
      displayed text d (head ++ ctx ++ main)
  | displayed_hint_first h head ctx1 hint ctx2 main :
      g_hint d = Some h -> pos_lt (s_start (h_span h)) (s_start (g_span d)) -> heading text d head ->
      context_rows text 0 (p_line (s_start (h_span h))) (g_lines d) ctx1 ->
      marked text SevHint (h_annotation h) (h_span h) hint ->
      context_rows text (p_line (s_end (h_span h)) + 1) (p_line (s_start (g_span d))) (g_lines d) ctx2 ->
      marked text (g_severity d) (g_annotation d) (g_span d) main ->
      displayed text d (head ++ ctx1 ++ hint ++ ctx2 ++ main)
  | displayed_hint_last h head ctx1 main ctx2 hint :
      g_hint d = Some h -> ~ pos_lt (s_start (h_span h)) (s_start (g_span d)) -> heading text d head ->
      context_rows text 0 (p_line (s_start (g_span d))) (g_lines d) ctx1 ->
      marked text (g_severity d) (g_annotation d) (g_span d) main ->
      context_rows text (p_line (s_end (g_span d)) + 1) (p_line (s_start (h_span h))) (g_lines d) ctx2 ->
      marked text SevHint (h_annotation h) (h_span h) hint ->
      displayed text d (head ++ ctx1 ++ main ++ ctx2 ++ hint).
End Width.

(** ** What a reader of the terminal sees *)

(** The width of a row as shown: escape sequences take no room. *)
Fixpoint unescaped (s : list N) (esc : bool) : list N :=
  match s with
  | [] => []
  | c :: r =>
      if esc then unescaped r (negb (c =? 109))
      else if c =? 27 then unescaped r true else c :: unescaped r false
  end.
