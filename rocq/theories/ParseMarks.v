(** Specification, continued: the order in which the parts of a syntax tree
    stand in the document. *)
From Verif Require Import Base CommonModel LitModel LexModel LexSpec ParseModel ParsePlace.

(** The place of every part of the tree, read from left to right: names, dots,
    equals signs, scalars, brackets and commas.  An absent closing bracket is
    the place where it is taken to be. *)
Definition ident_mark (i : ident) : span := mkspan (id_start i) (lit_end i).
Definition dident_marks (d : dident) : list span :=
  ident_mark (di_ident d) :: match di_dot d with Some p => [span_ascii_char p] | None => [] end.
Definition key_marks (k : key) : list span :=
  match k with KOne i => [ident_mark i] | KDotted l => flat_map dident_marks l end.
Definition comma_marks (c : option pos) : list span := match c with Some p => [span_ascii_char p] | None => [] end.
Definition end_mark (e : pend) : span := match e with EndPar p => span_ascii_char p | EndNone p => span_pos p end.
Fixpoint value_marks (v : value) : list span :=
  match v with
  | VString _ s _ _ _ | VInt _ s _ | VFloat _ s _ | VBool s _ | VDateTime _ s _ | VInvalid _ s => [s]
  | VTable p l e =>
      [span_ascii_char p] ++
      flat_map (fun a => key_marks (as_key (ia_assign a)) ++ [span_ascii_char (as_eq (ia_assign a))] ++
                         value_marks (as_val (ia_assign a)) ++ comma_marks (ia_comma a)) l ++ [end_mark e]
  | VArray _ p l e =>
      [span_ascii_char p] ++ flat_map (fun a => value_marks (av_val a) ++ comma_marks (av_comma a)) l ++ [end_mark e]
  end.
Definition assign_marks (a : tassign) : list span :=
  key_marks (as_key (ta_assign a)) ++ [span_ascii_char (as_eq (ta_assign a))] ++ value_marks (as_val (ta_assign a)).
(** The brackets of a header; the closing ones are given by their distance on
    the line.  Of a header whose key could not be read, only the opening ones
    are kept. *)
Definition bracket_mark (l : pos) (o : option N) : list span :=
  match o with Some d => [span_ascii_char (pos_plus l d)] | None => [] end.
Definition theader_marks (h : theader) : list span :=
  [span_ascii_char (th_l_par h)] ++
  match th_key h with Some k => key_marks k ++ bracket_mark (th_l_par h) (th_r_off h) | None => [] end.
Definition aheader_marks (h : aheader) : list span :=
  [span_ascii_char (fst (ah_l_pars h)); span_ascii_char (snd (ah_l_pars h))] ++
  match ah_key h with
  | Some k => key_marks k ++ bracket_mark (fst (ah_l_pars h)) (fst (ah_r_offs h)) ++ bracket_mark (fst (ah_l_pars h)) (snd (ah_r_offs h))
  | None => []
  end.
Definition ast_marks (a : ast) : list span :=
  match a with
  | AAssign a => assign_marks a
  | ATable t => theader_marks (tb_header t) ++ flat_map assign_marks (tb_assigns t)
  | AArray t => aheader_marks (ae_header t) ++ flat_map assign_marks (ae_assigns t)
  | AComment c => [c_span c]
  end.
Definition doc_marks (l : list ast) : list span := flat_map ast_marks l.

(** The places are in the document, and each ends before the next starts. *)
Fixpoint in_order (input : list N) (lo : pos) (l : list span) (hi : pos) : Prop :=
  match l with
  | [] => pos_le lo hi
  | s :: r => pos_le lo (s_start s) /\ span_in input s /\ in_order input (s_end s) r hi
  end.
