(** Specification, continued: which comments belong to a statement. *)
From Verif Require Import Base CommonModel LexModel LexSpec ParseModel.

(** The line a comment stands on. *)
Definition line_of (c : comment) : N := p_line (s_start (c_span c)).
(** The comments stand on consecutive lines, the last one right above [line]. *)
Fixpoint block (line : N) (cs : list comment) : Prop :=
  match cs with
  | [] => True
  | c :: r => line_of c + N.of_nat (length cs) = line /\ block line r
  end.
(** The comment has its line to itself: only blanks come before it. *)
Definition own_line (input : list N) (c : comment) : Prop :=
  exists p w r, input = p ++ w ++ 35 :: r /\ s_start (c_span c) = pos_at (p ++ w) /\
    Forall (fun x => x = 32 \/ x = 9) w /\ (p = [] \/ exists q, p = q ++ [10]).

(** Where a key starts. *)
Inductive key_at : key -> pos -> Prop :=
| ka_one i : key_at (KOne i) (id_start i)
| ka_dotted d r : key_at (KDotted (d :: r)) (id_start (di_ident d)).
(** [states x level p r]: [x] is, or contains, a statement that starts at [p]
    and to which the range [r] of comments belongs.  The level is 1 for the
    assignments below a header. *)
Inductive states : ast -> N -> pos -> crange -> Prop :=
| st_assign a p : key_at (as_key (ta_assign a)) p -> states (AAssign a) 0 p (ta_comments a)
| st_table t : states (ATable t) 0 (th_l_par (tb_header t)) (tb_comments t)
| st_table_assign t a p : In a (tb_assigns t) -> key_at (as_key (ta_assign a)) p -> states (ATable t) 1 p (ta_comments a)
| st_array t : states (AArray t) 0 (fst (ah_l_pars (ae_header t))) (ae_comments t)
| st_array_assign t a p : In a (ae_assigns t) -> key_at (as_key (ta_assign a)) p -> states (AArray t) 1 p (ta_comments a).
(** The comments of a range. *)
Definition attached (store : list acomment) (r : crange) : list acomment :=
  firstn (N.to_nat (cr_len r)) (skipn (N.to_nat (cr_start r)) store).

(** The comments [above] a statement that starts at [p] are exactly the
    longest block of lines with nothing but a comment that ends right above the
    statement ([comments]: those of the document); the others in its range come
    on the statement's own lines or later. *)
Definition comments_above (input : list N) (comments : list comment) (store : list acomment) (level : N) (p : pos) (r : crange)
  (above : list comment) : Prop :=
  exists rest, attached store r = map (mkac Above level) above ++ rest /\
    Forall (fun c => p_line p <= line_of (ac_comment c)) rest /\
    block (p_line p) above /\ Forall (own_line input) above /\
    (forall c, In c comments -> own_line input c -> line_of c + N.of_nat (length above) + 1 <> p_line p).
