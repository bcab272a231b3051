(** The order of the syntax tree (C59), and the places named by the errors of
    the mapping (C53).  Specification: ParseMarks.v, MapSpec.v. *)
From Verif Require Import Base BaseProofs CommonModel CommonSpec TomlError LitModel LexModel LexSpec LexBase ParseModel ParseSpec ParsePlace ParseItems
  ParseMarks ParseOrder OrderItems LexProps PropParse MapModel MapSpec MapWf MapPlace PropMap.

(** ** C59 *)

(** The names, signs, values and brackets of the tree, read from left to
    right, stand in the document in this order and do not overlap.  So the tree
    has nothing twice, and a part of a statement is not in another statement.
    This holds for documents with errors as well. *)
Theorem C59_document_order input a es : lex_and_parse input = Ok (a, es) ->
  in_order input pos_zero (doc_marks (as_asts a)) (pos_at input).
Proof.
  intros E. destruct (cut_exists input) as (ts & es0 & C & _). rewrite (cut_parse _ _ _ C) in E. destruct C as (S1 & SH & _).
  destruct (parse_items _ _ _) as [[a' es']|[]|] eqn:P; [|discriminate]. cbn [bind] in E. injection E as <- _.
  eapply parse_items_order; [exact P|]. apply (tiles_ahead input ts []); [symmetry; exact S1|exact SH].
Qed.

(** Two parts of the tree: the one that is read first ends before the other
    one starts. *)
Corollary C59_no_overlap input a es l1 s1 l2 s2 l3 : lex_and_parse input = Ok (a, es) ->
  doc_marks (as_asts a) = l1 ++ s1 :: l2 ++ s2 :: l3 ->
  span_in input s1 /\ span_in input s2 /\ pos_le (s_end s1) (s_start s2).
Proof.
  intros E D. pose proof (C59_document_order _ _ _ E) as O. rewrite D in O.
  assert (I1 : In s1 (l1 ++ s1 :: l2 ++ s2 :: l3)) by (apply in_or_app; right; left; reflexivity).
  assert (I2 : In s2 (l1 ++ s1 :: l2 ++ s2 :: l3)) by (apply in_or_app; right; right; apply in_or_app; right; left; reflexivity).
  split; [|split].
  - exact (proj1 (proj2 (in_order_in input s1 _ I1 _ _ O))).
  - exact (proj1 (proj2 (in_order_in input s2 _ I2 _ _ O))).
  - eapply in_order_before. exact O.
Qed.

(** ** C53 *)

(** The two places an error of the mapping points at are in the document; the
    hint starts before the error, and a duplicate key is after the original
    one.  The context lines are lines of the document up to that of the
    error, in order. *)
Definition map_err_place (input : list N) (e : terror) : Prop :=
  span_in input (err_span e) /\
  (exists o, err_hint e = Some o /\ span_in input o /\ pos_lt (s_start o) (s_start (err_span e)) /\
     (forall ls p o' n, e = EDuplicateKey ls p o' n -> pos_le (s_end o) (s_start n))) /\
  increasing (err_lines e) /\
  Forall (fun n => exists p, pos_in input p /\ p_line p = n /\ pos_lt p (s_start (err_span e))) (err_lines e).

(** Every name of a spelling is a non-empty literal of the document. *)
Definition names_ok (input : list N) (l : list ident) : Prop := Forall (ident_ok input) l.
Lemma key_names input k : key_ok input k -> names_ok input (key_idents k).
Proof.
  destruct k as [i|l]; cbn [key_ok key_idents].
  - intros H. constructor; [exact H|constructor].
  - intros (_ & F). apply Forall_forall. intros i H. apply in_map_iff in H. destruct H as (d & <- & H).
    exact (proj1 (proj1 (Forall_forall _ _) F d H)).
Qed.
Lemma key_spellings_names input pre k kind : names_ok input pre -> key_ok input k ->
  Forall (fun s => names_ok input (fst s)) (key_spellings pre k kind).
Proof.
  intros P K. apply Forall_forall. intros s H. apply in_map_iff in H. destruct H as (p & <- & H). cbn [fst].
  destruct (prefixes_in _ _ _ H) as (q & i & -> & I & Q). apply key_names in K. unfold names_ok in *. rewrite Forall_forall in *.
  intros j J. apply in_app_or in J. destruct J as [J|[<-|[]]]; [|auto]. destruct (Q j J); auto.
Qed.
Lemma names_app input a b : names_ok input a -> names_ok input b -> names_ok input (a ++ b).
Proof. intros A B. apply Forall_app. split; assumption. Qed.
Lemma value_names input n v : node_ok input n v -> forall pre, names_ok input pre ->
  Forall (fun s => names_ok input (fst s)) (value_spellings pre v).
Proof.
  induction v as [lp l e IH|cr lp l e IH|v SC] using value_ind2; cbn [node_ok value_spellings]; intros H pre P.
  - destruct H as (_ & _ & H). induction IH as [|a l I0 IH IHl]; [constructor|]. cbn [fold_right] in H. destruct H as [(K & _ & _ & V) H].
    cbn [flat_map]. apply Forall_app. split; [|exact (IHl H)]. apply Forall_app. split; [apply key_spellings_names; assumption|].
    apply I0; [exact V|]. apply names_app; [exact P|apply key_names; exact K].
  - destruct H as (_ & _ & _ & H). induction IH as [|a l I0 IH IHl]; [constructor|]. cbn [fold_right] in H. destruct H as [(_ & _ & V) H].
    cbn [flat_map]. apply Forall_app. split; [|exact (IHl H)]. apply I0; assumption.
  - destruct v; try contradiction; constructor.
Qed.
Lemma assign_names input n a pre : tassign_ok input n a -> names_ok input pre -> Forall (fun s => names_ok input (fst s)) (assign_spellings pre a).
Proof.
  intros (_ & K & _ & V) P. apply Forall_app. split; [apply key_spellings_names; assumption|]. eapply value_names; [exact V|].
  apply names_app; [exact P|apply key_names; exact K].
Qed.
Lemma assigns_names input n l pre : Forall (tassign_ok input n) l -> names_ok input pre ->
  Forall (fun s => names_ok input (fst s)) (flat_map (assign_spellings pre) l).
Proof.
  intros F P. induction F as [|a l A F IH]; [constructor|]. cbn [flat_map]. apply Forall_app. split; [eapply assign_names; eassumption|exact IH].
Qed.
Lemma doc_names input ts n l : Forall (ast_ok input ts n) l -> Forall (fun s => names_ok input (fst s)) (doc_spellings l).
Proof.
  intros F. unfold doc_spellings. induction F as [|a l A F IH]; [constructor|]. cbn [flat_map]. apply Forall_app. split; [|exact IH].
  destruct a as [a|t|t|c]; cbn [ast_ok ast_spellings] in *.
  - eapply assign_names; [exact A|constructor].
  - destruct A as (_ & (_ & K & _) & A). destruct (th_key (tb_header t)) as [k|]; [|constructor]. apply Forall_app. split.
    + apply key_spellings_names; [constructor|exact K].
    + eapply assigns_names; [exact A|apply key_names; exact K].
  - destruct A as (_ & (_ & _ & K & _) & A). destruct (ah_key (ae_header t)) as [k|]; [|constructor]. apply Forall_app. split.
    + apply key_spellings_names; [constructor|exact K].
    + eapply assigns_names; [exact A|apply key_names; exact K].
  - constructor.
Qed.
Lemma name_nonempty input i : ident_ok input i -> pos_lt (id_start i) (lit_end i).
Proof.
  intros (_ & H). assert (NE : sr_text (id_lit i) <> []).
  { destruct (id_kind i); [exact (proj1 H)| |]; destruct H as (off & (trim & b & e & -> & _) & _); discriminate. }
  unfold lit_end. destruct (sr_text (id_lit i)) as [|c t]; [congruence|]. right. cbn [pos_plus p_line p_char tlen].
  pose proof (len_pos c). split; [reflexivity|lia].
Qed.
Lemma lt_le_trans a b c : pos_lt a b -> pos_le b c -> pos_lt a c.
Proof. intros H [<-|G]; [exact H|eapply pos_lt_trans; eassumption]. Qed.
Lemma le_lt_trans a b c : pos_le a b -> pos_lt b c -> pos_lt a c.
Proof. intros [->|H] G; [exact G|eapply pos_lt_trans; eassumption]. Qed.

Theorem C53_error_places input a es m es' : lex_and_parse input = Ok (a, es) -> map_doc (as_asts a) = Ok (m, es') ->
  Forall (map_err_place input) es'.
Proof.
  intros E M. pose proof (C59_document_order _ _ _ E) as O. destruct (C50_places _ _ _ E) as (ts & es0 & _ & AO & _).
  pose proof (doc_names _ _ _ _ AO) as NM. rewrite Forall_forall in NM.
  eapply Forall_impl; [|exact (C53_messages _ _ _ _ _ E M)]. intros e (place & pre1 & i1 & k1 & pre2 & i2 & k2 & x0 & B & _ & _ & _ & H).
  destruct (before_in _ _ _ B) as (B1 & B2).
  assert (L : pos_le (lit_end i1) (id_start i2)) by (eapply (before_order input); [exact O|exact B|apply last_ident_snoc|apply last_ident_snoc]).
  assert (IN1 : forall i, In i (pre1 ++ [i1]) -> span_in input (ident_mark i)) by (intros i I; exact (ident_in input _ _ _ _ _ O B1 I)).
  assert (IN2 : forall i, In i (pre2 ++ [i2]) -> span_in input (ident_mark i)) by (intros i I; exact (ident_in input _ _ _ _ _ O B2 I)).
  assert (NE : forall i, In i (pre1 ++ [i1]) \/ In i (pre2 ++ [i2]) -> pos_lt (id_start i) (lit_end i)).
  { intros i I. apply (name_nonempty input). destruct I as [I|I].
    - exact (proj1 (Forall_forall _ _) (NM _ B1) i I).
    - exact (proj1 (Forall_forall _ _) (NM _ B2) i I). }
  pose proof (proj1 (Forall_forall _ _) (doc_earlier input _ _ _ O)) as EA.
  pose proof (EA _ B1 pre1 i1 eq_refl) as E1. pose proof (EA _ B2 pre2 i2 eq_refl) as E2. rewrite Forall_forall in E1, E2.
  assert (I1 : In i1 (pre1 ++ [i1])) by (apply in_or_app; right; left; reflexivity).
  assert (I2 : In i2 (pre2 ++ [i2])) by (apply in_or_app; right; left; reflexivity).
  assert (LT : pos_lt (id_start i1) (id_start i2)) by (eapply lt_le_trans; [apply NE; left; exact I1|exact L]).
  assert (LN : forall ls, lines_ok pre1 pre2 ls -> increasing ls /\ Forall (fun n => exists p, pos_in input p /\ p_line p = n /\ pos_lt p (id_start i2)) ls).
  { intros ls (INC & LS). split; [exact INC|]. apply Forall_forall. intros n N. apply LS in N. destruct N as (i & I & LI). exists (id_start i).
    apply in_app_or in I. destruct I as [I|I].
    - assert (I' : In i (pre1 ++ [i1])) by (apply in_or_app; left; exact I).
      split; [exact (proj1 (IN1 _ I'))|]. split; [exact LI|]. eapply lt_le_trans; [apply NE; left; exact I'|].
      eapply pos_le_trans; [exact (E1 _ I)|]. right. exact LT.
    - assert (I' : In i (pre2 ++ [i2])) by (apply in_or_app; left; exact I).
      split; [exact (proj1 (IN2 _ I'))|]. split; [exact LI|]. eapply lt_le_trans; [apply NE; right; exact I'|]. exact (E2 _ I). }
  assert (KP : forall o, kind_span k1 = Ok o -> span_in input o /\ pos_lt (s_start o) (id_start i2)).
  { intros o K. destruct (kind_place input _ (pre1 ++ [i1], k1) o i1 pre1 _ _ O B1 K eq_refl) as (K1 & K2). split; [exact K1|]. eapply le_lt_trans; eassumption. }
  assert (KEY : forall i, span_in input (ident_mark i) -> span_in input (lit_span i)) by (intros i H'; exact H').
  assert (GEN : forall ls t o new, lines_ok pre1 pre2 ls /\ shown place t /\ new = lit_span i2 -> kind_span k1 = Ok o ->
    err_span e = new -> err_hint e = Some o -> err_lines e = ls -> (forall ls' p' o' n', e <> EDuplicateKey ls' p' o' n') -> map_err_place input e).
  { intros ls t o new (A1 & _ & ->) K ES EH EL ND. destruct (KP _ K) as (K1 & K2). destruct (LN _ A1) as (L1 & L2).
    split; [rewrite ES; apply KEY, IN2, I2|]. split; [|rewrite EL, ES; split; [exact L1|exact L2]].
    exists o. split; [exact EH|]. split; [exact K1|]. split; [rewrite ES; exact K2|]. intros ls' p' o' n' X. destruct (ND _ _ _ _ X). }
  destruct e; try contradiction;
    try (destruct H as (H & K); eapply GEN; [exact H|exact K|reflexivity|reflexivity|reflexivity|discriminate]).
  destruct H as ((A1 & _ & ->) & ->). destruct (LN _ A1) as (L1 & L2). split; [apply KEY, IN2, I2|]. split; [|split; [exact L1|exact L2]].
  exists (lit_span i1). split; [reflexivity|]. split; [apply KEY, IN1, I1|]. split; [exact LT|].
  intros ls' p' o' n' X. injection X as _ _ _ <-. exact L.
Qed.

(** ** Examples *)
Definition order_example : list N := bs "# c" ++ [10; 10] ++ bs "[a. ""b""] # d" ++ [10] ++ bs "x.y = [1, {z = 'e'}]" ++ [10] ++ bs "[[t ]" ++ [10] ++ bs "u = 2020-01-01 10:00:00 =".
Definition flat_span (s : span) : N * N * N * N := (p_line (s_start s), p_char (s_start s), p_line (s_end s), p_char (s_end s)).
Example C59_example : exists a es, lex_and_parse order_example = Ok (a, es) /\ length es = 2%nat /\
  map flat_span (doc_marks (as_asts a)) =
  [(0, 0, 0, 3);
   (2, 0, 2, 1); (2, 1, 2, 2); (2, 2, 2, 3); (2, 4, 2, 7); (2, 7, 2, 8);
   (3, 0, 3, 1); (3, 1, 3, 2); (3, 2, 3, 3); (3, 4, 3, 5); (3, 6, 3, 7); (3, 7, 3, 8); (3, 8, 3, 9);
   (3, 10, 3, 11); (3, 11, 3, 12); (3, 13, 3, 14); (3, 15, 3, 18); (3, 18, 3, 19); (3, 19, 3, 20);
   (4, 0, 4, 1); (4, 1, 4, 2); (4, 2, 4, 3); (4, 4, 4, 5);
   (5, 0, 5, 1); (5, 2, 5, 3); (5, 4, 5, 23)].
Proof. eexists _, _. split; [vm_compute; reflexivity|]. split; vm_compute; reflexivity. Qed.
(** Documents with all six errors of the mapping are in PropMap.v and
    MapTests.v; here, one whose lines and spans are spelled out. *)
Example C53_example : exists a m ls p, lex_and_parse (bs "[a]" ++ [10] ++ bs "b.c = 1" ++ [10] ++ bs "b.d = 2" ++ [10] ++ bs "b.""c"" = 3") = Ok (a, []) /\
  map_doc (as_asts a) = Ok (m, [EDuplicateKey ls p (mkspan (mkpos 1 2) (mkpos 1 3)) (mkspan (mkpos 3 2) (mkpos 3 5))]) /\ ls = [0; 1; 3].
Proof. eexists _, _, _, _. split; [vm_compute; reflexivity|]. split; vm_compute; reflexivity. Qed.

Print Assumptions C59_document_order.
Print Assumptions C59_no_overlap.
Print Assumptions C53_error_places.
