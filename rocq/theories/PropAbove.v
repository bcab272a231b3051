(** The comments above the statements of a document (C52).  Specification:
    CommentSpec.v. *)
From Verif Require Import Base BaseProofs CommonModel TomlError LitModel LexModel LexSpec LexBase ParseModel ParseSpec CommentSpec ParsePlace ParseItems ParseRoot ParseTop ParseAbove PropParse.

(** Of every statement of a document without errors, the comments marked as
    standing above it are the longest block of comment lines that ends right
    above the line the statement starts on; whatever else is in its range comes
    on that line or later. *)
Theorem C52_statement_comments input a : lex_and_parse input = Ok (a, []) ->
  exists ts, cut input ts [] /\ forall x level p r, In x (as_asts a) -> states x level p r ->
    exists above, comments_above input (doc_comments [] ts) (as_comments a) level p r above.
Proof.
  intros E. destruct (cut_exists input) as (ts & es & C & _ & V). rewrite (cut_parse _ _ _ C) in E.
  destruct (parse_items _ _ _) as [[a' es']|[]|] eqn:P; [|discriminate]. cbn [bind] in E. injection E as -> EN. apply app_eq_nil in EN as [-> ->].
  exists ts. split; [exact C|]. destruct C as (S1 & S2 & S3 & _). symmetry in S1. rewrite <- (comments_eq ts [] S2).
  exact (parse_items_above input ts a S1 S2 S3 (V eq_refl) P).
Qed.

(** A document with such comments; the blocks are found. *)
Definition demo : list N :=
  bs "# x" ++ [10; 10] ++ bs "# a" ++ [10] ++ bs " # b" ++ [10] ++ bs "k = 1 # e" ++ [10] ++ bs "# h" ++ [10] ++ bs "[t] # f" ++ [10] ++
  bs "# free" ++ [10; 10] ++ bs "# c" ++ [10] ++ bs "y = [" ++ [10] ++ bs "  1, # one" ++ [10] ++ bs "]" ++ [10].
Example C52_demo : exists a t k, lex_and_parse demo = Ok (a, []) /\
  In (AAssign k) (as_asts a) /\ In (ATable t) (as_asts a) /\
  map (fun c => (ac_pos c, ac_level c, line_of (ac_comment c))) (as_comments a) =
    [(Above, 0, 2); (Above, 0, 3); (LineEnd, 0, 4); (Above, 0, 5); (LineEnd, 0, 6); (Contained, 0, 7); (Above, 1, 9); (LineEnd, 2, 11)] /\
  ta_comments k = mkrange 0 3 0 /\ tb_comments t = mkrange 3 3 0 /\ map ta_comments (tb_assigns t) = [mkrange 6 2 1].
Proof.
  eexists _, _, _. split; [vm_compute; reflexivity|]. split; [cbn; right; left; reflexivity|]. split; [cbn; right; right; left; reflexivity|].
  split; [vm_compute; reflexivity|]. split; [reflexivity|]. split; reflexivity.
Qed.


(** ** C73: values of arrays *)

(** What happens to the comments stored so far when a value of an array has
    been read: the longest block at the end of the list that has not been
    placed yet and stands right above the value is marked as standing above it.
    The value gets this block, unless it is all comments stored so far; then it
    gets none. *)
Theorem C73_marked_block_partial s line level : exists old blk,
  s = old ++ blk /\ Forall (fun c => ac_pos c = Contained) blk /\ block line (map ac_comment blk) /\
  (forall o c, old = o ++ [c] -> ac_pos c = Contained -> line_of (ac_comment c) + N.of_nat (length blk) + 1 <> line) /\
  mark_comments_above s line level =
    Ok (old ++ map (fun c => mkac Above level (ac_comment c)) blk,
        match old with
        | [] => mkrange (next_id s) 0 level
        | _ => mkrange (next_id old) (next_id blk) level
        end).
Proof.
  assert (G : forall l line i, exists blk old, l = blk ++ old /\ Forall (fun c => ac_pos c = Contained) blk /\ block line (map ac_comment (rev blk)) /\
    (forall c r, old = c :: r -> ac_pos c = Contained -> line_of (ac_comment c) + N.of_nat (length blk) + 1 <> line) /\
    mark_above line level l i = (map (fun c => mkac Above level (ac_comment c)) blk ++ old, match old with [] => None | _ => Some (i + N.of_nat (length blk)) end)).
  { clear. induction l as [|c l IH]; intros line i; cbn [mark_above].
    - exists [], []. split; [reflexivity|]. split; [constructor|]. split; [exact I|]. split; [intros; discriminate|reflexivity].
    - destruct (_ && _) eqn:B.
      + apply andb_true_iff in B as [B1 B2]. apply N.eqb_eq in B1. assert (PC : ac_pos c = Contained) by (destruct (ac_pos c); first [reflexivity|discriminate B2]).
        destruct (IH (line - 1) (i + 1)) as (blk & old & -> & F & K & MX & ->). exists (c :: blk), old. split; [reflexivity|]. split; [constructor; assumption|].
        split; [cbn [rev]; rewrite map_app; apply ParseAssoc.block_snoc; fold (line_of (ac_comment c)) in B1; split; [exact B1|]; replace (line_of (ac_comment c)) with (line - 1) by lia; exact K|].
        split; [|cbn [map app length]; destruct old; [reflexivity|]; f_equal; f_equal; lia].
        intros d r E P. specialize (MX d r E P). cbn [length]. fold (line_of (ac_comment c)) in B1. lia.
      + exists [], (c :: l). split; [reflexivity|]. split; [constructor|]. split; [exact I|]. split; [|cbn [map app length]; rewrite N.add_0_r; reflexivity].
        intros d r E P. injection E as <- <-. rewrite P, andb_true_r in B. apply N.eqb_neq in B. fold (line_of (ac_comment c)) in B. cbn [length]. lia. }
  destruct (G (rev s) line 0) as (blk & old & E & F & K & MX & M). assert (ES : s = rev old ++ rev blk) by (rewrite <- rev_app_distr, <- E, rev_involutive; reflexivity).
  exists (rev old), (rev blk). split; [exact ES|]. split; [apply Forall_rev, F|]. split; [exact K|]. split.
  - intros o c EO P. rewrite rev_length. apply (MX c (rev o)); [rewrite <- (rev_involutive old), EO, rev_app_distr; reflexivity|exact P].
  - unfold mark_comments_above. rewrite M. destruct old as [|c old].
    + rewrite ParseVal.usub_le by lia. cbn [bind rev app]. rewrite app_nil_r, <- map_rev, N.sub_0_r. reflexivity.
    + assert (MO : match rev (c :: old) with [] => mkrange (next_id s) 0 level | _ => mkrange (next_id (rev (c :: old))) (next_id (rev blk)) level end =
        mkrange (next_id (rev (c :: old))) (next_id (rev blk)) level).
      { destruct (rev (c :: old)) eqn:RO; [|reflexivity]. apply (f_equal (@length _)) in RO. rewrite rev_length in RO. discriminate RO. }
      rewrite MO. unfold next_id. rewrite ParseVal.usub_le by (rewrite ES, app_length, !rev_length; lia). cbn [bind]. rewrite rev_app_distr, <- map_rev.
      do 2 f_equal. f_equal; [rewrite ES, app_length|]; rewrite !rev_length; lia.
Qed.
(** A value that is an array with a comment inside does not get the comment
    above it at all, because the comment inside has been stored later. *)
Theorem C73_nested_refuted : exists a, lex_and_parse (bs "# x" ++ [10] ++ bs "a = [" ++ [10] ++ bs "# c" ++ [10] ++ bs "[ # d" ++ [10] ++ bs "]]") = Ok (a, []) /\
  map (fun c => (ac_pos c, line_of (ac_comment c))) (as_comments a) = [(Above, 0); (Contained, 2); (LineEnd, 3)].
Proof. eexists. split; [vm_compute; reflexivity|]. reflexivity. Qed.

Print Assumptions C52_statement_comments.
Print Assumptions C73_marked_block_partial.
Print Assumptions C73_nested_refuted.
