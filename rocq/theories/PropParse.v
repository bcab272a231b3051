(** Theorems about the TOML parser (C31-C34, C50-C53).  Specification:
    ParseSpec.v (grammar and meaning), ParsePlace.v (places).
    [lex_and_parse input] is the syntax tree and the list of all reported
    errors of lexer and parser. *)
From Verif Require Import Base BaseProofs CommonModel TomlError LitModel LitSpec LexModel LexSpec LexBase LexStr LexSound LexTop LexProps ParseModel ParseSpec ParsePlace ParseItems ParseKey ParseLit ParseVal ParseValue ParseAssoc ParseHead ParseRoot ParseTop ParseCVal ParseCValue ParseCTop ParseUniq.

(** [cut ts input]: the document in the pieces of its tokens; [lex_and_parse]
    works on them. *)
Definition cut (input : list N) (ts : list tile) (es : list terror) : Prop :=
  source ts = input /\ Forall shape ts /\ all_separated ts /\ lex input = Ok (tokens_of ts, es).

Lemma cut_exists input : exists ts es, cut input ts es /\ Forall (errok input) es /\ (es = [] -> Forall valid ts).
Proof.
  destruct (lex_sound input) as (ts & es & S1 & S2 & S3 & R & E & V). exists ts, es. split; [|auto]. split; [exact S1|]. auto.
Qed.
Lemma cut_parse input ts es : cut input ts es ->
  lex_and_parse input = (let? (a, es') := parse_items input (eof input) (tile_items [] ts) in Ok (a, es ++ es')).
Proof.
  intros (S1 & S2 & S3 & R). unfold lex_and_parse. rewrite R. cbn [bind]. rewrite (parse_tiles input ts S2 S1). reflexivity.
Qed.
Lemma lexical_cut ts input : lexical ts input -> cut input ts [].
Proof.
  intros L. pose proof L as (S1 & V & S3). split; [exact S1|]. split; [eapply Forall_impl; [|exact V]; intros x; apply valid_shape|]. split; [exact S3|].
  apply lex_accepts. exists ts. auto.
Qed.

(** ** Comments *)
Lemma shape_comment s : shape (XComment, s) -> s = 35 :: tl s /\ no_lf (tl s).
Proof. intros (t & -> & N). split; [reflexivity|exact N]. Qed.
Lemma comments_eq : forall ts pre, Forall shape ts -> comments_of pre ts = doc_comments pre ts.
Proof.
  induction ts as [|[x s] ts IH]; intros pre SH; [reflexivity|]. pose proof (Forall_inv SH) as S1. specialize (IH (pre ++ s) (Forall_inv_tail SH)).
  unfold comments_of in *. destruct x as [| |[]| | |]; cbn [tile_items flat_map doc_comments]; unfold item_comment at 1; cbn [i_ty item_ty app]; try exact IH.
  rewrite IH. f_equal. destruct (shape_comment _ S1) as [E N]. unfold mk_comment, span_from_pos_len. cbn [i_start sr_text]. f_equal. f_equal.
  apply pos_plus_text.
  - rewrite E. intros [H|H]; [discriminate|exact (N H)].
  - rewrite E at 2. cbn [tlen]. reflexivity.
Qed.
Lemma doc_comment_ok input : forall ts pre, input = pre ++ source ts -> Forall shape ts -> all_separated ts ->
  Forall (comment_ok input) (doc_comments pre ts).
Proof.
  induction ts as [|[x s] ts IH]; intros pre IN SH SEPS; [constructor|]. destruct SEPS as [SP SEP]. pose proof (Forall_inv SH) as S1. rewrite source_cons in IN.
  specialize (IH (pre ++ s)). rewrite <- app_assoc in IH. specialize (IH IN (Forall_inv_tail SH) SEP).
  destruct x; cbn [doc_comments]; try exact IH. constructor; [|exact IH].
  destruct (shape_comment _ S1) as [E N]. exists pre, (tl s), (source ts). split; [rewrite IN, E; reflexivity|]. split; [exact N|]. split.
  - cbn in SP. destruct SP as [H|[[H _]|H]]; auto.
  - rewrite <- E. reflexivity.
Qed.
Lemma ast_place input ts n a : input = source ts -> Forall shape ts -> all_separated ts -> ast_in input ts n a -> ast_ok input ts n a.
Proof.
  intros IN SH SEP H. destruct a as [a|t|t|c]; try exact H. cbn in *. rewrite comments_eq in H by exact SH.
  pose proof (doc_comment_ok input ts [] IN SH SEP) as F. rewrite Forall_forall in F. apply F, H.
Qed.

(** Everything about one run. *)
Lemma run_sound input ts es : cut input ts es -> (es = [] -> Forall valid ts) ->
  (lex_and_parse input = Panic /\ multiline_brackets ts) \/
  exists a es', lex_and_parse input = Ok (a, es ++ es') /\ Forall (err_ok input) es' /\
    Forall (ast_ok input ts (next_id (as_comments a))) (as_asts a) /\
    (exists X, interleave (flat_map free_of (as_asts a)) (map ac_comment (as_comments a)) X /\ subseq X (doc_comments [] ts) /\
       (es ++ es' = [] -> X = doc_comments [] ts)) /\
    (es ++ es' = [] -> exists d, lexical ts input /\ g_doc ts d /\ nesting_ok 0 d /\ doc_of a = Some d).
Proof.
  intros C V. rewrite (cut_parse _ _ _ C). destruct C as (S1 & S2 & S3 & R). symmetry in S1.
  destruct (parse_items_sound input ts S1 S2 S3) as [[-> RK]|(a & es' & -> & EO & AO & (X & IX & SX & EX) & D)]; [left; auto|].
  right. exists a, es'. split; [reflexivity|]. split; [exact EO|].
  split; [eapply Forall_impl; [|exact AO]; intros x; apply ast_place; assumption|].
  rewrite comments_eq in SX, EX by exact S2.
  split.
  - exists X. split; [exact IX|]. split; [exact SX|]. intros E. apply app_eq_nil in E as [-> ->]. auto.
  - intros E. apply app_eq_nil in E as [-> ->]. destruct (D eq_refl (V eq_refl)) as (d & G & NE & DO). exists d.
    split; [split; [symmetry; exact S1|auto]|]. auto.
Qed.
Lemma run_complete input ts d : lexical ts input -> g_doc ts d -> nesting_ok 0 d ->
  exists a, lex_and_parse input = Ok (a, []) /\ doc_of a = Some d.
Proof.
  intros L G N. pose proof (lexical_cut _ _ L) as C. rewrite (cut_parse _ _ _ C). destruct C as (S1 & S2 & S3 & R).
  destruct L as (_ & V & _). destruct (parse_items_complete input ts (eq_sym S1) S2 d S3 V G N) as (a & -> & D). exists a. split; [reflexivity|exact D].
Qed.

(** ** C34 *)

(** A document for which no error is reported is a TOML document, and the tree
    says what it says; *)
Theorem C34_accepted_documents input a : lex_and_parse input = Ok (a, []) ->
  exists d, toml_doc input d /\ doc_of a = Some d.
Proof.
  intros E. destruct (cut_exists input) as (ts & es & C & _ & V).
  destruct (run_sound _ _ _ C V) as [[E2 _]|(a' & es' & E2 & _ & _ & _ & D)]; rewrite E in E2; [discriminate|]. injection E2 as <- EN.
  destruct (D (eq_sym EN)) as (d & L & G & N & DO). exists d. split; [exists ts; auto|exact DO].
Qed.
(** every TOML document is accepted, and the tree says what it says; *)
Theorem C34_toml_documents input d : toml_doc input d ->
  exists a, lex_and_parse input = Ok (a, []) /\ doc_of a = Some d.
Proof. intros (ts & L & G & N). exact (run_complete input ts d L G N). Qed.
(** a document says one thing. *)
Theorem C34_unambiguous input d d' : toml_doc input d -> toml_doc input d' -> d = d'.
Proof.
  intros T T'. destruct (C34_toml_documents _ _ T) as (a & R & D). destruct (C34_toml_documents _ _ T') as (a' & R' & D').
  rewrite R in R'. injection R' as <-. rewrite D in D'. injection D' as ->. reflexivity.
Qed.

(** ** C32 *)

(** A document that follows the grammar is accepted exactly if its nesting
    stays within the limit. *)
Theorem C32_nesting_limit input ts d : lexical ts input -> g_doc ts d ->
  ((exists a, lex_and_parse input = Ok (a, [])) <-> nesting_ok 0 d).
Proof.
  intros L G. split.
  - intros [a E]. pose proof (lexical_cut _ _ L) as C.
    destruct (run_sound _ _ _ C (fun _ => proj1 (proj2 L))) as [[E2 _]|(a' & es' & E2 & _ & _ & _ & D)]; rewrite E in E2; [discriminate|]. injection E2 as <- EN.
    destruct (D (eq_sym EN)) as (d' & _ & G' & N & _). rewrite (g_doc_unique _ _ G _ G'). exact N.
  - intros N. destruct (run_complete _ _ _ L G N) as (a & E & _). eauto.
Qed.

(** Texts that meet the hypotheses. *)
Definition example_doc : list N := bs "# top" ++ [10; 10] ++ bs "# about a" ++ [10] ++ bs "a.""b c"" = [1, # one" ++ [13; 10] ++ bs "{x = 'y'}] # end" ++ [10]
  ++ bs "[[t]]" ++ [10] ++ bs "d = 2020-01-02 03:04:05".
Definition example_says : list stmt :=
  [SAssign [bs "a"; bs "b c"] (TvArr [TvInt 1; TvTab [([bs "x"], TvStr (bs "y"))]]); SArray [bs "t"];
   SAssign [bs "d"] (TvDate (LocalDateTime (mkdate 2020 1 2) (mktime 3 4 5 0)))].
Example C34_example : toml_doc example_doc example_says.
Proof.
  assert (E : exists a, lex_and_parse example_doc = Ok (a, []) /\ doc_of a = Some example_says).
  { eexists. split; vm_compute; reflexivity. }
  destruct E as (a & R & D). destruct (C34_accepted_documents _ _ R) as (d & T & D'). rewrite D in D'. injection D' as ->. exact T.
Qed.
(** 101 brackets: in the grammar, beyond the limit. *)
Example C32_example : exists ts d, lexical ts (bs "a=" ++ repeat 91 101 ++ repeat 93 101) /\ g_doc ts d /\ ~ nesting_ok 0 d.
Proof.
  set (L := (XPunct TSquareLeft, [91]) : tile). set (R := (XPunct TSquareRight, [93]) : tile).
  set (deep := fix deep (n : nat) : list tile := match n with O => [L; R] | S n => L :: deep n ++ [R] end).
  set (val := fix val (n : nat) : tval := match n with O => TvArr [] | S n => TvArr [val n] end).
  assert (G : forall n, g_value (deep n) (val n)).
  { induction n as [|n IH].
    - apply (gv_array L R [] []); [reflexivity|reflexivity|]. apply (ge_nil []). constructor.
    - cbn [deep val]. apply gv_array; [reflexivity|reflexivity|]. rewrite <- (app_nil_r (deep n)). apply (ge_last [] _ _ []); [constructor|exact IH|constructor]. }
  exists ((XWord, [97]) :: (XPunct TEqual, [61]) :: deep 100%nat), [SAssign [[97]] (val 100%nat)]. split; [|split].
  - split; [vm_compute; reflexivity|]. split.
    + constructor; [cbn; split; [discriminate|constructor; [|constructor]]; unfold word_char; cbn; intuition discriminate|].
      constructor; [exists 61; split; [unfold punct; cbn; tauto|reflexivity]|].
      assert (V : forall n, Forall valid (deep n)).
      { assert (VL : valid L) by (exists 91; split; [unfold punct; cbn; tauto|reflexivity]). assert (VR : valid R) by (exists 93; split; [unfold punct; cbn; tauto|reflexivity]).
        induction n as [|n IH]; cbn [deep]; [constructor; [exact VL|constructor; [exact VR|constructor]]|].
        constructor; [exact VL|]. apply Forall_app. split; [exact IH|]. constructor; [exact VR|constructor]. }
      apply V.
    + assert (SP : forall n r, all_separated r -> all_separated (deep n ++ r)).
      { induction n as [|n IH]; intros r H; cbn [deep]; [split; [exact I|split; [exact I|exact H]]|]. cbn [app]. split; [exact I|].
        rewrite <- app_assoc. apply IH. split; [exact I|exact H]. }
      split; [|split; [exact I|]].
      * left. split; [|intros [[|] H]; [discriminate|destruct l; discriminate]]. intros (c & r & E & W). injection E as <- _. apply W. cbn. auto 12.
      * rewrite <- (app_nil_r (deep 100%nat)). apply SP. exact I.
  - assert (GS : g_stmt ([(XWord, [97])] ++ [] ++ (XPunct TEqual, [61]) :: [] ++ deep 100%nat) (SAssign [[97]] (val 100%nat))).
    { apply gs_assign; [apply gk_one, gi_bare; constructor; [left; lia|constructor]|constructor|reflexivity|constructor|apply G]. }
    pose proof (gd_last _ _ [] (gl_stmt [] _ _ [] (Forall_nil _) GS (Forall_nil _)) gc_none) as H. rewrite !app_nil_r in H. exact H.
  - intros [H _]. vm_compute in H. apply H. reflexivity.
Qed.

(** ** C31 *)

(** Parsing panics only on a document with a header in whose brackets a string
    spans lines; *)
Theorem C31_no_panic_partial input :
  (exists a es, lex_and_parse input = Ok (a, es)) \/
  exists ts es, cut input ts es /\ multiline_brackets ts /\ lex_and_parse input = Panic.
Proof.
  destruct (cut_exists input) as (ts & es & C & _ & V).
  destruct (run_sound _ _ _ C V) as [[E M]|(a & es' & E & _)]; [right; exists ts, es; auto|left; eauto].
Qed.
(** so only where a [[] is followed by three quotes, a line break and a []], *)
Definition bracketed_multiline (input : list N) : Prop :=
  exists a b q c d e, multi q /\ input = a ++ [91] ++ b ++ delims q ++ c ++ [10] ++ d ++ [93] ++ e.
Theorem C31_text_partial input :
  (exists a es, lex_and_parse input = Ok (a, es)) \/ bracketed_multiline input /\ lex_and_parse input = Panic.
Proof.
  destruct (C31_no_panic_partial input) as [R|(ts & es & (S1 & SH & _) & (p & l & m1 & [x s] & m2 & r & q & E & L & _ & ((qt & t & o & X & MQ) & NL) & _ & R) & P)]; [left; exact R|right; split; [|exact P]].
  cbn in X, NL. subst x. rewrite E in S1, SH. clear E.
  apply Forall_app in SH as [_ SH]. pose proof (Forall_inv SH) as SL. apply Forall_inv_tail, Forall_app in SH as [_ SH].
  pose proof (Forall_inv SH) as SB. apply Forall_inv_tail, Forall_app in SH as [_ SH]. pose proof (Forall_inv SH) as SR. clear SH.
  destruct l as [y u], r as [z v]. unfold is_punct in L, R. cbn in L, R. subst y z.
  rewrite (punct_unique TSquareLeft 91 u) in S1; [|unfold punct; cbn; tauto|exact SL].
  rewrite (punct_unique TSquareRight 93 v) in S1; [|unfold punct; cbn; tauto|exact SR].
  rewrite source_app, source_cons, source_app, source_cons, source_app, source_cons in S1.
  destruct SB as ((trim & b & e & -> & _) & _).
  apply in_app_iff in NL as [NL|NL]; [exfalso; destruct qt; cbn in NL; intuition discriminate|].
  apply in_split in NL as (s1 & s2 & ES).
  exists (source p), (source m1), qt, s1, (s2 ++ source m2), (source q). split; [exact MQ|]. rewrite <- S1, ES. assoc.
Qed.
(** so never on a single line, without brackets, or without triple quotes, *)
Definition infix (w s : list N) : Prop := exists a b, s = a ++ w ++ b.
Corollary C31_simple_documents input :
  ~ In 10 input \/ ~ In 91 input \/ ~ In 93 input \/ (~ infix ([34; 34; 34]) input /\ ~ infix ([39; 39; 39]) input) ->
  exists a es, lex_and_parse input = Ok (a, es).
Proof.
  intros H. destruct (C31_text_partial input) as [R|[(a & b & q & c & d & e & M & E) _]]; [exact R|exfalso].
  destruct H as [H|[H|[H|[H1 H2]]]].
  1-3: apply H; rewrite E; repeat (apply in_or_app; first [left; left; reflexivity|right]).
  destruct q; [destruct M; discriminate|apply H1|destruct M; discriminate|apply H2];
    exists (a ++ [91] ++ b), (c ++ [10] ++ d ++ [93] ++ e); rewrite E; cbn [delims bs]; assoc.
Qed.
(** and it does panic on such a header. *)
Theorem C31_header_refuted : lex_and_parse (bs "   [""""""" ++ [10] ++ bs """""""]") = Panic.
Proof. vm_compute. reflexivity. Qed.

(** ** C33 *)

(** In an error-free document every comment is in the tree exactly once, in
    order: as a comment of its own, or among those that belong to a statement. *)
Theorem C33_every_comment input a : lex_and_parse input = Ok (a, []) ->
  exists ts, cut input ts [] /\ interleave (flat_map free_of (as_asts a)) (map ac_comment (as_comments a)) (doc_comments [] ts).
Proof.
  intros E. destruct (cut_exists input) as (ts & es & C & _ & V).
  destruct (run_sound _ _ _ C V) as [[E2 _]|(a' & es' & E2 & _ & _ & (X & IX & _ & EX) & _)]; rewrite E in E2; [discriminate|]. injection E2 as <- EN.
  symmetry in EN. rewrite (EX EN) in IX. apply app_eq_nil in EN as [-> _]. exists ts. auto.
Qed.
(** Whatever the document, no comment is made up, repeated or moved before
    another one. *)
Theorem C33_no_comment_invented input a es : lex_and_parse input = Ok (a, es) ->
  exists ts es0 X, cut input ts es0 /\ subseq X (doc_comments [] ts) /\
    interleave (flat_map free_of (as_asts a)) (map ac_comment (as_comments a)) X.
Proof.
  intros E. destruct (cut_exists input) as (ts & es0 & C & _ & V).
  destruct (run_sound _ _ _ C V) as [[E2 _]|(a' & es' & E2 & _ & _ & (X & IX & SX & _) & _)]; rewrite E in E2; [discriminate|]. injection E2 as <- EN.
  exists ts, es0, X. auto.
Qed.
(** After an error a comment can be lost. *)
Theorem C33_lost_comment_refuted : exists input toks a es n, lex input = Ok (toks, []) /\ In (TComment n) (map t_ty (tk_tokens toks)) /\
  lex_and_parse input = Ok (a, es) /\ flat_map free_of (as_asts a) = [] /\ as_comments a = [].
Proof.
  exists (bs "a = [ = # c" ++ [10] ++ bs "]"). eexists _, _, _, _. split; [vm_compute; reflexivity|].
  split; [cbn; right; right; right; right; left; reflexivity|]. split; [vm_compute; reflexivity|]. split; reflexivity.
Qed.
Example C33_example : exists a, lex_and_parse example_doc = Ok (a, []) /\ length (flat_map free_of (as_asts a)) = 1%nat /\ length (as_comments a) = 3%nat.
Proof. eexists. split; [vm_compute; reflexivity|]. split; reflexivity. Qed.

(** ** C50 *)

(** Every node stands where the document has its text. *)
Theorem C50_places input a es : lex_and_parse input = Ok (a, es) ->
  exists ts es0, cut input ts es0 /\ Forall (ast_ok input ts (N.of_nat (length (as_comments a)))) (as_asts a) /\
    Forall (comment_ok input) (map ac_comment (as_comments a)).
Proof.
  intros E. destruct (cut_exists input) as (ts & es0 & C & _ & V).
  destruct (run_sound _ _ _ C V) as [[E2 _]|(a' & es' & E2 & _ & AO & (X & IX & SX & _) & _)]; rewrite E in E2; [discriminate|]. injection E2 as <- EN.
  exists ts, es0. split; [exact C|]. split; [exact AO|]. destruct C as (S1 & SH & SEP & _).
  apply Forall_forall. intros c H. pose proof (doc_comment_ok input ts [] (eq_sym S1) SH SEP) as F. rewrite Forall_forall in F. apply F.
  apply (subseq_in _ _ _ SX). apply (interleave_in _ _ _ c IX). right. exact H.
Qed.

(** ** C51 *)

(** Every reported error, of lexer and parser, is marked by a piece of the
    document: whole characters of it, one starting and the next ending where
    the error says, and that piece is what the error claims to have found (see
    [parse_says]).  The one exception is an illegal character in a comment,
    which is marked by the first byte of the character before it.  The hint of
    an error about a missing bracket is on an opening bracket. *)
Theorem C51_error_spans input a es : lex_and_parse input = Ok (a, es) -> Forall (fun e => err_ok input e \/ comment_char_error input e) es.
Proof.
  intros E. destruct (cut_exists input) as (ts & es0 & C & LE & V).
  destruct (run_sound _ _ _ C V) as [[E2 _]|(a' & es' & E2 & EO & _)]; rewrite E in E2; [discriminate|]. injection E2 as <- ->.
  apply Forall_app. split; [|eapply Forall_impl; [|exact EO]; auto]. eapply Forall_impl; [|exact LE]. intros e [(p & t & r & IN & SP & SAY)|H].
  - left. apply (err_ok_at input e p t r IN SP); destruct e; try contradiction SAY; try exact SAY; reflexivity.
  - right. exact H.
Qed.
(** The exception is real: the mark can end in the middle of a character. *)
Theorem C51_comment_char_refuted : exists input a c sp, lex_and_parse input = Ok (a, [EInvalidCommentChar c sp]) /\
  ~ exists p r, input = p ++ r /\ s_end sp = pos_at p.
Proof.
  exists [35; 233; 1]. eexists _, _, _. split; [vm_compute; reflexivity|]. cbn [s_end]. intros (p & r & E & H).
  destruct p as [|x [|y [|z [|w p]]]]; try discriminate; injection E; intros; subst; vm_compute in H; discriminate.
Qed.

Example C51_example : exists a e, lex_and_parse (bs "a = [" ++ [10] ++ bs " 1 2") = Ok (a, [EMissingComma (mkpos 1 2); e]).
Proof. eexists _, _. vm_compute. reflexivity. Qed.

(** The message for a stray closing bracket names an opening one. *)
Example C51_found_example : exists a, lex_and_parse (bs "a = }") = Ok (a, [EExpectedValueFound (bs "`{`") (mkspan (mkpos 0 4) (mkpos 0 5))]).
Proof. eexists. vm_compute. reflexivity. Qed.
Example C51_literal_example : exists a, lex_and_parse (bs "a = trUe # x") = Ok (a, [EUppercaseBareLitChar 85 (bs "true") (mkpos 0 6)]).
Proof. eexists. vm_compute. reflexivity. Qed.

(** ** C52 *)

(** The comments before a statement are split in two: the longest block of
    comments on the lines directly above the statement, and the ones before
    that. *)
Theorem C52_associated_block cs line : below line (rev cs) ->
  exists free assoc, cs = free ++ assoc /\ find_associated_comments cs line = Ok (N.of_nat (length free)) /\ block line assoc /\
    (forall f c, free = f ++ [c] -> line_of c + 1 + N.of_nat (length assoc) <> line).
Proof. exact (find_associated_ok cs line). Qed.
(** In an array this is not so: the comment right above the first value is
    marked as standing above it, but does not belong to the value, *)
Theorem C52_array_comment_refuted : exists a ac v e r p k, lex_and_parse (bs "a = [" ++ [10] ++ bs "# c" ++ [10] ++ bs "1]") = Ok (a, []) /\
  as_asts a = [AAssign (mkta ac (mkassign k p (VArray r e [mkav (mkrange 1 0 1) v None] (EndPar (mkpos 2 1)))))] /\
  map ac_pos (as_comments a) = [Above].
Proof. eexists _, _, _, _, _, _, _. split; [vm_compute; reflexivity|]. split; reflexivity. Qed.
(** while it does if another comment came before. *)
Example C52_array_comment_after : exists a ac v e r p k, lex_and_parse (bs "# x" ++ [10] ++ bs "a = [" ++ [10] ++ bs "# c" ++ [10] ++ bs "1]") = Ok (a, []) /\
  as_asts a = [AAssign (mkta ac (mkassign k p (VArray r e [mkav (mkrange 1 1 1) v None] (EndPar (mkpos 3 1)))))] /\
  map ac_pos (as_comments a) = [Above; Above].
Proof. eexists _, _, _, _, _, _, _. split; [vm_compute; reflexivity|]. split; reflexivity. Qed.

Print Assumptions C31_no_panic_partial.
Print Assumptions C31_text_partial.
Print Assumptions C31_simple_documents.
Print Assumptions C31_header_refuted.
Print Assumptions C32_nesting_limit.
Print Assumptions C33_every_comment.
Print Assumptions C33_no_comment_invented.
Print Assumptions C33_lost_comment_refuted.
Print Assumptions C34_accepted_documents.
Print Assumptions C34_toml_documents.
Print Assumptions C34_unambiguous.
Print Assumptions C50_places.
Print Assumptions C51_error_spans.
Print Assumptions C51_comment_char_refuted.
Print Assumptions C52_associated_block.
Print Assumptions C52_array_comment_refuted.
