(** C77: nothing below is reported above. *)
From Verif Require Import Base BaseProofs CommonModel TomlError LitModel LitSpec LexModel LexSpec LexBase LexMain LexTop LexCMain LexPre ParseModel ParseSpec ParsePlace ParseItems ParseRoot ParseAssoc ParseTop ParseCTop ParsePre.
From Verif Require Import MapExt DisplayModel DiagModel PropParse PropPre LowLit LowLex LowParse LowMap LowAdds.
From Verif Require Import PropOrder MapModel MapSpec MapRel MapDecl MapPre MeanSpec MeanProofs.

(** ** Specification *)

(** How many lines are complete in [text]: the first line after them, counted from zero. *)
Definition newlines (text : list N) : N := N.of_nat (length (filter (fun c => c =? 10) text)).
(** Everything a finding points at is on the line [n] or below: the marked text
    the place of the hint, if there is one, and the further lines it shows. *)
Definition from_line (n : N) (g : ddiag) : Prop :=
  n <= p_line (s_start (g_span g)) /\ n <= p_line (s_end (g_span g)) /\
  (forall h, g_hint g = Some h -> n <= p_line (s_start (h_span h)) /\ n <= p_line (s_end (h_span h))) /\
  Forall (fun l => n <= l) (g_lines g).

(** ** The line *)
Lemma newlines_pos text : p_line (pos_at text) = newlines text.
Proof.
  unfold newlines. induction text as [|c t IH] using rev_ind; [reflexivity|]. unfold pos_at in *. rewrite fold_left_app, filter_app, app_length. cbn [fold_left filter]. unfold pos_step at 1.
  destruct (c =? 10); cbn [p_line length]; rewrite IH; lia.
Qed.
Lemma line_app a b : p_line (pos_at a) <= p_line (pos_at (a ++ b)).
Proof. rewrite !newlines_pos. unfold newlines. rewrite filter_app, app_length. lia. Qed.
Lemma pos_le_line a b : pos_le a b -> p_line a <= p_line b.
Proof. intros [->|H]; [lia|]. unfold pos_lt in H. lia. Qed.

(** ** The lexer *)
Lemma lex_low ts g o es : Forall LexSpec.valid ts -> all_separated ts -> ends_line ts -> lex (source ts ++ g) = Ok (o, es) -> Forall (elow (p_line (pos_at (source ts)))) es.
Proof.
  intros V A EL E. pose proof (seps_below _ g V EL A) as SB. set (input := source ts ++ g) in *.
  destruct (lex_tiles_pre input g (length ts) ts [] [] (lexer_new input) (Datatypes.S (length input))) as (lx & f & R & F & C); auto.
  - congruence.
  - exists 0, (mklit false pos_zero 0). split; [reflexivity|]. split; [reflexivity|congruence].
  - cbn [word_tiles app] in C. unfold lex in E. rewrite R in E.
    assert (H0 : lowlex (p_line (pos_at (source ts))) false lx).
    { destruct C as (bp & l & -> & (LI & _)). split; [|split].
      - cbn. rewrite app_nil_r. lia.
      - intros [H|H]; [discriminate|]. cbn [lx_lit] in H. rewrite (LI eq_refl) in H. discriminate.
      - constructor. }
    destruct (lex_loop input f lx) as [l1|[]|] eqn:L1; [|discriminate]. cbn [bind] in E. apply (low_loop input (p_line (pos_at (source ts))) f) in L1; [|exact H0].
    destruct (end_literal input l1) as [l2|[]|] eqn:L2; [|discriminate]. cbn [bind] in E. apply (low_end_literal input (p_line (pos_at (source ts)))) in L2; [|exact L1].
    destruct (lpos l2) as [p|[]|]; [|discriminate]. cbn [bind] in E. injection E as _ <-. exact (proj2 (proj2 L2)).
Qed.

(** ** The parser *)
Lemma items_ok L : forall ts pre, L <= p_line (pos_at pre) -> Forall (iok L) (tile_items pre ts).
Proof.
  induction ts as [|[x s] ts IH]; intros pre H; [constructor|].
  assert (H2 : L <= p_line (pos_at (pre ++ s))) by (pose proof (line_app pre s); lia). specialize (IH _ H2).
  assert (X : iok L (mkitem (item_ty pre x s) (pos_at pre))).
  { split; [exact H|]. destruct x as [| |ty| | |q text off]; cbn [item_ty i_ty]; try exact I; [|exact H2]. destruct ty; exact I. }
  destruct x; cbn [tile_items]; try exact IH; constructor; assumption.
Qed.
Lemma parse_low input ts d more a es : input = source (ts ++ more) -> Forall shape (ts ++ more) -> all_separated (ts ++ more) -> Forall LexSpec.valid ts ->
  ParsePre.g_lines ts d -> nesting_ok 0 d -> parse_items input (eof input) (tile_items [] (ts ++ more)) = Ok (a, es) ->
  Forall (elow (p_line (pos_at (source ts)))) es /\
  exists l l', all_some (stmts l) = Some d /\ addl (p_line (pos_at (source ts))) l l' /\ as_asts a = rev l'.
Proof.
  intros IN SHA SEP V GD NE E. unfold parse_items in E. set (all := ts ++ more) in *.
  assert (A0 : at_ input (mkps (mkpc None (tile_items [] all)) [] []) [] all).
  { split; [exact IN|]. split; [exact SHA|]. split; [exact SEP|]. split; [reflexivity|exact I]. }
  destruct (c_lines input all IN SHA ts d GD (S (length (tile_items [] all))) (mkroot (mkps (mkpc None (tile_items [] all)) [] []) [] [] false) [] [] more) as (f & r & pre & R & C & _ & _).
  - constructor; [|exact A0|reflexivity|reflexivity|reflexivity]. exists [], all. apply rinv_start; assumption.
  - exact V.
  - reflexivity.
  - exact NE.
  - cbn [rt_st]. unfold left. cbn. lia.
  - rewrite R in E. destruct (root_loop input (eof input) f r) as [r'|[]|] eqn:RL; [|discriminate]. cbn [bind] in E. injection E as <- <-.
    destruct C as [_ (I1 & _ & _ & I4 & _) C3 C4 _].
    assert (PR : pre = source ts) by (rewrite IN in I1; unfold all in I1; rewrite source_app in I1; apply app_inv_tail in I1; auto). subst pre.
    set (L := p_line (pos_at (source ts))) in *.
    assert (LE : iok L (eof input)) by (split; [|exact I]; cbn; rewrite IN; unfold all; rewrite source_app; apply line_app).
    assert (R0 : rlow L r).
    { split; [|split].
      - rewrite I4. apply items_ok. unfold L. lia.
      - discriminate.
      - rewrite C3. constructor. }
    split; [exact (proj2 (proj2 (low_root_loop input (eof input) L LE eq_refl _ _ _ RL R0)))|].
    cbn [as_asts]. exists (rt_asts r), (rev (map AComment (rt_prev r')) ++ rt_asts r'). split; [exact C4|]. split; [|reflexivity].
    apply (al_trans L _ _ _ (al_loop input (eof input) L LE eq_refl _ _ _ RL R0)). apply al_front, comments_low.
Qed.

(** ** C77 *)
Theorem C77_syntax text d below a es : toml_doc text d -> complete_lines text -> lex_and_parse (text ++ below) = Ok (a, es) ->
  Forall (fun e => from_line (newlines text) (toml_diag e)) es.
Proof.
  intros (ts & L & G & NE) CL P. pose proof (lines_end _ _ L CL) as EL. pose proof (lexical_cut _ _ L) as (S1 & SH & SEP & _). destruct L as (_ & V & _).
  destruct (lex_prefix ts below V SH SEP EL) as (more & les & E1 & E2 & E3 & E4 & E5 & _). pose proof (lex_low _ _ _ _ V SEP EL E4) as LL. rewrite S1 in *.
  assert (C : cut (text ++ below) (ts ++ more) les) by (split; [exact E1|auto]). pose proof P as P'. rewrite (cut_parse _ _ _ C) in P'. step_in P'. destruct x as [a0 es0]. injection P' as -> <-.
  destruct (parse_low _ ts d more a es0 (eq_sym E1) E2 E3 V (doc_lines _ _ G EL) NE Heqr) as (PL & _). rewrite S1, newlines_pos in *.
  assert (LA : Forall (elow (newlines text)) (les ++ es0)) by (apply Forall_app; auto).
  pose proof (C51_error_spans _ _ _ P) as SP. rewrite Forall_forall in *. intros e I. specialize (LA _ I). specialize (SP _ I). destruct LA as (L1 & L2).
  unfold LowLit.lowspan in *. unfold from_line, toml_diag. cbn [g_span g_hint g_lines].
  destruct SP as [((u & v & w & _ & ES & _) & HO)|(u & x & c & w & _ & _ & _ & _ & ->)].
  - rewrite ES in *. cbn [s_start s_end] in *. pose proof (line_app u v). split; [exact L1|]. split; [lia|]. split.
    + intros h H2. destruct e; try (cbn [hint_ok] in HO; rewrite HO in H2; discriminate H2); cbn [err_hint option_map] in H2, L2; injection H2 as <-; specialize (L2 _ eq_refl); cbn in *; auto.
    + destruct e; try constructor; discriminate HO.
  - cbn in *. split; [exact L1|]. split; [exact L1|]. split; [discriminate|constructor].
Qed.

(** ** The mapping *)
Lemma more_low_of L x x' : more_low L x x' -> more_of x x'.
Proof. intros [a a' E|t t' l more H1 H2 H3 H4|t t' l more H1 H2 H3 H4|c]; [apply mo_assign; exact E|eapply mo_table; eassumption|eapply mo_array; eassumption|apply mo_comment]. Qed.
Lemma more_low_decls L x x' : more_low L x x' -> exists l more, assigns_in x' = l ++ more /\ Forall (talow L) more /\ forall d, ast_decls d (with_assigns x' l) = ast_decls d x.
Proof.
  intros [a a' E|t t' l more H1 H2 H3 H4|t t' l more H1 H2 H3 H4|c].
  - exists [], []. split; [reflexivity|]. split; [constructor|]. intros d. cbn [with_assigns ast_decls]. unfold assign_decls. rewrite E. reflexivity.
  - exists l, more. split; [exact H2|]. split; [exact H4|]. intros d. cbn [with_assigns ast_decls tb_header tb_assigns]. rewrite H1. destruct (th_key (tb_header t)); [|reflexivity]. cbv zeta. rewrite (decls_same_assigns _ _ _ H3). reflexivity.
  - exists l, more. split; [exact H2|]. split; [exact H4|]. intros d. cbn [with_assigns ast_decls ae_header ae_assigns]. rewrite H1. destruct (ah_key (ae_header t)); [|reflexivity]. cbv zeta. rewrite (decls_same_assigns _ _ _ H3). reflexivity.
  - exists [], []. split; [reflexivity|]. split; [constructor|reflexivity].
Qed.
Lemma map_low text d below a es m es' : toml_doc text d -> complete_lines text -> consistent d ->
  lex_and_parse (text ++ below) = Ok (a, es) -> map_doc (as_asts a) = Ok (m, es') -> Forall (mlow (newlines text)) es'.
Proof.
  intros (ts & L & G & NE) CL CO P M. pose proof (lines_end _ _ L CL) as EL. pose proof (lexical_cut _ _ L) as (S1 & SH & SEP & _). destruct L as (_ & V & _).
  destruct (lex_prefix ts below V SH SEP EL) as (more & les & E1 & E2 & E3 & E4 & _). rewrite S1 in *.
  assert (C : cut (text ++ below) (ts ++ more) les) by (split; [exact E1|auto]). pose proof P as P'. rewrite (cut_parse _ _ _ C) in P'. step_in P'. destruct x as [a0 es0]. injection P' as -> <-.
  destruct (parse_low _ ts d more a es0 (eq_sym E1) E2 E3 V (doc_lines _ _ G EL) NE Heqr) as (_ & l & l' & D & A & AL). rewrite S1, newlines_pos in A.
  pose proof (doc_late _ _ _ P) as NL. rewrite AL, rev_involutive in NL. set (L := newlines text) in *.
  destruct A as [l' F|x x' l new MO F].
  - rewrite AL in M. eapply (map_asts_low L); [|exact M]. apply Forall_rev. exact F.
  - apply late_tail in NL. apply (late_more _ _ _ (more_low_of _ _ _ MO)) in NL. pose proof (same_list _ _ NL D) as SL. cbn [rev] in SL.
    destruct (more_low_decls _ _ _ MO) as (la & lm & A1 & AF & A2).
    rewrite AL, rev_app_distr in M. cbn [rev] in M. rewrite <- app_assoc in M. cbn [app] in M.
    assert (DE : doc_decls (rev l ++ [with_assigns x' la]) = doc_decls (rev l ++ [x])) by (rewrite !decls_snoc, A2; reflexivity).
    destruct (map_doc_part _ _ _ _ _ _ _ A1 M) as (m1 & _ & _ & _ & QQ).
    + rewrite DE. intros u w BE EQ. destruct (clash (snd u) (snd w)) eqn:CL2; [|reflexivity]. exfalso.
      destruct (proj1 (same_consistent _ _ SL)) as (u' & w' & B1 & B2 & B3); [exists u, w; auto|]. rewrite (CO _ _ B1 B2) in B3. discriminate.
    + apply QQ.
      * exact (assigns_low L _ AF).
      * intros m0 m' es1. apply map_asts_low. apply Forall_rev. exact F.
Qed.
Theorem C77_meaning text d below a es m es' : toml_doc text d -> complete_lines text -> consistent d ->
  lex_and_parse (text ++ below) = Ok (a, es) -> map_doc (as_asts a) = Ok (m, es') ->
  Forall (fun e => newlines text <= p_line (s_start (g_span (toml_diag e))) /\ newlines text <= p_line (s_end (g_span (toml_diag e)))) es'.
Proof.
  intros T CL CO P M. pose proof (map_low _ _ _ _ _ _ _ T CL CO P M) as F. pose proof (C53_error_places _ _ _ _ _ P M) as S1.
  rewrite Forall_forall in *. intros e I. specialize (F _ I). specialize (S1 _ I). destruct S1 as ((_ & _ & LE) & _). unfold mlow, lowspan in F. cbn [toml_diag g_span].
  split; [exact F|]. apply pos_le_line in LE. lia.
Qed.

(** Lines without findings get none from what is below: of everything that is
    reported for the longer document, the marked text is below them; what a
    finding of the parser shows besides, too. *)
Theorem C77_silent text a0 m0 below a es m es' : lex_and_parse text = Ok (a0, []) -> map_doc (as_asts a0) = Ok (m0, []) -> complete_lines text ->
  lex_and_parse (text ++ below) = Ok (a, es) -> map_doc (as_asts a) = Ok (m, es') ->
  Forall (fun e => from_line (newlines text) (toml_diag e)) es /\
  Forall (fun e => newlines text <= p_line (s_start (g_span (toml_diag e))) /\ newlines text <= p_line (s_end (g_span (toml_diag e)))) es'.
Proof.
  intros P0 M0 CL P M. destruct (C34_accepted_documents _ _ P0) as (d & T & D). pose proof (proj1 (consistent_iff _ _ _ _ _ P0 D _ M0) eq_refl) as CO.
  split; [exact (C77_syntax _ _ _ _ _ T CL P)|exact (C77_meaning _ _ _ _ _ _ _ T CL CO P M)].
Qed.

(** ** Examples *)
Definition low_above : list N := bs "[a]" ++ [10] ++ bs "b = 1" ++ [10].
Definition low_below : list N := bs "b = 2" ++ [10] ++ bs "c = [1".
Definition lines_shown (e : terror) : N * N * option N := let g := toml_diag e in
  (p_line (s_start (g_span g)), p_line (s_end (g_span g)), option_map (fun h => p_line (s_start (h_span h))) (g_hint g)).
(** Two complete lines without findings, and what follows: a key that is given
    again, which is reported below, with a hint at the first one; and an array
    that does not end. *)
Example C77_example : exists a0 m0 a e m e', lex_and_parse low_above = Ok (a0, []) /\ map_doc (as_asts a0) = Ok (m0, []) /\ complete_lines low_above /\ newlines low_above = 2 /\
  lex_and_parse (low_above ++ low_below) = Ok (a, [e]) /\ map_doc (as_asts a) = Ok (m, [e']) /\ lines_shown e = (3, 3, Some 3) /\ lines_shown e' = (2, 2, Some 1).
Proof.
  eexists _, _, _, _, _, _. split; [vm_compute; reflexivity|]. split; [vm_compute; reflexivity|]. split; [right; exists (bs "[a]" ++ [10] ++ bs "b = 1"); reflexivity|]. split; [reflexivity|].
  split; [vm_compute; reflexivity|]. split; [vm_compute; reflexivity|]. split; reflexivity.
Qed.
(** The lines have to be a document of their own: what starts above and does
    not end there is reported there. *)
Theorem C77_unfinished_refuted : exists a e es, lex_and_parse ((bs "a = '''" ++ [10]) ++ bs "b = 1") = Ok (a, e :: es) /\ fst (fst (lines_shown e)) = 0 /\ newlines (bs "a = '''" ++ [10]) = 1.
Proof. eexists _, _, _. split; [vm_compute; reflexivity|]. split; reflexivity. Qed.

Print Assumptions C77_syntax.
Print Assumptions C77_meaning.
Print Assumptions C77_silent.
