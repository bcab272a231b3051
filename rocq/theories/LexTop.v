(** Comments, the main loop and the whole lexer. *)
From Verif Require Import Base BaseProofs CommonModel TomlError LitModel LexModel LexSpec LexBase LexStr LexQuote LexEsc LexUni LexLoop LexSound LexMain.

Section Input.
Context (input : list N).

Lemma comment_scan_eq : forall fuel P x rest l o,
  input = P ++ [x] ++ rest -> x <> 10 -> (length rest < fuel)%nat ->
  exists t rest1 y Q es, rest = t ++ rest1 /\ no_lf t /\ (rest1 = [] \/ starts_with (eq 10) rest1) /\
    P ++ [x] ++ t = Q ++ [y] /\ y <> 10 /\
    comment_scan fuel (mklex (cur_at (P ++ [x]) rest (tlen P)) l o) =
    Ok (mklex (cur_at (Q ++ [y]) rest1 (tlen Q)) l (oerr o es)) /\
    Forall (errok input) es /\
    (es = [] -> Forall plain t \/ exists t' r, t = t' ++ [13] /\ Forall plain t' /\ rest1 = 10 :: r).
Proof.
  induction fuel as [|fuel IH]; intros P x rest l o IN X F; [lia|].
  cbn [comment_scan]. unfold lpeek. cbn [lx_cur cur_at cu_rest].
  destruct rest as [|c rest]; cbn [hd_error].
  { exists [], [], x, P, []. rewrite oerr_nil. split; [reflexivity|]. split; [auto|]. split; [auto|]. split; [assoc|].
    split; [assumption|]. split; [reflexivity|]. split; [constructor|]. auto. }
  fold (cur_at (P ++ [x]) (c :: rest) (tlen P)).
  destruct (N.eqb_spec c 10) as [->|NL].
  { exists [], (10 :: rest), x, P, []. rewrite oerr_nil. split; [reflexivity|]. split; [auto|].
    split; [right; apply starts_with_cons; reflexivity|]. split; [assoc|].
    split; [assumption|]. split; [reflexivity|]. split; [constructor|]. auto. }
  cbn [length] in F.
  assert (STEP : forall e, Forall (errok input) e -> (e = [] -> plain c \/ (c = 13 /\ starts_with (eq 10) rest)) ->
    exists t rest1 y Q es, c :: rest = t ++ rest1 /\ no_lf t /\ (rest1 = [] \/ starts_with (eq 10) rest1) /\
    P ++ [x] ++ t = Q ++ [y] /\ y <> 10 /\
    comment_scan fuel (lskip (mklex (cur_at (P ++ [x]) (c :: rest) (tlen P)) l (oerr o e))) =
    Ok (mklex (cur_at (Q ++ [y]) rest1 (tlen Q)) l (oerr o es)) /\
    Forall (errok input) es /\
    (es = [] -> Forall plain t \/ exists t' r, t = t' ++ [13] /\ Forall plain t' /\ rest1 = 10 :: r)).
  { intros e OKe PL. unfold lskip. rewrite lnext_char by assumption. cbn [snd].
    destruct (IH (P ++ [x]) c rest l (oerr o e)) as (t & r1 & y & Q & es & A1 & A2 & A3 & A4 & A5 & A6 & A7 & A8); [rewrite IN; assoc|assumption|lia|].
    exists (c :: t), r1, y, Q, (e ++ es).
    split; [rewrite A1; reflexivity|]. split; [unfold no_lf in *; cbn; intuition|]. split; [assumption|].
    split; [rewrite <- A4; assoc|]. split; [assumption|]. split; [rewrite A6, oerr_oerr; reflexivity|].
    split; [apply Forall_app; auto|].
    intros E. apply app_eq_nil in E. destruct E as [-> ->]. specialize (A8 eq_refl).
    destruct (PL eq_refl) as [PC|(-> & SW)].
    - destruct A8 as [A8|(t' & r & -> & P' & ->)]; [left; constructor; assumption|].
      right. exists (c :: t'), r. repeat split; auto.
    - right. destruct SW as (z & r & -> & <-). destruct t as [|z t].
      + cbn [app] in A1. exists [], r. repeat split; auto.
      + exfalso. cbn [app] in A1. injection A1 as <- _. apply A2. left. reflexivity. }
  assert (STEP0 := STEP []). rewrite oerr_nil in STEP0.
  destruct (N.eqb_spec c 9) as [->|N9].
  { apply STEP0; [constructor|]. intros _. left. left. reflexivity. }
  destruct ((c =? 13) && peeks2 _ 10) eqn:EC.
  { apply andb_true_iff in EC. destruct EC as [E1 E2]. apply STEP0; [constructor|]. intros _. right. split; [lia|].
    destruct rest as [|z r]; [discriminate|]. change (peeks2 _ 10) with (z =? 10) in E2. exists z, r. split; [reflexivity|lia]. }
  destruct (is_control_char c) eqn:EK.
  { rewrite lpos_char by assumption. cbn [bind]. rewrite lex_error_eq. apply STEP; [|discriminate].
    constructor; [|constructor]. right. exists P, x, c, rest. split; [rewrite IN; assoc|]. split; [assumption|]. split; [exact NL|]. split; [|reflexivity].
    apply control_spec in EK. unfold plain. lia. }
  apply STEP0; [constructor|]. intros _. left. right. rewrite <- control_spec. congruence.
Qed.

Lemma comment_between done w l es rest :
  winv input done w (35 :: rest) es -> lit_ok done w l ->
  exists lx done' rest' es', ext done done' /\
    comment input (mklex (cur_at ((source done ++ w) ++ [35]) rest (tlen (source done ++ w))) l (out_of done es)) = Ok lx /\
    (length rest' <= length rest)%nat /\ between input done' [] rest' es' lx.
Proof.
  intros WI L. pose proof WI as (IN & W & CL & G). unfold comment.
  destruct (end_literal_eq input done w l es (cur_at ((source done ++ w) ++ [35]) rest (tlen (source done ++ w))) (35 :: rest) IN L eq_refl) as (l' & L' & R).
  rewrite R. cbn [bind]. rewrite lpos_char by lia. cbn [bind].
  assert (G1 : good input (done ++ word_tiles w) (35 :: rest) es).
  { apply good_words; auto. intros _. apply word_sep; [assumption|]. left. unfold word_char. cbn. intuition. }
  assert (SW : source (done ++ word_tiles w) = source done ++ w) by apply source_words.
  assert (EXT : ext done (done ++ word_tiles w)) by apply ext_more.
  set (ts := done ++ word_tiles w) in *. clearbody ts. clear R CL L WI.
  set (p0 := source done ++ w) in *.
  assert (INp : input = p0 ++ 35 :: rest) by (rewrite IN; unfold p0; assoc).
  change (cu_pos (lx_cur (mklex (cur_at (p0 ++ [35]) rest (tlen p0)) l' (out_of ts es)))) with (tlen p0).
  change (cu_rest (lx_cur (mklex (cur_at (p0 ++ [35]) rest (tlen p0)) l' (out_of ts es)))) with rest.
  destruct (comment_scan_eq (S (length rest)) p0 35 rest l' (out_of ts es)) as (t & rest1 & y & Q & e & A1 & A2 & A3 & A4 & A5 & A6 & A7 & A8); [exact INp|lia|lia|].
  rewrite A6. cbn [bind].
  assert (TS : tlen p0 + 1 = tlen (p0 ++ [35])) by (rewrite tlen_app, tlen_one; reflexivity).
  assert (OO : oerr (out_of ts es) e = out_of ts (es ++ e)) by reflexivity.
  assert (COM : forall cur l', push_token (mklex cur l' (mkout (o_tokens (out_of ts (es ++ e))) (o_strings (out_of ts (es ++ e)))
           (o_literals (out_of ts (es ++ e)) ++ [mkref (tlen p0 + 1) t]) (o_errors (out_of ts (es ++ e)))))
           (mktok (TComment (N.of_nat (length (o_literals (out_of ts (es ++ e)))))) (pos_at p0)) =
         mklex cur l' (out_of (ts ++ [(XComment, 35 :: t)]) (es ++ e))).
  { intros cur l2. rewrite out_comment, SW. reflexivity. }
  assert (OKee : Forall (errok input) (es ++ e)) by (apply Forall_app; split; [apply G1|assumption]).
  destruct A3 as [->|(z & r & -> & <-)].
  - rewrite app_nil_r in A1. subst t. rewrite lnext_end. cbn [bind]. rewrite OO.
    change (cu_pos (lx_cur (mklex (cur_at (Q ++ [y]) [] (tlen (Q ++ [y]))) l' (out_of ts (es ++ e))))) with (tlen (Q ++ [y])).
    rewrite usub_ok by lia. rewrite N.sub_0_r. cbn [bind]. rewrite <- A4.
    rewrite TS. rewrite (slice_eq input (p0 ++ [35]) rest []); [|rewrite INp; rewrite app_nil_r; assoc|reflexivity|f_equal; assoc].
    rewrite <- TS. cbn [bind]. unfold store_literal, set_out. cbn [lx_cur lx_lit lx_out].
    rewrite COM. eexists _, (ts ++ [(XComment, 35 :: rest)]), [], (es ++ e).
    split; [ext_tac|]. split; [reflexivity|]. split; [cbn; lia|].
    assert (SRC : source (ts ++ [(XComment, 35 :: rest)]) = p0 ++ [35] ++ rest) by (rewrite source_app, SW, source_one; reflexivity).
    rewrite <- SRC. apply between_start; [rewrite SRC, INp, app_nil_r; reflexivity| |assumption].
    apply good_snoc with (es := es); [rewrite app_nil_r; assumption| | |assumption|].
    + exists rest. auto.
    + left. reflexivity.
    + intros E. apply app_eq_nil in E. destruct E as [-> ->]. split; [reflexivity|]. exists rest. split; [reflexivity|].
      destruct (A8 eq_refl) as [P|(t' & r & _ & _ & E)]; [assumption|discriminate].
  - rewrite lnext_lf. cbn [bind]. rewrite OO.
    rewrite (prev_is_cr_eq input (Q ++ [y]) (10 :: r)); [|rewrite <- A4, INp, A1; assoc|reflexivity]. cbn [bind].
    change (cu_pos (lx_cur (mklex (cur_lf (Q ++ [y]) r) l' (out_of ts (es ++ e))))) with (tlen (Q ++ [y])).
    rewrite <- A4.
    destruct (ends_with_cr_cases (p0 ++ [35] ++ t)) as [(pr & Epre & ->)|(-> & NCR)].
    + assert (Et : exists t', t = t' ++ [13] /\ pr = p0 ++ [35] ++ t').
      { destruct t as [|z t' _] using rev_ind.
        - exfalso. rewrite app_nil_r in Epre. apply app_inj_tail in Epre. destruct Epre; discriminate.
        - rewrite !app_assoc in Epre. apply app_inj_tail in Epre. destruct Epre as [<- ->]. exists t'. split; [reflexivity|]. assoc. }
      destruct Et as (t' & -> & ->).
      assert (TL : tlen (p0 ++ [35] ++ t' ++ [13]) = tlen (p0 ++ [35] ++ t') + 1).
      { rewrite Epre, tlen_app, tlen_one. reflexivity. }
      rewrite usub_ok by lia. cbn [bind]. replace (tlen (p0 ++ [35] ++ t' ++ [13]) - 1) with (tlen (p0 ++ [35] ++ t')) by lia.
      rewrite TS. rewrite (slice_eq input (p0 ++ [35]) t' (13 :: 10 :: r)); [|rewrite INp, A1; assoc|reflexivity|f_equal; assoc].
      rewrite <- TS. cbn [bind]. unfold store_literal, set_out. cbn [lx_cur lx_lit lx_out].
      assert (COM' : forall cur l', push_token (mklex cur l' (mkout (o_tokens (out_of ts (es ++ e))) (o_strings (out_of ts (es ++ e)))
           (o_literals (out_of ts (es ++ e)) ++ [mkref (tlen p0 + 1) t']) (o_errors (out_of ts (es ++ e)))))
           (mktok (TComment (N.of_nat (length (o_literals (out_of ts (es ++ e)))))) (pos_at p0)) =
         mklex cur l' (out_of (ts ++ [(XComment, 35 :: t')]) (es ++ e))).
      { intros cur l2. rewrite out_comment, SW. reflexivity. }
      rewrite COM'. clear COM COM'. rewrite Epre.
      assert (SRC : source (ts ++ [(XComment, 35 :: t')]) = p0 ++ [35] ++ t') by (rewrite source_app, SW, source_one; reflexivity).
      rewrite <- SRC. rewrite pos_in_line_lf by (apply no_lf_one; lia). cbn [bind].
      rewrite (out_newline _ _ [13; 10]). rewrite newline_lf.
      eexists _, ((ts ++ [(XComment, 35 :: t')]) ++ [(XNewline, [13; 10])]), r, (es ++ e). split; [ext_tac|]. split; [reflexivity|].
      split; [rewrite A1, !app_length; cbn; lia|].
      assert (SRC2 : source ((ts ++ [(XComment, 35 :: t')]) ++ [(XNewline, [13; 10])]) = (source (ts ++ [(XComment, 35 :: t')]) ++ [13]) ++ [10]).
      { rewrite source_app, source_one. assoc. }
      rewrite <- SRC2. apply between_start; [rewrite SRC2, SRC, INp, A1; assoc| |assumption].
      apply good_snoc with (es := es ++ e); [|right; reflexivity|exact I|assumption|].
      * apply good_snoc with (es := es); [replace ((35 :: t') ++ [13; 10] ++ r) with (35 :: rest); [assumption|rewrite A1; assoc]| | |assumption|].
        -- exists t'. split; [reflexivity|]. apply no_lf_app in A2. apply A2.
        -- right. right. exists r. reflexivity.
        -- intros E. apply app_eq_nil in E. destruct E as [-> ->]. split; [reflexivity|]. exists t'. split; [reflexivity|].
           destruct (A8 eq_refl) as [P|(t2 & r2 & E2 & P & _)].
           ++ apply Forall_app in P. destruct P as [_ P]. inversion P; subst. exfalso. apply plain_not_13. assumption.
           ++ apply app_inj_tail in E2. destruct E2 as [-> _]. assumption.
      * intros E. split; [assumption|]. right. reflexivity.
    + rewrite usub_ok by lia. rewrite N.sub_0_r. cbn [bind].
      rewrite TS. rewrite (slice_eq input (p0 ++ [35]) t (10 :: r)); [|rewrite INp, A1; assoc|reflexivity|f_equal; assoc].
      rewrite <- TS. cbn [bind]. unfold store_literal, set_out. cbn [lx_cur lx_lit lx_out].
      rewrite COM. clear COM.
      assert (SRC : source (ts ++ [(XComment, 35 :: t)]) = p0 ++ [35] ++ t) by (rewrite source_app, SW, source_one; reflexivity).
      rewrite <- SRC. 
      pose proof (pos_in_line_lf (source (ts ++ [(XComment, 35 :: t)])) [] r l' (out_of (ts ++ [(XComment, 35 :: t)]) (es ++ e)) no_lf_nil) as PL.
      rewrite app_nil_r in PL. rewrite PL. cbn [bind].
      rewrite (out_newline _ _ [10]). rewrite newline_lf.
      eexists _, ((ts ++ [(XComment, 35 :: t)]) ++ [(XNewline, [10])]), r, (es ++ e). split; [ext_tac|]. split; [reflexivity|].
      split; [rewrite A1, !app_length; cbn; lia|].
      assert (SRC2 : source ((ts ++ [(XComment, 35 :: t)]) ++ [(XNewline, [10])]) = source (ts ++ [(XComment, 35 :: t)]) ++ [10]).
      { rewrite source_app, source_one. reflexivity. }
      rewrite <- SRC2. apply between_start; [rewrite SRC2, SRC, INp, A1; assoc| |assumption].
      apply good_snoc with (es := es ++ e); [|left; reflexivity|exact I|assumption|].
      * apply good_snoc with (es := es); [replace ((35 :: t) ++ [10] ++ r) with (35 :: rest); [assumption|rewrite A1; assoc]| | |assumption|].
        -- exists t. split; [reflexivity|assumption].
        -- right. left. split; [apply starts_with_cons; reflexivity|]. intros (a & E). apply NCR. exists (p0 ++ a).
           change ([35] ++ t) with (35 :: t). rewrite E. assoc.
        -- intros E. apply app_eq_nil in E. destruct E as [-> ->]. split; [reflexivity|]. exists t. split; [reflexivity|].
           destruct (A8 eq_refl) as [P|(t2 & r2 & E2 & P & _)]; [assumption|].
           exfalso. apply NCR. exists (p0 ++ [35] ++ t2). rewrite E2. assoc.
      * intros E. split; [assumption|]. left. reflexivity.
Qed.

(** One-character tokens. *)
Lemma punct_between done w l es ty c rest :
  winv input done w (c :: rest) es -> lit_ok done w l -> punct ty c ->
  exists lx done' rest' es', ext done done' /\
    char_token input (mklex (cur_at ((source done ++ w) ++ [c]) rest (tlen (source done ++ w))) l (out_of done es)) ty = Ok lx /\
    (length rest' <= length rest)%nat /\ between input done' [] rest' es' lx.
Proof.
  intros WI L PU. pose proof WI as (IN & W & CL & G).
  assert (C10 : c <> 10 /\ ~ word_char c).
  { unfold punct in PU. cbn [In] in PU. unfold word_char. cbn [In].
    repeat (destruct PU as [PU|PU]; [injection PU as <- <-; split; [lia|intuition]|]). destruct PU. }
  destruct C10 as [C10 NW].
  destruct (char_token_between input done w l es ty c rest (cur_at ((source done ++ w) ++ [c]) rest (tlen (source done ++ w)))) as (l' & L' & G1 & R); auto.
  { intros o' l'. apply lpos_char. assumption. }
  rewrite R. rewrite (out_punct _ _ [c]).
  eexists _, ((done ++ word_tiles w) ++ [(XPunct ty, [c])]), rest, es. split; [ext_tac|]. split; [reflexivity|]. split; [lia|].
  assert (SRC : source ((done ++ word_tiles w) ++ [(XPunct ty, [c])]) = (source done ++ w) ++ [c]) by (rewrite source_app, source_words, source_one; reflexivity).
  rewrite <- SRC. apply between_start; [rewrite SRC, IN; assoc| |assumption].
  apply good_snoc with (es := es); [assumption|exists c; auto|exact I|apply G1|]. intros E. split; [assumption|]. exists c; auto.
Qed.

Lemma step_between done w l es c rest :
  winv input done w (c :: rest) es -> lit_ok done w l ->
  exists lx done' w' rest' es', ext done done' /\
    lex_step input c (if c =? 10 then mklex (cur_lf (source done ++ w) rest) l (out_of done es)
                else mklex (cur_at ((source done ++ w) ++ [c]) rest (tlen (source done ++ w))) l (out_of done es)) = Ok lx /\
    (length rest' <= length rest)%nat /\ between input done' w' rest' es' lx.
Proof.
  intros WI L. pose proof WI as (IN & W & CL & G). unfold lex_step.
  destruct (N.eq_dec c 10) as [->|NL].
  { change (10 =? 10) with true. change (10 =? 13) with false. cbn [andb]. cbv iota. unfold newline_token.
    destruct (char_token_between input done w l es TNewline 10 rest (cur_lf (source done ++ w) rest)) as (l' & L' & G1 & R); auto.
    { intros o' l'. apply lpos_lf. }
    { left. unfold word_char. cbn. intuition. }
    rewrite R. cbn [bind]. rewrite (out_newline _ _ [10]), newline_lf.
    eexists _, ((done ++ word_tiles w) ++ [(XNewline, [10])]), [], rest, es. split; [ext_tac|]. split; [reflexivity|]. split; [lia|].
    assert (SRC : source ((done ++ word_tiles w) ++ [(XNewline, [10])]) = (source done ++ w) ++ [10]) by (rewrite source_app, source_words, source_one; reflexivity).
    rewrite <- SRC. apply between_start; [rewrite SRC, IN; assoc| |assumption].
    apply good_snoc with (es := es); [assumption|left; reflexivity|exact I|apply G1|]. intros E. split; [assumption|]. left; reflexivity. }
  replace (c =? 10) with false by lia.
  destruct ((c =? 13) && peeks _ 10) eqn:EC.
  { apply andb_true_iff in EC. destruct EC as [E1 E2]. apply N.eqb_eq in E1. subst c.
    destruct rest as [|z rest]; [discriminate|]. rewrite peeks_cons in E2. apply N.eqb_eq in E2. subst z. unfold newline_token.
    destruct (char_token_between input done w l es TNewline 13 (10 :: rest) (cur_at ((source done ++ w) ++ [13]) (10 :: rest) (tlen (source done ++ w)))) as (l' & L' & G1 & R); auto.
    { intros o' l'. apply lpos_char. lia. }
    { right. exists rest. reflexivity. }
    rewrite R. cbn [bind]. rewrite (out_newline _ _ [13; 10]). unfold lskip. rewrite lnext_lf. cbn [snd]. rewrite newline_lf.
    eexists _, ((done ++ word_tiles w) ++ [(XNewline, [13; 10])]), [], rest, es. split; [ext_tac|]. split; [reflexivity|]. split; [cbn; lia|].
    assert (SRC : source ((done ++ word_tiles w) ++ [(XNewline, [13; 10])]) = ((source done ++ w) ++ [13]) ++ [10]) by (rewrite source_app, source_words, source_one; assoc).
    rewrite <- SRC. apply between_start; [rewrite SRC, IN; assoc| |assumption].
    apply good_snoc with (es := es); [assumption|right; reflexivity|exact I|apply G1|]. intros E. split; [assumption|]. right; reflexivity. }
  destruct ((c =? 9) || (c =? 32)) eqn:EB.
  { destruct (end_literal_eq input done w l es (cur_at ((source done ++ w) ++ [c]) rest (tlen (source done ++ w))) (c :: rest) IN L eq_refl) as (l' & L' & R).
    rewrite R. rewrite <- (out_blank _ _ [c]).
    assert (G1 : good input (done ++ word_tiles w) (c :: rest) es).
    { apply good_words; auto. intros _. apply word_sep; [assumption|]. left. unfold word_char. cbn. lia. }
    eexists _, ((done ++ word_tiles w) ++ [(XBlank, [c])]), [], rest, es. split; [ext_tac|]. split; [reflexivity|]. split; [lia|].
    assert (SRC : source ((done ++ word_tiles w) ++ [(XBlank, [c])]) = (source done ++ w) ++ [c]) by (rewrite source_app, source_words, source_one; reflexivity).
    rewrite <- SRC. apply between_start; [match goal with |- _ = ?x ++ _ => replace x with ((source done ++ w) ++ [c]) by (symmetry; exact SRC) end; rewrite IN; assoc| |assumption].
    assert (SH : shape (XBlank, [c])).
    { cbn. apply orb_true_iff in EB. destruct EB as [E|E]; apply N.eqb_eq in E; subst; auto. }
    apply good_snoc with (es := es); [assumption|exact SH|exact I|apply G1|]. intros E. split; [assumption|exact SH]. }
  destruct ((c =? 34) || (c =? 39)) eqn:EQ.
  { destruct (quote_token_between input done w l es c rest) as (lx & done' & rest' & es' & X & A & B & C); [lia|assumption|assumption|].
    exists lx, done', [], rest', es'. split; [exact X|]. auto. }
  assert (PUNCT : forall ty, punct ty c -> exists lx done' w' rest' es', ext done done' /\
    char_token input (mklex (cur_at ((source done ++ w) ++ [c]) rest (tlen (source done ++ w))) l (out_of done es)) ty = Ok lx /\
    (length rest' <= length rest)%nat /\ between input done' w' rest' es' lx).
  { intros ty PU. destruct (punct_between done w l es ty c rest WI L PU) as (lx & done' & rest' & es' & X & A & B & C).
    exists lx, done', [], rest', es'. split; [exact X|]. auto. }
  destruct (N.eqb_spec c 91) as [->|N1]; [apply PUNCT; unfold punct; cbn; tauto|].
  destruct (N.eqb_spec c 93) as [->|N2]; [apply PUNCT; unfold punct; cbn; tauto|].
  destruct (N.eqb_spec c 123) as [->|N3]; [apply PUNCT; unfold punct; cbn; tauto|].
  destruct (N.eqb_spec c 125) as [->|N4]; [apply PUNCT; unfold punct; cbn; tauto|].
  destruct (N.eqb_spec c 61) as [->|N5]; [apply PUNCT; unfold punct; cbn; tauto|].
  destruct (N.eqb_spec c 46) as [->|N6]; [apply PUNCT; unfold punct; cbn; tauto|].
  destruct (N.eqb_spec c 44) as [->|N7]; [apply PUNCT; unfold punct; cbn; tauto|].
  destruct (N.eqb_spec c 35) as [->|N8].
  { destruct (comment_between done w l es rest WI L) as (lx & done' & rest' & es' & X & A & B & C).
    exists lx, done', [], rest', es'. split; [exact X|]. auto. }
  clear PUNCT.
  (* a character of a word *)
  assert (WC : word_char c) by (unfold word_char; cbn [In]; lia).
  assert (NEW : winv input done (w ++ [c]) rest es).
  { split; [rewrite IN; assoc|]. split; [apply Forall_app; auto|]. split.
    - intros EW. apply ends_with_snoc in EW. subst c. intros (z & r & -> & <-). cbn in EC. discriminate.
    - replace ((w ++ [c]) ++ rest) with (w ++ c :: rest) by assoc. assumption. }
  unfold start_literal. cbn [lx_lit].
  destruct w as [|c0 w].
  - destruct L as [L1 _]. rewrite (L1 eq_refl). rewrite lpos_char by assumption. cbn [bind].
    eexists _, done, [c], rest, es. split; [ext_tac|]. split; [reflexivity|]. split; [lia|]. split; [exact NEW|].
    unfold set_lit. cbn [lx_cur lx_out]. rewrite app_nil_r. eexists _, _. split; [reflexivity|]. split; [discriminate|reflexivity].
  - destruct L as [_ L2]. specialize (L2 ltac:(discriminate)). rewrite L2. cbn [li_in].
    eexists _, done, ((c0 :: w) ++ [c]), rest, es. split; [ext_tac|]. split; [reflexivity|]. split; [lia|]. split; [exact NEW|].
    eexists _, _. split; [f_equal; f_equal; assoc|]. split; [discriminate|reflexivity].
Qed.

Lemma lex_loop_between : forall fuel done w rest es lx,
  (length rest < fuel)%nat -> between input done w rest es lx ->
  exists done' w' es', ext done done' /\ between input done' w' [] es' (mklex (cur_at (source done' ++ w') [] (tlen (source done' ++ w'))) (lx_lit (match lex_loop input fuel lx with Ok x => x | _ => lx end)) (out_of done' es')) /\
    exists l', lit_ok done' w' l' /\
    lex_loop input fuel lx = Ok (mklex (cur_at (source done' ++ w') [] (tlen (source done' ++ w'))) l' (out_of done' es')).
Proof.
  induction fuel as [|fuel IH]; intros done w rest es lx F (WI & bp & l & -> & L); [lia|].
  destruct rest as [|c rest].
  - cbn [lex_loop]. rewrite lnext_end. exists done, w, es. split; [apply ext_refl|]. split.
    + split; [assumption|]. eexists _, l. split; [reflexivity|assumption].
    + exists l. auto.
  - destruct (step_between done w l es c rest WI L) as (lx & done' & w' & rest' & es' & X & R & LE & BT).
    cbn [length] in F.
    assert (E : lex_loop input (S fuel) (mklex (cur_at (source done ++ w) (c :: rest) bp) l (out_of done es)) = lex_loop input fuel lx).
    { cbn [lex_loop]. destruct (N.eq_dec c 10) as [->|NL].
      - rewrite lnext_lf. change (10 =? 10) with true in R. cbv iota in R. rewrite R. reflexivity.
      - rewrite lnext_char by assumption. replace (c =? 10) with false in R by lia. rewrite R. reflexivity. }
    rewrite E. destruct (IH done' w' rest' es' lx ltac:(lia) BT) as (d2 & w2 & e2 & X2 & B2 & l2 & L2 & R2).
    rewrite R2 in *. cbn [lx_lit] in *. exists d2, w2, e2. split; [exact (ext_trans _ _ _ X X2)|]. split; [assumption|]. exists l2. auto.
Qed.

Theorem lex_sound : exists ts es,
  source ts = input /\ Forall shape ts /\ all_separated ts /\
  lex input = Ok (tokens_of ts, es) /\ Forall (errok input) es /\ (es = [] -> Forall valid ts).
Proof.
  assert (B0 : between input [] [] input [] (lexer_new input)).
  { split.
    - split; [reflexivity|]. split; [constructor|]. split; [intros (r & E); destruct r; discriminate|].
      split; [constructor|]. split; [exact I|]. split; [constructor|]. constructor.
    - exists 0, (mklit false pos_zero 0). split; [reflexivity|]. split; [reflexivity|congruence]. }
  destruct (lex_loop_between (S (length input)) [] [] input [] (lexer_new input) ltac:(lia) B0) as (d & w & es & _ & ((IN & W & CL & G) & _) & l & L & R).
  unfold lex. rewrite R. cbn [bind].
  destruct (end_literal_eq input d w l es (cur_at (source d ++ w) [] (tlen (source d ++ w))) [] IN L eq_refl) as (l' & _ & RE).
  rewrite RE. cbn [bind]. rewrite lpos_end. cbn [bind lx_out out_of o_tokens o_strings o_literals o_errors].
  assert (G1 : good input (d ++ word_tiles w) [] es).
  { apply good_words; auto. intros _. left. split; [apply starts_with_nil|intros _; apply starts_with_nil]. }
  destruct G1 as (G1 & G2 & G3 & G4).
  exists (d ++ word_tiles w), es. split; [rewrite source_words, IN, !app_nil_r; reflexivity|]. split; [assumption|].
  split; [apply seps_all; assumption|]. split; [|split; assumption].
  unfold tokens_of. rewrite source_words. reflexivity.
Qed.

End Input.
