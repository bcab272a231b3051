(** Completeness, part 2: a document cut into valid pieces is read as these
    pieces, without an error. *)
From Verif Require Import Base BaseProofs CommonModel TomlError LitModel LexModel LexSpec LexBase LexStr LexQuote LexEsc LexUni LexLoop LexSound LexMain LexTop LexCStr.

Lemma plain_comment_scan t : forall fuel P x rest l o,
  x <> 10 -> Forall plain t -> (length t < fuel)%nat -> (rest = [] \/ starts_with (eq 10) rest) ->
  exists y Q, P ++ [x] ++ t = Q ++ [y] /\ y <> 10 /\
  comment_scan fuel (mklex (cur_at (P ++ [x]) (t ++ rest) (tlen P)) l o) = Ok (mklex (cur_at (Q ++ [y]) rest (tlen Q)) l o).
Proof.
  induction t as [|c t IH]; intros fuel P x rest l o X PL F HR; (destruct fuel as [|fuel]; [cbn in F; lia|]); cbn [comment_scan app].
  - exists x, P. split; [assoc|]. split; [assumption|]. unfold lpeek. cbn [lx_cur cur_at cu_rest].
    destruct HR as [->|(z & r & -> & <-)]; reflexivity.
  - inversion PL as [|? ? P1 P2]; subst. cbn [length] in F. unfold lpeek. cbn [lx_cur cur_at cu_rest hd_error].
    fold (cur_at (P ++ [x]) (c :: t ++ rest) (tlen P)).
    assert (C : c <> 10 /\ c <> 13) by (unfold plain in P1; lia). destruct C as [C10 C13].
    replace (c =? 10) with false by lia. replace (c =? 13) with false by lia. cbn [andb].
    assert (SK : lskip (mklex (cur_at (P ++ [x]) (c :: t ++ rest) (tlen P)) l o) = mklex (cur_at ((P ++ [x]) ++ [c]) (t ++ rest) (tlen (P ++ [x]))) l o).
    { unfold lskip. rewrite lnext_char by assumption. reflexivity. }
    destruct (IH fuel (P ++ [x]) c rest l o C10 P2) as (y & Q & E & Y & R); [lia|assumption|].
    exists y, Q. split; [rewrite <- E; assoc|]. split; [assumption|]. rewrite SK, R.
    destruct (N.eqb_spec c 9); [reflexivity|]. replace (is_control_char c) with false; [reflexivity|].
    unfold plain in P1. unfold is_control_char. lia.
Qed.
(** Like the previous lemma, with the carriage return of the line break. *)
Lemma crlf_comment_scan t : forall fuel P x rest l o,
  x <> 10 -> Forall plain t -> (length t + 1 < fuel)%nat ->
  comment_scan fuel (mklex (cur_at (P ++ [x]) (t ++ 13 :: 10 :: rest) (tlen P)) l o) =
  Ok (mklex (cur_at ((P ++ [x] ++ t) ++ [13]) (10 :: rest) (tlen (P ++ [x] ++ t))) l o).
Proof.
  induction t as [|c t IH]; intros fuel P x rest l o X PL F; (destruct fuel as [|fuel]; [cbn in F; lia|]); cbn [comment_scan app].
  - unfold lpeek. cbn [lx_cur cur_at cu_rest hd_error]. fold (cur_at (P ++ [x]) (13 :: 10 :: rest) (tlen P)).
    change (13 =? 10) with false. change (13 =? 9) with false. change (13 =? 13) with true. cbv iota.
    change (peeks2 (mklex (cur_at (P ++ [x]) (13 :: 10 :: rest) (tlen P)) l o) 10) with true. cbn [andb].
    unfold lskip. rewrite lnext_char by lia. cbn [snd]. destruct fuel as [|fuel]; [cbn in F; lia|].
    cbn [comment_scan]. reflexivity.
  - inversion PL as [|? ? P1 P2]; subst. cbn [length] in F. unfold lpeek. cbn [lx_cur cur_at cu_rest hd_error].
    fold (cur_at (P ++ [x]) (c :: t ++ 13 :: 10 :: rest) (tlen P)).
    assert (C : c <> 10 /\ c <> 13) by (unfold plain in P1; lia). destruct C as [C10 C13].
    replace (c =? 10) with false by lia. replace (c =? 13) with false by lia. cbn [andb].
    assert (SK : lskip (mklex (cur_at (P ++ [x]) (c :: t ++ 13 :: 10 :: rest) (tlen P)) l o) = mklex (cur_at ((P ++ [x]) ++ [c]) (t ++ 13 :: 10 :: rest) (tlen (P ++ [x]))) l o).
    { unfold lskip. rewrite lnext_char by assumption. reflexivity. }
    rewrite SK, IH by (assumption || lia).
    replace ((P ++ [x]) ++ [c] ++ t) with (P ++ x :: c :: t) by assoc.
    destruct (N.eqb_spec c 9); [reflexivity|]. replace (is_control_char c) with false; [reflexivity|].
    unfold plain in P1. unfold is_control_char. lia.
Qed.

Lemma valid_nonempty x s : valid (x, s) -> s <> [].
Proof.
  destruct x; cbn.
  - intros [->| ->]; discriminate.
  - intros [->| ->]; discriminate.
  - intros (c & _ & ->). discriminate.
  - intros (H & _). assumption.
  - intros (t & -> & _). discriminate.
  - intros (trim & (b & -> & _) & _). destruct q; discriminate.
Qed.

(** The first piece of a document that starts with a line break. *)
Lemma starts_lf_tile ts : Forall valid ts -> starts_with (eq 10) (source ts) ->
  exists ts', ts = (XNewline, [10]) :: ts'.
Proof.
  intros V (c & r & E & <-). destruct ts as [|(x, s) ts]; [discriminate|].
  inversion V as [|? ? V1 V2]; subst. pose proof (valid_nonempty _ _ V1) as NE.
  destruct s as [|c s]; [congruence|]. cbn in E. injection E as -> _.
  destruct x; cbn in V1.
  - destruct V1; discriminate.
  - destruct V1 as [->|H]; [exists ts; reflexivity|discriminate].
  - destruct V1 as (c & PU & E). injection E as <- _. unfold punct in PU. cbn in PU. exfalso. intuition congruence.
  - destruct V1 as (_ & W). inversion W as [|? ? W1 _]; subst. exfalso. apply W1. cbn. tauto.
  - destruct V1 as (t & E & _). discriminate.
  - destruct V1 as (trim & (b & E & _) & _). destruct q; discriminate.
Qed.
Lemma starts_crlf_tile ts : Forall valid ts -> all_separated ts -> (exists r, source ts = 13 :: 10 :: r) ->
  exists ts', ts = (XNewline, [13; 10]) :: ts'.
Proof.
  intros V S (r & E). destruct ts as [|(x, s) ts]; [discriminate|].
  inversion V as [|? ? V1 V2]; subst. pose proof (valid_nonempty _ _ V1) as NE.
  destruct s as [|c s]; [congruence|]. cbn [all_separated] in S. destruct S as [S1 S2].
  cbn in E. injection E as -> E.
  destruct x; cbn in V1.
  - destruct V1; discriminate.
  - destruct V1 as [H|H]; [discriminate|]. injection H as ->. exists ts; reflexivity.
  - destruct V1 as (c & PU & E1). injection E1 as <- _. unfold punct in PU. cbn in PU. exfalso. intuition congruence.
  - exfalso. destruct V1 as (_ & W). inversion W as [|? ? W1 W2]; subst.
    destruct s as [|z s]; cbn in E.
    + cbn [separated] in S1. change (concat (map snd ts)) with (source ts) in E. rewrite E in S1. destruct S1 as [(_ & H)|(r' & H)]; [|discriminate].
      apply H; [exists []; reflexivity|]. apply starts_with_cons. reflexivity.
    + injection E as -> _. inversion W2 as [|? ? W3 _]; subst. apply W3. cbn. tauto.
  - destruct V1 as (t & E1 & _). discriminate.
  - destruct V1 as (trim & (b & E1 & _) & _). destruct q; discriminate.
Qed.

Section Input.
Context (input : list N).

Definition cst (done : list tile) (w rest : list N) (lx : lexer) : Prop :=
  exists bp l, lx = mklex (cur_at (source done ++ w) rest bp) l (out_of done []) /\ lit_ok done w l.

Lemma cst_start done w rest lx bp l s :
  w = [] -> source done = s -> lx = mklex (cur_at s rest bp) l (out_of done []) -> li_in l = false -> cst done w rest lx.
Proof. intros -> <- -> L. exists bp, l. rewrite app_nil_r. split; [reflexivity|]. split; [auto|congruence]. Qed.

(** A piece of one character that gives the token [ty]. *)
Lemma char_token_eq done w l ty c rest cur :
  input = source done ++ w ++ c :: rest -> lit_ok done w l -> cu_pos cur = tlen (source done ++ w) ->
  (forall o' l', lpos (mklex cur l' o') = Ok (pos_at (source done ++ w))) ->
  exists l', li_in l' = false /\
    char_token input (mklex cur l (out_of done [])) ty =
    Ok (push_token (mklex cur l' (out_of (done ++ word_tiles w) [])) (mktok ty (pos_at (source (done ++ word_tiles w))))).
Proof.
  intros IN L CP LP.
  destruct (end_literal_eq input done w l [] cur (c :: rest) IN L CP) as (l' & L' & R).
  exists l'. split; [assumption|]. unfold char_token. rewrite R. cbn [bind]. rewrite LP. cbn [bind]. rewrite source_words. reflexivity.
Qed.

(** One step of the main loop. *)
Definition state1 (done : list tile) (w : list N) (c : N) (rest : list N) (l : litstate) : lexer :=
  if c =? 10 then mklex (cur_lf (source done ++ w) rest) l (out_of done [])
  else mklex (cur_at ((source done ++ w) ++ [c]) rest (tlen (source done ++ w))) l (out_of done []).
Lemma loop_step done w c rest bp l fuel :
  lex_loop input (S fuel) (mklex (cur_at (source done ++ w) (c :: rest) bp) l (out_of done [])) =
  bind (lex_step input c (state1 done w c rest l)) (lex_loop input fuel).
Proof.
  cbn [lex_loop]. unfold state1. destruct (N.eqb_spec c 10) as [->|NL].
  - rewrite lnext_lf. reflexivity.
  - rewrite lnext_char by assumption. reflexivity.
Qed.

Lemma step_newline_lf done w rest l :
  input = source done ++ w ++ 10 :: rest -> lit_ok done w l ->
  exists lx, lex_step input 10 (state1 done w 10 rest l) = Ok lx /\ cst ((done ++ word_tiles w) ++ [(XNewline, [10])]) [] rest lx.
Proof.
  intros IN L. unfold lex_step, state1. change (10 =? 10) with true. change (10 =? 13) with false. cbn [andb]. cbv iota. unfold newline_token.
  destruct (char_token_eq done w l TNewline 10 rest (cur_lf (source done ++ w) rest)) as (l' & L' & R); auto.
  { intros o' l'. apply lpos_lf. }
  rewrite R. cbn [bind]. rewrite (out_newline _ _ [10]), newline_lf.
  eexists. split; [reflexivity|]. eapply cst_start; [reflexivity| |reflexivity|assumption].
  rewrite source_app, source_words, source_one. reflexivity.
Qed.
Lemma step_newline_crlf done w rest l :
  input = source done ++ w ++ 13 :: 10 :: rest -> lit_ok done w l ->
  exists lx, lex_step input 13 (state1 done w 13 (10 :: rest) l) = Ok lx /\ cst ((done ++ word_tiles w) ++ [(XNewline, [13; 10])]) [] rest lx.
Proof.
  intros IN L. unfold lex_step, state1. change (13 =? 10) with false. cbv iota. rewrite peeks_cons. change (13 =? 13) with true. change (10 =? 10) with true. cbn [andb].
  unfold newline_token.
  destruct (char_token_eq done w l TNewline 13 (10 :: rest) (cur_at ((source done ++ w) ++ [13]) (10 :: rest) (tlen (source done ++ w)))) as (l' & L' & R); auto.
  { intros o' l'. apply lpos_char. lia. }
  rewrite R. cbn [bind]. rewrite (out_newline _ _ [13; 10]). unfold lskip. rewrite lnext_lf. cbn [snd]. rewrite newline_lf.
  eexists. split; [reflexivity|]. eapply cst_start; [reflexivity| |reflexivity|assumption].
  rewrite source_app, source_words, source_one. assoc.
Qed.
Lemma step_blank done w c rest l :
  c = 9 \/ c = 32 -> input = source done ++ w ++ c :: rest -> lit_ok done w l ->
  exists lx, lex_step input c (state1 done w c rest l) = Ok lx /\ cst ((done ++ word_tiles w) ++ [(XBlank, [c])]) [] rest lx.
Proof.
  intros C IN L. unfold lex_step, state1. replace (c =? 10) with false by lia. replace (c =? 13) with false by lia. cbn [andb].
  replace ((c =? 9) || (c =? 32)) with true by lia.
  destruct (end_literal_eq input done w l [] (cur_at ((source done ++ w) ++ [c]) rest (tlen (source done ++ w))) (c :: rest) IN L eq_refl) as (l' & L' & R).
  rewrite R. eexists. split; [reflexivity|]. eapply cst_start; [reflexivity| |rewrite out_blank; reflexivity|assumption].
  rewrite source_app, source_words, source_one. reflexivity.
Qed.
Lemma step_punct done w ty c rest l :
  punct ty c -> input = source done ++ w ++ c :: rest -> lit_ok done w l ->
  exists lx, lex_step input c (state1 done w c rest l) = Ok lx /\ cst ((done ++ word_tiles w) ++ [(XPunct ty, [c])]) [] rest lx.
Proof.
  intros PU IN L.
  assert (C10 : c <> 10) by (unfold punct in PU; cbn in PU; intuition congruence).
  destruct (char_token_eq done w l ty c rest (cur_at ((source done ++ w) ++ [c]) rest (tlen (source done ++ w)))) as (l' & L' & R); auto.
  { intros o' l'. apply lpos_char. assumption. }
  exists (push_token (mklex (cur_at ((source done ++ w) ++ [c]) rest (tlen (source done ++ w))) l' (out_of (done ++ word_tiles w) [])) (mktok ty (pos_at (source (done ++ word_tiles w))))).
  split.
  - rewrite <- R. unfold lex_step, state1. unfold punct in PU. cbn [In] in PU.
    repeat (destruct PU as [PU|PU]; [injection PU as <- <-; reflexivity|]). destruct PU.
  - rewrite (out_punct _ _ [c]). eapply cst_start; [reflexivity| |reflexivity|assumption].
    rewrite source_app, source_words, source_one. reflexivity.
Qed.

Lemma step_word_char done w c rest l :
  word_char c -> ~ (c = 13 /\ starts_with (eq 10) rest) -> input = source done ++ w ++ c :: rest -> lit_ok done w l ->
  exists lx, lex_step input c (state1 done w c rest l) = Ok lx /\ cst done (w ++ [c]) rest lx.
Proof.
  intros WC CR IN L. unfold word_char in WC. cbn [In] in WC. unfold lex_step, state1.
  replace (c =? 10) with false by lia.
  assert (EC : (c =? 13) && peeks (mklex (cur_at ((source done ++ w) ++ [c]) rest (tlen (source done ++ w))) l (out_of done [])) 10 = false).
  { apply not_true_is_false. intros H. apply andb_true_iff in H. destruct H as [H1 H2]. apply CR. split; [lia|].
    destruct rest as [|z r]; [discriminate|]. rewrite peeks_cons in H2. exists z, r. split; [reflexivity|lia]. }
  rewrite EC.
  replace ((c =? 9) || (c =? 32)) with false by lia. replace ((c =? 34) || (c =? 39)) with false by lia.
  replace (c =? 91) with false by lia. replace (c =? 93) with false by lia. replace (c =? 123) with false by lia.
  replace (c =? 125) with false by lia. replace (c =? 61) with false by lia. replace (c =? 46) with false by lia.
  replace (c =? 44) with false by lia. replace (c =? 35) with false by lia.
  unfold start_literal. cbn [lx_lit].
  destruct w as [|c0 w].
  - destruct L as [L1 _]. rewrite (L1 eq_refl). rewrite lpos_char by lia. cbn [bind].
    eexists. split; [reflexivity|].
    unfold set_lit. cbn [lx_cur lx_out]. rewrite app_nil_r. eexists _, _. split; [reflexivity|]. split; [discriminate|reflexivity].
  - destruct L as [_ L2]. specialize (L2 ltac:(discriminate)). rewrite L2. cbn [li_in].
    eexists. split; [reflexivity|].
    eexists _, _. split; [f_equal; f_equal; assoc|]. split; [discriminate|reflexivity].
Qed.

(** A whole word. *)
Lemma loop_word s : forall done w rest lx fuel,
  Forall word_char s -> (ends_with 13 (w ++ s) -> ~ starts_with (eq 10) rest) -> input = source done ++ w ++ s ++ rest ->
  cst done w (s ++ rest) lx -> (length (s ++ rest) < fuel)%nat ->
  exists lx' fuel', lex_loop input fuel lx = lex_loop input fuel' lx' /\ (length rest < fuel')%nat /\ cst done (w ++ s) rest lx'.
Proof.
  induction s as [|c s IH]; intros done w rest lx fuel W CR IN C F.
  - exists lx, fuel. rewrite app_nil_r. auto.
  - pose proof (Forall_inv W) as W1. pose proof (Forall_inv_tail W) as W2. destruct C as (bp & l & -> & L). cbn [app length] in F. destruct fuel as [|fuel]; [lia|].
    cbn [app]. rewrite loop_step.
    destruct (step_word_char done w c (s ++ rest) l) as (lx' & R & C').
    + assumption.
    + intros (-> & SW). destruct s as [|z s].
      * apply CR; [exists w; reflexivity|exact SW].
      * cbn [app] in SW. rewrite starts_with_cons in SW. subst z. apply (Forall_inv W2). cbn. tauto.
    + exact IN.
    + assumption.
    + rewrite R. cbn [bind].
      destruct (IH done (w ++ [c]) rest lx' fuel W2) as (lx2 & fuel2 & R2 & F2 & C2).
      * rewrite <- app_assoc. exact CR.
      * rewrite IN. assoc.
      * assumption.
      * lia.
      * exists lx2, fuel2. rewrite R2. split; [reflexivity|]. split; [assumption|].
        rewrite <- app_assoc in C2. exact C2.
Qed.


(** A comment, with the line break that follows it. *)
Lemma step_comment done w t nlp rest l :
  Forall plain t -> (nlp = [] /\ rest = [] \/ line_break nlp) ->
  input = source done ++ w ++ 35 :: t ++ nlp ++ rest -> lit_ok done w l ->
  exists lx, lex_step input 35 (state1 done w 35 (t ++ nlp ++ rest) l) = Ok lx /\
    cst ((done ++ word_tiles w) ++ (XComment, 35 :: t) :: match nlp with [] => [] | _ => [(XNewline, nlp)] end) [] rest lx.
Proof.
  intros PT HN IN L. unfold lex_step, state1. change (35 =? 10) with false. cbv iota.
  change (35 =? 13) with false. cbn [andb]. change ((35 =? 9) || (35 =? 32)) with false. change ((35 =? 34) || (35 =? 39)) with false. cbv iota.
  change (35 =? 91) with false. change (35 =? 93) with false. change (35 =? 123) with false. change (35 =? 125) with false.
  change (35 =? 61) with false. change (35 =? 46) with false. change (35 =? 44) with false. change (35 =? 35) with true. cbv iota.
  unfold comment.
  destruct (end_literal_eq input done w l [] (cur_at ((source done ++ w) ++ [35]) (t ++ nlp ++ rest) (tlen (source done ++ w))) (35 :: t ++ nlp ++ rest) IN L eq_refl) as (l' & L' & R).
  rewrite R. cbn [bind]. rewrite lpos_char by lia. cbn [bind].
  assert (SW : source (done ++ word_tiles w) = source done ++ w) by apply source_words.
  set (ts := done ++ word_tiles w) in *. clearbody ts. clear R L.
  set (p0 := source done ++ w) in *.
  assert (INp : input = p0 ++ 35 :: t ++ nlp ++ rest) by (rewrite IN; unfold p0; assoc).
  change (cu_pos (lx_cur (mklex (cur_at (p0 ++ [35]) (t ++ nlp ++ rest) (tlen p0)) l' (out_of ts [])))) with (tlen p0).
  change (cu_rest (lx_cur (mklex (cur_at (p0 ++ [35]) (t ++ nlp ++ rest) (tlen p0)) l' (out_of ts [])))) with (t ++ nlp ++ rest).
  assert (TS : tlen p0 + 1 = tlen (p0 ++ [35])) by (rewrite tlen_app, tlen_one; reflexivity).
  assert (COM : forall cur l', push_token (mklex cur l' (mkout (o_tokens (out_of ts [])) (o_strings (out_of ts []))
           (o_literals (out_of ts []) ++ [mkref (tlen p0 + 1) t]) (o_errors (out_of ts []))))
           (mktok (TComment (N.of_nat (length (o_literals (out_of ts []))))) (pos_at p0)) =
         mklex cur l' (out_of (ts ++ [(XComment, 35 :: t)]) [])).
  { intros cur l2. rewrite out_comment, SW. reflexivity. }
  assert (SRC : source (ts ++ [(XComment, 35 :: t)]) = p0 ++ [35] ++ t) by (rewrite source_app, SW, source_one; reflexivity).
  assert (NT13 : ~ ends_with 13 (p0 ++ [35] ++ t)).
  { intros EW. apply ends_with_app in EW; [|discriminate]. apply ends_with_In in EW. cbn [app In] in EW.
    destruct EW as [EW|EW]; [discriminate|]. rewrite Forall_forall in PT. apply PT in EW. apply plain_not_13. assumption. }
  destruct HN as [(-> & ->)|[->| ->]].
  - cbn [app] in *.
    destruct (plain_comment_scan t (S (length (t ++ []))) p0 35 [] l' (out_of ts [])) as (y & Q & A4 & A5 & A6);
      [lia|assumption|rewrite app_length; lia|auto|].
    rewrite A6. cbn [bind]. rewrite lnext_end. cbn [bind].
    change (cu_pos (lx_cur (mklex (cur_at (Q ++ [y]) [] (tlen (Q ++ [y]))) l' (out_of ts [])))) with (tlen (Q ++ [y])).
    rewrite usub_ok by lia. rewrite N.sub_0_r. cbn [bind]. rewrite <- A4.
    rewrite TS. rewrite (slice_eq input (p0 ++ [35]) t []); [|rewrite INp; assoc|reflexivity|f_equal; assoc].
    rewrite <- TS. cbn [bind]. unfold store_literal, set_out. cbn [lx_cur lx_lit lx_out].
    rewrite COM. eexists. split; [reflexivity|]. eapply cst_start; [reflexivity| |reflexivity|assumption]. exact SRC.
  - destruct (plain_comment_scan t (S (length (t ++ [10] ++ rest))) p0 35 ([10] ++ rest) l' (out_of ts [])) as (y & Q & A4 & A5 & A6);
      [lia|assumption|rewrite app_length; lia|right; apply starts_with_cons; reflexivity|].
    rewrite A6. cbn [bind app]. rewrite lnext_lf. cbn [bind].
    rewrite (prev_is_cr_eq input (Q ++ [y]) (10 :: rest)); [|rewrite <- A4, INp; assoc|reflexivity]. cbn [bind].
    change (cu_pos (lx_cur (mklex (cur_lf (Q ++ [y]) rest) l' (out_of ts [])))) with (tlen (Q ++ [y])).
    rewrite <- A4.
    destruct (ends_with_cr_cases (p0 ++ [35] ++ t)) as [(pr & Epre & _)|(-> & _)]; [exfalso; apply NT13; exists pr; assumption|].
    rewrite usub_ok by lia. rewrite N.sub_0_r. cbn [bind].
    rewrite TS. rewrite (slice_eq input (p0 ++ [35]) t (10 :: rest)); [|rewrite INp; assoc|reflexivity|f_equal; assoc].
    rewrite <- TS. cbn [bind]. unfold store_literal, set_out. cbn [lx_cur lx_lit lx_out].
    rewrite COM. clear COM. rewrite <- SRC.
    pose proof (pos_in_line_lf (source (ts ++ [(XComment, 35 :: t)])) [] rest l' (out_of (ts ++ [(XComment, 35 :: t)]) []) no_lf_nil) as PL.
    rewrite app_nil_r in PL. rewrite PL. cbn [bind].
    rewrite (out_newline _ _ [10]). rewrite newline_lf.
    eexists. split; [reflexivity|].
    replace (ts ++ [(XComment, 35 :: t); (XNewline, [10])]) with ((ts ++ [(XComment, 35 :: t)]) ++ [(XNewline, [10])]) by assoc.
    eapply cst_start; [reflexivity| |reflexivity|assumption]. rewrite source_app, source_one. reflexivity.
  - cbn [app]. rewrite (crlf_comment_scan t (S (length (t ++ 13 :: 10 :: rest))) p0 35 rest l' (out_of ts []));
      [|lia|assumption|rewrite app_length; cbn; lia].
    cbn [bind]. rewrite lnext_lf. cbn [bind].
    rewrite (prev_is_cr_eq input ((p0 ++ [35] ++ t) ++ [13]) (10 :: rest)); [|rewrite INp; assoc|reflexivity]. rewrite last_char_snoc.
    change (13 =? 13) with true. cbn [bind].
    change (cu_pos (lx_cur (mklex (cur_lf ((p0 ++ [35] ++ t) ++ [13]) rest) l' (out_of ts [])))) with (tlen ((p0 ++ [35] ++ t) ++ [13])).
    assert (TL : tlen ((p0 ++ [35] ++ t) ++ [13]) = tlen (p0 ++ [35] ++ t) + 1) by (rewrite (tlen_app _ [13]), tlen_one; reflexivity).
    rewrite usub_ok by lia. cbn [bind]. replace (tlen ((p0 ++ [35] ++ t) ++ [13]) - 1) with (tlen (p0 ++ [35] ++ t)) by lia.
    rewrite TS. rewrite (slice_eq input (p0 ++ [35]) t (13 :: 10 :: rest)); [|rewrite INp; assoc|reflexivity|f_equal; assoc].
    rewrite <- TS. cbn [bind]. unfold store_literal, set_out. cbn [lx_cur lx_lit lx_out].
    rewrite COM. clear COM. rewrite <- SRC.
    rewrite pos_in_line_lf by (apply no_lf_one; lia). cbn [bind].
    rewrite (out_newline _ _ [13; 10]). rewrite newline_lf.
    eexists. split; [reflexivity|].
    replace (ts ++ [(XComment, 35 :: t); (XNewline, [13; 10])]) with ((ts ++ [(XComment, 35 :: t)]) ++ [(XNewline, [13; 10])]) by assoc.
    eapply cst_start; [reflexivity| |reflexivity|assumption]. rewrite source_app, source_one. assoc.
Qed.

(** A string. *)
Lemma step_string done w q text off s rest l :
  valid (XString q text off, s) -> separated (XString q text off, s) rest ->
  input = source done ++ w ++ s ++ rest -> lit_ok done w l ->
  exists c s' lx, s = c :: s' /\ lex_step input c (state1 done w c (s' ++ rest) l) = Ok lx /\
    cst ((done ++ word_tiles w) ++ [(XString q text off, s)]) [] rest lx.
Proof.
  intros (trim & (b & Es & B & TR & TC) & Eo) SEP IN L. cbn [separated] in SEP.
  destruct (delim_not q) as (D1 & D2 & D3 & D4 & D5).
  assert (HD : exists s', s = delim q :: s').
  { rewrite Es. destruct q; eexists; reflexivity. }
  destruct HD as (s' & Hs). exists (delim q), s'.
  assert (STEP : lex_step input (delim q) (state1 done w (delim q) (s' ++ rest) l) = quote_token input (delim q) (state1 done w (delim q) (s' ++ rest) l)).
  { unfold state1. destruct q; reflexivity. }
  rewrite STEP. clear STEP. unfold state1. replace (delim q =? 10) with false by lia. unfold quote_token.
  destruct (end_literal_eq input done w l [] (cur_at ((source done ++ w) ++ [delim q]) (s' ++ rest) (tlen (source done ++ w))) (delim q :: s' ++ rest)) as (l' & L' & R);
    [rewrite IN, Hs; assoc|assumption|reflexivity|].
  rewrite R. cbn [bind]. rewrite lpos_char by assumption. cbn [bind].
  assert (SW : source (done ++ word_tiles w) = source done ++ w) by apply source_words.
  set (ts := done ++ word_tiles w) in *. clearbody ts. clear R L.
  set (p0 := source done ++ w) in *.
  assert (INp : input = p0 ++ s ++ rest) by (rewrite IN; unfold p0; assoc).
  unfold set_lit. cbn [lx_lit lx_cur lx_out]. rewrite L'.
  change (cu_pos (cur_at (p0 ++ [delim q]) (s' ++ rest) (tlen p0))) with (tlen p0).
  change (mklit false (pos_at p0) (tlen p0)) with (L0 p0).
  (* from the state after the opening delimiter *)
  assert (RUN : (multi q -> ~ starts_with (eq (delim q)) rest) -> forall bp,
    exists lx,
    (let lx := mklex (cur_at (p0 ++ delims q ++ trim) (b ++ delims q ++ rest) bp) (L0 p0) (out_of ts []) in
     let? t := pos_in_line lx (next_byte_pos lx) in
     lex_string input (S (length (cu_rest (lx_cur lx)))) lx (mkss None t (next_byte_pos lx) q)) = Ok lx /\
    cst (ts ++ [(XString q text off, s)]) [] rest lx).
  { intros NR bp. cbv zeta.
    change (next_byte_pos (mklex (cur_at (p0 ++ delims q ++ trim) (b ++ delims q ++ rest) bp) (L0 p0) (out_of ts []))) with (tlen (p0 ++ delims q ++ trim)).
    rewrite pos_in_line_here. cbn [bind].
    change (cu_rest (lx_cur (mklex (cur_at (p0 ++ delims q ++ trim) (b ++ delims q ++ rest) bp) (L0 p0) (out_of ts [])))) with (b ++ delims q ++ rest).
    destruct (lex_string_complete input q p0 trim TR (S (length (b ++ delims q ++ rest))) b text [] rest bp (out_of ts [])
      (mkss None (pos_at (p0 ++ op q trim)) (tlen (p0 ++ op q trim)) q) []) as (bp' & RL); auto.
    - cbn [app]. rewrite INp, Es. unfold op. assoc.
    - exists None. auto.
    - intros (r & E). destruct r; discriminate.
    - unfold op in RL. rewrite app_nil_r in RL. cbn [app] in RL. eexists. split; [exact RL|].
      assert (ES : (delims q ++ trim) ++ b ++ delims q = s) by (rewrite Es; assoc).
      rewrite ES.
      assert (OFF : off_of q trim (quote_len q) = off).
      { rewrite Eo. unfold off_of. assert (AQ : as_u8 (quote_len q) = quote_len q) by (destruct q; reflexivity).
        rewrite AQ. destruct trim; reflexivity. }
      rewrite OFF. eapply cst_start; [reflexivity| |rewrite <- SW; rewrite (out_string ts [] q text off s []); reflexivity|reflexivity].
      rewrite source_app, source_one. reflexivity. }
  destruct (multi_dec q) as [M|M].
  - (* three quotes *)
    specialize (RUN (fun _ => SEP (or_introl M))).
    assert (Es' : s' ++ rest = [delim q; delim q] ++ trim ++ b ++ delims q ++ rest).
    { rewrite (delims_multi q M) in Es. rewrite Hs in Es. injection Es as ->. rewrite (delims_multi q M). assoc. }
    rewrite Es'. cbn [app]. rewrite peeks_cons, N.eqb_refl.
    assert (SK : forall o, lskip (mklex (cur_at (p0 ++ [delim q]) (delim q :: delim q :: trim ++ b ++ delims q ++ rest) (tlen p0)) (L0 p0) o) =
      mklex (cur_at ((p0 ++ [delim q]) ++ [delim q]) (delim q :: trim ++ b ++ delims q ++ rest) (tlen (p0 ++ [delim q]))) (L0 p0) o)
      by (intros o; unfold lskip; rewrite lnext_char by assumption; reflexivity).
    rewrite !SK. clear SK. rewrite peeks_cons, N.eqb_refl.
    assert (SK : forall o, lskip (mklex (cur_at ((p0 ++ [delim q]) ++ [delim q]) (delim q :: trim ++ b ++ delims q ++ rest) (tlen (p0 ++ [delim q]))) (L0 p0) o) =
      mklex (cur_at (p0 ++ delims q) (trim ++ b ++ delims q ++ rest) (tlen ((p0 ++ [delim q]) ++ [delim q]))) (L0 p0) o).
    { intros o; unfold lskip; rewrite lnext_char by assumption. cbn [snd]. f_equal. f_equal. rewrite (delims_multi q M). assoc. }
    rewrite !SK. clear SK.
    assert (QM : quote_multi (if delim q =? 34 then QBasic else QLiteral) = q) by (destruct M as [->| ->]; reflexivity).
    rewrite QM.
    destruct TR as [->|(_ & [->| ->])].
    + cbn [app] in *. destruct (TC M eq_refl) as [T1 T2].
      assert (NB : ~ starts_with (eq 10) (b ++ delims q ++ rest) /\ ~ (exists r, b ++ delims q ++ rest = 13 :: 10 :: r)).
      { destruct b as [|x b].
        - cbn [app]. rewrite (delims_multi q M). cbn [app]. rewrite starts_with_cons. split; [congruence|]. intros (r & E). injection E as E _. congruence.
        - cbn [app]. rewrite starts_with_cons in *. split; [assumption|]. intros (r & E). injection E as -> E.
          inversion B as [|? ? ? ? P| | | | |? s2 t2|]; subst; [apply plain_not_13; assumption| |congruence].
          apply T2. eexists. reflexivity. }
      destruct NB as [NB1 NB2].
      assert (P1 : peeks (mklex (cur_at (p0 ++ delims q) (b ++ delims q ++ rest) (tlen ((p0 ++ [delim q]) ++ [delim q]))) (L0 p0) (out_of ts [])) 10 = false).
      { destruct (b ++ delims q ++ rest) as [|x r]; [reflexivity|]. rewrite peeks_cons. rewrite starts_with_cons in NB1. lia. }
      assert (P2 : peeks (mklex (cur_at (p0 ++ delims q) (b ++ delims q ++ rest) (tlen ((p0 ++ [delim q]) ++ [delim q]))) (L0 p0) (out_of ts [])) 13
          && peeks2 (mklex (cur_at (p0 ++ delims q) (b ++ delims q ++ rest) (tlen ((p0 ++ [delim q]) ++ [delim q]))) (L0 p0) (out_of ts [])) 10 = false).
      { apply not_true_is_false. intros H. apply andb_true_iff in H. destruct H as [H1 H2].
        destruct (b ++ delims q ++ rest) as [|x [|y r]]; try discriminate. rewrite peeks_cons in H1. change (peeks2 _ 10) with (y =? 10) in H2.
        apply NB2. exists r. f_equal; [lia|]. f_equal. lia. }
      rewrite P1, P2.
      destruct (RUN (tlen ((p0 ++ [delim q]) ++ [delim q]))) as (lx & RL & C). rewrite app_nil_r in RL. exists lx. split; [assumption|]. split; [exact RL|exact C].
    + cbn [app]. rewrite !peeks_cons. change (10 =? 10) with true. cbv iota.
      unfold lskip. rewrite lnext_lf. cbn [snd]. rewrite newline_lf.
      destruct (RUN (tlen (p0 ++ delims q) + 1)) as (lx & RL & C). rewrite (app_assoc p0 (delims q) [10]) in RL. exists lx. split; [assumption|]. split; [exact RL|exact C].
    + cbn [app]. rewrite !peeks_cons. change (13 =? 10) with false. change (13 =? 13) with true.
      change (peeks2 (mklex (cur_at (p0 ++ delims q) (13 :: 10 :: b ++ delims q ++ rest) (tlen ((p0 ++ [delim q]) ++ [delim q]))) (L0 p0) (out_of ts [])) 10) with true.
      cbn [andb]. cbv iota.
      unfold lskip. rewrite lnext_char by lia. cbn [snd]. rewrite lnext_lf. cbn [snd]. rewrite newline_lf.
      destruct (RUN (tlen ((p0 ++ delims q) ++ [13]) + 1)) as (lx & RL & C).
      replace (p0 ++ delims q ++ [13; 10]) with (((p0 ++ delims q) ++ [13]) ++ [10]) in RL by assoc.
      exists lx. split; [assumption|]. split; [exact RL|exact C].
  - (* one quote *)
    destruct TR as [->|(M' & _)]; [|contradiction].
    assert (Eq : (if delim q =? 34 then QBasic else QLiteral) = q).
    { destruct q; try reflexivity; exfalso; apply M; unfold multi; auto. }
    rewrite Eq.
    assert (Es' : s' = b ++ [delim q]).
    { rewrite (delims_single q M) in Es. rewrite Hs in Es. injection Es as ->. reflexivity. }
    rewrite app_nil_r, (delims_single q M) in RUN. rewrite (delims_single q M) in Es. cbn [app] in Es.
    destruct b as [|x b].
    + cbn [app] in *. subst s'. cbn [app]. rewrite peeks_cons, N.eqb_refl.
      assert (SK : forall o, lskip (mklex (cur_at (p0 ++ [delim q]) (delim q :: rest) (tlen p0)) (L0 p0) o) =
        mklex (cur_at ((p0 ++ [delim q]) ++ [delim q]) rest (tlen (p0 ++ [delim q]))) (L0 p0) o)
        by (intros o; unfold lskip; rewrite lnext_char by assumption; reflexivity).
      rewrite !SK. clear SK.
      specialize (SEP (or_intror Es)).
      assert (PK : peeks (mklex (cur_at ((p0 ++ [delim q]) ++ [delim q]) rest (tlen (p0 ++ [delim q]))) (L0 p0) (out_of ts [])) (delim q) = false).
      { destruct rest as [|z r]; [reflexivity|]. rewrite peeks_cons. apply N.eqb_neq. intros ->. apply SEP. apply starts_with_cons. reflexivity. }
      rewrite PK.
      change (li_start (lx_lit (mklex (cur_at ((p0 ++ [delim q]) ++ [delim q]) rest (tlen (p0 ++ [delim q]))) (L0 p0) (out_of ts [])))) with (pos_at p0).
      change (li_byte (lx_lit (mklex (cur_at ((p0 ++ [delim q]) ++ [delim q]) rest (tlen (p0 ++ [delim q]))) (L0 p0) (out_of ts [])))) with (tlen p0).
      rewrite lpos_char by assumption. cbn [bind].
      assert (T1 : tlen p0 + 1 = tlen (p0 ++ [delim q])) by (rewrite tlen_app, tlen_one, len_small by assumption; reflexivity).
      assert (T2 : tlen p0 + 2 = tlen (p0 ++ [delim q; delim q])) by (rewrite tlen_app; cbn [tlen]; rewrite len_small by assumption; lia).
      rewrite (slice_eq input p0 [delim q; delim q] rest); [|rewrite INp, Es; reflexivity|reflexivity|assumption]. cbn [bind].
      rewrite T1. rewrite (slice_eq input (p0 ++ [delim q]) [] (delim q :: rest)); [|rewrite INp, Es; assoc|reflexivity|rewrite app_nil_r; reflexivity].
      cbn [bind sr_text].
      replace (pos_at (p0 ++ [delim q])) with (pos_plus (pos_at p0) 1)
        by (apply pos_plus_text; [auto|rewrite tlen_one, len_small by assumption; reflexivity]).
      assert (QL : quote_len q = 1) by (destruct q; try reflexivity; exfalso; apply M; unfold multi; auto).
      rewrite new_empty_string by assumption. cbn [bind].
      assert (P2 : pos_plus (pos_at p0) 2 = pos_at (p0 ++ [delim q; delim q])).
      { apply pos_plus_text; [|cbn [tlen]; rewrite len_small by assumption; lia]. unfold no_lf. cbn. lia. }
      rewrite P2.
      pose proof (body_nil_inv _ _ _ B) as ->.
      assert (Eoff : off = mkoff 0 1 0 1) by (rewrite Eo, QL; reflexivity).
      eexists. split; [assumption|]. split.
      { unfold store_string, push_token, set_out. cbn [lx_out lx_cur lx_lit o_tokens o_strings o_literals o_errors]. reflexivity. }
      eapply (cst_start _ _ _ _ _ (L0 p0)); [reflexivity| | |reflexivity].
      2:{ pose proof (out_string ts [] q [] off s []) as H. cbn [app] in H. rewrite <- H, SW, Es, Eoff.
          unfold str_out. cbn [s_start span_from_pos_len o_tokens o_strings o_literals o_errors out_of app]. reflexivity. }
      rewrite source_app, SW, source_one, Es. assoc.
    + assert (NX : x <> delim q).
      { inversion B; subst; try congruence; contradiction. }
      rewrite Es'. cbn [app]. rewrite peeks_cons. replace (x =? delim q) with false by lia.
      destruct (RUN ltac:(tauto) (tlen p0)) as (lx & RL & C). exists lx. split; [assumption|].
      replace (x :: (b ++ [delim q]) ++ rest) with ((x :: b) ++ [delim q] ++ rest) by assoc. split; [exact RL|exact C].
Qed.

Lemma lex_tiles : forall n ts done w lx fuel,
  (length ts <= n)%nat -> Forall valid ts -> all_separated ts -> (w <> [] -> separated (XWord, w) (source ts)) ->
  input = source done ++ w ++ source ts -> cst done w (source ts) lx -> (length (source ts) < fuel)%nat ->
  exists done' w' l', lex_loop input fuel lx = Ok (mklex (cur_at (source done' ++ w') [] (tlen (source done' ++ w'))) l' (out_of done' [])) /\
    lit_ok done' w' l' /\ done' ++ word_tiles w' = (done ++ word_tiles w) ++ ts.
Proof.
  induction n as [|n IH]; intros ts done w lx fuel LN V S SW IN C F.
  - destruct ts; [|cbn in LN; lia]. destruct C as (bp & l & -> & L). destruct fuel as [|fuel]; [cbn in F; lia|].
    exists done, w, l. split; [cbn [lex_loop]; change (source []) with (@nil N); rewrite lnext_end; reflexivity|]. split; [assumption|].
    rewrite (app_nil_r (done ++ word_tiles w)). reflexivity.
  - destruct ts as [|(x, s) ts].
    { destruct C as (bp & l & -> & L). destruct fuel as [|fuel]; [cbn in F; lia|].
      exists done, w, l. split; [cbn [lex_loop]; change (source []) with (@nil N); rewrite lnext_end; reflexivity|]. split; [assumption|].
      rewrite (app_nil_r (done ++ word_tiles w)). reflexivity. }
    cbn [length] in LN.
    pose proof (Forall_inv V) as V1. pose proof (Forall_inv_tail V) as V2. cbn [all_separated] in S. destruct S as [S1 S2].
    change (source ((x, s) :: ts)) with (s ++ source ts) in *.
    (* the rest, after the tile is done *)
    assert (NEXT : forall ts' done' lx' fuel', (length ts' <= n)%nat -> Forall valid ts' -> all_separated ts' ->
      input = source done' ++ source ts' -> cst done' [] (source ts') lx' -> (length (source ts') < fuel')%nat ->
      forall done2, done' ++ ts' = done2 ->
      exists d2 w2 l2, lex_loop input fuel' lx' = Ok (mklex (cur_at (source d2 ++ w2) [] (tlen (source d2 ++ w2))) l2 (out_of d2 [])) /\
        lit_ok d2 w2 l2 /\ d2 ++ word_tiles w2 = done2).
    { intros ts' done' lx' fuel' LN' V' S' IN' C' F' done2 <-.
      destruct (IH ts' done' [] lx' fuel' LN' V' S' ltac:(congruence) IN' C' F') as (d2 & w2 & l2 & R2 & L2 & E2).
      exists d2, w2, l2. split; [assumption|]. split; [assumption|]. rewrite E2. cbn [word_tiles]. rewrite (app_nil_r done'). reflexivity. }
    assert (ONE : forall c s' lx1, s = c :: s' -> (forall bp l fuel, lx = mklex (cur_at (source done ++ w) (s ++ source ts) bp) l (out_of done []) -> lit_ok done w l ->
         (length (s ++ source ts) < S fuel)%nat ->
         lex_loop input (S fuel) lx = lex_loop input fuel lx1) -> cst ((done ++ word_tiles w) ++ [(x, s)]) [] (source ts) lx1 ->
      exists done' w' l', lex_loop input fuel lx = Ok (mklex (cur_at (source done' ++ w') [] (tlen (source done' ++ w'))) l' (out_of done' [])) /\
       lit_ok done' w' l' /\ done' ++ word_tiles w' = (done ++ word_tiles w) ++ (x, s) :: ts).
    { intros c s' lx1 Es HR C1. destruct C as (bp & l & E & L). destruct fuel as [|fuel]; [lia|].
      rewrite (HR bp l fuel E L F).
      apply (NEXT ts ((done ++ word_tiles w) ++ [(x, s)]) lx1 fuel); auto; [lia| | |].
      - rewrite source_app, source_words, source_one, IN. assoc.
      - rewrite Es in F. cbn [app length] in F. rewrite app_length in F. lia.
      - rewrite <- app_assoc. reflexivity. }
    destruct C as (bp & l & E & L).
    destruct x.
    + (* blank *)
      assert (Hs : exists c, s = [c] /\ (c = 9 \/ c = 32)) by (destruct V1 as [->| ->]; eauto).
      destruct Hs as (c & -> & Hc).
      destruct (step_blank done w c (source ts) l Hc IN L) as (lx1 & R & C1).
      apply (ONE c [] lx1 eq_refl); [|assumption].
      intros bp0 l0 f E0 L0 _. rewrite E in E0. rewrite E. cbn [app]. rewrite loop_step, R. reflexivity.
    + (* line break *)
      destruct V1 as [->| ->].
      * destruct (step_newline_lf done w (source ts) l IN L) as (lx1 & R & C1).
        apply (ONE 10 [] lx1 eq_refl); [|assumption].
        intros bp0 l0 f E0 L0 _. rewrite E. cbn [app]. rewrite loop_step, R. reflexivity.
      * destruct (step_newline_crlf done w (source ts) l IN L) as (lx1 & R & C1).
        apply (ONE 13 [10] lx1 eq_refl); [|assumption].
        intros bp0 l0 f E0 L0 _. rewrite E. cbn [app]. rewrite loop_step, R. reflexivity.
    + (* punctuation *)
      destruct V1 as (c & PU & ->).
      destruct (step_punct done w ty c (source ts) l PU IN L) as (lx1 & R & C1).
      apply (ONE c [] lx1 eq_refl); [|assumption].
      intros bp0 l0 f E0 L0 _. rewrite E. cbn [app]. rewrite loop_step, R. reflexivity.
    + (* word *)
      clear ONE. destruct V1 as (NE & W).
      assert (Ew : w = []).
      { destruct w as [|c0 w]; [reflexivity|]. exfalso. specialize (SW ltac:(discriminate)).
        destruct s as [|c s]; [congruence|]. pose proof (Forall_inv W) as W1. pose proof (Forall_inv_tail W) as W2.
        destruct SW as [(SW & _)|(r & SW)].
        - apply SW. cbn [app]. apply starts_with_cons. assumption.
        - destruct (starts_crlf_tile ((XWord, c :: s) :: ts) V (conj S1 S2)) as (ts' & E'); [exists r; exact SW|discriminate]. }
      subst w.
      assert (CRW : ends_with 13 ([] ++ s) -> ~ starts_with (eq 10) (source ts)).
      { cbn [app]. intros EW. destruct S1 as [(_ & H)|(r & H)]; [auto|]. rewrite H. rewrite starts_with_cons. lia. }
      destruct (loop_word s done [] (source ts) lx fuel W CRW IN) as (lx1 & f1 & R1 & F1 & C1).
      { exists bp, l. auto. }
      { assumption. }
      rewrite R1. cbn [app] in C1.
      destruct (IH ts done s lx1 f1) as (d2 & w2 & l2 & R2 & L2 & E2); auto; [lia|].
      exists d2, w2, l2. split; [assumption|]. split; [assumption|]. rewrite E2.
      destruct s as [|c s]; [congruence|]. cbn [word_tiles]. rewrite (app_nil_r done), <- app_assoc. reflexivity.
    + (* comment *)
      clear ONE. destruct V1 as (t & -> & PT).
      assert (N : exists nlp ts2, ts = match nlp with [] => [] | _ => [(XNewline, nlp)] end ++ ts2 /\
         (nlp = [] /\ ts2 = [] \/ line_break nlp)).
      { destruct S1 as [E0|[(E0 & _)|E0]].
        - exists [], []. split; [|auto]. destruct ts as [|(x, s) ts]; [reflexivity|]. exfalso.
          pose proof (valid_nonempty _ _ (Forall_inv V2)). cbn in E0. apply app_eq_nil in E0. tauto.
        - destruct (starts_lf_tile ts V2 E0) as (ts2 & ->). exists [10], ts2. split; [reflexivity|]. right. left. reflexivity.
        - destruct (starts_crlf_tile ts V2 S2 E0) as (ts2 & ->). exists [13; 10], ts2. split; [reflexivity|]. right. right. reflexivity. }
      destruct N as (nlp & ts2 & -> & HN).
      assert (SR : source (match nlp with [] => [] | _ => [(XNewline, nlp)] end ++ ts2) = nlp ++ source ts2).
      { rewrite source_app. f_equal. destruct nlp; [reflexivity|apply source_one]. }
      assert (HN' : nlp = [] /\ source ts2 = [] \/ line_break nlp) by (destruct HN as [(-> & ->)|HN]; auto).
      rewrite SR in *.
      destruct (step_comment done w t nlp (source ts2) l PT HN') as (lx1 & R & C1); [rewrite IN; assoc|assumption|].
      destruct fuel as [|fuel]; [lia|]. rewrite E. cbn [app]. rewrite loop_step, R. cbn [bind].
      apply (NEXT ts2 ((done ++ word_tiles w) ++ (XComment, 35 :: t) :: match nlp with [] => [] | _ => [(XNewline, nlp)] end)).
      * clear - LN. destruct nlp; cbn [app length] in LN; lia.
      * apply Forall_app in V2. tauto.
      * destruct nlp as [|z nlp]; [exact S2|]. cbn [app all_separated] in S2. tauto.
      * rewrite source_app, source_words, IN. change (source ((XComment, 35 :: t) :: match nlp with [] => [] | _ => [(XNewline, nlp)] end)) with
          ((35 :: t) ++ source (match nlp with [] => [] | _ => [(XNewline, nlp)] end)).
        replace (source (match nlp with [] => [] | _ => [(XNewline, nlp)] end)) with nlp by (destruct nlp; [reflexivity|symmetry; apply source_one]). assoc.
      * assumption.
      * clear - F. cbn [app length] in F. repeat rewrite app_length in F. lia.
      * rewrite <- app_assoc. reflexivity.
    + (* string *)
      destruct (step_string done w q text off s (source ts) l V1 S1 IN L) as (c & s' & lx1 & -> & R & C1).
      apply (ONE c s' lx1 eq_refl); [|assumption].
      intros bp0 l0 f E0 L0 _. rewrite E. cbn [app]. rewrite loop_step, R. reflexivity.
Qed.

Theorem lex_complete ts :
  Forall valid ts -> all_separated ts -> source ts = input -> lex input = Ok (tokens_of ts, []).
Proof.
  intros V S E.
  destruct (lex_tiles (length ts) ts [] [] (lexer_new input) (Datatypes.S (length input))) as (d & w & l & R & L & ED); auto.
  - congruence.
  - exists 0, (mklit false pos_zero 0). rewrite E. split; [reflexivity|]. split; [reflexivity|congruence].
  - rewrite E. lia.
  - cbn [app word_tiles] in ED. subst ts. rewrite source_words in E.
    unfold lex. rewrite R. cbn [bind].
    destruct (end_literal_eq input d w l [] (cur_at (source d ++ w) [] (tlen (source d ++ w))) []) as (l' & _ & RE); [rewrite app_nil_r; auto|assumption|reflexivity|].
    rewrite RE. cbn [bind]. rewrite lpos_end. cbn [bind lx_out out_of o_tokens o_strings o_literals o_errors].
    unfold tokens_of. rewrite source_words. reflexivity.
Qed.

End Input.
