(** The main loop: every run cuts the input into pieces and reports exactly
    the tokens of these pieces. *)
From Verif Require Import Base BaseProofs CommonModel TomlError LitModel LexModel LexSpec LexBase LexStr LexQuote LexEsc LexUni LexLoop LexSound.

(** ** Tokens of a longer document *)
Lemma source_app a b : source (a ++ b) = source a ++ source b.
Proof. unfold source. rewrite map_app, concat_app. reflexivity. Qed.
Lemma source_one x s : source [(x, s)] = s.
Proof. cbn. apply app_nil_r. Qed.

Lemma tile_strings_app ts : forall pre us, tile_strings pre (ts ++ us) = tile_strings pre ts ++ tile_strings (pre ++ source ts) us.
Proof.
  induction ts as [|(x, s) ts IH]; intros pre us; cbn [app].
  - cbn. rewrite app_nil_r. reflexivity.
  - match goal with |- context [pre ++ source ?l] => replace (pre ++ source l) with ((pre ++ s) ++ source ts) by (cbn; assoc) end.
    destruct x; cbn [tile_strings]; rewrite IH; reflexivity.
Qed.
Lemma tile_literals_app ts : forall pre us, tile_literals pre (ts ++ us) = tile_literals pre ts ++ tile_literals (pre ++ source ts) us.
Proof.
  induction ts as [|(x, s) ts IH]; intros pre us; cbn [app].
  - cbn. rewrite app_nil_r. reflexivity.
  - match goal with |- context [pre ++ source ?l] => replace (pre ++ source l) with ((pre ++ s) ++ source ts) by (cbn; assoc) end.
    destruct x; cbn [tile_literals]; rewrite IH; reflexivity.
Qed.
Lemma tile_tokens_app ts : forall pre ns nl us, tile_tokens pre ns nl (ts ++ us) =
  tile_tokens pre ns nl ts ++
  tile_tokens (pre ++ source ts) (ns + N.of_nat (length (tile_strings pre ts))) (nl + N.of_nat (length (tile_literals pre ts))) us.
Proof.
  induction ts as [|(x, s) ts IH]; intros pre ns nl us; cbn [app].
  - cbn. rewrite app_nil_r, !N.add_0_r. reflexivity.
  - match goal with |- context [pre ++ source ?l] => replace (pre ++ source l) with ((pre ++ s) ++ source ts) by (cbn; assoc) end.
    destruct x; cbn [tile_tokens tile_strings tile_literals length app]; rewrite IH; rewrite ?Nat2N.inj_succ;
      repeat (f_equal; try lia).
Qed.

Definition out_of (ts : list tile) (es : list terror) : outputs :=
  mkout (tile_tokens [] 0 0 ts) (tile_strings [] ts) (tile_literals [] ts) es.

Lemma out_blank ts es s : out_of (ts ++ [(XBlank, s)]) es = out_of ts es.
Proof. unfold out_of. rewrite tile_tokens_app, tile_strings_app, tile_literals_app. cbn. rewrite !app_nil_r. reflexivity. Qed.
Lemma out_newline ts es s c l : push_token (mklex c l (out_of ts es)) (mktok TNewline (pos_at (source ts))) =
  mklex c l (out_of (ts ++ [(XNewline, s)]) es).
Proof. unfold push_token, set_out, out_of. rewrite tile_tokens_app, tile_strings_app, tile_literals_app. cbn. rewrite !app_nil_r. reflexivity. Qed.
Lemma out_punct ts es s c l ty : push_token (mklex c l (out_of ts es)) (mktok ty (pos_at (source ts))) =
  mklex c l (out_of (ts ++ [(XPunct ty, s)]) es).
Proof. unfold push_token, set_out, out_of. rewrite tile_tokens_app, tile_strings_app, tile_literals_app. cbn. rewrite !app_nil_r. reflexivity. Qed.
Lemma out_word ts es w : out_of (ts ++ [(XWord, w)]) es =
  mkout (tile_tokens [] 0 0 ts ++ [mktok (TLit (N.of_nat (length (tile_literals [] ts)))) (pos_at (source ts))])
        (tile_strings [] ts) (tile_literals [] ts ++ [mkref (tlen (source ts)) w]) es.
Proof. unfold out_of. rewrite tile_tokens_app, tile_strings_app, tile_literals_app. cbn. rewrite !app_nil_r. reflexivity. Qed.
Lemma out_comment ts es t : out_of (ts ++ [(XComment, 35 :: t)]) es =
  mkout (tile_tokens [] 0 0 ts ++ [mktok (TComment (N.of_nat (length (tile_literals [] ts)))) (pos_at (source ts))])
        (tile_strings [] ts) (tile_literals [] ts ++ [mkref (tlen (source ts) + 1) t]) es.
Proof. unfold out_of. rewrite tile_tokens_app, tile_strings_app, tile_literals_app. cbn. rewrite !app_nil_r. reflexivity. Qed.
Lemma out_string ts es q text off w nlp :
  str_out q (source ts) (out_of ts []) w nlp text off es =
  out_of (ts ++ (XString q text off, w) :: match nlp with [] => [] | _ => [(XNewline, nlp)] end) es.
Proof.
  unfold out_of, str_out. cbn [o_tokens o_strings o_literals o_errors].
  rewrite tile_tokens_app, tile_strings_app, tile_literals_app. cbn.
  destruct nlp; cbn; rewrite !app_nil_r; reflexivity.
Qed.
Lemma str_out_errs q p0 o a w nlp text off es :
  str_out q p0 (mkout (o_tokens o) (o_strings o) (o_literals o) a) w nlp text off es =
  str_out q p0 (mkout (o_tokens o) (o_strings o) (o_literals o) []) w nlp text off (a ++ es).
Proof. reflexivity. Qed.

(** ** Separation *)
Fixpoint seps (ts : list tile) (tail : list N) : Prop :=
  match ts with
  | [] => True
  | x :: r => separated x (source r ++ tail) /\ seps r tail
  end.
Lemma seps_all ts : seps ts [] <-> all_separated ts.
Proof. induction ts as [|x ts IH]; [tauto|]. cbn [seps all_separated]. rewrite app_nil_r, IH. tauto. Qed.
Lemma seps_app a b tail : seps (a ++ b) tail <-> seps a (source b ++ tail) /\ seps b tail.
Proof.
  induction a as [|x a IH]; [cbn; tauto|]. cbn [app seps]. rewrite IH, source_app, <- app_assoc. tauto.
Qed.
Lemma seps_one x tail : seps [x] tail <-> separated x tail.
Proof. cbn. tauto. Qed.

(** ** The state between two steps *)
Definition lit_ok (done : list tile) (w : list N) (l : litstate) : Prop :=
  (w = [] -> li_in l = false) /\ (w <> [] -> l = mklit true (pos_at (source done)) (tlen (source done))).
Definition word_tiles (w : list N) : list tile := match w with [] => [] | _ => [(XWord, w)] end.
Lemma source_words done w : source (done ++ word_tiles w) = source done ++ w.
Proof. rewrite source_app. destruct w; [reflexivity|]. cbn [word_tiles]. rewrite source_one. reflexivity. Qed.

(** [b] is [a] and more. *)
Definition ext (a b : list tile) : Prop := exists more, b = a ++ more.
Lemma ext_refl a : ext a a. Proof. exists []. symmetry. apply app_nil_r. Qed.
Lemma ext_more a b : ext a (a ++ b). Proof. exists b. reflexivity. Qed.
Lemma ext_trans a b c : ext a b -> ext b c -> ext a c.
Proof. intros (x & ->) (y & ->). exists (x ++ y). symmetry. apply app_assoc. Qed.
Ltac ext_tac := repeat rewrite <- app_assoc; first [assumption|apply ext_refl|apply ext_more|eapply ext_trans; [eassumption|apply ext_more]].

Section Input.
Context (input : list N).

Definition good (done : list tile) (tail : list N) (es : list terror) : Prop :=
  Forall shape done /\ seps done tail /\ Forall (errok input) es /\ (es = [] -> Forall valid done).
Definition winv (done : list tile) (w rest : list N) (es : list terror) : Prop :=
  input = source done ++ w ++ rest /\ Forall word_char w /\ (ends_with 13 w -> ~ starts_with (eq 10) rest) /\
  good done (w ++ rest) es.
Definition between (done : list tile) (w rest : list N) (es : list terror) (lx : lexer) : Prop :=
  winv done w rest es /\
  exists bp l, lx = mklex (cur_at (source done ++ w) rest bp) l (out_of done es) /\ lit_ok done w l.

Lemma good_snoc done x s tail es es' :
  good done (s ++ tail) es -> shape (x, s) -> separated (x, s) tail -> Forall (errok input) es' ->
  (es' = [] -> es = [] /\ valid (x, s)) -> good (done ++ [(x, s)]) tail es'.
Proof.
  intros (A1 & A2 & A3 & A4) H1 H2 H3 H4. split; [|split; [|split]].
  - apply Forall_app; auto.
  - apply seps_app. rewrite source_one. split; [assumption|]. apply seps_one. assumption.
  - assumption.
  - intros E. destruct (H4 E) as [E' V]. apply Forall_app; auto.
Qed.

(** Closing the pending word. *)
Lemma end_literal_eq done w l es cur rest :
  input = source done ++ w ++ rest -> lit_ok done w l -> cu_pos cur = tlen (source done ++ w) ->
  exists l', li_in l' = false /\
  end_literal input (mklex cur l (out_of done es)) = Ok (mklex cur l' (out_of (done ++ word_tiles w) es)).
Proof.
  intros IN (L1 & L2) CP. unfold end_literal. cbn [lx_lit lx_cur].
  destruct w as [|c w].
  - rewrite (L1 eq_refl). cbn [negb word_tiles]. rewrite app_nil_r. exists l. split; [apply L1; reflexivity|reflexivity].
  - rewrite (L2 ltac:(discriminate)). cbn [li_in negb li_byte li_start].
    rewrite CP. rewrite (slice_eq input (source done) (c :: w) rest) by (reflexivity || assumption). cbn [bind].
    unfold store_literal, push_token, set_out, set_lit. cbn [lx_cur lx_lit lx_out li_start li_byte].
    eexists. split; [|cbn [word_tiles]; rewrite out_word; reflexivity]. reflexivity.
Qed.
Lemma good_words done w tail es :
  good done (w ++ tail) es -> Forall word_char w ->
  (w <> [] -> separated (XWord, w) tail) -> good (done ++ word_tiles w) tail es.
Proof.
  intros G W S. destruct w as [|c w]; [cbn [word_tiles]; rewrite app_nil_r; assumption|].
  cbn [word_tiles]. pose proof G as (_ & _ & OK & _).
  apply good_snoc with (es := es); auto.
  - split; [discriminate|assumption].
  - apply S. discriminate.
  - intros E. split; [assumption|]. split; [discriminate|assumption].
Qed.

(** The word ends before [c]. *)
Lemma word_sep w c rest : (ends_with 13 w -> ~ starts_with (eq 10) (c :: rest)) ->
  (~ word_char c \/ exists r, c :: rest = 13 :: 10 :: r) -> separated (XWord, w) (c :: rest).
Proof.
  intros H [N|E]; [left|right; assumption]. split; [|assumption]. rewrite starts_with_cons. assumption.
Qed.

(** One-character pieces. *)
Lemma char_token_between done w l es ty c rest cur :
  winv done w (c :: rest) es -> lit_ok done w l -> cu_pos cur = tlen (source done ++ w) ->
  (forall o' l', lpos (mklex cur l' o') = Ok (pos_at (source done ++ w))) ->
  (~ word_char c \/ exists r, c :: rest = 13 :: 10 :: r) ->
  exists l', li_in l' = false /\ good (done ++ word_tiles w) (c :: rest) es /\
    char_token input (mklex cur l (out_of done es)) ty =
    Ok (push_token (mklex cur l' (out_of (done ++ word_tiles w) es)) (mktok ty (pos_at (source (done ++ word_tiles w))))).
Proof.
  intros (IN & W & CL & G) L CP LP NW.
  destruct (end_literal_eq done w l es cur (c :: rest) IN L CP) as (l' & L' & R).
  exists l'. split; [assumption|]. split; [apply good_words; auto; intros _; apply word_sep; assumption|].
  unfold char_token. rewrite R. cbn [bind]. rewrite LP. cbn [bind]. rewrite source_words. reflexivity.
Qed.

Lemma between_start done rest es bp l :
  input = source done ++ rest -> good done rest es -> li_in l = false ->
  between done [] rest es (mklex (cur_at (source done) rest bp) l (out_of done es)).
Proof.
  intros IN G L. split.
  - repeat split; auto; try apply G. intros (r & E). destruct r; discriminate.
  - exists bp, l. rewrite app_nil_r. split; [reflexivity|]. split; [auto|congruence].
Qed.

(** ** Strings *)
Lemma new_empty_string q lit P : quote_len q = 1 ->
  new_string_token q lit (span_from_pos_len P 2) [] (span_pos (pos_plus P 1)) =
  Ok (mkstr q lit (pos_plus P 2) [] (mkoff 0 1 0 1)).
Proof.
  intros H. unfold new_string_token, span_from_pos_len, span_pos, pos_plus. cbn [s_start s_end p_line p_char].
  rewrite !usub_ok by lia. cbn [bind]. rewrite N.sub_diag. change (as_u8 0 =? 0) with true. cbn [bind].
  replace (p_char P + 1 - p_char P) with 1 by lia. replace (p_char P + 2 - (p_char P + 1)) with 1 by lia. reflexivity.
Qed.

(** From a run of [string] to the next state. *)
Lemma string_between ts q trim R0 es lx :
  input = source ts ++ (delims q ++ trim) ++ R0 ->
  (trim = [] \/ (multi q /\ line_break trim)) ->
  (multi q -> trim = [] -> ~ starts_with (eq 10) R0 /\ ~ (exists r, R0 = 13 :: 10 :: r)) ->
  (~ multi q -> ~ starts_with (eq (delim q)) R0) ->
  good ts ((delims q ++ trim) ++ R0) es ->
  final input q (source ts) (out_of ts es) R0 lx (str_good q trim [] [] R0) ->
  exists done' rest' es', ext ts done' /\ (length rest' <= length R0)%nat /\ between done' [] rest' es' lx.
Proof.
  intros IN TR TC SD G (w & nlp & rest' & text & off & bp & e & A1 & A2 & A3 & A4 & A5 & -> & A7 & A8).
  exists (ts ++ (XString q text off, w) :: match nlp with [] => [] | _ => [(XNewline, nlp)] end), rest', (es ++ e).
  split; [apply ext_more|]. split; [assumption|].
  assert (OUT : str_out q (source ts) (out_of ts es) w nlp text off e =
    out_of (ts ++ (XString q text off, w) :: match nlp with [] => [] | _ => [(XNewline, nlp)] end) (es ++ e)).
  { rewrite <- out_string. reflexivity. }
  rewrite OUT.
  assert (SRC : source (ts ++ (XString q text off, w) :: match nlp with [] => [] | _ => [(XNewline, nlp)] end) = source ts ++ w ++ nlp).
  { rewrite source_app. f_equal. destruct nlp; cbn; rewrite ?app_nil_r; reflexivity. }
  rewrite <- SRC.
  assert (TAILEQ : (delims q ++ trim) ++ R0 = w ++ nlp ++ rest').
  { rewrite IN in A1. apply app_inv_head in A1. assumption. }
  apply between_start; [rewrite SRC; rewrite A1 at 1; assoc| |reflexivity].
  assert (GS : good (ts ++ [(XString q text off, w)]) (nlp ++ rest') (es ++ e)).
  { apply good_snoc with (es := es).
    - rewrite <- TAILEQ. assumption.
    - exact A2.
    - cbn. intros [M|E].
      + destruct A4 as [->|(_ & NM)]; [|contradiction]. cbn. apply A5. assumption.
      + destruct (multi_dec q) as [M|NM].
        { exfalso. destruct A2 as ((tr & bb & ee & A2 & _) & _). rewrite A2, (delims_multi q M) in E. destruct tr; [destruct bb; [destruct ee|]|]; discriminate. }
        exfalso. apply (SD NM).
        destruct TR as [->|(M & _)]; [|contradiction].
        rewrite app_nil_r, E, (delims_single q NM) in TAILEQ. cbn in TAILEQ. injection TAILEQ as ->.
        apply starts_with_cons. reflexivity.
    - apply Forall_app. split; [apply G|assumption].
    - intros H. apply app_eq_nil in H. destruct H as [-> ->]. split; [reflexivity|].
      destruct (A8 eq_refl) as (-> & SG). destruct SG as (b' & t' & Ew & Et & B & Eo).
      { intros (r & E). destruct r; discriminate. }
      cbn [app] in *. exists trim. split.
      + exists b'. unfold op in Ew. split; [rewrite Ew; assoc|]. split; [rewrite Et; assumption|]. split; [assumption|].
        intros M E0. subst trim. unfold op in Ew. rewrite app_nil_r in *.
        assert (ER : R0 = b' ++ delims q ++ rest').
        { rewrite Ew in TAILEQ. rewrite <- app_assoc in TAILEQ. apply app_inv_head in TAILEQ. rewrite TAILEQ. assoc. }
        destruct (TC M eq_refl) as [T1 T2]. split.
        * intros SW. apply T1. rewrite ER. apply starts_with_prefix. assumption.
        * intros (r & E). apply T2. rewrite ER, E. eexists. cbn [app]. reflexivity.
      + rewrite Eo. unfold off_of. assert (AQ : as_u8 (quote_len q) = quote_len q) by (destruct q; reflexivity).
        rewrite AQ. destruct trim; reflexivity. }
  destruct nlp as [|z nlp].
  { exact GS. }
  replace (ts ++ [(XString q text off, w); (XNewline, z :: nlp)]) with ((ts ++ [(XString q text off, w)]) ++ [(XNewline, z :: nlp)]) by assoc.
  destruct A4 as [E|(LB & _)]; [discriminate|].
  apply good_snoc with (es := es ++ e); auto.
  - cbn. exact I.
  - apply Forall_app. split; [apply G|assumption].
Qed.

Lemma quote_token_between done w l es c rest :
  (c = 34 \/ c = 39) -> winv done w (c :: rest) es -> lit_ok done w l ->
  exists lx done' rest' es', ext done done' /\
    quote_token input c (mklex (cur_at ((source done ++ w) ++ [c]) rest (tlen (source done ++ w))) l (out_of done es)) = Ok lx /\
    (length rest' <= length rest)%nat /\ between done' [] rest' es' lx.
Proof.
  intros Hc WI L. pose proof WI as (IN & W & CL & G).
  assert (C10 : c <> 10) by lia. assert (C128 : c < 128) by lia.
  unfold quote_token.
  destruct (end_literal_eq done w l es (cur_at ((source done ++ w) ++ [c]) rest (tlen (source done ++ w))) (c :: rest) IN L eq_refl) as (l' & L' & R).
  rewrite R. cbn [bind]. rewrite lpos_char by assumption. cbn [bind].
  assert (G1 : good (done ++ word_tiles w) (c :: rest) es).
  { apply good_words; auto. intros _. apply word_sep; [assumption|]. left. unfold word_char. cbn. intuition. }
  assert (SW : source (done ++ word_tiles w) = source done ++ w) by apply source_words.
  assert (EXT : ext done (done ++ word_tiles w)) by apply ext_more.
  set (ts := done ++ word_tiles w) in *. clearbody ts. clear R CL L WI.
  set (p0 := source done ++ w) in *.
  assert (INp : input = p0 ++ c :: rest) by (rewrite IN; unfold p0; assoc).
  unfold set_lit. cbn [lx_lit lx_cur lx_out]. rewrite L'.
  change (cu_pos (cur_at (p0 ++ [c]) rest (tlen p0))) with (tlen p0).
  change (mklit false (pos_at p0) (tlen p0)) with (L0 p0).
  set (q := if c =? 34 then QBasic else QLiteral).
  assert (Dq : delim q = c) by (unfold q; destruct Hc as [->| ->]; reflexivity).
  assert (NMq : ~ multi q) by (unfold q, multi; destruct (c =? 34); intuition discriminate).
  assert (Dm : delim (quote_multi q) = c) by (rewrite <- Dq; destruct q; reflexivity).
  assert (Mm : multi (quote_multi q)) by (unfold multi; destruct q; auto).
  (* from the state after the opening delimiter *)
  assert (RUN : forall q' trim R0 bp,
    input = p0 ++ (delims q' ++ trim) ++ R0 ->
    (trim = [] \/ (multi q' /\ line_break trim)) ->
    (multi q' -> trim = [] -> ~ starts_with (eq 10) R0 /\ ~ (exists r, R0 = 13 :: 10 :: r)) ->
    (~ multi q' -> ~ starts_with (eq (delim q')) R0) ->
    (length R0 <= length rest)%nat ->
    exists lx done' rest' es', ext done done' /\
    (let lx := mklex (cur_at (p0 ++ delims q' ++ trim) R0 bp) (L0 p0) (out_of ts es) in
     let? t := pos_in_line lx (next_byte_pos lx) in
     lex_string input (S (length (cu_rest (lx_cur lx)))) lx (mkss None t (next_byte_pos lx) q')) = Ok lx /\
    (length rest' <= length rest)%nat /\ between done' [] rest' es' lx).
  { intros q' trim R0 bp IN0 TR TC SD LE. cbv zeta.
    change (next_byte_pos (mklex (cur_at (p0 ++ delims q' ++ trim) R0 bp) (L0 p0) (out_of ts es))) with (tlen (p0 ++ delims q' ++ trim)).
    rewrite pos_in_line_here. cbn [bind].
    change (cu_rest (lx_cur (mklex (cur_at (p0 ++ delims q' ++ trim) R0 bp) (L0 p0) (out_of ts es)))) with R0.
    destruct (lex_string_sound input q' p0 trim TR (S (length R0)) [] R0 bp (out_of ts es) (mkss None (pos_at (p0 ++ op q' trim)) (tlen (p0 ++ op q' trim)) q') [])
      as (lx & RL & FI).
    - unfold op. cbn [app]. rewrite IN0. assoc.
    - lia.
    - exists None. auto.
    - auto.
    - constructor.
    - unfold op in RL. rewrite app_nil_r in RL. 
      destruct (string_between ts q' trim R0 es lx) as (done' & rest' & es' & EX' & LE' & BT).
      + rewrite SW. assumption.
      + assumption.
      + assumption.
      + assumption.
      + replace ((delims q' ++ trim) ++ R0) with (c :: rest); [assumption|].
        rewrite INp in IN0. apply app_inv_head in IN0. assumption.
      + rewrite SW. exact FI.
      + exists lx, done', rest', es'. split; [exact (ext_trans _ _ _ EXT EX')|]. split; [exact RL|]. split; [lia|assumption]. }
  destruct rest as [|c2 rest].
  { rewrite peeks_nil.
    pose proof (RUN q [] [] (tlen p0)) as RN. rewrite app_nil_r, (delims_single q NMq), Dq in RN. apply RN; auto.
    intros _. apply starts_with_nil. }
  rewrite peeks_cons. destruct (N.eqb_spec c2 c) as [->|NE].
  2:{ pose proof (RUN q [] (c2 :: rest) (tlen p0)) as RN. rewrite app_nil_r, (delims_single q NMq), Dq in RN. apply RN; auto.
      intros _. rewrite starts_with_cons. congruence. }
  assert (SK : forall o, lskip (mklex (cur_at (p0 ++ [c]) (c :: rest) (tlen p0)) (L0 p0) o) =
    mklex (cur_at ((p0 ++ [c]) ++ [c]) rest (tlen (p0 ++ [c]))) (L0 p0) o)
    by (intros o; unfold lskip; rewrite lnext_char by assumption; reflexivity).
  rewrite !SK. clear SK.
  assert (DQM : delims (quote_multi q) = [c; c; c]) by (rewrite (delims_multi _ Mm), Dm; reflexivity).
  destruct (starts_dec (eq c) rest ltac:(intros x; destruct (N.eq_dec c x); auto)) as [(c3 & R & -> & <-)|NS].
  - rewrite peeks_cons, N.eqb_refl.
    assert (SK : forall o, lskip (mklex (cur_at ((p0 ++ [c]) ++ [c]) (c :: R) (tlen (p0 ++ [c]))) (L0 p0) o) =
      mklex (cur_at (p0 ++ [c; c; c]) R (tlen ((p0 ++ [c]) ++ [c]))) (L0 p0) o).
    { intros o; unfold lskip; rewrite lnext_char by assumption. cbn [snd]. f_equal. f_equal. assoc. }
    rewrite !SK. clear SK.
    destruct R as [|x R].
    { rewrite !peeks_nil. cbn [andb].
      pose proof (RUN (quote_multi q) [] [] (tlen ((p0 ++ [c]) ++ [c]))) as RN. rewrite DQM in RN. apply RN.
      - rewrite INp. assoc.
      - auto.
      - intros _ _. split; [apply starts_with_nil|intros (r & E); discriminate].
      - tauto.
      - cbn. lia. }
    rewrite !peeks_cons. destruct (N.eqb_spec x 10) as [->|NX].
    { unfold lskip. rewrite lnext_lf. cbn [snd]. rewrite newline_lf.
      pose proof (RUN (quote_multi q) [10] R (tlen (p0 ++ [c; c; c]) + 1)) as RN. rewrite DQM, (app_assoc p0 [c; c; c] [10]) in RN. apply RN.
      - rewrite INp. assoc.
      - right. split; [assumption|]. left. reflexivity.
      - intros _ E. discriminate.
      - tauto.
      - cbn. lia. }
    destruct ((x =? 13) && peeks2 (mklex (cur_at (p0 ++ [c; c; c]) (x :: R) (tlen ((p0 ++ [c]) ++ [c]))) (L0 p0) (out_of ts es)) 10) eqn:EC.
    { apply andb_true_iff in EC. destruct EC as [E1 E2]. apply N.eqb_eq in E1. subst x.
      destruct R as [|y R]; [discriminate|]. change (peeks2 _ 10) with (y =? 10) in E2. apply N.eqb_eq in E2. subst y.
      unfold lskip. rewrite lnext_char by lia. cbn [snd]. rewrite lnext_lf. cbn [snd]. rewrite newline_lf.
      pose proof (RUN (quote_multi q) [13; 10] R (tlen ((p0 ++ [c; c; c]) ++ [13]) + 1)) as RN. rewrite DQM in RN.
      replace (p0 ++ [c; c; c] ++ [13; 10]) with (((p0 ++ [c; c; c]) ++ [13]) ++ [10]) in RN by assoc. apply RN.
      - rewrite INp. assoc.
      - right. split; [assumption|]. right. reflexivity.
      - intros _ E. discriminate.
      - tauto.
      - cbn. lia. }
    pose proof (RUN (quote_multi q) [] (x :: R) (tlen ((p0 ++ [c]) ++ [c]))) as RN. rewrite DQM in RN. cbn [app] in RN. apply RN.
    + rewrite INp. assoc.
    + auto.
    + intros _ _. split; [rewrite starts_with_cons; congruence|]. intros (r & E). injection E as -> ->. discriminate.
    + tauto.
    + cbn. lia.
  - assert (PK : peeks (mklex (cur_at ((p0 ++ [c]) ++ [c]) rest (tlen (p0 ++ [c]))) (L0 p0) (out_of ts es)) c = false).
    { destruct rest as [|x r]; [reflexivity|]. rewrite peeks_cons. apply N.eqb_neq. intros ->. apply NS. apply starts_with_cons. reflexivity. }
    rewrite PK.
    change (li_start (lx_lit (mklex (cur_at ((p0 ++ [c]) ++ [c]) rest (tlen (p0 ++ [c]))) (L0 p0) (out_of ts es)))) with (pos_at p0).
    change (li_byte (lx_lit (mklex (cur_at ((p0 ++ [c]) ++ [c]) rest (tlen (p0 ++ [c]))) (L0 p0) (out_of ts es)))) with (tlen p0).
    rewrite lpos_char by assumption. cbn [bind].
    assert (T1 : tlen p0 + 1 = tlen (p0 ++ [c])) by (rewrite tlen_app, tlen_one, len_small by assumption; reflexivity).
    assert (T2 : tlen p0 + 2 = tlen (p0 ++ [c; c])) by (rewrite tlen_app; cbn [tlen]; rewrite len_small by assumption; lia).
    rewrite (slice_eq input p0 [c; c] rest); [|rewrite INp; reflexivity|reflexivity|assumption]. cbn [bind].
    rewrite T1. rewrite (slice_eq input (p0 ++ [c]) [] (c :: rest)); [|rewrite INp; assoc|reflexivity|rewrite app_nil_r; reflexivity].
    cbn [bind sr_text].
    replace (pos_at (p0 ++ [c])) with (pos_plus (pos_at p0) 1)
      by (apply pos_plus_text; [auto|rewrite tlen_one, len_small by assumption; reflexivity]).
    rewrite new_empty_string by (unfold q; destruct (c =? 34); reflexivity). cbn [bind].
    assert (P2 : pos_plus (pos_at p0) 2 = pos_at (p0 ++ [c; c])).
    { apply pos_plus_text; [|cbn [tlen]; rewrite len_small by assumption; lia]. unfold no_lf. cbn. lia. }
    rewrite P2.
    eexists _, (ts ++ [(XString q [] (mkoff 0 1 0 1), [c; c])]), rest, es. split; [ext_tac|]. split.
    { unfold store_string, push_token, set_out. cbn [lx_out lx_cur lx_lit o_tokens o_strings o_literals o_errors]. reflexivity. }
    split; [cbn; lia|].
    assert (SRC : source (ts ++ [(XString q [] (mkoff 0 1 0 1), [c; c])]) = (p0 ++ [c]) ++ [c]) by (rewrite source_app, SW, source_one; assoc).
    assert (OUT : out_of (ts ++ [(XString q [] (mkoff 0 1 0 1), [c; c])]) es =
      mkout (o_tokens (out_of ts es) ++ [mktok (TString (N.of_nat (length (o_strings (out_of ts es))))) (pos_at p0)])
        (o_strings (out_of ts es) ++ [mkstr q (mkref (tlen p0) [c; c]) (pos_at (p0 ++ [c; c])) [] (mkoff 0 1 0 1)])
        (o_literals (out_of ts es)) (o_errors (out_of ts es))).
    { pose proof (out_string ts es q [] (mkoff 0 1 0 1) [c; c] []) as H. cbn [app] in H. rewrite <- H, <- SW.
      unfold str_out. cbn [o_tokens o_strings o_literals o_errors out_of app]. reflexivity. }
    cbn [s_start span_from_pos_len]. rewrite <- OUT, <- SRC.
    apply between_start; [rewrite SRC, INp; assoc| |reflexivity].
    apply good_snoc with (es := es); [assumption| | |apply G1|].
    + split; [|constructor]. exists [], [], [c]. rewrite (delims_single q NMq), Dq. split; [reflexivity|]. split; [auto|]. split; [auto|].
      split; [right; rewrite tlen_one, len_small by assumption; unfold q; destruct (c =? 34); vm_compute; discriminate|]. split; [auto|].
      rewrite tlen_one, len_small by assumption. unfold q. destruct (c =? 34); reflexivity.
    + cbn. intros _. rewrite Dq. assumption.
    + intros E. split; [assumption|]. cbn. exists []. split.
      * exists []. rewrite (delims_single q NMq), Dq. split; [reflexivity|]. split; [constructor|]. split; [auto|]. intros M. contradiction.
      * unfold q. destruct (c =? 34); reflexivity.
Qed.

End Input.
