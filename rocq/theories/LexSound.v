(** [string]: every run ends with one string token; without errors the string
    says what TOML says. *)
From Verif Require Import Base BaseProofs CommonModel TomlError LitModel LexModel LexSpec LexBase LexStr LexQuote LexEsc LexUni LexLoop.

Lemma body_plain_app q chunk s t :
  Forall plain chunk -> ~ In (delim q) chunk -> (escapes q -> ~ In 92 chunk) ->
  body q 0 s t -> body q 0 (chunk ++ s) (chunk ++ t).
Proof.
  intros P D E B. induction chunk as [|c chunk IH]; [assumption|]. inversion P as [|? ? P1 P2]; subst.
  cbn [app In] in *. apply body_char; auto.
  - intros H ->. apply (E H). auto.
  - apply IH; auto. intros H I. apply (E H). auto.
Qed.
Lemma body_any q n s t : ~ starts_with (eq (delim q)) s -> body q 0 s t -> body q n s t.
Proof.
  intros ND B. inversion B; subst;
    [apply body_end|apply body_char; assumption|apply body_escape; assumption|eapply body_unicode; eassumption
    |apply body_fold; auto|apply body_lf; assumption|apply body_crlf; assumption|].
  exfalso. apply ND. apply starts_with_cons. reflexivity.
Qed.
Lemma body_delims q k s t : multi q -> (k <= 2)%nat -> ~ starts_with (eq (delim q)) s -> body q 0 s t ->
  body q 0 (repeat (delim q) k ++ s) (repeat (delim q) k ++ t).
Proof.
  intros M K ND B. destruct k as [|[|[|k]]]; [assumption| | |lia]; cbn [repeat app].
  - apply body_delim; [assumption|lia|]. apply body_any; assumption.
  - apply body_delim; [assumption|lia|]. apply body_delim; [assumption|lia|]. apply body_any; assumption.
Qed.
Lemma plain_not_13 : ~ plain 13.
Proof. unfold plain. lia. Qed.
Lemma ends_with_app c a b : b <> [] -> ends_with c (a ++ b) -> ends_with c b.
Proof.
  intros N (r & E). destruct b as [|x b _] using rev_ind; [congruence|].
  rewrite app_assoc in E. apply app_inj_tail in E. destruct E as [_ ->]. exists b. reflexivity.
Qed.
Lemma ends_with_snoc c a x : ends_with c (a ++ [x]) -> x = c.
Proof. intros H. apply ends_with_app in H; [|discriminate]. apply ends_with_one in H. assumption. Qed.

(** Rewrite the first argument of a [bind] up to conversion. *)
Ltac bindrw P :=
  match type of P with
  | _ = ?R => match goal with |- context [bind ?M ?K] => replace (bind M K) with (bind R K) by (f_equal; symmetry; exact P) end
  end; cbn [bind].

Section Input.
Context (input : list N).
Section Str.
Context (q : quote) (p0 trim : list N).
Context (TR : trim = [] \/ (multi q /\ line_break trim)).
Local Notation op := (op q trim).
Local Notation L0 := (L0 p0).
Local Notation st_inv := (st_inv q p0 trim).
Local Notation final := (final input q p0).
Local Notation d := (delim q).
Local Notation sst := (sst q p0 trim).

Lemma op_not_13 b r : p0 ++ op ++ b = r ++ [13] -> exists y, b = y ++ [13] /\ r = p0 ++ op ++ y.
Proof.
  intros E. destruct (delim_not q) as (D1 & D2 & _).
  destruct b as [|x b _] using rev_ind.
  - exfalso. rewrite app_nil_r in E. unfold LexStr.op in E.
    assert (H : ends_with 13 (delims q ++ trim)).
    { apply (ends_with_app 13 p0); [destruct q; discriminate|]. exists r. assumption. }
    destruct TR as [->|(_ & [->| ->])].
    + rewrite app_nil_r in H. apply ends_with_In, delims_no in H. congruence.
    + apply ends_with_snoc in H. discriminate.
    + change [13; 10] with ([13] ++ [10]) in H. rewrite app_assoc in H. apply ends_with_snoc in H. discriminate.
  - rewrite !app_assoc in E. apply app_inj_tail in E. destruct E as [<- ->]. exists b. split; [reflexivity|]. assoc.
Qed.

Lemma st_inv_any b st T b2 : st_inv b st T -> text_from b2 T -> exists T', st_inv b2 st T' /\ text_from b2 T'.
Proof.
  intros (ot & -> & HT) TF. destruct ot as [t|]; [exists t|exists b2]; (split; [eexists; (split; [reflexivity|reflexivity])|]);
    [rewrite <- HT; exact TF|apply text_from_self].
Qed.
Lemma st_inv_pop b st T b2 : st_inv b st T -> text_from b2 T -> exists T', st_inv b2 (pop_char st) T' /\ text_from b2 T'.
Proof.
  intros (ot & -> & HT) TF. destruct ot as [t|]; [exists (removelast t)|exists b2]; (split; [eexists; (split; [reflexivity|reflexivity])|]);
    [rewrite <- HT; apply text_from_removelast; exact TF|apply text_from_self].
Qed.

(** The chunk that was scanned goes to the text. *)
Lemma push_chunk b chunk st T rest i j :
  input = (p0 ++ op ++ b) ++ chunk ++ rest -> i = tlen (p0 ++ op ++ b) -> j = tlen ((p0 ++ op ++ b) ++ chunk) ->
  st_inv b st T ->
  exists st1, st_inv (b ++ chunk) st1 (T ++ chunk) /\
    match ss_text st with
    | Some _ => let? s := slice input i j in Ok (push_chars st (sr_text s))
    | None => Ok st
    end = Ok st1 :> run strstate.
Proof.
  intros IN -> -> (ot & -> & H). cbn [ss_text]. destruct ot as [t|].
  - rewrite (slice_eq input (p0 ++ op ++ b) chunk rest) by (reflexivity || assumption). cbn [bind sr_text].
    eexists. split; [|reflexivity]. apply st_inv_push. exists (Some t). auto.
  - eexists. split; [|reflexivity]. exists None. subst. auto.
Qed.

Definition str_good (b T rest w text : list N) (off : text_offset) : Prop :=
  (ends_with 13 b -> ~ starts_with (eq 10) rest) ->
  exists b' t', w = op ++ b ++ b' ++ delims q /\ text = T ++ t' /\ body q 0 b' t' /\ off = off_of q trim (quote_len q).

Lemma lex_string_sound : forall fuel b rest bp o st T,
  input = p0 ++ op ++ b ++ rest -> (length rest < fuel)%nat -> st_inv b st T -> (~ multi q -> no_lf b) -> text_from b T ->
  exists lx, lex_string input fuel (mklex (cur_at (p0 ++ op ++ b) rest bp) L0 o) st = Ok lx /\
    final o rest lx (str_good b T rest).
Proof.
  induction fuel as [|fuel IH]; intros b rest bp o st T IN F SI NLB TF; [lia|].
  cbn [lex_string]. rewrite (st_inv_quote _ _ _ _ _ _ SI).
  change (next_byte_pos (mklex (cur_at (p0 ++ op ++ b) rest bp) L0 o)) with (tlen (p0 ++ op ++ b)).
  change (cu_rest (lx_cur (mklex (cur_at (p0 ++ op ++ b) rest bp) L0 o))) with rest.
  destruct (delim_not q) as (D1 & D2 & D3 & D4 & D5).
  destruct (op_delims q trim) as (top & Etop).
  destruct (string_scan_sound input (S (length rest)) q (p0 ++ op ++ b) rest bp L0 o) as (chunk & es & OKe & NL & ND & NB & SC & CL);
    [rewrite IN; assoc|lia|].
  assert (NBC : ~ multi q -> no_lf (b ++ chunk)) by (intros M; apply no_lf_app; auto).
  assert (TFB : text_from (b ++ chunk) T) by (apply (text_from_incl _ _ _ TF), incl_appl, incl_refl).
  assert (TFC : text_from (b ++ chunk) (T ++ chunk)) by (apply text_from_app; [exact TFB|apply (text_from_incl _ _ _ (text_from_self chunk)), incl_appr, incl_refl]).
  destruct SC as [(Er & R)|[(x & rest' & Er & X & R)|(rest' & Er & R)]]; rewrite R; cbn [bind].
  - (* end of the input *)
    destruct (st_inv_any _ _ _ (b ++ chunk) SI TFB) as (T' & SI' & TF').
    destruct (unterminated_final input q p0 trim TR (b ++ chunk) rest (oerr o es) st T' (fun _ _ _ => False)) as (lx & R' & FI).
    { rewrite IN, Er. assoc. }
    { assumption. }
    { assumption. }
    { assumption. }
    replace ((p0 ++ op ++ b) ++ chunk) with (p0 ++ op ++ b ++ chunk) by assoc.
    exists lx. split; [exact R'|]. eapply final_oerr; [exact OKe| | |exact FI]; [lia|]. intros _ w t f r' _ [].
  - (* a quote or a backslash *)
    destruct (push_chunk b chunk st T (x :: rest') (tlen (p0 ++ op ++ b))
      (cu_pos (lx_cur (mklex (cur_at ((p0 ++ op ++ b) ++ chunk ++ [x]) rest' (tlen ((p0 ++ op ++ b) ++ chunk))) L0 (oerr o es)))))
      as (st1 & SI1 & P1); [rewrite IN, Er; assoc|reflexivity|reflexivity|assumption|].
    bindrw P1. rewrite (st_inv_quote _ _ _ _ _ _ SI1). change quote_char with delim.
    assert (PLAIN : es = [] -> Forall plain chunk).
    { intros H. destruct (CL H) as [P|(M & c' & r' & -> & P & E)]; [assumption|]. exfalso.
      rewrite Er in E. apply app_inv_head in E. injection E as E _. destruct X as [->|(_ & ->)]; [congruence|discriminate]. }
    assert (LEN : (length rest' < length rest)%nat) by (rewrite Er, app_length; cbn; lia).
    destruct X as [->|(ES & ->)].
    + rewrite N.eqb_refl.
      replace (mklex (cur_at ((p0 ++ op ++ b) ++ chunk ++ [d]) rest' (tlen ((p0 ++ op ++ b) ++ chunk))) L0 (oerr o es))
        with (qs d (p0 ++ op ++ (b ++ chunk)) 0 rest' L0 (oerr o es)).
      2:{ unfold qs. cbn [repeat]. rewrite app_nil_r. f_equal. f_equal; [assoc|f_equal; assoc]. }
      destruct (multi_dec q) as [M|M].
      * destruct (lead d rest') as (m & r1 & Em & NDr).
        destruct (Nat.le_gt_cases m 1) as [Hm|Hm].
        -- destruct (closing_continue input q p0 trim (b ++ chunk) m r1 (oerr o es) st1 (T ++ chunk) M Hm NDr SI1) as (st2 & SI2 & _ & R2).
           rewrite Em, R2. cbn [bind]. unfold qs.
           replace ((p0 ++ op ++ b ++ chunk) ++ repeat d (S m)) with (p0 ++ op ++ ((b ++ chunk) ++ repeat d (S m))) by assoc.
           destruct (IH ((b ++ chunk) ++ repeat d (S m)) r1 (tlen ((p0 ++ op ++ b ++ chunk) ++ repeat d m)) (oerr o es) st2 ((T ++ chunk) ++ repeat d (S m)))
             as (lx & RL & FI).
           { rewrite IN, Er, Em. assoc. }
           { rewrite Em, app_length in LEN. lia. }
           { assumption. }
           { tauto. }
           { apply text_from_app; [apply (text_from_incl _ _ _ TFC), incl_appl, incl_refl|apply text_from_repeat, delim_scalar]. }
           exists lx. split; [exact RL|].
           eapply final_oerr; [exact OKe| | |exact FI].
           { rewrite Em, app_length in LEN. lia. }
           intros E w t f r' INw G C.
           destruct G as (b' & t' & Ew & Et & B & Eo).
           { intros EW. exfalso. rewrite repeat_snoc, app_assoc in EW. apply ends_with_snoc in EW. congruence. }
           exists (chunk ++ repeat d (S m) ++ b'), (chunk ++ repeat d (S m) ++ t').
           split; [rewrite Ew; assoc|]. split; [rewrite Et; assoc|]. split; [|assumption].
           apply body_plain_app; auto. apply body_delims; [assumption|lia| |assumption].
           intros SW. apply NDr.
           assert (Hr1 : r1 = b' ++ delims q ++ r').
           { rewrite IN, Er, Em, Ew in INw. repeat rewrite <- app_assoc in INw. cbn [app] in INw.
             do 4 apply app_inv_head in INw. cbn [repeat app] in INw. injection INw as INw.
             apply app_inv_head in INw. assumption. }
           rewrite Hr1. apply starts_with_prefix. assumption.
        -- destruct (closing_multi input q p0 trim TR (b ++ chunk) m r1 (oerr o es) st1 (T ++ chunk) M Hm NDr) as (st2 & xk & e2 & Ex & He2 & OK2 & R2).
           { rewrite IN, Er, Em. assoc. }
           { assumption. }
           rewrite Em, R2. cbn [bind]. eexists. split; [reflexivity|].
           exists (op ++ (b ++ chunk) ++ repeat d (S m)), [], r1, ((T ++ chunk) ++ repeat d xk), (off_of q trim (N.of_nat (S m - xk))),
             (tlen ((p0 ++ op ++ b ++ chunk) ++ repeat d m)), (es ++ e2).
           split; [rewrite IN, Er, Em; assoc|].
           split; [apply (lit_shape_multi q trim TR (b ++ chunk) m xk (T ++ chunk) M Ex); [lia|exact TFC]|].
           split; [rewrite Em, app_length in LEN; lia|]. split; [auto|]. split; [auto|].
           split; [unfold qs; f_equal; [f_equal; rewrite app_nil_r; assoc|unfold str_out, oerr; cbn [o_tokens o_strings o_literals o_errors]; rewrite <- !app_assoc; reflexivity]|].
           split; [apply Forall_app; auto|].
           intros H. apply app_eq_nil in H. destruct H as [-> ->]. split; [reflexivity|]. intros _.
           assert (H4 : (m <= 4)%nat) by (apply He2; reflexivity).
           exists (chunk ++ repeat d xk), (chunk ++ repeat d xk).
           assert (E3 : (S m - xk = 3)%nat) by lia.
           rewrite E3. rewrite (delims_multi q M).
           split; [rewrite (repeat_split d xk (S m)) by lia; rewrite E3; assoc|].
           split; [assoc|]. split.
           ++ apply body_plain_app; auto. rewrite <- (app_nil_r (repeat d xk)).
              apply body_delims; [assumption|lia|apply starts_with_nil|constructor].
           ++ destruct M as [->| ->]; reflexivity.
      * rewrite (closing_single input q p0 trim TR (b ++ chunk) rest' (oerr o es) st1 (T ++ chunk) M); [|rewrite IN, Er; assoc|assumption].
        cbn [bind]. eexists. split; [reflexivity|].
        exists (op ++ (b ++ chunk) ++ delims q), [], rest', (T ++ chunk), (off_of q trim (quote_len q)), (tlen (p0 ++ op ++ b ++ chunk)), es.
        split; [rewrite IN, Er, (delims_single q M); assoc|].
        split; [apply (lit_shape_single q trim TR (b ++ chunk) (T ++ chunk) M (NBC M) TFC)|].
        split; [lia|]. split; [auto|]. split; [tauto|].
        split; [unfold qs; cbn [repeat]; f_equal; [f_equal; [rewrite (delims_single q M); assoc|rewrite app_nil_r; reflexivity]
               |unfold str_out, oerr; cbn [o_tokens o_strings o_literals o_errors]; rewrite !app_nil_r; reflexivity]|].
        split; [assumption|]. intros ->. split; [reflexivity|]. intros _.
        exists chunk, chunk. split; [assoc|]. split; [reflexivity|]. split; [|reflexivity].
        rewrite <- (app_nil_r chunk). apply body_plain_app; auto. constructor.
    + replace (92 =? d) with false by lia. change (92 =? 10) with false. rewrite (proj2 (is_basic_spec q) ES).
      change (true && (92 =? 92)) with true. cbv iota.
      assert (SE : match ss_text st1 with
         | Some _ => Ok st1
         | None => let? s := slice input (ss_text_byte st1) (cu_pos (lx_cur (mklex (cur_at ((p0 ++ op ++ b) ++ chunk ++ [92]) rest' (tlen ((p0 ++ op ++ b) ++ chunk))) L0 (oerr o es)))) in
                   Ok (set_text st1 (sr_text s))
         end = Ok (sst (T ++ chunk)) :> run strstate).
      { destruct SI1 as (ot & -> & H). cbn [ss_text ss_text_byte]. destruct ot as [t|]; [rewrite H; reflexivity|].
        rewrite (slice_eq input (p0 ++ op) (b ++ chunk) (92 :: rest')); [|rewrite IN, Er; assoc|reflexivity|cbn [lx_cur cur_at cu_pos]; f_equal; assoc].
        cbn [bind sr_text]. rewrite H. reflexivity. }
      bindrw SE.
      replace ((p0 ++ op ++ b) ++ chunk ++ [92]) with (((p0 ++ op ++ b) ++ chunk) ++ [92]) by assoc.
      rewrite lpos_char by lia. cbn [bind].
      replace (((p0 ++ op ++ b) ++ chunk) ++ [92]) with (p0 ++ op ++ ((b ++ chunk) ++ [92])) by assoc.
      replace ((p0 ++ op ++ b) ++ chunk) with (p0 ++ op ++ (b ++ chunk)) by assoc.
      destruct (string_escape_sound input q p0 trim TR (b ++ chunk) ((b ++ chunk) ++ [92]) rest' (tlen (p0 ++ op ++ b ++ chunk)) (oerr o es) (T ++ chunk) ES eq_refl)
        as [(s & r1 & bp1 & T1 & e1 & Es & (NLS & TFE) & R1 & OK1 & G1)|(lx & st' & R1 & FI)].
      * rewrite IN, Er. assoc.
      * intros M. apply no_lf_app. split; [auto|apply no_lf_one; lia].
      * apply (text_from_incl _ _ _ TFC), incl_appl, incl_refl.
      * rewrite R1. cbn [bind].
        assert (INs : input = p0 ++ op ++ (((b ++ chunk) ++ [92]) ++ s) ++ r1) by (rewrite IN, Er, Es; assoc).
        assert (LEN1 : (length r1 < length rest)%nat) by (rewrite Es, app_length in LEN; lia).
        destruct (IH (((b ++ chunk) ++ [92]) ++ s) r1 bp1 (oerr (oerr o es) e1) (sst T1) T1 INs) as (lx & RL & FI); [lia|apply sst_inv|intros M; apply no_lf_app; split; [apply no_lf_app; split; [auto|apply no_lf_one; lia]|auto]|exact TFE|].
        exists lx. split; [exact RL|].
        rewrite oerr_oerr in FI.
        eapply final_oerr; [| | |exact FI]; [apply Forall_app; auto|lia|].
        intros E w t f r' INw G C. apply app_eq_nil in E. destruct E as [-> ->].
        destruct (G1 eq_refl) as (v & -> & CR & NS & BD).
        destruct G as (b' & t' & Ew & Et & B & Eo).
        { intros EW. apply ends_with_app in EW; [auto|assumption]. }
        exists (chunk ++ 92 :: s ++ b'), (chunk ++ v ++ t').
        split; [rewrite Ew; assoc|]. split; [rewrite Et; assoc|]. split; [|assumption].
        apply body_plain_app; auto. apply BD; [|assumption].
        exists (delims q ++ r'). rewrite INs, Ew in INw. repeat rewrite <- app_assoc in INw. cbn [app] in INw.
        do 4 apply app_inv_head in INw. injection INw as INw. apply app_inv_head in INw. assumption.
      * rewrite R1. cbn [bind]. exists lx. split; [reflexivity|].
        eapply final_oerr; [exact OKe| | |exact FI]; [lia|]. intros _ w t f r' _ [].
  - (* a line feed *)
    destruct (push_chunk b chunk st T (10 :: rest') (tlen (p0 ++ op ++ b))
      (cu_pos (lx_cur (mklex (cur_lf ((p0 ++ op ++ b) ++ chunk) rest') L0 (oerr o es)))))
      as (st1 & SI1 & P1); [rewrite IN, Er; assoc|reflexivity|reflexivity|assumption|].
    bindrw P1. rewrite (st_inv_quote _ _ _ _ _ _ SI1). change quote_char with delim.
    replace (10 =? d) with false by lia. change (10 =? 10) with true. cbv iota.
    assert (LEN : (length rest' < length rest)%nat) by (rewrite Er, app_length; cbn; lia).
    replace ((p0 ++ op ++ b) ++ chunk) with (p0 ++ op ++ (b ++ chunk)) by assoc.
    rewrite (prev_is_cr_eq input (p0 ++ op ++ (b ++ chunk)) (10 :: rest')); [|rewrite IN, Er; assoc|reflexivity].
    cbn [bind].
    change (cu_pos (lx_cur (mklex (cur_lf (p0 ++ op ++ b ++ chunk) rest') L0 (oerr o es)))) with (tlen (p0 ++ op ++ b ++ chunk)).
    destruct (ends_with_cr_cases (p0 ++ op ++ (b ++ chunk))) as [(r & Epre & ->)|(-> & NCR)].
    + destruct (op_not_13 _ _ Epre) as (y & Ey & ->).
      assert (TL : tlen (p0 ++ op ++ b ++ chunk) - 1 = tlen (p0 ++ op ++ y)).
      { rewrite Epre, tlen_app, tlen_one. change (len_utf8 13) with 1. lia. }
      rewrite usub_ok by (rewrite Epre, tlen_app, tlen_one; change (len_utf8 13) with 1; lia).
      rewrite TL. cbn [bind].
      destruct (is_multiline q) eqn:MQ; cbn [negb].
      * apply is_multiline_spec in MQ.
        assert (ST : exists st2, st_inv ((b ++ chunk) ++ [10]) (push_char st2 10) (removelast (T ++ chunk) ++ [10]) /\
          match ss_text st1 with
          | Some _ => Ok (pop_char st1)
          | None => let? s := slice input (ss_text_byte st1) (tlen (p0 ++ op ++ y)) in Ok (set_text st1 (sr_text s))
          end = Ok st2 :> run strstate).
        { destruct SI1 as (ot & -> & H). cbn [ss_text ss_text_byte]. destruct ot as [t|].
          - rewrite H. eexists. split; [|reflexivity]. exists (Some (removelast t ++ [10])). split; reflexivity.
          - rewrite (slice_eq input (p0 ++ op) y ([13] ++ 10 :: rest')); [|rewrite IN, Er; replace (p0 ++ op ++ b ++ chunk ++ 10 :: rest') with ((p0 ++ op ++ (b ++ chunk)) ++ 10 :: rest') by assoc; rewrite Epre; assoc|reflexivity|f_equal; assoc].
            cbn [bind sr_text]. eexists. split; [|reflexivity].
            rewrite H, Ey, removelast_last. exists (Some (y ++ [10])). split; reflexivity. }
        destruct ST as (st2 & SI2 & RS). bindrw RS. rewrite newline_lf.
        replace ((p0 ++ op ++ b ++ chunk) ++ [10]) with (p0 ++ op ++ ((b ++ chunk) ++ [10])) by assoc.
        destruct (IH ((b ++ chunk) ++ [10]) rest' (tlen (p0 ++ op ++ b ++ chunk) + 1) (oerr o es) (push_char st2 10) (removelast (T ++ chunk) ++ [10]))
          as (lx & RL & FI); [rewrite IN, Er; assoc|lia|assumption|tauto| |].
        { apply text_from_app; [|apply text_from_scalar; reflexivity]. apply text_from_removelast, (text_from_incl _ _ _ TFC), incl_appl, incl_refl. }
        exists lx. split; [exact RL|]. eapply final_oerr; [exact OKe| | |exact FI]; [lia|].
        intros E w t f r' INw G C.
        destruct G as (b' & t' & Ew & Et & B & Eo).
        { intros EW. apply ends_with_snoc in EW. discriminate. }
        destruct (CL E) as [P|(_ & c' & r2 & Ec & P & _)].
        -- exfalso. destruct chunk as [|z ch _] using rev_ind.
           { rewrite app_nil_r in Ey. apply C; [exists y; assumption|]. rewrite Er. apply starts_with_cons. reflexivity. }
           rewrite app_assoc in Ey. apply app_inj_tail in Ey. destruct Ey as [_ ->].
           apply Forall_app in P. destruct P as [_ P]. inversion P; subst. apply plain_not_13. assumption.
        -- exists (c' ++ 13 :: 10 :: b'), (c' ++ 10 :: t').
           split; [rewrite Ew, Ec; assoc|]. split; [rewrite Et, Ec, app_assoc, removelast_last; assoc|]. split; [|assumption].
           rewrite Ec in ND, NB. apply body_plain_app; [assumption| | |].
           ++ intros I. apply ND. apply in_app_iff. auto.
           ++ intros ES I. apply (NB ES). apply in_app_iff. auto.
           ++ apply body_crlf; assumption.
      * apply is_multiline_false in MQ.
        assert (NL13 : no_lf [13]) by (apply no_lf_one; lia).
        rewrite Epre. rewrite pos_in_line_lf by assumption. cbn [bind]. rewrite lex_error_eq.
        destruct (st_inv_pop _ _ _ y SI1) as (T' & SI' & TF').
        { revert TFC. unfold text_from. apply Forall_impl. intros c [I|I]; [|auto]. rewrite Ey in I. apply in_app_iff in I. destruct I as [I|[<-|[]]]; auto. }
        assert (INy : input = p0 ++ op ++ y ++ [13] ++ 10 :: rest').
        { rewrite IN, Er. replace (p0 ++ op ++ b ++ chunk ++ 10 :: rest') with ((p0 ++ op ++ (b ++ chunk)) ++ 10 :: rest') by assoc. rewrite Epre. assoc. }
        change (li_start (lx_lit (mklex (cur_lf ((p0 ++ op ++ y) ++ [13]) rest') L0 (oerr o es)))) with (pos_at p0).
        destruct (end_line_final input q p0 trim TR (cur_lf ((p0 ++ op ++ y) ++ [13]) rest') y [13] rest' (oerr o es) (pop_char st1) T'
          (EMissingQuote q (mkspan (pos_at p0) (pos_at (p0 ++ op ++ y)))) rest (tlen ((p0 ++ op ++ y) ++ [13]) + 1) MQ INy) as (lx & RE & FI); auto.
        { specialize (NBC MQ). rewrite Ey in NBC. apply no_lf_app in NBC. tauto. }
        { apply pos_in_line_lf. assumption. }
        { eapply errok_missing; [exact INy|]. right. exists [13; 10], rest'. split; [right; reflexivity|]. split; [reflexivity|tauto]. }
        { lia. }
        rewrite RE. cbn [bind]. unfold push_token, set_out. cbn [lx_cur lx_lit lx_out]. rewrite newline_lf.
        eexists. split; [reflexivity|].
        eapply final_oerr with (P := fun _ _ _ => False) (r2 := rest); [exact OKe| | |]; [lia|intros _ w t f r' _ []|].
        replace ((p0 ++ op ++ y) ++ [13]) with (p0 ++ op ++ y ++ [13]) in * by assoc. apply FI.
    + rewrite usub_ok by lia. rewrite N.sub_0_r. cbn [bind].
      destruct (is_multiline q) eqn:MQ; cbn [negb bind].
      * apply is_multiline_spec in MQ. rewrite newline_lf.
        replace ((p0 ++ op ++ b ++ chunk) ++ [10]) with (p0 ++ op ++ ((b ++ chunk) ++ [10])) by assoc.
        destruct (IH ((b ++ chunk) ++ [10]) rest' (tlen (p0 ++ op ++ b ++ chunk) + 1) (oerr o es) (push_char st1 10) ((T ++ chunk) ++ [10]))
          as (lx & RL & FI); [rewrite IN, Er; assoc|lia|apply st_inv_push; assumption|tauto| |].
        { apply text_from_app; [apply (text_from_incl _ _ _ TFC), incl_appl, incl_refl|apply text_from_scalar; reflexivity]. }
        exists lx. split; [exact RL|]. eapply final_oerr; [exact OKe| | |exact FI]; [lia|].
        intros E w t f r' INw G C.
        destruct G as (b' & t' & Ew & Et & B & Eo).
        { intros EW. apply ends_with_snoc in EW. discriminate. }
        destruct (CL E) as [P|(_ & c' & r2 & Ec & _)].
        -- exists (chunk ++ 10 :: b'), (chunk ++ 10 :: t').
           split; [rewrite Ew; assoc|]. split; [rewrite Et; assoc|]. split; [|assumption].
           apply body_plain_app; auto. apply body_lf; assumption.
        -- exfalso. apply NCR. exists (p0 ++ op ++ b ++ c'). rewrite Ec. assoc.
      * apply is_multiline_false in MQ.
        pose proof (pos_in_line_lf (p0 ++ op ++ b ++ chunk) [] rest' L0 (oerr o es) no_lf_nil) as PL. rewrite app_nil_r in PL.
        rewrite PL. cbn [bind]. rewrite lex_error_eq.
        destruct (st_inv_pop _ _ _ (b ++ chunk) SI1 TFC) as (T' & SI' & TF').
        assert (INy : input = p0 ++ op ++ (b ++ chunk) ++ [] ++ 10 :: rest') by (rewrite IN, Er; assoc).
        change (li_start (lx_lit (mklex (cur_lf (p0 ++ op ++ b ++ chunk) rest') L0 (oerr o es)))) with (pos_at p0).
        destruct (end_line_final input q p0 trim TR (cur_lf (p0 ++ op ++ b ++ chunk) rest') (b ++ chunk) [] rest' (oerr o es) (pop_char st1) T'
          (EMissingQuote q (mkspan (pos_at p0) (pos_at (p0 ++ op ++ b ++ chunk)))) rest (tlen (p0 ++ op ++ b ++ chunk) + 1) MQ INy) as (lx & RE & FI); auto.
        { eapply errok_missing; [exact INy|]. right. exists [10], rest'. split; [left; reflexivity|]. split; [reflexivity|tauto]. }
        { lia. }
        rewrite RE. cbn [bind]. unfold push_token, set_out. cbn [lx_cur lx_lit lx_out]. rewrite newline_lf.
        eexists. split; [reflexivity|].
        eapply final_oerr with (P := fun _ _ _ => False) (r2 := rest); [exact OKe| | |]; [lia|intros _ w t f r' _ []|].
        rewrite app_nil_r in FI. apply FI.
Qed.

End Str.
End Input.
