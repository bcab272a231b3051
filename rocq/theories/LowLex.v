(** From a line on, the lexer reports nothing above that line. *)
From Verif Require Import Base CommonModel TomlError LitModel LexModel LowLit.

Section Low.
  Context (input : list N) (L : N).

  (** [b]: a string is being read, which starts at [li_start]. *)
  Definition lowlex (b : bool) (lx : lexer) : Prop :=
    L <= cu_line (lx_cur lx) /\ (b = true \/ li_in (lx_lit lx) = true -> L <= p_line (li_start (lx_lit lx))) /\
    Forall (elow L) (o_errors (lx_out lx)).
  Lemma low_weak lx : lowlex true lx -> lowlex false lx.
  Proof. intros (A & B & C). split; [exact A|]. split; [|exact C]. intros H. apply B. auto. Qed.
  Lemma low_any b lx : lowlex true lx -> lowlex b lx.
  Proof. destruct b; [auto|apply low_weak]. Qed.
  Lemma low_start lx : lowlex true lx -> L <= p_line (li_start (lx_lit lx)).
  Proof. intros (_ & H & _). apply H. auto. Qed.

  Lemma low_pos_in b lx n p : pos_in_line lx n = Ok p -> lowlex b lx -> L <= p_line p.
  Proof. unfold pos_in_line. intros E (A & _). destruct (usub _ _) as [d|[]|]; [|discriminate]. cbn [bind] in E. injection E as <-. exact A. Qed.
  Lemma low_lpos b lx p : lpos lx = Ok p -> lowlex b lx -> L <= p_line p.
  Proof. apply low_pos_in. Qed.
  Lemma low_newline b lx : lowlex b lx -> lowlex b (newline lx).
  Proof. intros (A & B & C). split; [cbn; lia|]. auto. Qed.
  Lemma low_push b lx t : lowlex b lx -> lowlex b (push_token lx t).
  Proof. intros (A & B & C). split; auto. Qed.
  Lemma low_string b lx s : lowlex b lx -> lowlex b (snd (store_string lx s)).
  Proof. intros (A & B & C). split; auto. Qed.
  Lemma low_lit b lx s : lowlex b lx -> lowlex b (snd (store_literal lx s)).
  Proof. intros (A & B & C). split; auto. Qed.
  Lemma low_error b lx e : lowlex b lx -> elow L e -> lowlex b (lex_error lx e).
  Proof. intros (A & B & C) E. split; [exact A|]. split; [exact B|]. cbn. apply Forall_app. auto. Qed.
  Lemma low_lnext b lx o lx' : lnext lx = (o, lx') -> lowlex b lx -> lowlex b lx'.
  Proof. unfold lnext. intros E (A & B & C). destruct (cu_rest _) as [|c r]; injection E as <- <-; (split; [exact A|]; split; [exact B|exact C]). Qed.
  Lemma low_skip b lx : lowlex b lx -> lowlex b (lskip lx).
  Proof. intros H. unfold lskip. destruct (lnext lx) as [o lx'] eqn:E. exact (low_lnext _ _ _ _ E H). Qed.
  Lemma elow_start s e : err_span e = s -> err_hint e = None -> L <= p_line (s_start s) -> elow L e.
  Proof. intros E H P. split; [unfold lowspan; rewrite E; exact P|]. rewrite H. discriminate. Qed.
  Ltac err := apply low_error; [|eapply elow_start; [reflexivity|reflexivity|cbn; eauto using low_lpos, low_start]].

  Lemma low_end_literal_at b lx lx' : end_literal input lx = Ok lx' -> lowlex b lx -> lowlex b lx'.
  Proof.
    unfold end_literal. intros E H. destruct (li_in (lx_lit lx)) eqn:LI; cbn [negb] in E; [|injection E as <-; exact H].
    destruct (slice _ _ _) as [lit|[]|]; [|discriminate]. cbn [bind] in E. cbn [store_literal] in E. injection E as <-.
    destruct H as (A & B & C). split; [exact A|]. split; [|exact C]. cbn. intros _. apply B. auto.
  Qed.
  Lemma low_end_literal lx lx' : end_literal input lx = Ok lx' -> lowlex false lx -> lowlex false lx'.
  Proof. apply low_end_literal_at. Qed.
  Lemma low_start_literal lx lx' : start_literal lx = Ok lx' -> lowlex false lx -> lowlex false lx'.
  Proof.
    unfold start_literal. intros E H. destruct (li_in (lx_lit lx)); [injection E as <-; exact H|].
    destruct (lpos lx) as [p|[]|] eqn:P; [|discriminate]. cbn [bind] in E. injection E as <-. pose proof (low_lpos _ _ _ P H) as LP.
    destruct H as (A & B & C). split; [exact A|]. split; [|exact C]. cbn. auto.
  Qed.
  Lemma low_end_string lx st a b lx' : end_string input lx st a b = Ok lx' -> lowlex true lx -> lowlex true lx'.
  Proof.
    unfold end_string. intros E H. destruct (slice _ _ _) as [lit|[]|]; [|discriminate]. cbn [bind] in E.
    match type of E with bind ?m _ = _ => destruct m as [text|[]|]; [|discriminate] end. cbn [bind] in E.
    destruct (pos_in_line lx b) as [le|[]|]; [|discriminate]. cbn [bind] in E. destruct (pos_in_line lx a) as [te|[]|]; [|discriminate]. cbn [bind] in E. cbv zeta in E.
    destruct (new_string_token _ _ _ _ _) as [tok|[]|]; [|discriminate]. cbn [bind store_string] in E. injection E as <-.
    destruct H as (A & B & C). split; [exact A|]. split; [|exact C]. intros _. cbn. apply B. auto.
  Qed.
  Lemma low_char_at b lx ty lx' : char_token input lx ty = Ok lx' -> lowlex b lx -> lowlex b lx'.
  Proof.
    unfold char_token. intros E H. destruct (end_literal _ _) as [l1|[]|] eqn:EL; [|discriminate]. cbn [bind] in E. destruct (lpos l1) as [p|[]|]; [|discriminate]. cbn [bind] in E.
    injection E as <-. apply low_push. exact (low_end_literal_at _ _ _ EL H).
  Qed.
  Lemma low_char lx ty lx' : char_token input lx ty = Ok lx' -> lowlex false lx -> lowlex false lx'.
  Proof. apply low_char_at. Qed.
  Lemma low_char_in lx ty lx' : char_token input lx ty = Ok lx' -> lowlex true lx -> lowlex true lx'.
  Proof. apply low_char_at. Qed.

  Lemma low_skip_quotes q : forall fuel lx lx', skip_quotes fuel q lx = Ok lx' -> lowlex true lx -> lowlex true lx'.
  Proof.
    induction fuel as [|f IH]; intros lx lx' E H; [discriminate|]. cbn [skip_quotes] in E. destruct (peeks lx q); [|injection E as <-; exact H]. eapply IH; [exact E|]. apply low_skip. exact H.
  Qed.
  Lemma low_extra lx st n lx' st' n' : extra_quote lx st n = (lx', st', n') -> lowlex true lx -> lowlex true lx'.
  Proof. unfold extra_quote. cbv zeta. intros E H. destruct (peeks _ _); injection E as <- _ _; [apply low_skip|]; exact H. Qed.
  Lemma low_closing lx st fl lx' st' : string_closing_quote input lx st = Ok (fl, lx', st') -> lowlex true lx -> lowlex true lx'.
  Proof.
    unfold string_closing_quote. cbv zeta. intros E H.
    assert (FIN : forall lx1 st1 n m, lowlex true lx1 -> (let? lx2 := end_string input lx1 st1 n m in Ok (FBreak, lx2, st1)) = Ok (fl, lx', st') -> lowlex true lx').
    { intros lx1 st1 n m H1 X. clear E. destruct (end_string _ _ _ _ _) as [l2|[]|] eqn:ES; [|discriminate]. cbn [bind] in X. injection X as _ <- _. exact (low_end_string _ _ _ _ _ ES H1). }
    destruct (is_multiline _); [|exact (FIN _ _ _ _ H E)].
    destruct (negb _); [injection E as _ <- _; exact H|]. destruct (negb _); [injection E as _ <- _; apply low_skip; exact H|].
    destruct (extra_quote _ _ _) as [[l3 s3] n3] eqn:E3. destruct (extra_quote l3 _ _) as [[l4 s4] n4] eqn:E4.
    assert (H4 : lowlex true l4). { eapply low_extra; [exact E4|]. eapply low_extra; [exact E3|]. apply low_skip, low_skip. exact H. }
    match type of E with bind ?m _ = _ => assert (K : exists l5, m = Ok l5 /\ lowlex true l5) end.
    { destruct (peeks l4 _); [|eauto]. destruct (lpos l4) as [p|[]|] eqn:P; [|discriminate]. cbn [bind] in *.
      destruct (skip_quotes _ _ _) as [l5|[]|] eqn:SQ; [|discriminate]. cbn [bind] in *. apply low_skip_quotes in SQ; [|apply low_skip; exact H4].
      destruct (lpos l5) as [p5|[]|] eqn:P5; [|discriminate]. cbn [bind] in *. eexists. split; [reflexivity|]. err. exact SQ. }
    destruct K as (l5 & K1 & K2). rewrite K1 in E. cbn [bind] in E. exact (FIN _ _ _ _ K2 E).
  Qed.
  Lemma low_recover lx st fl lx' st' : recover_newline input lx st = Ok (fl, lx', st') -> lowlex true lx -> lowlex true lx'.
  Proof.
    unfold recover_newline. cbv zeta. intros E H. destruct (lpos lx) as [p|[]|] eqn:P; [|discriminate]. cbn [bind] in E.
    destruct (end_string _ _ _ _ _) as [l2|[]|] eqn:ES; [|discriminate]. cbn [bind] in E. apply low_end_string in ES; [|err; exact H].
    unfold newline_token in E. destruct (char_token _ _ _) as [l3|[]|] eqn:CT; [|discriminate]. cbn [bind] in E. injection E as _ <- _. apply low_newline. exact (low_char_in _ _ _ CT ES).
  Qed.
  Lemma low_unicode nc es : L <= p_line es -> forall rem cp lx st fl lx' st', escape_unicode input nc es rem cp lx st = Ok (fl, lx', st') -> lowlex true lx -> lowlex true lx'.
  Proof.
    intros LE. induction rem as [|rem IH]; intros cp lx st fl lx' st' E H; [discriminate|]. cbn [escape_unicode] in E.
    destruct (lnext lx) as [[c|] l1] eqn:NX; pose proof (low_lnext _ _ _ _ NX H) as H1.
    2: { destruct (lpos l1) as [p|[]|] eqn:P; [|discriminate]. cbn [bind] in E. injection E as _ <- _. err. exact H1. }
    assert (CONT : forall cp0 lx0 st0, lowlex true lx0 ->
      match rem with
      | O => if is_scalar cp0 then Ok (FContinue, lx0, push_char st0 cp0)
             else let? p := lpos lx0 in Ok (FContinue, lex_error lx0 (EInvalidUnicodeCodepoint nc cp0 (mkspan es (pos_after p c))), st0)
      | S _ => escape_unicode input nc es rem cp0 lx0 st0
      end = Ok (fl, lx', st') -> lowlex true lx').
    { intros cp0 lx0 st0 H0 X. destruct rem as [|rem'].
      - destruct (is_scalar cp0); [injection X as _ <- _; exact H0|]. destruct (lpos lx0) as [p|[]|] eqn:P; [|discriminate]. cbn [bind] in X. injection X as _ <- _. err. exact H0.
      - eapply IH; eassumption. }
    cbv zeta in E. destruct (hex_value c); [exact (CONT _ _ _ H1 E)|]. destruct (lpos l1) as [p|[]|] eqn:P; [|discriminate]. cbn [bind] in E.
    assert (HU : lowlex true (lex_error l1 (EUnfinishedEscapeSequence (mkspan es p)))) by (err; exact H1).
    destruct (c =? 32); [exact (CONT _ _ _ HU E)|]. destruct (c =? 10).
    - destruct (negb _); [exact (low_recover _ _ _ _ _ E HU)|]. injection E as _ <- _. apply low_newline. exact HU.
    - destruct (c =? 34); [exact (low_closing _ _ _ _ _ E HU)|]. eapply CONT; [|exact E]. err. exact H1.
  Qed.
  Lemma low_escape_ws : forall fuel b lx b' lx', eat_escape_ws fuel b lx = Ok (b', lx') -> lowlex true lx -> lowlex true lx'.
  Proof.
    induction fuel as [|f IH]; intros b lx b' lx' E H; [discriminate|]. cbn [eat_escape_ws] in E. destruct (lpeek lx) as [c|]; [|injection E as _ <-; exact H].
    destruct (_ || _); [eapply IH; [exact E|apply low_skip; exact H]|]. destruct (c =? 10); [eapply IH; [exact E|apply low_newline, low_skip; exact H]|]. injection E as _ <-. exact H.
  Qed.
  Lemma low_escape es lx st fl lx' st' : L <= p_line es -> string_escape input es lx st = Ok (fl, lx', st') -> lowlex true lx -> lowlex true lx'.
  Proof.
    intros LE E H. unfold string_escape in E. destruct (lnext lx) as [[c|] l1] eqn:NX; pose proof (low_lnext _ _ _ _ NX H) as H1.
    2: { destruct (lpos l1) as [p|[]|] eqn:P; [|discriminate]. cbn [bind] in E. injection E as _ <- _. err. exact H1. }
    destruct (c =? 117); [exact (low_unicode _ _ LE _ _ _ _ _ _ _ E H1)|]. destruct (c =? 85); [exact (low_unicode _ _ LE _ _ _ _ _ _ _ E H1)|].
    destruct (simple_escape c); [injection E as _ <- _; exact H1|]. destruct (_ || _).
    - cbv zeta in E. destruct (negb _).
      + destruct (lpos l1) as [p|[]|] eqn:P; [|discriminate]. cbn [bind] in E.
        assert (HU : lowlex true (lex_error l1 (EUnfinishedEscapeSequence (mkspan es p)))) by (err; exact H1).
        destruct (c =? 10); [exact (low_recover _ _ _ _ _ E HU)|]. injection E as _ <- _. exact HU.
      + destruct (eat_escape_ws _ _ _) as [[b l2]|[]|] eqn:WS; [|discriminate]. cbn [bind] in E.
        apply low_escape_ws in WS; [|destruct (c =? 10); [apply low_newline|]; exact H1]. destruct (negb b); [|injection E as _ <- _; exact WS].
        destruct (next_pos l2) as [p|[]|] eqn:P; [|discriminate]. cbn [bind] in E. injection E as _ <- _. err. exact WS.
    - destruct (lpos l1) as [p|[]|] eqn:P; [|discriminate]. cbn [bind] in E. injection E as _ <- _. err. exact H1.
  Qed.
  Lemma low_scan q : forall fuel lx o lx', string_scan fuel q lx = Ok (o, lx') -> lowlex true lx -> lowlex true lx'.
  Proof.
    induction fuel as [|f IH]; intros lx o lx' E H; [discriminate|]. cbn [string_scan] in E.
    destruct (lnext lx) as [[c|] l1] eqn:NX; pose proof (low_lnext _ _ _ _ NX H) as H1; [|injection E as _ <-; exact H1].
    destruct (_ =? _); [injection E as _ <-; exact H1|]. destruct (_ =? _); [injection E as _ <-; exact H1|]. destruct (_ && _); [injection E as _ <-; exact H1|].
    destruct (_ =? _); [exact (IH _ _ _ E H1)|]. destruct (_ && _); [exact (IH _ _ _ E H1)|]. destruct (is_control_char c); [|exact (IH _ _ _ E H1)].
    destruct (lpos l1) as [p|[]|] eqn:P; [|discriminate]. cbn [bind] in E. eapply IH; [exact E|]. err. exact H1.
  Qed.
  Lemma low_unterminated lx st lx' : unterminated input lx st = Ok lx' -> lowlex true lx -> lowlex true lx'.
  Proof.
    unfold unterminated. intros E H. destruct (lpos lx) as [p|[]|] eqn:P; [|discriminate]. cbn [bind] in E.
    match type of E with bind ?m _ = _ => destruct m as [p2|[]|]; [|discriminate] end. cbn [bind] in E. cbv zeta in E.
    eapply low_end_string; [exact E|]. err. exact H.
  Qed.
  Lemma low_lex_string : forall fuel lx st lx', lex_string input fuel lx st = Ok lx' -> lowlex true lx -> lowlex true lx'.
  Proof.
    induction fuel as [|f IH]; intros lx st lx' E H; [discriminate|]. cbn [lex_string] in E. cbv zeta in E.
    destruct (string_scan _ _ _) as [[oc l1]|[]|] eqn:SC; [|discriminate]. cbn [bind] in E. apply low_scan in SC; [|exact H].
    destruct oc as [c|]; [|exact (low_unterminated _ _ _ E SC)].
    match type of E with bind ?m _ = _ => destruct m as [s1|[]|]; [|discriminate] end. cbn [bind] in E.
    destruct (_ =? _).
    { destruct (string_closing_quote _ _ _) as [[[fl l2] s2]|[]|] eqn:CQ; [|discriminate]. cbn [bind] in E. apply low_closing in CQ; [|exact SC]. destruct fl; [exact (IH _ _ _ E CQ)|injection E as <-; exact CQ]. }
    destruct (c =? 10).
    { destruct (prev_is_cr _ _) as [cr|[]|]; [|discriminate]. cbn [bind] in E. destruct (usub _ _) as [le|[]|]; [|discriminate]. cbn [bind] in E. destruct (negb _).
      - destruct (pos_in_line l1 le) as [p|[]|] eqn:P; [|discriminate]. cbn [bind] in E. destruct (end_string _ _ _ _ _) as [l2|[]|] eqn:ES; [|discriminate]. cbn [bind] in E. injection E as <-.
        apply low_newline, low_push. eapply low_end_string; [exact ES|]. err. exact SC.
      - match type of E with bind ?m _ = _ => destruct m as [s2|[]|]; [|discriminate] end. cbn [bind] in E. eapply IH; [exact E|]. apply low_newline. exact SC. }
    destruct (_ && _); [|exact (IH _ _ _ E SC)].
    match type of E with bind ?m _ = _ => destruct m as [s2|[]|]; [|discriminate] end. cbn [bind] in E. destruct (lpos l1) as [p|[]|] eqn:P; [|discriminate]. cbn [bind] in E.
    destruct (string_escape _ _ _ _) as [[[fl l2] s3]|[]|] eqn:SE; [|discriminate]. cbn [bind] in E. apply low_escape in SE; [|eapply low_lpos; eassumption|exact SC].
    destruct fl; [exact (IH _ _ _ E SE)|injection E as <-; exact SE].
  Qed.
  Lemma low_quote c lx lx' : quote_token input c lx = Ok lx' -> lowlex false lx -> lowlex false lx'.
  Proof.
    unfold quote_token. intros E H. destruct (end_literal _ _) as [l1|[]|] eqn:EL; [|discriminate]. cbn [bind] in E. apply low_end_literal in EL; [|exact H].
    destruct (lpos l1) as [p|[]|] eqn:P; [|discriminate]. cbn [bind] in E. pose proof (low_lpos _ _ _ P EL) as LP. cbv zeta in E.
    set (l2 := set_lit l1 _) in *.
    assert (H2 : lowlex true l2) by (destruct EL as (A & _ & C); split; [exact A|]; split; [intros _; exact LP|exact C]). clearbody l2.
    assert (BEG : forall q l3, lowlex true l3 -> (let? ts := pos_in_line l3 (next_byte_pos l3) in lex_string input (S (length (cu_rest (lx_cur l3)))) l3 (mkss None ts (next_byte_pos l3) q)) = Ok lx' -> lowlex false lx').
    { intros q l3 H3 X. clear E. destruct (pos_in_line _ _) as [ts|[]|]; [|discriminate]. cbn [bind] in X. apply low_weak. eapply low_lex_string; eassumption. }
    destruct (peeks l2 c); [|exact (BEG _ _ H2 E)]. destruct (peeks (lskip l2) c).
    - eapply BEG; [|exact E]. pose proof (low_skip _ _ (low_skip _ _ H2)) as H3. destruct (peeks _ 10); [apply low_newline, low_skip; exact H3|]. destruct (_ && _); [apply low_newline, low_skip, low_skip; exact H3|exact H3].
    - destruct (lpos (lskip l2)) as [tp|[]|]; [|discriminate]. cbn [bind] in E. destruct (slice _ _ _) as [a|[]|]; [|discriminate]. cbn [bind] in E. destruct (slice _ _ _) as [b|[]|]; [|discriminate]. cbn [bind] in E.
      destruct (new_string_token _ _ _ _ _) as [tok|[]|]; [|discriminate]. cbn [bind] in E. destruct (store_string _ _) as [id l4] eqn:SS. injection E as <-. apply low_weak, low_push.
      replace l4 with (snd (store_string (lskip l2) tok)) by (rewrite SS; reflexivity). apply low_string, low_skip. exact H2.
  Qed.
  Lemma low_comment_scan : forall fuel lx lx', comment_scan fuel lx = Ok lx' -> lowlex false lx -> lowlex false lx'.
  Proof.
    induction fuel as [|f IH]; intros lx lx' E H; [discriminate|]. cbn [comment_scan] in E. destruct (lpeek lx) as [c|]; [|injection E as <-; exact H].
    destruct (c =? 10); [injection E as <-; exact H|]. destruct (c =? 9); [eapply IH; [exact E|apply low_skip; exact H]|]. destruct (_ && _); [eapply IH; [exact E|apply low_skip; exact H]|].
    destruct (is_control_char c); [|eapply IH; [exact E|apply low_skip; exact H]]. destruct (lpos lx) as [p|[]|] eqn:P; [|discriminate]. cbn [bind] in E. eapply IH; [exact E|]. apply low_skip. err. exact H.
  Qed.
  Lemma low_comment lx lx' : comment input lx = Ok lx' -> lowlex false lx -> lowlex false lx'.
  Proof.
    unfold comment. intros E H. destruct (end_literal _ _) as [l1|[]|] eqn:EL; [|discriminate]. cbn [bind] in E. apply low_end_literal in EL; [|exact H].
    destruct (lpos l1) as [p|[]|]; [|discriminate]. cbn [bind] in E. cbv zeta in E. destruct (comment_scan _ _) as [l2|[]|] eqn:CS; [|discriminate]. cbn [bind] in E. apply low_comment_scan in CS; [|exact EL].
    destruct (lnext l2) as [oc l3] eqn:NX. apply (low_lnext _ _ _ _ NX) in CS.
    match type of E with bind ?m _ = _ => destruct m as [cr|[]|]; [|discriminate] end. cbn [bind] in E. destruct (usub _ _) as [te|[]|]; [|discriminate]. cbn [bind] in E.
    destruct (slice _ _ _) as [lit|[]|]; [|discriminate]. cbn [bind] in E. destruct (store_literal _ _) as [id l4] eqn:SL. pose proof (low_lit _ _ lit CS) as H4. rewrite SL in H4. cbn [snd] in H4.
    pose proof (low_push _ _ (mktok (TComment id) p) H4) as H5. destruct oc; [|injection E as <-; exact H5].
    destruct (pos_in_line _ te) as [q|[]|]; [|discriminate]. cbn [bind] in E. injection E as <-. apply low_newline, low_push. exact H5.
  Qed.
  Lemma low_step c lx lx' : lex_step input c lx = Ok lx' -> lowlex false lx -> lowlex false lx'.
  Proof.
    unfold lex_step. intros E H.
    destruct (_ && _). { unfold newline_token in E. destruct (char_token _ _ _) as [l1|[]|] eqn:CT; [|discriminate]. cbn [bind] in E. injection E as <-. apply low_newline, low_skip. exact (low_char _ _ _ CT H). }
    destruct (c =? 10). { unfold newline_token in E. destruct (char_token _ _ _) as [l1|[]|] eqn:CT; [|discriminate]. cbn [bind] in E. injection E as <-. apply low_newline. exact (low_char _ _ _ CT H). }
    destruct (_ || _); [exact (low_end_literal _ _ E H)|]. destruct (_ || _); [exact (low_quote _ _ _ E H)|].
    do 7 (destruct (_ =? _); [exact (low_char _ _ _ E H)|]). destruct (_ =? _); [exact (low_comment _ _ E H)|exact (low_start_literal _ _ E H)].
  Qed.
  Lemma low_loop : forall fuel lx lx', lex_loop input fuel lx = Ok lx' -> lowlex false lx -> lowlex false lx'.
  Proof.
    induction fuel as [|f IH]; intros lx lx' E H; [discriminate|]. cbn [lex_loop] in E. destruct (lnext lx) as [[c|] l1] eqn:NX; pose proof (low_lnext _ _ _ _ NX H) as H1; [|injection E as <-; exact H1].
    destruct (lex_step _ _ _) as [l2|[]|] eqn:ST; [|discriminate]. cbn [bind] in E. exact (IH _ _ E (low_step _ _ _ ST H1)).
  Qed.
End Low.
