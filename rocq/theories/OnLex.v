(** The lexer on a line without triple quotes: it gets to the line break, or
    past it and no further, and reports nothing that is not on the line. *)
From Verif Require Import Base CommonModel TomlError LitModel LexModel OnLit.

Definition triple (s : list N) : Prop := exists c u v, (c = 34 \/ c = 39) /\ s = u ++ c :: c :: c :: v.
Inductive stage := AtLine | AtBreak | Below.

Section On.
  Context (input : list N) (L : N) (below : list N).

  (** Before the line break; behind it, but still counting the line; behind it. *)
  Definition stage_ok (s : stage) (lx : lexer) : Prop :=
    match s with
    | AtLine => cu_line (lx_cur lx) = L /\ exists r, cu_rest (lx_cur lx) = r ++ 10 :: below /\ ~ In 10 r /\ ~ triple r
    | AtBreak => cu_line (lx_cur lx) = L /\ cu_rest (lx_cur lx) = below
    | Below => cu_rest (lx_cur lx) = below
    end.
  Definition onlex (b : bool) (s : stage) (lx : lexer) : Prop :=
    stage_ok s lx /\ (b = true \/ li_in (lx_lit lx) = true -> p_line (li_start (lx_lit lx)) = L) /\ Forall (eon L) (o_errors (lx_out lx)).
  Definition done_on (b : bool) (lx : lexer) : Prop := onlex b AtLine lx \/ onlex b Below lx.

  Lemma on_lweak s lx : onlex true s lx -> onlex false s lx.
  Proof. intros (A & B & C). split; [exact A|]. split; [|exact C]. intros H. apply B. auto. Qed.
  Lemma on_dweak lx : done_on true lx -> done_on false lx.
  Proof. intros [H|H]; [left|right]; apply on_lweak; exact H. Qed.
  Lemma on_start s lx : onlex true s lx -> p_line (li_start (lx_lit lx)) = L.
  Proof. intros (_ & H & _). apply H. auto. Qed.
  Lemma on_pos_in b s lx n p : s <> Below -> pos_in_line lx n = Ok p -> onlex b s lx -> p_line p = L.
  Proof. unfold pos_in_line. intros NB E (A & _). destruct (usub _ _) as [d|[]|]; [|discriminate]. cbn [bind] in E. injection E as <-. cbn. destruct s; [apply A|apply A|congruence]. Qed.
  Lemma on_lpos b s lx p : s <> Below -> lpos lx = Ok p -> onlex b s lx -> p_line p = L.
  Proof. apply on_pos_in. Qed.
  Lemma on_newline b lx : onlex b AtBreak lx -> onlex b Below (newline lx).
  Proof. intros ((_ & A) & B & C). split; [exact A|]. auto. Qed.
  Lemma on_push b s lx t : onlex b s lx -> onlex b s (push_token lx t).
  Proof. intros (A & B & C). split; auto. Qed.
  Lemma on_string b s lx t : onlex b s lx -> onlex b s (snd (store_string lx t)).
  Proof. intros (A & B & C). split; auto. Qed.
  Lemma on_llit b s lx t : onlex b s lx -> onlex b s (snd (store_literal lx t)).
  Proof. intros (A & B & C). split; auto. Qed.
  Lemma on_error b s lx e : onlex b s lx -> eon L e -> onlex b s (lex_error lx e).
  Proof. intros (A & B & C) E. split; [exact A|]. split; [exact B|]. cbn. apply Forall_app. auto. Qed.
  Lemma on_lnext b lx o lx' : lnext lx = (o, lx') -> onlex b AtLine lx -> exists c, o = Some c /\ lpeek lx = Some c /\ ((c <> 10 /\ onlex b AtLine lx') \/ (c = 10 /\ onlex b AtBreak lx')).
  Proof.
    unfold lnext, lpeek. intros E ((A & r & R & NL & NT) & B & C). rewrite R in *. destruct r as [|c r]; cbn [app] in *; injection E as <- <-; eexists; (split; [reflexivity|]); (split; [reflexivity|]).
    - right. split; [reflexivity|]. split; [split; [exact A|reflexivity]|]. split; [exact B|exact C].
    - left. split; [intros ->; apply NL; left; reflexivity|]. split; [|split; [exact B|exact C]]. split; [exact A|]. exists r. split; [reflexivity|]. split; [intros H; apply NL; right; exact H|].
      intros (x & u & v & X & ->). apply NT. exists x, (c :: u), v. auto.
  Qed.
  Lemma on_skip b lx c : lpeek lx = Some c -> c <> 10 -> onlex b AtLine lx -> onlex b AtLine (lskip lx).
  Proof. intros P NE H. unfold lskip. destruct (lnext lx) as [o lx'] eqn:E. destruct (on_lnext _ _ _ _ E H) as (c' & _ & P' & [(_ & H')|(-> & _)]); [exact H'|congruence]. Qed.
  Lemma on_skip_lf b lx : lpeek lx = Some 10 -> onlex b AtLine lx -> onlex b AtBreak (lskip lx).
  Proof. intros P H. unfold lskip. destruct (lnext lx) as [o lx'] eqn:E. destruct (on_lnext _ _ _ _ E H) as (c' & _ & P' & [(NE & _)|(_ & H')]); [congruence|exact H']. Qed.
  Lemma peeks_peek lx c : peeks lx c = true -> lpeek lx = Some c.
  Proof. unfold peeks. destruct (lpeek lx) as [x|]; [|discriminate]. intros E. apply N.eqb_eq in E. congruence. Qed.
  Lemma eon_here s e : err_span e = s -> err_hint e = None -> p_line (s_start s) = L -> p_line (s_end s) = L -> eon L e.
  Proof. intros E H P Q. split; [split; rewrite E; assumption|]. rewrite H. discriminate. Qed.
  Lemma nb1 : AtLine <> Below. Proof. discriminate. Qed.
  Lemma nb2 : AtBreak <> Below. Proof. discriminate. Qed.
  Hint Resolve nb1 nb2 : core.
  Ltac err := apply on_error; [|eapply eon_here; [reflexivity|reflexivity|cbn; eauto using on_lpos, on_start|cbn; eauto using on_lpos, on_start]].

  Lemma on_end_literal b s lx lx' : end_literal input lx = Ok lx' -> onlex b s lx -> onlex b s lx'.
  Proof.
    unfold end_literal. intros E H. destruct (li_in (lx_lit lx)) eqn:LI; cbn [negb] in E; [|injection E as <-; exact H].
    destruct (slice _ _ _) as [lit|[]|]; [|discriminate]. cbn [bind] in E. cbn [store_literal] in E. injection E as <-.
    destruct H as (A & B & C). split; [exact A|]. split; [|exact C]. cbn. intros _. apply B. auto.
  Qed.
  Lemma on_start_literal lx lx' : start_literal lx = Ok lx' -> onlex false AtLine lx -> onlex false AtLine lx'.
  Proof.
    unfold start_literal. intros E H. destruct (li_in (lx_lit lx)); [injection E as <-; exact H|].
    destruct (lpos lx) as [p|[]|] eqn:P; [|discriminate]. cbn [bind] in E. injection E as <-. pose proof (on_lpos _ _ _ _ nb1 P H) as LP.
    destruct H as (A & B & C). split; [exact A|]. split; [|exact C]. cbn. auto.
  Qed.
  Lemma on_end_string s lx st a b lx' : end_string input lx st a b = Ok lx' -> onlex true s lx -> onlex true s lx'.
  Proof.
    unfold end_string. intros E H. destruct (slice _ _ _) as [lit|[]|]; [|discriminate]. cbn [bind] in E.
    match type of E with bind ?m _ = _ => destruct m as [text|[]|]; [|discriminate] end. cbn [bind] in E.
    destruct (pos_in_line lx b) as [le|[]|]; [|discriminate]. cbn [bind] in E. destruct (pos_in_line lx a) as [te|[]|]; [|discriminate]. cbn [bind] in E. cbv zeta in E.
    destruct (new_string_token _ _ _ _ _) as [tok|[]|]; [|discriminate]. cbn [bind store_string] in E. injection E as <-.
    destruct H as (A & B & C). split; [exact A|]. split; [|exact C]. intros _. cbn. apply B. auto.
  Qed.
  Lemma on_char b s lx ty lx' : char_token input lx ty = Ok lx' -> onlex b s lx -> onlex b s lx'.
  Proof.
    unfold char_token. intros E H. destruct (end_literal _ _) as [l1|[]|] eqn:EL; [|discriminate]. cbn [bind] in E. destruct (lpos l1) as [p|[]|]; [|discriminate]. cbn [bind] in E.
    injection E as <-. apply on_push. exact (on_end_literal _ _ _ _ EL H).
  Qed.

  (** What a step of a string on one line leads to. *)
  Definition flows (fl : flow) (lx : lexer) (st : strstate) : Prop :=
    match fl with FContinue => onlex true AtLine lx /\ is_multiline (ss_quote st) = false | FBreak => done_on true lx end.
  Lemma on_closing lx st fl lx' st' : is_multiline (ss_quote st) = false -> string_closing_quote input lx st = Ok (fl, lx', st') -> onlex true AtLine lx -> flows fl lx' st'.
  Proof.
    unfold string_closing_quote. cbv zeta. intros -> E H. destruct (end_string _ _ _ _ _) as [l2|[]|] eqn:ES; [|discriminate]. cbn [bind] in E. injection E as <- <- <-.
    left. exact (on_end_string _ _ _ _ _ _ ES H).
  Qed.
  Lemma on_recover lx st fl lx' st' : recover_newline input lx st = Ok (fl, lx', st') -> onlex true AtBreak lx -> flows fl lx' st'.
  Proof.
    unfold recover_newline. cbv zeta. intros E H. destruct (lpos lx) as [p|[]|] eqn:P; [|discriminate]. cbn [bind] in E.
    destruct (end_string _ _ _ _ _) as [l2|[]|] eqn:ES; [|discriminate]. cbn [bind] in E. apply (on_end_string AtBreak) in ES; [|err; exact H].
    unfold newline_token in E. destruct (char_token _ _ _) as [l3|[]|] eqn:CT; [|discriminate]. cbn [bind] in E. injection E as <- <- _. right. apply on_newline. exact (on_char _ _ _ _ _ CT ES).
  Qed.
  Lemma hex_no_lf c v : hex_value c = Some v -> c <> 10.
  Proof. intros H ->. discriminate. Qed.
  Lemma on_unicode nc es : p_line es = L -> forall rem cp lx st fl lx' st', is_multiline (ss_quote st) = false -> escape_unicode input nc es rem cp lx st = Ok (fl, lx', st') ->
    onlex true AtLine lx -> flows fl lx' st'.
  Proof.
    intros LE. induction rem as [|rem IH]; intros cp lx st fl lx' st' M E H; [discriminate|]. cbn [escape_unicode] in E.
    destruct (lnext lx) as [oc l1] eqn:NX. destruct (on_lnext _ _ _ _ NX H) as (c & -> & _ & CA).
    assert (CONT : forall cp0 lx0 st0, c <> 10 -> onlex true AtLine lx0 -> is_multiline (ss_quote st0) = false ->
      match rem with
      | O => if is_scalar cp0 then Ok (FContinue, lx0, push_char st0 cp0)
             else let? p := lpos lx0 in Ok (FContinue, lex_error lx0 (EInvalidUnicodeCodepoint nc cp0 (mkspan es (pos_after p c))), st0)
      | S _ => escape_unicode input nc es rem cp0 lx0 st0
      end = Ok (fl, lx', st') -> flows fl lx' st').
    { intros cp0 lx0 st0 NE H0 M0 X. destruct rem as [|rem'].
      - destruct (is_scalar cp0); [injection X as <- <- <-; split; [exact H0|exact M0]|]. destruct (lpos lx0) as [p|[]|] eqn:P; [|discriminate]. cbn [bind] in X. injection X as <- <- <-.
        split; [|exact M0]. err. exact H0.
      - eapply IH; eassumption. }
    cbv zeta in E. destruct (hex_value c) as [v|] eqn:HV.
    { destruct CA as [(NE & H1)|(-> & _)]; [|discriminate]. exact (CONT _ _ _ NE H1 M E). }
    destruct (lpos l1) as [p|[]|] eqn:P; [|discriminate]. cbn [bind] in E.
    destruct CA as [(NE & H1)|(-> & H1)].
    - assert (HU : onlex true AtLine (lex_error l1 (EUnfinishedEscapeSequence (mkspan es p)))) by (err; exact H1).
      destruct (c =? 32); [exact (CONT _ (lex_error l1 (EUnfinishedEscapeSequence (mkspan es p))) (push_char st c) NE HU M E)|]. destruct (N.eqb_spec c 10) as [|_]; [congruence|].
      destruct (c =? 34); [exact (on_closing _ _ _ _ _ M E HU)|]. refine (CONT _ _ _ NE _ M E). err. exact H1.
    - change (10 =? 32) with false in E. change (10 =? 10) with true in E. cbv iota in E. rewrite M in E. cbn [negb] in E. eapply on_recover; [exact E|]. err. exact H1.
  Qed.
  Lemma simple_no_lf v : simple_escape 10 = Some v -> False.
  Proof. discriminate. Qed.
  Lemma on_escape es lx st fl lx' st' : p_line es = L -> is_multiline (ss_quote st) = false -> string_escape input es lx st = Ok (fl, lx', st') -> onlex true AtLine lx -> flows fl lx' st'.
  Proof.
    intros LE M E H. unfold string_escape in E. destruct (lnext lx) as [oc l1] eqn:NX. destruct (on_lnext _ _ _ _ NX H) as (c & -> & _ & CA). destruct CA as [(NE & H1)|(-> & H1)].
    - destruct (c =? 117); [exact (on_unicode _ _ LE _ _ _ _ _ _ _ M E H1)|]. destruct (c =? 85); [exact (on_unicode _ _ LE _ _ _ _ _ _ _ M E H1)|].
      destruct (simple_escape c); [injection E as <- <- <-; split; [exact H1|exact M]|]. destruct (_ || _).
      + cbv zeta in E. rewrite M in E. cbn [negb] in E. destruct (lpos l1) as [p|[]|] eqn:P; [|discriminate]. cbn [bind] in E.
        assert (HU : onlex true AtLine (lex_error l1 (EUnfinishedEscapeSequence (mkspan es p)))) by (err; exact H1).
        destruct (N.eqb_spec c 10) as [|_]; [congruence|]. injection E as <- <- <-. split; [exact HU|exact M].
      + destruct (lpos l1) as [p|[]|] eqn:P; [|discriminate]. cbn [bind] in E. injection E as <- <- <-. split; [|exact M]. err. exact H1.
    - change (10 =? 117) with false in E. change (10 =? 85) with false in E. change (simple_escape 10) with (@None N) in E. cbn in E. rewrite M in E. cbn [negb] in E.
      destruct (lpos l1) as [p|[]|] eqn:P; [|discriminate]. cbn [bind] in E. eapply on_recover; [exact E|]. err. exact H1.
  Qed.
  Lemma on_scan q : is_multiline q = false -> forall fuel lx o lx', string_scan fuel q lx = Ok (o, lx') -> onlex true AtLine lx ->
    exists c, o = Some c /\ ((c <> 10 /\ onlex true AtLine lx') \/ (c = 10 /\ onlex true AtBreak lx')).
  Proof.
    intros M. induction fuel as [|f IH]; intros lx o lx' E H; [discriminate|]. cbn [string_scan] in E.
    destruct (lnext lx) as [oc l1] eqn:NX. destruct (on_lnext _ _ _ _ NX H) as (c & -> & _ & CA).
    destruct (_ =? quote_char _); [injection E as <- <-; eauto|]. destruct (N.eqb_spec c 10) as [CE|NE]; [injection E as <- <-; eauto|]. destruct CA as [(_ & H1)|(CE & _)]; [|congruence].
    destruct (_ && is_basic _); [injection E as <- <-; eauto 6|]. destruct (_ =? 9); [exact (IH _ _ _ E H1)|]. rewrite M, Bool.andb_false_r in E. cbn [andb] in E. destruct (is_control_char c); [|exact (IH _ _ _ E H1)].
    destruct (lpos l1) as [p|[]|] eqn:P; [|discriminate]. cbn [bind] in E. eapply IH; [exact E|]. err. exact H1.
  Qed.
  Lemma on_lex_string : forall fuel lx st lx', is_multiline (ss_quote st) = false -> lex_string input fuel lx st = Ok lx' -> onlex true AtLine lx -> done_on true lx'.
  Proof.
    induction fuel as [|f IH]; intros lx st lx' M E H; [discriminate|]. cbn [lex_string] in E. cbv zeta in E.
    destruct (string_scan _ _ _) as [[oc l1]|[]|] eqn:SC; [|discriminate]. cbn [bind] in E. destruct (on_scan _ M _ _ _ _ SC H) as (c & -> & CA).
    match type of E with bind ?m _ = _ => destruct m as [s1|[]|] eqn:S1; [|discriminate] end. cbn [bind] in E.
    assert (M1 : is_multiline (ss_quote s1) = false).
    { destruct (ss_text st) as [x|]; [|injection S1 as <-; exact M]. destruct (slice _ _ _) as [y|[]|]; [|discriminate]. cbn [bind] in S1. injection S1 as <-. exact M. }
    clear S1. destruct CA as [(NE & H1)|(-> & H1)].
    - destruct (_ =? quote_char _).
      { destruct (string_closing_quote _ _ _) as [[[fl l2] s2]|[]|] eqn:CQ; [|discriminate]. cbn [bind] in E. apply on_closing in CQ; [|exact M1|exact H1]. destruct fl; [exact (IH _ _ _ (proj2 CQ) E (proj1 CQ))|injection E as <-; exact CQ]. }
      destruct (N.eqb_spec c 10) as [|_]; [congruence|].
      destruct (_ && _); [|refine (IH _ _ _ _ E H1); exact M1].
      match type of E with bind ?m _ = _ => destruct m as [s2|[]|] eqn:S2; [|discriminate] end. cbn [bind] in E.
      assert (M2 : is_multiline (ss_quote s2) = false).
      { clear E. destruct (ss_text s1) as [x|]; [injection S2 as <-; exact M1|]. destruct (slice _ _ _) as [y|[]|]; [|discriminate]. cbn [bind] in S2. injection S2 as <-. exact M1. }
      destruct (lpos l1) as [p|[]|] eqn:P; [|discriminate]. cbn [bind] in E.
      destruct (string_escape _ _ _ _) as [[[fl l2] s3]|[]|] eqn:SE; [|discriminate]. cbn [bind] in E. apply on_escape in SE; [|eapply on_lpos; [|eassumption|eassumption]; auto|exact M2|exact H1].
      destruct fl; [exact (IH _ _ _ (proj2 SE) E (proj1 SE))|injection E as <-; exact SE].
    - assert (Q : (10 =? quote_char (ss_quote s1)) = false) by (destruct (ss_quote s1); reflexivity). rewrite Q in E. change (10 =? 10) with true in E. cbv iota in E.
      destruct (prev_is_cr _ _) as [cr|[]|]; [|discriminate]. cbn [bind] in E. destruct (usub _ _) as [le|[]|]; [|discriminate]. cbn [bind] in E. rewrite M1 in E. cbn [negb] in E.
      destruct (pos_in_line l1 le) as [p|[]|] eqn:P; [|discriminate]. cbn [bind] in E. destruct (end_string _ _ _ _ _) as [l2|[]|] eqn:ES; [|discriminate]. cbn [bind] in E. injection E as <-.
      right. apply on_newline, on_push. eapply on_end_string; [exact ES|]. apply on_error; [exact H1|]. eapply eon_here; [reflexivity|reflexivity|cbn; eapply on_start; exact H1|cbn; eapply on_pos_in; [|exact P|exact H1]; auto].
  Qed.
  Lemma on_quote c lx lx' : (c = 34 \/ c = 39) -> ~ (exists v, cu_rest (lx_cur lx) = c :: c :: v) -> quote_token input c lx = Ok lx' -> onlex false AtLine lx -> done_on false lx'.
  Proof.
    unfold quote_token. intros QC NT E H. assert (NE : c <> 10) by (intros ->; destruct QC; discriminate).
    destruct (end_literal _ _) as [l1|[]|] eqn:EL; [|discriminate]. cbn [bind] in E.
    assert (R1 : cu_rest (lx_cur l1) = cu_rest (lx_cur lx)).
    { unfold end_literal in EL. destruct (negb _); [injection EL as <-; reflexivity|]. destruct (slice _ _ _) as [lit|[]|]; [|discriminate]. cbn [bind] in EL. cbn [store_literal] in EL. injection EL as <-. reflexivity. }
    apply (on_end_literal false AtLine) in EL; [|exact H].
    destruct (lpos l1) as [p|[]|] eqn:P; [|discriminate]. cbn [bind] in E. pose proof (on_lpos _ _ _ _ nb1 P EL) as LP. cbv zeta in E.
    set (l2 := set_lit l1 _) in *. change (cu_rest (lx_cur l1)) with (cu_rest (lx_cur l2)) in R1.
    assert (H2 : onlex true AtLine l2) by (destruct EL as (A & _ & C); split; [exact A|]; split; [intros _; exact LP|exact C]). clearbody l2.
    set (q := if c =? 34 then QBasic else QLiteral) in *. assert (M : is_multiline q = false) by (unfold q; destruct (c =? 34); reflexivity).
    destruct (peeks l2 c) eqn:P2.
    - destruct (peeks (lskip l2) c) eqn:P3.
      { exfalso. apply NT. rewrite <- R1. apply peeks_peek in P2. apply peeks_peek in P3. unfold lpeek, lskip, lnext in *. destruct (cu_rest (lx_cur l2)) as [|x r]; [discriminate|]. cbn in P2, P3. injection P2 as ->.
        destruct r as [|y r]; [discriminate|]. injection P3 as ->. eauto. }
      destruct (lpos (lskip l2)) as [tp|[]|]; [|discriminate]. cbn [bind] in E. destruct (slice _ _ _) as [a|[]|]; [|discriminate]. cbn [bind] in E. destruct (slice _ _ _) as [b|[]|]; [|discriminate]. cbn [bind] in E.
      destruct (new_string_token _ _ _ _ _) as [tok|[]|]; [|discriminate]. cbn [bind] in E. destruct (store_string _ _) as [id l4] eqn:SS. injection E as <-. left. apply on_lweak, on_push.
      replace l4 with (snd (store_string (lskip l2) tok)) by (rewrite SS; reflexivity). apply on_string. eapply on_skip; [apply peeks_peek; exact P2|exact NE|exact H2].
    - destruct (pos_in_line _ _) as [ts|[]|]; [|discriminate]. cbn [bind] in E. apply on_dweak. eapply on_lex_string; [|exact E|exact H2]. exact M.
  Qed.
  Lemma on_comment_scan : forall fuel lx lx', comment_scan fuel lx = Ok lx' -> onlex false AtLine lx -> onlex false AtLine lx' /\ lpeek lx' = Some 10.
  Proof.
    induction fuel as [|f IH]; intros lx lx' E H; [discriminate|]. cbn [comment_scan] in E. destruct (lpeek lx) as [c|] eqn:P.
    2: { destruct H as ((_ & r & R & _) & _). unfold lpeek in P. rewrite R in P. destruct r; discriminate. }
    destruct (N.eqb_spec c 10) as [->|NE]; [injection E as <-; auto|].
    pose proof (on_skip _ _ _ P NE H) as H1. destruct (c =? 9); [exact (IH _ _ E H1)|]. destruct (_ && _); [exact (IH _ _ E H1)|].
    destruct (is_control_char c); [|exact (IH _ _ E H1)]. destruct (lpos lx) as [p|[]|] eqn:PP; [|discriminate]. cbn [bind] in E. eapply IH; [exact E|]. eapply on_skip; [exact P|exact NE|]. err. exact H.
  Qed.
  Lemma on_comment lx lx' : comment input lx = Ok lx' -> onlex false AtLine lx -> done_on false lx'.
  Proof.
    unfold comment. intros E H. destruct (end_literal _ _) as [l1|[]|] eqn:EL; [|discriminate]. cbn [bind] in E. apply (on_end_literal false AtLine) in EL; [|exact H].
    destruct (lpos l1) as [p|[]|]; [|discriminate]. cbn [bind] in E. cbv zeta in E. destruct (comment_scan _ _) as [l2|[]|] eqn:CS; [|discriminate]. cbn [bind] in E. apply on_comment_scan in CS; [|exact EL]. destruct CS as (H2 & PK).
    destruct (lnext l2) as [oc l3] eqn:NX. destruct (on_lnext _ _ _ _ NX H2) as (c & -> & PK' & CA). rewrite PK in PK'. injection PK' as <-. destruct CA as [(NE & _)|(_ & H3)]; [congruence|].
    match type of E with bind ?m _ = _ => destruct m as [cr|[]|]; [|discriminate] end. cbn [bind] in E. destruct (usub _ _) as [te|[]|]; [|discriminate]. cbn [bind] in E.
    destruct (slice _ _ _) as [lit|[]|]; [|discriminate]. cbn [bind] in E. destruct (store_literal _ _) as [id l4] eqn:SL. pose proof (on_llit _ _ _ lit H3) as H4. rewrite SL in H4. cbn [snd] in H4.
    pose proof (on_push _ _ _ (mktok (TComment id) p) H4) as H5. cbn [bind] in E.
    destruct (pos_in_line _ te) as [q|[]|]; [|discriminate]. cbn [bind] in E. injection E as <-. right. apply on_newline, on_push. exact H5.
  Qed.
  (** One step of the main loop, which starts at the line. *)
  Lemma on_step lx c l1 lx' : lnext lx = (Some c, l1) -> lex_step input c l1 = Ok lx' -> onlex false AtLine lx -> done_on false lx'.
  Proof.
    intros NX E H. destruct (on_lnext _ _ _ _ NX H) as (c' & E' & _ & CA). injection E' as <-.
    assert (NT : c = 34 \/ c = 39 -> ~ (exists v, cu_rest (lx_cur l1) = c :: c :: v)).
    { intros Q (v & R). destruct H as ((_ & r & RR & NL & NT) & _). unfold lnext in NX. rewrite RR in NX. destruct r as [|c0 r]; cbn [app] in NX; injection NX as C0 L1; [lia|]. subst c0 l1. cbn [lx_cur set_cur cu_rest] in R.
      destruct r as [|c1 r]; cbn [app] in R; injection R as C1 R; [lia|]. destruct r as [|c2 r]; cbn [app] in R; injection R as C2 R; [lia|]. subst c1 c2.
      apply NT. exists c, [], r. auto. }
    unfold lex_step in E. destruct CA as [(NE & H1)|(-> & H1)].
    - destruct ((c =? 13) && _) eqn:CR.
      { apply andb_prop in CR. destruct CR as [_ PK]. unfold newline_token in E. destruct (char_token _ _ _) as [l2|[]|] eqn:CT; [|discriminate]. cbn [bind] in E. injection E as <-. right. apply on_newline.
        assert (PK2 : lpeek l2 = lpeek l1).
        { unfold char_token in CT. destruct (end_literal _ _) as [l3|[]|] eqn:EL; [|discriminate]. cbn [bind] in CT. destruct (lpos l3); [|discriminate|discriminate]. cbn [bind] in CT. injection CT as <-.
          unfold end_literal in EL. destruct (negb _); [injection EL as <-; reflexivity|]. destruct (slice _ _ _) as [lit|[]|]; [|discriminate]. cbn [bind] in EL. cbn [store_literal] in EL. injection EL as <-. reflexivity. }
        apply on_skip_lf; [rewrite PK2; apply peeks_peek; exact PK|]. exact (on_char _ _ _ _ _ CT H1). }
      destruct (N.eqb_spec c 10) as [|_]; [congruence|].
      destruct (_ || _); [left; exact (on_end_literal _ _ _ _ E H1)|]. destruct ((c =? 34) || (c =? 39)) eqn:QC; [|].
      { assert (Q : c = 34 \/ c = 39) by (apply Bool.orb_true_iff in QC; destruct QC as [X|X]; apply N.eqb_eq in X; auto). exact (on_quote _ _ _ Q (NT Q) E H1). }
      clear CR QC NT. do 7 (destruct (_ =? _); [left; exact (on_char _ _ _ _ _ E H1)|]). destruct (_ =? _); [exact (on_comment _ _ E H1)|left; exact (on_start_literal _ _ E H1)].
    - change (10 =? 13) with false in E. cbn [andb] in E. change (10 =? 10) with true in E. cbv iota in E. unfold newline_token in E. destruct (char_token _ _ _) as [l2|[]|] eqn:CT; [|discriminate]. cbn [bind] in E. injection E as <-.
      right. apply on_newline. exact (on_char _ _ _ _ _ CT H1).
  Qed.
End On.
