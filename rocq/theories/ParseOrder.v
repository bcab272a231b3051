(** The parser builds trees in document order. *)
From Verif Require Import Base BaseProofs CommonModel CommonSpec TomlError LitModel LexModel LexSpec LexBase ParseModel ParseSpec ParsePlace ParseItems
  ParseMarks.

Lemma pos_le_refl p : pos_le p p. Proof. left; reflexivity. Qed.
#[export] Hint Resolve pos_le_refl : core.

Section Order.
  Context (input : list N).
  Notation in_order := (in_order input).
  Notation eof := (eof input).

  Lemma in_order_le lo l : forall hi, in_order lo l hi -> pos_le lo hi.
  Proof.
    revert lo. induction l as [|s r IH]; intros lo hi; cbn; [auto|]. intros (A & (_ & _ & B) & C).
    eapply pos_le_trans; [exact A|]. eapply pos_le_trans; [exact B|]. apply IH, C.
  Qed.
  Lemma in_order_lo lo lo' l hi : pos_le lo' lo -> in_order lo l hi -> in_order lo' l hi.
  Proof. destruct l as [|s r]; cbn; [apply pos_le_trans|]. intros L (A & B). split; [eapply pos_le_trans; eassumption|exact B]. Qed.
  Lemma in_order_hi lo l hi hi' : in_order lo l hi -> pos_le hi hi' -> in_order lo l hi'.
  Proof. revert lo. induction l as [|s r IH]; intros lo; cbn; [apply pos_le_trans|]. intros (A & B & C) L. auto. Qed.
  Lemma in_order_app lo a b hi : in_order lo (a ++ b) hi <-> exists m, in_order lo a m /\ in_order m b hi.
  Proof.
    revert lo. induction a as [|s r IH]; intros lo; cbn.
    - split; [intros H; exists lo; auto|]. intros (m & L & H). eapply in_order_lo; eassumption.
    - rewrite IH. split.
      + intros (A & B & m & C & D). exists m. auto.
      + intros (m & (A & B & C) & D). split; [exact A|]. split; [exact B|]. exists m. auto.
  Qed.
  Lemma in_order_join lo a m b hi : in_order lo a m -> in_order m b hi -> in_order lo (a ++ b) hi.
  Proof. intros A B. apply in_order_app. exists m. auto. Qed.
  Lemma in_order_one lo s hi : pos_le lo (s_start s) -> span_in input s -> pos_le (s_end s) hi -> in_order lo [s] hi.
  Proof. intros A B C. cbn. auto. Qed.

  (** ** The items ahead *)
  Definition item_good (x : item) : Prop :=
    span_in input (token_span x) /\
    match i_ty x with
    | IString s => multi (st_quote s) \/ st_lit_end s = pos_plus (i_start x) (tlen (sr_text (st_lit s)))
    | _ => True
    end.
  Fixpoint ahead (lo : pos) (l : list item) : Prop :=
    match l with
    | [] => pos_le lo (pos_at input)
    | x :: r => pos_le lo (i_start x) /\ item_good x /\
        match r with y :: _ => i_ty x <> INewline -> p_line (i_start y) = p_line (s_end (token_span x)) | [] => True end /\
        ahead (s_end (token_span x)) r
    end.
  Definition good (lo : pos) (st : pst) : Prop := ahead lo (pc_rest (ps_cur st)).

  Lemma token_start x : s_start (token_span x) = i_start x.
  Proof. unfold token_span. destruct (i_ty x); reflexivity. Qed.
  Lemma ahead_lo lo lo' l : pos_le lo' lo -> ahead lo l -> ahead lo' l.
  Proof. destruct l as [|x r]; cbn; [apply pos_le_trans|]. intros L (A & B). split; [eapply pos_le_trans; eassumption|exact B]. Qed.
  Lemma good_lo lo lo' st : pos_le lo' lo -> good lo st -> good lo' st.
  Proof. apply ahead_lo. Qed.
  Lemma ahead_tail lo x r : ahead lo (x :: r) -> ahead (s_end (token_span x)) r /\ pos_le lo (s_end (token_span x)) /\ ahead lo r.
  Proof.
    intros (A & (B & _) & _ & C). destruct B as (_ & _ & B). rewrite token_start in B.
    assert (L : pos_le lo (s_end (token_span x))) by (eapply pos_le_trans; eassumption).
    split; [exact C|]. split; [exact L|]. eapply ahead_lo; eassumption.
  Qed.
  Lemma ahead_end lo l : ahead lo l -> pos_le lo (pos_at input).
  Proof.
    revert lo. induction l as [|x r IH]; intros lo H; [exact H|]. destruct (ahead_tail _ _ _ H) as (_ & _ & T). apply IH, T.
  Qed.
  Lemma good_end lo st : good lo st -> pos_le lo (pos_at input).
  Proof. apply ahead_end. Qed.

  (** What is peeked, and what is left after it. *)
  Lemma good_peek lo st : good lo st ->
    (pc_rest (ps_cur st) = [] /\ ppeek eof st = eof /\ good lo (padv st)) \/
    (exists r, pc_rest (ps_cur st) = ppeek eof st :: r /\ pos_le lo (i_start (ppeek eof st)) /\ item_good (ppeek eof st) /\
       good (s_end (token_span (ppeek eof st))) (padv st) /\ pos_le lo (s_end (token_span (ppeek eof st)))).
  Proof.
    unfold good, ppeek, padv, set_pcur, cadv. cbn [ps_cur]. intros H. destruct (pc_rest (ps_cur st)) as [|x r] eqn:E.
    - left. split; [reflexivity|]. split; [reflexivity|]. rewrite E. exact H.
    - right. exists r. cbn [hd]. split; [reflexivity|]. destruct (ahead_tail _ _ _ H) as (T & L & _).
      destruct H as (A & B & _). auto.
  Qed.
  Lemma good_padv lo st : good lo st -> good lo (padv st).
  Proof.
    intros H. destruct (good_peek lo st H) as [(_ & _ & G)|(r & _ & _ & _ & G & L)]; [exact G|]. eapply good_lo; eassumption.
  Qed.
  Lemma good_span lo st : good lo st -> i_ty (ppeek eof st) <> IEOF ->
    pos_le lo (i_start (ppeek eof st)) /\ item_good (ppeek eof st) /\ good (s_end (token_span (ppeek eof st))) (padv st) /\
    pos_le lo (s_end (token_span (ppeek eof st))).
  Proof.
    intros H NE. destruct (good_peek lo st H) as [(_ & E & _)|(r & _ & H')]; [rewrite E in NE; destruct NE; reflexivity|exact H'].
  Qed.
  Lemma good_punct lo st ty : good lo st -> i_ty (ppeek eof st) = ty ->
    (ty = ISquareLeft \/ ty = ISquareRight \/ ty = ICurlyLeft \/ ty = ICurlyRight \/ ty = IEqual \/ ty = IComma \/ ty = IDot) ->
    let p := i_start (ppeek eof st) in
    pos_le lo p /\ span_in input (span_ascii_char p) /\ good (pos_plus p 1) (padv st) /\ pos_le lo (pos_plus p 1).
  Proof.
    intros H E T p. destruct (good_span lo st H) as (A & (B & _) & C & D).
    { rewrite E. intuition congruence. }
    assert (TS : token_span (ppeek eof st) = span_ascii_char p).
    { unfold token_span. rewrite E. fold p. destruct T as [->|[->|[->|[->|[->|[->| ->]]]]]]; reflexivity. }
    rewrite TS in *. auto.
  Qed.

  (** ** Moving on *)
  Lemma skip_good p lo : forall l prev, ahead lo l -> ahead lo (pc_rest (skip_items p prev l)).
  Proof.
    intros l. induction l as [|x r IH]; intros prev H; cbn [skip_items]; [exact H|].
    destruct (p (i_ty x)); [exact H|]. apply IH. apply (ahead_tail _ _ _ H).
  Qed.
  Lemma recover_good p lo st : good lo st -> good lo (recover_on p st).
  Proof. intros H. apply skip_good. exact H. Qed.
  Lemma jump_good lo st : good lo st -> good lo (jump_to_end st).
  Proof. intros H. exact (good_end _ _ H). Qed.
  Lemma line_comment_good lo st r st' r' : eat_line_comment st r = Ok (st', r') -> good lo st -> good lo st'.
  Proof.
    unfold eat_line_comment. intros E H. destruct (pc_rest (ps_cur st)) as [|[[] start] l] eqn:R; try (injection E as <- _; exact H).
    destruct (add_comment _ _ _ _) as [[s r1]|[]|]; [|discriminate]. cbn [bind] in E. injection E as <- _.
    exact (good_padv lo st H).
  Qed.
  Lemma trivia_loop_good lo : forall l prev s r c s' r', eat_trivia_loop prev l s r = Ok (c, s', r') -> ahead lo l -> ahead lo (pc_rest c).
  Proof.
    induction l as [|[ty start] l IH]; intros prev s r c s' r' E H; cbn [eat_trivia_loop] in E.
    - injection E as <- _ _. exact H.
    - pose proof (proj2 (proj2 (ahead_tail _ _ _ H))) as T.
      destruct ty; try (injection E as <- _ _; exact H).
      + destruct (add_comment _ _ _ _) as [[s1 r1]|[]|]; [|discriminate]. cbn [bind] in E. eapply IH; eassumption.
      + eapply IH; eassumption.
  Qed.
  Lemma trivia_good lo st r st' r' : eat_trivia st r = Ok (st', r') -> good lo st -> good lo st'.
  Proof.
    unfold eat_trivia. intros E H. destruct (eat_trivia_loop _ _ _ _) as [[[c s] r1]|[]|] eqn:L; [|discriminate].
    cbn [bind] in E. injection E as <- _. unfold good. cbn [ps_cur]. eapply trivia_loop_good; eassumption.
  Qed.

  (** ** Keys *)
  Definition on_line (n : N) (st : pst) : Prop := match pc_rest (ps_cur st) with x :: _ => p_line (i_start x) = n | [] => True end.
  Lemma on_line_next lo st n : good lo st -> on_line n st -> i_ty (ppeek eof st) <> IEOF -> i_ty (ppeek eof st) <> INewline ->
    p_line (s_end (token_span (ppeek eof st))) = p_line (i_start (ppeek eof st)) ->
    on_line n (padv st) /\ p_line (i_start (ppeek eof st)) = n.
  Proof.
    unfold good, on_line, ppeek, padv, set_pcur, cadv. cbn [ps_cur]. destruct (pc_rest (ps_cur st)) as [|x r] eqn:E.
    - intros _ _ NE. destruct NE. reflexivity.
    - cbn [hd pc_rest]. intros (_ & _ & L & _) O _ NN T. split; [|exact O]. destruct r as [|y r]; [exact I|]. rewrite (L NN), T. exact O.
  Qed.

  (** An identifier: one item. *)
  Lemma ident_good lo st : good lo st ->
    match parse_ident (ppeek eof st) st with
    | inl (i, st1) => in_order lo [ident_mark i] (lit_end i) /\ good (lit_end i) (padv st1) /\
        (forall n, on_line n st -> on_line n (padv st1))
    | inr (KeyOk _, _) => False
    | inr (KeyUnterminated k, st1) => exists m, in_order lo (key_marks k) m /\ good m st1
    | inr (KeyErr _, st1) => good lo st1
    end.
  Proof.
    intros H. unfold parse_ident.
    assert (STR : forall s, i_ty (ppeek eof st) = IString s -> ~ multi (st_quote s) -> forall k,
      let i := string_ident (st_lit s) (mkspan (i_start (ppeek eof st)) (st_lit_end s)) (st_text s) (st_offset s) k in
      in_order lo [ident_mark i] (lit_end i) /\ good (lit_end i) (padv st) /\ (forall n, on_line n st -> on_line n (padv st))).
    { intros s E NM k i. destruct (good_span lo st H) as (A & (B & B') & C & D); [congruence|].
      rewrite E in B'. destruct B' as [M|B']; [destruct (NM M)|].
      assert (TS : token_span (ppeek eof st) = ident_mark i).
      { unfold token_span. rewrite E. unfold ident_mark, lit_end, i, string_ident. cbn [id_start id_lit s_start]. rewrite B'. reflexivity. }
      rewrite TS in *. split; [apply in_order_one; [exact A|exact B|apply pos_le_refl]|]. split; [exact C|].
      intros n O. apply (on_line_next lo st n H O); [congruence|congruence|]. rewrite TS. reflexivity. }
    destruct (i_ty (ppeek eof st)) as [s|r|r| | | | | | | | |] eqn:E; try exact H.
    - destruct (st_quote s) eqn:Q; try exact H.
      + cbv zeta. destruct ((to_end_line (st_offset s) =? 0) && (to_end_char (st_offset s) =? 0)).
        * destruct (STR s eq_refl ltac:(rewrite Q; intros [X|X]; discriminate) KBasic) as (A & B & _). eexists. split; [exact A|exact B].
        * exact (STR s eq_refl ltac:(rewrite Q; intros [X|X]; discriminate) KBasic).
      + cbv zeta. destruct ((to_end_line (st_offset s) =? 0) && (to_end_char (st_offset s) =? 0)).
        * destruct (STR s eq_refl ltac:(rewrite Q; intros [X|X]; discriminate) KLiteral) as (A & B & _). eexists. split; [exact A|exact B].
        * exact (STR s eq_refl ltac:(rewrite Q; intros [X|X]; discriminate) KLiteral).
    - assert (W : forall st1, ps_cur st1 = ps_cur st ->
        let i := plain_ident r (span_from_pos_len (i_start (ppeek eof st)) (tlen (sr_text r))) in
        in_order lo [ident_mark i] (lit_end i) /\ good (lit_end i) (padv st1) /\ (forall n, on_line n st -> on_line n (padv st1))).
      { intros st1 SC i. destruct (good_span lo st H) as (A & (B & _) & C & D); [congruence|].
        assert (TS : token_span (ppeek eof st) = ident_mark i) by (unfold token_span; rewrite E; reflexivity).
        rewrite TS in *. unfold good, on_line, padv, set_pcur in *. cbn [ps_cur] in *. rewrite SC.
        split; [apply in_order_one; [exact A|exact B|apply pos_le_refl]|]. split; [exact C|].
        intros n O. apply (on_line_next lo st n H O); [congruence|congruence|]. rewrite TS. reflexivity. }
      destruct (find_invalid 0 (sr_text r)) as [[off c]|].
      + cbv zeta. destruct (forallb is_control_char (sr_text r)); [exact H|]. apply W. reflexivity.
      + apply W. reflexivity.
  Qed.

  Lemma key_loop_order : forall fuel idents st r st' lo0 lo, key_loop eof fuel idents st = Ok (r, st') -> good lo st ->
    in_order lo0 (flat_map dident_marks idents) lo ->
    match r with
    | KeyOk k => exists m, in_order lo0 (key_marks k) m /\ good m st' /\ (forall n, on_line n st -> on_line n st')
    | KeyUnterminated k => exists m, in_order lo (key_marks k) m /\ good m st'
    | KeyErr _ => good lo st'
    end.
  Proof.
    induction fuel as [|fuel IH]; intros idents st r st' lo0 lo E H O; [discriminate|]. cbn [key_loop] in E.
    pose proof (ident_good lo st H) as IG. destruct (parse_ident (ppeek eof st) st) as [[i st1]|[k st1]].
    - destruct IG as (A & B & L). cbv zeta in E. unfold pty in E.
      assert (FIN : r = KeyOk match idents with [] => KOne i | _ => KDotted (idents ++ [mkdi i None]) end -> st' = padv st1 ->
        match r with
        | KeyOk k => exists m, in_order lo0 (key_marks k) m /\ good m st' /\ (forall n, on_line n st -> on_line n st')
        | KeyUnterminated k => exists m, in_order lo (key_marks k) m /\ good m st'
        | KeyErr _ => good lo st'
        end).
      { intros -> ->. exists (lit_end i). split; [|auto]. destruct idents as [|d ds].
        - cbn [flat_map] in O. cbn [key_marks]. eapply in_order_lo; [|exact A]. exact O.
        - cbn [key_marks]. rewrite flat_map_app. eapply in_order_join; [exact O|]. cbn [flat_map dident_marks di_ident di_dot app]. exact A. }
      destruct (i_ty (ppeek eof (padv st1))) eqn:T; try (injection E as <- <-; apply FIN; reflexivity).
      destruct (good_punct (lit_end i) (padv st1) IDot B T ltac:(tauto)) as (P1 & P2 & P3 & P4).
      specialize (IH _ _ _ _ lo0 _ E P3). rewrite flat_map_app in IH. cbn [flat_map dident_marks di_ident di_dot app] in IH.
      assert (O' : in_order lo0 (flat_map dident_marks idents ++ [ident_mark i; span_ascii_char (i_start (ppeek eof (padv st1)))])
                     (pos_plus (i_start (ppeek eof (padv st1))) 1)).
      { eapply in_order_join; [exact O|]. destruct A as (A1 & A2 & _). cbn [ParseMarks.in_order]. split; [exact A1|]. split; [exact A2|].
        split; [exact P1|]. split; [exact P2|]. apply pos_le_refl. }
      specialize (IH O').
      assert (LL : pos_le lo (pos_plus (i_start (ppeek eof (padv st1))) 1)).
      { eapply pos_le_trans; [exact (in_order_le _ _ _ A)|exact P4]. }
      destruct r as [k|k|e].
      + destruct IH as (m & I1 & I2 & I3). exists m. split; [exact I1|]. split; [exact I2|]. intros n ON. apply I3.
        specialize (L n ON). apply (on_line_next _ _ n B L); [congruence|congruence|]. unfold token_span. rewrite T. reflexivity.
      + destruct IH as (m & I1 & I2). exists m. split; [|exact I2]. eapply in_order_lo; eassumption.
      + eapply good_lo; eassumption.
    - injection E as <- <-. destruct k as [k|k|e]; [destruct IG|exact IG|exact IG].
  Qed.
  Lemma parse_key_order st r st' lo : parse_key eof st = Ok (r, st') -> good lo st ->
    match r with
    | KeyOk k => exists m, in_order lo (key_marks k) m /\ good m st' /\ (forall n, on_line n st -> on_line n st')
    | KeyUnterminated k => exists m, in_order lo (key_marks k) m /\ good m st'
    | KeyErr _ => good lo st'
    end.
  Proof. intros E H. eapply key_loop_order; [exact E|exact H|]. cbn. apply pos_le_refl. Qed.

  (** ** Scalars *)
  Lemma pos_eqb_eq a b : pos_eqb a b = true -> a = b.
  Proof. unfold pos_eqb. destruct a as [al ac], b as [bl bc]. cbn [p_line p_char]. intros H. f_equal; lia. Qed.
  Lemma combine_loop_order : forall l prev lit sp c lit' sp', combine_loop input prev l lit sp = Ok (c, lit', sp') ->
    ahead (s_end sp) l -> span_in input sp ->
    s_start sp' = s_start sp /\ span_in input sp' /\ ahead (s_end sp') (pc_rest c) /\ pos_le (s_end sp) (s_end sp').
  Proof.
    induction l as [|t l IH]; intros prev lit sp c lit' sp' E H SI; cbn [combine_loop] in E.
    - injection E as <- _ <-. auto.
    - destruct (pos_eqb (i_start t) (s_end sp)) eqn:PE; cbn [negb] in E; [|injection E as <- _ <-; auto].
      apply pos_eqb_eq in PE. destruct (ahead_tail _ _ _ H) as (T1 & T2 & _). pose proof H as (_ & (B & _) & _).
      assert (STEP : forall q, s_end (token_span t) = q -> span_in input (mkspan (s_start sp) q)).
      { intros q <-. destruct SI as (S1 & S2 & S3), B as (B1 & B2 & B3). split; [exact S1|]. split; [exact B2|]. cbn [s_start s_end].
        eapply pos_le_trans; eassumption. }
      destruct (i_ty t) as [s|n|r| | | | | | | | |] eqn:TY; try (injection E as <- _ <-; auto).
      + destruct (concat_strs input lit n) as [lit1|[]|]; [|discriminate]. cbn [bind] in E.
        assert (TE : s_end (token_span t) = pos_plus (s_end sp) (tlen (sr_text n))) by (unfold token_span; rewrite TY, <- PE; reflexivity).
        rewrite TE in T1, T2. apply IH in E; [|exact T1|apply STEP; exact TE]. cbn [s_start s_end] in E.
        destruct E as (E1 & E2 & E3 & E4). split; [exact E1|]. split; [exact E2|]. split; [exact E3|]. eapply pos_le_trans; eassumption.
      + destruct (extend_str_back input lit 1) as [lit1|[]|]; [|discriminate]. cbn [bind] in E.
        assert (TE : s_end (token_span t) = pos_plus (s_end sp) 1) by (unfold token_span; rewrite TY, <- PE; reflexivity).
        rewrite TE in T1, T2. apply IH in E; [|exact T1|apply STEP; exact TE]. cbn [s_start s_end] in E.
        destruct E as (E1 & E2 & E3 & E4). split; [exact E1|]. split; [exact E2|]. split; [exact E3|]. eapply pos_le_trans; eassumption.
  Qed.
  Lemma combine_order st lit sp st' lit' sp' : combine_adjacent input st lit sp = Ok (st', lit', sp') ->
    good (s_end sp) st -> span_in input sp ->
    s_start sp' = s_start sp /\ span_in input sp' /\ good (s_end sp') st' /\ pos_le (s_end sp) (s_end sp').
  Proof.
    unfold combine_adjacent. intros E H SI. destruct (combine_loop _ _ _ _ _) as [[[c l] s]|[]|] eqn:L; [|discriminate].
    cbn [bind] in E. injection E as <- _ <-. eapply combine_loop_order; eassumption.
  Qed.

  (** What a value must satisfy. *)
  Definition spot (lo : pos) (v : value) (st' : pst) : Prop := in_order lo (value_marks v) (val_end v) /\ good (val_end v) st'.
  Lemma spot_lo lo lo' v st' : pos_le lo' lo -> spot lo v st' -> spot lo' v st'.
  Proof. intros L (A & B). split; [eapply in_order_lo; eassumption|exact B]. Qed.
  Definition vspot (lo : pos) (r : vres) (st' : pst) : Prop := match r with VOk v => spot lo v st' | VErr _ => good lo st' end.

  Lemma lit_item lo st r : good lo st -> i_ty (ppeek eof st) = ILit r ->
    let sp := span_from_pos_len (i_start (ppeek eof st)) (tlen (sr_text r)) in
    pos_le lo (s_start sp) /\ span_in input sp /\ good (s_end sp) (padv st).
  Proof.
    intros H E sp. destruct (good_span lo st H) as (A & (B & _) & C & _); [congruence|].
    assert (TS : token_span (ppeek eof st) = sp) by (unfold token_span; rewrite E; reflexivity). rewrite TS in *. auto.
  Qed.
  Lemma across_in a b : span_in input a -> span_in input b -> pos_le (s_end a) (s_start b) -> span_in input (span_across a b).
  Proof.
    intros (A1 & A2 & A3) (B1 & B2 & B3) L. split; [exact A1|]. split; [exact B2|]. cbn [span_across s_start s_end].
    eapply pos_le_trans; [exact A3|]. eapply pos_le_trans; eassumption.
  Qed.

  Lemma time_part_order st lit sp d v st' lo : try_to_parse_time_part input eof st lit sp d = Ok (v, st') ->
    good (s_end sp) st -> span_in input sp -> pos_le lo (s_start sp) -> spot lo v st'.
  Proof.
    unfold try_to_parse_time_part, pty. intros E H SI LO.
    assert (STAY : v = VDateTime lit sp (LocalDate d) -> st' = st -> spot lo v st').
    { intros -> ->. split; [apply in_order_one; auto|exact H]. }
    destruct (i_ty (ppeek eof st)) as [s|r|r| | | | | | | | |] eqn:T; try (injection E as <- <-; apply STAY; reflexivity).
    destruct (lit_item _ _ _ H T) as (A & B & C). cbv zeta in E.
    destruct (combine_adjacent _ _ _ _) as [[[st1 tl] tsp]|[]|] eqn:CA; [|discriminate]. cbn [bind] in E.
    destruct (combine_order _ _ _ _ _ _ CA C B) as (C1 & C2 & C3 & C4).
    destruct (concat_strs _ _ _) as [l2|[]|]; [|discriminate]. cbn [bind] in E.
    assert (AC : span_in input (span_across sp tsp)) by (apply across_in; [exact SI|exact C2|rewrite C1; exact A]).
    assert (G : forall st2, ps_cur st2 = ps_cur st1 -> good (s_end tsp) st2) by (intros st2 SC; unfold good; rewrite SC; exact C3).
    destruct (parse_time_and_offset _ _) as [[tm o]|e|]; [| |discriminate]; injection E as <- <-.
    - split; [apply in_order_one; auto|]. apply G. destruct (_ <? _); reflexivity.
    - split; [apply in_order_one; auto|]. apply G. destruct (_ <? _); reflexivity.
  Qed.
  Lemma combine_time_order st lit sp v st' lo : try_combine_time_part input eof st lit sp = Ok (v, st') ->
    good (s_end sp) st -> span_in input sp -> pos_le lo (s_start sp) -> spot lo v st'.
  Proof.
    unfold try_combine_time_part, pty. intros E H SI LO.
    assert (STAY : v = VInvalid lit sp -> st' = st -> spot lo v st').
    { intros -> ->. split; [apply in_order_one; auto|exact H]. }
    destruct (i_ty (ppeek eof st)) as [s|r|r| | | | | | | | |] eqn:T; try (injection E as <- <-; apply STAY; reflexivity).
    destruct (lit_item _ _ _ H T) as (A & B & C). cbv zeta in E.
    destruct (_ <? _); [injection E as <- <-; apply STAY; reflexivity|].
    destruct (concat_strs _ _ _) as [l2|[]|]; [|discriminate]. cbn [bind] in E.
    destruct (combine_adjacent _ _ _ _) as [[[st1 tl] tsp]|[]|] eqn:CA; [|discriminate]. cbn [bind] in E. injection E as <- <-.
    destruct (combine_order _ _ _ _ _ _ CA) as (C1 & C2 & C3 & C4); [exact C|apply across_in; assumption|].
    split; [apply in_order_one; [rewrite C1; exact LO|exact C2|apply pos_le_refl]|exact C3].
  Qed.
  Lemma literal_order st r v st' lo : parse_literal_value input eof st (ppeek eof st) r = Ok (v, st') -> i_ty (ppeek eof st) = ILit r ->
    good lo st -> spot lo v st'.
  Proof.
    unfold parse_literal_value. intros E T H. destruct (lit_item _ _ _ H T) as (A & B & C).
    destruct (combine_adjacent _ _ _ _) as [[[st1 l1] sp]|[]|] eqn:CA; [|discriminate]. cbn [bind] in E.
    destruct (combine_order _ _ _ _ _ _ CA C B) as (C1 & C2 & C3 & C4). cbn [s_start span_from_pos_len] in C1, A.
    assert (LO : pos_le lo (s_start sp)) by (rewrite C1; exact A).
    assert (ONE : in_order lo [sp] (s_end sp)) by (apply in_order_one; auto).
    destruct (parse_literal (sr_text l1) sp) as [[]|e|]; [| | | | | | |discriminate];
      try (injection E as <- <-; split; [exact ONE|exact C3]).
    - eapply time_part_order; eassumption.
    - cbv zeta in E. destruct (negb _); [|injection E as <- <-; split; [exact ONE|exact C3]]. eapply combine_time_order; eassumption.
  Qed.
  Lemma dot_order st r st' lo : parse_dot_value input eof st (ppeek eof st) = Ok (r, st') -> i_ty (ppeek eof st) = IDot ->
    good lo st -> vspot lo r st'.
  Proof.
    unfold parse_dot_value. cbv zeta. intros E T H. destruct (good_punct lo st IDot H T ltac:(tauto)) as (A & B & C & D).
    set (st1 := perr (padv st) _) in *. assert (H1 : good (pos_plus (i_start (ppeek eof st)) 1) st1) by exact C.
    assert (STOP : r = VErr (EExpectedValueFound (token_fmt_str (ppeek eof st)) (token_span (ppeek eof st))) -> st' = st1 -> vspot lo r st').
    { intros -> ->. eapply good_lo; eassumption. }
    destruct (i_ty (ppeek eof st1)) as [s|l|l| | | | | | | | |] eqn:T1; try (injection E as <- <-; apply STOP; reflexivity).
    destruct (pos_eqb _ _) eqn:PE; [|injection E as <- <-; apply STOP; reflexivity].
    apply pos_eqb_eq in PE. destruct (extend_str_front _ _ _) as [l1|[]|]; [|discriminate]. cbn [bind] in E.
    destruct (combine_adjacent _ _ _ _) as [[[st2 l2] sp]|[]|] eqn:CA; [|discriminate]. cbn [bind] in E. injection E as <- <-.
    destruct (lit_item _ _ _ H1 T1) as (A1 & B1 & C1). cbv zeta in *.
    assert (SE : pos_plus (i_start (ppeek eof st1)) (tlen (sr_text l)) = pos_plus (i_start (ppeek eof st)) (tlen (sr_text l) + 1)).
    { rewrite PE. unfold pos_plus. cbn [p_line p_char]. f_equal. lia. }
    unfold span_from_pos_len in B1, C1, CA. cbn [s_end] in C1. rewrite SE in B1, C1.
    destruct (combine_order _ _ _ _ _ _ CA) as (D1 & D2 & D3 & D4).
    - exact C1.
    - split; [exact (proj1 B)|]. split; [exact (proj1 (proj2 B1))|]. cbn [s_start s_end]. right. right. cbn [pos_plus p_line p_char]. split; [reflexivity|]. lia.
    - cbn [s_start] in D1. split; [apply in_order_one; [rewrite D1; exact A|exact D2|apply pos_le_refl]|exact D3].
  Qed.

  (** ** Arrays and inline tables *)
  Section Nested.
    Context (parse_inner : pst -> run (vres * pst)) (level : N).
    Hypothesis inner : forall st r st' lo, parse_inner st = Ok (r, st') -> good lo st -> vspot lo r st'.

    Definition av_marks (a : avalue) : list span := value_marks (av_val a) ++ comma_marks (av_comma a).
    Definition last_av (lo : pos) (l : list avalue) : pos := match rev l with v :: _ => av_end v | [] => lo end.
    Lemma last_av_snoc lo l a : last_av lo (l ++ [a]) = av_end a.
    Proof. unfold last_av. rewrite rev_app_distr. reflexivity. Qed.

    Lemma array_loop_order lo0 : forall fuel ac values st res, array_loop eof parse_inner level fuel ac values st = Ok res ->
      in_order lo0 (flat_map av_marks values) (last_av lo0 values) -> good (last_av lo0 values) st ->
      match res with
      | inl (_, st') => good lo0 st'
      | inr (_, values', st') => in_order lo0 (flat_map av_marks values') (last_av lo0 values') /\ good (last_av lo0 values') st'
      end.
    Proof.
      induction fuel as [|fuel IH]; intros ac values st res E O H; [discriminate|]. cbn [array_loop] in E.
      destruct (eat_trivia st ac) as [[st1 ac1]|[]|] eqn:TR; [|discriminate]. cbn [bind] in E.
      apply (trivia_good _ _ _ _ _ TR) in H.
      destruct (array_end (pty eof st1)); [injection E as <-; auto|].
      destruct (parse_inner st1) as [[r st2]|[]|] eqn:PI; [|discriminate]. cbn [bind] in E.
      pose proof (inner _ _ _ _ PI H) as V. destruct r as [v|e].
      - destruct V as (V1 & V2).
        destruct (mark_comments_above _ _ _) as [[s vc]|[]|]; [|discriminate]. cbn [bind] in E.
        destruct (eat_line_comment (set_store st2 s) vc) as [[st3 vc3]|[]|] eqn:LC; [|discriminate]. cbn [bind] in E.
        apply (line_comment_good (val_end v)) in LC; [|exact V2].
        destruct (eat_trivia st3 ac1) as [[st4 ac4]|[]|] eqn:TR4; [|discriminate]. cbn [bind] in E.
        apply (trivia_good _ _ _ _ _ TR4) in LC.
        assert (SN : forall vc0 c, in_order (last_av lo0 values) (value_marks v ++ comma_marks c) (av_end (mkav vc0 v c)) ->
          in_order lo0 (flat_map av_marks (values ++ [mkav vc0 v c])) (last_av lo0 (values ++ [mkav vc0 v c]))).
        { intros vc0 c X. rewrite last_av_snoc, flat_map_app. eapply in_order_join; [exact O|]. cbn [flat_map]. rewrite app_nil_r. exact X. }
        assert (NO : forall vc0, in_order (last_av lo0 values) (value_marks v ++ comma_marks None) (av_end (mkav vc0 v None))).
        { intros vc0. cbn [comma_marks]. rewrite app_nil_r. exact V1. }
        destruct (pty eof st4) eqn:TY;
          try (cbv zeta in E; apply IH in E; [exact E|apply SN, NO|rewrite last_av_snoc; exact LC]);
          try (injection E as <-; split; [apply SN, NO|rewrite last_av_snoc; exact LC]).
        destruct (range_extend_to _ _) as [vc5|[]|]; [|discriminate]. cbn [bind] in E.
        destruct (mark_contained_comments _ _ _) as [s5|[]|]; [|discriminate]. cbn [bind] in E. cbv zeta in E.
        destruct (eat_line_comment (padv (set_store st4 s5)) vc5) as [[st6 vc6]|[]|] eqn:LC6; [|discriminate]. cbn [bind] in E.
        destruct (good_punct (val_end v) st4 IComma LC TY ltac:(tauto)) as (A & B & C & D).
        apply (line_comment_good (pos_plus (i_start (ppeek eof st4)) 1)) in LC6; [|exact C].
        apply IH in E; [exact E| |rewrite last_av_snoc; exact LC6]. apply SN. eapply in_order_join; [exact V1|]. apply in_order_one; auto.
      - cbn [vspot] in V. destruct (recursion_error e).
        + injection E as <-. eapply good_lo; [|exact V]. eapply in_order_le. exact O.
        + cbv zeta in E. pose proof (recover_good array_stop _ _ (V : good _ (perr st2 e))) as R.
          destruct (array_end _); [injection E as <-; auto|]. apply IH in E; [exact E|exact O|]. apply good_padv. exact R.
    Qed.

    Lemma array_order st st0 r st' lo : parse_array eof parse_inner level (i_start (ppeek eof st0)) st = Ok (r, st') ->
      i_ty (ppeek eof st0) = ISquareLeft -> st = padv st0 -> good lo st0 -> vspot lo r st'.
    Proof.
      intros E T -> H. destruct (good_punct lo st0 ISquareLeft H T ltac:(tauto)) as (A & B & C & D).
      unfold parse_array in E. cbv zeta in E. set (lp := i_start (ppeek eof st0)) in *.
      destruct (eat_line_comment _ _) as [[st1 ac]|[]|] eqn:LC; [|discriminate]. cbn [bind] in E.
      apply (line_comment_good (pos_plus lp 1)) in LC; [|exact C].
      destruct (array_loop _ _ _ _ _ _ _) as [res|[]|] eqn:AL; [|discriminate]. cbn [bind] in E.
      apply (array_loop_order (pos_plus lp 1)) in AL; [|apply pos_le_refl|exact LC].
      destruct res as [[e st2]|[[ac2 values] st2]].
      - injection E as <- <-. cbn [vspot]. eapply good_lo; [exact D|exact AL].
      - destruct AL as (O & G).
        assert (CLOSE : forall p st3 ac3 s, pos_le (last_av (pos_plus lp 1) values) p -> span_in input (span_ascii_char p) -> good (pos_plus p 1) st3 ->
          spot lo (VArray ac3 lp values (EndPar p)) (set_store st3 s)).
        { intros p st3 ac3 s L SP G3. split; [|exact G3]. cbn [value_marks val_end end_pos end_mark].
          apply (in_order_join _ _ (pos_plus lp 1)); [apply in_order_one; auto|]. eapply in_order_join; [exact O|]. apply in_order_one; auto. }
        assert (OPEN : forall st3 ac3 s, good (last_av (pos_plus lp 1) values) st3 ->
          spot lo (VArray ac3 lp values (EndNone (match rev values with v :: _ => av_end v | [] => pos_plus lp 1 end))) (set_store st3 s)).
        { intros st3 ac3 s G3. split; [|exact G3]. cbn [value_marks val_end end_pos end_mark].
          apply (in_order_join _ _ (pos_plus lp 1)); [apply in_order_one; auto|]. eapply in_order_join; [exact O|]. apply in_order_one.
          - apply pos_le_refl.
          - apply span_in_pos. clear - O B. unfold last_av in O. destruct (rev values) as [|v vs] eqn:R; [exact (proj1 (proj2 B))|].
            assert (values = rev vs ++ [v]) as -> by (rewrite <- (rev_involutive values), R; reflexivity).
            rewrite flat_map_app in O. apply in_order_app in O. destruct O as (m & _ & O). cbn [flat_map] in O. rewrite app_nil_r in O.
            unfold av_marks in O. unfold av_end in *. destruct (av_comma v) as [c|]; cbn [comma_marks] in O.
            + apply in_order_app in O. destruct O as (m' & _ & _ & (_ & SP & _) & _). exact SP.
            + rewrite app_nil_r in O. clear - O. revert O. generalize (av_val v) as w. intros w O.
              assert (NE : exists a s, value_marks w = a ++ [s] /\ s_end s = val_end w).
              { destruct w as [l s t o q|l s z|l s f|s b|l s d|p l e|c p l e|l s]; try (exists [], s; split; reflexivity).
                - exists ([span_ascii_char p] ++ flat_map (fun a => key_marks (as_key (ia_assign a)) ++ [span_ascii_char (as_eq (ia_assign a))] ++
                         value_marks (as_val (ia_assign a)) ++ comma_marks (ia_comma a)) l), (end_mark e). split; [cbn [value_marks]; rewrite <- app_assoc; reflexivity|destruct e; reflexivity].
                - exists ([span_ascii_char p] ++ flat_map (fun a => value_marks (av_val a) ++ comma_marks (av_comma a)) l), (end_mark e).
                  split; [cbn [value_marks]; rewrite <- app_assoc; reflexivity|destruct e; reflexivity]. }
              destruct NE as (a & s & NE & SE). rewrite NE in O. apply in_order_app in O. destruct O as (m' & _ & _ & (_ & SP & _) & _). rewrite <- SE. exact SP.
          - apply pos_le_refl. }
        destruct (i_ty (ppeek eof st2)) eqn:TY; cbv zeta in E;
          match type of E with context [range_extend_to ?a ?b] => destruct (range_extend_to a b) as [ac3|[]|]; [|discriminate] end; cbn [bind] in E;
          match type of E with context [mark_contained_comments ?a ?b ?c] => destruct (mark_contained_comments a b c) as [s3|[]|]; [|discriminate] end;
          cbn [bind] in E; injection E as <- <-; try (apply (OPEN (perr st2 _)); exact G).
        destruct (good_punct _ st2 ISquareRight G TY ltac:(tauto)) as (A1 & B1 & C1 & D1). apply CLOSE; assumption.
    Qed.

    Definition ia_marks (a : iassign) : list span :=
      key_marks (as_key (ia_assign a)) ++ [span_ascii_char (as_eq (ia_assign a))] ++ value_marks (as_val (ia_assign a)) ++ comma_marks (ia_comma a).
    Definition last_ia (lo : pos) (l : list iassign) : pos := match rev l with v :: _ => ia_end v | [] => lo end.
    Lemma last_ia_snoc lo l a : last_ia lo (l ++ [a]) = ia_end a.
    Proof. unfold last_ia. rewrite rev_app_distr. reflexivity. Qed.

    Lemma table_loop_order lo0 : forall fuel comma assigns st res, table_loop eof parse_inner fuel comma assigns st = Ok res ->
      in_order lo0 (flat_map ia_marks assigns) (last_ia lo0 assigns) -> good (last_ia lo0 assigns) st ->
      match res with
      | inl (_, st') => good lo0 st'
      | inr (assigns', st') => in_order lo0 (flat_map ia_marks assigns') (last_ia lo0 assigns') /\ good (last_ia lo0 assigns') st'
      end.
    Proof.
      induction fuel as [|fuel IH]; intros comma assigns st res E O H; [discriminate|]. cbn [table_loop] in E. cbv zeta in E.
      destruct (table_end (pty eof st)).
      { injection E as <-. split; [exact O|]. destruct comma; exact H. }
      assert (REC : forall st1, good (last_ia lo0 assigns) st1 ->
        match pty eof (recover_on table_stop st1) with
        | IComma => table_loop eof parse_inner fuel comma assigns (padv (recover_on table_stop st1))
        | _ => Ok (inr (assigns, recover_on table_stop st1))
        end = Ok res ->
        match res with
        | inl (_, st') => good lo0 st'
        | inr (assigns', st') => in_order lo0 (flat_map ia_marks assigns') (last_ia lo0 assigns') /\ good (last_ia lo0 assigns') st'
        end).
      { intros st1 H1 E1. pose proof (recover_good table_stop _ _ H1) as R.
        destruct (pty eof _) in E1; try (injection E1 as <-; split; [exact O|exact R]).
        apply IH in E1; [exact E1|exact O|]. apply good_padv. exact R. }
      destruct (parse_key eof st) as [[k st1]|[]|] eqn:PK; [|discriminate]. cbn [bind] in E.
      pose proof (parse_key_order _ _ _ _ PK H) as K. destruct k as [k|k|e].
      - destruct K as (m & K1 & K2 & _).
        destruct (i_ty (ppeek eof st1)) eqn:TY;
          try (apply REC in E; [exact E|]; eapply good_lo; [eapply in_order_le; exact K1|exact K2]).
        destruct (good_punct m st1 IEqual K2 TY ltac:(tauto)) as (A & B & C & D).
        destruct (parse_inner (padv st1)) as [[r st2]|[]|] eqn:PI; [|discriminate]. cbn [bind] in E.
        pose proof (inner _ _ _ _ PI C) as V.
        assert (LM : pos_le (last_ia lo0 assigns) (pos_plus (i_start (ppeek eof st1)) 1)).
        { eapply pos_le_trans; [eapply in_order_le; exact K1|exact D]. }
        destruct r as [v|e].
        + destruct V as (V1 & V2).
          assert (KV : in_order (last_ia lo0 assigns) (key_marks k ++ [span_ascii_char (i_start (ppeek eof st1))] ++ value_marks v) (val_end v)).
          { eapply in_order_join; [exact K1|]. eapply in_order_join; [|exact V1]. apply in_order_one; auto. }
          assert (SN : forall c, in_order (last_ia lo0 assigns) ((key_marks k ++ [span_ascii_char (i_start (ppeek eof st1))] ++ value_marks v) ++ comma_marks c)
              (ia_end (mkia (mkassign k (i_start (ppeek eof st1)) v) c)) ->
            in_order lo0 (flat_map ia_marks (assigns ++ [mkia (mkassign k (i_start (ppeek eof st1)) v) c]))
              (last_ia lo0 (assigns ++ [mkia (mkassign k (i_start (ppeek eof st1)) v) c]))).
          { intros c X. rewrite last_ia_snoc, flat_map_app. eapply in_order_join; [exact O|]. cbn [flat_map]. rewrite app_nil_r.
            unfold ia_marks. cbn [ia_assign ia_comma as_key as_eq as_val]. rewrite <- !app_assoc in X. exact X. }
          assert (NO : in_order (last_ia lo0 assigns) ((key_marks k ++ [span_ascii_char (i_start (ppeek eof st1))] ++ value_marks v) ++ comma_marks None)
              (ia_end (mkia (mkassign k (i_start (ppeek eof st1)) v) None))).
          { cbn [comma_marks]. rewrite app_nil_r. exact KV. }
          destruct (table_end (pty eof st2)); [injection E as <-; split; [apply SN, NO|rewrite last_ia_snoc; exact V2]|].
          destruct (pty eof st2) eqn:TY2;
            try (apply IH in E; [exact E|apply SN, NO|rewrite last_ia_snoc; exact V2]).
          destruct (good_punct (val_end v) st2 IComma V2 TY2 ltac:(tauto)) as (A2 & B2 & C2 & D2).
          apply IH in E; [exact E| |rewrite last_ia_snoc; exact C2]. apply SN. eapply in_order_join; [exact KV|]. apply in_order_one; auto.
        + cbn [vspot] in V. assert (G2 : good (last_ia lo0 assigns) st2) by (eapply good_lo; [exact LM|exact V]).
          destruct (recursion_error e).
          * injection E as <-. eapply good_lo; [eapply in_order_le; exact O|exact G2].
          * apply REC in E; [exact E|exact G2].
      - injection E as <-. destruct K as (m & K1 & K2). split; [exact O|]. eapply good_lo; [eapply in_order_le; exact K1|exact K2].
      - apply REC in E; [exact E|exact K].
    Qed.

    Lemma value_last w : exists a s, value_marks w = a ++ [s] /\ s_end s = val_end w.
    Proof.
      destruct w as [l s t o q|l s z|l s f|s b|l s d|p l e|c p l e|l s]; try (exists [], s; split; reflexivity).
      - exists ([span_ascii_char p] ++ flat_map (fun a => key_marks (as_key (ia_assign a)) ++ [span_ascii_char (as_eq (ia_assign a))] ++
          value_marks (as_val (ia_assign a)) ++ comma_marks (ia_comma a)) l), (end_mark e).
        split; [cbn [value_marks]; rewrite <- app_assoc; reflexivity|destruct e; reflexivity].
      - exists ([span_ascii_char p] ++ flat_map (fun a => value_marks (av_val a) ++ comma_marks (av_comma a)) l), (end_mark e).
        split; [cbn [value_marks]; rewrite <- app_assoc; reflexivity|destruct e; reflexivity].
    Qed.
    Lemma value_end_in lo w hi : in_order lo (value_marks w) hi -> pos_in input (val_end w).
    Proof.
      intros O. destruct (value_last w) as (a & s & NE & SE). rewrite NE in O. apply in_order_app in O.
      destruct O as (m' & _ & _ & (_ & SP & _) & _). rewrite <- SE. exact SP.
    Qed.

    Lemma table_order st st0 r st' lo : parse_table eof parse_inner (i_start (ppeek eof st0)) st = Ok (r, st') ->
      i_ty (ppeek eof st0) = ICurlyLeft -> st = padv st0 -> good lo st0 -> vspot lo r st'.
    Proof.
      intros E T -> H. destruct (good_punct lo st0 ICurlyLeft H T ltac:(tauto)) as (A & B & C & D).
      unfold parse_table in E. cbv zeta in E. set (lp := i_start (ppeek eof st0)) in *.
      destruct (table_loop _ _ _ _ _ _) as [res|[]|] eqn:AL; [|discriminate]. cbn [bind] in E.
      apply (table_loop_order (pos_plus lp 1)) in AL; [|apply pos_le_refl|exact C].
      destruct res as [[e st2]|[assigns st2]].
      - injection E as <- <-. cbn [vspot]. eapply good_lo; [exact D|exact AL].
      - destruct AL as (O & G).
        assert (CLOSE : forall p st3, pos_le (last_ia (pos_plus lp 1) assigns) p -> span_in input (span_ascii_char p) -> good (pos_plus p 1) st3 ->
          spot lo (VTable lp assigns (EndPar p)) st3).
        { intros p st3 L SP G3. split; [|exact G3]. cbn [value_marks val_end end_pos end_mark].
          apply (in_order_join _ _ (pos_plus lp 1)); [apply in_order_one; auto|]. eapply in_order_join; [exact O|]. apply in_order_one; auto. }
        assert (OPEN : forall st3, good (last_ia (pos_plus lp 1) assigns) st3 ->
          spot lo (VTable lp assigns (EndNone (match rev assigns with v :: _ => ia_end v | [] => pos_plus lp 1 end))) st3).
        { intros st3 G3. split; [|exact G3]. cbn [value_marks val_end end_pos end_mark].
          apply (in_order_join _ _ (pos_plus lp 1)); [apply in_order_one; auto|]. eapply in_order_join; [exact O|]. apply in_order_one.
          - apply pos_le_refl.
          - apply span_in_pos. clear - O B. unfold last_ia in O. destruct (rev assigns) as [|v vs] eqn:R; [exact (proj1 (proj2 B))|].
            assert (assigns = rev vs ++ [v]) as -> by (rewrite <- (rev_involutive assigns), R; reflexivity).
            rewrite flat_map_app in O. apply in_order_app in O. destruct O as (m & _ & O). cbn [flat_map] in O. rewrite app_nil_r in O.
            unfold ia_marks in O. rewrite !app_assoc in O. unfold ia_end in *. destruct (ia_comma v) as [c|]; cbn [comma_marks] in O.
            + apply in_order_app in O. destruct O as (m' & _ & _ & (_ & SP & _) & _). exact SP.
            + rewrite app_nil_r in O. apply in_order_app in O. destruct O as (m' & _ & O). eapply value_end_in. exact O.
          - apply pos_le_refl. }
        destruct (i_ty (ppeek eof st2)) eqn:TY; cbv zeta in E; injection E as <- <-; try (apply OPEN; exact G).
        destruct (good_punct _ st2 ICurlyRight G TY ltac:(tauto)) as (A1 & B1 & C1 & D1). apply CLOSE; assumption.
    Qed.
  End Nested.

  Lemma parse_value_order : forall depth level st r st' lo, parse_value input eof depth level st = Ok (r, st') -> good lo st -> vspot lo r st'.
  Proof.
    induction depth as [|depth IH]; intros level st r st' lo E H; [discriminate|]. cbn [parse_value] in E. cbv zeta in E.
    destruct (i_ty (ppeek eof st)) as [s|l|l| | | | | | | | |] eqn:T; try (injection E as <- <-; exact H).
    - injection E as <- <-. destruct (good_span lo st H) as (A & (B & _) & C & D); [congruence|].
      assert (TS : token_span (ppeek eof st) = mkspan (i_start (ppeek eof st)) (st_lit_end s)) by (unfold token_span; rewrite T; reflexivity).
      rewrite TS in *. split; [apply in_order_one; auto|exact C].
    - destruct (parse_literal_value _ _ _ _ _) as [[v st1]|[]|] eqn:PL; [|discriminate]. cbn [bind] in E. injection E as <- <-.
      exact (literal_order _ _ _ _ _ PL T H).
    - destruct (_ <=? level).
      + injection E as <- <-. apply jump_good. apply good_padv. exact H.
      + eapply array_order; [|exact E|exact T|reflexivity|exact H]. intros; eapply IH; eassumption.
    - destruct (_ <=? level).
      + injection E as <- <-. apply jump_good. apply good_padv. exact H.
      + eapply table_order; [|exact E|exact T|reflexivity|exact H]. intros; eapply IH; eassumption.
    - eapply dot_order; eassumption.
  Qed.

  (** ** Headers *)
  Lemma on_line_punct lo st n ty : good lo st -> on_line n st -> i_ty (ppeek eof st) = ty ->
    (ty = ISquareLeft \/ ty = ISquareRight \/ ty = ICurlyLeft \/ ty = ICurlyRight \/ ty = IEqual \/ ty = IComma \/ ty = IDot) ->
    on_line n (padv st) /\ p_line (i_start (ppeek eof st)) = n.
  Proof.
    intros H O T Q. apply (on_line_next lo st n H O); [rewrite T; intuition congruence|rewrite T; intuition congruence|].
    unfold token_span. rewrite T. destruct Q as [->|[->|[->|[->|[->|[->| ->]]]]]]; reflexivity.
  Qed.
  Lemma opt_offset_mark l r o : opt_offset l (Some r) = Ok o -> p_line r = p_line l -> bracket_mark l o = [span_ascii_char r].
  Proof.
    unfold opt_offset, par_offset, usub. destruct (p_char l <=? p_char r) eqn:L; [|discriminate]. cbn [bind].
    destruct (_ =? 0); [discriminate|]. cbn [bind]. intros E PL. injection E as <-. cbn [bracket_mark].
    destruct l as [ll lc], r as [rl rc]. unfold pos_plus. cbn [p_line p_char] in *. subst rl. do 3 f_equal. lia.
  Qed.
  Definition opt_mark (o : option pos) : list span := match o with Some p => [span_ascii_char p] | None => [] end.
  Lemma opt_offset_marks l r o : opt_offset l r = Ok o -> (forall p, r = Some p -> p_line p = p_line l) -> bracket_mark l o = opt_mark r.
  Proof.
    destruct r as [p|]; intros E L; [apply opt_offset_mark; auto|]. injection E as <-. reflexivity.
  Qed.

  Lemma header_order l st la k ra rt st' lo : header eof l st = Ok (la, k, ra, rt, st') -> good lo st -> on_line (p_line l) st ->
    (la = None -> ra = None) /\
    (forall p, k <> None -> ra = Some p \/ rt = Some p -> p_line p = p_line l) /\
    exists m, in_order lo (opt_mark la ++ match k with Some k => key_marks k ++ opt_mark ra ++ opt_mark rt | None => [] end) m /\ good m st'.
  Proof.
    unfold header, header_key. intros E H O.
    destruct (header_open eof l st) as [la0 st0] eqn:HO.
    assert (Z : exists lo1, in_order lo (opt_mark la0) lo1 /\ good lo1 st0 /\ on_line (p_line l) st0).
    { unfold header_open, pty in HO. destruct (i_ty (ppeek eof st)) eqn:T; try (injection HO as <- <-; exists lo; split; [apply pos_le_refl|auto]).
      destruct (good_punct lo st ISquareLeft H T ltac:(tauto)) as (A & B & C & D).
      destruct (on_line_punct lo st _ ISquareLeft H O T ltac:(tauto)) as (O1 & _).
      injection HO as <- <-. exists (pos_plus (i_start (ppeek eof st)) 1). split; [apply in_order_one; auto|].
      destruct (negb _); split; assumption. }
    destruct Z as (lo1 & Z1 & Z2 & Z3). cbv zeta in E.
    destruct (parse_key eof st0) as [[kr st1]|[]|] eqn:PK; [|discriminate]. cbn [bind] in E.
    pose proof (parse_key_order _ _ _ _ PK Z2) as K. destruct kr as [k0|k0|e].
    - destruct K as (m & K1 & K2 & K3). specialize (K3 _ Z3).
      destruct (header_close1 eof la0 st1) as [ra0 st2] eqn:C1. destruct (header_close2 eof l ra0 st2) as [rt0 st3] eqn:C2.
      injection E as <- <- <- <- <-.
      assert (Y : (la0 = None -> ra0 = None) /\ (forall p, ra0 = Some p -> p_line p = p_line l) /\
        exists m1, in_order m (opt_mark ra0) m1 /\ good m1 st2 /\ on_line (p_line l) st2).
      { unfold header_close1 in C1. destruct la0 as [lp|].
        - destruct (i_ty (ppeek eof st1)) eqn:T;
            try (injection C1 as <- <-; split; [discriminate|split; [discriminate|exists m; split; [apply pos_le_refl|auto]]]).
          destruct (good_punct m st1 ISquareRight K2 T ltac:(tauto)) as (A & B & C & D).
          destruct (on_line_punct m st1 _ ISquareRight K2 K3 T ltac:(tauto)) as (O1 & O2).
          injection C1 as <- <-. split; [discriminate|]. split; [intros p G; injection G as <-; exact O2|].
          exists (pos_plus (i_start (ppeek eof st1)) 1). split; [apply in_order_one; auto|auto].
        - injection C1 as <- <-. split; [reflexivity|]. split; [discriminate|]. exists m. split; [apply pos_le_refl|auto]. }
      destruct Y as (Y1 & Y2 & m1 & Y3 & Y4 & Y5).
      assert (X : (forall p, rt0 = Some p -> p_line p = p_line l) /\ exists m2, in_order m1 (opt_mark rt0) m2 /\ good m2 st3).
      { unfold header_close2 in C2. cbv zeta in C2.
        destruct (i_ty (ppeek eof st2)) eqn:T;
            try (injection C2 as <- <-; split; [discriminate|exists m1; split; [apply pos_le_refl|exact Y4]]).
        destruct (good_punct m1 st2 ISquareRight Y4 T ltac:(tauto)) as (A & B & C & D).
        destruct (on_line_punct m1 st2 _ ISquareRight Y4 Y5 T ltac:(tauto)) as (O1 & O2).
        injection C2 as <- <-. split; [intros p G; injection G as <-; exact O2|].
        exists (pos_plus (i_start (ppeek eof st2)) 1). split; [apply in_order_one; auto|]. destruct ra0 as [a|]; [destruct (negb _)|]; exact C. }
      destruct X as (X1 & m2 & X2 & X3).
      split; [exact Y1|]. split; [intros p _ [G|G]; auto|]. exists m2. split; [|exact X3].
      eapply in_order_join; [exact Z1|]. eapply in_order_join; [exact K1|]. eapply in_order_join; eassumption.
    - injection E as <- <- <- <- <-. destruct K as (m & K1 & K2). split; [reflexivity|]. split; [intros p _ [G|G]; discriminate|].
      exists m. split; [|exact K2]. cbn [opt_mark]. rewrite !app_nil_r. eapply in_order_join; eassumption.
    - destruct (header_close1 eof la0 _) as [ra0 st2] eqn:C1. destruct (header_close2 eof l ra0 st2) as [rt0 st3] eqn:C2.
      injection E as <- <- <- <- <-. split.
      { intros ->. injection C1 as <- _. reflexivity. }
      split; [intros p X; destruct X; reflexivity|]. exists lo1. rewrite app_nil_r. split; [exact Z1|].
      pose proof (recover_good header_stop _ _ (K : good _ (perr st1 e))) as R.
      assert (G2 : good lo1 st2).
      { unfold header_close1 in C1. destruct la0 as [lp|]; [|injection C1 as _ <-; exact R].
        destruct (i_ty _) in C1; injection C1 as _ <-; try exact R. apply good_padv. exact R. }
      unfold header_close2 in C2. cbv zeta in C2. destruct (i_ty _) in C2; injection C2 as _ <-; try exact G2.
      destruct ra0 as [a|]; [destruct (negb _)|]; apply good_padv; exact G2.
  Qed.

  (** ** Statements *)
  Definition rgood (r : root) : Prop :=
    exists lo, in_order pos_zero (doc_marks (rev (rt_asts r)) ++ map c_span (rt_prev r)) lo /\ good lo (rt_st r).

  Lemma in_order_drop lo a b hi : in_order lo (a ++ b) hi -> in_order lo a hi.
  Proof. intros H. apply in_order_app in H. destruct H as (m & A & B). eapply in_order_hi; [exact A|]. eapply in_order_le. exact B. Qed.
  Lemma in_order_mid lo a b c hi : in_order lo (a ++ b ++ c) hi -> in_order lo (a ++ c) hi.
  Proof.
    intros H. apply in_order_app in H. destruct H as (m & A & B). apply in_order_app in B. destruct B as (m' & B & C).
    eapply in_order_join; [exact A|]. eapply in_order_lo; [|exact C]. eapply in_order_le. exact B.
  Qed.
  Lemma doc_marks_app a b : doc_marks (a ++ b) = doc_marks a ++ doc_marks b.
  Proof. apply flat_map_app. Qed.
  Lemma doc_marks_comments cs : doc_marks (map AComment cs) = map c_span cs.
  Proof. induction cs as [|c cs IH]; [reflexivity|]. cbn. f_equal. exact IH. Qed.
  Lemma doc_marks_cons a l : doc_marks (rev (a :: l)) = doc_marks (rev l) ++ ast_marks a.
  Proof. cbn [rev]. rewrite doc_marks_app. cbn. rewrite app_nil_r. reflexivity. Qed.
  Lemma doc_marks_free l cs : doc_marks (rev (rev (map AComment cs) ++ l)) = doc_marks (rev l) ++ map c_span cs.
  Proof. rewrite rev_app_distr, rev_involutive, doc_marks_app, doc_marks_comments. reflexivity. Qed.

  Lemma append_comment_marks cr l id c' l' : append_comment cr l id = Ok (c', l') -> flat_map assign_marks l' = flat_map assign_marks l.
  Proof.
    unfold append_comment. destruct (rev l) as [|a r] eqn:R; intros E.
    - destruct (range_append _ _) as [x|[]|]; [|discriminate]. cbn [bind] in E. injection E as _ <-. reflexivity.
    - destruct (range_append _ _) as [x|[]|]; [|discriminate]. cbn [bind] in E. injection E as _ <-.
      assert (l = rev r ++ [a]) as -> by (rewrite <- (rev_involutive l), R; reflexivity).
      rewrite !flat_map_app. reflexivity.
  Qed.

  Lemma root_comment_order c r r' lo : root_comment c r = Ok r' ->
    in_order pos_zero (doc_marks (rev (rt_asts r)) ++ map c_span (rt_prev r)) lo ->
    pos_le lo (s_start (c_span c)) -> span_in input (c_span c) -> good (s_end (c_span c)) (rt_st r) -> rgood r'.
  Proof.
    unfold root_comment. intros E O L SI G.
    assert (LE : pos_le lo (s_end (c_span c))) by (eapply pos_le_trans; [exact L|exact (proj2 (proj2 SI))]).
    destruct (rt_newline r).
    - cbn [store_comment] in E. destruct (rt_asts r) as [|[a|t|t|c0] l] eqn:A; try discriminate.
      + destruct (range_append _ _) as [x|[]|]; [|discriminate]. cbn [bind] in E. injection E as <-.
        exists lo. split; [|eapply good_lo; eassumption]. cbn [rt_asts rt_prev]. rewrite doc_marks_cons in *. exact O.
      + destruct (append_comment _ _ _) as [[x as']|[]|] eqn:AC; [|discriminate]. cbn [bind] in E. injection E as <-.
        exists lo. split; [|eapply good_lo; eassumption]. cbn [rt_asts rt_prev]. rewrite doc_marks_cons in *.
        cbn [ast_marks tb_header tb_assigns] in *. rewrite (append_comment_marks _ _ _ _ _ AC). exact O.
      + destruct (append_comment _ _ _) as [[x as']|[]|] eqn:AC; [|discriminate]. cbn [bind] in E. injection E as <-.
        exists lo. split; [|eapply good_lo; eassumption]. cbn [rt_asts rt_prev]. rewrite doc_marks_cons in *.
        cbn [ast_marks ae_header ae_assigns] in *. rewrite (append_comment_marks _ _ _ _ _ AC). exact O.
    - injection E as <-. exists (s_end (c_span c)). split; [|exact G]. cbn [rt_asts rt_prev]. rewrite map_app, app_assoc.
      eapply in_order_join; [exact O|]. apply in_order_one; auto.
  Qed.

  Lemma set_rst_good r st : (forall lo, good lo (rt_st r) -> good lo st) -> rgood r -> rgood (set_rst r st).
  Proof. intros F (lo & O & G). exists lo. split; [exact O|]. apply F. exact G. Qed.

  Lemma root_header_order r r' : root_header eof (ppeek eof (rt_st r)) r = Ok r' -> i_ty (ppeek eof (rt_st r)) = ISquareLeft -> rgood r -> rgood r'.
  Proof.
    unfold root_header. cbv zeta. intros E T (lo & O & G). set (l := i_start (ppeek eof (rt_st r))) in *.
    destruct (header eof l _) as [[[[[la k] ra] rt] st]|[]|] eqn:HD; [|discriminate]. cbn [bind] in E.
    destruct (good_punct lo (rt_st r) ISquareLeft G T ltac:(tauto)) as (A & B & C & D). fold l in A, B, C, D.
    assert (OL : on_line (p_line l) (padv (rt_st r))).
    { refine (proj1 (on_line_punct lo (rt_st r) (p_line l) ISquareLeft G _ T ltac:(tauto))).
      unfold on_line, l, ppeek. destruct (pc_rest (ps_cur (rt_st r))); [exact I|reflexivity]. }
    destruct (header_order _ _ _ _ _ _ _ _ HD C OL) as (H1 & H2 & m & H3 & H4).
    assert (LM : pos_le lo m) by (eapply pos_le_trans; [exact D|]; eapply in_order_le; exact H3).
    destruct (rt_newline r && _).
    { injection E as <-. exists lo. split; [exact O|]. cbn [rt_st set_rst]. eapply good_lo; [exact LM|].
      exact (recover_good line_stop _ _ H4). }
    destruct (find_associated_comments _ _) as [n|[]|]; [|discriminate]. cbn [bind] in E.
    destruct (store_comments _ _ _ _) as [[s cs]|[]|]; [|discriminate]. cbn [bind] in E.
    assert (O1 : in_order pos_zero (doc_marks (rev (rt_asts r)) ++ map c_span (firstn (N.to_nat n) (rt_prev r))) lo).
    { rewrite <- (firstn_skipn (N.to_nat n) (rt_prev r)), map_app, app_assoc in O. eapply in_order_drop. exact O. }
    assert (FIN : forall a, ast_marks a = [span_ascii_char l] ++ opt_mark la ++ match k with Some k => key_marks k ++ opt_mark ra ++ opt_mark rt | None => [] end ->
      r' = mkroot (set_store (if rt_newline r then perr st (EMissingNewline l) else st) s)
            (a :: rev (map AComment (firstn (N.to_nat n) (rt_prev r))) ++ rt_asts r) [] true -> rgood r').
    { intros a AM ->. exists m. split; [|destruct (rt_newline r); exact H4]. cbn [rt_asts rt_prev map]. rewrite app_nil_r, doc_marks_cons, doc_marks_free, AM.
      eapply in_order_join; [exact O1|]. eapply in_order_join; [|exact H3]. apply in_order_one; auto. }
    destruct la as [la|].
    - unfold new_aheader in E. cbn [fst snd] in E.
      destruct (opt_offset l ra) as [oa|[]|] eqn:OA; [|discriminate]. cbn [bind] in E.
      destruct (opt_offset l rt) as [ob|[]|] eqn:OB; [|discriminate]. cbn [bind] in E. injection E as <-.
      eapply FIN; [|reflexivity]. cbn [ast_marks ae_header ae_assigns flat_map]. rewrite app_nil_r. unfold aheader_marks.
      cbn [ah_l_pars ah_key ah_r_offs fst snd opt_mark app]. f_equal. f_equal. destruct k as [k|]; [|reflexivity].
      rewrite (opt_offset_marks _ _ _ OA), (opt_offset_marks _ _ _ OB); [reflexivity| |];
        intros p X; apply H2; [discriminate|auto|discriminate|auto].
    - unfold new_theader in E. destruct (opt_offset l rt) as [ob|[]|] eqn:OB; [|discriminate]. cbn [bind] in E. injection E as <-.
      eapply FIN; [|reflexivity]. cbn [ast_marks tb_header tb_assigns flat_map]. rewrite app_nil_r. unfold theader_marks.
      cbn [th_l_par th_key th_r_off opt_mark app]. f_equal. destruct k as [k|]; [|reflexivity]. rewrite (H1 eq_refl). cbn [opt_mark app].
      rewrite (opt_offset_marks _ _ _ OB); [reflexivity|]. intros p X; apply H2; [discriminate|auto].
  Qed.

  Lemma push_assign_marks a l : doc_marks (rev (push_assign a l)) = doc_marks (rev l) ++ assign_marks a.
  Proof.
    unfold push_assign. destruct l as [|[x|t|t|c] l]; rewrite !doc_marks_cons; try reflexivity;
      cbn [ast_marks tb_header tb_assigns ae_header ae_assigns]; rewrite flat_map_app; cbn [flat_map]; rewrite app_nil_r, !app_assoc; reflexivity.
  Qed.
  Lemma place_free_marks s free l s' l' level : place_free s free l = Ok (s', l', level) ->
    doc_marks (rev l') = doc_marks (rev l) \/ doc_marks (rev l') = doc_marks (rev l) ++ map c_span free.
  Proof.
    unfold place_free. destruct l as [|[x|t|t|c] l]; intros E; try (injection E as _ <- _; right; apply doc_marks_free).
    - destruct (add_comments _ _ _ _) as [[s1 c]|[]|]; [|discriminate]. cbn [bind] in E. injection E as _ <- _. left. rewrite !doc_marks_cons. reflexivity.
    - destruct (add_comments _ _ _ _) as [[s1 c]|[]|]; [|discriminate]. cbn [bind] in E. injection E as _ <- _. left. rewrite !doc_marks_cons. reflexivity.
  Qed.

  Lemma root_assign_order depth r r' : root_assign input eof depth (ppeek eof (rt_st r)) r = Ok r' -> rgood r -> rgood r'.
  Proof.
    unfold root_assign. cbv zeta. intros E (lo & O & G).
    assert (ST : forall st, good lo st -> rgood (set_rst r st)) by (intros st X; exists lo; split; [exact O|exact X]).
    destruct (parse_key eof (rt_st r)) as [[kr st]|[]|] eqn:PK; [|discriminate]. cbn [bind] in E.
    pose proof (parse_key_order _ _ _ _ PK G) as K. destruct kr as [k|k|e].
    - destruct K as (m & K1 & K2 & _). assert (LM : pos_le lo m) by (eapply in_order_le; exact K1).
      assert (OTHER : r' = set_rst r (if rt_newline r then expected_newline eof (ppeek eof (rt_st r)) (pmark (rt_st r)) (recover_on line_stop st)
                           else perr (recover_on line_stop st) (EExpectedEqOrDotFound (token_fmt_str (ppeek eof st)) (token_span (ppeek eof st)))) -> rgood r').
      { intros ->. apply ST. eapply good_lo; [exact LM|]. destruct (rt_newline r); exact (recover_good line_stop _ _ K2). }
      destruct (i_ty (ppeek eof st)) eqn:T; try (injection E as <-; apply OTHER; reflexivity). clear OTHER.
      destruct (good_punct m st IEqual K2 T ltac:(tauto)) as (A & B & C & D).
      destruct (rt_newline r && _).
      { injection E as <-. apply ST. eapply good_lo; [exact LM|]. eapply good_lo; [exact D|]. exact (recover_good line_stop _ _ C). }
      destruct (find_associated_comments _ _) as [n|[]|]; [|discriminate]. cbn [bind] in E.
      destruct (place_free _ _ _) as [[[s l] level]|[]|] eqn:PF; [|discriminate]. cbn [bind] in E.
      destruct (store_comments _ _ _ _) as [[s1 cs]|[]|]; [|discriminate]. cbn [bind] in E.
      destruct (parse_value _ _ _ _ _) as [[v st1]|[]|] eqn:PV; [|discriminate]. cbn [bind] in E.
      assert (OL : in_order pos_zero (doc_marks (rev l)) lo).
      { destruct (place_free_marks _ _ _ _ _ _ PF) as [-> | ->]; [eapply in_order_drop; exact O|].
        rewrite <- (firstn_skipn (N.to_nat n) (rt_prev r)), map_app, app_assoc in O. eapply in_order_drop. exact O. }
      eapply parse_value_order in PV; [|instantiate (1 := pos_plus (i_start (ppeek eof st)) 1); destruct (rt_newline r); exact C].
      destruct v as [v|e]; cbn [vspot] in PV.
      + destruct PV as (V1 & V2). destruct (range_extend_to _ _) as [c2|[]|]; [|discriminate]. cbn [bind] in E. injection E as <-.
        exists (val_end v). split; [|exact V2]. cbn [rt_asts rt_prev map]. rewrite app_nil_r, push_assign_marks.
        eapply in_order_join; [exact OL|]. unfold assign_marks. cbn [ta_assign as_key as_eq as_val].
        eapply in_order_join; [exact K1|]. eapply in_order_join; [|exact V1]. apply in_order_one; auto.
      + injection E as <-. exists lo. cbn [rt_asts rt_prev rt_st map]. rewrite app_nil_r. split; [exact OL|].
        eapply good_lo; [exact LM|]. eapply good_lo; [exact D|]. exact (recover_good line_stop _ _ (PV : good _ (perr st1 e))).
    - injection E as <-. destruct K as (m & K1 & K2). apply ST. eapply good_lo; [eapply in_order_le; exact K1|]. destruct (rt_newline r); exact K2.
    - injection E as <-. apply ST. destruct (rt_newline r); exact (recover_good line_stop _ _ K).
  Qed.

  Lemma root_loop_order : forall fuel r r', root_loop input eof fuel r = Ok r' -> rgood r -> rgood r'.
  Proof.
    induction fuel as [|fuel IH]; intros r r' E H; [discriminate|]. cbn [root_loop] in E. cbv zeta in E.
    assert (AS : (let? r1 := root_assign input eof max_depth (ppeek eof (rt_st r)) r in root_loop input eof fuel r1) = Ok r' -> rgood r').
    { intros X. destruct (root_assign _ _ _ _ _) as [r1|[]|] eqn:RA; [|discriminate]. cbn [bind] in X.
      eapply IH; [exact X|]. eapply root_assign_order; eassumption. }
    destruct (i_ty (ppeek eof (rt_st r))) eqn:T; try (apply AS; exact E).
    - destruct (root_comment _ _) as [r1|[]|] eqn:RC; [|discriminate]. cbn [bind] in E. eapply IH; [exact E|].
      destruct H as (lo & O & G). destruct (good_span lo (rt_st r) G) as (A & (B & _) & C & D); [congruence|].
      assert (TS : token_span (ppeek eof (rt_st r)) = c_span (mk_comment r0 (i_start (ppeek eof (rt_st r))))) by (unfold token_span; rewrite T; reflexivity).
      rewrite TS in *. eapply root_comment_order; [exact RC|exact O| |exact B|exact C].
      exact A.
    - destruct (root_header _ _ _) as [r1|[]|] eqn:RH; [|discriminate]. cbn [bind] in E. eapply IH; [exact E|]. eapply root_header_order; eassumption.
    - eapply IH; [exact E|]. destruct H as (lo & O & G). exists lo. split; [exact O|]. apply good_padv. exact G.
    - injection E as <-. exact H.
  Qed.

  Theorem parse_items_order items a es : parse_items input eof items = Ok (a, es) -> ahead pos_zero items ->
    in_order pos_zero (doc_marks (as_asts a)) (pos_at input).
  Proof.
    unfold parse_items. intros E H. destruct (root_loop _ _ _ _) as [r|[]|] eqn:RL; [|discriminate]. cbn [bind] in E. injection E as <- _.
    apply root_loop_order in RL; [|exists pos_zero; split; [apply pos_le_refl|exact H]].
    destruct RL as (lo & O & G). cbn [as_asts]. rewrite doc_marks_free. eapply in_order_hi; [exact O|]. eapply good_end. exact G.
  Qed.
End Order.
