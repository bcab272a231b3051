(** What the parser does on a line without brackets: it does not go past the
    end of the line, and it reports nothing elsewhere. *)
From Verif Require Import Base BaseProofs CommonModel TomlError LitModel LexModel ParseModel ParseMarks ParseOrder OnLit.

Section On.
  Context (input : list N) (eof : item) (L : N) (nlx : item) (below : list item).
  Notation onspan := (onspan L).
  Notation eon := (eon L).

  (** An item on the line, and one that is neither a line break nor a bracket. *)
  Definition hok (x : item) : Prop := p_line (i_start x) = L /\ match i_ty x with IString s => p_line (st_lit_end s) = L | _ => True end.
  Definition aok (x : item) : Prop := hok x /\ i_ty x <> INewline /\ i_ty x <> ISquareLeft.
  Context (LNL : hok nlx) (TNL : i_ty nlx = INewline).
  Definition is_curly (x : item) : bool := match i_ty x with ICurlyLeft => true | _ => false end.
  Definition curlies (a : list item) : N := N.of_nat (length (filter is_curly a)).
  Lemma curlies_cons x a : curlies (x :: a) = (if is_curly x then 1 else 0) + curlies a.
  Proof. unfold curlies. cbn [filter]. destruct (is_curly x); cbn [length]; lia. Qed.
  (** What is left is a part of the line with at most [k] braces, the line
      break, and what is below. *)
  Definition tl_ok (k : N) (l : list item) : Prop := exists a, l = a ++ nlx :: below /\ Forall aok a /\ curlies a <= k.
  Definition on (k : N) (st : pst) : Prop := tl_ok k (pc_rest (ps_cur st)) /\ Forall eon (ps_errs st).
  Definition von (v : value) : Prop := p_line (val_end v) = L.

  Lemma tl_weak k k' l : k <= k' -> tl_ok k l -> tl_ok k' l.
  Proof. intros H (a & E & A & C). exists a. split; [exact E|]. split; [exact A|lia]. Qed.
  Lemma on_weak k k' st : k <= k' -> on k st -> on k' st.
  Proof. intros H (A & B). split; [eapply tl_weak; eassumption|exact B]. Qed.
  Lemma tl_head k l : tl_ok k l -> exists x r, l = x :: r /\ hok x /\ i_ty x <> ISquareLeft /\ (i_ty x <> INewline -> tl_ok k r /\ (i_ty x = ICurlyLeft -> 1 <= k /\ tl_ok (k - 1) r)).
  Proof.
    intros (a & -> & A & C). destruct a as [|x a].
    - exists nlx, below. split; [reflexivity|]. split; [exact LNL|]. rewrite TNL. split; [discriminate|congruence].
    - exists x, (a ++ nlx :: below). pose proof (Forall_inv A) as (H1 & H2 & H3). rewrite curlies_cons in C. split; [reflexivity|]. split; [exact H1|]. split; [exact H3|].
      intros _. split; [exists a; split; [reflexivity|]; split; [exact (Forall_inv_tail A)|destruct (is_curly x); lia]|].
      intros TY. unfold is_curly in C. rewrite TY in C. split; [lia|]. exists a. split; [reflexivity|]. split; [exact (Forall_inv_tail A)|lia].
  Qed.
  Lemma on_peek k st : on k st -> hok (ppeek eof st).
  Proof. intros (A & _). unfold ppeek. destruct (tl_head _ _ A) as (x & r & -> & H & _). exact H. Qed.
  Lemma on_no_square k st : on k st -> pty eof st <> ISquareLeft.
  Proof. intros (A & _). unfold pty, ppeek. destruct (tl_head _ _ A) as (x & r & -> & _ & H & _). exact H. Qed.
  Lemma peek_on k st : on k st -> p_line (i_start (ppeek eof st)) = L.
  Proof. intros H. exact (proj1 (on_peek _ _ H)). Qed.
  Lemma on_adv k st : on k st -> i_ty (ppeek eof st) <> INewline -> on k (padv st).
  Proof.
    intros (A & B) NE. unfold ppeek in NE. split; [|exact B]. unfold padv, set_pcur, cadv. cbn [ps_cur].
    destruct (tl_head _ _ A) as (x & r & E & _ & _ & H). rewrite E in *. cbn [pc_rest hd] in *. exact (proj1 (H NE)).
  Qed.
  Lemma on_adv_curly k st : on k st -> i_ty (ppeek eof st) = ICurlyLeft -> 1 <= k /\ on (k - 1) (padv st).
  Proof.
    intros (A & B) TY. unfold ppeek in TY. unfold on, padv, set_pcur, cadv. cbn [ps_cur ps_errs].
    destruct (tl_head _ _ A) as (x & r & E & _ & _ & H). rewrite E in *. cbn [pc_rest hd] in *.
    destruct (proj2 (H ltac:(congruence)) TY) as (H1 & H2). auto.
  Qed.
  Lemma on_perr k st e : on k st -> eon e -> on k (perr st e).
  Proof. intros (A & C) E. split; [exact A|]. cbn. apply Forall_app. auto. Qed.
  Lemma on_store k st s : on k st -> on k (set_store st s).
  Proof. intros H. exact H. Qed.
  Lemma on_preset k st m : on k st -> on k (preset st m).
  Proof. intros (A & C). split; [exact A|]. cbn. apply Forall_forall. intros x X. rewrite Forall_forall in C. apply C. rewrite <- (firstn_skipn m). apply in_or_app. auto. Qed.
  Lemma on_cur k st c : tl_ok k (pc_rest c) -> on k st -> on k (set_pcur st c).
  Proof. intros A (_ & C). split; [exact A|exact C]. Qed.
  Lemma on_skip p k : p INewline = true -> forall l prev, tl_ok k l -> tl_ok k (pc_rest (skip_items p prev l)).
  Proof.
    intros PN l. induction l as [|x r IH]; intros prev A; destruct (tl_head _ _ A) as (y & r' & E & _ & _ & H); [discriminate|]. injection E as -> ->. cbn [skip_items].
    destruct (p (i_ty y)) eqn:PY; [exact A|]. apply IH. apply H. congruence.
  Qed.
  Lemma on_recover p k st : p INewline = true -> on k st -> on k (recover_on p st).
  Proof. intros PN H. apply on_cur; [apply on_skip; [exact PN|exact (proj1 H)]|exact H]. Qed.

  (** ** Errors *)
  Lemma token_on x : hok x -> onspan (token_span x).
  Proof. intros (A & B). unfold OnLit.onspan. rewrite token_start. split; [exact A|]. unfold token_span. destruct (i_ty x); try exact A. exact B. Qed.
  Lemma e_here s e : err_span e = s -> err_hint e = None -> onspan s -> eon e.
  Proof. intros E H P. split; [rewrite E; exact P|]. rewrite H. discriminate. Qed.
  Lemma e_tok x e : err_span e = token_span x -> err_hint e = None -> hok x -> eon e.
  Proof. intros E H P. eapply e_here; [exact E|exact H|]. apply token_on. exact P. Qed.
  Lemma e_hint s p e : err_span e = s -> err_hint e = Some (span_ascii_char p) -> onspan s -> p_line p = L -> eon e.
  Proof. intros E H P Q. split; [rewrite E; exact P|]. rewrite H. intros h X. injection X as <-. split; exact Q. Qed.
  Lemma e_pos p q e : err_span e = mkspan p q -> err_hint e = None -> p_line p = L -> p_line q = L -> eon e.
  Proof. intros E H P Q. eapply e_here; [exact E|exact H|split; assumption]. Qed.
  Lemma on_expected k token m st : on k st -> p_line (i_start token) = L -> on k (expected_newline eof token m st).
  Proof. intros H T. apply on_perr; [apply on_preset; exact H|]. eapply e_pos; [reflexivity|reflexivity|exact T|exact (peek_on _ _ H)]. Qed.

  (** ** Keys *)
  Definition kron (k : keyres) : Prop := match k with KeyErr e => eon e | _ => True end.
  Lemma on_ident k st : on k st ->
    match parse_ident (ppeek eof st) st with
    | inl (i, st1) => ps_cur st1 = ps_cur st /\ i_ty (ppeek eof st) <> INewline /\ on k st1
    | inr (r, st1) => kron r /\ on k st1
    end.
  Proof.
    intros H. pose proof (on_peek _ _ H) as PQ. pose proof PQ as (P & Q). unfold parse_ident.
    assert (D : eon (EExpectedKeyFound (token_fmt_str (ppeek eof st)) (token_span (ppeek eof st))) /\ on k st).
    { split; [|exact H]. eapply e_tok; [reflexivity|reflexivity|exact PQ]. }
    destruct (i_ty (ppeek eof st)) as [s|r|r| | | | | | | | |] eqn:E; try exact D.
    - destruct (st_quote s); cbv zeta.
      2,4: (split; [|exact H]; eapply e_pos; [reflexivity|reflexivity|exact P|exact Q]).
      all: destruct (_ && _); [split; [exact I|apply on_adv; [exact H|rewrite E; discriminate]]|split; [reflexivity|split; [discriminate|exact H]]].
    - cbv zeta. destruct (find_invalid 0 (sr_text r)) as [[off c]|].
      + assert (EL : eon (EInvalidCharInIdentifier c (pos_plus (i_start (ppeek eof st)) off))) by (eapply e_here; [reflexivity|reflexivity|split; exact P]).
        destruct (forallb _ _); [split; [exact EL|exact H]|]. split; [reflexivity|]. split; [discriminate|apply on_perr; assumption].
      + split; [reflexivity|]. split; [discriminate|exact H].
  Qed.
  Lemma on_key_loop k : forall fuel ids st r st', key_loop eof fuel ids st = Ok (r, st') -> on k st -> kron r /\ on k st'.
  Proof.
    induction fuel as [|f IH]; intros ids st r st' E H; [discriminate|]. cbn [key_loop] in E.
    pose proof (on_ident k st H) as ID. destruct (parse_ident _ _) as [[i s1]|[kr s1]].
    2: { injection E as <- <-. exact ID. }
    destruct ID as (PC & P & H1). cbv zeta in E.
    assert (H2 : on k (padv s1)) by (apply on_adv; [exact H1|]; unfold ppeek in *; rewrite PC; exact P).
    destruct (pty eof (padv s1)) eqn:T; try (injection E as <- <-; split; [exact I|exact H2]).
    eapply IH; [exact E|]. apply on_adv; [exact H2|]. unfold pty in T. rewrite T. discriminate.
  Qed.
  Lemma on_key k st r st' : parse_key eof st = Ok (r, st') -> on k st -> kron r /\ on k st'.
  Proof. intros E H. eapply on_key_loop; [exact E|exact H]. Qed.

  (** ** Scalars *)
  Lemma on_combine_loop k : forall l prev lit sp c lit' sp', combine_loop input prev l lit sp = Ok (c, lit', sp') -> tl_ok k l ->
    s_start sp' = s_start sp /\ p_line (s_end sp') = p_line (s_end sp) /\ tl_ok k (pc_rest c).
  Proof.
    induction l as [|t l IH]; intros prev lit sp c lit' sp' E A; cbn [combine_loop] in E.
    - injection E as <- _ <-. auto.
    - destruct (tl_head _ _ A) as (y & r' & EQ & _ & _ & H). injection EQ as <- <-.
      destruct (negb _); [injection E as <- _ <-; auto|].
      destruct (i_ty t) as [s|n|r| | | | | | | | |] eqn:TY; try (injection E as <- _ <-; auto).
      + destruct (concat_strs _ _ _) as [l1|[]|]; [|discriminate]. cbn [bind] in E. apply IH in E; [exact E|]. apply H. congruence.
      + destruct (extend_str_back _ _ _) as [l1|[]|]; [|discriminate]. cbn [bind] in E. apply IH in E; [exact E|]. apply H. congruence.
  Qed.
  Lemma on_combine k st lit sp st' lit' sp' : combine_adjacent input st lit sp = Ok (st', lit', sp') -> on k st ->
    s_start sp' = s_start sp /\ p_line (s_end sp') = p_line (s_end sp) /\ on k st'.
  Proof.
    unfold combine_adjacent. intros E H. destruct (combine_loop _ _ _ _ _) as [[[c l1] s1]|[]|] eqn:CL; [|discriminate]. cbn [bind] in E. injection E as <- _ <-.
    destruct (on_combine_loop k _ _ _ _ _ _ _ CL (proj1 H)) as (X & Y & Z). split; [exact X|]. split; [exact Y|]. apply on_cur; assumption.
  Qed.
  Definition sp_ok (sp : span) : Prop := onspan sp.
  Lemma von_one v sp : val_end v = s_end sp -> sp_ok sp -> von v.
  Proof. intros E (A & B). unfold von. rewrite E. exact B. Qed.
  Lemma on_time_part k st lit sp d v st' : try_to_parse_time_part input eof st lit sp d = Ok (v, st') -> on k st -> sp_ok sp -> von v /\ on k st'.
  Proof.
    unfold try_to_parse_time_part. intros E H SP.
    assert (D : v = VDateTime lit sp (LocalDate d) -> st' = st -> von v /\ on k st') by (intros -> ->; split; [eapply von_one; [reflexivity|exact SP]|exact H]).
    destruct (pty eof st) as [s|r|r| | | | | | | | |] eqn:TY; try (injection E as <- <-; apply D; reflexivity). cbv zeta in E.
    destruct (combine_adjacent _ _ _ _) as [[[s1 tl] tsp]|[]|] eqn:CA; [|discriminate]. cbn [bind] in E.
    destruct (on_combine k _ _ _ _ _ _ CA) as (X & Y & Z); [apply on_adv; [exact H|unfold pty in TY; congruence]|]. cbn [span_from_pos_len s_start s_end pos_plus p_line] in X, Y.
    pose proof (peek_on _ _ H) as P.
    assert (TS : sp_ok tsp) by (split; [rewrite X|rewrite Y]; exact P).
    match type of E with context [perr s1 ?e] => set (s2 := if p_char (s_end sp) + 1 <? p_char (s_start tsp) then perr s1 e else s1) in * end.
    assert (H2 : on k s2). { unfold s2. destruct (_ <? _); [|exact Z]. apply on_perr; [exact Z|]. eapply e_here; [reflexivity|reflexivity|]. split; cbn; [exact (proj2 SP)|exact (proj1 TS)]. }
    clearbody s2. destruct (concat_strs _ _ _) as [l2|[]|]; [|discriminate]. cbn [bind] in E.
    assert (AC : sp_ok (span_across sp tsp)) by (split; [exact (proj1 SP)|exact (proj2 TS)]).
    pose proof (on_time_offset L tsp (proj1 TS) (proj2 TS) (0, sr_text tl)) as LT.
    destruct (parse_time_and_offset _ _) as [[tm o]|e|]; [| |discriminate]; injection E as <- <-.
    - split; [eapply von_one; [reflexivity|exact AC]|exact H2].
    - split; [eapply von_one; [reflexivity|exact AC]|apply on_perr; assumption].
  Qed.
  Lemma on_combine_time k st lit sp v st' : try_combine_time_part input eof st lit sp = Ok (v, st') -> on k st -> sp_ok sp -> von v /\ on k st'.
  Proof.
    unfold try_combine_time_part. intros E H SP.
    assert (D : v = VInvalid lit sp -> st' = st -> von v /\ on k st') by (intros -> ->; split; [eapply von_one; [reflexivity|exact SP]|exact H]).
    destruct (pty eof st) as [s|r|r| | | | | | | | |] eqn:TY; try (injection E as <- <-; apply D; reflexivity). cbv zeta in E.
    destruct (_ <? _); [injection E as <- <-; apply D; reflexivity|]. destruct (concat_strs _ _ _) as [l2|[]|]; [|discriminate]. cbn [bind] in E.
    destruct (combine_adjacent _ _ _ _) as [[[s1 tl] tsp]|[]|] eqn:CA; [|discriminate]. cbn [bind] in E. injection E as <- <-.
    destruct (on_combine k _ _ _ _ _ _ CA) as (X & Y & Z); [apply on_adv; [exact H|unfold pty in TY; congruence]|]. cbn [span_across span_from_pos_len s_start s_end pos_plus p_line] in X, Y.
    pose proof (peek_on _ _ H) as P. split; [eapply von_one; [reflexivity|]|exact Z]. split; [rewrite X; exact (proj1 SP)|rewrite Y; exact P].
  Qed.
  Lemma on_literal_value k st t r v st' : parse_literal_value input eof st t r = Ok (v, st') -> on k st -> i_ty (ppeek eof st) <> INewline -> p_line (i_start t) = L -> von v /\ on k st'.
  Proof.
    unfold parse_literal_value. intros E H NE P. destruct (combine_adjacent _ _ _ _) as [[[s1 l1] sp]|[]|] eqn:CA; [|discriminate]. cbn [bind] in E.
    destruct (on_combine k _ _ _ _ _ _ CA (on_adv _ _ H NE)) as (X & Y & Z). cbn [span_from_pos_len s_start s_end pos_plus p_line] in X, Y.
    assert (SP : sp_ok sp) by (split; [rewrite X|rewrite Y]; exact P).
    pose proof (on_literal L sp (proj1 SP) (proj2 SP) (sr_text l1)) as (LV & LI).
    destruct (parse_literal (sr_text l1) sp) as [[]|e|]; [| | | | | | |discriminate];
      try (injection E as <- <-; split; [eapply von_one; [reflexivity|exact SP]|first [exact Z|apply on_perr; assumption]]).
    - eapply on_time_part; eassumption.
    - cbv zeta in E. pose proof (on_perr _ _ _ Z LI) as Z1. destruct (negb _); [eapply on_combine_time; eassumption|].
      injection E as <- <-. split; [eapply von_one; [reflexivity|exact SP]|exact Z1].
  Qed.
  Definition vron (r : vres) : Prop := match r with VOk v => von v | VErr e => eon e end.
  Lemma on_dot k st t r st' : parse_dot_value input eof st t = Ok (r, st') -> on k st -> i_ty (ppeek eof st) <> INewline -> hok t -> vron r /\ on k st'.
  Proof.
    unfold parse_dot_value. cbv zeta. intros E H NE PQ. pose proof PQ as (P & Q). set (s1 := perr (padv st) _) in *.
    assert (H1 : on k s1) by (apply on_perr; [apply on_adv; assumption|eapply e_here; [reflexivity|reflexivity|split; exact P]]). clearbody s1.
    assert (D : r = VErr (EExpectedValueFound (token_fmt_str t) (token_span t)) -> st' = s1 -> vron r /\ on k st').
    { intros -> ->. split; [|exact H1]. eapply e_tok; [reflexivity|reflexivity|exact PQ]. }
    destruct (i_ty (ppeek eof s1)) as [s|l|l| | | | | | | | |] eqn:TY; try (injection E as <- <-; apply D; reflexivity).
    destruct (pos_eqb _ _); [|injection E as <- <-; apply D; reflexivity]. destruct (extend_str_front _ _ _) as [l1|[]|]; [|discriminate]. cbn [bind] in E.
    destruct (combine_adjacent _ _ _ _) as [[[s2 l2] sp]|[]|] eqn:CA; [|discriminate]. cbn [bind] in E. injection E as <- <-.
    destruct (on_combine k _ _ _ _ _ _ CA) as (X & Y & Z); [apply on_adv; [exact H1|congruence]|]. cbn [span_from_pos_len s_start s_end pos_plus p_line] in X, Y.
    split; [|exact Z]. eapply von_one; [reflexivity|]. split; [rewrite X|rewrite Y]; exact P.
  Qed.

  (** ** Inline tables *)
  Section Nested.
    Context (parse_inner : pst -> run (vres * pst)) (k : N).
    Hypothesis inner : forall st r st', parse_inner st = Ok (r, st') -> on k st -> vron r /\ on k st' /\ match r with VErr e => recursion_error e = false | VOk _ => True end.

    Definition iaon (a : iassign) : Prop := p_line (ia_end a) = L.
    Lemma last_on {A} (P : A -> Prop) l x r : Forall P l -> rev l = x :: r -> P x.
    Proof. intros F E. rewrite Forall_forall in F. apply F. rewrite in_rev, E. left. reflexivity. Qed.
    Lemma on_table_loop : forall fuel comma l st res, table_loop eof parse_inner fuel comma l st = Ok res -> on k st -> Forall iaon l ->
      (forall p, comma = Some p -> p_line p = L) ->
      match res with
      | inl _ => False
      | inr (l', st') => Forall iaon l' /\ on k st'
      end.
    Proof.
      induction fuel as [|f IH]; intros comma l st res E H F C; [discriminate|]. cbn [table_loop] in E. cbv zeta in E.
      destruct (table_end _).
      { injection E as <-. split; [exact F|]. destruct comma as [p|]; [|exact H]. apply on_perr; [exact H|]. eapply e_here; [reflexivity|reflexivity|]. split; exact (C p eq_refl). }
      assert (REC : forall s1, on k s1 ->
        match pty eof (recover_on table_stop s1) with
        | IComma => table_loop eof parse_inner f comma l (padv (recover_on table_stop s1))
        | _ => Ok (inr (l, recover_on table_stop s1))
        end = Ok res ->
        match res with
        | inl _ => False
        | inr (l', st') => Forall iaon l' /\ on k st'
        end).
      { intros s1 H1 X. apply (on_recover table_stop) in H1; [|reflexivity]. destruct (pty eof (recover_on table_stop s1)) eqn:TY; try (injection X as <-; auto).
        eapply IH; [exact X|apply on_adv; [exact H1|unfold pty in TY; congruence]|exact F|exact C]. }
      destruct (parse_key eof st) as [[kr s1]|[]|] eqn:PK; [|discriminate]. cbn [bind] in E. destruct (on_key k _ _ _ PK H) as (KL & H1).
      destruct kr as [k0|k0|e]; cbn [kron] in KL.
      - pose proof (on_peek _ _ H1) as PT.
        assert (OTHER : eon (EExpectedEqOrDotFound (token_fmt_str (ppeek eof s1)) (token_span (ppeek eof s1)))) by (eapply e_tok; [reflexivity|reflexivity|exact PT]).
        destruct (i_ty (ppeek eof s1)) eqn:TY; try (eapply REC; [apply on_perr; [exact H1|exact OTHER]|exact E]).
        destruct (parse_inner (padv s1)) as [[r s2]|[]|] eqn:PI; [|discriminate]. cbn [bind] in E. destruct (inner _ _ _ PI) as (VL & H2 & RE); [apply on_adv; [exact H1|congruence]|].
        destruct r as [v|e]; cbn [vron] in VL.
        + assert (SN : forall a, iaon a -> Forall iaon (l ++ [a])) by (intros a A; apply Forall_app; auto).
          destruct (table_end _); [injection E as <-; split; [apply SN; exact VL|exact H2]|].
          destruct (pty eof s2) eqn:TY2;
            try (eapply IH; [exact E|apply on_perr; [exact H2|eapply e_here; [reflexivity|reflexivity|split; exact VL]]|apply SN; exact VL|discriminate]).
          pose proof (peek_on _ _ H2) as PC. eapply IH; [exact E|apply on_adv; [exact H2|unfold pty in TY2; congruence]|apply SN; exact PC|]. intros p X. injection X as <-. exact PC.
        + rewrite RE in E. eapply REC; [apply on_perr; [exact H2|exact VL]|exact E].
      - injection E as <-. auto.
      - eapply REC; [apply on_perr; [exact H1|exact KL]|exact E].
    Qed.
    Lemma on_table lp st r st' : parse_table eof parse_inner lp st = Ok (r, st') -> on k st -> p_line lp = L -> vron r /\ on k st' /\ match r with VErr e => recursion_error e = false | VOk _ => True end.
    Proof.
      unfold parse_table. cbv zeta. intros E H P.
      destruct (table_loop _ _ _ _ _ _) as [res|[]|] eqn:TL; [|discriminate]. cbn [bind] in E. apply on_table_loop in TL; [|exact H|constructor|discriminate].
      destruct res as [[e s2]|[l s2]]; [destruct TL|]. destruct TL as (F & H2). pose proof (on_peek _ _ H2) as PK.
      assert (EN : p_line (match rev l with v :: _ => ia_end v | [] => pos_plus lp 1 end) = L).
      { destruct (rev l) as [|x xs] eqn:R; [exact P|]. exact (last_on _ _ _ _ F R). }
      destruct (i_ty (ppeek eof s2)) eqn:TY; injection E as <- <-; cbn [vron];
        try (split; [exact EN|split; [apply on_perr; [exact H2|eapply e_hint; [reflexivity|reflexivity|apply token_on; exact PK|exact P]]|exact I]]).
      split; [exact (proj1 PK)|]. split; [apply on_adv; [exact H2|congruence]|exact I].
    Qed.
  End Nested.

  Lemma on_value : forall depth level k st r st', level + k <= 100 -> parse_value input eof depth level st = Ok (r, st') -> on k st ->
    vron r /\ on k st' /\ match r with VErr e => recursion_error e = false | VOk _ => True end.
  Proof.
    induction depth as [|depth IH]; intros level k st r st' LK E H; [discriminate|]. cbn [parse_value] in E. cbv zeta in E. pose proof (on_peek _ _ H) as PQ. pose proof PQ as (P & Q).
    assert (D : vron (VErr (EExpectedValueFound (token_fmt_str (ppeek eof st)) (token_span (ppeek eof st))))) by (eapply e_tok; [reflexivity|reflexivity|exact PQ]).
    pose proof (on_no_square _ _ H) as NS. unfold pty in NS.
    destruct (i_ty (ppeek eof st)) as [s|l|l| | | | | | | | |] eqn:TY; try (injection E as <- <-; split; [exact D|split; [exact H|reflexivity]]).
    - injection E as <- <-. split; [|split; [apply on_adv; [exact H|congruence]|exact I]]. eapply von_one; [reflexivity|]. split; [exact P|exact Q].
    - destruct (parse_literal_value _ _ _ _ _) as [[v s1]|[]|] eqn:PL; [|discriminate]. cbn [bind] in E. injection E as <- <-.
      destruct (on_literal_value k _ _ _ _ _ PL H) as (X & Y); [congruence|exact P|]. auto.
    - destruct (NS eq_refl).
    - destruct (on_adv_curly _ _ H TY) as (K1 & H1). destruct (recursion_limit <=? level) eqn:RL; [unfold recursion_limit in RL; apply N.leb_le in RL; lia|].
      destruct (on_table (fun st => parse_value input eof depth (level + 1) st) (k - 1)) with (2 := E) as (X & Y & Z); [|exact H1|exact P|].
      + intros s0 r0 s1 E0 H0. eapply IH; [|exact E0|exact H0]. lia.
      + split; [exact X|]. split; [|exact Z]. eapply on_weak; [|exact Y]. lia.
    - destruct (on_dot k _ _ _ _ E H) as (X & Y); [congruence|exact PQ|]. split; [exact X|]. split; [exact Y|].
      unfold parse_dot_value in E. cbv zeta in E. destruct (i_ty (ppeek eof (perr _ _))); try (injection E as <- _; exact I || reflexivity).
      destruct (pos_eqb _ _); [|injection E as <- _; reflexivity]. destruct (extend_str_front _ _ _) as [l1|[]|]; [|discriminate]. cbn [bind] in E.
      destruct (combine_adjacent _ _ _ _) as [[[s2 l2] sp]|[]|]; [|discriminate]. cbn [bind] in E. injection E as <- _. exact I.
  Qed.

  (** ** Statements *)
  Definition opt_on (o : option pos) : Prop := forall p, o = Some p -> p_line p = L.
  (** The header, after its first bracket; a second one may follow. *)
  Definition hd_on (k : N) (st : pst) : Prop := on k st \/ (pty eof st = ISquareLeft /\ p_line (i_start (ppeek eof st)) = L /\ on k (padv st)).
  Lemma on_header k l st la ky ra rt st' : header eof l st = Ok (la, ky, ra, rt, st') -> hd_on k st -> p_line l = L -> on k st'.
  Proof.
    unfold header. intros E H P.
    destruct (header_open eof l st) as [o s1] eqn:OE.
    assert (OP : on k s1 /\ opt_on o).
    { unfold header_open in OE. destruct H as [H|(TY & PL & H)].
      - pose proof (on_no_square _ _ H) as NS. destruct (pty eof st); try (injection OE as <- <-; split; [exact H|discriminate]). destruct (NS eq_refl).
      - rewrite TY in OE. cbv zeta in OE. injection OE as <- <-. split.
        + destruct (negb _); [|exact H]. apply on_perr; [exact H|]. eapply e_pos; [reflexivity|reflexivity|exact P|exact PL].
        + intros p X. injection X as <-. exact PL. }
    destruct OP as (H1 & OL). clear OE. unfold header_key in E.
    destruct (parse_key eof s1) as [[kr s2]|[]|] eqn:PK; [|discriminate]. cbn [bind] in E. destruct (on_key _ _ _ _ PK H1) as (KL & H2).
    assert (CLOSE : forall s3 (kk : option key), on k s3 ->
      (let '(r_array, s4) := header_close1 eof o s3 in let '(r_table, s5) := header_close2 eof l r_array s4 in @Ok Empty_set _ (o, kk, r_array, r_table, s5)) = Ok (la, ky, ra, rt, st') ->
      on k st').
    { intros s3 kk H3 X. destruct (header_close1 eof o s3) as [ra0 s4] eqn:C1. destruct (header_close2 eof l ra0 s4) as [rt0 s5] eqn:C2. injection X as <- <- <- <- <-.
      assert (H4 : on k s4).
      { unfold header_close1 in C1. destruct o as [lp|]; [|injection C1 as _ <-; exact H3]. cbv zeta in C1. pose proof (on_peek _ _ H3) as PT.
        assert (EL : eon (EExpectedDotOrRightSquareFound (token_fmt_str (ppeek eof s3)) lp (token_span (ppeek eof s3)))) by (eapply e_hint; [reflexivity|reflexivity|apply token_on; exact PT|exact (OL _ eq_refl)]).
        destruct (i_ty (ppeek eof s3)) eqn:TY; injection C1 as _ <-; try (apply on_perr; [exact H3|exact EL]). apply on_adv; [exact H3|congruence]. }
      assert (RA : opt_on ra0).
      { unfold header_close1 in C1. destruct o as [lp|]; [|injection C1 as <- _; discriminate]. cbv zeta in C1. destruct (i_ty _) in C1; injection C1 as <- _; try discriminate. intros p X. injection X as <-. exact (peek_on _ _ H3). }
      unfold header_close2 in C2. cbv zeta in C2. pose proof (on_peek _ _ H4) as PT.
      assert (EL : eon match ra0 with Some _ => EExpectedRightSquareFound (token_fmt_str (ppeek eof s4)) l (token_span (ppeek eof s4)) | None => EExpectedDotOrRightSquareFound (token_fmt_str (ppeek eof s4)) l (token_span (ppeek eof s4)) end).
      { destruct ra0; (eapply e_hint; [reflexivity|reflexivity|apply token_on; exact PT|exact P]). }
      destruct (i_ty (ppeek eof s4)) eqn:TY; injection C2 as _ <-; try (apply on_perr; [exact H4|exact EL]).
      assert (H5 : on k (padv s4)) by (apply on_adv; [exact H4|congruence]).
      destruct ra0 as [a|]; [|exact H5]. destruct (negb _); [|exact H5]. apply on_perr; [exact H5|]. eapply e_pos; [reflexivity|reflexivity|exact (RA _ eq_refl)|exact (proj1 PT)]. }
    destruct kr as [k1|k1|e]; cbn [kron] in KL.
    - exact (CLOSE s2 (Some k1) H2 E).
    - injection E as <- <- <- <- <-. exact H2.
    - refine (CLOSE _ None _ E). apply on_recover; [reflexivity|]. apply on_perr; assumption.
  Qed.

  Definition ron (k : N) (r : root) : Prop := on k (rt_st r).

  Lemma on_root_comment k c r r' : root_comment c r = Ok r' -> ron k r -> ron k r'.
  Proof.
    unfold root_comment, ron. intros E H. destruct (rt_newline r); [|injection E as <-; exact H]. destruct (store_comment _ _) as [id s].
    match type of E with bind ?m _ = _ => destruct m as [l|[]|]; [|discriminate] end. cbn [bind] in E. injection E as <-. exact H.
  Qed.
  Lemma on_root_header k t r r' : root_header eof t r = Ok r' -> hd_on k (padv (rt_st r)) -> p_line (i_start t) = L -> ron k r'.
  Proof.
    unfold root_header, ron. cbv zeta. intros E H P. destruct (header eof _ _) as [[[[[la ky] ra] rt] st]|[]|] eqn:HD; [|discriminate]. cbn [bind] in E.
    pose proof (on_header _ _ _ _ _ _ _ _ HD H P) as H1. destruct (rt_newline r && _).
    { injection E as <-. cbn [rt_st set_rst]. apply on_expected; [|exact P]. apply on_recover; [reflexivity|exact H1]. }
    destruct (find_associated_comments _ _) as [n|[]|]; [|discriminate]. cbn [bind] in E. destruct (store_comments _ _ _ _) as [[s cs]|[]|]; [|discriminate]. cbn [bind] in E.
    match type of E with bind ?m _ = _ => destruct m as [a|[]|]; [|discriminate] end. cbn [bind] in E. injection E as <-. cbn [rt_st]. apply on_store.
    destruct (rt_newline r); [|exact H1]. apply on_perr; [exact H1|]. eapply e_here; [reflexivity|reflexivity|split; exact P].
  Qed.
  Lemma free_level s l0 l s' l' n : place_free s l0 l = Ok (s', l', n) -> n <= 1.
  Proof.
    unfold place_free. destruct l as [|[]]; intros E; try (injection E as _ _ <-; lia); destruct (add_comments _ _ _ _) as [[]|[]|]; try discriminate; cbn [bind] in E; injection E as _ _ <-; lia.
  Qed.
  Lemma on_root_assign k depth t r r' : k <= 99 -> root_assign input eof depth t r = Ok r' -> ron k r -> p_line (i_start t) = L -> ron k r'.
  Proof.
    unfold root_assign, ron. cbv zeta. intros K99 E H P. destruct (parse_key eof (rt_st r)) as [[kr st]|[]|] eqn:PK; [|discriminate]. cbn [bind] in E.
    destruct (on_key _ _ _ _ PK H) as (KL & H1). destruct kr as [k0|k0|e]; cbn [kron] in KL.
    - pose proof (on_peek _ _ H1) as PT.
      assert (OTHER : r' = set_rst r (if rt_newline r then expected_newline eof t (pmark (rt_st r)) (recover_on line_stop st)
                           else perr (recover_on line_stop st) (EExpectedEqOrDotFound (token_fmt_str (ppeek eof st)) (token_span (ppeek eof st)))) -> on k (rt_st r')).
      { intros ->. cbn [rt_st set_rst]. pose proof (on_recover line_stop _ _ eq_refl H1) as R. destruct (rt_newline r); [apply on_expected; assumption|]. apply on_perr; [exact R|]. eapply e_tok; [reflexivity|reflexivity|exact PT]. }
      destruct (i_ty (ppeek eof st)) eqn:TY; try (injection E as <-; apply OTHER; reflexivity). clear OTHER.
      assert (H2 : on k (padv st)) by (apply on_adv; [exact H1|congruence]).
      destruct (rt_newline r && _).
      { injection E as <-. cbn [rt_st set_rst]. apply on_expected; [|exact P]. apply on_recover; [reflexivity|exact H2]. }
      destruct (find_associated_comments _ _) as [n|[]|]; [|discriminate]. cbn [bind] in E. destruct (place_free _ _ _) as [[[s l] level]|[]|] eqn:PF; [|discriminate]. cbn [bind] in E. apply free_level in PF.
      destruct (store_comments _ _ _ _) as [[s1 cs]|[]|]; [|discriminate]. cbn [bind] in E. destruct (parse_value _ _ _ _ _) as [[v st1]|[]|] eqn:PV; [|discriminate]. cbn [bind] in E.
      apply (on_value _ _ k) in PV; [|lia|].
      + destruct PV as (VL & H3 & _). destruct v as [v|e]; cbn [vron] in VL.
        * destruct (range_extend_to _ _) as [c2|[]|]; [|discriminate]. cbn [bind] in E. injection E as <-. exact H3.
        * injection E as <-. cbn [rt_st]. apply on_recover; [reflexivity|]. apply on_perr; assumption.
      + apply on_store. destruct (rt_newline r); [|exact H2]. apply on_perr; [exact H2|]. eapply e_here; [reflexivity|reflexivity|split; exact P].
    - injection E as <-. cbn [rt_st set_rst]. destruct (rt_newline r); [apply on_expected; assumption|exact H1].
    - injection E as <-. cbn [rt_st set_rst]. pose proof (on_recover line_stop _ _ eq_refl H1) as R. destruct (rt_newline r); [apply on_expected; assumption|apply on_perr; assumption].
  Qed.
End On.
