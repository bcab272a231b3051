(** From a line on, the parser reports nothing above that line, and everything
    it adds to the tree is below. *)
From Verif Require Import Base BaseProofs CommonModel TomlError LitModel LexModel ParseModel ParseMarks ParseOrder LowLit.

Section Low.
  Context (input : list N) (eof : item) (L : N).
  Notation lowspan := (lowspan L).
  Notation elow := (elow L).

  Definition iok (x : item) : Prop := L <= p_line (i_start x) /\ match i_ty x with IString s => L <= p_line (st_lit_end s) | _ => True end.
  Context (LEOF : iok eof).
  (** [pv]: the item before the cursor is below as well. *)
  Definition low (pv : bool) (st : pst) : Prop :=
    Forall iok (pc_rest (ps_cur st)) /\ (pv = true -> match pc_prev (ps_cur st) with Some x => iok x | None => True end) /\ Forall elow (ps_errs st).
  Definition klow (k : key) : Prop := Forall lowspan (key_marks k).
  Definition vlow (v : value) : Prop := Forall lowspan (value_marks v) /\ L <= p_line (val_end v).

  Lemma low_weak st : low true st -> low false st.
  Proof. intros (A & B & C). split; [exact A|]. split; [discriminate|exact C]. Qed.
  Lemma low_peek pv st : low pv st -> iok (ppeek eof st).
  Proof. intros (A & _). unfold ppeek. destruct (pc_rest _); [exact LEOF|exact (Forall_inv A)]. Qed.
  Lemma peek_start pv st : low pv st -> L <= p_line (i_start (ppeek eof st)).
  Proof. intros H. exact (proj1 (low_peek _ _ H)). Qed.
  Lemma low_adv pv st : low pv st -> low pv (padv st).
  Proof.
    intros (A & B & C). unfold low, padv, set_pcur, cadv. cbn [ps_cur ps_errs]. destruct (pc_rest (ps_cur st)) as [|x r] eqn:R; cbn [pc_rest pc_prev]; [rewrite R; auto|].
    split; [exact (Forall_inv_tail A)|]. split; [intros _; exact (Forall_inv A)|exact C].
  Qed.
  Lemma low_adv_new pv st : low pv st -> i_ty (ppeek eof st) <> i_ty eof -> low true (padv st).
  Proof.
    intros (A & B & C) NE. unfold low, padv, set_pcur, cadv. cbn [ps_cur ps_errs]. unfold ppeek in NE. destruct (pc_rest (ps_cur st)) as [|x r] eqn:R; cbn [pc_rest pc_prev]; [destruct NE; reflexivity|].
    split; [exact (Forall_inv_tail A)|]. split; [intros _; exact (Forall_inv A)|exact C].
  Qed.
  Lemma low_perr pv st e : low pv st -> elow e -> low pv (perr st e).
  Proof. intros (A & B & C) E. split; [exact A|]. split; [exact B|]. cbn. apply Forall_app. auto. Qed.
  Lemma low_store pv st s : low pv st -> low pv (set_store st s).
  Proof. intros H. exact H. Qed.
  Lemma low_preset pv st m : low pv st -> low pv (preset st m).
  Proof. intros (A & B & C). split; [exact A|]. split; [exact B|]. cbn. apply Forall_forall. intros x X. rewrite Forall_forall in C. apply C. rewrite <- (firstn_skipn m). apply in_or_app. auto. Qed.
  Lemma low_cur pv st c : Forall iok (pc_rest c) -> (pv = true -> match pc_prev c with Some x => iok x | None => True end) -> low pv st -> low pv (set_pcur st c).
  Proof. intros A B (_ & _ & C). split; [exact A|]. split; [exact B|exact C]. Qed.
  Definition plow (pv : bool) (o : option item) : Prop := pv = true -> match o with Some x => iok x | None => True end.
  Lemma low_skip pv p : forall l prev, Forall iok l -> plow pv prev -> Forall iok (pc_rest (skip_items p prev l)) /\ plow pv (pc_prev (skip_items p prev l)).
  Proof.
    induction l as [|x r IH]; intros prev A B; cbn [skip_items]; [split; [constructor|exact B]|]. destruct (p (i_ty x)); [split; assumption|].
    apply IH; [exact (Forall_inv_tail A)|]. intros _. exact (Forall_inv A).
  Qed.
  Lemma low_recover pv p st : low pv st -> low pv (recover_on p st).
  Proof. intros H. pose proof H as (A & B & C). destruct (low_skip pv p _ _ A B) as (X & Y). apply low_cur; assumption. Qed.
  Lemma low_last pv : forall l o, Forall iok l -> plow pv o -> plow pv (last_item o l).
  Proof. induction l as [|x r IH]; intros o A B; [exact B|]. cbn [last_item]. apply IH; [exact (Forall_inv_tail A)|]. intros _. exact (Forall_inv A). Qed.
  Lemma low_jump pv st : low pv st -> low pv (jump_to_end st).
  Proof. intros H. pose proof H as (A & B & C). apply low_cur; [constructor| |exact H]. exact (low_last pv _ _ A B). Qed.
  Lemma low_line_comment pv st r st' r' : eat_line_comment st r = Ok (st', r') -> low pv st -> low pv st'.
  Proof.
    unfold eat_line_comment. intros E H. destruct (pc_rest (ps_cur st)) as [|[[] start] l] eqn:R; try (injection E as <- _; exact H).
    destruct (add_comment _ _ _ _) as [[s r1]|[]|]; [|discriminate]. cbn [bind] in E. injection E as <- _. apply low_store, low_adv. exact H.
  Qed.
  Lemma low_trivia_loop pv : forall l prev s r c s' r', eat_trivia_loop prev l s r = Ok (c, s', r') -> Forall iok l -> plow pv prev -> Forall iok (pc_rest c) /\ plow pv (pc_prev c).
  Proof.
    induction l as [|[ty start] l IH]; intros prev s r c s' r' E A B; cbn [eat_trivia_loop] in E.
    - injection E as <- _ _. auto.
    - destruct ty; try (injection E as <- _ _; auto).
      + destruct (add_comment _ _ _ _) as [[s1 r1]|[]|]; [|discriminate]. cbn [bind] in E. eapply IH; [exact E|exact (Forall_inv_tail A)|intros _; exact (Forall_inv A)].
      + eapply IH; [exact E|exact (Forall_inv_tail A)|intros _; exact (Forall_inv A)].
  Qed.
  Lemma low_trivia pv st r st' r' : eat_trivia st r = Ok (st', r') -> low pv st -> low pv st'.
  Proof.
    unfold eat_trivia. intros E (A & B & C). destruct (eat_trivia_loop _ _ _ _) as [[[c s] r1]|[]|] eqn:TL; [|discriminate]. cbn [bind] in E. injection E as <- _.
    destruct (low_trivia_loop pv _ _ _ _ _ _ _ TL A B) as (X & Y). split; [exact X|]. split; [exact Y|exact C].
  Qed.

  (** ** Errors *)
  Lemma token_low x : iok x -> lowspan (token_span x).
  Proof. intros (A & _). unfold LowLit.lowspan. rewrite token_start. exact A. Qed.
  Lemma e_here s e : err_span e = s -> err_hint e = None -> L <= p_line (s_start s) -> elow e.
  Proof. intros E H P. split; [unfold LowLit.lowspan; rewrite E; exact P|]. rewrite H. discriminate. Qed.
  Lemma e_tok x e : err_span e = token_span x -> err_hint e = None -> L <= p_line (i_start x) -> elow e.
  Proof. intros E H P. eapply e_here; [exact E|exact H|]. rewrite token_start. exact P. Qed.
  Lemma e_hint s p e : err_span e = s -> err_hint e = Some (span_ascii_char p) -> lowspan s -> L <= p_line p -> elow e.
  Proof. intros E H P Q. split; [rewrite E; exact P|]. rewrite H. intros h X. injection X as <-. exact Q. Qed.
  Lemma low_expected pv token m st : low pv st -> L <= p_line (i_start token) -> low pv (expected_newline eof token m st).
  Proof. intros H T. apply low_perr; [apply low_preset; exact H|]. eapply e_here; [reflexivity|reflexivity|exact T]. Qed.

  (** ** Keys *)
  Definition krlow (k : keyres) : Prop := match k with KeyOk k | KeyUnterminated k => klow k | KeyErr e => elow e end.
  Lemma low_ident pv st : low pv st ->
    match parse_ident (ppeek eof st) st with
    | inl (i, st1) => L <= p_line (id_start i) /\ low pv st1
    | inr (k, st1) => krlow k /\ low pv st1
    end.
  Proof.
    intros H. pose proof (low_peek _ _ H) as (P & Q). unfold parse_ident.
    assert (D : elow (EExpectedKeyFound (token_fmt_str (ppeek eof st)) (token_span (ppeek eof st))) /\ low pv st).
    { split; [|exact H]. eapply e_tok; [reflexivity|reflexivity|exact P]. }
    destruct (i_ty (ppeek eof st)) as [s|r|r| | | | | | | | |] eqn:E; try exact D.
    - destruct (st_quote s); cbv zeta.
      2,4: (split; [|exact H]; eapply e_here; [reflexivity|reflexivity|exact P]).
      all: destruct (_ && _); [split; [|apply low_adv; exact H]|split; [exact P|exact H]]; constructor; [exact P|constructor].
    - cbv zeta. destruct (find_invalid 0 (sr_text r)) as [[off c]|].
      + assert (EL : elow (EInvalidCharInIdentifier c (pos_plus (i_start (ppeek eof st)) off))) by (eapply e_here; [reflexivity|reflexivity|exact P]).
        destruct (forallb _ _); [split; [exact EL|exact H]|]. split; [exact P|apply low_perr; assumption].
      + split; [exact P|exact H].
  Qed.
  Lemma low_key_loop pv : forall fuel ids st r st', key_loop eof fuel ids st = Ok (r, st') -> low pv st -> Forall lowspan (flat_map dident_marks ids) -> krlow r /\ low pv st'.
  Proof.
    induction fuel as [|f IH]; intros ids st r st' E H I; [discriminate|]. cbn [key_loop] in E.
    pose proof (low_ident pv st H) as ID. destruct (parse_ident _ _) as [[i s1]|[k s1]].
    2: { injection E as <- <-. exact ID. }
    destruct ID as (P & H1). cbv zeta in E. apply low_adv in H1.
    assert (FIN : r = KeyOk match ids with [] => KOne i | _ => KDotted (ids ++ [mkdi i None]) end -> st' = padv s1 -> krlow r /\ low pv st').
    { intros -> ->. split; [|exact H1]. cbn [krlow]. unfold klow. destruct ids as [|d ids]; [constructor; [exact P|constructor]|].
      cbn [key_marks]. rewrite flat_map_app. apply Forall_app. split; [exact I|]. constructor; [exact P|constructor]. }
    destruct (pty eof (padv s1)) eqn:T; try (injection E as <- <-; apply FIN; reflexivity).
    pose proof (peek_start _ _ H1) as P2. eapply IH; [exact E|apply low_adv; exact H1|]. rewrite flat_map_app. apply Forall_app. split; [exact I|]. constructor; [exact P|constructor; [exact P2|constructor]].
  Qed.
  Lemma low_key pv st r st' : parse_key eof st = Ok (r, st') -> low pv st -> krlow r /\ low pv st'.
  Proof. intros E H. eapply low_key_loop; [exact E|exact H|constructor]. Qed.

  (** ** Scalars *)
  Lemma low_combine_loop pv : forall l prev lit sp c lit' sp', combine_loop input prev l lit sp = Ok (c, lit', sp') -> Forall iok l -> plow pv prev ->
    s_start sp' = s_start sp /\ p_line (s_end sp') = p_line (s_end sp) /\ Forall iok (pc_rest c) /\ plow pv (pc_prev c).
  Proof.
    induction l as [|t l IH]; intros prev lit sp c lit' sp' E A B; cbn [combine_loop] in E.
    - injection E as <- _ <-. auto.
    - destruct (negb _); [injection E as <- _ <-; auto|].
      destruct (i_ty t) as [s|n|r| | | | | | | | |]; try (injection E as <- _ <-; auto).
      + destruct (concat_strs _ _ _) as [l1|[]|]; [|discriminate]. cbn [bind] in E. apply IH in E; [exact E|exact (Forall_inv_tail A)|intros _; exact (Forall_inv A)].
      + destruct (extend_str_back _ _ _) as [l1|[]|]; [|discriminate]. cbn [bind] in E. apply IH in E; [exact E|exact (Forall_inv_tail A)|intros _; exact (Forall_inv A)].
  Qed.
  Lemma low_combine pv st lit sp st' lit' sp' : combine_adjacent input st lit sp = Ok (st', lit', sp') -> low pv st ->
    s_start sp' = s_start sp /\ p_line (s_end sp') = p_line (s_end sp) /\ low pv st'.
  Proof.
    unfold combine_adjacent. intros E H. destruct (combine_loop _ _ _ _ _) as [[[c l1] s1]|[]|] eqn:CL; [|discriminate]. cbn [bind] in E. injection E as <- _ <-.
    pose proof H as (A & B & C). destruct (low_combine_loop pv _ _ _ _ _ _ _ CL A B) as (X & Y & Z & W). split; [exact X|]. split; [exact Y|]. apply low_cur; assumption.
  Qed.
  Definition sp_ok (sp : span) : Prop := L <= p_line (s_start sp) /\ L <= p_line (s_end sp).
  Lemma vlow_one v sp : value_marks v = [sp] -> val_end v = s_end sp -> sp_ok sp -> vlow v.
  Proof. intros M E (A & B). split; [rewrite M; constructor; [exact A|constructor]|rewrite E; exact B]. Qed.
  Lemma low_time_part pv st lit sp d v st' : try_to_parse_time_part input eof st lit sp d = Ok (v, st') -> low pv st -> sp_ok sp -> vlow v /\ low pv st'.
  Proof.
    unfold try_to_parse_time_part. intros E H S.
    assert (D : v = VDateTime lit sp (LocalDate d) -> st' = st -> vlow v /\ low pv st') by (intros -> ->; split; [eapply vlow_one; [reflexivity|reflexivity|exact S]|exact H]).
    destruct (pty eof st) as [s|r|r| | | | | | | | |]; try (injection E as <- <-; apply D; reflexivity). cbv zeta in E.
    destruct (combine_adjacent _ _ _ _) as [[[s1 tl] tsp]|[]|] eqn:CA; [|discriminate]. cbn [bind] in E.
    destruct (low_combine pv _ _ _ _ _ _ CA (low_adv _ _ H)) as (X & Y & Z). cbn [span_from_pos_len s_start s_end pos_plus p_line] in X, Y.
    pose proof (peek_start _ _ H) as P.
    assert (TS : sp_ok tsp) by (split; [rewrite X|rewrite Y]; exact P).
    match type of E with context [perr s1 ?e] => set (s2 := if p_char (s_end sp) + 1 <? p_char (s_start tsp) then perr s1 e else s1) in * end.
    assert (H2 : low pv s2). { unfold s2. destruct (_ <? _); [|exact Z]. apply low_perr; [exact Z|]. eapply e_here; [reflexivity|reflexivity|]. exact (proj2 S). }
    clearbody s2. destruct (concat_strs _ _ _) as [l2|[]|]; [|discriminate]. cbn [bind] in E.
    assert (AC : sp_ok (span_across sp tsp)) by (split; [exact (proj1 S)|exact (proj2 TS)]).
    pose proof (low_time_offset L tsp (proj1 TS) (proj2 TS) (0, sr_text tl)) as LT.
    destruct (parse_time_and_offset _ _) as [[tm o]|e|]; [| |discriminate]; injection E as <- <-.
    - split; [eapply vlow_one; [reflexivity|reflexivity|exact AC]|exact H2].
    - split; [eapply vlow_one; [reflexivity|reflexivity|exact AC]|apply low_perr; assumption].
  Qed.
  Lemma low_combine_time pv st lit sp v st' : try_combine_time_part input eof st lit sp = Ok (v, st') -> low pv st -> sp_ok sp -> vlow v /\ low pv st'.
  Proof.
    unfold try_combine_time_part. intros E H S.
    assert (D : v = VInvalid lit sp -> st' = st -> vlow v /\ low pv st') by (intros -> ->; split; [eapply vlow_one; [reflexivity|reflexivity|exact S]|exact H]).
    destruct (pty eof st) as [s|r|r| | | | | | | | |]; try (injection E as <- <-; apply D; reflexivity). cbv zeta in E.
    destruct (_ <? _); [injection E as <- <-; apply D; reflexivity|]. destruct (concat_strs _ _ _) as [l2|[]|]; [|discriminate]. cbn [bind] in E.
    destruct (combine_adjacent _ _ _ _) as [[[s1 tl] tsp]|[]|] eqn:CA; [|discriminate]. cbn [bind] in E. injection E as <- <-.
    destruct (low_combine pv _ _ _ _ _ _ CA (low_adv _ _ H)) as (X & Y & Z). cbn [span_across span_from_pos_len s_start s_end pos_plus p_line] in X, Y.
    pose proof (peek_start _ _ H) as P. split; [eapply vlow_one; [reflexivity|reflexivity|]|exact Z]. split; [rewrite X; exact (proj1 S)|rewrite Y; exact P].
  Qed.
  Lemma low_literal_value pv st t r v st' : parse_literal_value input eof st t r = Ok (v, st') -> low pv st -> L <= p_line (i_start t) -> vlow v /\ low pv st'.
  Proof.
    unfold parse_literal_value. intros E H P. destruct (combine_adjacent _ _ _ _) as [[[s1 l1] sp]|[]|] eqn:CA; [|discriminate]. cbn [bind] in E.
    destruct (low_combine pv _ _ _ _ _ _ CA (low_adv _ _ H)) as (X & Y & Z). cbn [span_from_pos_len s_start s_end pos_plus p_line] in X, Y.
    assert (S : sp_ok sp) by (split; [rewrite X|rewrite Y]; exact P).
    pose proof (low_literal L sp (proj1 S) (proj2 S) (sr_text l1)) as (LV & LI).
    destruct (parse_literal (sr_text l1) sp) as [[]|e|]; [| | | | | | |discriminate];
      try (injection E as <- <-; split; [eapply vlow_one; [reflexivity|reflexivity|exact S]|first [exact Z|apply low_perr; assumption]]).
    - eapply low_time_part; eassumption.
    - cbv zeta in E. pose proof (low_perr _ _ _ Z LI) as Z1. destruct (negb _); [eapply low_combine_time; eassumption|].
      injection E as <- <-. split; [eapply vlow_one; [reflexivity|reflexivity|exact S]|exact Z1].
  Qed.
  Definition vrlow (r : vres) : Prop := match r with VOk v => vlow v | VErr e => elow e end.
  Lemma low_dot pv st t r st' : parse_dot_value input eof st t = Ok (r, st') -> low pv st -> iok t -> vrlow r /\ low pv st'.
  Proof.
    unfold parse_dot_value. cbv zeta. intros E H (P & Q). set (s1 := perr (padv st) _) in *.
    assert (H1 : low pv s1) by (apply low_perr; [apply low_adv; exact H|eapply e_here; [reflexivity|reflexivity|exact P]]). clearbody s1.
    assert (D : r = VErr (EExpectedValueFound (token_fmt_str t) (token_span t)) -> st' = s1 -> vrlow r /\ low pv st').
    { intros -> ->. split; [|exact H1]. eapply e_tok; [reflexivity|reflexivity|exact P]. }
    destruct (i_ty (ppeek eof s1)) as [s|l|l| | | | | | | | |]; try (injection E as <- <-; apply D; reflexivity).
    destruct (pos_eqb _ _); [|injection E as <- <-; apply D; reflexivity]. destruct (extend_str_front _ _ _) as [l1|[]|]; [|discriminate]. cbn [bind] in E.
    destruct (combine_adjacent _ _ _ _) as [[[s2 l2] sp]|[]|] eqn:CA; [|discriminate]. cbn [bind] in E. injection E as <- <-.
    destruct (low_combine pv _ _ _ _ _ _ CA (low_adv _ _ H1)) as (X & Y & Z). cbn [span_from_pos_len s_start s_end pos_plus p_line] in X, Y.
    split; [|exact Z]. eapply vlow_one; [reflexivity|reflexivity|]. split; [rewrite X|rewrite Y]; exact P.
  Qed.

  (** ** Arrays and inline tables *)
  Section Nested.
    Context (parse_inner : pst -> run (vres * pst)) (level : N).
    Hypothesis inner : forall st r st', parse_inner st = Ok (r, st') -> low true st -> vrlow r /\ low true st'.

    Definition avlow (a : avalue) : Prop := Forall lowspan (value_marks (av_val a) ++ comma_marks (av_comma a)) /\ L <= p_line (av_end a).
    Lemma avlow_none vc v : vlow v -> avlow (mkav vc v None).
    Proof. intros (A & B). split; [cbn; rewrite app_nil_r; exact A|exact B]. Qed.
    Lemma avlow_some vc v c : vlow v -> L <= p_line c -> avlow (mkav vc v (Some c)).
    Proof. intros (A & B) C. split; [cbn; apply Forall_app; split; [exact A|constructor; [exact C|constructor]]|exact C]. Qed.
    Lemma low_array_loop : forall fuel ac vs st res, array_loop eof parse_inner level fuel ac vs st = Ok res -> low true st -> Forall avlow vs ->
      match res with
      | inl (e, st') => elow e /\ low true st'
      | inr (_, vs', st') => Forall avlow vs' /\ low true st'
      end.
    Proof.
      induction fuel as [|f IH]; intros ac vs st res E H F; [discriminate|]. cbn [array_loop] in E.
      destruct (eat_trivia st ac) as [[s1 ac1]|[]|] eqn:TR; [|discriminate]. cbn [bind] in E. apply (low_trivia _ _ _ _ _ TR) in H.
      destruct (array_end _); [injection E as <-; auto|]. destruct (parse_inner s1) as [[r s2]|[]|] eqn:PI; [|discriminate]. cbn [bind] in E.
      destruct (inner _ _ _ PI H) as (VL & H2). destruct r as [v|e]; cbn [vrlow] in VL.
      - destruct (mark_comments_above _ _ _) as [[s vc]|[]|]; [|discriminate]. cbn [bind] in E.
        destruct (eat_line_comment (set_store s2 s) vc) as [[s3 vc3]|[]|] eqn:LC; [|discriminate]. cbn [bind] in E. apply (low_line_comment true) in LC; [|exact H2].
        destruct (eat_trivia s3 ac1) as [[s4 ac4]|[]|] eqn:TR4; [|discriminate]. cbn [bind] in E. apply (low_trivia _ _ _ _ _ TR4) in LC.
        assert (SN : forall a, avlow a -> Forall avlow (vs ++ [a])) by (intros a A; apply Forall_app; auto).
        destruct (pty eof s4) eqn:TY;
          try (injection E as <-; split; [apply SN, avlow_none; exact VL|exact LC]);
          try (cbv zeta in E; eapply IH; [exact E|apply low_perr; [exact LC|eapply e_here; [reflexivity|reflexivity|exact (proj2 VL)]]|apply SN, avlow_none; exact VL]).
        destruct (range_extend_to _ _) as [vc5|[]|]; [|discriminate]. cbn [bind] in E. destruct (mark_contained_comments _ _ _) as [s5|[]|]; [|discriminate]. cbn [bind] in E. cbv zeta in E.
        destruct (eat_line_comment (padv (set_store s4 s5)) vc5) as [[s6 vc6]|[]|] eqn:LC6; [|discriminate]. cbn [bind] in E.
        pose proof (peek_start _ _ LC) as PC. apply (low_line_comment true) in LC6; [|apply low_adv, low_store; exact LC].
        eapply IH; [exact E|exact LC6|]. apply SN, avlow_some; assumption.
      - destruct (recursion_error e); [injection E as <-; auto|]. cbv zeta in E. pose proof (low_recover true array_stop _ (low_perr _ _ _ H2 VL)) as R.
        destruct (array_end _); [injection E as <-; auto|]. eapply IH; [exact E|apply low_adv; exact R|exact F].
    Qed.
    Lemma last_low {A} (P : A -> Prop) l x r : Forall P l -> rev l = x :: r -> P x.
    Proof. intros F E. rewrite Forall_forall in F. apply F. rewrite in_rev, E. left. reflexivity. Qed.
    Lemma low_array lp st r st' : parse_array eof parse_inner level lp st = Ok (r, st') -> low true st -> L <= p_line lp -> vrlow r /\ low true st'.
    Proof.
      unfold parse_array. cbv zeta. intros E H P. destruct (eat_line_comment _ _) as [[s1 ac]|[]|] eqn:LC; [|discriminate]. cbn [bind] in E. apply (low_line_comment true) in LC; [|exact H].
      destruct (array_loop _ _ _ _ _ _ _) as [res|[]|] eqn:AL; [|discriminate]. cbn [bind] in E. apply low_array_loop in AL; [|exact LC|constructor].
      destruct res as [[e s2]|[[ac2 vs] s2]]; [injection E as <- <-; exact AL|]. destruct AL as (F & H2).
      pose proof (low_peek _ _ H2) as PK.
      assert (VA : forall ac3 e, L <= p_line (end_pos e) -> lowspan (end_mark e) -> vlow (VArray ac3 lp vs e)).
      { intros ac3 e E1 E2. split; [|exact E1]. cbn [value_marks app]. constructor; [exact P|]. apply Forall_app. split; [|constructor; [exact E2|constructor]].
        apply Forall_flat_map. eapply Forall_impl; [|exact F]. intros a (A & _). exact A. }
      assert (EN : L <= p_line (match rev vs with v :: _ => av_end v | [] => pos_plus lp 1 end)).
      { destruct (rev vs) as [|x xs] eqn:R; [exact P|]. exact (proj2 (last_low _ _ _ _ F R)). }
      assert (PREV : forall s, (match ppeek_prev s2 with Some (mkitem INewline s0) => span_pos s0 | _ => token_span (ppeek eof s2) end) = s -> lowspan s).
      { intros s <-. destruct H2 as (_ & B & _). specialize (B eq_refl). unfold ppeek_prev. destruct (pc_prev (ps_cur s2)) as [[[] q]|]; try (apply token_low; exact PK). exact (proj1 B). }
      destruct (i_ty (ppeek eof s2)) eqn:TY; cbv zeta in E;
        match type of E with context [range_extend_to ?a ?b] => destruct (range_extend_to a b) as [ac3|[]|]; [|discriminate] end; cbn [bind] in E;
        match type of E with context [mark_contained_comments ?a ?b ?c] => destruct (mark_contained_comments a b c) as [s3|[]|]; [|discriminate] end;
        cbn [bind] in E; injection E as <- <-; cbn [vrlow];
        try (split; [apply VA; [exact EN|exact EN]|apply low_store, low_perr; [exact H2|eapply e_hint; [reflexivity|reflexivity| |exact P]; first [apply token_low; exact PK|eapply PREV; reflexivity]]]).
      split; [apply VA; exact (proj1 PK)|apply low_store, low_adv; exact H2].
    Qed.

    Definition ialow (a : iassign) : Prop :=
      Forall lowspan (key_marks (as_key (ia_assign a)) ++ [span_ascii_char (as_eq (ia_assign a))] ++ value_marks (as_val (ia_assign a)) ++ comma_marks (ia_comma a)) /\ L <= p_line (ia_end a).
    Lemma ialow_none k q v : klow k -> L <= p_line q -> vlow v -> ialow (mkia (mkassign k q v) None).
    Proof. intros A B (C & D). split; [|exact D]. cbn. apply Forall_app. split; [exact A|]. constructor; [exact B|]. rewrite app_nil_r. exact C. Qed.
    Lemma ialow_some k q v c : klow k -> L <= p_line q -> vlow v -> L <= p_line c -> ialow (mkia (mkassign k q v) (Some c)).
    Proof. intros A B (C & D) X. split; [|exact X]. cbn. apply Forall_app. split; [exact A|]. constructor; [exact B|]. apply Forall_app. split; [exact C|constructor; [exact X|constructor]]. Qed.
    Lemma low_table_loop : forall fuel comma l st res, table_loop eof parse_inner fuel comma l st = Ok res -> low true st -> Forall ialow l ->
      (forall p, comma = Some p -> L <= p_line p) ->
      match res with
      | inl (e, st') => elow e /\ low true st'
      | inr (l', st') => Forall ialow l' /\ low true st'
      end.
    Proof.
      induction fuel as [|f IH]; intros comma l st res E H F C; [discriminate|]. cbn [table_loop] in E. cbv zeta in E.
      destruct (table_end _).
      { injection E as <-. split; [exact F|]. destruct comma as [p|]; [|exact H]. apply low_perr; [exact H|]. eapply e_here; [reflexivity|reflexivity|exact (C p eq_refl)]. }
      assert (REC : forall s1, low true s1 ->
        match pty eof (recover_on table_stop s1) with
        | IComma => table_loop eof parse_inner f comma l (padv (recover_on table_stop s1))
        | _ => Ok (inr (l, recover_on table_stop s1))
        end = Ok res ->
        match res with
        | inl (e, st') => elow e /\ low true st'
        | inr (l', st') => Forall ialow l' /\ low true st'
        end).
      { intros s1 H1 X. apply (low_recover true table_stop) in H1. destruct (pty eof _); try (injection X as <-; auto). eapply IH; [exact X|apply low_adv; exact H1|exact F|exact C]. }
      destruct (parse_key eof st) as [[kr s1]|[]|] eqn:PK; [|discriminate]. cbn [bind] in E. destruct (low_key true _ _ _ PK H) as (KL & H1).
      destruct kr as [k|k|e]; cbn [krlow] in KL.
      - pose proof (low_peek _ _ H1) as PT.
        assert (OTHER : elow (EExpectedEqOrDotFound (token_fmt_str (ppeek eof s1)) (token_span (ppeek eof s1)))) by (eapply e_tok; [reflexivity|reflexivity|exact (proj1 PT)]).
        destruct (i_ty (ppeek eof s1)) eqn:TY; try (eapply REC; [apply low_perr; [exact H1|exact OTHER]|exact E]).
        destruct (parse_inner (padv s1)) as [[r s2]|[]|] eqn:PI; [|discriminate]. cbn [bind] in E. destruct (inner _ _ _ PI (low_adv _ _ H1)) as (VL & H2).
        destruct r as [v|e]; cbn [vrlow] in VL.
        + assert (SN : forall a, ialow a -> Forall ialow (l ++ [a])) by (intros a A; apply Forall_app; auto).
          destruct (table_end _); [injection E as <-; split; [apply SN, ialow_none; [exact KL|exact (proj1 PT)|exact VL]|exact H2]|].
          destruct (pty eof s2) eqn:TY2;
            try (eapply IH; [exact E|apply low_perr; [exact H2|eapply e_here; [reflexivity|reflexivity|exact (proj2 VL)]]|apply SN, ialow_none; [exact KL|exact (proj1 PT)|exact VL]|discriminate]).
          pose proof (peek_start _ _ H2) as PC. eapply IH; [exact E|apply low_adv; exact H2|apply SN, ialow_some; [exact KL|exact (proj1 PT)|exact VL|exact PC]|]. intros p X. injection X as <-. exact PC.
        + destruct (recursion_error e); [injection E as <-; auto|]. eapply REC; [apply low_perr; [exact H2|exact VL]|exact E].
      - injection E as <-. auto.
      - eapply REC; [apply low_perr; [exact H1|exact KL]|exact E].
    Qed.
    Lemma low_table lp st r st' : parse_table eof parse_inner lp st = Ok (r, st') -> low true st -> L <= p_line lp -> vrlow r /\ low true st'.
    Proof.
      unfold parse_table. cbv zeta. intros E H P.
      destruct (table_loop _ _ _ _ _ _) as [res|[]|] eqn:TL; [|discriminate]. cbn [bind] in E. apply low_table_loop in TL; [|exact H|constructor|discriminate].
      destruct res as [[e s2]|[l s2]]; [injection E as <- <-; exact TL|]. destruct TL as (F & H2). pose proof (low_peek _ _ H2) as PK.
      assert (VT : forall e, L <= p_line (end_pos e) -> lowspan (end_mark e) -> vlow (VTable lp l e)).
      { intros e E1 E2. split; [|exact E1]. cbn [value_marks app]. constructor; [exact P|]. apply Forall_app. split; [|constructor; [exact E2|constructor]].
        apply Forall_flat_map. eapply Forall_impl; [|exact F]. intros a (A & _). exact A. }
      assert (EN : L <= p_line (match rev l with v :: _ => ia_end v | [] => pos_plus lp 1 end)).
      { destruct (rev l) as [|x xs] eqn:R; [exact P|]. exact (proj2 (last_low _ _ _ _ F R)). }
      destruct (i_ty (ppeek eof s2)) eqn:TY; injection E as <- <-; cbn [vrlow];
        try (split; [apply VT; [exact EN|exact EN]|apply low_perr; [exact H2|eapply e_hint; [reflexivity|reflexivity|apply token_low; exact PK|exact P]]]).
      split; [apply VT; exact (proj1 PK)|apply low_adv; exact H2].
    Qed.
  End Nested.

  Context (TEOF : i_ty eof = IEOF).
  Lemma low_value : forall depth level st r st', parse_value input eof depth level st = Ok (r, st') -> low true st -> vrlow r /\ low true st'.
  Proof.
    induction depth as [|depth IH]; intros level st r st' E H; [discriminate|]. cbn [parse_value] in E. cbv zeta in E. pose proof (low_peek _ _ H) as (P & Q).
    assert (D : vrlow (VErr (EExpectedValueFound (token_fmt_str (ppeek eof st)) (token_span (ppeek eof st))))) by (eapply e_tok; [reflexivity|reflexivity|exact P]).
    destruct (i_ty (ppeek eof st)) as [s|l|l| | | | | | | | |] eqn:TY; try (injection E as <- <-; split; [exact D|exact H]).
    - injection E as <- <-. split; [|apply low_adv; exact H]. eapply vlow_one; [reflexivity|reflexivity|]. split; [exact P|exact Q].
    - destruct (parse_literal_value _ _ _ _ _) as [[v s1]|[]|] eqn:PL; [|discriminate]. cbn [bind] in E. injection E as <- <-. eapply low_literal_value; eassumption.
    - destruct (_ <=? _); [injection E as <- <-; split; [eapply e_here; [reflexivity|reflexivity|exact P]|apply low_jump, low_adv; exact H]|].
      eapply low_array; [|exact E|apply low_adv; exact H|exact P]. intros; eapply IH; eassumption.
    - destruct (_ <=? _); [injection E as <- <-; split; [eapply e_here; [reflexivity|reflexivity|exact P]|apply low_jump, low_adv; exact H]|].
      eapply low_table; [|exact E|apply low_adv; exact H|exact P]. intros; eapply IH; eassumption.
    - eapply low_dot; [exact E|exact H|]. split; [exact P|rewrite TY; exact I].
  Qed.

  (** ** Statements *)
  Definition opt_low (o : option pos) : Prop := forall p, o = Some p -> L <= p_line p.
  Lemma low_header l pv st la k ra rt st' : header eof l st = Ok (la, k, ra, rt, st') -> low pv st -> L <= p_line l ->
    low pv st' /\ opt_low la /\ (forall k0, k = Some k0 -> klow k0).
  Proof.
    unfold header. intros E H P.
    destruct (header_open eof l st) as [o s1] eqn:OE.
    assert (OP : low pv s1 /\ opt_low o).
    { unfold header_open in OE. destruct (pty eof st); try (injection OE as <- <-; split; [exact H|discriminate]). cbv zeta in OE. injection OE as <- <-. split.
      - destruct (negb _); [|apply low_adv; exact H]. apply low_perr; [apply low_adv; exact H|]. eapply e_here; [reflexivity|reflexivity|exact P].
      - intros p X. injection X as <-. exact (peek_start _ _ H). }
    destruct OP as (H1 & OL). clear OE. unfold header_key in E.
    destruct (parse_key eof s1) as [[kr s2]|[]|] eqn:PK; [|discriminate]. cbn [bind] in E. destruct (low_key _ _ _ _ PK H1) as (KL & H2).
    assert (CLOSE : forall s3 (kk : option key), low pv s3 -> (forall k0, kk = Some k0 -> klow k0) ->
      (let '(r_array, s4) := header_close1 eof o s3 in let '(r_table, s5) := header_close2 eof l r_array s4 in @Ok Empty_set _ (o, kk, r_array, r_table, s5)) = Ok (la, k, ra, rt, st') ->
      low pv st' /\ opt_low la /\ (forall k0, k = Some k0 -> klow k0)).
    { intros s3 kk H3 KK X. destruct (header_close1 eof o s3) as [ra0 s4] eqn:C1. destruct (header_close2 eof l ra0 s4) as [rt0 s5] eqn:C2. injection X as <- <- <- <- <-.
      split; [|split; [exact OL|exact KK]].
      assert (H4 : low pv s4).
      { unfold header_close1 in C1. destruct o as [lp|]; [|injection C1 as _ <-; exact H3]. cbv zeta in C1. pose proof (low_peek _ _ H3) as PT.
        assert (EL : elow (EExpectedDotOrRightSquareFound (token_fmt_str (ppeek eof s3)) lp (token_span (ppeek eof s3)))) by (eapply e_hint; [reflexivity|reflexivity|apply token_low; exact PT|exact (OL _ eq_refl)]).
        destruct (i_ty _) in C1; injection C1 as _ <-; try (apply low_perr; [exact H3|exact EL]). apply low_adv. exact H3. }
      assert (RA : opt_low ra0).
      { unfold header_close1 in C1. destruct o as [lp|]; [|injection C1 as <- _; discriminate]. cbv zeta in C1. destruct (i_ty _) in C1; injection C1 as <- _; try discriminate. intros p X. injection X as <-. exact (peek_start _ _ H3). }
      unfold header_close2 in C2. cbv zeta in C2. pose proof (low_peek _ _ H4) as PT.
      assert (EL : elow match ra0 with Some _ => EExpectedRightSquareFound (token_fmt_str (ppeek eof s4)) l (token_span (ppeek eof s4)) | None => EExpectedDotOrRightSquareFound (token_fmt_str (ppeek eof s4)) l (token_span (ppeek eof s4)) end).
      { destruct ra0; (eapply e_hint; [reflexivity|reflexivity|apply token_low; exact PT|exact P]). }
      destruct (i_ty _) in C2; injection C2 as _ <-; try (apply low_perr; [exact H4|exact EL]).
      destruct ra0 as [a|]; [|apply low_adv; exact H4]. destruct (negb _); [|apply low_adv; exact H4]. apply low_perr; [apply low_adv; exact H4|]. eapply e_here; [reflexivity|reflexivity|exact (RA _ eq_refl)]. }
    destruct kr as [k1|k1|e]; cbn [krlow] in KL.
    - refine (CLOSE s2 (Some k1) H2 _ E). intros k0 X. injection X as <-. exact KL.
    - injection E as <- <- <- <- <-. split; [exact H2|]. split; [exact OL|]. intros k0 X. injection X as <-. exact KL.
    - refine (CLOSE _ None _ _ E); [|discriminate]. apply low_recover, low_perr; assumption.
  Qed.

  (** What the tree says, and what is added to it. *)
  Definition rlow (r : root) : Prop := low false (rt_st r).

  Lemma low_root_comment c r r' : root_comment c r = Ok r' -> rlow r -> rlow r'.
  Proof.
    unfold root_comment, rlow. intros E H. destruct (rt_newline r); [|injection E as <-; exact H]. destruct (store_comment _ _) as [id s].
    match type of E with bind ?m _ = _ => destruct m as [l|[]|]; [|discriminate] end. cbn [bind] in E. injection E as <-. exact H.
  Qed.
  Lemma low_root_header t r r' : root_header eof t r = Ok r' -> rlow r -> L <= p_line (i_start t) -> rlow r'.
  Proof.
    unfold root_header, rlow. cbv zeta. intros E H P. destruct (header eof _ _) as [[[[[la k] ra] rt] st]|[]|] eqn:HD; [|discriminate]. cbn [bind] in E.
    destruct (low_header _ false _ _ _ _ _ _ HD (low_adv _ _ H) P) as (H1 & _). destruct (rt_newline r && _).
    { injection E as <-. cbn [rt_st set_rst]. apply low_expected; [|exact P]. apply low_recover. exact H1. }
    destruct (find_associated_comments _ _) as [n|[]|]; [|discriminate]. cbn [bind] in E. destruct (store_comments _ _ _ _) as [[s cs]|[]|]; [|discriminate]. cbn [bind] in E.
    match type of E with bind ?m _ = _ => destruct m as [a|[]|]; [|discriminate] end. cbn [bind] in E. injection E as <-. cbn [rt_st]. apply low_store.
    destruct (rt_newline r); [|exact H1]. apply low_perr; [exact H1|]. eapply e_here; [reflexivity|reflexivity|exact P].
  Qed.
  Lemma low_root_assign depth t r r' : root_assign input eof depth t r = Ok r' -> rlow r -> L <= p_line (i_start t) -> rlow r'.
  Proof.
    unfold root_assign, rlow. cbv zeta. intros E H P. destruct (parse_key eof (rt_st r)) as [[kr st]|[]|] eqn:PK; [|discriminate]. cbn [bind] in E.
    destruct (low_key _ _ _ _ PK H) as (KL & H1). destruct kr as [k|k|e]; cbn [krlow] in KL.
    - pose proof (low_peek _ _ H1) as PT.
      assert (OTHER : r' = set_rst r (if rt_newline r then expected_newline eof t (pmark (rt_st r)) (recover_on line_stop st)
                           else perr (recover_on line_stop st) (EExpectedEqOrDotFound (token_fmt_str (ppeek eof st)) (token_span (ppeek eof st)))) -> low false (rt_st r')).
      { intros ->. cbn [rt_st set_rst]. pose proof (low_recover _ line_stop _ H1) as R. destruct (rt_newline r); [apply low_expected; assumption|]. apply low_perr; [exact R|]. eapply e_tok; [reflexivity|reflexivity|exact (proj1 PT)]. }
      destruct (i_ty (ppeek eof st)) eqn:TY; try (injection E as <-; apply OTHER; reflexivity). clear OTHER.
      assert (H2 : low true (padv st)) by (eapply low_adv_new; [exact H1|rewrite TY, TEOF; discriminate]).
      destruct (rt_newline r && _).
      { injection E as <-. cbn [rt_st set_rst]. apply low_expected; [|exact P]. apply low_recover, low_weak. exact H2. }
      destruct (find_associated_comments _ _) as [n|[]|]; [|discriminate]. cbn [bind] in E. destruct (place_free _ _ _) as [[[s l] level]|[]|]; [|discriminate]. cbn [bind] in E.
      destruct (store_comments _ _ _ _) as [[s1 cs]|[]|]; [|discriminate]. cbn [bind] in E. destruct (parse_value _ _ _ _ _) as [[v st1]|[]|] eqn:PV; [|discriminate]. cbn [bind] in E.
      apply low_value in PV.
      + destruct PV as (VL & H3). apply low_weak in H3. destruct v as [v|e]; cbn [vrlow] in VL.
        * destruct (range_extend_to _ _) as [c2|[]|]; [|discriminate]. cbn [bind] in E. injection E as <-. exact H3.
        * injection E as <-. cbn [rt_st]. apply low_recover, low_perr; assumption.
      + apply low_store. destruct (rt_newline r); [|exact H2]. apply low_perr; [exact H2|]. eapply e_here; [reflexivity|reflexivity|exact P].
    - injection E as <-. cbn [rt_st set_rst]. destruct (rt_newline r); [apply low_expected; assumption|exact H1].
    - injection E as <-. cbn [rt_st set_rst]. pose proof (low_recover _ line_stop _ H1) as R. destruct (rt_newline r); [apply low_expected; assumption|apply low_perr; assumption].
  Qed.
  Lemma low_root_loop : forall fuel r r', root_loop input eof fuel r = Ok r' -> rlow r -> rlow r'.
  Proof.
    induction fuel as [|f IH]; intros r r' E H; [discriminate|]. cbn [root_loop] in E. cbv zeta in E. pose proof (peek_start _ _ H) as P.
    assert (AS : (let? r1 := root_assign input eof max_depth (ppeek eof (rt_st r)) r in root_loop input eof f r1) = Ok r' -> rlow r').
    { intros X. destruct (root_assign _ _ _ _ _) as [r1|[]|] eqn:RA; [|discriminate]. cbn [bind] in X. eapply IH; [exact X|]. eapply low_root_assign; eassumption. }
    destruct (i_ty (ppeek eof (rt_st r))); try (apply AS; exact E).
    - destruct (root_comment _ _) as [r1|[]|] eqn:RC; [|discriminate]. cbn [bind] in E. eapply IH; [exact E|]. eapply low_root_comment; [exact RC|]. unfold rlow. cbn [rt_st set_rst]. apply low_adv. exact H.
    - destruct (root_header _ _ _) as [r1|[]|] eqn:RH; [|discriminate]. cbn [bind] in E. eapply IH; [exact E|]. eapply low_root_header; eassumption.
    - eapply IH; [exact E|]. unfold rlow. cbn [rt_st]. apply low_adv. exact H.
    - injection E as <-. exact H.
  Qed.
End Low.
