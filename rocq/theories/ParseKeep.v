(** Parsing a value leaves the comments stored before it alone. *)
From Verif Require Import Base BaseProofs CommonModel CommonSpec TomlError LitModel LexModel LexSpec LexBase ParseModel ParseSpec ParsePlace ParseItems
  ParseMarks ParseAssoc ParseOrder.

Section Keep.
  Context (input : list N) (P : list acomment) (lo : pos).
  Notation eof := (eof input).
  Notation good := (good input).
  Let M := p_line lo.
  (** The last comment stored so far is not taken for one above a value. *)
  Definition sealed : Prop := forall p c, P = p ++ [c] -> ac_pos c = Contained -> line_of (ac_comment c) + 1 < M.
  Definition keeps (s : list acomment) : Prop := exists x, s = P ++ x /\ Forall (fun c => M <= line_of (ac_comment c)) x.
  Definition past (r : crange) : Prop := N.of_nat (length P) <= cr_start r.

  Lemma keeps_next s : keeps s -> N.of_nat (length P) <= next_id s.
  Proof. intros (x & -> & _). unfold next_id. rewrite app_length. lia. Qed.
  Lemma add_keep s r c p s' r' : add_comment s r c p = Ok (s', r') -> keeps s -> M <= line_of c -> keeps s' /\ cr_start r' = cr_start r.
  Proof.
    unfold add_comment, store_comment, range_append. intros E (x & -> & F) L. destruct (usub _ _) as [d|[]|]; [|discriminate]. cbn [bind] in E. injection E as <- <-.
    split; [|reflexivity]. exists (x ++ [mkac p (cr_level r) c]). split; [rewrite app_assoc; reflexivity|]. apply Forall_app. split; [exact F|]. constructor; [exact L|constructor].
  Qed.
  Lemma extend_start r n r' : range_extend_to r n = Ok r' -> cr_start r' = cr_start r.
  Proof. unfold range_extend_to. intros E. destruct (usub _ _) as [d|[]|]; [|discriminate]. injection E as <-. reflexivity. Qed.

  Lemma mark_above_keep level : sealed -> forall x line i, Forall (fun c => M <= line_of (ac_comment c)) x -> M <= line ->
    exists x' o, mark_above line level (x ++ rev P) i = (x' ++ rev P, o) /\ length x' = length x /\
      Forall (fun c => M <= line_of (ac_comment c)) x' /\ (forall l, o = Some l -> l <= i + N.of_nat (length x)).
  Proof.
    intros SE. induction x as [|c x IH]; intros line i F L.
    - exists []. cbn [app]. destruct (rev P) as [|c r] eqn:RP.
      + exists None. split; [reflexivity|]. split; [reflexivity|]. split; [constructor|]. discriminate.
      + exists (Some i). split; [|split; [reflexivity|split; [constructor|intros l H; injection H as <-; cbn; lia]]].
        cbn [mark_above]. destruct (_ && _) eqn:B; [|reflexivity]. apply andb_true_iff in B as [B1 B2]. apply N.eqb_eq in B1.
        assert (EP : P = rev r ++ [c]) by (rewrite <- (rev_involutive P), RP; reflexivity).
        specialize (SE _ _ EP). unfold line_of in SE. destruct (ac_pos c); try discriminate. specialize (SE eq_refl). lia.
    - cbn [app mark_above]. pose proof (Forall_inv F) as F1. cbn in F1. destruct (_ && _) eqn:B.
      + apply andb_true_iff in B as [B1 _]. apply N.eqb_eq in B1. fold (line_of (ac_comment c)) in B1.
        destruct (IH (line - 1) (i + 1) (Forall_inv_tail F)) as (x' & o & -> & LN & F' & O); [lia|].
        exists (mkac Above level (ac_comment c) :: x'), o. split; [reflexivity|]. split; [cbn; rewrite LN; reflexivity|]. split; [constructor; [exact F1|exact F']|].
        intros l H. specialize (O l H). cbn [length]. lia.
      + exists (c :: x), (Some i). split; [reflexivity|]. split; [reflexivity|]. split; [exact F|]. intros l H. injection H as <-. cbn [length]. lia.
  Qed.
  Lemma mark_keep s line level s' r : sealed -> mark_comments_above s line level = Ok (s', r) -> keeps s -> M <= line -> keeps s' /\ past r.
  Proof.
    unfold mark_comments_above. intros SE E (x & -> & F) L. rewrite rev_app_distr in E.
    destruct (mark_above_keep level SE (rev x) line 0 (Forall_rev F) L) as (x' & o & R & LN & F' & O). rewrite R in E.
    destruct (usub _ _) as [st|[]|] eqn:U; [|discriminate]. cbn [bind] in E. injection E as <- <-. split.
    - exists (rev x'). rewrite rev_app_distr, rev_involutive. split; [reflexivity|]. apply Forall_rev. exact F'.
    - unfold past. cbn [cr_start]. unfold usub in U. destruct (_ <=? _) eqn:Q; [|discriminate]. injection U as <-. apply N.leb_le in Q.
      unfold next_id in *. rewrite app_length in *. destruct o as [l|]; [|lia]. specialize (O l eq_refl). rewrite rev_length in O. lia.
  Qed.
  Lemma mark_contained_skip a b level : forall p i x, i + N.of_nat (length p) <= a -> mark_contained i a b level (p ++ x) = p ++ mark_contained (i + N.of_nat (length p)) a b level x.
  Proof.
    induction p as [|c p IH]; intros i x L; cbn [app mark_contained length]; [f_equal; lia|]. cbn [length] in L. rewrite (proj2 (N.leb_gt a i)) by lia. cbn [andb].
    f_equal. rewrite IH by lia. f_equal. f_equal. lia.
  Qed.
  Lemma mark_contained_lines a b level : forall x i, Forall (fun c => M <= line_of (ac_comment c)) x -> Forall (fun c => M <= line_of (ac_comment c)) (mark_contained i a b level x).
  Proof.
    induction x as [|c x IH]; intros i F; cbn [mark_contained]; [constructor|]. constructor; [|apply IH, (Forall_inv_tail F)].
    pose proof (Forall_inv F) as H. destruct (_ && _); exact H.
  Qed.
  Lemma contained_keep s r level s' : mark_contained_comments s r level = Ok s' -> keeps s -> past r -> keeps s'.
  Proof.
    unfold mark_contained_comments. cbv zeta. intros E (x & -> & F) PA. destruct (_ <=? _); [|discriminate]. injection E as <-.
    rewrite mark_contained_skip by (unfold past in PA; lia). eexists. split; [reflexivity|]. apply mark_contained_lines, F.
  Qed.

  Lemma line_comment_keep st r st' r' : eat_line_comment st r = Ok (st', r') -> good lo st -> keeps (ps_store st) -> keeps (ps_store st') /\ cr_start r' = cr_start r.
  Proof.
    unfold eat_line_comment. intros E G K. unfold ParseOrder.good in G. destruct (pc_rest (ps_cur st)) as [|[[] start] l] eqn:R; try (injection E as <- <-; auto).
    destruct (add_comment _ _ _ _) as [[s r1]|[]|] eqn:AC; [|discriminate]. cbn [bind] in E. injection E as <- <-. cbn [set_store ps_store].
    eapply add_keep; [exact AC|exact K|]. destruct G as (L & _). apply pos_le_line in L. exact L.
  Qed.
  Lemma trivia_loop_keep : forall l prev s r c s' r', eat_trivia_loop prev l s r = Ok (c, s', r') -> ahead input lo l -> keeps s -> keeps s' /\ cr_start r' = cr_start r.
  Proof.
    induction l as [|[ty start] l IH]; intros prev s r c s' r' E H K; cbn [eat_trivia_loop] in E.
    - injection E as _ <- <-. auto.
    - pose proof (proj2 (proj2 (ahead_tail _ _ _ _ H))) as T. destruct ty; try (injection E as _ <- <-; auto).
      + destruct (add_comment _ _ _ _) as [[s1 r1]|[]|] eqn:AC; [|discriminate]. cbn [bind] in E.
        destruct (add_keep _ _ _ _ _ _ AC K) as [K1 R1]; [destruct H as (L & _); apply pos_le_line in L; exact L|].
        destruct (IH _ _ _ _ _ _ E T K1) as [K2 R2]. split; [exact K2|]. congruence.
      + eapply IH; eassumption.
  Qed.
  Lemma trivia_keep st r st' r' : eat_trivia st r = Ok (st', r') -> good lo st -> keeps (ps_store st) -> keeps (ps_store st') /\ cr_start r' = cr_start r.
  Proof.
    unfold eat_trivia. intros E H K. destruct (eat_trivia_loop _ _ _ _) as [[[c s] r1]|[]|] eqn:L; [|discriminate]. cbn [bind] in E. injection E as <- <-.
    cbn [ps_store]. eapply trivia_loop_keep; eassumption.
  Qed.

  Lemma key_loop_store : forall fuel idents st r st', key_loop eof fuel idents st = Ok (r, st') -> ps_store st' = ps_store st.
  Proof.
    induction fuel as [|fuel IH]; intros idents st r st' E; [discriminate|]. cbn [key_loop] in E.
    destruct (parse_ident _ st) as [[i st1]|k] eqn:PI; unfold parse_ident in PI.
    - assert (S1 : ps_store st1 = ps_store st).
      { destruct (i_ty _) as [s|l|l| | | | | | | | |]; try discriminate.
        - destruct (st_quote s); try discriminate; destruct (_ && _); try discriminate; injection PI as _ <-; reflexivity.
        - destruct (find_invalid _ _) as [[o c]|]; [destruct (forallb _ _); [discriminate|]|]; injection PI as _ <-; reflexivity. }
      cbv zeta in E. destruct (pty eof (padv st1)); try (injection E as _ <-; exact S1). apply IH in E. rewrite E. exact S1.
    - injection E as ->. destruct (i_ty _) as [s|l|l| | | | | | | | |]; try (injection PI as _ <-; reflexivity).
      + destruct (st_quote s); try (injection PI as _ <-; reflexivity); destruct (_ && _); try discriminate; injection PI as _ <-; reflexivity.
      + destruct (find_invalid _ _) as [[o c]|]; [destruct (forallb _ _); [|discriminate]|discriminate]; injection PI as _ <-; reflexivity.
  Qed.
  Lemma combine_store st l sp st' l' sp' : combine_adjacent input st l sp = Ok (st', l', sp') -> ps_store st' = ps_store st.
  Proof. unfold combine_adjacent. intros E. destruct (combine_loop _ _ _ _ _) as [[[c x] y]|[]|]; [|discriminate]. cbn [bind] in E. injection E as <- _ _. reflexivity. Qed.
  Lemma literal_store st t l v st' : parse_literal_value input eof st t l = Ok (v, st') -> ps_store st' = ps_store st.
  Proof.
    unfold parse_literal_value. intros E. destruct (combine_adjacent _ _ _ _) as [[[st1 lit] sp]|[]|] eqn:CA; [|discriminate]. cbn [bind] in E.
    apply combine_store in CA. change (ps_store (padv st)) with (ps_store st) in CA.
    destruct (parse_literal _ _) as [[f|z|b|d|d|e]|e|]; try (injection E as _ <-; exact CA); try discriminate.
    - unfold try_to_parse_time_part in E. destruct (pty eof st1); try (injection E as _ <-; exact CA).
      destruct (combine_adjacent _ _ _ _) as [[[st2 lit2] sp2]|[]|] eqn:CB; [|discriminate]. cbn [bind] in E. apply combine_store in CB. change (ps_store (padv st1)) with (ps_store st1) in CB.
      destruct (concat_strs _ _ _) as [l3|[]|]; [|discriminate]. cbn [bind] in E. destruct (parse_time_and_offset _ _) as [[tm o]|e|]; try discriminate; injection E as _ <-; destruct (_ <? _); cbn [perr ps_store]; congruence.
    - destruct (negb _); [|injection E as _ <-; exact CA]. unfold try_combine_time_part in E. destruct (pty eof _); try (injection E as _ <-; exact CA).
      destruct (_ <? _); [injection E as _ <-; exact CA|]. destruct (concat_strs _ _ _) as [l3|[]|]; [|discriminate]. cbn [bind] in E.
      destruct (combine_adjacent _ _ _ _) as [[[st2 lit2] sp2]|[]|] eqn:CB; [|discriminate]. cbn [bind] in E. apply combine_store in CB. injection E as _ <-. rewrite CB. exact CA.
  Qed.
  Lemma dot_store st t r st' : parse_dot_value input eof st t = Ok (r, st') -> ps_store st' = ps_store st.
  Proof.
    unfold parse_dot_value. cbv zeta. intros E. destruct (i_ty (ppeek eof _)); try (injection E as _ <-; reflexivity). destruct (pos_eqb _ _); [|injection E as _ <-; reflexivity].
    destruct (extend_str_front _ _ _) as [x|[]|]; [|discriminate]. cbn [bind] in E. destruct (combine_adjacent _ _ _ _) as [[[st2 lit2] sp2]|[]|] eqn:CB; [|discriminate]. cbn [bind] in E.
    apply combine_store in CB. injection E as _ <-. exact CB.
  Qed.

  Lemma val_start_after v hi : in_order input lo (value_marks v) hi -> M <= p_line (val_start v).
  Proof.
    intros O. apply pos_le_line. destruct v; cbn in O |- *; try (exact (proj1 O)). destruct O as (A & (_ & _ & B) & _). eapply pos_le_trans; eassumption.
  Qed.
  Lemma spot_good v st : spot input lo v st -> good lo st.
  Proof. intros (A & B). eapply good_lo; [|exact B]. eapply in_order_le. exact A. Qed.

  Section Nested.
    Context (parse_inner : pst -> run (vres * pst)) (level : N).
    Hypothesis order : forall st r st', parse_inner st = Ok (r, st') -> good lo st -> vspot input lo r st'.
    Hypothesis inner : forall st r st', parse_inner st = Ok (r, st') -> good lo st -> keeps (ps_store st) -> keeps (ps_store st').

    Lemma array_loop_keep : sealed -> forall fuel ac values st res, array_loop eof parse_inner level fuel ac values st = Ok res ->
      good lo st -> keeps (ps_store st) -> past ac ->
      match res with
      | inl (_, st') => keeps (ps_store st')
      | inr (ac', _, st') => keeps (ps_store st') /\ past ac'
      end.
    Proof.
      intros SE. induction fuel as [|fuel IH]; intros ac values st res E H K PA; [discriminate|]. cbn [array_loop] in E.
      destruct (eat_trivia st ac) as [[st1 ac1]|[]|] eqn:TR; [|discriminate]. cbn [bind] in E.
      destruct (trivia_keep _ _ _ _ TR H K) as [K1 A1]. pose proof (trivia_good _ _ _ _ _ _ TR H) as H1.
      assert (PA1 : past ac1) by (unfold past in *; congruence).
      destruct (array_end (pty eof st1)); [injection E as <-; auto|].
      destruct (parse_inner st1) as [[r st2]|[]|] eqn:PI; [|discriminate]. cbn [bind] in E.
      pose proof (order _ _ _ PI H1) as V. pose proof (inner _ _ _ PI H1 K1) as K2. destruct r as [v|e].
      - pose proof (spot_good _ _ V) as H2. destruct V as (V1 & V2).
        destruct (mark_comments_above _ _ _) as [[s vc]|[]|] eqn:MA; [|discriminate]. cbn [bind] in E.
        destruct (mark_keep _ _ _ _ _ SE MA K2 (val_start_after _ _ V1)) as [K3 PV].
        destruct (eat_line_comment (set_store st2 s) vc) as [[st3 vc3]|[]|] eqn:LC; [|discriminate]. cbn [bind] in E.
        destruct (line_comment_keep _ _ _ _ LC H2 K3) as [K4 A4]. pose proof (line_comment_good input lo _ _ _ _ LC H2) as H3.
        destruct (eat_trivia st3 ac1) as [[st4 ac4]|[]|] eqn:TR4; [|discriminate]. cbn [bind] in E.
        destruct (trivia_keep _ _ _ _ TR4 H3 K4) as [K5 A5]. pose proof (trivia_good _ _ _ _ _ _ TR4 H3) as H4.
        assert (PA4 : past ac4) by (unfold past in *; congruence).
        destruct (pty eof st4) eqn:TY;
          try (cbv zeta in E; refine (IH _ _ _ _ E _ _ _); assumption);
          try (injection E as <-; auto).
        destruct (range_extend_to _ _) as [vc5|[]|] eqn:RE; [|discriminate]. cbn [bind] in E. apply extend_start in RE.
        destruct (mark_contained_comments _ _ _) as [s5|[]|] eqn:MC; [|discriminate]. cbn [bind] in E. cbv zeta in E.
        apply contained_keep in MC; [|exact K5|unfold past in *; congruence].
        destruct (eat_line_comment (padv (set_store st4 s5)) vc5) as [[st6 vc6]|[]|] eqn:LC6; [|discriminate]. cbn [bind] in E.
        pose proof (good_padv _ _ _ H4 : good lo (padv (set_store st4 s5))) as H5.
        destruct (line_comment_keep _ _ _ _ LC6 H5 MC) as [K6 A6]. pose proof (line_comment_good input lo _ _ _ _ LC6 H5) as H6.
        exact (IH _ _ _ _ E H6 K6 PA4).
      - cbn [vspot] in V. destruct (recursion_error e); [injection E as <-; exact K2|].
        cbv zeta in E. pose proof (recover_good input array_stop _ _ (V : good _ (perr st2 e))) as R.
        destruct (array_end _); [injection E as <-; auto|]. refine (IH _ _ _ _ E _ _ _); [apply good_padv; exact R|exact K2|exact PA1].
    Qed.
    Lemma array_keep l_par st r st' : sealed -> parse_array eof parse_inner level l_par st = Ok (r, st') -> good lo st -> keeps (ps_store st) -> keeps (ps_store st').
    Proof.
      intros SE E H K. unfold parse_array in E. cbv zeta in E.
      destruct (eat_line_comment _ _) as [[st1 ac]|[]|] eqn:LC; [|discriminate]. cbn [bind] in E.
      destruct (line_comment_keep _ _ _ _ LC H K) as [K1 A1]. pose proof (line_comment_good input lo _ _ _ _ LC H) as H1.
      assert (PA : past ac) by (unfold past; rewrite A1; cbn [cr_start]; apply keeps_next, K).
      destruct (array_loop _ _ _ _ _ _ _) as [res|[]|] eqn:AL; [|discriminate]. cbn [bind] in E.
      pose proof (array_loop_keep SE _ _ _ _ _ AL H1 K1 PA) as R. destruct res as [[e st2]|[[ac2 values] st2]].
      - injection E as <- <-. exact R.
      - destruct R as [K2 PA2].
        destruct (i_ty (ppeek eof st2)) eqn:TY; cbv zeta in E;
          match type of E with context [range_extend_to ?a ?b] => destruct (range_extend_to a b) as [ac3|[]|] eqn:RE; [|discriminate] end; cbn [bind] in E; apply extend_start in RE;
          match type of E with context [mark_contained_comments ?a ?b ?c] => destruct (mark_contained_comments a b c) as [s3|[]|] eqn:MC; [|discriminate] end;
          cbn [bind] in E; injection E as <- <-; (eapply contained_keep; [exact MC|exact K2|unfold past in *; congruence]).
    Qed.

    Lemma table_loop_keep : forall fuel comma assigns st res, table_loop eof parse_inner fuel comma assigns st = Ok res ->
      good lo st -> keeps (ps_store st) -> match res with inl (_, st') => keeps (ps_store st') | inr (_, st') => keeps (ps_store st') end.
    Proof.
      induction fuel as [|fuel IH]; intros comma assigns st res E H K; [discriminate|]. cbn [table_loop] in E. cbv zeta in E.
      destruct (table_end (pty eof st)); [injection E as <-; destruct comma; exact K|].
      assert (REC : forall st1, good lo st1 -> keeps (ps_store st1) ->
        match pty eof (recover_on table_stop st1) with
        | IComma => table_loop eof parse_inner fuel comma assigns (padv (recover_on table_stop st1))
        | _ => Ok (inr (assigns, recover_on table_stop st1))
        end = Ok res -> match res with inl (_, st') => keeps (ps_store st') | inr (_, st') => keeps (ps_store st') end).
      { intros st1 H1 K1 E1. pose proof (recover_good input table_stop _ _ H1) as R.
        destruct (pty eof _) in E1; try (injection E1 as <-; exact K1). refine (IH _ _ _ _ E1 _ _); [apply good_padv, R|exact K1]. }
      destruct (parse_key eof st) as [[k st1]|[]|] eqn:PK; [|discriminate]. cbn [bind] in E.
      pose proof (parse_key_order _ _ _ _ _ PK H) as KO. assert (K1 : keeps (ps_store st1)) by (unfold parse_key in PK; apply key_loop_store in PK; rewrite PK; exact K).
      assert (H1 : good lo st1).
      { destruct k as [k|k|e]; [destruct KO as (m & A & B & _)|destruct KO as (m & A & B)|exact KO]; (eapply good_lo; [eapply in_order_le; exact A|exact B]). }
      destruct k as [k|k|e].
      - destruct (i_ty (ppeek eof st1)) eqn:TY; try (refine (REC _ _ _ E); assumption).
        destruct (parse_inner (padv st1)) as [[r st2]|[]|] eqn:PI; [|discriminate]. cbn [bind] in E.
        pose proof (order _ _ _ PI (good_padv _ _ _ H1)) as V. pose proof (inner _ _ _ PI (good_padv _ _ _ H1) K1) as K2. destruct r as [v|e].
        + pose proof (spot_good _ _ V) as H2. destruct (table_end (pty eof st2)); [injection E as <-; exact K2|].
          destruct (pty eof st2) eqn:TY2; try (refine (IH _ _ _ _ E _ _); assumption). refine (IH _ _ _ _ E _ _); [apply good_padv, H2|exact K2].
        + destruct (recursion_error e); [injection E as <-; exact K2|]. refine (REC _ _ _ E); [exact V|exact K2].
      - injection E as <-. exact K1.
      - refine (REC _ _ _ E); [exact H1|exact K1].
    Qed.
    Lemma table_keep l_par st r st' : parse_table eof parse_inner l_par st = Ok (r, st') -> good lo st -> keeps (ps_store st) -> keeps (ps_store st').
    Proof.
      intros E H K. unfold parse_table in E. destruct (table_loop _ _ _ _ _ _) as [res|[]|] eqn:TL; [|discriminate]. cbn [bind] in E.
      pose proof (table_loop_keep _ _ _ _ _ TL H K) as R. destruct res as [[e st2]|[assigns st2]].
      - injection E as <- <-. exact R.
      - destruct (i_ty (ppeek eof st2)); cbv zeta in E; injection E as <- <-; exact R.
    Qed.
  End Nested.

  Lemma parse_value_keep : sealed -> forall depth level st r st', parse_value input eof depth level st = Ok (r, st') -> good lo st ->
    keeps (ps_store st) -> keeps (ps_store st').
  Proof.
    intros SE. induction depth as [|depth IH]; intros level st r st' E H K; [discriminate|]. cbn [parse_value] in E. cbv zeta in E.
    destruct (i_ty (ppeek eof st)) as [s|l|l| | | | | | | | |] eqn:T; try (injection E as <- <-; exact K).
    - destruct (parse_literal_value _ _ _ _ _) as [[v st1]|[]|] eqn:PL; [|discriminate]. cbn [bind] in E. injection E as <- <-. apply literal_store in PL. rewrite PL. exact K.
    - destruct (_ <=? level); [injection E as <- <-; exact K|]. refine (array_keep _ _ _ _ _ _ _ _ SE E (good_padv _ _ _ H) K).
      + intros st0 r0 st0' E0 H0. exact (parse_value_order _ _ _ _ _ _ _ E0 H0).
      + intros st0 r0 st0' E0 H0 K0. exact (IH _ _ _ _ E0 H0 K0).
    - destruct (_ <=? level); [injection E as <- <-; exact K|]. refine (table_keep _ _ _ _ _ _ _ E (good_padv _ _ _ H) K).
      + intros st0 r0 st0' E0 H0. exact (parse_value_order _ _ _ _ _ _ _ E0 H0).
      + intros st0 r0 st0' E0 H0 K0. exact (IH _ _ _ _ E0 H0 K0).
    - apply dot_store in E. rewrite E. exact K.
  Qed.
End Keep.
