(** [parse], continued: assignments, the loop, and the whole document. *)
From Verif Require Import Base BaseProofs CommonModel TomlError LitModel LitSpec LexModel LexSpec LexBase LexStr LexSound LexTop LexProps ParseModel ParseSpec ParsePlace ParseItems ParseKey ParseLit ParseVal ParseValue ParseAssoc ParseHead ParseRoot.

Lemma blanks_dec (a : list tile) : blanks a \/ has_item a.
Proof.
  destruct (view a []) as [(B & _)|(w & x & s & r & -> & _ & NX & _)]; [left; exact B|]. right. intros H. apply Forall_app in H as [_ H]. exact (NX (Forall_inv H)).
Qed.

Section Top.
  Context (input : list N) (all : list tile).
  Notation at_ := (at_ input).
  Notation goes := (goes input).
  Notation eof := (eof input).
  Notation char_at := (char_at input).
  Notation rinv := (rinv input all).

  Lemma place_free_ok s l cs X n : n = next_id s -> Forall (ast_in input all n) l -> (forall c, In c cs -> In c (comments_of [] all)) ->
    interleave (free l) (map ac_comment s) X ->
    exists s' l', place_free s cs l = Ok (s', l', in_body l) /\ next_id s <= next_id s' /\ Forall (ast_in input all (next_id s')) l' /\
      interleave (free l') (map ac_comment s') (X ++ cs) /\ stmts l' = stmts l /\ in_body l' = in_body l /\
      (cs = [] -> match l with AComment _ :: _ | [] => False | _ => True end -> match l' with AComment _ :: _ | [] => False | _ => True end).
  Proof.
    intros -> AO KN IX. assert (D : in_body l = 0 -> exists s' l', @Ok Empty_set _ (s, rev (map AComment cs) ++ l, 0) = Ok (s', l', in_body l) /\ next_id s <= next_id s' /\ Forall (ast_in input all (next_id s')) l' /\
      interleave (free l') (map ac_comment s') (X ++ cs) /\ stmts l' = stmts l /\ in_body l' = in_body l /\
      (cs = [] -> match l with AComment _ :: _ | [] => False | _ => True end -> match l' with AComment _ :: _ | [] => False | _ => True end)).
    { intros IB. exists s, (rev (map AComment cs) ++ l). rewrite IB. split; [reflexivity|]. split; [lia|].
      split; [apply Forall_app; split; [apply Forall_rev; apply Forall_forall; intros x H; apply in_map_iff in H as (c & <- & H); cbn; apply KN; exact H|exact AO]|].
      split; [rewrite free_comments; rewrite <- (app_nil_r (map ac_comment s)); apply interleave_app; [exact IX|apply interleave_l]|].
      split; [apply stmts_comments|]. split.
      - rewrite <- map_rev. destruct (rev cs); [exact IB|reflexivity].
      - intros -> H. exact H. }
    destruct l as [|[a|t|t|c] l]; cbn [place_free in_body] in *; try (apply D; reflexivity); clear D.
    - pose proof (Forall_inv AO) as (R1 & R2 & R3). destruct (add_comments_ok cs s (tb_comments t) Contained) as (r' & -> & C1 & C2 & C3); [unfold range_ok in R1; lia|exact R1|]. cbn [bind].
      set (s' := s ++ map (mkac Contained (cr_level (tb_comments t))) cs) in *. assert (MS : map ac_comment s' = map ac_comment s ++ cs) by (unfold s'; rewrite map_app, map_ac; reflexivity).
      assert (NI : next_id s <= next_id s') by (eapply next_id_grow; exact MS).
      eexists s', _. split; [reflexivity|]. split; [exact NI|]. split.
      + constructor; [|eapply asts_ok_le; [exact NI|exact (Forall_inv_tail AO)]]. split; [exact C2|]. split; [exact R2|]. eapply Forall_impl; [|exact R3]. intros a. apply tassign_ok_le, NI.
      + rewrite !free_cons, !stmts_cons in *. cbn [free_of ast_of tb_header tb_assigns] in *. split; [|auto]. rewrite MS. rewrite <- (app_nil_r (free l ++ [])). apply interleave_app; [exact IX|apply interleave_r].
    - pose proof (Forall_inv AO) as (R1 & R2 & R3). destruct (add_comments_ok cs s (ae_comments t) Contained) as (r' & -> & C1 & C2 & C3); [unfold range_ok in R1; lia|exact R1|]. cbn [bind].
      set (s' := s ++ map (mkac Contained (cr_level (ae_comments t))) cs) in *. assert (MS : map ac_comment s' = map ac_comment s ++ cs) by (unfold s'; rewrite map_app, map_ac; reflexivity).
      assert (NI : next_id s <= next_id s') by (eapply next_id_grow; exact MS).
      eexists s', _. split; [reflexivity|]. split; [exact NI|]. split.
      + constructor; [|eapply asts_ok_le; [exact NI|exact (Forall_inv_tail AO)]]. split; [exact C2|]. split; [exact R2|]. eapply Forall_impl; [|exact R3]. intros a. apply tassign_ok_le, NI.
      + rewrite !free_cons, !stmts_cons in *. cbn [free_of ast_of ae_header ae_assigns] in *. split; [|auto]. rewrite MS. rewrite <- (app_nil_r (free l ++ [])). apply interleave_app; [exact IX|apply interleave_r].
  Qed.

  Lemma push_assign_ok n a l : tassign_ok input n a -> Forall (ast_in input all n) l ->
    Forall (ast_in input all n) (push_assign a l) /\ in_body (push_assign a l) = in_body l /\
    match push_assign a l with AComment _ :: _ | [] => False | _ => True end.
  Proof.
    intros TA AO. assert (D : Forall (ast_in input all n) (AAssign a :: l)) by (constructor; assumption).
    destruct l as [|[x|t|t|c] l]; cbn [push_assign]; try (split; [exact D|]; split; [reflexivity|exact I]).
    - pose proof (Forall_inv AO) as (R1 & R2 & R3). split; [|split; [reflexivity|exact I]]. constructor; [|exact (Forall_inv_tail AO)].
      split; [exact R1|]. split; [exact R2|]. cbn [tb_assigns]. apply Forall_app. split; [exact R3|]. constructor; [exact TA|constructor].
    - pose proof (Forall_inv AO) as (R1 & R2 & R3). split; [|split; [reflexivity|exact I]]. constructor; [|exact (Forall_inv_tail AO)].
      split; [exact R1|]. split; [exact R2|]. cbn [ae_assigns]. apply Forall_app. split; [exact R3|]. constructor; [exact TA|constructor].
  Qed.

  (** ** Assignments *)

  (** How an assignment was read, if there was no error. *)
  Definition assign_facts (r : root) (done a b : list tile) (r' : root) : Prop :=
    exists fr asc s3 l3 k st1 st4 st5 v a0 a5 cr,
      rt_newline r = false /\ no_errors r done /\ a = a0 ++ a5 /\ inline a0 /\
      parse_key eof (rt_st r) = Ok (KeyOk k, st1) /\ i_ty (ppeek eof st1) = IEqual /\ no_lf (source a0) /\
      p_line (i_start (ppeek eof st1)) = p_line (pos_at (source done ++ source a0)) /\
      rt_prev r = fr ++ asc /\ block (p_line (i_start (ppeek eof st1))) asc /\
      (forall f c, fr = f ++ [c] -> line_of c + 1 + N.of_nat (length asc) <> p_line (i_start (ppeek eof st1))) /\
      place_free (ps_store (rt_st r)) fr (rt_asts r) = Ok (s3, l3, in_body (rt_asts r)) /\
      ps_store st4 = s3 ++ map (mkac Above (in_body (rt_asts r))) asc /\ at_ st4 (source done ++ source a0) (a5 ++ b) /\
      parse_value input eof max_depth (in_body (rt_asts r)) st4 = Ok (VOk v, st5) /\
      map ac_comment (ps_store st5) = map ac_comment (ps_store st4) ++ comments_of (source done ++ source a0) a5 /\
      cr_start cr = next_id s3 /\ cr_start cr + cr_len cr = next_id (ps_store st5) /\
      r' = mkroot st5 (push_assign (mkta cr (mkassign k (i_start (ppeek eof st1)) v)) l3) [] true /\
      exists w vt sm, a = w ++ vt /\ blanks w /\ g_stmt vt sm.
  Lemma expected_newline_errs t m st : ps_errs (expected_newline eof t m st) <> [].
  Proof. unfold expected_newline. cbn [perr preset ps_errs]. intros H. apply app_eq_nil in H as [_ H]. discriminate. Qed.
  Lemma assign_step r done ts : rinv r done ts -> line_stop (pty eof (rt_st r)) = false ->
    exists r' a b, root_assign input eof max_depth (ppeek eof (rt_st r)) r = Ok r' /\ ts = a ++ b /\ has_item a /\ rinv r' (done ++ a) b /\
      (no_errors r' (done ++ a) -> assign_facts r done a b r').
  Proof.
    intros R LS. pose proof R as [EA A EO AO LI _ NL CO DO].
    destruct (strict_lines _ _ _ _ _ R) as [NN BL]; [intros H; rewrite H in LS; discriminate|intros H; rewrite H in LS; discriminate|].
    unfold root_assign.
    destruct (parse_key_sound input (rt_st r) _ ts A) as (k & st1 & a1 & b1 & es1 & PKE & G1 & IL1 & KP). rewrite PKE. cbn [bind].
    pose proof G1 as (E1 & A1 & ER1 & M1 & _ & EOK1). rewrite app_nil_r in M1.
    destruct k as [k|k|e].
    2: { destruct KP as (HI & _ & NV). eexists _, a1, b1. split; [reflexivity|]. split; [exact E1|]. split; [exact HI|]. destruct (rt_newline r).
         - split; [eapply expected_newline_step; eassumption|]. intros [H _]. destruct (expected_newline_errs _ _ _ H).
         - split; [|intros [_ V]; apply Forall_app in V as [_ V]; destruct (NV V)]. eapply rinv_error; [exact R|exact E1|exact A1|rewrite ER1; apply Forall_app; auto|intros _; exact NV|exact M1|exact BL]. }
    2: { destruct (recover_sound input line_stop st1 _ _ A1) as (a2 & b2 & G2 & _ & IL2 & HI2 & _); [reflexivity|].
         pose proof (goes_trans _ _ _ _ _ _ _ _ _ _ _ _ _ _ G1 G2) as G3. pose proof G3 as (E3 & A3 & ER3 & M3 & _ & EOK3). rewrite app_nil_r in M3.
         eexists _, (a1 ++ a2), b2. split; [reflexivity|]. split; [exact E3|]. split.
         - destruct (blanks_dec a1) as [B1|HI]; [|apply has_item_l; exact HI]. apply has_item_r.
           destruct (peek_cases input _ _ _ A1) as [(B & PK & _)|(w & x & s & b & E & B & NX & SH & PK & IN)].
           + exfalso. assert (BT : blanks ts) by (rewrite E1; apply Forall_app; auto). unfold pty in LS. rewrite (peek_blanks input _ _ _ A BT) in LS. discriminate.
           + eapply HI2; [exact E|exact B|exact NX|]. assert (ET : ts = (a1 ++ w) ++ (x, s) :: b) by (rewrite E1, E; assoc).
             rewrite ET in A. unfold pty in LS. rewrite (peek_tile input _ _ _ _ _ _ A) in LS; [|apply Forall_app; auto|exact NX]. cbn [i_ty] in LS.
             rewrite source_app, app_assoc in LS. exact LS.
         - destruct (rt_newline r); [split; [eapply expected_newline_step; eassumption|intros [H _]; destruct (expected_newline_errs _ _ _ H)]|].
           split; [|intros [H _]; cbn [rt_st set_rst perr ps_errs] in H; apply app_eq_nil in H as [_ H]; discriminate]. eapply rinv_error; [exact R|exact E3|exact A3| | |exact M3|exact BL].
           + cbn [perr ps_errs]. rewrite ER3. apply Forall_app. split; [apply Forall_app; auto|]. constructor; [exact KP|constructor].
           + cbn [perr ps_errs]. intros H. apply app_eq_nil in H as [_ H]. discriminate. }
    destruct KP as (HI1 & KO & KS & GK). change (i_ty (ppeek eof st1)) with (pty eof st1).
    assert (NOEQ : exists r' a b, @Ok Empty_set _ (set_rst r (if rt_newline r then expected_newline eof (ppeek eof (rt_st r)) (pmark (rt_st r)) (recover_on line_stop st1)
                           else perr (recover_on line_stop st1) (EExpectedEqOrDotFound (token_fmt_str (ppeek eof st1)) (token_span (ppeek eof st1))))) = Ok r' /\ ts = a ++ b /\ has_item a /\ rinv r' (done ++ a) b /\ (no_errors r' (done ++ a) -> assign_facts r done a b r')).
    { destruct (recover_sound input line_stop st1 _ _ A1) as (a2 & b2 & G2 & _ & IL2 & HI2 & _); [reflexivity|].
      pose proof (goes_trans _ _ _ _ _ _ _ _ _ _ _ _ _ _ G1 G2) as G3. pose proof G3 as (E3 & A3 & ER3 & M3 & _ & EOK3). rewrite app_nil_r in M3.
      eexists _, (a1 ++ a2), b2. split; [reflexivity|]. split; [exact E3|]. split; [apply has_item_l; exact HI1|].
      destruct (rt_newline r); [split; [eapply expected_newline_step; eassumption|intros [H _]; destruct (expected_newline_errs _ _ _ H)]|].
      split; [|intros [H _]; cbn [rt_st set_rst perr ps_errs] in H; apply app_eq_nil in H as [_ H]; discriminate]. eapply rinv_error; [exact R|exact E3|exact A3| | |exact M3|exact BL].
      - cbn [perr ps_errs]. rewrite ER3. apply Forall_app. split; [apply Forall_app; auto|]. constructor; [|constructor]. eapply err_ok_found; [eapply peek_stands; exact A1|auto|reflexivity].
      - cbn [perr ps_errs]. intros H. apply app_eq_nil in H as [_ H]. discriminate. }
    destruct (pty eof st1) eqn:PT; try exact NOEQ. clear NOEQ.
    destruct (peek_punct input st1 _ b1 TEqual 61 A1) as (w & b2 & E2 & B & PS & CA & G2 & IN2); [rewrite PT; reflexivity|].
    set (eq := i_start (ppeek eof st1)) in *.
    pose proof (goes_trans _ _ _ _ _ _ _ _ _ _ _ _ _ _ G1 G2) as G. rewrite app_nil_r in G. cbn [app] in G.
    set (a := a1 ++ w ++ [(XPunct TEqual, [61])]) in *.
    assert (HI : has_item a) by (apply has_item_l; exact HI1).
    assert (ILA : inline a).
    { apply Forall_app. split; [exact IL1|]. apply Forall_app. split; [apply blanks_inline, B|]. constructor; [split; discriminate|constructor]. }
    pose proof G as (EAB & A2 & ER & M & _ & EOK). rewrite app_nil_r in M.
    destruct (rt_newline r && negb (Nat.eqb (pmark (padv st1)) (pmark (rt_st r)))) eqn:ENL.
    { destruct (recover_sound input line_stop (padv st1) _ _ A2) as (a2 & b3 & G3 & _ & IL2 & _); [reflexivity|].
      pose proof (goes_trans _ _ _ _ _ _ _ _ _ _ _ _ _ _ G G3) as G4. eexists _, (a ++ a2), b3. split; [reflexivity|].
      split; [exact (proj1 G4)|]. split; [apply has_item_l; exact HI|]. split; [eapply expected_newline_step; [exact R|exact G4|exact BL]|].
      intros [H _]. destruct (expected_newline_errs _ _ _ H). }
    set (st2 := if rt_newline r then perr (padv st1) (EMissingNewline (i_start (ppeek eof (rt_st r)))) else padv st1).
    assert (ST2 : ps_cur st2 = ps_cur (padv st1) /\ ps_store st2 = ps_store (padv st1) /\ Forall (err_ok input) (ps_errs st2) /\
      (ps_errs st2 = [] -> rt_newline r = false /\ ps_errs (rt_st r) = [] /\ es1 = [])).
    { unfold st2. destruct (rt_newline r); cbn [perr ps_cur ps_store ps_errs]; (split; [reflexivity|]); (split; [reflexivity|]); rewrite ER.
      - split; [|intros H; apply app_eq_nil in H as [_ H]; discriminate]. apply Forall_app. split; [apply Forall_app; auto|]. constructor; [|constructor].
        destruct (peek_cases input _ _ _ A) as [(BT & PK & _)|(w' & x' & s' & r' & E' & B' & NX' & SH' & PK & IN')]; unfold pty in LS; rewrite PK in LS |- *; [discriminate LS|].
        cbn [i_ty i_start] in *. apply (err_ok_at input _ (source done ++ source w') [] (s' ++ source r')); [exact IN'|rewrite app_nil_r; reflexivity| |reflexivity].
        split; [reflexivity|]. assert (H0 : exists h t, s' = h :: t /\ h <> 10).
        { destruct x' as [| |[]| | |q text off]; try discriminate LS; try congruence; try (destruct (punct_char _ _ SH') as (c & -> & _ & NC & _); exists c, []; auto; fail).
          - destruct SH' as [NE SH']. destruct s' as [|h t]; [congruence|]. exists h, t. split; [reflexivity|]. intros ->. apply Forall_inv in SH'. apply SH'. cbn. tauto.
          - destruct SH' as [(trim & bd & en & -> & _) _]. destruct q; cbn [delims app]; eexists _, _; (split; [reflexivity|discriminate]). }
        destruct H0 as (h & t & -> & NH). split; [discriminate|]. intros (c & t' & X & <-). injection X as -> _. congruence.
      - split; [apply Forall_app; auto|]. intros H. apply app_eq_nil in H as [H1 H2]. auto. }
    destruct ST2 as (SC & SS2 & SE & SN).
    destruct (find_associated_ok (rt_prev r) (p_line eq)) as (fr & asc & EP & FA & BLK & MAX).
    { eapply below_le; [|exact BL]. rewrite PS. eapply N.le_trans; [apply line_app|apply line_app]. }
    rewrite FA. cbn [bind]. cbv zeta. rewrite Nnat.Nat2N.id. replace (firstn (length fr) (rt_prev r)) with fr by (rewrite EP, firstn_len; reflexivity).
    replace (skipn (length fr) (rt_prev r)) with asc by (rewrite EP, skipn_len; reflexivity).
    destruct CO as (X & IX & SX & EX).
    assert (MS2 : map ac_comment (ps_store st2) = map ac_comment (ps_store (rt_st r))) by (rewrite SS2; exact M).
    destruct (place_free_ok (ps_store st2) (rt_asts r) fr X (next_id (ps_store (rt_st r)))) as (s3 & l3 & PF & NI3 & AO3 & IX3 & SM3 & IB3 & HD3).
    { symmetry. apply next_id_map. exact MS2. }
    { exact AO. }
    { intros c H. eapply prev_known; [exact R|]. rewrite EP. apply in_or_app. auto. }
    { rewrite MS2. exact IX. }
    rewrite PF. cbn [bind]. destruct (store_comments_ok s3 asc Above (in_body (rt_asts r))) as (cr & -> & CR1 & CR2). cbn [bind].
    set (s4 := s3 ++ map (mkac Above (in_body (rt_asts r))) asc) in *.
    assert (MS4 : map ac_comment s4 = map ac_comment s3 ++ asc) by (unfold s4; rewrite map_app, map_ac; reflexivity).
    assert (NI4 : next_id s3 <= next_id s4) by (eapply next_id_grow; exact MS4).
    assert (A4 : at_ (set_store st2 s4) (source done ++ source a) b2).
    { destruct A2 as (H1 & H2 & H3 & H4 & H5). split; [exact H1|]. split; [exact H2|]. split; [exact H3|]. cbn [set_store ps_cur]. rewrite SC. split; [exact H4|exact H5]. }
    assert (LV : in_body (rt_asts r) <= 1) by (destruct (rt_asts r) as [|[]]; cbn; lia).
    destruct (parse_value_sound input max_depth (in_body (rt_asts r)) ltac:(lia) ltac:(unfold max_depth; lia) (set_store st2 s4) _ b2 A4) as (v & st5 & a5 & b5 & es5 & cs5 & PV & G5 & VP).
    rewrite PV. cbn [bind]. pose proof G5 as (E5 & A5 & ER5 & M5 & SQ5 & EOK5). cbn [set_store ps_errs ps_store] in ER5, M5.
    assert (NI5 : next_id s4 <= next_id (ps_store st5)) by (eapply next_id_grow; exact M5).
    assert (IX5 : interleave (free l3) (map ac_comment (ps_store st5)) ((X ++ fr) ++ asc ++ cs5)).
    { rewrite M5, MS4, <- app_assoc, <- (app_nil_r (free l3)). apply interleave_app; [exact IX3|apply interleave_r]. }
    assert (SQ : subseq ((X ++ fr) ++ asc ++ cs5) (comments_of [] (done ++ a ++ a5))).
    { rewrite !done_comments, comments_of_app, (inline_no_comments _ a ILA). cbn [app]. replace ((X ++ fr) ++ asc ++ cs5) with ((X ++ rt_prev r) ++ cs5) by (rewrite EP; repeat rewrite <- app_assoc; reflexivity).
      apply subseq_app; [exact SX|exact SQ5]. }
    assert (EE : ts = (a ++ a5) ++ b5) by (rewrite EAB, E5, app_assoc; reflexivity).
    destruct v as [v|e].
    - destruct VP as (HI5 & NO & GV). destruct (range_extend_ok cr (next_id (ps_store st5))) as (cr' & -> & C1 & C2 & C3); [rewrite CR1; lia|]. cbn [bind].
      assert (TA : tassign_ok input (next_id (ps_store st5)) (mkta cr' (mkassign k eq v))).
      { split; [unfold range_ok; cbn [ta_comments]; lia|]. split; [exact KO|]. split; [exact CA|exact NO]. }
      destruct (push_assign_ok _ _ l3 TA (asts_ok_le _ _ _ _ _ (N.le_trans _ _ _ NI4 NI5) AO3)) as (PA & IB & HD).
      eexists _, (a ++ a5), b5. split; [reflexivity|]. split; [exact EE|]. split; [apply has_item_l; exact HI|]. split.
      2: { intros [H V]. cbn [rt_st] in H. rewrite ER5 in H. apply app_eq_nil in H as [H1 H2].
        destruct (SN H1) as (N1 & N2 & N3). apply Forall_app in V as [V VA]. apply Forall_app in VA as [VA V5].
        destruct (GV H2 V5) as (CS & w5 & vt & tv & EV & B5 & GVT & VO & LVL). destruct (GK N3) as (w1 & kt & EK & B1 & GKT).
        assert (SH1 : Forall shape a1). { destruct A as (_ & SH & _). rewrite E1 in SH. apply Forall_app in SH as [SH _]. exact SH. }
        assert (SHW : Forall shape w). { destruct A1 as (_ & SH & _). rewrite E2 in SH. apply Forall_app in SH as [SH _]. exact SH. }
        assert (NLF : no_lf (source a1)).
        { rewrite EK, source_app. apply no_lf_app. split; [apply blanks_no_lf; [rewrite EK in SH1; apply Forall_app in SH1 as [SH1 _]; exact SH1|exact B1]|].
          eapply g_key_no_lf; [exact GKT|]. unfold a in VA. apply Forall_app in VA as [VA _]. rewrite EK in VA. apply Forall_app in VA as [_ VA]. exact VA. }
        assert (NLW : no_lf (source a)).
        { unfold a. rewrite !source_app. apply no_lf_app. split; [exact NLF|]. apply no_lf_app. split; [apply blanks_no_lf; [exact SHW|exact B]|]. intros [X0|[]]. discriminate. }
        exists fr, asc, s3, l3, k, st1, (set_store st2 s4), st5, v, a, a5, cr'. fold eq.
        split; [exact N1|]. split; [split; [exact N2|exact V]|]. split; [reflexivity|]. split; [exact ILA|]. split; [exact PKE|]. split; [exact PT|]. split; [exact NLW|].
        split; [rewrite (pos_at_no_lf (source done) (source a) NLW), PS, <- app_assoc, (pos_at_no_lf (source done) (source a1 ++ source w)); [reflexivity|apply no_lf_app; split; [exact NLF|apply blanks_no_lf; [exact SHW|exact B]]]|].
        split; [exact EP|]. split; [exact BLK|]. split; [exact MAX|]. split; [rewrite <- KS; replace (ps_store st1) with (ps_store st2) by (rewrite SS2; reflexivity); exact PF|].
        split; [reflexivity|]. split; [rewrite E5 in A4; exact A4|]. split; [exact PV|]. split; [rewrite M5, CS; reflexivity|].
        split; [rewrite C2; exact CR1|]. split; [exact C1|]. split; [reflexivity|].
        exists w1, (kt ++ w ++ (XPunct TEqual, [61]) :: w5 ++ vt), (SAssign (key_path k) tv).
        split; [unfold a; rewrite EK, EV; repeat rewrite <- app_assoc; reflexivity|]. split; [exact B1|]. apply gs_assign; first [assumption|reflexivity]. }
      constructor; cbn [rt_st rt_asts rt_prev rt_newline].
      + rewrite EA, EE, app_assoc. reflexivity.
      + rewrite !source_app, app_assoc. exact A5.
      + rewrite ER5. apply Forall_app. auto.
      + exact PA.
      + exact I.
      + right. exact I.
      + intros _. split; [reflexivity|exact HD].
      + exists ((X ++ fr) ++ asc ++ cs5). rewrite free_push, app_nil_r. split; [exact IX5|]. split; [exact SQ|]. intros [H V]. cbn [rt_st] in H. rewrite ER5 in H. apply app_eq_nil in H as [H1 H2].
        destruct (SN H1) as (N1 & N2 & N3). apply Forall_app in V as [V VA]. apply Forall_app in VA as [VA V5]. destruct (GV H2 V5) as (-> & _).
        rewrite !done_comments, comments_of_app, (inline_no_comments _ a ILA), <- (EX (conj N2 V)), EP. cbn [app]. repeat rewrite <- app_assoc. reflexivity.
      + intros [H V]. cbn [rt_st] in H. rewrite ER5 in H. apply app_eq_nil in H as [H1 H2].
        destruct (SN H1) as (N1 & N2 & N3). apply Forall_app in V as [V VA]. apply Forall_app in VA as [VA V5].
        destruct (GV H2 V5) as (_ & w5 & vt & tv & EV & B5 & GVT & VO & LVL). destruct (GK N3) as (w1 & kt & EK & B1 & GKT).
        destruct (DO (conj N2 V)) as (ds & cur & c & d & st & ED & GLS & GL & GC & CN & NLR & ASM & NES & LEV).
        destruct CN as [->|CN]; [|contradiction]. rewrite N1 in NLR. destruct st; [|discriminate NLR]. rewrite app_nil_r in ASM, NES, LEV.
        exists ds, ((cur ++ w1) ++ (kt ++ w ++ (XPunct TEqual, [61]) :: w5 ++ vt) ++ []), [], d, [SAssign (key_path k) tv]. rewrite !app_nil_r.
        split; [rewrite ED, app_nil_r; unfold a; rewrite EK, EV; repeat rewrite <- app_assoc; reflexivity|]. split; [exact GLS|].
        split; [rewrite <- (app_nil_r (kt ++ _)); apply gl_stmt; [apply Forall_app; split; [apply g_line_nil; exact GL|exact B1]|apply gs_assign; first [assumption|reflexivity]|constructor]|].
        split; [constructor|]. split; [left; reflexivity|]. split; [reflexivity|].
        cbn [rt_asts]. rewrite stmts_push, SM3. split; [apply all_some_app; [exact ASM|]|].
        { unfold assign_of. cbn [ta_assign as_key as_val map]. rewrite VO. reflexivity. }
        split; [apply nesting_app; split; [exact NES|]; rewrite <- LEV; cbn [nesting_ok]; split; [exact LVL|exact I]|].
        rewrite IB, IB3, LEV, level_after_app. reflexivity.
    - destruct VP as (EOE & _).
      destruct (recover_sound input line_stop (perr st5 e) ((source done ++ source a) ++ source a5) b5) as (a6 & b6 & G6 & C6 & IL6 & _); [exact A5|reflexivity|].
      pose proof G6 as (E6 & A6 & ER6 & M6 & _). cbn [perr ps_errs ps_store] in ER6, M6. rewrite app_nil_r in ER6, M6.
      eexists _, (a ++ a5 ++ a6), b6. split; [reflexivity|]. split; [rewrite EAB, E5, E6; repeat rewrite <- app_assoc; reflexivity|]. split; [apply has_item_l; exact HI|].
      assert (NE : ps_errs (recover_on line_stop (perr st5 e)) <> []) by (rewrite ER6; intros H; apply app_eq_nil in H as [_ H]; discriminate).
      split; [|intros [H _]; cbn [rt_st] in H; contradiction].
      constructor; cbn [rt_st rt_asts rt_prev rt_newline].
      + rewrite EA, EAB, E5, E6. repeat rewrite <- app_assoc. reflexivity.
      + rewrite !source_app. rewrite !app_assoc. exact A6.
      + rewrite ER6, ER5. apply Forall_app. split; [apply Forall_app; auto|]. constructor; [exact EOE|constructor].
      + rewrite (next_id_map _ _ M6). eapply asts_ok_le; [|exact AO3]. lia.
      + exact I.
      + right. exact I.
      + intros NLT. split; [reflexivity|]. destruct (NL NLT) as [PR HD]. rewrite PR in EP. symmetry in EP. apply app_eq_nil in EP as [EF _]. apply HD3; assumption.
      + exists ((X ++ fr) ++ asc ++ cs5). rewrite app_nil_r, M6. split; [exact IX5|]. split.
        * replace (done ++ a ++ a5 ++ a6) with ((done ++ a ++ a5) ++ a6) by assoc. rewrite done_comments, <- (app_nil_r ((X ++ fr) ++ asc ++ cs5)). apply subseq_app; [exact SQ|constructor].
        * intros [H _]. cbn [rt_st] in H. contradiction.
      + intros [H _]. cbn [rt_st] in H. contradiction.
  Qed.

  (** ** The loop *)
  Lemma root_loop_sound : input = source all -> Forall shape all -> forall fuel r done ts, rinv r done ts -> (left (rt_st r) < fuel)%nat ->
    (root_loop input eof fuel r = Panic /\ multiline_brackets all) \/
    exists r' done' ts', root_loop input eof fuel r = Ok r' /\ rinv r' done' ts' /\ blanks ts'.
  Proof.
    intros IN SHA. induction fuel as [|fuel IH]; intros r done ts R L; [lia|]. cbn [root_loop]. change (i_ty (ppeek eof (rt_st r))) with (pty eof (rt_st r)).
    assert (NEXT : forall r' a b, ts = a ++ b -> has_item a -> rinv r' (done ++ a) b ->
      (root_loop input eof fuel r' = Panic /\ multiline_brackets all) \/
      exists r'' done' ts', root_loop input eof fuel r' = Ok r'' /\ rinv r'' done' ts' /\ blanks ts').
    { intros r' a b E HI R'. apply (IH r' _ _ R'). assert ((left (rt_st r') < left (rt_st r))%nat); [|lia].
      pose proof (ri_at _ _ _ _ _ R) as (_ & _ & _ & I1 & _). pose proof (ri_at _ _ _ _ _ R') as (_ & _ & _ & I2 & _).
      unfold left. rewrite I1, I2, E, tile_items_app, app_length, source_app. pose proof (has_item_len (source done) a HI). lia. }
    assert (ASG : line_stop (pty eof (rt_st r)) = false ->
      ((let? r := root_assign input eof max_depth (ppeek eof (rt_st r)) r in root_loop input eof fuel r) = Panic /\ multiline_brackets all) \/
      exists r' done' ts', (let? r := root_assign input eof max_depth (ppeek eof (rt_st r)) r in root_loop input eof fuel r) = Ok r' /\ rinv r' done' ts' /\ blanks ts').
    { intros LS. destruct (assign_step r done ts R LS) as (r' & a & b & -> & E & HI & R' & _). cbn [bind]. eapply NEXT; eassumption. }
    destruct (pty eof (rt_st r)) eqn:PT; try (apply ASG; reflexivity); clear ASG.
    - destruct (comment_step _ _ r done ts r0 R PT) as (r' & a & b & -> & E & HI & R' & _). cbn [bind]. eapply NEXT; eassumption.
    - destruct (header_step _ _ r done ts R IN SHA PT) as [[-> RK]|(r' & a & b & -> & E & HI & R' & _)]; cbn [bind]; [left; auto|]. eapply NEXT; eassumption.
    - destruct (newline_step _ _ r done ts R PT) as (a & b & E & HI & R' & _). eapply NEXT; eassumption.
    - right. exists r, done, ts. split; [reflexivity|]. split; [exact R|]. pose proof (ri_at _ _ _ _ _ R) as A. unfold pty in PT.
      destruct (peek_cases input _ _ _ A) as [(B & _)|(w & x & s & b & E & B & NX & SH & PK & _)]; [exact B|]. rewrite PK in PT. cbn [i_ty] in PT. destruct (not_eof _ _ _ SH NX PT).
  Qed.

  (** ** The document *)
  Lemma rinv_start : input = source all -> Forall shape all -> all_separated all -> rinv (mkroot (mkps (mkpc None (tile_items [] all)) [] []) [] [] false) [] all.
  Proof.
    intros IN SHA SEP. constructor; cbn [rt_st rt_asts rt_prev rt_newline ps_errs ps_store].
      - reflexivity.
      - split; [exact IN|]. split; [exact SHA|]. split; [exact SEP|]. split; [reflexivity|exact I].
      - constructor.
      - constructor.
      - exact I.
      - right. exact I.
      - discriminate.
      - exists []. split; [constructor|]. split; [constructor|reflexivity].
      - intros _. exists [], [], [], [], []. split; [reflexivity|]. split; [constructor|]. split; [apply gl_empty; constructor|]. split; [constructor|]. split; [left; reflexivity|].
        split; [reflexivity|]. split; [reflexivity|]. split; [exact I|reflexivity].
  Qed.
  Lemma parse_items_sound : input = source all -> Forall shape all -> all_separated all ->
    (parse_items input eof (tile_items [] all) = Panic /\ multiline_brackets all) \/
    exists a es, parse_items input eof (tile_items [] all) = Ok (a, es) /\ Forall (err_ok input) es /\
      Forall (ast_in input all (next_id (as_comments a))) (as_asts a) /\
      (exists X, interleave (flat_map free_of (as_asts a)) (map ac_comment (as_comments a)) X /\ subseq X (comments_of [] all) /\
         (es = [] -> Forall valid all -> X = comments_of [] all)) /\
      (es = [] -> Forall valid all -> exists d, g_doc all d /\ nesting_ok 0 d /\ doc_of a = Some d).
  Proof.
    intros IN SHA SEP. unfold parse_items.
    pose proof (rinv_start IN SHA SEP) as R0.
    destruct (root_loop_sound IN SHA (S (length (tile_items [] all))) _ _ _ R0) as [[-> RK]|(r & done & ts & -> & R & B)]; [cbn [rt_st left]; unfold left; cbn; lia|left; auto|].
    right. cbn [bind]. eexists _, _. split; [reflexivity|]. pose proof R as [EA A EO AO LI _ NL CO DO]. cbn [as_asts as_comments].
    split; [exact EO|]. split; [|split].
    - apply Forall_rev. apply Forall_app. split; [|exact AO]. apply Forall_rev. apply Forall_forall. intros x H. apply in_map_iff in H as (c & <- & H). cbn. eapply prev_known; eassumption.
    - destruct CO as (X & IX & SX & EX). exists (X ++ rt_prev r). fold (free (rev (map AComment (rt_prev r)) ++ rt_asts r)). rewrite free_comments.
      assert (CA : comments_of [] all = comments_of [] done) by (rewrite EA, done_comments, (blanks_no_comments _ ts B); apply app_nil_r). rewrite CA.
      split; [rewrite <- (app_nil_r (map ac_comment _)); apply interleave_app; [exact IX|apply interleave_l]|]. split; [exact SX|].
      intros H V. apply EX. split; [exact H|]. rewrite EA in V. apply Forall_app in V as [V _]. exact V.
    - intros H V. rewrite EA in V. apply Forall_app in V as [V _]. destruct (DO (conj H V)) as (ds & cur & c & d & st & ED & GLS & GL & GC & CN & NLR & ASM & NES & LEV).
      exists (d ++ st). split; [|split; [exact NES|unfold doc_of; cbn [as_asts]; fold (stmts (rev (map AComment (rt_prev r)) ++ rt_asts r)); rewrite stmts_comments; exact ASM]].
      rewrite EA, ED. repeat rewrite <- app_assoc. apply g_lines_doc; [exact GLS|].
      destruct CN as [->|CN].
      + cbn [app]. rewrite <- (app_nil_r (cur ++ ts)). apply gd_last; [apply g_line_blanks; assumption|constructor].
      + assert (ts = []) as ->. { destruct ts as [|x ts]; [reflexivity|]. cbn in CN. apply Forall_inv in B. unfold is_blank in B. congruence. }
        rewrite app_nil_r. apply gd_last; assumption.
  Qed.
End Top.
