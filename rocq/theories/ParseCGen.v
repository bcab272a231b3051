(** The parser on the documents of the grammar, from any state between two
    lines on. *)
From Verif Require Import Base BaseProofs CommonModel TomlError LitModel LitSpec LexModel LexSpec LexBase LexStr LexSound LexTop LexProps ParseModel ParseSpec ParsePlace ParseItems ParseKey ParseLit ParseVal ParseValue ParseAssoc ParseHead ParseRoot ParseTop ParseCVal ParseCValue ParseCTop.

Section CGen.
  Context (input : list N) (all : list tile) (IN : input = source all) (SHA : Forall shape all).
  Context (es0 : list terror) (s0 : list (option stmt)) (l0 : N).
  Notation at_ := (at_ input).
  Notation goes := (goes input).
  Notation eof := (eof input).

  Record ginv (r : root) (pre : list N) (ts : list tile) (d : list stmt) : Prop := mkginv {
    gi_rinv : exists done ts', rinv input all r done ts';
    gi_at : at_ (rt_st r) pre ts;
    gi_errs : ps_errs (rt_st r) = es0;
    gi_says : stmts (rt_asts r) = s0 ++ map Some d;
    gi_level : in_body (rt_asts r) = level_after l0 d;
  }.

  Lemma g_newline_step f r pre w n ts d : ginv r pre (w ++ (XNewline, n) :: ts) d -> blanks w ->
    exists r', root_loop input eof (S f) r = root_loop input eof f r' /\ ginv r' (pre ++ source (w ++ [(XNewline, n)])) ts d /\ rt_newline r' = false /\
      (left (rt_st r') < left (rt_st r))%nat.
  Proof.
    intros [(done & ts' & R) A E S L] B.
    assert (PT : pty eof (rt_st r) = INewline) by (unfold pty; rewrite (peek_tile input _ _ w XNewline n ts A B ltac:(discriminate)); reflexivity).
    destruct (newline_step _ _ r done ts' R PT) as (a & b & _ & _ & R' & _).
    pose proof (goes_skip input _ _ w XNewline n ts A B ltac:(discriminate)) as G.
    exists (mkroot (padv (rt_st r)) (rt_asts r) (rt_prev r) false). cbn [root_loop]. fold (pty eof (rt_st r)). rewrite PT. split; [reflexivity|].
    split; [|split; [reflexivity|]].
    - constructor; cbn [rt_st rt_asts]; [eauto|exact (goes_at _ _ _ _ _ _ _ _ _ G)|exact E|exact S|exact L].
    - cbn [rt_st]. eapply goes_less; [exact A|exact G|]. intros H. apply Forall_app in H as [_ H]. apply Forall_inv in H. discriminate H.
  Qed.

  Lemma g_comment_step f r pre w s ts d : ginv r pre (w ++ (XComment, s) :: ts) d -> blanks w ->
    exists r', root_loop input eof (S f) r = root_loop input eof f r' /\ ginv r' (pre ++ source (w ++ [(XComment, s)])) ts d /\
      (left (rt_st r') < left (rt_st r))%nat.
  Proof.
    intros [(done & ts' & R) A E S L] B.
    destruct (pty eof (rt_st r)) eqn:PT; unfold pty in PT; rewrite (peek_tile input _ _ w XComment s ts A B ltac:(discriminate)) in PT; try discriminate PT. fold (pty eof (rt_st r)) in *.
    assert (PT' : pty eof (rt_st r) = IComment r0) by (unfold pty; rewrite (peek_tile input _ _ w XComment s ts A B ltac:(discriminate)); exact PT).
    destruct (comment_step _ _ r done ts' r0 R PT') as (r' & a & b & RC & _ & _ & R' & _).
    pose proof (goes_skip input _ _ w XComment s ts A B ltac:(discriminate)) as G.
    exists r'. cbn [root_loop]. fold (pty eof (rt_st r)). rewrite PT', RC. split; [reflexivity|].
    destruct (root_comment_says _ _ _ RC) as (S1 & S2 & S3 & S4). cbn [set_rst rt_st rt_asts padv set_pcur ps_errs] in *.
    split.
    - constructor; [eauto| |rewrite S3; exact E|rewrite S1; exact S|rewrite S2; exact L].
      eapply (at_cur input); [exact (goes_at _ _ _ _ _ _ _ _ _ G)|exact S4].
    - replace (left (rt_st r')) with (left (padv (rt_st r))) by (unfold left; rewrite S4; reflexivity).
      eapply goes_less; [exact A|exact G|]. intros H. apply Forall_app in H as [_ H]. apply Forall_inv in H. discriminate H.
  Qed.

  (** ** Headers *)
  Lemma g_header_step f r pre w ts s rest d : ginv r pre (w ++ ts ++ rest) d -> blanks w -> g_stmt ts s -> match s with SAssign _ _ => False | _ => True end ->
    Forall valid ts -> rt_newline r = false ->
    exists r', root_loop input eof (S f) r = root_loop input eof f r' /\ ginv r' (pre ++ source (w ++ ts)) rest (d ++ [s]) /\ (left (rt_st r') < left (rt_st r))%nat.
  Proof.
    intros [(done & ts' & R) A E S L] B GS NS V NL.
    assert (HD : exists ls a, ts = (XPunct TSquareLeft, ls) :: a).
    { destruct GS as [|[x ls] w1 kt k w2 rr P|[x ls] l' w1 kt k w2 rr r' P]; [destruct NS| |]; unfold is_punct in P; cbn in P; subst x; eauto. }
    destruct HD as (ls & a & ->). assert (A0 := A). cbn [app] in A0.
    assert (PK := peek_tile input _ _ w (XPunct TSquareLeft) ls _ A0 B ltac:(discriminate)).
    assert (PT : pty eof (rt_st r) = ISquareLeft) by (unfold pty; rewrite PK; reflexivity).
    pose proof (goes_skip input _ _ w (XPunct TSquareLeft) ls _ A0 B ltac:(discriminate)) as G0.
    assert (ls = [91]) as -> by (apply (punct_unique TSquareLeft 91 ls); [cbv; tauto|exact (Forall_inv V)]).
    set (p0 := pre ++ source w) in *.
    assert (ES : pre ++ source (w ++ [(XPunct TSquareLeft, [91])]) = p0 ++ [91]) by (rewrite source_app; unfold p0; assoc).
    assert (A1 : at_ (padv (rt_st r)) (p0 ++ [91]) (a ++ rest)) by (rewrite <- ES; exact (goes_at _ _ _ _ _ _ _ _ _ G0)).
    (* the comments above *)
    destruct (strict_lines _ _ _ _ _ R) as [NN BL]; [rewrite PT; discriminate|rewrite PT; discriminate|].
    destruct (find_associated_ok (rt_prev r) (p_line (pos_at p0))) as (fr & asc & EP & FA & _ & _).
    { destruct (peek_punct input _ _ ts' TSquareLeft 91 (ri_at _ _ _ _ _ R)) as (w' & b0 & _ & _ & PS & _); [rewrite PT; reflexivity|].
      rewrite PK in PS. cbn [i_start] in PS. rewrite PS. eapply below_le; [|exact BL]. apply line_app. }
    pose proof (header_step input all r done ts' R IN SHA PT) as HS.
    assert (MAIN : exists st1 new, root_header eof (ppeek eof (rt_st r)) r = Ok (mkroot st1 (new :: rev (map AComment fr) ++ rt_asts r) [] true) /\
      ast_of new = [Some s] /\ in_body [new] = 1 /\ ps_errs st1 = es0 /\ at_ st1 (pre ++ source (w ++ (XPunct TSquareLeft, [91]) :: a)) rest /\ (left st1 < left (rt_st r))%nat).
    { assert (FIN : forall la k ra rt st1 c1, header eof (pos_at p0) (padv (rt_st r)) = Ok (la, k, ra, rt, st1) ->
        goes (padv (rt_st r)) (p0 ++ [91]) (a ++ rest) st1 a rest [] [] ->
        (forall cr, match la with
           | Some l => let? h := new_aheader (pos_at p0, l) k (ra, rt) in Ok (AArray (mkae cr h []))
           | None => let? h := new_theader (pos_at p0) k rt in Ok (ATable (mktb cr h []))
           end = Ok (c1 cr)) ->
        (forall cr, ast_of (c1 cr) = [Some s] /\ in_body [c1 cr] = 1) ->
        exists st1 new, root_header eof (ppeek eof (rt_st r)) r = Ok (mkroot st1 (new :: rev (map AComment fr) ++ rt_asts r) [] true) /\
      ast_of new = [Some s] /\ in_body [new] = 1 /\ ps_errs st1 = es0 /\ at_ st1 (pre ++ source (w ++ (XPunct TSquareLeft, [91]) :: a)) rest /\ (left st1 < left (rt_st r))%nat).
      { intros la k ra rt st1 c1 HE G1 NEW SAY. unfold root_header. rewrite PK. cbn [i_start]. rewrite HE. cbn [bind]. cbv zeta. rewrite NL. cbn [andb].
        rewrite FA. cbn [bind]. rewrite Nnat.Nat2N.id. replace (firstn (length fr) (rt_prev r)) with fr by (rewrite EP, firstn_len; reflexivity).
        destruct (store_comments_ok (ps_store st1) (skipn (length fr) (rt_prev r)) Above 0) as (cr & -> & _ & _). cbn [bind]. rewrite NEW. cbn [bind].
        eexists _, _. split; [reflexivity|]. split; [apply SAY|]. split; [apply SAY|].
        pose proof G1 as (_ & A2 & ER & _). cbn [padv set_pcur ps_errs] in ER. rewrite E in ER. cbn [app] in ER. rewrite ?app_nil_r in ER.
        split; [exact ER|]. split.
        - eapply (at_cur input); [|reflexivity]. replace (pre ++ source (w ++ (XPunct TSquareLeft, [91]) :: a)) with ((p0 ++ [91]) ++ source a); [exact A2|].
          rewrite source_app, source_cons. unfold p0. repeat rewrite <- app_assoc. reflexivity.
        - change (left (set_store st1 (ps_store st1 ++ map (mkac Above 0) (skipn (length fr) (rt_prev r))))) with (left st1).
          pose proof (goes_leq _ _ _ _ _ _ _ _ _ A1 G1) as L1.
          assert (left (padv (rt_st r)) < left (rt_st r))%nat; [|lia]. eapply goes_less; [exact A0|exact G0|].
          intros H. apply Forall_app in H as [_ H]. apply Forall_inv in H. discriminate H. }
      assert (BN : forall w, blanks w -> Forall valid w -> no_lf (source w)).
      { intros w' B' W. apply (blanks_no_lf w'); [|exact B']. eapply Forall_impl; [|exact W]. exact valid_shape. }
      inversion GS as [|l w1 kt k w2 [rx rs] P1 B1 GK B2 P2 E1 E2|l [lx ls] w1 kt k w2 [rx rs] [rx' rs'] P1 P1' B1 GK B2 P2 P2' E1 E2].
      - destruct s; try discriminate. destruct NS.
      - subst a s. unfold is_punct in P2. cbn in P2. subst rx. apply Forall_inv_tail in V. apply Forall_app in V as [V1 V]. apply Forall_app in V as [V2 V]. apply Forall_app in V as [V3 V4].
        assert (A1' : at_ (padv (rt_st r)) (p0 ++ [91]) (w1 ++ kt ++ w2 ++ (XPunct TSquareRight, rs) :: rest)) by (eapply (at_eq input); [exact A1|assoc]).
        destruct (header_complete input p0 _ w1 kt k w2 rs rest A1' B1 GK V2 B2) as (k' & st1 & HE & KP & G1).
        destruct (par_offset_no_lf p0 (source (w1 ++ kt ++ w2))) as (o & PO).
        { rewrite !source_app. apply no_lf_app. split; [apply BN; assumption|]. apply no_lf_app. split; [eapply g_key_no_lf; eassumption|apply BN; assumption]. }
        eapply (FIN _ _ _ _ _ (fun cr => ATable (mktb cr (mkth (pos_at p0) (Some k') (Some o)) []))); [exact HE|eapply goes_eq; [exact G1|assoc|reflexivity]| |].
        + intros cr. exact (f_equal (fun x => let? h := (let? o := (let? d := x in Ok (Some d)) in Ok (mkth (pos_at p0) (Some k') o)) in Ok (ATable (mktb cr h []))) PO).
        + intros cr. cbn. rewrite KP. auto.
      - subst a s. unfold is_punct in P1', P2, P2'. cbn in P1', P2, P2'. subst lx rx rx'. apply Forall_inv_tail in V. pose proof (Forall_inv V) as V0. apply Forall_inv_tail in V.
        apply Forall_app in V as [V1 V]. apply Forall_app in V as [V2 V]. apply Forall_app in V as [V3 V4].
        assert (A1' : at_ (padv (rt_st r)) (p0 ++ [91]) ((XPunct TSquareLeft, ls) :: w1 ++ kt ++ w2 ++ (XPunct TSquareRight, rs) :: (XPunct TSquareRight, rs') :: rest)) by (eapply (at_eq input); [exact A1|assoc]).
        destruct (aheader_complete input p0 _ w1 kt k w2 ls rs rs' rest A1' B1 GK V2 B2) as (k' & la & st1 & HE & KP & G1).
        assert (NLM : no_lf (ls ++ source (w1 ++ kt ++ w2))).
        { apply no_lf_app. split; [destruct (punct_char _ _ V0) as (c & -> & _ & N & _); intros [H|[]]; congruence|].
          rewrite !source_app. apply no_lf_app. split; [apply BN; assumption|]. apply no_lf_app. split; [eapply g_key_no_lf; eassumption|apply BN; assumption]. }
        assert (NLR : no_lf rs) by (destruct (punct_char _ _ (Forall_inv V4)) as (c & -> & _ & N & _); intros [H|[]]; congruence).
        destruct (par_offset_no_lf p0 _ NLM) as (o & PO).
        destruct (par_offset_no_lf p0 ((ls ++ source (w1 ++ kt ++ w2)) ++ rs)) as (o' & PO'); [apply no_lf_app; split; assumption|]. rewrite <- app_assoc in PO'.
        eapply (FIN _ _ _ _ _ (fun cr => AArray (mkae cr (mkah (pos_at p0, la) (Some k') (Some o, Some o')) []))); [exact HE|eapply goes_eq; [exact G1|assoc|reflexivity]| |].
        + intros cr. exact (f_equal2 (fun x y => let? h := (let? a := (let? d := x in Ok (Some d)) in let? b := (let? d := y in Ok (Some d)) in Ok (mkah (pos_at p0, la) (Some k') (a, b))) in Ok (AArray (mkae cr h []))) PO PO').
        + intros cr. cbn. rewrite KP. auto. }
    destruct MAIN as (st1 & new & RH & AO & IB & ER & A2 & LT).
    destruct HS as [[HS _]|(r' & a' & b' & HS & _ & _ & R' & _)]; [rewrite RH in HS; discriminate|]. rewrite RH in HS. injection HS as <-.
    eexists. cbn [root_loop]. fold (pty eof (rt_st r)). rewrite PT, RH. cbn [bind]. split; [reflexivity|]. split; [|exact LT].
    constructor; cbn [rt_st rt_asts]; [eauto|exact A2|exact ER| |].
    - rewrite stmts_cons, stmts_comments, AO. rewrite S, map_app, <- app_assoc; reflexivity.
    - rewrite level_after_app. destruct new; try discriminate IB; destruct s; try destruct NS; reflexivity.
  Qed.

  Lemma g_assign_step f r pre w kt k w1 e w2 vt v rest d : ginv r pre (w ++ (kt ++ w1 ++ e :: w2 ++ vt) ++ rest) d -> blanks w ->
    g_key kt k -> blanks w1 -> is_punct TEqual e -> blanks w2 -> g_value vt v ->
    Forall valid (kt ++ w1 ++ e :: w2 ++ vt) -> rt_newline r = false -> stops rest -> level_after l0 d + nest v <= 100 ->
    exists r', root_loop input eof (S f) r = root_loop input eof f r' /\ ginv r' (pre ++ source (w ++ kt ++ w1 ++ e :: w2 ++ vt)) rest (d ++ [SAssign k v]) /\ (left (rt_st r') < left (rt_st r))%nat.
  Proof.
    destruct e as [ex es]. intros [(done & ts' & R) A E SA L] B GK B1 PE B2 GV V NL ST NE. unfold is_punct in PE. cbn in PE. subst ex.
    assert (A0 : at_ (rt_st r) pre (w ++ kt ++ w1 ++ (XPunct TEqual, es) :: w2 ++ vt ++ rest)) by (eapply (at_eq input); [exact A|assoc]).
    apply Forall_app in V as [VK V]. apply Forall_app in V as [_ V]. apply Forall_inv_tail in V. apply Forall_app in V as [_ VV].
    destruct (g_key_first _ _ GK) as (x & s & u & EK & IL).
    assert (PT : exists t, pty eof (rt_st r) = t /\ line_stop t = false /\ t <> ISquareLeft /\ (forall c, t <> IComment c) /\ t <> INewline /\ t <> IEOF).
    { eexists. split; [reflexivity|]. assert (A' := A0). rewrite EK in A'. cbn [app] in A'.
      unfold pty. rewrite (peek_tile input _ _ w x s _ A' B) by (apply value_not_blank; left; exact IL). cbn [i_ty].
      destruct IL as [->|(q & t & o & ->)]; cbn [item_ty]; repeat split; try intros ?; discriminate. }
    destruct PT as (t & PT & LS & T1 & T2 & T3 & T4).
    destruct (assign_step input all r done ts' R) as (r' & a & b & RA & _ & _ & R' & _); [rewrite PT; exact LS|].
    assert (LOOP : root_loop input eof (S f) r = root_loop input eof f r').
    { cbn [root_loop]. fold (pty eof (rt_st r)). rewrite PT, RA. cbn [bind]. destruct t; try reflexivity; congruence. }
    exists r'. split; [exact LOOP|]. clear LOOP. revert RA. unfold root_assign.
    destruct (parse_key_complete input kt k (rt_st r) pre w _ GK A0 B VK) as (k' & st1 & -> & G1 & _ & KP).
    { apply next_is_app; [exact B1|discriminate|left; reflexivity]. }
    cbn [bind]. cbv zeta. pose proof (goes_at _ _ _ _ _ _ _ _ _ G1) as A1. fold (pty eof st1).
    rewrite (pty_punct input st1 _ w1 TEqual es _ A1 B1). cbn [item_ty]. rewrite NL. cbn [andb].
    pose proof (goes_skip input _ _ w1 (XPunct TEqual) es _ A1 B1 ltac:(discriminate)) as G2. pose proof (goes_at _ _ _ _ _ _ _ _ _ G2) as A2.
    intros H. apply bind_ok in H as (n & _ & H). apply bind_ok in H as ([[s3 l3] lv] & PF & H). apply bind_ok in H as ([s4 cr] & SC & H).
    destruct (place_free_says _ _ _ _ _ _ PF) as (SM & IB & ->).
    destruct (parse_value_complete input max_depth (in_body (rt_asts r)) ltac:(unfold max_depth; lia) (set_store (padv st1) s4) ((pre ++ source (w ++ kt)) ++ source (w1 ++ [(XPunct TEqual, es)])) w2 vt v rest) as (v' & st5 & cs & RV & G5 & VO).
    { eapply (at_cur input); [exact A2|reflexivity]. }
    { exact B2. }
    { exact VV. }
    { exact GV. }
    { rewrite L. exact NE. }
    { exact ST. }
    rewrite RV in H. cbn [bind] in H. apply bind_ok in H as (cr' & _ & H). injection H as <-.
    pose proof (goes_trans _ _ _ _ _ _ _ _ _ _ _ _ _ _ G1 G2) as G12.
    pose proof G12 as (_ & _ & ER & _). rewrite E in ER. cbn [app] in ER. rewrite ?app_nil_r in ER. pose proof G5 as (_ & A5 & ER5 & _). cbn [set_store ps_errs] in ER5. rewrite ER in ER5. rewrite ?app_nil_r in ER5.
    split.
    - constructor; cbn [rt_st rt_asts]; [eauto| |exact ER5| |].
      + eapply (at_pre input); [exact A5|].
        repeat rewrite <- app_assoc. f_equal. rewrite <- source_app, <- source_app. f_equal. assoc.
      + rewrite stmts_push, SM. rewrite SA, map_app, <- app_assoc. f_equal. f_equal. unfold assign_of. cbn [ta_assign as_key as_val map]. rewrite VO, KP. reflexivity.
      + assert (PB : in_body (push_assign (mkta cr' (mkassign k' (i_start (ppeek eof st1)) v')) l3) = in_body l3) by (destruct l3 as [|[]]; reflexivity).
        rewrite PB, IB, L, level_after_app. reflexivity.
    - cbn [rt_st]. pose proof (goes_leq _ _ _ _ _ _ _ _ _ (at_cur input _ (set_store (padv st1) s4) _ _ A2 eq_refl) G5) as L1.
      change (left (set_store (padv st1) s4)) with (left (padv st1)) in L1.
      pose proof (goes_less _ _ _ _ _ _ _ _ _ A0 G12) as L2. assert (HI : has_item ((w ++ kt) ++ w1 ++ [(XPunct TEqual, es)])); [|specialize (L2 HI); lia].
      intros H. apply Forall_app in H as [_ H]. apply Forall_app in H as [_ H]. apply Forall_inv in H. discriminate H.
  Qed.

  Lemma g_stmt_step f r pre w ts s rest d : ginv r pre (w ++ ts ++ rest) d -> blanks w -> g_stmt ts s -> Forall valid ts -> rt_newline r = false ->
    stops rest -> nesting_ok (level_after l0 d) [s] ->
    exists r', root_loop input eof (S f) r = root_loop input eof f r' /\ ginv r' (pre ++ source (w ++ ts)) rest (d ++ [s]) /\ (left (rt_st r') < left (rt_st r))%nat.
  Proof.
    intros C B GS V NL ST NE. destruct s as [k v|k|k].
    - inversion GS as [kt k0 w1 e w2 vt v0 GK B1 PE B2 GV E1 E2| |]. subst ts k0 v0. eapply g_assign_step; try eassumption. apply NE.
    - eapply g_header_step; try eassumption.
    - eapply g_header_step; try eassumption.
  Qed.

  (** ** The loop *)
  Lemma g_line_step f r pre ts s c rest d : ginv r pre (ts ++ c ++ rest) d -> g_line ts s -> g_comment c -> Forall valid (ts ++ c) -> rt_newline r = false ->
    stops rest -> nesting_ok (level_after l0 d) s -> (left (rt_st r) < f)%nat ->
    exists f' r' w pre', root_loop input eof f r = root_loop input eof f' r' /\ ginv r' pre' (w ++ rest) (d ++ s) /\ blanks w /\
      pre' ++ source w = pre ++ source (ts ++ c) /\ (left (rt_st r') < f')%nat.
  Proof.
    intros C GL GC V NL ST NE LF.
    assert (AFTER : forall r1 w f1 ts1, ginv r1 (pre ++ source ts1) (w ++ c ++ rest) (d ++ s) -> blanks w -> ts = ts1 ++ w -> (left (rt_st r1) < f1)%nat ->
      exists f' r' w pre', root_loop input eof f1 r1 = root_loop input eof f' r' /\ ginv r' pre' (w ++ rest) (d ++ s) /\ blanks w /\
        pre' ++ source w = pre ++ source (ts ++ c) /\ (left (rt_st r') < f')%nat).
    { intros r1 w f1 ts1 C1 B E L1. destruct GC as [|cs].
      - exists f1, r1, w, (pre ++ source ts1). split; [reflexivity|]. split; [exact C1|]. split; [exact B|]. split; [|exact L1].
        rewrite E, app_nil_r, source_app, app_assoc. reflexivity.
      - destruct f1 as [|f1]; [lia|]. cbn [app] in C1. destruct (g_comment_step f1 r1 _ w cs rest _ C1 B) as (r2 & -> & C2 & L2).
        exists f1, r2, [], ((pre ++ source ts1) ++ source (w ++ [(XComment, cs)])). split; [reflexivity|]. split; [exact C2|]. split; [constructor|]. split; [|lia].
        change (source []) with (@nil N). rewrite app_nil_r, E, <- app_assoc, <- source_app. do 2 f_equal. assoc. }
    destruct GL as [w B|w1 ts s w2 B1 GS B2].
    - apply (AFTER r w f []); [|exact B|reflexivity|exact LF]. change (source []) with (@nil N). rewrite !app_nil_r. exact C.
    - destruct f as [|f]; [lia|]. destruct (g_stmt_step f r pre w1 ts s (w2 ++ c ++ rest) d) as (r1 & -> & C1 & L1).
      + destruct C as [H1 H2 H3 H4 H5]. constructor; try assumption. eapply (at_eq input); [exact H2|assoc].
      + exact B1.
      + exact GS.
      + destruct (forall_split _ _ w1 (ts ++ w2 ++ c) V ltac:(assoc)) as [_ V']. apply Forall_app in V'. tauto.
      + exact NL.
      + destruct GC as [|cs].
        * destruct ST as [ST|ST]; [left; cbn [app]; apply Forall_app; auto|]. right. cbn [app]. clear -ST B2. induction B2 as [|[y t] w H B IH]; [exact ST|].
          cbv [is_blank] in H. cbn in H. subst y. cbn [app]. apply ni_blank. exact IH.
        * right. cbn [app]. apply next_is_app; [exact B2|discriminate|right; left; reflexivity].
      + exact NE.
      + apply (AFTER r1 w2 f (w1 ++ ts)); [exact C1|exact B2|assoc|lia].
  Qed.

  Lemma g_loop_step ts d : g_doc ts d -> forall f r pre d0, ginv r pre ts d0 -> Forall valid ts -> rt_newline r = false -> nesting_ok (level_after l0 d0) d ->
    (left (rt_st r) < f)%nat ->
    exists r', root_loop input eof f r = Ok r' /\ ps_errs (rt_st r') = es0 /\ stmts (rt_asts r') = s0 ++ map Some (d0 ++ d).
  Proof.
    induction 1 as [ts s c GL GC|ts s c n ts' d GL GC GD IH]; intros f r pre d0 C V NL NE LF.
    - destruct (g_line_step f r pre ts s c [] d0) as (f' & r' & w & pre' & -> & C' & B & _ & L'); try assumption.
      + rewrite app_nil_r. exact C.
      + left. constructor.
      + rewrite app_nil_r in C'. destruct C' as [_ A' E' S' _]. destruct f' as [|f']; [lia|]. exists r'. cbn [root_loop].
        rewrite (peek_blanks input _ _ _ A' B). cbn [i_ty eof]. auto.
    - apply nesting_app in NE as [NE1 NE2].
      destruct (forall_split _ _ (ts ++ c) ((XNewline, n) :: ts') V ltac:(assoc)) as [V1 V2].
      destruct (g_line_step f r pre ts s c ((XNewline, n) :: ts') d0) as (f' & r' & w & pre' & -> & C' & B & _ & L'); try assumption.
      + right. apply ni_here; [discriminate|left; reflexivity].
      + destruct f' as [|f']; [lia|]. destruct (g_newline_step f' r' pre' w n ts' _ C' B) as (r2 & -> & C2 & N2 & L2).
        destruct (IH f' r2 _ _ C2 (Forall_inv_tail V2) N2) as (r3 & R3 & E3 & S3); [rewrite level_after_app; exact NE2|lia|].
        exists r3. split; [exact R3|]. split; [exact E3|]. rewrite S3, <- app_assoc. reflexivity.
  Qed.

End CGen.
