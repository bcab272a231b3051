(** Values made of words and dots: joining of slices, dates followed by a
    time. *)
From Verif Require Import Base BaseProofs CommonModel TomlError LitModel LitSpec LitNum LitInt LitWhole LitDate LitErr LexModel LexSpec LexBase LexStr LexSound LexProps ParseModel ParseSpec ParsePlace ParseItems ParseKey.

(** Rewriting up to conversion at a call of [combine_loop]. *)
Ltac rw_combine R :=
  match goal with |- context [combine_loop ?a ?b ?c ?d ?e] =>
    let l := constr:(combine_loop a b c d e) in
    match type of R with ?t = _ => change l with t end; rewrite R end.

Definition starts_run (b : list tile) : Prop := exists x r, b = x :: r /\ word_or_dot x.

(** Longest run of words and dots. *)
Lemma run_split : forall ts, exists u b, ts = u ++ b /\ Forall word_or_dot u /\ ~ starts_run b.
Proof.
  induction ts as [|x ts IH].
  - exists [], []. split; [reflexivity|]. split; [constructor|]. intros (? & ? & E & _). discriminate.
  - assert (D : word_or_dot x \/ ~ word_or_dot x).
    { unfold word_or_dot, is_punct. destruct x as [[| |[]| | |] s]; cbn; (left; tauto) || (right; intros [H|H]; discriminate). }
    destruct D as [D|D].
    + destruct IH as (u & b & -> & F & N). exists (x :: u), b. split; [reflexivity|]. split; [constructor; assumption|assumption].
    + exists [], (x :: ts). split; [reflexivity|]. split; [constructor|]. intros (y & r & E & Y). injection E as <- _. contradiction.
Qed.
Lemma run_unique : forall u b u' b', u ++ b = u' ++ b' -> Forall word_or_dot u -> Forall word_or_dot u' ->
  ~ starts_run b -> ~ starts_run b' -> u = u' /\ b = b'.
Proof.
  induction u as [|x u IH]; intros b [|x' u'] b' E F F' N N'.
  - auto.
  - exfalso. apply N. exists x', (u' ++ b'). split; [exact E|exact (Forall_inv F')].
  - exfalso. apply N'. exists x, (u ++ b). split; [symmetry; exact E|exact (Forall_inv F)].
  - injection E as <- E. destruct (IH _ _ _ E (Forall_inv_tail F) (Forall_inv_tail F') N N') as [-> ->]. auto.
Qed.

Lemma run_no_lf u : Forall shape u -> Forall word_or_dot u -> no_lf (source u).
Proof.
  induction u as [|[x s] u IH]; intros S W; [intros []|]. rewrite source_cons. apply no_lf_app.
  split; [|apply IH; [exact (Forall_inv_tail S)|exact (Forall_inv_tail W)]].
  pose proof (Forall_inv S) as S1. destruct (Forall_inv W) as [W1|W1]; unfold is_punct in *; cbn in W1; subst x.
  - apply word_no_lf, S1.
  - destruct (punct_char _ _ S1) as (c & -> & _ & NC & _). intros [H|[]]. congruence.
Qed.

Lemma dot_tile s : shape (XPunct TDot, s) -> s = [46].
Proof.
  intros (c & PC & ->). unfold punct in PC. cbn [In] in PC.
  repeat (destruct PC as [PC|PC]; [first [discriminate PC|injection PC as <-; reflexivity]|]). destruct PC.
Qed.

Lemma pos_eqb_eq a b : pos_eqb a b = true <-> a = b.
Proof.
  unfold pos_eqb. destruct a as [l c], b as [l' c']. cbn [p_line p_char]. rewrite andb_true_iff, !N.eqb_eq. split; [intros [-> ->]; reflexivity|intros E; injection E; auto].
Qed.
Lemma pos_lt_neq a b : pos_lt a b -> a <> b.
Proof. intros H ->. unfold pos_lt in H. lia. Qed.
Lemma pos_eqb_lt a b : pos_lt a b -> pos_eqb a b = false /\ pos_eqb b a = false.
Proof.
  intros H. apply pos_lt_neq in H. split; apply not_true_is_false; rewrite pos_eqb_eq; congruence.
Qed.

Section Lit.
  Context (input : list N).
  Notation at_ := (at_ input).
  Notation goes := (goes input).
  Notation eof := (eof input).
  Notation placed := (placed input).

  Definition sp_of (a t : list N) : span := mkspan (pos_at a) (pos_at (a ++ t)).

  Lemma concat_eq a t m t' r : input = a ++ t ++ m ++ t' ++ r ->
    concat_strs input (mkref (tlen a) t) (mkref (tlen (a ++ t ++ m)) t') = Ok (mkref (tlen a) (t ++ m ++ t')).
  Proof.
    intros IN. unfold concat_strs. cbn [sr_off sr_text].
    apply (slice_eq input a (t ++ m ++ t') r); [rewrite IN; assoc|reflexivity|]. rewrite !tlen_app. lia.
  Qed.
  Lemma extend_back_eq a t m r n : input = a ++ t ++ m ++ r -> n = tlen m ->
    extend_str_back input (mkref (tlen a) t) n = Ok (mkref (tlen a) (t ++ m)).
  Proof.
    intros IN ->. unfold extend_str_back. cbn [sr_off sr_text].
    apply (slice_eq input a (t ++ m) r); [rewrite IN; assoc|reflexivity|]. rewrite !tlen_app. lia.
  Qed.

  Lemma combine_eq : forall u a t b prev, prev_in input prev ->
    input = a ++ t ++ source (u ++ b) -> Forall shape (u ++ b) -> Forall word_or_dot u -> ~ starts_run b -> no_lf t ->
    exists prev', prev_in input prev' /\ combine_loop input prev (tile_items (a ++ t) (u ++ b)) (mkref (tlen a) t) (sp_of a t) =
      Ok (mkpc prev' (tile_items (a ++ t ++ source u) b), mkref (tlen a) (t ++ source u), sp_of a (t ++ source u)).
  Proof.
    induction u as [|[x s] u IH]; intros a t b prev PV IN SH W NR NL.
    - cbn [app] in *. change (source []) with (@nil N). rewrite !app_nil_r.
      destruct (view b (a ++ t)) as [(B & V)|(w & x & s & r & -> & B & NX & V)]; rewrite V.
      + exists prev. split; [exact PV|reflexivity].
      + cbn [combine_loop i_start i_ty sp_of s_end].
        assert (E : pos_eqb (pos_at ((a ++ t) ++ source w)) (pos_at (a ++ t)) = false \/ w = []).
        { destruct w as [|y w]; [right; reflexivity|left]. apply (pos_eqb_lt _ _). apply pos_at_lt.
          destruct y as [y s']. pose proof (shape_nonempty _ _ (Forall_inv SH)) as NE. rewrite source_cons. destruct s'; [congruence|discriminate]. }
        destruct E as [-> | ->].
        * exists prev. split; [exact PV|reflexivity].
        * change (source []) with (@nil N). rewrite app_nil_r.
          replace (pos_eqb (pos_at (a ++ t)) (pos_at (a ++ t))) with true by (symmetry; apply pos_eqb_eq; reflexivity). cbn [negb].
          exists prev. split; [exact PV|]. destruct x as [| |[]| | |]; cbn [item_ty]; try reflexivity.
          -- exfalso. apply NR. eexists _, r. split; [reflexivity|right; reflexivity].
          -- exfalso. apply NR. eexists _, r. split; [reflexivity|left; reflexivity].
    - pose proof (Forall_inv SH) as S1. pose proof (Forall_inv_tail SH) as S2. pose proof (Forall_inv_tail W) as W2.
      cbn [app] in *. rewrite source_cons in IN.
      destruct (Forall_inv W) as [W1|W1]; unfold is_punct in *; cbn in W1; subst x.
      + rewrite tile_items_cons by discriminate. cbn [combine_loop i_start i_ty sp_of s_end s_start item_ty].
        replace (pos_eqb (pos_at (a ++ t)) (pos_at (a ++ t))) with true by (symmetry; apply pos_eqb_eq; reflexivity). cbn [negb sr_text].
        assert (NS := word_no_lf _ (proj2 S1)).
        pose proof (concat_eq a t [] s (source (u ++ b)) IN) as C. rewrite app_nil_r in C. cbn [app] in C.
        rewrite C. cbn [bind].
        rewrite (pos_plus_text (a ++ t) s) by auto.
        destruct (IH a (t ++ s) b (Some (mkitem (ILit (mkref (tlen (a ++ t)) s)) (pos_at (a ++ t))))) as (prev' & PV' & R);
          [cbn [prev_in i_start]; eapply (pos_in_at input (a ++ t)); rewrite IN; rewrite app_assoc; reflexivity|rewrite IN; assoc|assumption|assumption|assumption|apply no_lf_app; auto|].
        exists prev'. split; [exact PV'|]. rewrite source_cons. unfold sp_of in *. repeat rewrite <- app_assoc in R. repeat rewrite <- app_assoc. exact R.
      + pose proof (dot_tile _ S1) as ->. rewrite tile_items_cons by discriminate. cbn [combine_loop i_start i_ty sp_of s_end s_start item_ty].
        replace (pos_eqb (pos_at (a ++ t)) (pos_at (a ++ t))) with true by (symmetry; apply pos_eqb_eq; reflexivity). cbn [negb sr_text].
        rewrite (extend_back_eq a t [46] (source (u ++ b)) 1 IN) by reflexivity. cbn [bind].
        assert (NS : no_lf [46]) by (intros [H|[]]; discriminate).
        rewrite (pos_plus_text (a ++ t) [46]) by auto.
        destruct (IH a (t ++ [46]) b (Some (mkitem IDot (pos_at (a ++ t))))) as (prev' & PV' & R);
          [cbn [prev_in i_start]; eapply (pos_in_at input (a ++ t)); rewrite IN; rewrite app_assoc; reflexivity|rewrite IN; assoc|assumption|assumption|assumption|apply no_lf_app; auto|].
        exists prev'. split; [exact PV'|]. rewrite source_cons. unfold sp_of in *. repeat rewrite <- app_assoc in R. repeat rewrite <- app_assoc. exact R.
  Qed.

  (** The run after a word. *)
  Lemma combine_goes st pre w s u b : at_ st pre (w ++ ((XWord, s) :: u) ++ b) -> blanks w -> Forall word_or_dot u -> ~ starts_run b ->
    exists st', combine_adjacent input (padv st) (mkref (tlen (pre ++ source w)) s) (span_from_pos_len (pos_at (pre ++ source w)) (tlen s)) =
        Ok (st', mkref (tlen (pre ++ source w)) (s ++ source u), sp_of (pre ++ source w) (s ++ source u)) /\
      goes st pre (w ++ ((XWord, s) :: u) ++ b) st' (w ++ (XWord, s) :: u) b [] [] /\ ps_store st' = ps_store st /\
      input = (pre ++ source w) ++ (s ++ source u) ++ source b /\ no_lf (s ++ source u) /\ s <> [].
  Proof.
    intros A B W NR.
    pose proof (goes_padv input st pre w XWord s (u ++ b) A B ltac:(discriminate) ltac:(discriminate)) as G1.
    pose proof (goes_at _ _ _ _ _ _ _ _ _ G1) as A1. destruct (at_split _ _ _ _ _ A) as (_ & S2 & Q2 & IN).
    assert (ES : pre ++ source (w ++ [(XWord, s)]) = (pre ++ source w) ++ s) by (rewrite source_app, source_cons; cbn; rewrite app_nil_r; assoc).
    rewrite ES in A1. pose proof (Forall_inv S2) as SW. assert (NS := word_no_lf _ (proj2 SW)).
    cbn [app] in IN. rewrite source_cons in IN.
    destruct A1 as (I1 & SH1 & Q1 & E1 & PV1).
    destruct (combine_eq u (pre ++ source w) s b (pc_prev (ps_cur (padv st))) PV1) as (prev' & PV' & R); auto.
    unfold combine_adjacent. rewrite E1.
    replace (span_from_pos_len (pos_at (pre ++ source w)) (tlen s)) with (sp_of (pre ++ source w) s)
      by (unfold sp_of, span_from_pos_len; rewrite (pos_plus_text (pre ++ source w) s) by auto; reflexivity).
    rw_combine R. cbn [bind]. eexists. split; [reflexivity|].
    apply Forall_app in SH1 as [SU SB].
    split; [|split; [reflexivity|split; [rewrite IN, source_app; assoc|split; [apply no_lf_app; split; [assumption|apply run_no_lf; assumption]|apply SW]]]].
    split; [assoc|]. split; [|rewrite !app_nil_r; split; [reflexivity|split; [reflexivity|split; constructor]]].
    split; [rewrite IN, !source_app, source_cons; assoc|]. split; [assumption|]. split; [apply (all_separated_tail u), Q1|].
    cbn [set_pcur ps_cur pc_rest pc_prev]. split; [|exact PV']. f_equal. rewrite source_app, source_cons. assoc.
  Qed.

  (** ** Literals *)
  Lemma literal_scalar t sp pv : parse_literal t sp = Ok pv ->
    match pv with
    | PInt z => scalar t (TvInt z)
    | PFloat f => scalar t (TvFloat f)
    | PBool b => scalar t (TvBool b)
    | PDateTime d => scalar t (TvDate d)
    | PPartialDate x => lenient_datetime t (LocalDate x)
    | PInvalidDateTime _ => True
    end.
  Proof.
    intros H. destruct pv as [f|z|b|d|x|e].
    - apply sc_float. apply (float_literals t sp). exact H.
    - apply int_literals in H as [(D & I)|(v & D & ->)]; [apply sc_dec; assumption|apply sc_prefixed; assumption].
    - apply sc_bool. apply (bool_literals t sp). exact H.
    - apply sc_date. apply (datetime_literals t sp). destruct d; try exact H. exfalso. exact (no_local_date _ _ _ H).
    - apply (datetime_literals t sp). exact H.
    - exact I.
  Qed.

  Lemma inside_ok a t b e : input = a ++ t ++ b -> no_lf t -> whole_literal t b -> explained (pos_at a) t e -> err_ok input e.
  Proof.
    intros IN NL WL (u & v & w & E & H & SAY). rewrite E in NL, IN, WL.
    assert (NU : no_lf u) by (intros X; apply NL; apply in_or_app; auto).
    assert (NV : no_lf v) by (intros X; apply NL; apply in_or_app; right; apply in_or_app; auto).
    apply (err_ok_at input e (a ++ u) v (w ++ b)).
    - rewrite IN. assoc.
    - rewrite H. replace (pos_plus (pos_at a) (tlen u)) with (pos_at (a ++ u)) by (symmetry; apply pos_plus_text; auto). f_equal.
      rewrite <- (pos_plus_text (a ++ u) v (tlen v)) by auto. rewrite <- (pos_plus_text a u (tlen u)) by auto. unfold pos_plus. cbn [p_line p_char]. f_equal. lia.
    - destruct e; try contradiction SAY; try (exists a, u, w, b; auto); exact (proj1 (proj2 SAY)).
    - destruct e; try contradiction SAY; reflexivity.
  Qed.
  Lemma run_whole tr b : Forall shape tr -> Forall shape b -> Forall word_or_dot tr -> ~ starts_run b -> whole_literal (source tr) (source b).
  Proof.
    intros ST SB W NR. split.
    - clear - ST W. induction tr as [|[x s] tr IH]; [constructor|]. rewrite source_cons. apply Forall_app.
      split; [|apply IH; [exact (Forall_inv_tail ST)|exact (Forall_inv_tail W)]].
      pose proof (Forall_inv ST) as S1. destruct (Forall_inv W) as [E|E].
      + cbn in E. subst x. destruct S1 as [_ S1]. eapply Forall_impl; [|exact S1]. intros c H. left. exact H.
      + unfold is_punct in E. cbn in E. subst x. destruct S1 as (c & PC & ->). constructor; [|constructor]. right.
        unfold punct in PC. cbn [In] in PC. repeat (destruct PC as [PC|PC]; [first [discriminate PC|injection PC as <-; reflexivity]|]). destruct PC.
    - clear - SB NR. destruct b as [|[x s] b]; [left; intros (c & r & E & _); discriminate|]. rewrite source_cons. pose proof (Forall_inv SB) as S1.
      assert (WD : ~ word_or_dot (x, s)) by (intros W; apply NR; exists (x, s), b; auto).
      assert (NO : forall c t, s = c :: t -> In c [9; 32; 34; 35; 39; 44; 61; 91; 93; 123; 125] -> ~ starts_with lit_char (s ++ source b)).
      { intros c t -> HI (c' & r & E & H). cbn [app] in E. injection E as <- _. destruct H as [H| ->]; [apply H; cbn in *; tauto|]. cbn in HI. repeat (destruct HI as [HI|HI]; [discriminate|]). exact HI. }
      destruct x as [| |ty| | |q text off].
      + left. destruct S1 as [-> | ->]; (eapply NO; [reflexivity|cbn; tauto]).
      + right. destruct S1 as [-> | ->]; [left; exists 10, (source b); auto|right; exists (source b); reflexivity].
      + left. destruct S1 as (c & PC & ->). unfold punct in PC. cbn [In] in PC.
        repeat (destruct PC as [PC|PC]; [injection PC as <- <-; first [eapply NO; [reflexivity|cbn; tauto]|exfalso; apply WD; right; reflexivity]|]). destruct PC.
      + exfalso. apply WD. left. reflexivity.
      + left. destruct S1 as (t & -> & _). eapply NO; [reflexivity|cbn; tauto].
      + left. destruct S1 as [(trim & bd & en & E & _) _]. destruct q; cbn [delims app] in E; (eapply NO; [exact E|cbn; tauto]).
  Qed.

  Lemma placed_of a t b : input = a ++ t ++ b -> placed (mkref (tlen a) t) (sp_of a t).
  Proof. intros IN. exists a, b. split; [exact IN|]. split; reflexivity. Qed.

  (** The word in front of the cursor and its run. *)
  Lemma word_run st pre ts r : at_ st pre ts -> pty eof st = ILit r ->
    exists w s u b, ts = w ++ ((XWord, s) :: u) ++ b /\ blanks w /\ Forall word_or_dot u /\ ~ starts_run b /\
      ppeek eof st = mkitem (ILit r) (pos_at (pre ++ source w)) /\ r = mkref (tlen (pre ++ source w)) s.
  Proof.
    intros A P. unfold pty in P. destruct (peek_cases input st pre ts A) as [(B & PK & _)|(w & x & s & r' & E & B & NX & SH & PK & IN)]; rewrite PK in P.
    - discriminate.
    - cbn [i_ty] in P. destruct x as [| |[]| | |]; cbn [item_ty] in P; try discriminate. injection P as <-.
      destruct (run_split r') as (u & b & -> & W & NR). exists w, s, u, b.
      split; [exact E|]. split; [exact B|]. split; [exact W|]. split; [exact NR|]. split; [exact PK|reflexivity].
  Qed.

  Definition lit_post (w a : list tile) (es : list terror) (v : value) : Prop :=
    lit_ok input v /\ (es = [] -> exists vt tv, a = w ++ vt /\ g_value vt tv /\ val_of v = Some tv /\ nest tv = 0).

  Lemma blanks_text w : Forall shape w -> blanks w -> Forall (fun c => c = 9 \/ c = 32) (source w).
  Proof.
    induction w as [|[x s] w IH]; intros SW B; [constructor|]. rewrite source_cons. apply Forall_app.
    split; [|apply IH; [exact (Forall_inv_tail SW)|exact (Forall_inv_tail B)]].
    pose proof (Forall_inv B) as B1. pose proof (Forall_inv SW) as S1. unfold is_blank in B1. cbn in B1. subst x.
    cbn in S1. destruct S1 as [-> | ->]; constructor; auto.
  Qed.

  Lemma time_part_goes st pre wr tr b x :
    at_ st (pre ++ source (wr ++ tr)) b -> g_lit tr (source tr) -> no_lf (source tr) -> ~ starts_run b ->
    input = (pre ++ source wr) ++ source tr ++ source b -> lenient_datetime (source tr) (LocalDate x) ->
    exists v st' a c es, try_to_parse_time_part input eof st (mkref (tlen (pre ++ source wr)) (source tr)) (sp_of (pre ++ source wr) (source tr)) x = Ok (v, st') /\
      goes st (pre ++ source (wr ++ tr)) b st' a c es [] /\ ps_store st' = ps_store st /\ lit_post wr (wr ++ tr ++ a) es v.
  Proof.
    intros A GL NL NR IN LD. set (p0 := pre ++ source wr) in *.
    unfold try_to_parse_time_part.
    assert (DATE : lit_post wr (wr ++ tr ++ []) [] (VDateTime (mkref (tlen p0) (source tr)) (sp_of p0 (source tr)) (LocalDate x))).
    { split; [split; [eapply placed_of; exact IN|left; apply sc_date; exact LD]|]. intros _. exists tr, (TvDate (LocalDate x)). split; [rewrite app_nil_r; reflexivity|].
      split; [eapply gv_scalar; [exact GL|apply sc_date; exact LD]|]. split; reflexivity. }
    destruct (pty eof st) as [s|r|r| | | | | | | | |] eqn:PT.
    2: { destruct (word_run _ _ _ _ A PT) as (w & s & u & c & -> & B & W & NRc & PK & ->).
      rewrite PK. cbn [i_start sr_text].
      destruct (combine_goes _ _ _ _ _ _ A B W NRc) as (st' & R & G & ST & IN2 & NL2 & NE).
      rewrite source_app in R, IN2. fold p0 in R. replace (pre ++ source wr ++ source tr) with (p0 ++ source tr) in R, IN2 by (subst p0; assoc).
      destruct (at_split _ _ _ _ _ A) as (SW & _ & _ & _).
      rewrite source_app in G, PK. replace (pre ++ source wr ++ source tr) with (p0 ++ source tr) in G, PK by (subst p0; assoc).
      rewrite source_app. replace (pre ++ source wr ++ source tr) with (p0 ++ source tr) by (subst p0; assoc).
      rewrite R. cbn [bind]. destruct (blanks_no_lf w SW B) as [NLW LW].
      set (tt := s ++ source u) in *.
      assert (WNE : w <> []).
      { intros ->. apply NR. eexists _, _. split; [reflexivity|left; reflexivity]. }
      set (t1 := if p_char (s_end (sp_of p0 (source tr))) + 1 <? p_char (s_start (sp_of ((p0 ++ source tr) ++ source w) tt)) then _ else _).
      assert (FAR : t1 = if 1 <? N.of_nat (length w) then perr st' (EDateAndTimeTooFarApart (mkspan (pos_at (p0 ++ source tr)) (pos_at ((p0 ++ source tr) ++ source w)))) else st').
      { subst t1. unfold sp_of, span_between. cbn [s_end s_start].
        assert (PC : p_char (pos_at ((p0 ++ source tr) ++ source w)) = p_char (pos_at (p0 ++ source tr)) + N.of_nat (length w)).
        { rewrite <- (pos_plus_text (p0 ++ source tr) (source w) (tlen (source w))) by auto. rewrite LW. reflexivity. }
        rewrite PC.
        destruct (N.ltb_spec (p_char (pos_at (p0 ++ source tr)) + 1) (p_char (pos_at (p0 ++ source tr)) + N.of_nat (length w))),
          (N.ltb_spec 1 (N.of_nat (length w))); try lia; reflexivity. }
      rewrite FAR. clear FAR t1.
      replace (tlen ((p0 ++ source tr) ++ source w)) with (tlen (p0 ++ source tr ++ source w)) by (f_equal; assoc).
      rewrite (concat_eq p0 (source tr) (source w) tt (source c)) by (rewrite IN2; assoc). cbn [bind].
      assert (ACR : span_across (sp_of p0 (source tr)) (sp_of ((p0 ++ source tr) ++ source w) tt) = sp_of p0 (source tr ++ source w ++ tt)).
      { unfold span_across, sp_of. cbn [s_start s_end]. f_equal. f_equal. assoc. }
      rewrite ACR. clear ACR.
      assert (PL : placed (mkref (tlen p0) (source tr ++ source w ++ tt)) (sp_of p0 (source tr ++ source w ++ tt))).
      { apply placed_of with (b := source c). rewrite IN2. assoc. }
      set (a' := w ++ (XWord, s) :: u) in *.
      set (st2 := if 1 <? N.of_nat (length w) then perr st' (EDateAndTimeTooFarApart (mkspan (pos_at (p0 ++ source tr)) (pos_at ((p0 ++ source tr) ++ source w)))) else st').
      assert (G2 : exists es1, goes st (p0 ++ source tr) (w ++ ((XWord, s) :: u) ++ c) st2 a' c es1 [] /\ (es1 = [] -> length w = 1%nat) /\ ps_store st2 = ps_store st).
      { subst st2. destruct (N.ltb_spec 1 (N.of_nat (length w))).
        - eexists. split; [apply goes_err; [exact G|]|split; [discriminate|exact ST]].
          apply (err_ok_at input _ (p0 ++ source tr) (source w) (tt ++ source c)); [rewrite IN2; assoc|reflexivity| |reflexivity].
          assert (SLE : (length w <= length (source w))%nat).
          { clear - SW. induction w as [|[x s] w IH]; [cbn; lia|]. rewrite source_cons, app_length. pose proof (shape_nonempty _ _ (Forall_inv SW)).
            specialize (IH (Forall_inv_tail SW)). destruct s; [congruence|cbn [length]; lia]. }
          split; [split; [|exact (blanks_text w SW B)]|lia]. intros H'. rewrite H' in SLE. cbn in SLE. lia.
        - exists []. split; [exact G|]. split; [intros _|exact ST]. destruct w as [|? [|? ?]]; [congruence|reflexivity|cbn [length] in *; lia]. }
      destruct G2 as (es1 & G2 & E1 & ST2).
      assert (NN : tt <> []) by (subst tt; destruct s; [congruence|discriminate]).
      assert (GD : good (pos_at ((p0 ++ source tr) ++ source w)) tt any (parse_time_and_offset (0, tt) (sp_of ((p0 ++ source tr) ++ source w) tt))).
      { replace (sp_of ((p0 ++ source tr) ++ source w) tt) with (lit_span (pos_at ((p0 ++ source tr) ++ source w)) tt).
        - apply (good_time_offset _ _ []); [split; reflexivity|constructor].
        - unfold sp_of, lit_span, span_from_pos_len. rewrite (pos_plus_text _ tt) by auto. reflexivity. }
      cbn [sr_text].
      destruct (parse_time_and_offset (0, tt) (sp_of ((p0 ++ source tr) ++ source w) tt)) as [[tm o]|e|] eqn:PTO; [| |destruct GD].
      - assert (SPD : spaced (source tr) tt (TvDate (from_optional_offset x tm o))).
        { clear - PTO LD. apply time_and_offset_iff in PTO as [(tx & T & -> & ->)|(tx & ox & off & g & T & O & -> & ->)].
          + apply sp_local; assumption.
          + eapply sp_offset; eassumption. }
        eexists _, st2, a', c, es1. split; [reflexivity|]. split; [exact G2|]. split; [exact ST2|].
        split. { split; [exact PL|]. right. exists (source tr), (source w), tt. split; [reflexivity|]. split; [|split; [|exact SPD]].
          - destruct w as [|[y s'] w]; [congruence|]. pose proof (shape_nonempty _ _ (Forall_inv SW)). rewrite source_cons. destruct s'; [congruence|discriminate].
          - exact (blanks_text w SW B). }
        intros EN. specialize (E1 EN). destruct w as [|bl [|? ?]]; try discriminate E1.
        exists (tr ++ bl :: (XWord, s) :: u), (TvDate (from_optional_offset x tm o)). split; [reflexivity|].
        split; [|split; [reflexivity|reflexivity]].
        assert (GLT : g_lit ((XWord, s) :: u) tt).
        { split; [eexists _, _; reflexivity|]. split; [constructor; [left; reflexivity|assumption]|]. reflexivity. }
        eapply gv_spaced; [exact GL|exact (Forall_inv B)|exact GLT|exact SPD].
      - eexists _, (perr st2 e), a', c, (es1 ++ [e]). split; [reflexivity|]. split.
        { apply goes_err; [exact G2|]. eapply inside_ok; [exact IN2|exact NL2| |exact GD]. apply (run_whole ((XWord, s) :: u) c); [| |constructor; [left; reflexivity|exact W]|exact NRc]; destruct (at_split _ _ _ _ _ A) as (_ & SX & _); apply Forall_app in SX as [SX SY]; assumption. }
        split; [exact ST2|]. split; [exact PL|]. intros EN. destruct es1; discriminate. }
    all: eexists _, st, [], b, []; split; [reflexivity|]; split; [apply goes_refl; exact A|]; split; [reflexivity|exact DATE].
  Qed.

  Lemma combine_time_goes st pre wr tr b :
    at_ st (pre ++ source (wr ++ tr)) b -> no_lf (source tr) ->
    input = (pre ++ source wr) ++ source tr ++ source b ->
    exists v st' a c, try_combine_time_part input eof st (mkref (tlen (pre ++ source wr)) (source tr)) (sp_of (pre ++ source wr) (source tr)) = Ok (v, st') /\
      goes st (pre ++ source (wr ++ tr)) b st' a c [] [] /\ ps_store st' = ps_store st /\ lit_ok input v.
  Proof.
    intros A NL IN. set (p0 := pre ++ source wr) in *. unfold try_combine_time_part.
    assert (STAY : exists v st' a c, @Ok Empty_set _ (VInvalid (mkref (tlen p0) (source tr)) (sp_of p0 (source tr)), st) = Ok (v, st') /\
      goes st (pre ++ source (wr ++ tr)) b st' a c [] [] /\ ps_store st' = ps_store st /\ lit_ok input v).
    { eexists _, st, [], b. split; [reflexivity|]. split; [apply goes_refl; exact A|]. split; [reflexivity|]. eapply placed_of. exact IN. }
    destruct (pty eof st) as [s|r|r| | | | | | | | |] eqn:PT; try exact STAY.
    destruct (word_run _ _ _ _ A PT) as (w & s & u & c & -> & B & W & NRc & PK & ->).
    rewrite PK. cbn [i_start sr_text]. destruct (_ <? _); [exact STAY|].
    pose proof (goes_padv input st _ w XWord s (u ++ c) A B ltac:(discriminate) ltac:(discriminate)) as G1.
    pose proof (goes_at _ _ _ _ _ _ _ _ _ G1) as A1.
    destruct (at_split _ _ _ _ _ A) as (SW & SW2 & _ & IN2).
    assert (EP : pre ++ source (wr ++ tr) = p0 ++ source tr) by (rewrite source_app; subst p0; assoc).
    rewrite EP in A1, G1, IN2 |- *. cbn [app] in IN2. rewrite source_cons in IN2.
    destruct (blanks_no_lf w SW B) as [NLW LW]. assert (NS := word_no_lf _ (proj2 (Forall_inv SW2))).
    replace (tlen ((p0 ++ source tr) ++ source w)) with (tlen (p0 ++ source tr ++ source w)) by (f_equal; assoc).
    rewrite (concat_eq p0 (source tr) (source w) s (source (u ++ c))) by (rewrite IN2; assoc). cbn [bind].
    assert (ACR : span_across (sp_of p0 (source tr)) (span_from_pos_len (pos_at ((p0 ++ source tr) ++ source w)) (tlen s)) = sp_of p0 (source tr ++ source w ++ s)).
    { unfold span_across, sp_of, span_from_pos_len. cbn [s_start s_end]. f_equal. rewrite (pos_plus_text ((p0 ++ source tr) ++ source w) s) by auto. f_equal. assoc. }
    rewrite ACR. clear ACR. destruct A1 as (I1 & SH1 & Q1 & E1 & PV1).
    destruct (combine_eq u p0 (source tr ++ source w ++ s) c (pc_prev (ps_cur (padv st))) PV1) as (prev' & PV' & R); auto.
    { rewrite IN2. assoc. }
    { repeat (apply no_lf_app; split); auto. }
    unfold combine_adjacent. rewrite E1.
    replace ((p0 ++ source tr) ++ source (w ++ [(XWord, s)])) with (p0 ++ source tr ++ source w ++ s)
      by (rewrite source_app, source_cons; cbn; rewrite app_nil_r; assoc).
    rw_combine R. cbn [bind]. eexists _, _, (w ++ (XWord, s) :: u), c. split; [reflexivity|].
    apply Forall_app in SH1 as [SU SB].
    split; [|split; [reflexivity|]].
    - split; [assoc|]. split; [|rewrite !app_nil_r; split; [reflexivity|split; [reflexivity|split; constructor]]].
      split; [rewrite IN2, !source_app, source_cons; assoc|]. split; [assumption|]. split; [apply (all_separated_tail u), Q1|].
      cbn [set_pcur ps_cur pc_rest pc_prev]. split; [|exact PV']. f_equal. rewrite source_app, source_cons. assoc.
    - apply placed_of with (b := source c). rewrite IN2, source_app. assoc.
  Qed.

  (** A value that starts with a word. *)
  Lemma literal_value_goes st pre w s u b : at_ st pre (w ++ ((XWord, s) :: u) ++ b) -> blanks w -> Forall word_or_dot u -> ~ starts_run b ->
    exists v st' a c es, parse_literal_value input eof st (ppeek eof st) (mkref (tlen (pre ++ source w)) s) = Ok (v, st') /\
      goes st pre (w ++ ((XWord, s) :: u) ++ b) st' a c es [] /\ ps_store st' = ps_store st /\ has_item a /\ lit_post w a es v.
  Proof.
    intros A B W NR. unfold parse_literal_value.
    rewrite (peek_tile input st pre w XWord s (u ++ b) A B ltac:(discriminate)). cbn [i_start sr_text].
    destruct (combine_goes _ _ _ _ _ _ A B W NR) as (st' & R & G & ST & IN & NL & NE). rewrite R. cbn [bind sr_text].
    set (tr := (XWord, s) :: u) in *. set (p0 := pre ++ source w) in *.
    assert (TT : s ++ source u = source tr) by reflexivity. rewrite TT in *.
    assert (HI : forall r, has_item ((w ++ tr) ++ r)).
    { intros r H. apply Forall_app in H as [H _]. apply Forall_app in H as [_ H]. apply Forall_inv in H. discriminate H. }
    assert (HI0 : has_item (w ++ tr)) by (specialize (HI []); rewrite app_nil_r in HI; exact HI).
    assert (GL : g_lit tr (source tr)).
    { split; [eexists _, _; reflexivity|]. split; [constructor; [left; reflexivity|assumption]|reflexivity]. }
    assert (PL := placed_of _ _ _ IN).
    assert (SPE : sp_of p0 (source tr) = lit_span (pos_at p0) (source tr)).
    { unfold sp_of, lit_span, span_from_pos_len. rewrite (pos_plus_text p0 (source tr)) by auto. reflexivity. }
    assert (TN : source tr <> []) by (subst tr; rewrite source_cons; destruct s; [congruence|discriminate]).
    assert (WL : whole_literal (source tr) (source b)).
    { destruct (at_split _ _ _ _ _ A) as (_ & SX & _). apply Forall_app in SX as [SX SY]. apply run_whole; [exact SX|exact SY|constructor; [left; reflexivity|exact W]|exact NR]. }
    pose proof (good_literal (source tr) (pos_at p0) TN) as GD. rewrite <- SPE in GD.
    pose proof (goes_at _ _ _ _ _ _ _ _ _ G) as A1.
    destruct (parse_literal (source tr) (sp_of p0 (source tr))) as [pv|e|] eqn:PE; [| |destruct GD].
    - pose proof (literal_scalar _ _ _ PE) as SC. destruct pv as [f|z|bb|d|x|e].
      + eexists _, st', _, _, _. split; [reflexivity|]. split; [exact G|]. split; [exact ST|]. split; [exact HI0|]. split; [split; [exact PL|exact SC]|].
        intros _. exists tr, (TvFloat f). split; [reflexivity|]. split; [eapply gv_scalar; eassumption|]. split; reflexivity.
      + eexists _, st', _, _, _. split; [reflexivity|]. split; [exact G|]. split; [exact ST|]. split; [exact HI0|]. split; [split; [exact PL|exact SC]|].
        intros _. exists tr, (TvInt z). split; [reflexivity|]. split; [eapply gv_scalar; eassumption|]. split; reflexivity.
      + eexists _, st', _, _, _. split; [reflexivity|]. split; [exact G|]. split; [exact ST|]. split; [exact HI0|]. split.
        * exists (tlen p0). apply bool_literals in PE. clear - PE PL. destruct PE; exact PL.
        * intros _. exists tr, (TvBool bb). split; [reflexivity|]. split; [eapply gv_scalar; eassumption|]. split; reflexivity.
      + eexists _, st', _, _, _. split; [reflexivity|]. split; [exact G|]. split; [exact ST|]. split; [exact HI0|]. split; [split; [exact PL|left; exact SC]|].
        intros _. exists tr, (TvDate d). split; [reflexivity|]. split; [eapply gv_scalar; eassumption|]. split; reflexivity.
      + destruct (time_part_goes st' pre w tr b x A1 GL NL NR IN SC) as (v & st2 & a & c & es & R2 & G2 & ST2 & POST).
        fold p0 in R2. exists v, st2, ((w ++ tr) ++ a), c, es. split; [exact R2|].
        pose proof (goes_trans _ _ _ _ _ _ _ _ _ _ _ _ _ _ G G2) as G3. cbn [app] in G3.
        split; [exact G3|]. split; [rewrite ST2; exact ST|]. split; [apply HI|]. rewrite <- app_assoc. exact POST.
      + assert (EO : err_ok input e) by (eapply inside_ok; [exact IN|exact NL|exact WL|exact GD]).
        assert (GE := goes_err _ _ _ _ _ _ _ _ _ e G EO). cbn [app] in GE.
        pose proof (goes_at _ _ _ _ _ _ _ _ _ GE) as AE.
        destruct (negb (has_time_char (source tr))).
        * destruct (combine_time_goes (perr st' e) pre w tr b AE NL IN) as (v & st2 & a & c & R2 & G2 & ST2 & POST).
          fold p0 in R2. eexists v, st2, ((w ++ tr) ++ a), c, _. split; [exact R2|]. split; [exact (goes_trans _ _ _ _ _ _ _ _ _ _ _ _ _ _ GE G2)|].
          split; [rewrite ST2; exact ST|]. split; [apply HI|]. split; [exact POST|]. discriminate.
        * eexists _, _, _, _, _. split; [reflexivity|]. split; [exact GE|]. split; [exact ST|]. split; [exact HI0|]. split; [exact PL|discriminate].
    - assert (EO : err_ok input e) by (eapply inside_ok; [exact IN|exact NL|exact WL|exact GD]).
      eexists _, (perr st' e), _, _, _. split; [reflexivity|]. split; [apply goes_err; [exact G|exact EO]|]. split; [exact ST|]. split; [exact HI0|]. split; [exact PL|].
      intros H. discriminate.
  Qed.
End Lit.
