(** C83: a broken line spoils only itself. *)
From Verif Require Import Base BaseProofs CommonModel TomlError LitModel LitSpec LexModel LexSpec LexBase LexMain LexTop LexPre ParseModel ParseSpec ParsePlace ParseItems ParseRoot ParseAssoc ParseHead ParseTop ParseCVal ParseCTop ParsePre OnLit OnParse ParseCGen OnLex LexLine.
From Verif Require Import MapExt MeanProofs DisplayModel DiagModel PropParse PropPre PropLow PropGap.

(** ** Specification *)

(** The pieces of a line that is not part of anything that could span lines:
    it has no opening bracket, except for one or two with which it starts; and
    fewer than a hundred opening braces.  Nothing else is asked of it. *)
Definition bracket (x : tile) : Prop := fst x = XPunct TSquareLeft.
Definition no_bracket (ts : list tile) : Prop := Forall (fun x => ~ bracket x) ts.
Inductive line_pieces : list tile -> Prop :=
| lp_plain ts : no_bracket ts -> line_pieces ts
| lp_one w b ts : blanks w -> bracket b -> no_bracket ts -> line_pieces (w ++ b :: ts)
| lp_two w b w' b' ts : blanks w -> bracket b -> blanks w' -> bracket b' -> no_bracket ts -> line_pieces (w ++ b :: w' ++ b' :: ts).
Definition braces (ts : list tile) : N := N.of_nat (length (filter (fun x => match fst x with XPunct TCurlyLeft => true | _ => false end) ts)).
(** [line] and its line break [brk], where [line] is cut into [ts]. *)
Definition single_line (ts : list tile) (line brk : list N) : Prop :=
  lexical (ts ++ [(XNewline, brk)]) (line ++ brk) /\ ~ In 10 line /\ line_pieces ts /\ braces ts <= 99.
(** Everything a finding points at is on the line [n]. *)
Definition on_line (n : N) (g : ddiag) : Prop :=
  p_line (s_start (g_span g)) = n /\ p_line (s_end (g_span g)) = n /\
  (forall h, g_hint g = Some h -> p_line (s_start (h_span h)) = n /\ p_line (s_end (h_span h)) = n) /\
  Forall (fun l => l = n) (g_lines g).

(** ** The line *)
Lemma line_no_lf pre s : ~ In 10 s -> p_line (pos_at (pre ++ s)) = p_line (pos_at pre).
Proof. intros H. rewrite pos_at_no_lf by exact H. reflexivity. Qed.
Lemma line_items L : forall ts pre, p_line (pos_at pre) = L -> ~ In 10 (source ts) -> Forall shape ts ->
  Forall (hok L) (tile_items pre ts) /\ Forall (fun x => i_ty x <> INewline) (tile_items pre ts) /\ curlies (tile_items pre ts) = braces ts /\
  (no_bracket ts -> Forall (fun x => i_ty x <> ISquareLeft) (tile_items pre ts)).
Proof.
  induction ts as [|[x s] ts IH]; intros pre PL NL SH; [repeat split; constructor|]. rewrite source_cons in NL.
  assert (N1 : ~ In 10 s) by (intros H; apply NL, in_or_app; auto). assert (N2 : ~ In 10 (source ts)) by (intros H; apply NL, in_or_app; auto).
  assert (P2 : p_line (pos_at (pre ++ s)) = L) by (rewrite line_no_lf; assumption).
  destruct (IH _ P2 N2 (Forall_inv_tail SH)) as (I1 & I2 & I3 & I4). pose proof (Forall_inv SH) as S1.
  assert (XN : x <> XNewline) by (intros ->; cbn in S1; destruct S1 as [-> | ->]; apply N1; cbn; auto).
  assert (BR : braces ((x, s) :: ts) = (match x with XPunct TCurlyLeft => 1 | _ => 0 end) + braces ts).
  { unfold braces. cbn [filter fst]. destruct x as [| |[]| | |]; cbn [length]; lia. }
  assert (PU : forall ty, x = XPunct ty -> ty <> TNewline /\ i_ty (mkitem (item_ty pre x s) (pos_at pre)) <> INewline).
  { intros ty ->. cbn in S1. destruct S1 as (c & PC & _). split; [intros ->; cbv in PC; intuition congruence|]. destruct ty; cbn; discriminate. }
  assert (X : hok L (mkitem (item_ty pre x s) (pos_at pre))).
  { split; [exact PL|]. destruct x as [| |ty| | |q text off]; cbn [item_ty i_ty]; try exact I; [|exact P2]. destruct ty; exact I. }
  match goal with |- context [_ = braces ?y] => replace (braces y) with ((match x with XPunct TCurlyLeft => 1 | _ => 0 end) + braces ts) by (exact (eq_sym BR)) end. clear BR. destruct x as [| |ty| | |q text off]; cbn [tile_items]; [split; [exact I1|split; [exact I2|split; [rewrite I3; lia|intros NB; apply I4; exact (Forall_inv_tail NB)]]]|congruence| | | |];
    (split; [constructor; assumption|]); rewrite curlies_cons, I3.
  - destruct (PU ty eq_refl) as (_ & Q). split; [constructor; [exact Q|exact I2]|]. split; [destruct ty; try reflexivity; lia|].
    intros NB. constructor; [|apply I4; exact (Forall_inv_tail NB)]. pose proof (Forall_inv NB) as NB1. unfold bracket in NB1. cbn in NB1. destruct ty; cbn; congruence.
  - split; [constructor; [discriminate|exact I2]|]. split; [reflexivity|]. intros NB. constructor; [discriminate|apply I4; exact (Forall_inv_tail NB)].
  - split; [constructor; [discriminate|exact I2]|]. split; [reflexivity|]. intros NB. constructor; [discriminate|apply I4; exact (Forall_inv_tail NB)].
  - split; [constructor; [discriminate|exact I2]|]. split; [reflexivity|]. intros NB. constructor; [discriminate|apply I4; exact (Forall_inv_tail NB)].
Qed.
Lemma braces_app a b : braces (a ++ b) = braces a + braces b.
Proof. unfold braces. rewrite filter_app. rewrite app_length, Nnat.Nat2N.inj_add. reflexivity. Qed.

Lemma loop_more input e : forall f r x n, root_loop input e f r = Ok x -> root_loop input e (f + n) r = Ok x.
Proof.
  induction f as [|f IH]; intros r x n E; [discriminate|]. cbn [Nat.add root_loop] in *. cbv zeta in *.
  destruct (i_ty (ppeek e (rt_st r))); try (destruct (root_assign _ _ _ _ _) as [r1|[]|]; try discriminate; cbn [bind] in *; apply IH; exact E).
  - destruct (root_comment _ _) as [r1|[]|]; try discriminate. cbn [bind] in *. apply IH. exact E.
  - destruct (root_header _ _ _) as [r1|[]|]; try discriminate. cbn [bind] in *. apply IH. exact E.
  - apply IH. exact E.
  - exact E.
Qed.
Lemma loop_same input e f f' r x x' : root_loop input e f r = Ok x -> root_loop input e f' r = Ok x' -> x = x'.
Proof.
  intros E E'. apply (loop_more _ _ _ _ _ f') in E. apply (loop_more _ _ _ _ _ f) in E'. rewrite (Nat.add_comm f' f) in E'. congruence.
Qed.

(** If the last item is a header, its section is all that changes. *)
Definition body (l l' : list ast) : Prop := forall h t, l = h :: t -> header_ast h = true -> exists h', l' = h' :: t /\ more_of h h'.
Lemma body_refl l : body l l.
Proof. intros h t -> _. exists h. split; [reflexivity|apply more_refl]. Qed.
Lemma more_header h h' : more_of h h' -> header_ast h' = header_ast h.
Proof. intros []; reflexivity. Qed.
Lemma body_trans a b c : body a b -> body b c -> body a c.
Proof.
  intros H K h t E HH. destruct (H h t E HH) as (h1 & E1 & M1). destruct (K h1 t E1) as (h2 & E2 & M2); [rewrite (more_header _ _ M1); exact HH|].
  exists h2. split; [exact E2|]. exact (more_trans _ _ _ M1 M2).
Qed.
Lemma body_free s free l s' l' n : place_free s free l = Ok (s', l', n) -> body l l'.
Proof.
  intros E h t -> HH. destruct h as [a|b|b|c]; try discriminate; cbn [place_free] in E; step_in E; destruct x as [s1 c1]; injection E as _ <- _; (eexists; split; [reflexivity|]).
  - apply mo_table with (l := tb_assigns b) (more := []); cbn; rewrite ?app_nil_r; reflexivity.
  - apply mo_array with (l := ae_assigns b) (more := []); cbn; rewrite ?app_nil_r; reflexivity.
Qed.
Lemma body_push a l : body l (push_assign a l).
Proof.
  intros h t -> HH. destruct h as [b|b|b|c]; try discriminate; (eexists; split; [reflexivity|]).
  - apply mo_table with (l := tb_assigns b) (more := [a]); reflexivity.
  - apply mo_array with (l := ae_assigns b) (more := [a]); reflexivity.
Qed.
Lemma body_comment c r r' : root_comment c r = Ok r' -> body (rt_asts r) (rt_asts r').
Proof.
  unfold root_comment. intros E. destruct (rt_newline r); [|injection E as <-; apply body_refl].
  destruct (store_comment _ _) as [id s]. step_in E. injection E as <-. cbn [rt_asts]. intros h t EA HH. rewrite EA in Heqr0.
  destruct h as [a|b|b|c0]; try discriminate; step_in Heqr0; destruct x0 as [c0 a0]; injection Heqr0 as <-; (eexists; split; [reflexivity|]).
  - apply append_comment_same in Heqr1. apply mo_table with (l := a0) (more := []); cbn; rewrite ?app_nil_r; auto.
  - apply append_comment_same in Heqr1. apply mo_array with (l := a0) (more := []); cbn; rewrite ?app_nil_r; auto.
Qed.
Lemma body_assign input eof n t r r' : root_assign input eof n t r = Ok r' -> body (rt_asts r) (rt_asts r').
Proof.
  unfold root_assign. intros E. cbv zeta in E. step_in E. destruct x as [k st]. destruct k as [k|k|e].
  2,3: injection E as <-; apply body_refl.
  destruct (i_ty _) in E; try (injection E as <-; apply body_refl). destruct (_ && _) in E; [injection E as <-; apply body_refl|].
  step_in E. step_in E. destruct x0 as [[s l] level]. step_in E. destruct x0 as [s0 cs]. step_in E. destruct x0 as [v st0].
  pose proof (body_free _ _ _ _ _ _ Heqr2) as G'. destruct v as [v|e]; [|injection E as <-; exact G']. step_in E. injection E as <-. cbn [rt_asts]. exact (body_trans _ _ _ G' (body_push _ _)).
Qed.

Section Line.
  Context (input : list N) (all : list tile) (IN : input = source all) (SHA : Forall shape all).
  Context (L : N) (nlx : item) (below : list item) (LNL : hok L nlx) (TNL : i_ty nlx = INewline).
  Notation eof := (eof input).
  Notation ron := (ron L nlx below).

  (** Past the line: only what is below is left. *)
  Definition past (r r2 : root) : Prop :=
    (exists done ts, rinv input all r2 done ts) /\ pc_rest (ps_cur (rt_st r2)) = below /\ Forall (eon L) (ps_errs (rt_st r2)) /\
    rt_newline r2 = false /\ adds (rt_asts r) (rt_asts r2).
  Lemma past_trans r r1 r2 : adds (rt_asts r) (rt_asts r1) -> past r1 r2 -> past r r2.
  Proof. intros A (H1 & H2 & H3 & H4 & H5). repeat (split; [assumption|]). eapply adds_trans; eassumption. Qed.

  Lemma line_loop k : k <= 99 -> forall fuel r r', root_loop input eof fuel r = Ok r' -> ron k r -> (exists done ts, rinv input all r done ts) ->
    exists f' r2, root_loop input eof f' r2 = Ok r' /\ past r r2 /\ body (rt_asts r) (rt_asts r2).
  Proof.
    intros K. induction fuel as [|f IH]; intros r r' E H (done & ts & R); [discriminate|]. cbn [root_loop] in E. cbv zeta in E.
    pose proof (peek_on eof L nlx below LNL TNL _ _ H) as P. pose proof (on_no_square eof L nlx below LNL TNL _ _ H) as NS.
    assert (AS : line_stop (pty eof (rt_st r)) = false -> (let? r1 := root_assign input eof max_depth (ppeek eof (rt_st r)) r in root_loop input eof f r1) = Ok r' ->
      exists f' r2, root_loop input eof f' r2 = Ok r' /\ past r r2 /\ body (rt_asts r) (rt_asts r2)).
    { intros LS X. destruct (assign_step input all r done ts R LS) as (r1 & a & b & RA & _ & _ & R1 & _). rewrite RA in X. cbn [bind] in X.
      destruct (IH _ _ X) as (f2 & r2 & E2 & P2 & B2); [eapply on_root_assign; eassumption|eauto|]. exists f2, r2. split; [exact E2|].
      split; [eapply past_trans; [|exact P2]; eapply adds_assign; exact RA|]. eapply body_trans; [|exact B2]. eapply body_assign; exact RA. }
    unfold pty in NS, AS.
    destruct (i_ty (ppeek eof (rt_st r))) eqn:TY; try (apply AS; [reflexivity|exact E]).
    - destruct (comment_step input all r done ts _ R TY) as (r1 & a & b & RC & _ & _ & R1 & _). rewrite RC in E. cbn [bind] in E.
      destruct (IH _ _ E) as (f2 & r2 & E2 & P2 & B2); [|eauto|].
      + eapply on_root_comment; [exact RC|]. unfold OnParse.ron. cbn [rt_st set_rst]. apply (on_adv eof L nlx below LNL TNL); [exact H|congruence].
      + exists f2, r2. split; [exact E2|]. split; [eapply past_trans; [|exact P2]; apply (adds_comment _ _ _ RC)|]. eapply body_trans; [|exact B2]. apply (body_comment _ _ _ RC).
    - destruct (NS eq_refl).
    - destruct (newline_step input all r done ts R TY) as (a & b & _ & _ & R1 & _).
      exists f, (mkroot (padv (rt_st r)) (rt_asts r) (rt_prev r) false). split; [exact E|]. split; [|apply body_refl]. split; [eauto|]. cbn [rt_st rt_asts rt_newline].
      destruct H as ((a0 & EA & AO & _) & EE). unfold ppeek in TY. unfold padv, set_pcur, cadv. cbn [ps_cur ps_errs]. rewrite EA in *. destruct a0 as [|x a0].
      + cbn [app pc_rest]. split; [reflexivity|]. split; [exact EE|]. split; [reflexivity|apply adds_refl].
      + exfalso. exact (proj1 (proj2 (Forall_inv AO)) TY).
    - exfalso. destruct H as ((a0 & EA & AO & _) & EE). destruct (ri_at _ _ _ _ _ R) as (_ & SH & _ & ER & _). unfold ppeek in TY. rewrite ER in *.
      assert (NI : forall ts pre, Forall shape ts -> Forall (fun x => i_ty x <> IEOF) (tile_items pre ts)).
      { clear. induction ts as [|[x s] ts IH]; intros pre SH; [constructor|]. pose proof (Forall_inv SH) as S1. specialize (IH (pre ++ s) (Forall_inv_tail SH)).
        destruct x as [| |ty| | |q text off]; cbn [tile_items]; try exact IH; constructor; try exact IH; cbn; try discriminate.
        cbn in S1. destruct S1 as (c & PC & _). destruct ty; cbn; try discriminate; cbv in PC; intuition congruence. }
      specialize (NI ts (source done) SH). rewrite EA in NI, TY. destruct a0 as [|x a0]; cbn [app hd] in *; exact (Forall_inv NI TY).
  Qed.

  (** The line may start with one or two brackets. *)
  Definition start_on (k : N) (st : pst) : Prop :=
    on L nlx below k st \/ (pty eof st = ISquareLeft /\ p_line (i_start (ppeek eof st)) = L /\ hd_on eof L nlx below k (padv st)).
  Lemma line_run k fuel r r' : k <= 99 -> root_loop input eof fuel r = Ok r' -> start_on k (rt_st r) -> (exists done ts, rinv input all r done ts) ->
    exists f' r2, root_loop input eof f' r2 = Ok r' /\ past r r2 /\ (on L nlx below k (rt_st r) -> body (rt_asts r) (rt_asts r2)).
  Proof.
    intros K E [H|(TY & PL & H)] RI; [destruct (line_loop k K _ _ _ E H RI) as (f2 & r2 & E2 & P2 & B2); exists f2, r2; auto|]. destruct RI as (done & ts & R).
    destruct fuel as [|f]; [discriminate|]. cbn [root_loop] in E. cbv zeta in E. unfold pty in TY. rewrite TY in E.
    destruct (header_step input all r done ts R IN SHA TY) as [(HP & _)|(r1 & a & b & RH & _ & _ & R1 & _)]; [rewrite HP in E; discriminate|].
    rewrite RH in E. cbn [bind] in E. destruct (line_loop k K _ _ _ E) as (f2 & r2 & E2 & P2 & _); [eapply on_root_header; eassumption|eauto|].
    exists f2, r2. split; [exact E2|]. split; [eapply past_trans; [|exact P2]; eapply adds_header; exact RH|].
    intros ON. destruct (on_no_square eof L nlx below LNL TNL _ _ ON). exact TY.
  Qed.
End Line.

Lemma adds_stmts l l' : adds l l' -> exists more, stmts l' = stmts l ++ more.
Proof.
  intros [l0|x x' l0 new MO]; [exists (stmts l0); reflexivity|]. destruct (more_stmts _ _ MO) as (ms & E).
  unfold stmts. rewrite rev_app_distr. cbn [rev]. rewrite <- !app_assoc, !flat_map_app. cbn [flat_map]. rewrite E, !app_nil_r, <- !app_assoc. exists (ms ++ flat_map ast_of (rev new)). rewrite <- ?app_assoc. reflexivity.
Qed.
Lemma nesting_weak d : nesting_ok 1 d -> forall l, l <= 1 -> nesting_ok l d.
Proof.
  induction d as [|[k v|k|k] d IH]; intros H l LL; [exact I| | |]; cbn [nesting_ok] in *.
  - destruct H as [H1 H2]. split; [lia|apply IH; assumption].
  - exact H.
  - exact H.
Qed.
Lemma in_body_le l : in_body l <= 1.
Proof. destruct l as [|[]]; cbn; lia. Qed.

(** What the items of the whole text are to those above the line, which end in
    the header [h]: its section may have got longer, by the line ([h']) and by
    what is below ([h'']). *)
Definition goes_on (l : list ast) (d1 d2 : list stmt) : Prop :=
  exists t h h' h'' rest, l = rev t ++ h'' :: rest /\ header_ast h = true /\ flat_map ast_of (rev t ++ [h]) = map Some d1 /\ more_of h h' /\ more_of h' h'' /\
    ast_of h'' ++ flat_map ast_of rest = ast_of h' ++ map Some d2.

Lemma parse_items_line input ts1 d1 lt brk ts2 d2 a es : input = source (ts1 ++ (lt ++ [(XNewline, brk)]) ++ ts2) ->
  Forall LexSpec.valid ts1 -> Forall shape lt -> line_break brk -> Forall LexSpec.valid ts2 -> all_separated (ts1 ++ (lt ++ [(XNewline, brk)]) ++ ts2) ->
  ParsePre.g_lines ts1 d1 -> nesting_ok 0 d1 -> ~ In 10 (source lt) -> line_pieces lt -> braces lt <= 99 -> g_doc ts2 d2 -> nesting_ok 1 d2 ->
  parse_items input (eof input) (tile_items [] (ts1 ++ (lt ++ [(XNewline, brk)]) ++ ts2)) = Ok (a, es) ->
  (exists more, flat_map ast_of (as_asts a) = map Some d1 ++ more ++ map Some d2) /\ Forall (eon (p_line (pos_at (source ts1)))) es /\
  (no_bracket lt -> level_after 0 d1 = 1 -> goes_on (as_asts a) d1 d2).
Proof.
  intros IN V1 SHL LBK V2 SEP GD NE NL LP BR GD2 NE2 E. set (rest := (lt ++ [(XNewline, brk)]) ++ ts2) in *. set (all := ts1 ++ rest) in *. unfold parse_items in E.
  assert (SHA : Forall shape all).
  { unfold all, rest. repeat (apply Forall_app; split); [|exact SHL|constructor; [exact LBK|constructor]|]; (eapply Forall_impl; [|eassumption]); intros x; apply valid_shape. }
  assert (A0 : at_ input (mkps (mkpc None (tile_items [] all)) [] []) [] all).
  { split; [exact IN|]. split; [exact SHA|]. split; [exact SEP|]. split; [reflexivity|exact I]. }
  destruct (c_lines input all IN SHA ts1 d1 GD (S (length (tile_items [] all))) (mkroot (mkps (mkpc None (tile_items [] all)) [] []) [] [] false) [] [] rest) as (f & r & pre & R & C & RN & _).
  - constructor; [|exact A0|reflexivity|reflexivity|reflexivity]. exists [], all. apply rinv_start; assumption.
  - exact V1.
  - reflexivity.
  - exact NE.
  - cbn [rt_st]. unfold left. cbn. lia.
  - rewrite R in E. destruct (root_loop input (eof input) f r) as [r'|[]|] eqn:RL; [|discriminate]. cbn [bind] in E. injection E as <- <-.
    destruct C as [RI (I1 & I2 & I3 & I4 & I5) C3 C4 C5].
    assert (PR : pre = source ts1) by (rewrite IN in I1; unfold all in I1; rewrite source_app in I1; apply app_inv_tail in I1; auto). subst pre.
    set (L := p_line (pos_at (source ts1))) in *.
    set (nlx := mkitem INewline (pos_at (source ts1 ++ source lt))). set (pre2 := source ts1 ++ source lt ++ brk).
    assert (IT : tile_items (source ts1) rest = tile_items (source ts1) lt ++ nlx :: tile_items pre2 ts2).
    { unfold rest. rewrite <- app_assoc, tile_items_app. f_equal. cbn [app]. rewrite tile_items_cons by discriminate. unfold nlx, pre2. rewrite <- app_assoc. reflexivity. }
    assert (LNL : hok L nlx) by (split; [apply line_no_lf; exact NL|exact I]).
    assert (ERR : Forall (eon L) (ps_errs (rt_st r))) by (rewrite C3; constructor).
    assert (ON0 : no_bracket lt -> on L nlx (tile_items pre2 ts2) 99 (rt_st r)).
    { intros NB. destruct (line_items L lt (source ts1) eq_refl NL SHL) as (H1 & H2 & H3 & H4). split; [|exact ERR]. exists (tile_items (source ts1) lt). rewrite I4, IT. split; [reflexivity|]. split; [|rewrite H3; exact BR].
      specialize (H4 NB). rewrite Forall_forall in *. intros x X. split; [apply H1, X|]. split; [apply H2, X|apply H4, X]. }
    assert (ON : start_on input L nlx (tile_items pre2 ts2) 99 (rt_st r)).
    { destruct LP as [lt NB|w b lt B0 BB NB|w b w' b' lt B0 BB B1 BB' NB].
      - left. destruct (line_items L lt (source ts1) eq_refl NL SHL) as (H1 & H2 & H3 & H4). split; [|exact ERR]. exists (tile_items (source ts1) lt). rewrite I4, IT. split; [reflexivity|]. split; [|rewrite H3; exact BR].
        specialize (H4 NB). rewrite Forall_forall in *. intros x X. split; [apply H1, X|]. split; [apply H2, X|apply H4, X].
      - right. destruct b as [b bs]. unfold bracket in BB. cbn in BB. subst b. rewrite source_app, source_cons in NL.
        assert (NLB : ~ In 10 (source w ++ bs)) by (intros H; apply NL; apply in_app_or in H; rewrite !in_app_iff; tauto).
        assert (NLL : ~ In 10 (source lt)) by (intros H; apply NL; rewrite !in_app_iff; tauto).
        assert (NLW : ~ In 10 (source w)) by (intros H; apply NL; rewrite !in_app_iff; tauto).
        apply Forall_app in SHL. destruct SHL as (_ & SHL). apply Forall_inv_tail in SHL.
        set (p1 := (source ts1 ++ source w) ++ bs).
        destruct (line_items L lt p1) as (H1 & H2 & H3 & H4); [unfold p1; rewrite <- app_assoc; apply line_no_lf; exact NLB|exact NLL|exact SHL|]. specialize (H4 NB).
        rewrite tile_items_app, (tile_items_blanks w) in IT by exact B0. cbn [app] in IT. rewrite tile_items_cons in IT by discriminate. fold p1 in IT. cbn [item_ty app] in IT.
        unfold start_on, pty, ppeek. rewrite I4, IT. cbn [hd i_ty i_start]. split; [reflexivity|]. split; [apply line_no_lf; exact NLW|].
        left. split; [|exact ERR]. unfold padv, set_pcur, cadv. cbn [ps_cur]. rewrite I4, IT. cbn [pc_rest]. exists (tile_items p1 lt). split; [reflexivity|].
        rewrite braces_app in BR. change (braces ((XPunct TSquareLeft, bs) :: lt)) with (braces lt) in BR. split; [|rewrite H3; lia].
        rewrite Forall_forall in *. intros x X. split; [apply H1, X|]. split; [apply H2, X|apply H4, X].
      - right. destruct b as [b bs], b' as [b' bs']. unfold bracket in BB, BB'. cbn in BB, BB'. subst b b'. rewrite source_app, source_cons, source_app, source_cons in NL.
        assert (NLB : ~ In 10 (source w ++ bs ++ source w' ++ bs')) by (intros H; apply NL; rewrite !in_app_iff in H; rewrite !in_app_iff; tauto).
        assert (NLL : ~ In 10 (source lt)) by (intros H; apply NL; rewrite !in_app_iff; tauto).
        assert (NLW : ~ In 10 (source w)) by (intros H; apply NL; rewrite !in_app_iff; tauto).
        assert (NLV : ~ In 10 (source w ++ bs ++ source w')) by (intros H; apply NL; rewrite !in_app_iff in H; rewrite !in_app_iff; tauto).
        apply Forall_app in SHL. destruct SHL as (_ & SHL). apply Forall_inv_tail in SHL. apply Forall_app in SHL. destruct SHL as (_ & SHL). apply Forall_inv_tail in SHL.
        set (p1 := (source ts1 ++ source w) ++ bs) in *. set (p2 := (p1 ++ source w') ++ bs') in *.
        assert (PP2 : p2 = source ts1 ++ (source w ++ bs ++ source w' ++ bs')) by (unfold p2, p1; rewrite <- !app_assoc; reflexivity).
        assert (PP1 : p1 ++ source w' = source ts1 ++ (source w ++ bs ++ source w')) by (unfold p1; rewrite <- !app_assoc; reflexivity).
        destruct (line_items L lt p2) as (H1 & H2 & H3 & H4); [rewrite PP2; apply line_no_lf; exact NLB|exact NLL|exact SHL|]. specialize (H4 NB).
        rewrite tile_items_app, (tile_items_blanks w) in IT by exact B0. cbn [app] in IT. rewrite tile_items_cons in IT by discriminate. fold p1 in IT. cbn [item_ty app] in IT.
        rewrite tile_items_app, (tile_items_blanks w') in IT by exact B1. cbn [app] in IT. rewrite tile_items_cons in IT by discriminate. fold p2 in IT. cbn [item_ty app] in IT.
        unfold start_on, pty, ppeek. rewrite I4, IT. cbn [hd i_ty i_start]. split; [reflexivity|]. split; [apply line_no_lf; exact NLW|].
        right. unfold pty, ppeek, padv, set_pcur, cadv. cbn [ps_cur]. rewrite I4, IT. cbn [pc_rest hd i_ty i_start]. split; [reflexivity|]. split; [rewrite PP1; apply line_no_lf; exact NLV|].
        split; [|exact ERR]. cbn [ps_cur]. exists (tile_items p2 lt). split; [reflexivity|].
        rewrite braces_app in BR. change (braces ((XPunct TSquareLeft, bs) :: w' ++ (XPunct TSquareLeft, bs') :: lt)) with (braces (w' ++ (XPunct TSquareLeft, bs') :: lt)) in BR.
        rewrite braces_app in BR. change (braces ((XPunct TSquareLeft, bs') :: lt)) with (braces lt) in BR. split; [|rewrite H3; lia].
        rewrite Forall_forall in *. intros x X. split; [apply H1, X|]. split; [apply H2, X|apply H4, X]. }
    destruct (line_run input all IN SHA L nlx (tile_items pre2 ts2) LNL eq_refl 99 f r r' ltac:(lia) RL ON RI) as (f2 & r2 & RL2 & (RI2 & PR2 & ER2 & RN2 & AD) & BO).
    destruct (adds_stmts _ _ AD) as (more & SM).
    assert (SP2 : all_separated ts2).
    { apply seps_all in SEP. unfold all, rest in SEP. rewrite app_assoc in SEP. apply seps_app in SEP. apply seps_all. exact (proj2 SEP). }
    assert (G : ginv input all (ps_errs (rt_st r2)) (stmts (rt_asts r2)) (in_body (rt_asts r2)) r2 pre2 ts2 []).
    { constructor; [exact RI2| |reflexivity|cbn; rewrite app_nil_r; reflexivity|reflexivity].
      split; [|split; [|split; [exact SP2|split; [exact PR2|]]]].
      - rewrite IN. unfold all, rest, pre2. rewrite !source_app. change (source [(XNewline, brk)]) with (brk ++ []). rewrite app_nil_r, <- !app_assoc. reflexivity.
      - eapply Forall_impl; [|exact V2]. intros x. apply valid_shape.
      - destruct RI2 as (dn & tsx & RI2). exact (proj2 (proj2 (proj2 (proj2 (ri_at _ _ _ _ _ RI2))))). }
    destruct (g_loop_step input all IN SHA _ _ _ ts2 d2 GD2 (S (left (rt_st r2))) r2 pre2 [] G V2 RN2) as (r3 & RL3 & E3 & S3); [apply nesting_weak; [exact NE2|apply in_body_le]|lia|].
    pose proof (loop_same _ _ _ _ _ _ _ RL2 RL3) as EQ. subst r'. split; [|split; [rewrite E3; exact ER2|]].
    2:{ intros NB LV. specialize (BO (ON0 NB)). cbn [app] in C4, C5. rewrite LV in C5. destruct (rt_asts r) as [|h t] eqn:RA; [discriminate|].
      assert (HH : header_ast h = true) by (destruct h; [discriminate|reflexivity|reflexivity|discriminate]).
      destruct (BO h t eq_refl HH) as (h' & RA2 & M1). pose proof (adds_loop _ _ _ _ _ RL3) as AD3. rewrite RA2 in AD3. inversion AD3 as [|x x' l0 new MO E0 E1]; subst x l0.
      exists t, h, h', x', (rev new ++ map AComment (rt_prev r3)). cbn [as_asts]. split; [rewrite rev_app_distr, rev_involutive, rev_app_distr; cbn [rev]; rewrite <- !app_assoc; reflexivity|].
      split; [exact HH|]. split; [pose proof (all_some_list _ _ C4) as C6; unfold stmts in C6; exact C6|]. split; [exact M1|]. split; [exact MO|].
      rewrite RA2, <- E1 in S3. cbn [app] in S3. unfold stmts in S3. rewrite rev_app_distr in S3. cbn [rev] in S3. rewrite !flat_map_app in S3. cbn [flat_map] in S3. rewrite !app_nil_r, <- !app_assoc in S3. apply app_inv_head in S3.
      rewrite flat_map_app. replace (flat_map ast_of (map AComment (rt_prev r3))) with (@nil (option stmt)) by (clear; induction (rt_prev r3); [reflexivity|exact IHl]). rewrite app_nil_r. exact S3. }
    exists more. cbn [as_asts]. change (flat_map ast_of (rev (rev (map AComment (rt_prev r3)) ++ rt_asts r3))) with (stmts (rev (map AComment (rt_prev r3)) ++ rt_asts r3)).
    rewrite stmts_comments, S3, SM. cbn [app]. rewrite (all_some_list _ _ C4), <- app_assoc. reflexivity.
Qed.

(** ** C83 *)

(** A line between complete lines and a document: whatever stands on it, the
    statements above and below are read as they stand, and everything that is
    reported is on that line. *)
Theorem C83_line above d1 ts line brk below d2 a es : toml_doc above d1 -> complete_lines above -> single_line ts line brk -> toml_doc below d2 -> nesting_ok 1 d2 ->
  lex_and_parse (above ++ (line ++ brk) ++ below) = Ok (a, es) ->
  (exists more, flat_map ast_of (as_asts a) = map Some d1 ++ more ++ map Some d2) /\
  Forall (fun e => on_line (newlines above) (toml_diag e)) es.
Proof.
  intros (ts1 & L1 & G1 & N1) CL ((LB & LV & LA) & NL & LP & BR) (ts2 & (S2 & V2 & A2) & G2 & _) NE2 P. pose proof (lines_end _ _ L1 CL) as EL. destruct L1 as (S1 & V1 & A1).
  assert (LS : source ts = line).
  { rewrite source_app in LB. change (source [(XNewline, brk)]) with (brk ++ []) in LB. rewrite app_nil_r in LB. apply app_inv_tail in LB. exact LB. }
  assert (LX : lexical (ts1 ++ (ts ++ [(XNewline, brk)]) ++ ts2) (above ++ (line ++ brk) ++ below)).
  { split; [rewrite source_app, (source_app (ts ++ _)), S1, LB, S2; reflexivity|]. split; [apply Forall_app; split; [exact V1|apply Forall_app; auto]|].
    apply seps_all, seps_app. rewrite app_nil_r. split; [apply seps_below; assumption|]. apply seps_app. rewrite app_nil_r. split; [apply seps_below; try assumption; right; exists ts, brk; reflexivity|apply seps_all; exact A2]. }
  pose proof LX as (SX & VX & AX). pose proof P as P'. rewrite (cut_parse _ _ _ (lexical_cut _ _ LX)) in P'. step_in P'. destruct x as [a0 es0]. injection P' as -> <-. cbn [app] in *.
  apply Forall_app in LV. destruct LV as [LV LN]. 
  destruct (parse_items_line _ ts1 d1 ts brk ts2 d2 a es0 (eq_sym SX) V1 (Forall_impl _ (fun x => valid_shape x) LV) (Forall_inv LN) V2 AX (doc_lines _ _ G1 EL) N1) as (ST & ER & _); try assumption; [rewrite LS; exact NL|].
  split; [exact ST|]. rewrite S1, newlines_pos in ER.
  pose proof (C51_error_spans _ _ _ P) as SP. rewrite Forall_forall in *. intros e I. specialize (ER _ I). specialize (SP _ I). destruct ER as ((E1 & E2) & E3).
  unfold on_line, toml_diag. cbn [g_span g_hint g_lines]. split; [exact E1|]. split; [exact E2|]. split.
  - intros h H. destruct (err_hint e) as [sp|]; [|discriminate]. cbn [option_map] in H. injection H as <-. cbn [h_span]. exact (E3 _ eq_refl).
  - destruct SP as [((u & v & w & _ & ES & _) & HO)|(u & x & c & w & _ & _ & _ & _ & ->)]; [|constructor]. destruct e; try constructor; discriminate HO.
Qed.

(** *** Any text on the line *)

(** The text of a line that is not part of anything that could span lines: it
    has no opening bracket, except for one or two with which it starts; no
    three quotes in a row ([triple]); and fewer than a hundred opening braces.
    Strings need not be closed, escapes and characters need not be valid. *)
Definition blank_run (w : list N) : Prop := Forall (fun c => c = 9 \/ c = 32) w.
Inductive line_text : list N -> Prop :=
| lx_plain r : ~ In 91 r -> line_text r
| lx_one w r : blank_run w -> ~ In 91 r -> line_text (w ++ 91 :: r)
| lx_two w w' r : blank_run w -> blank_run w' -> ~ In 91 r -> line_text (w ++ 91 :: w' ++ 91 :: r).
Definition any_line (line : list N) : Prop :=
  ~ In 10 line /\ ~ triple line /\ line_text line /\ (count_occ N.eq_dec line 123%N <= 99)%nat.

Lemma shape_bracket ts : Forall shape ts -> ~ In 91 (source ts) -> no_bracket ts.
Proof.
  induction ts as [|[x s] ts IH]; intros SH NB; [constructor|]. rewrite source_cons in NB. constructor; [|apply IH; [exact (Forall_inv_tail SH)|intros H; apply NB, in_or_app; auto]].
  intros BR. unfold bracket in BR. cbn in BR. subst x. pose proof (Forall_inv SH) as S1. cbn in S1. destruct S1 as (c & PU & ->). apply NB, in_or_app. left. cbv in PU. left. intuition congruence.
Qed.
Lemma shape_braces ts : Forall shape ts -> braces ts <= N.of_nat (count_occ N.eq_dec (source ts) 123).
Proof.
  induction ts as [|[x s] ts IH]; intros SH; [discriminate|]. rewrite source_cons, count_occ_app, Nnat.Nat2N.inj_add. specialize (IH (Forall_inv_tail SH)).
  change ((x, s) :: ts) with ([(x, s)] ++ ts). rewrite braces_app. apply N.add_le_mono; [|exact IH]. pose proof (Forall_inv SH) as S1.
  destruct x as [| |ty| | |q text off]; try apply N.le_0_l. destruct ty; try apply N.le_0_l. cbn in S1. destruct S1 as (c & PU & ->).
  replace c with 123 by (cbv in PU; intuition congruence). vm_compute. discriminate.
Qed.
Lemma snoc_split (wt : list tile) b ts r x : wt ++ b :: ts = r ++ [x] -> source ts <> [] -> exists ts', ts = ts' ++ [x] /\ r = wt ++ b :: ts'.
Proof.
  intros E NE. destruct ts as [|y ts] using rev_ind; [destruct (NE eq_refl)|]. clear IHts. exists ts. rewrite app_comm_cons, app_assoc in E. apply app_inj_tail in E. destruct E as [<- <-]. auto.
Qed.
Lemma text_pieces lt brk line : Forall shape (lt ++ [(XNewline, brk)]) -> source (lt ++ [(XNewline, brk)]) = line ++ [10] -> line_text line -> line_pieces lt.
Proof.
  intros SH E T. destruct T as [r NB|w r W NB|w w' r W W' NB].
  - apply lp_plain. apply shape_bracket; [apply Forall_app in SH; apply SH|]. intros I. rewrite source_app in E.
    assert (I2 : In 91 (r ++ [10])) by (rewrite <- E; apply in_or_app; auto). apply in_app_or in I2. destruct I2 as [I2|[I2|[]]]; [exact (NB I2)|discriminate].
  - rewrite <- app_assoc in E. cbn [app] in E. destruct (bracket_split _ _ _ W SH E) as (wt & s & ts & E1 & B & R).
    destruct (snoc_split wt (XPunct TSquareLeft, s) ts lt (XNewline, brk)) as (ts' & -> & ->); [symmetry; exact E1|rewrite R; destruct r; discriminate|].
    apply lp_one; [exact B|reflexivity|]. apply shape_bracket; [apply Forall_app in SH; destruct SH as [SH _]; apply Forall_app in SH; destruct SH as [_ SH]; exact (Forall_inv_tail SH)|].
    intros I. rewrite source_app in R. assert (I2 : In 91 (r ++ [10])) by (rewrite <- R; apply in_or_app; auto). apply in_app_or in I2. destruct I2 as [I2|[I2|[]]]; [exact (NB I2)|discriminate].
  - rewrite <- app_assoc in E. cbn [app] in E. rewrite <- app_assoc in E. cbn [app] in E. destruct (bracket_split _ _ _ W SH E) as (wt & s & ts & E1 & B & R).
    assert (SH2 : Forall shape ts) by (rewrite E1 in SH; apply Forall_app in SH; destruct SH as [_ SH]; exact (Forall_inv_tail SH)).
    destruct (bracket_split _ _ _ W' SH2 R) as (wt' & s' & us & -> & B' & R').
    destruct (snoc_split wt (XPunct TSquareLeft, s) (wt' ++ (XPunct TSquareLeft, s') :: us) lt (XNewline, brk)) as (ts' & E2 & ->); [symmetry; exact E1|rewrite R; destruct w'; discriminate|].
    destruct (snoc_split wt' (XPunct TSquareLeft, s') us ts' (XNewline, brk)) as (us' & -> & ->); [exact E2|rewrite R'; destruct r; discriminate|].
    apply lp_two; [exact B|reflexivity|exact B'|reflexivity|]. apply shape_bracket; [apply Forall_app in SH2; destruct SH2 as [_ SH2]; apply Forall_inv_tail in SH2; apply Forall_app in SH2; apply SH2|].
    intros I. rewrite source_app in R'. assert (I2 : In 91 (r ++ [10])) by (rewrite <- R'; apply in_or_app; auto). apply in_app_or in I2. destruct I2 as [I2|[I2|[]]]; [exact (NB I2)|discriminate].
Qed.

Theorem C83_any_line above d1 line below d2 a es : toml_doc above d1 -> complete_lines above -> any_line line -> toml_doc below d2 -> nesting_ok 1 d2 ->
  lex_and_parse (above ++ (line ++ [10]) ++ below) = Ok (a, es) ->
  (exists more, flat_map ast_of (as_asts a) = map Some d1 ++ more ++ map Some d2) /\
  Forall (fun e => on_line (newlines above) (toml_diag e)) es.
Proof.
  intros (ts1 & L1 & G1 & N1) CL (NL & NT & LT & BR) (ts2 & (S2 & V2 & A2) & G2 & _) NE2 P. pose proof (lines_end _ _ L1 CL) as EL. destruct L1 as (S1 & V1 & A1).
  destruct (lex_line ts1 line ts2 V1 A1 EL NL NT V2 A2) as (tm & es1 & SM & SHM & AX & LX & ER1). destruct (line_last _ _ SM SHM NL NT) as (lt & brk & -> & LB & NLT).
  assert (SX : source (ts1 ++ (lt ++ [(XNewline, brk)]) ++ ts2) = above ++ (line ++ [10]) ++ below) by (rewrite source_app, (source_app (lt ++ _)), S1, SM, S2; reflexivity).
  rewrite S1, S2 in LX. pose proof SHM as SHL. apply Forall_app in SHL. destruct SHL as [SHL _].
  assert (C : cut (above ++ (line ++ [10]) ++ below) (ts1 ++ (lt ++ [(XNewline, brk)]) ++ ts2) es1).
  { split; [exact SX|]. split; [|split; [exact AX|exact LX]]. apply Forall_app. split; [|apply Forall_app; split; [exact SHM|]]; (eapply Forall_impl; [|eassumption]); intros x; apply valid_shape. }
  pose proof P as P'. rewrite (cut_parse _ _ _ C) in P'. step_in P'. destruct x as [a0 es0]. injection P' as -> <-.
  assert (BRC : braces lt <= 99).
  { pose proof (shape_braces _ SHM) as B1. rewrite braces_app, SM, count_occ_app, Nnat.Nat2N.inj_add in B1. change (N.of_nat (count_occ N.eq_dec [10] 123)) with 0 in B1. lia. }
  destruct (parse_items_line _ ts1 d1 lt brk ts2 d2 a es0 (eq_sym SX) V1 SHL LB V2 AX (doc_lines _ _ G1 EL) N1) as (ST & ER & _); try assumption; [exact (text_pieces _ _ _ SHM SM LT)|].
  split; [exact ST|]. assert (ER2 : Forall (eon (newlines above)) (es1 ++ es0)) by (rewrite <- newlines_pos, <- S1; apply Forall_app; auto).
  pose proof (C51_error_spans _ _ _ P) as SP. rewrite Forall_forall in *. intros e I. specialize (ER2 _ I). specialize (SP _ I). destruct ER2 as ((E1 & E2) & E3).
  unfold on_line, toml_diag. cbn [g_span g_hint g_lines]. split; [exact E1|]. split; [exact E2|]. split.
  - intros h H. destruct (err_hint e) as [sp|]; [|discriminate]. cbn [option_map] in H. injection H as <-. cbn [h_span]. exact (E3 _ eq_refl).
  - destruct SP as [((u & v & w & _ & ES & _) & HO)|(u & x & c & w & _ & _ & _ & _ & ->)]; [|constructor]. destruct e; try constructor; discriminate HO.
Qed.

(** ** Examples *)

Definition line_above : list N := bs "[a]" ++ [10] ++ bs "b = 1" ++ [10].
Definition line_broken : list N := bs "x = {y @ = 2".
Definition line_tiles : list tile := [(XWord, bs "x"); (XBlank, bs " "); (XPunct TEqual, bs "="); (XBlank, bs " "); (XPunct TCurlyLeft, bs "{"); (XWord, bs "y"); (XBlank, bs " "); (XWord, bs "@");
  (XBlank, bs " "); (XPunct TEqual, bs "="); (XBlank, bs " "); (XWord, bs "2")].
Definition line_below : list N := bs "c = 2" ++ [10] ++ bs "[d]" ++ [10].
Definition says_above : list stmt := [STable [bs "a"]; SAssign [bs "b"] (TvInt 1)].
Definition says_below : list stmt := [SAssign [bs "c"] (TvInt 2); STable [bs "d"]].
Lemma line_doc text d : (exists a, lex_and_parse text = Ok (a, []) /\ doc_of a = Some d) -> toml_doc text d.
Proof. intros (a & R & D). destruct (C34_accepted_documents _ _ R) as (d' & T & D'). rewrite D in D'. injection D' as ->. exact T. Qed.
Lemma single_simple ts line brk : simple_tiles (ts ++ [(XNewline, brk)]) = true -> source ts = line -> forallb (fun c => negb (c =? 10)) line = true ->
  forallb (fun x => match fst x with XPunct TSquareLeft => false | _ => true end) ts = true -> (braces ts <=? 99) = true -> single_line ts line brk.
Proof.
  intros H1 H2 H3 H4 H5. split; [apply simple_lexical; [exact H1|rewrite source_app, H2; f_equal; apply app_nil_r]|]. split; [|split; [|apply N.leb_le; exact H5]].
  - intros H. rewrite forallb_forall in H3. specialize (H3 _ H). discriminate.
  - apply lp_plain. unfold no_bracket. rewrite forallb_forall in H4. apply Forall_forall. intros x X. specialize (H4 _ X). unfold bracket. intros E. rewrite E in H4. discriminate.
Qed.
(** A word that is not a key and a table that is not closed, between a table
    with a key and more of it. *)
Example C83_example : toml_doc line_above says_above /\ complete_lines line_above /\ single_line line_tiles line_broken [10] /\ toml_doc line_below says_below /\ nesting_ok 1 says_below /\
  exists a e1 es, lex_and_parse (line_above ++ (line_broken ++ [10]) ++ line_below) = Ok (a, e1 :: es) /\
    flat_map ast_of (as_asts a) = map Some says_above ++ [None] ++ map Some says_below /\ p_line (s_start (g_span (toml_diag e1))) = 2.
Proof.
  split; [apply line_doc; eexists; split; vm_compute; reflexivity|]. split; [right; exists (bs "[a]" ++ [10] ++ bs "b = 1"); reflexivity|].
  split; [apply single_simple; vm_compute; reflexivity|]. split; [apply line_doc; eexists; split; vm_compute; reflexivity|]. split; [vm_compute; intuition discriminate|].
  do 3 eexists. split; [vm_compute; reflexivity|]. split; reflexivity.
Qed.
(** A string that is not closed, with an invalid escape and a control character. *)
Definition line_unclosed : list N := bs "serde = ""1.0 \q" ++ [1].
Example C83_any_example : toml_doc line_above says_above /\ complete_lines line_above /\ any_line line_unclosed /\ toml_doc line_below says_below /\ nesting_ok 1 says_below /\
  exists a e1 e2 e3 es x, lex_and_parse (line_above ++ (line_unclosed ++ [10]) ++ line_below) = Ok (a, e1 :: e2 :: e3 :: es) /\
    flat_map ast_of (as_asts a) = map Some says_above ++ [x] ++ map Some says_below.
Proof.
  destruct C83_example as (H1 & H2 & _ & H4 & H5 & _). split; [exact H1|]. split; [exact H2|]. split.
  - split; [vm_compute; intuition discriminate|]. split; [|split; [apply lx_plain; vm_compute; intuition discriminate|vm_compute; lia]].
    intros (c & u & v & C & E). assert (T : forallb (fun k => negb (match skipn k line_unclosed with x :: y :: z :: _ => ((x =? 34) || (x =? 39)) && (x =? y) && (y =? z) | _ => false end)) (seq 0 (length line_unclosed)) = true) by (vm_compute; reflexivity).
    rewrite E in T. rewrite forallb_forall in T. specialize (T (length u)). rewrite skipn_app, skipn_all, Nat.sub_diag in T. cbn [skipn app] in T. rewrite !N.eqb_refl in T.
    destruct C as [-> | ->]; (apply Bool.diff_true_false; symmetry; apply T; apply in_seq; rewrite app_length; cbn; lia).
  - split; [exact H4|]. split; [exact H5|]. do 6 eexists. split; [vm_compute; reflexivity|]. reflexivity.
Qed.
(** An array goes on below. *)
Theorem C83_array_refuted : exists a es, toml_doc line_below says_below /\ lex_and_parse ((bs "x = [1" ++ [10]) ++ line_below) = Ok (a, es) /\
  ~ exists more, flat_map ast_of (as_asts a) = more ++ map Some says_below.
Proof.
  do 2 eexists. split; [apply line_doc; eexists; split; vm_compute; reflexivity|]. split; [vm_compute; reflexivity|].
  intros (more & E). apply (f_equal (@rev _)) in E. rewrite rev_app_distr in E. vm_compute in E. discriminate.
Qed.
(** What is below a line with a hundred opening braces, in a table, is not read
    at all, although the line has an end. *)
Definition many_braces : list N := bs "x = " ++ flat_map (fun _ => bs "{a=") (repeat tt 100) ++ [10].
Theorem C83_depth_refuted : exists a es, toml_doc line_below says_below /\ lex_and_parse ((bs "[a]" ++ [10]) ++ many_braces ++ line_below) = Ok (a, es) /\
  ~ exists more, flat_map ast_of (as_asts a) = more ++ map Some says_below.
Proof.
  do 2 eexists. split; [apply line_doc; eexists; split; vm_compute; reflexivity|]. split; [vm_compute; reflexivity|].
  intros (more & E). apply (f_equal (@rev _)) in E. rewrite rev_app_distr in E. vm_compute in E. discriminate.
Qed.
(** A string that may span lines and is not closed takes what is below, too. *)
Theorem C83_string_refuted : exists a es, toml_doc line_below says_below /\ lex_and_parse ((bs "x = '''1" ++ [10]) ++ line_below) = Ok (a, es) /\
  ~ exists more, flat_map ast_of (as_asts a) = more ++ map Some says_below.
Proof.
  do 2 eexists. split; [apply line_doc; eexists; split; vm_compute; reflexivity|]. split; [vm_compute; reflexivity|].
  intros (more & E). apply (f_equal (@rev _)) in E. rewrite rev_app_distr in E. vm_compute in E. discriminate.
Qed.

Print Assumptions C83_line.
Print Assumptions C83_any_line.
