(** What cannot be accepted: strings with illegal content. *)
From Verif Require Import Base BaseProofs CommonModel TomlError LitModel LexModel LexSpec LexBase LexStr LexUni LexLoop LexSound LexMain LexTop LexCStr LexCMain LexProps.

Lemma delims_cons q : exists r, delims q = delim q :: r.
Proof. destruct q; eexists; reflexivity. Qed.

Lemma body_ordinary q : forall s n r t, Forall (ordinary q) s -> body q n (s ++ r) t -> exists m t', body q m r t'.
Proof.
  induction s as [|c s IH]; intros n r t O B; [eauto|].
  pose proof (Forall_inv O) as (P & D & E). cbn [app] in B.
  inversion B; subst; try (exfalso; unfold plain in P; lia);
    try (exfalso; apply E; [assumption|reflexivity]); try congruence.
  - eapply IH; [exact (Forall_inv_tail O)|eassumption].
  - exfalso. apply E; [right; reflexivity|reflexivity].
Qed.

Lemma app_split {A} (x : A) (s b r t : list A) : b ++ x :: r = s ++ t -> ~ In x s -> exists b', b = s ++ b' /\ b' ++ x :: r = t.
Proof.
  revert b. induction s as [|c s IH]; intros b E N; [exists b; auto|].
  destruct b as [|c' b]; cbn [app] in E.
  - injection E as -> _. exfalso. apply N. left. reflexivity.
  - injection E as -> E. destruct (IH b E) as (b' & -> & H); [intros H; apply N; right; assumption|]. exists b'. auto.
Qed.

(** An accepted document starting with an opening delimiter and ordinary
    characters goes on with the rest of a string. *)
Lemma first_string q s bad toks :
  Forall (ordinary q) s -> ~ starts_with (eq (delim q)) bad ->
  (multi q -> s = [] -> ~ starts_with (eq 10) bad /\ ~ exists r, bad = 13 :: 10 :: r) ->
  lex (delims q ++ s ++ bad) = Ok (toks, []) ->
  exists b m t rest, body q m b t /\ bad = b ++ delims q ++ rest.
Proof.
  intros O NB NT E. apply lex_accepts in E. destruct E as (ts & (S & V & SEP) & _).
  assert (NS : ~ In (delim q) s).
  { intros H. rewrite Forall_forall in O. apply O in H. destruct H as (_ & H & _). congruence. }
  assert (NSB : ~ starts_with (eq (delim q)) (s ++ bad)).
  { destruct s as [|c s]; [exact NB|]. intros (c' & r & E & <-). cbn [app] in E. injection E as -> _. apply NS. left. reflexivity. }
  destruct ts as [|[x s1] ts]; [destruct q; discriminate|].
  pose proof (Forall_inv V) as V1. destruct SEP as [SEP _].
  change (source ((x, s1) :: ts)) with (s1 ++ source ts) in S.
  destruct (delims_cons q) as (dr & ED). destruct (delim_not q) as (D1 & D2 & D3 & D4 & D5).
  assert (FIRST : exists s1', s1 = delim q :: s1').
  { pose proof (valid_nonempty _ _ V1). destruct s1 as [|c s1]; [congruence|]. rewrite ED in S. cbn [app] in S. injection S as -> _. eauto. }
  destruct FIRST as (s1' & Es1).
  assert (QD : delim q = 34 \/ delim q = 39) by (destruct q; auto).
  destruct x; cbn [valid shape] in V1.
  - rewrite Es1 in V1. destruct V1 as [V1|V1]; injection V1; lia.
  - rewrite Es1 in V1. destruct V1 as [V1|V1]; injection V1; intros; congruence.
  - destruct V1 as (c & P & V1). rewrite Es1 in V1. injection V1 as E1 _. unfold punct in P. cbn [In] in P.
    repeat (destruct P as [P|P]; [injection P; intros; lia|]). destruct P.
  - exfalso. rewrite Es1 in V1. destruct V1 as [_ W]. pose proof (Forall_inv W) as W1. unfold word_char in W1. cbn [In] in W1. lia.
  - destruct V1 as (t & V1 & _). rewrite Es1 in V1. injection V1; lia.
  - destruct V1 as (trim & TS & _). destruct TS as (b & E1 & B & T1 & T2).
    destruct (delims_cons q0) as (dr0 & ED0).
    assert (DQ : delim q0 = delim q) by (rewrite Es1, ED0 in E1; cbn [app] in E1; injection E1; auto).
    assert (QQ : q0 = q).
    { destruct q, q0; try discriminate DQ; try reflexivity; exfalso.
      - (* QBasic, found multi *) rewrite E1 in S. cbn [delims app] in S. injection S as S. apply NSB. rewrite <- S. apply starts_with_cons. reflexivity.
      - (* QBasicMulti, found QBasic *)
        destruct T1 as [->|([T1|T1] & _)]; [|discriminate|discriminate]. cbn [app delims] in E1.
        rewrite E1 in S. cbn [delims app] in S. injection S as S.
        destruct b as [|c b]; cbn [app] in S; [injection S as S'|injection S as S' _].
        + apply SEP; [right; assumption|]. rewrite S'. apply starts_with_cons. reflexivity.
        + subst c. inversion B; subst; try discriminate; try congruence.
          match goal with H : multi QBasic |- _ => destruct H; discriminate end.
      - rewrite E1 in S. cbn [delims app] in S. injection S as S. apply NSB. rewrite <- S. apply starts_with_cons. reflexivity.
      - destruct T1 as [->|([T1|T1] & _)]; [|discriminate|discriminate]. cbn [app delims] in E1.
        rewrite E1 in S. cbn [delims app] in S. injection S as S.
        destruct b as [|c b]; cbn [app] in S; [injection S as S'|injection S as S' _].
        + apply SEP; [right; assumption|]. rewrite S'. apply starts_with_cons. reflexivity.
        + subst c. inversion B; subst; try discriminate; try congruence.
          match goal with H : multi QLiteral |- _ => destruct H; discriminate end. }
    subst q0. rewrite E1, <- !app_assoc in S. apply app_inv_head in S.
    assert (Etrim : trim = []).
    { destruct T1 as [T1|(M & T1)]; [assumption|]. exfalso.
      destruct s as [|c s].
      - destruct (NT M eq_refl) as [N1 N2]. cbn [app] in S. destruct T1 as [->| ->]; cbn [app] in S.
        + apply N1. rewrite <- S. apply starts_with_cons. reflexivity.
        + apply N2. rewrite <- S. eauto.
      - pose proof (Forall_inv O) as (P & _). destruct T1 as [->| ->]; cbn [app] in S; injection S as <- _; unfold plain in P; lia. }
    subst trim. cbn [app] in S. rewrite ED in S. cbn [app] in S.
    destruct (app_split _ _ _ _ _ S NS) as (b' & -> & S').
    destruct (body_ordinary q s 0 b' _ O B) as (m & t' & B').
    exists b', m, t', (source ts). split; [assumption|]. rewrite ED. cbn [app]. symmetry. assumption.
Qed.

Lemma hex_digit_fun c a b : hex_digit_of c a -> hex_digit_of c b -> a = b.
Proof. intros H1 H2. apply hex_value_complete in H1. apply hex_value_complete in H2. congruence. Qed.
Lemma hex_text_fun ds a : hex_text ds a -> forall b, hex_text ds b -> a = b.
Proof.
  induction 1 as [|ds v c d H IH D]; intros b Hb; inversion Hb as [E|ds' v' c' d' H' D' E]; subst; try reflexivity.
  - destruct ds'; discriminate.
  - destruct ds; discriminate.
  - apply app_inj_tail in E. destruct E as [-> ->]. rewrite (IH _ H'), (hex_digit_fun _ _ _ D D'). reflexivity.
Qed.

Lemma bad_start q m b t c bad rest : c <> delim q -> body q m b t -> c :: bad = b ++ delims q ++ rest ->
  exists b', b = c :: b' /\ bad = b' ++ delims q ++ rest.
Proof.
  intros N B E. destruct b as [|c' b].
  - exfalso. destruct (delims_cons q) as (r & Ed). rewrite Ed in E. cbn [app] in E. injection E as E _. congruence.
  - cbn [app] in E. injection E as -> E. eauto.
Qed.

Definition reported (input : list N) : Prop := forall toks es, lex input = Ok (toks, es) -> es <> [].

Lemma bad_reported q s bad :
  Forall (ordinary q) s -> ~ starts_with (eq (delim q)) bad ->
  (multi q -> s = [] -> ~ starts_with (eq 10) bad /\ ~ exists r, bad = 13 :: 10 :: r) ->
  (forall b m t rest, body q m b t -> bad <> b ++ delims q ++ rest) ->
  reported (delims q ++ s ++ bad).
Proof.
  intros O N T H toks es E ->. destruct (first_string q s bad toks O N T E) as (b & m & t & rest & B & EB). eapply H; eassumption.
Qed.

Lemma unclosed_eof q s : Forall (ordinary q) s -> reported (delims q ++ s).
Proof.
  intros O. rewrite <- (app_nil_r s). apply bad_reported; [assumption|apply starts_with_nil| |].
  - intros _ _. split; [apply starts_with_nil|]. intros (r & H). discriminate.
  - intros b m t rest _ H. symmetry in H. apply app_eq_nil in H. destruct H as [_ H]. apply app_eq_nil in H.
    destruct (delims_cons q) as (r & E). rewrite E in H. destruct H. discriminate.
Qed.
Lemma unclosed_line q s rest : ~ multi q -> Forall (ordinary q) s -> reported (delims q ++ s ++ 10 :: rest).
Proof.
  intros M O. destruct (delim_not q) as (D1 & _). apply bad_reported; [assumption| |tauto|].
  - rewrite starts_with_cons. assumption.
  - intros b m t r B E. destruct (bad_start q m b t 10 rest r) as (b' & -> & _); auto.
    inversion B; subst; try (unfold plain in *; lia); try tauto.
Qed.
Lemma illegal_char q s c rest : ~ plain c -> c <> 10 -> c <> 13 -> Forall (ordinary q) s ->
  reported (delims q ++ s ++ c :: rest).
Proof.
  intros P N10 N13 O. destruct (delim_not q) as (D1 & D2 & D3 & D4 & D5).
  assert (NC : c <> delim q) by (intros ->; apply P; right; destruct q; cbn; lia).
  assert (N92 : c <> 92) by (intros ->; apply P; right; lia).
  apply bad_reported; [assumption| | |].
  - rewrite starts_with_cons. congruence.
  - intros _ _. rewrite starts_with_cons. split; [congruence|]. intros (r & E). congruence.
  - intros b m t r B E. destruct (bad_start q m b t c rest r) as (b' & -> & _); auto.
    inversion B; subst; congruence.
Qed.
Lemma illegal_escape q s e rest : escapes q -> Forall (ordinary q) s ->
  (forall v, ~ escape_letter e v) -> e <> 117 -> e <> 85 -> (q = QBasicMulti -> ~ is_ws e) ->
  reported (delims q ++ s ++ 92 :: e :: rest).
Proof.
  intros ES O NE N117 N85 NW. destruct (delim_not q) as (D1 & D2 & D3 & D4 & D5).
  apply bad_reported; [assumption|rewrite starts_with_cons; assumption| |].
  - intros _ _. rewrite starts_with_cons. split; [lia|]. intros (r & E). discriminate.
  - intros b m t r B E. destruct (bad_start q m b t 92 (e :: rest) r) as (b' & -> & E'); auto.
    assert (E2 : exists b'', b' = e :: b'' \/ b' = []).
    { destruct b' as [|x b']; [exists []; auto|]. cbn [app] in E'. injection E' as -> _. eauto. }
    destruct E2 as (b'' & E2).
    inversion B as [|? ? ? ? P D N B'|? e' v s' t' _ EL B'|? u ds v s' t' _ U H SC B'|? w s' t' Q (F & L) NS B'| | |? s' t' M L B']; subst.
    + exact (N ES eq_refl).
    + destruct E2 as [E2|E2]; [|discriminate]. injection E2 as -> ->. eapply NE; eassumption.
    + destruct E2 as [E2|E2]; [|discriminate]. injection E2 as E2 _. lia.
    + destruct w as [|x w]; [destruct L|]. destruct E2 as [E2|E2]; [|discriminate]. cbn [app] in E2. injection E2 as -> _.
      apply (NW eq_refl). exact (Forall_inv F).
    + congruence.
Qed.
Lemma illegal_codepoint q s u ds v rest : escapes q -> Forall (ordinary q) s ->
  (u = 117 /\ length ds = 4%nat) \/ (u = 85 /\ length ds = 8%nat) -> hex_text ds v -> is_scalar v = false ->
  reported (delims q ++ s ++ 92 :: u :: ds ++ rest).
Proof.
  intros ES O U H SC. destruct (delim_not q) as (D1 & D2 & D3 & D4 & D5).
  apply bad_reported; [assumption|rewrite starts_with_cons; assumption| |].
  - intros _ _. rewrite starts_with_cons. split; [lia|]. intros (r & E). discriminate.
  - intros b m t r B E. destruct (bad_start q m b t 92 (u :: ds ++ rest) r) as (b' & -> & E'); auto.
    inversion B as [|? ? ? ? P D N B'|? e' v' s' t' _ EL B'|? u' ds' v' s' t' _ U' H' SC' B'|? w s' t' Q (F & L) NS B'| | |? s' t' M L B']; subst.
    + exact (N ES eq_refl).
    + cbn [app] in E'. injection E' as <- _. unfold escape_letter in EL. cbn [In] in EL.
      repeat (destruct EL as [EL|EL]; [injection EL; intros; lia|]). destruct EL.
    + cbn [app] in E'. injection E' as <- E'. rewrite <- app_assoc in E'.
      assert (LL : length ds = length ds') by lia.
      assert (ds = ds').
      { clear - E' LL. revert ds' E' LL. induction ds as [|x ds IH]; intros [|y ds'] E' LL; try discriminate; [reflexivity|].
        cbn [app] in E'. injection E' as -> E'. f_equal. apply IH; [assumption|]. cbn in LL. lia. }
      subst ds'. rewrite (hex_text_fun _ _ H _ H') in SC. congruence.
    + destruct w as [|x w]; [destruct L|]. cbn [app] in E'. injection E' as -> _. pose proof (Forall_inv F) as W. unfold is_ws in W. lia.
    + congruence.
Qed.

(** ** The text inside a string literal *)
Lemma text_span_true q src trim text pre : toml_string q src trim text ->
  exists b, src = delims q ++ trim ++ b ++ delims q /\
    apply_to (offsets_of q trim) (mkspan (pos_at pre) (pos_at (pre ++ src))) =
    Ok (mkspan (match trim with
                | [] => pos_at (pre ++ delims q)
                | _ => mkpos (p_line (pos_at pre) + 1) (p_char (pos_at pre))
                end)
               (pos_at (pre ++ delims q ++ trim ++ b))).
Proof.
  intros (b & -> & B & T & _). exists b. split; [reflexivity|].
  assert (ND : no_lf (delims q)) by (destruct q; unfold no_lf; cbn; lia).
  assert (TD : tlen (delims q) = quote_len q) by (destruct q; reflexivity).
  assert (PE : pos_at (pre ++ delims q ++ trim ++ b ++ delims q) =
     mkpos (p_line (pos_at (pre ++ delims q ++ trim ++ b))) (p_char (pos_at (pre ++ delims q ++ trim ++ b)) + quote_len q)).
  { replace (pre ++ delims q ++ trim ++ b ++ delims q) with ((pre ++ delims q ++ trim ++ b) ++ delims q) by assoc.
    rewrite pos_at_no_lf, TD by assumption. reflexivity. }
  unfold apply_to. cbn [s_start s_end]. rewrite PE. cbn [p_line p_char].
  assert (E1 : to_end_line (offsets_of q trim) = 0) by (destruct trim; reflexivity).
  assert (E2 : to_end_char (offsets_of q trim) = quote_len q) by (destruct trim; reflexivity).
  rewrite E1, E2. rewrite !usub_ok by lia. cbn [bind]. rewrite N.sub_0_r, N.add_sub.
  destruct (pos_at (pre ++ delims q ++ trim ++ b)) as [l c] eqn:EP. cbn [p_line p_char]. f_equal. f_equal.
  destruct trim as [|x trim].
  - rewrite pos_at_no_lf, TD by assumption. cbn. rewrite N.add_0_r. reflexivity.
  - cbn. rewrite N.add_0_r. reflexivity.
Qed.

(** The same for any string, closed or not. *)
Lemma text_span_any q off s pre : string_shape q off s ->
  exists trim b e, s = delims q ++ trim ++ b ++ e /\ Forall (eq (delim q)) e /\ (e = [] \/ quote_len q <= tlen e) /\
    apply_to off (mkspan (pos_at pre) (pos_at (pre ++ s))) =
    Ok (mkspan (match trim with
                | [] => pos_at (pre ++ delims q)
                | _ => mkpos (p_line (pos_at pre) + 1) (p_char (pos_at pre))
                end)
               (pos_plus (pos_at (pre ++ delims q ++ trim ++ b)) (tlen e - tlen e mod 256))).
Proof.
  intros (trim & b & e & -> & T & FE & LE & NB & ->). exists trim, b, e. split; [reflexivity|]. split; [exact FE|]. split; [exact LE|].
  assert (ND : no_lf (delims q)) by (destruct q; unfold no_lf; cbn; lia).
  assert (TD : tlen (delims q) = quote_len q) by (destruct q; reflexivity).
  assert (NE : no_lf e) by (intros H; rewrite Forall_forall in FE; specialize (FE _ H); destruct q; discriminate FE).
  assert (PE : pos_at (pre ++ delims q ++ trim ++ b ++ e) =
     mkpos (p_line (pos_at (pre ++ delims q ++ trim ++ b))) (p_char (pos_at (pre ++ delims q ++ trim ++ b)) + tlen e)).
  { replace (pre ++ delims q ++ trim ++ b ++ e) with ((pre ++ delims q ++ trim ++ b) ++ e) by assoc.
    rewrite pos_at_no_lf by assumption. reflexivity. }
  unfold apply_to. cbn [s_start s_end]. rewrite PE. cbn [p_line p_char].
  set (off := match trim with [] => _ | _ => _ end).
  assert (E1 : to_end_line off = 0) by (subst off; destruct trim; reflexivity).
  assert (E2 : to_end_char off = tlen e mod 256) by (subst off; destruct trim; reflexivity).
  assert (ML : tlen e mod 256 <= tlen e) by (apply N.mod_le; discriminate).
  rewrite E1, E2. rewrite !usub_ok by lia. cbn [bind]. rewrite N.sub_0_r, <- N.add_sub_assoc by exact ML.
  unfold pos_plus. f_equal. f_equal.
  destruct trim as [|x trim].
  - rewrite pos_at_no_lf, TD by assumption. cbn. rewrite N.add_0_r. reflexivity.
  - cbn. rewrite N.add_0_r. reflexivity.
Qed.
Lemma tile_strings_shape : forall ts pre, Forall shape ts ->
  Forall (fun s => string_shape (st_quote s) (st_offset s) (sr_text (st_lit s))) (tile_strings pre ts).
Proof.
  induction ts as [|[x s] ts IH]; intros pre SH; [constructor|]. pose proof (Forall_inv SH) as S1. specialize (IH (pre ++ s) (Forall_inv_tail SH)).
  destruct x; cbn [tile_strings]; try exact IH. constructor; [exact (proj1 S1)|exact IH].
Qed.
Lemma tile_strings_text : forall ts pre, Forall shape ts ->
  Forall (fun s => text_from (sr_text (st_lit s)) (st_text s)) (tile_strings pre ts).
Proof.
  induction ts as [|[x s] ts IH]; intros pre SH; [constructor|]. pose proof (Forall_inv SH) as S1. specialize (IH (pre ++ s) (Forall_inv_tail SH)).
  destruct x; cbn [tile_strings]; try exact IH. constructor; [exact (proj2 S1)|exact IH].
Qed.
