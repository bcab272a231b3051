(** Theorems about the diagnostics of a manifest and the command line tool
    (C60-C65).  Specification: CliSpec.v, MeanSpec.v, DisplaySpec.v. *)
From Verif Require LitErr.
From Verif Require Import Base BaseProofs CommonModel CommonSpec CommonProofs PropCommon TomlError LitModel LitSpec LexModel LexSpec LexBase LexProps ParseModel ParseSpec ParsePlace ParseItems
  PropParse MapModel MapSpec PropMap PropOrder IdeModel IdeSpec PropIde IdePlace DisplayModel DisplaySpec DisplayProofs PropDisplay DiagModel CliModel CliSpec MeanSpec MeanProofs.
From Verif Require SemverModel SemverSpec.
From Coq Require Import Permutation.

(** ** C60 *)

(** Every diagnostic of a manifest points at text of it, and so do the lines
    it lists and its hint.  An error in a requirement points at the text that
    it is about, if the requirement is written without escapes and on one
    line. *)
Theorem C60_manifest_places prof input m deps ds : scalars input -> manifest input m -> check prof m = Ok (deps, ds) ->
  Forall (diag_place (NTable m) input) ds.
Proof.
  intros SC M E. apply Forall_forall. intros d H. apply (C55_exact_diagnostics _ _ _ _ _ M E) in H. destruct M as (a & es & es' & P & MD).
  exact (problem_place _ _ _ _ _ P MD _ _ SC H).
Qed.

(** ** C61 *)

(** What display asks of a diagnostic besides its place. *)
Definition sane (d : ddiag) : Prop :=
  increasing (g_lines d) /\ p_line (s_start (g_span d)) <= p_line (s_end (g_span d)) /\
  forall h, g_hint d = Some h -> p_line (s_start (h_span h)) <= p_line (s_end (h_span h)).
Lemma le_lines a b : pos_le a b -> p_line a <= p_line b.
Proof. intros [->|[H|(H & _)]]; lia. Qed.
Lemma in_lines input sp : span_in input sp -> p_line (s_start sp) <= p_line (s_end sp).
Proof. intros (_ & _ & H). exact (le_lines _ _ H). Qed.
Lemma hint_none input e : hint_ok input e -> err_lines e = [] /\ forall s, err_hint e = Some s -> exists p, s = span_ascii_char p /\ exists c, char_at input c p.
Proof.
  destruct e; cbn [hint_ok err_lines err_hint]; intros H; try discriminate; (split; [reflexivity|]); intros sp0 E; try discriminate; injection E as <-; eauto.
Qed.
Lemma err_sane input e : err_ok input e -> sane (toml_diag e).
Proof.
  intros ((a & b & c & E & SP & _) & H). destruct (hint_none _ _ H) as (L & HH). unfold sane, toml_diag. cbn [g_lines g_span g_hint]. rewrite L, SP. split; [exact I|]. split.
  - apply le_lines. cbn [s_start s_end]. apply pos_le_app.
  - intros h EH. destruct (err_hint e) as [s|]; [|discriminate]. injection EH as <-. cbn [h_span]. destruct (HH _ eq_refl) as (p & -> & _). cbn. lia.
Qed.
Lemma comment_sane input e : comment_char_error input e -> sane (toml_diag e).
Proof. intros (a & x & c & r & _ & _ & _ & _ & ->). split; [exact I|]. split; [cbn; lia|discriminate]. Qed.
Lemma map_sane input e : map_err_place input e -> sane (toml_diag e).
Proof.
  intros (SP & (o & HO & SO & _) & INC & _). split; [exact INC|]. split; [exact (in_lines _ _ SP)|]. cbn [g_hint toml_diag]. rewrite HO. intros h E. injection E as <-. exact (in_lines _ _ SO).
Qed.
Lemma ide_sane root input d : diag_place root input d -> sane (ide_diag d).
Proof.
  destruct d as [ls p sp k|ls p sp k|e]; cbn [diag_place ide_diag].
  - intros (SP & INC & _). split; [exact INC|]. split; [exact (in_lines _ _ SP)|discriminate].
  - intros (SP & (INC & _) & H). split; [exact INC|]. split; [exact (in_lines _ _ SP)|]. intros h E. exact (in_lines _ _ (H _ E)).
  - intros (s & sp & _ & _ & (x & y & z & _ & _ & _ & _ & ES & _) & _). split; [exact I|]. split; [|discriminate]. cbn [g_span semver_diag]. rewrite ES. cbn. lia.
Qed.
Lemma errors_of_in ds d : In d (errors_of ds) -> In d ds.
Proof. unfold errors_of. intros H. apply filter_In in H. tauto. Qed.
Lemma warnings_of_in ds d : In d (warnings_of ds) -> In d ds.
Proof. unfold warnings_of. intros H. apply filter_In in H. tauto. Qed.
Lemma toml_sane text a es m es' : lex_and_parse text = Ok (a, es) -> map_doc (as_asts a) = Ok (m, es') -> Forall sane (map toml_diag (es ++ es')).
Proof.
  intros E M. rewrite map_app. apply Forall_app. split; apply Forall_map.
  - eapply Forall_impl; [|exact (C51_error_spans _ _ _ E)]. intros e [H|H]; [exact (err_sane _ _ H)|exact (comment_sane _ _ H)].
  - eapply Forall_impl; [|exact (C53_error_places _ _ _ _ _ E M)]. intros e. apply map_sane.
Qed.
Lemma reported_sane prof mode text m errs warns : scalars text -> reported prof mode text m errs warns -> Forall sane (errs ++ warns).
Proof.
  intros SC R. revert SC. destruct R as [text0 a es m0 es' E M|text0 a es m0 es' deps ds E M C]; intros SC.
  - rewrite app_nil_r. eapply toml_sane; eassumption.
  - assert (P : Forall (diag_place (NTable m0) text0) ds) by (eapply C60_manifest_places; [exact SC|exists a, es, es'; split; eassumption|exact C]).
    rewrite Forall_forall in P. apply Forall_app. split; [apply Forall_app; split|]; [eapply toml_sane; eassumption| |]; apply Forall_map, Forall_forall; intros d H;
      eapply ide_sane, P; [apply errors_of_in|apply warnings_of_in]; exact H.
Qed.

Definition message (width : list N -> N) (text : list N) (d : ddiag) (out : list N) : Prop :=
  exists msg, displayed width (lines text) d msg /\ out = msg ++ [10].
Lemma show_all_ok width text ds : Forall sane ds -> Forall (showable text) ds -> exists ms, show_all width (lines text) ds = Ok ms /\ Forall2 (message width text) ds ms.
Proof.
  induction 1 as [|d ds SD F IH]; intros SH; [exists []; split; [reflexivity|constructor]|]. destruct (Forall_inv SH) as (S1 & S2).
  destruct (C57_display_text width d (lines text) S1 S2 (proj1 SD)) as (out & E & D). destruct (IH (Forall_inv_tail SH)) as (ms & EM & FM).
  exists ((out ++ [10]) :: ms). cbn [show_all]. rewrite E. cbn [bind]. rewrite EM. cbn [bind]. split; [reflexivity|]. constructor; [exists out; auto|exact FM].
Qed.
Lemma show_all_inv width text ds ms : Forall sane ds -> show_all width (lines text) ds = Ok ms -> Forall (showable text) ds.
Proof.
  intros F. revert ms. induction F as [|d ds SD F IH]; intros ms E; [constructor|]. cbn [show_all] in E. destruct (display width d (lines text)) as [o|[]|] eqn:D; [|discriminate].
  cbn [bind] in E. destruct (show_all width (lines text) ds) as [ms0|[]|] eqn:D0; [|discriminate]. constructor; [|exact (IH _ eq_refl)].
  apply (C56_display_panics width d (lines text) (proj1 SD) (proj1 (proj2 SD)) (proj2 (proj2 SD))). congruence.
Qed.
Lemma by_start_forall (P : ddiag -> Prop) l l' : by_start l l' -> Forall P l <-> Forall P l'.
Proof. intros (PM & _). split; apply Permutation_Forall; [symmetry|]; exact PM. Qed.

(** What the tool does, in terms of what there is to report. *)
Lemma ctoml_steps width prof mode text :
  (ctoml width prof mode text = Panic /\ forall m errs warns, ~ reported prof mode text m errs warns) \/
  (exists m errs warns errs' warns', reported prof mode text m errs warns /\ by_start errs errs' /\ by_start warns warns' /\
    ctoml width prof mode text = (let? me := show_all width (lines text) errs' in let? mw := show_all width (lines text) warns' in Ok (map_simple m, me ++ mw ++ []))).
Proof.
  unfold ctoml. cbv zeta. destruct (lex_and_parse text) as [[a es]|[]|] eqn:E; cbn [bind].
  2:{ left. split; [reflexivity|]. intros m errs warns R. inversion R; congruence. }
  destruct (map_doc (as_asts a)) as [[m es']|[]|] eqn:M; cbn [bind].
  2:{ left. split; [reflexivity|]. intros m errs warns R. inversion R; congruence. }
  assert (B : forall l, by_start l (sort_by (diag_cmp g_span) l)).
  { intros l. pose proof (C19_sort_diagnostics ddiag ddiag ddiag g_span g_span g_span (mkdiags l [] [])) as (H & _). exact H. }
  destruct mode.
  - cbn [bind]. right. eexists m, (map toml_diag (es ++ es')), [], _, _. split; [econstructor; eassumption|]. split; [apply B|]. split; [apply (B [])|].
    cbn [errors_of warnings_of filter map]. rewrite app_nil_r. cbn [sort_diagnostics d_errors d_warnings d_infos]. cbn [bind].
    destruct (show_all width (lines text) (sort_by (diag_cmp g_span) (map toml_diag (es ++ es')))) as [me|[]|]; reflexivity.
  - destruct (check prof m) as [[deps ds]|[]|] eqn:C; cbn [bind].
    2:{ left. split; [reflexivity|]. intros m0 errs warns R. inversion R; congruence. }
    right. eexists m, _, _, _, _. split; [eapply rep_check; eassumption|]. split; [apply B|]. split; [apply B|].
    cbn [sort_diagnostics d_errors d_warnings d_infos].
    destruct (show_all width (lines text) (sort_by (diag_cmp g_span) (map toml_diag (es ++ es') ++ map ide_diag (errors_of ds)))) as [me|[]|]; [|reflexivity].
    cbn [bind]. destruct (show_all width (lines text) (sort_by (diag_cmp g_span) (map ide_diag (warnings_of ds)))) as [mw|[]|]; reflexivity.
Qed.
Lemma reported_unique prof mode text m errs warns m' errs' warns' : reported prof mode text m errs warns -> reported prof mode text m' errs' warns' ->
  m = m' /\ errs = errs' /\ warns = warns'.
Proof. intros R R'. destruct R; inversion R'; subst; repeat match goal with A : ?x = Ok _, B : ?x = Ok _ |- _ => rewrite A in B; injection B; clear B; intros; subst end; auto. Qed.

(** The tool fails exactly if lexing, parsing, mapping or checking does, or
    something points at a place that is not between characters of a line. *)
Theorem C61_tool_fails width prof mode text : scalars text ->
  (ctoml width prof mode text <> Panic <->
   exists m errs warns, reported prof mode text m errs warns /\ Forall (showable text) (errs ++ warns)).
Proof.
  intros SC. destruct (ctoml_steps width prof mode text) as [(E & N0)|(m & errs & warns & errs' & warns' & R & B1 & B2 & E)].
  - rewrite E. split; [congruence|]. intros (m & errs & warns & R & _). destruct (N0 _ _ _ R).
  - pose proof (reported_sane _ _ _ _ _ _ SC R) as SN. apply Forall_app in SN. destruct SN as [S1 S2]. rewrite E. split.
    + intros NP. exists m, errs, warns. split; [exact R|]. apply Forall_app.
      destruct (show_all width (lines text) errs') as [me|[]|] eqn:E1; [|destruct (NP eq_refl)]. cbn [bind] in NP.
      destruct (show_all width (lines text) warns') as [mw|[]|] eqn:E2; [|destruct (NP eq_refl)].
      split; [apply (by_start_forall _ _ _ B1)|apply (by_start_forall _ _ _ B2)]; (eapply show_all_inv; [|eassumption]);
        [apply (by_start_forall _ _ _ B1)|apply (by_start_forall _ _ _ B2)]; assumption.
    + intros (m0 & e0 & w0 & R0 & F). destruct (reported_unique _ _ _ _ _ _ _ _ _ R R0) as (<- & <- & <-). apply Forall_app in F. destruct F as [F1 F2].
      destruct (show_all_ok width text errs') as (me & -> & _); [apply (by_start_forall _ _ _ B1); assumption|apply (by_start_forall _ _ _ B1); assumption|].
      destruct (show_all_ok width text warns') as (mw & -> & _); [apply (by_start_forall _ _ _ B2); assumption|apply (by_start_forall _ _ _ B2); assumption|]. discriminate.
Qed.

(** ** C62 *)

(** What the tool prints: the value, then a message for every error and for
    every warning, each in the order in which they start. *)
Theorem C62_messages width prof mode text v out : scalars text -> ctoml width prof mode text = Ok (v, out) ->
  exists m errs warns errs' warns', reported prof mode text m errs warns /\ v = map_simple m /\
    by_start errs errs' /\ by_start warns warns' /\ Forall2 (message width text) (errs' ++ warns') out.
Proof.
  intros SC E. assert (NP : ctoml width prof mode text <> Panic) by congruence. apply (C61_tool_fails _ _ _ _ SC) in NP. destruct NP as (m0 & e0 & w0 & R0 & F).
  destruct (ctoml_steps width prof mode text) as [(E0 & _)|(m & errs & warns & errs' & warns' & R & B1 & B2 & E0)]; [congruence|].
  destruct (reported_unique _ _ _ _ _ _ _ _ _ R R0) as (<- & <- & <-). apply Forall_app in F. destruct F as [F1 F2].
  pose proof (reported_sane _ _ _ _ _ _ SC R) as SN. apply Forall_app in SN. destruct SN as [S1 S2]. rewrite E0 in E.
  destruct (show_all_ok width text errs') as (me & E1 & M1); [apply (by_start_forall _ _ _ B1); assumption|apply (by_start_forall _ _ _ B1); assumption|].
  destruct (show_all_ok width text warns') as (mw & E2 & M2); [apply (by_start_forall _ _ _ B2); assumption|apply (by_start_forall _ _ _ B2); assumption|].
  rewrite E1 in E. cbn [bind] in E. rewrite E2 in E. cbn [bind] in E. injection E as <- <-. rewrite app_nil_r. exists m, errs, warns, errs', warns'.
  split; [exact R|]. split; [reflexivity|]. split; [exact B1|]. split; [exact B2|]. apply Forall2_app; assumption.
Qed.

(** A document of printable characters, tabs and line feeds is always shown,
    unless parsing it fails. *)
Definition plain_text (text : list N) : Prop := Forall (fun c => c = 10 \/ plain c) text.
Lemma plain_no_cr text : plain_text text -> ~ In 13 text.
Proof. intros F H. pose proof (proj1 (Forall_forall _ _) F _ H) as X. cbv beta in X. unfold plain in X. lia. Qed.
Lemma plain_pos text p : plain_text text -> pos_in text p -> on_text (lines text) p.
Proof.
  intros F (a & b & -> & ->). apply C56_positions_on_lines. intros ((a' & ->) & _). apply (plain_no_cr _ F). rewrite !in_app_iff. cbn. tauto.
Qed.
Lemma plain_span text sp : plain_text text -> span_in text sp -> span_on_text (lines text) sp.
Proof.
  intros F (A & B & C). split; [exact (plain_pos _ _ F A)|]. split; [exact (plain_pos _ _ F B)|].
  intros H. destruct C as [C|C]; [rewrite C in H|pose proof (pos_lt_trans _ _ _ H C) as X]; destruct H as [H|(_ & H)]; try lia; destruct X as [X|(_ & X)]; lia.
Qed.
Lemma char_span_in text c p : char_at text c p -> c < 128 -> c <> 10 -> span_in text (span_ascii_char p).
Proof.
  intros (a & b & -> & ->) L N0. split; [exists a, (c :: b); auto|]. split.
  - exists (a ++ [c]), b. split; [rewrite <- app_assoc; reflexivity|]. cbn [span_ascii_char s_end]. rewrite pos_at_no_lf; [|intros [X|[]]; congruence].
    cbn [tlen]. assert (len_utf8 c = 1) as -> by (unfold len_utf8; destruct (N.ltb_spec c 128); [reflexivity|lia]). reflexivity.
  - right. right. cbn. lia.
Qed.
Lemma err_showable text e : plain_text text -> err_ok text e \/ comment_char_error text e -> showable text (toml_diag e).
Proof.
  intros F [((a & b & c & E & SP & _) & H)|(a & x & c & r & -> & _ & N0 & NP & _)].
  - split; cbn [toml_diag g_span g_hint].
    + apply plain_span; [exact F|]. rewrite SP. rewrite E. split; [exists a, (b ++ c); auto|]. split; [exists (a ++ b), c; rewrite <- app_assoc; auto|]. apply pos_le_app.
    + intros h EH. destruct (err_hint e) as [s|] eqn:HE; [|discriminate]. injection EH as <-. cbn [h_span]. apply plain_span; [exact F|].
      destruct e; cbn [err_hint hint_ok] in *; try discriminate; injection HE as <-; eapply char_span_in; try exact H; lia.
  - exfalso. unfold plain_text in F. rewrite Forall_forall in F. destruct (F c) as [X|X]; [rewrite in_app_iff; cbn; tauto|congruence|contradiction].
Qed.
Lemma map_showable text e : plain_text text -> map_err_place text e -> showable text (toml_diag e).
Proof.
  intros F (SP & (o & HO & SO & _) & _). split; [exact (plain_span _ _ F SP)|]. cbn [g_hint toml_diag]. rewrite HO. intros h E. injection E as <-. exact (plain_span _ _ F SO).
Qed.
Lemma toml_showable text a es m es' : plain_text text -> lex_and_parse text = Ok (a, es) -> map_doc (as_asts a) = Ok (m, es') ->
  Forall (showable text) (map toml_diag (es ++ es')).
Proof.
  intros F E M. rewrite map_app. apply Forall_app. split; apply Forall_map.
  - eapply Forall_impl; [|exact (C51_error_spans _ _ _ E)]. intros e. apply err_showable. exact F.
  - eapply Forall_impl; [|exact (C53_error_places _ _ _ _ _ E M)]. intros e. apply map_showable. exact F.
Qed.
Lemma ide_showable root text d : plain_text text -> (forall s, any_reads root s -> verbatim (sa_val s)) -> diag_place root text d -> showable text (ide_diag d).
Proof.
  intros F VB. destruct d as [ls p sp k|ls p sp k|e]; cbn [diag_place ide_diag].
  - intros (SP & _). split; [exact (plain_span _ _ F SP)|discriminate].
  - intros (SP & _ & H). split; [exact (plain_span _ _ F SP)|]. intros h E. exact (plain_span _ _ F (H _ E)).
  - intros (s & sp & R & _ & _ & H). split; [|discriminate]. cbn [g_span semver_diag]. apply plain_span; [exact F|].
    destruct (H (VB _ R)) as (pre & x & y & z & post & E1 & E2 & -> & _). rewrite E2, E1. split; [exists (pre ++ x), (y ++ z ++ post); rewrite <- !app_assoc; auto|].
    split; [exists (pre ++ x ++ y), (z ++ post); rewrite <- !app_assoc; auto|]. cbn [s_start s_end]. rewrite app_assoc. apply pos_le_app.
Qed.
Theorem C61_validate_succeeds width prof text : scalars text -> plain_text text -> ~ bracketed_multiline text ->
  ctoml width prof Validate text <> Panic.
Proof.
  intros SC F NB. apply (C61_tool_fails _ _ _ _ SC). destruct (C31_text_partial text) as [(a & es & E)|(B & _)]; [|contradiction].
  destruct (C35_mapping_total _ _ _ E) as (m & es' & M). eexists m, _, _. split; [econstructor; eassumption|]. rewrite app_nil_r. eapply toml_showable; eassumption.
Qed.
(** Checking does not fail either, if every requirement is written on one line
    and without escapes (for debug builds, and without a number that is just
    too large). *)
Theorem C61_check_succeeds width prof text : scalars text -> plain_text text -> ~ bracketed_multiline text ->
  (forall m s, manifest text m -> any_reads (NTable m) s ->
     verbatim (sa_val s) /\ (prof = Debug -> ~ SemverSpec.contains_overflow (utf8 (sv_text (sa_val s))))) ->
  ctoml width prof Check text <> Panic.
Proof.
  intros SC F NB RQ. apply (C61_tool_fails _ _ _ _ SC). destruct (C31_text_partial text) as [(a & es & E)|(B & _)]; [|contradiction].
  destruct (C35_mapping_total _ _ _ E) as (m & es' & M). assert (MF : manifest text m) by (exists a, es, es'; split; assumption).
  destruct (check prof m) as [[deps ds]|[]|] eqn:C.
  2:{ destruct (C54_only_on_overflow _ _ _ SC MF C) as (-> & s & R & O0). destruct (proj2 (RQ m s MF R) eq_refl O0). }
  eexists m, _, _. split; [eapply rep_check; eassumption|]. pose proof (C60_manifest_places _ _ _ _ _ SC MF C) as P. rewrite Forall_forall in P.
  apply Forall_app. split; [apply Forall_app; split|]; [eapply toml_showable; eassumption| |]; apply Forall_map, Forall_forall; intros d H;
    (eapply ide_showable; [exact F| |apply P; ((apply errors_of_in; exact H) || (apply warnings_of_in; exact H))]); intros s R; exact (proj1 (RQ m s MF R)).
Qed.

(** ** C63 *)

(** No control character of the file, or of anything the messages quote, is
    printed: besides the tool's own colors there are only tabs, line feeds and
    characters that are no control characters. *)
Lemma clean_fmt s : clean (fmt_str s).
Proof. eapply Forall_impl; [|apply fmt_str_no_control]. intros c H. cbv beta in H. tauto. Qed.
Lemma clean_char c : clean (fmt_char c).
Proof.
  destruct (fmt_char_cases c) as [(_ & F)|(N0 & ->)]; [|constructor; [tauto|constructor]]. eapply Forall_impl; [|exact F]. intros x H. cbv beta in H. tauto.
Qed.
Lemma clean_hex_aux f : forall n acc, clean acc -> clean (hex_aux f n acc).
Proof.
  induction f as [|f IH]; intros n acc H; cbn [hex_aux]; [exact H|]. cbv zeta.
  assert (clean (hex_digit (n mod 16) :: acc)) by (constructor; [right; right; apply hex_digit_printable; apply N.mod_lt; discriminate|exact H]).
  destruct (n / 16 =? 0); [assumption|]. apply IH. assumption.
Qed.
Lemma clean_hex w n : clean (hex_pad w n).
Proof.
  unfold hex_pad. apply clean_app. split; [|apply clean_hex_aux; constructor]. apply Forall_forall. intros c H. apply repeat_spec in H. unfold is_control. lia.
Qed.
Lemma clean_q s : clean s -> clean (q s).
Proof. intros H. unfold q. apply clean_app. split; [clean_literal|]. apply clean_app. split; [exact H|clean_literal]. Qed.
Lemma clean_bare w : bare_word w -> clean w.
Proof. intros [<-|[<-|[<-|[<-|[]]]]]; clean_literal. Qed.
Ltac cleaning :=
  repeat (match goal with |- clean (_ ++ _) => apply clean_app; split end);
  try match goal with
  | |- clean (fmt_str _) => apply clean_fmt
  | |- clean (dec _) => apply clean_dec
  | |- clean (q (fmt_char _)) => apply clean_q, clean_char
  | |- clean (q (fmt_str _)) => apply clean_q, clean_fmt
  | |- clean (q (dec _)) => apply clean_q, clean_dec
  | |- clean (quote_kind ?k) => destruct k; clean_literal
  | |- clean (q (quote_text ?k)) => destruct k; clean_literal
  | |- clean (q (quote_text (quote_single ?k))) => destruct k; clean_literal
  | |- clean (part_text ?p) => destruct p as [| | |[]| | |]; clean_literal
  | |- clean (field_text ?f) => destruct f; clean_literal
  | |- clean (q (sign_text ?f)) => destruct f; clean_literal
  | |- clean (datatype_text ?f) => destruct f; clean_literal
  | |- clean (num_field_text ?f) => destruct f; clean_literal
  | |- clean (ident_field_text ?f) => destruct f; clean_literal
  | |- clean (q (bs _)) => clean_literal
  | |- clean (q [34]) => clean_literal
  | |- clean (bs _) => clean_literal
  | |- clean [] => constructor
  end.
Definition word_ok (e : terror) : Prop :=
  match e with
  | EUppercaseBareLitChar _ w _ | EUnexpectedBareLitChar _ w _ | EBareLitTrailingChars _ w _ | EBareLitMissingChars w _ => bare_word w
  | _ => True
  end.
Lemma err_word input e : err_ok input e -> word_ok e.
Proof.
  intros ((a & b & c & _ & _ & S0) & _). destruct e; try exact I; cbn [parse_says] in S0; destruct S0 as (a' & u & w & c' & _ & _ & _ & L); cbn [lit_says word_ok] in *.
  - destruct L as (_ & e0 & q0 & W & _). exact (proj1 (LitErr.word_bare _ _ _ W)).
  - destruct L as (_ & e0 & q0 & W & _). exact (proj1 (LitErr.word_bare _ _ _ W)).
  - destruct L as (_ & _ & _ & W). exact (proj1 (LitErr.word_bare _ _ _ W)).
  - destruct L as (_ & _ & q0 & W & _). exact (proj1 (LitErr.word_bare _ _ _ W)).
Qed.
Lemma comment_word input e : comment_char_error input e -> word_ok e.
Proof. intros (a & x & c & r & _ & _ & _ & _ & ->). exact I. Qed.
Lemma map_word input e : map_err_place input e -> word_ok e.
Proof. intros (_ & (o & H & _) & _). destruct e; try discriminate; exact I. Qed.
Definition clean_diag (d : ddiag) : Prop := clean (g_description d) /\ clean (g_annotation d) /\ forall h, g_hint d = Some h -> clean (h_annotation h).
Lemma clean_toml e : word_ok e -> clean_diag (toml_diag e).
Proof.
  intros W. split; [|split]; cbn [toml_diag g_description g_annotation g_hint].
  - destruct e; cbn [toml_description word_ok] in *; cleaning; try (apply clean_q, clean_bare; exact W).
    + apply clean_q. apply clean_app. split; [clean_literal|apply clean_hex].
    + destruct l; cleaning. destruct (_ || _); cleaning.
    + destruct f; cleaning.
    + destruct f; cleaning.
    + apply clean_q. cleaning.
  - destruct e; cbn [toml_annotation] in *; cleaning. destruct f; cleaning.
  - intros h E. destruct (err_hint e); [|discriminate]. injection E as <-. cbn [h_annotation]. destruct e; cbn [toml_hint_text]; cleaning.
Qed.
Lemma clean_semver e : clean_diag (semver_diag e).
Proof.
  split; [|split]; cbn [semver_diag g_description g_annotation g_hint]; [| |discriminate].
  - destruct e; cbn [semver_description]; unfold trailing_text; cleaning.
    all: try (destruct f as [f|]; cleaning). all: destruct w; clean_literal.
  - destruct e; cbn [semver_annotation]; unfold trailing_text; cleaning. destruct f as [f|]; cleaning.
Qed.

Definition keys_ok (d : diag) : Prop :=
  match d with
  | DError _ _ _ (DepIgnoredGitKey k) => clean k
  | DWarn _ _ _ (DeprecatedUnderscore o n) | DWarn _ _ _ (RedundantDeprecatedUnderscore o n _) => clean o /\ clean n
  | _ => True
  end.
Lemma clean_ide d : keys_ok d -> clean_diag (ide_diag d).
Proof.
  intros K. destruct d as [ls p sp k|ls p sp k|e]; [| |apply clean_semver]; (split; [|split]); cbn [ide_diag g_description g_annotation g_hint]; try discriminate.
  - destruct k; cbn [cargo_error_description keys_ok] in *; cleaning. apply clean_q. exact K.
  - destruct k; cbn [cargo_error_annotation]; cleaning.
  - unfold cargo_warning_description. cbv zeta. assert (P : clean (match p with [] => [] | _ => q (fmt_str p) ++ bs ": " end)) by (destruct p; cleaning).
    destruct k; cbn [keys_ok] in K; cleaning; try exact P; apply clean_q; tauto.
  - destruct k; cbn [cargo_warning_annotation keys_ok] in *; cleaning. apply clean_q. tauto.
  - intros h E. destruct k; try discriminate; injection E as <-; clean_literal.
Qed.
Lemma ref_clean k : In k ref_keys -> clean (bs k).
Proof. intros [<-|[<-|[<-|[]]]]; clean_literal. Qed.
Lemma old_clean root p old new d : clean (bs old) -> clean (bs new) -> old_problem root p old new d -> keys_ok d.
Proof. intros A B (n & ls & sp & tx & _ & _ & [(_ & ->)|(e & r & rs & nsp & _ & _ & _ & ->)]); split; assumption. Qed.
Lemma type_clean root p want d : type_problem root p want d -> keys_ok d.
Proof. intros (x & n & ls & sp & tx & _ & _ & _ & _ & _ & ->). exact I. Qed.
Lemma unknown_clean root p d : unknown_problem root p d -> keys_ok d.
Proof. intros (n & ls & sp & tx & _ & _ & ->). exact I. Qed.
Lemma problem_clean prof root d : problem prof root d -> keys_ok d.
Proof.
  intros D. destruct D as [p d A D|kind target b s d _ _ D|target b d _ D|target b d _ D|d D|t d D|k d _ D|t k d _ D];
    try (eapply type_clean; exact D); try (eapply unknown_clean; exact D); try (eapply old_clean; [| |exact D]; clean_literal).
  destruct D as [v ls sp tx _ _ _ M _|x n ls sp tx _ _ M _|k want d _ T|d _ T|d T|k d _ T|pa v es0 i x r s ls tx E N0 _ _ D L _|es0 n ls sp tx _ M _|t d _ T|s e R Q]; try exact I;
    try (eapply type_clean; exact T); try (eapply unknown_clean; exact T); try (eapply old_clean; [| |exact T]; clean_literal).
  destruct T as [w ls sp tx _ _ M _|w k wls wsp ls sp tx _ _ _ _ M' M _|k ls sp tx _ _ _ _ M _|k ls sp tx _ _ _ _ _ M _|k ls sp tx _ _ _ _ _ _ M _|
    k ls sp tx _ _ KR _ M _|n ls sp tx _ _ _ _ M _]; try exact I. exact (ref_clean _ KR).
Qed.
Lemma reported_clean prof mode text m errs warns : reported prof mode text m errs warns -> Forall clean_diag (errs ++ warns).
Proof.
  assert (T : forall text a es m es', lex_and_parse text = Ok (a, es) -> map_doc (as_asts a) = Ok (m, es') -> Forall clean_diag (map toml_diag (es ++ es'))).
  { clear. intros text a es m es' E M. apply Forall_map. apply Forall_app. split.
    - eapply Forall_impl; [|exact (C51_error_spans _ _ _ E)]. intros e [H|H]; apply clean_toml; [exact (err_word _ _ H)|exact (comment_word _ _ H)].
    - eapply Forall_impl; [|exact (C53_error_places _ _ _ _ _ E M)]. intros e H. apply clean_toml. exact (map_word _ _ H). }
  intros [text0 a es m0 es' E M|text0 a es m0 es' deps ds E M C].
  - rewrite app_nil_r. eapply T; eassumption.
  - assert (P : forall d, In d ds -> clean_diag (ide_diag d)).
    { intros d H. apply clean_ide. eapply problem_clean. eapply C55_exact_diagnostics; [|exact C|exact H]. exists a, es, es'. split; eassumption. }
    apply Forall_app. split; [apply Forall_app; split|]; [eapply T; eassumption| |]; apply Forall_map, Forall_forall; intros d H; apply P;
      [apply errors_of_in|apply warnings_of_in]; exact H.
Qed.
Theorem C63_no_control_characters width prof mode text v out : scalars text -> ctoml width prof mode text = Ok (v, out) ->
  Forall (fun msg => clean (unescaped msg false)) out.
Proof.
  intros SC E. destruct (C62_messages _ _ _ _ _ _ SC E) as (m & errs & warns & errs' & warns' & R & _ & B1 & B2 & F).
  pose proof (reported_clean _ _ _ _ _ _ R) as C. apply Forall_app in C. destruct C as [C1 C2]. apply (by_start_forall _ _ _ B1) in C1. apply (by_start_forall _ _ _ B2) in C2.
  assert (C : Forall clean_diag (errs' ++ warns')) by (apply Forall_app; split; assumption). clear - C F. induction F as [|d x l l' (msg & D & ->) F IH]; constructor.
  - destruct (Forall_inv C) as (A1 & A2 & A3). assert (S1 : safe (msg ++ [10])); [|exact (proj2 S1)]. apply safe_app; [|apply safe_clean; constructor; [tauto|constructor]].
    exact (displayed_safe _ _ _ _ A1 A2 A3 D).
  - exact (IH (Forall_inv_tail C)).
Qed.

(** ** C64 *)

(** A TOML document is parsed without errors; whatever it says twice in a
    conflicting way is reported; and otherwise the value of the document is
    exactly what its statements say. *)
Theorem C64_meaning text d : toml_doc text d ->
  exists a m es', lex_and_parse text = Ok (a, []) /\ map_doc (as_asts a) = Ok (m, es') /\
    (es' = [] <-> consistent d) /\
    (consistent d -> forall v, means d v <-> v = STable (map_simple m)).
Proof.
  intros T. destruct (C34_toml_documents _ _ T) as (a & P & D). destruct (C35_mapping_total _ _ _ P) as (m & es' & M). exists a, m, es'.
  split; [exact P|]. split; [exact M|]. pose proof (consistent_iff _ _ _ _ _ P D _ M) as CI. split; [exact CI|].
  intros C. apply CI in C. subst es'. intros v. split; [exact (means_map _ _ _ _ _ P D M v)|]. intros ->. exact (map_means _ _ _ _ _ P D M).
Qed.

(** ** C65 *)

Lemma forall2_nil_r A B (R : A -> B -> Prop) l : Forall2 R l [] -> l = [].
Proof. inversion 1. reflexivity. Qed.
Lemma silent_inv width prof text v : scalars text -> ctoml width prof Validate text = Ok (v, []) ->
  exists a m, lex_and_parse text = Ok (a, []) /\ map_doc (as_asts a) = Ok (m, []) /\ v = map_simple m.
Proof.
  intros SC E. destruct (C62_messages _ _ _ _ _ _ SC E) as (m & errs & warns & errs' & warns' & R & -> & B1 & _ & F). apply forall2_nil_r in F.
  apply app_eq_nil in F. destruct F as [-> _]. destruct B1 as (PM & _). apply Permutation_nil in PM.
  inversion R as [t a es m0 es' P M E1 E2 E3 E4 E5|]; subst. apply map_eq_nil in E4. apply app_eq_nil in E4. destruct E4 as [-> ->]. eauto.
Qed.
(** The tool is silent exactly on valid TOML documents, and then prints their
    value. *)
Theorem C65_silent_exactly_on_valid_toml width prof text v : scalars text ->
  (ctoml width prof Validate text = Ok (v, []) <-> exists d, toml_doc text d /\ consistent d /\ means d (STable v)).
Proof.
  intros SC. split.
  - intros E. destruct (silent_inv _ _ _ _ SC E) as (a & m & P & M & ->). destruct (C34_accepted_documents _ _ P) as (d & T & D). exists d. split; [exact T|].
    split; [apply (consistent_iff _ _ _ _ _ P D _ M); reflexivity|exact (map_means _ _ _ _ _ P D M)].
  - intros (d & T & C & ME). destruct (C64_meaning _ _ T) as (a & m & es' & P & M & CI & U). apply CI in C. subst es'. apply U in ME; [|apply CI; reflexivity]. injection ME as ->.
    unfold ctoml. rewrite P. cbn [bind]. rewrite M. cbn [bind]. reflexivity.
Qed.

(** ** Examples *)

Definition nl : list N := [10].
Definition ascii (s : list N) : N := N.of_nat (length s).
(** A document with several kinds of tables, and its value. *)
Definition valid_example : list N :=
  bs "title = 'x'" ++ nl ++ bs "[[p]]" ++ nl ++ bs "a.b = [1, {c = true}]" ++ nl ++ bs "[[p]]" ++ nl ++ bs "[p.q]" ++ nl ++ bs "d = 1979-05-27" ++ nl ++ bs "[o]" ++ nl ++ bs "e = 0x10" ++ nl.
Definition valid_value : list (list N * sval) :=
  [(bs "title", SString (bs "x"));
   (bs "p", SArray [STable [(bs "a", STable [(bs "b", SArray [SInt 1; STable [(bs "c", SBool true)]])])];
                    STable [(bs "q", STable [(bs "d", SDateTime (LocalDate (mkdate 1979 5 27)))])]]);
   (bs "o", STable [(bs "e", SInt 16)])].
Lemma ascii_scalars text : Forall (fun c => c < 128) text -> scalars text.
Proof. intros F. eapply Forall_impl; [|exact F]. intros c H. cbv beta in H. unfold is_scalar. lia. Qed.
Ltac all_ascii := apply ascii_scalars; vm_compute; repeat (constructor; [reflexivity|]); constructor.
Example C65_example : ctoml ascii Debug Validate valid_example = Ok (valid_value, []) /\
  exists d, toml_doc valid_example d /\ consistent d /\ means d (STable valid_value).
Proof.
  assert (E : ctoml ascii Debug Validate valid_example = Ok (valid_value, [])) by (vm_compute; reflexivity). split; [exact E|].
  eapply C65_silent_exactly_on_valid_toml; [|exact E]. all_ascii.
Qed.
(** Documents that are grammatical but say something twice are not consistent. *)
Example C64_example text : In text [bs "a = 1" ++ nl ++ bs "a = 2"; bs "[a]" ++ nl ++ bs "[a]"; bs "a.b = 1" ++ nl ++ bs "[a]"; bs "a = []" ++ nl ++ bs "[[a]]"; bs "[a.b]" ++ nl ++ bs "[[a]]"] ->
  exists d, toml_doc text d /\ ~ consistent d.
Proof.
  intros H. assert (E : exists a m e es, lex_and_parse text = Ok (a, []) /\ map_doc (as_asts a) = Ok (m, e :: es)).
  { repeat (destruct H as [<-|H]; [do 4 eexists; split; [vm_compute; reflexivity|vm_compute; reflexivity]|]). destruct H. }
  destruct E as (a & m & e & es & P & M). destruct (C34_accepted_documents _ _ P) as (d & T & D). exists d. split; [exact T|]. intros C.
  apply (consistent_iff _ _ _ _ _ P D _ M) in C. discriminate.
Qed.

(** The texts of the messages of a manifest with problems. *)
Definition shown_example : list N :=
  bs "[dependencies]" ++ nl ++ bs "a = 1" ++ nl ++ bs "b = { version = '1.x.2' }" ++ nl ++ bs "[target.foo.dev_dependencies]" ++ nl.
Example C62_example : exists v m1 m2 m3, ctoml ascii Debug Check shown_example = Ok (v, [m1; m2; m3]) /\
  unescaped m1 false = bs "error: expected `dependencies.a` to be of type string or table, found int" ++ nl ++
    bs "    --> 2:0" ++ nl ++ bs "     |" ++ nl ++ bs "   1 | [dependencies]" ++ nl ++ bs "   2 | a = 1" ++ nl ++ bs "     | ^^^^^ expected string or table" ++ nl ++ nl /\
  unescaped m2 false = bs "error: unexpected character `2` after wildcard minor version number" ++ nl ++
    bs "    --> 3:21" ++ nl ++ bs "     |" ++ nl ++ bs "   3 | b = { version = '1.x.2' }" ++ nl ++ bs "     |                      ^ unexpected character" ++ nl ++ nl /\
  unescaped m3 false = bs "warning: `target.foo`: `dev_dependencies` is deprecated in favor of `dev-dependencies` and will be unsupported in the 2024 edition" ++ nl ++
    bs "    --> 4:12" ++ nl ++ bs "     |" ++ nl ++ bs "   4 | [target.foo.dev_dependencies]" ++ nl ++ bs "     |             ^^^^^^^^^^^^^^^^^ deprecated in favor of `dev-dependencies`" ++ nl ++ nl.
Proof. do 4 eexists. split; [vm_compute; reflexivity|]. split; [vm_compute; reflexivity|]. split; vm_compute; reflexivity. Qed.

(** The tool crashes on a string that a carriage return and line feed end, on
    a unicode escape that they end, and on a control character after another
    character in a comment, though all of them are parsed. *)
Theorem C61_crashes_refuted :
  Forall (fun t => scalars t /\ (exists x, lex_and_parse t = Ok x) /\ ctoml ascii Release Validate t = Panic)
    [bs "a = 'b" ++ [13; 10]; bs "a = " ++ [34] ++ bs "\u12" ++ [13; 10]; bs "# " ++ [233; 1]].
Proof.
  assert (K : forall t x, forallb is_scalar t = true -> lex_and_parse t = Ok x -> ctoml ascii Release Validate t = Panic ->
    scalars t /\ (exists x, lex_and_parse t = Ok x) /\ ctoml ascii Release Validate t = Panic).
  { intros t x A B C. split; [apply Forall_forall; intros c H; exact (proj1 (forallb_forall _ _) A _ H)|]. split; [eauto|exact C]. }
  repeat (constructor; [eapply K; [vm_compute; reflexivity|vm_compute; reflexivity|vm_compute; reflexivity]|]). constructor.
Qed.
(** An error in a requirement that starts on the line after the quotes is
    marked past its text: here [b] is, but the mark is on the fifth character
    of the line. *)
Theorem C60_multiline_refuted : exists m deps sp c, 
  manifest (bs "[dependencies]" ++ nl ++ bs "a = " ++ [34; 34; 34; 10] ++ bs "bad" ++ [34; 34; 34]) m /\
  check Debug m = Ok (deps, [DSemver (SemverModel.InvalidOp c sp)]) /\ c = 98 /\ sp = mkpos 2 4.
Proof. do 4 eexists. split; [do 3 eexists; split; [vm_compute; reflexivity|vm_compute; reflexivity]|]. split; [vm_compute; reflexivity|]. split; reflexivity. Qed.
(** Escapes shift the marks as well. *)
Theorem C60_escape_refuted : exists m deps e,
  manifest (bs "[dependencies]" ++ nl ++ bs "a = " ++ [34] ++ bs "\u0031\u002e?" ++ [34]) m /\
  check Debug m = Ok (deps, [DSemver e]) /\ SemverModel.error_span e = mkspan (mkpos 1 7) (mkpos 1 8).
Proof. do 3 eexists. split; [do 3 eexists; split; [vm_compute; reflexivity|vm_compute; reflexivity]|]. split; [vm_compute; reflexivity|]. vm_compute; reflexivity. Qed.
(** Two texts: one names the wrong identifiers (the error is about a
    prerelease), one lacks a space. *)
Example messages_refuted :
  SemverModel.parse_version Debug (utf8 (bs "1.2.3-")) (mkpos 0 0) = Err (SemverModel.EmptyIdentifier SemverModel.FPrerelease (mkpos 0 6)) /\
  g_description (semver_diag (SemverModel.EmptyIdentifier SemverModel.FPrerelease (mkpos 0 6))) = bs "emtpy build-metadata" /\
  g_description (toml_diag (EInvalidStringChar 1 (span_ascii_char (mkpos 0 0)))) = bs "invalid character `\x01`in string".
Proof. split; [vm_compute; reflexivity|]. split; vm_compute; reflexivity. Qed.

Print Assumptions C60_manifest_places.
Print Assumptions C61_tool_fails.
Print Assumptions C61_validate_succeeds.
Print Assumptions C61_check_succeeds.
Print Assumptions C62_messages.
Print Assumptions C63_no_control_characters.
Print Assumptions C64_meaning.
Print Assumptions C65_silent_exactly_on_valid_toml.
