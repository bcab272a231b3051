(** Theorems about the diagnostics of a buffer (C66).  Specification:
    NvimSpec.v, CliSpec.v. *)
From Verif Require Import Base BaseProofs CommonModel CommonSpec TomlError LitModel LexModel LexSpec LexBase LexProps ParseModel ParseSpec ParsePlace ParseItems
  PropParse MapModel MapSpec PropMap PropOrder IdeModel IdeSpec PropIde IdePlace DisplayModel DisplayProofs DiagModel CliModel CliSpec PropCli NvimModel NvimSpec.
From Verif Require SemverModel SemverSpec.

Lemma rev_case {A} (z : list A) : z = [] \/ exists z' c, z = z' ++ [c].
Proof. induction z using rev_ind; eauto. Qed.
Lemma near_from lines : buffer lines -> forall pre n a b, pos_at pre = mkpos n 0 -> buffer_text lines = a ++ b ->
  exists i, p_line (pos_at (pre ++ a)) = n + i /\ near_buffer lines i (p_char (pos_at (pre ++ a))).
Proof.
  induction 1 as [|l ls L F IH]; intros pre n a b P E.
  - destruct a; [|discriminate]. exists 0. rewrite app_nil_r, P. cbn [p_line p_char]. split; [lia|]. right. split; reflexivity.
  - cbn [buffer_text map concat] in E. change (concat (map (fun l0 : list N => l0 ++ [10]) ls)) with (buffer_text ls) in E.
    assert (NEXT : forall z, a = (l ++ [10]) ++ z -> buffer_text ls = z ++ b ->
      exists i, p_line (pos_at (pre ++ a)) = n + i /\ near_buffer (l :: ls) i (p_char (pos_at (pre ++ a)))).
    { intros z -> E2. destruct (IH (pre ++ l ++ [10]) (n + 1) z b) as (i & E3 & NB); [|exact E2|].
      - rewrite app_assoc, pos_at_lf, pos_at_no_lf by exact L. rewrite P. reflexivity.
      - replace ((pre ++ l ++ [10]) ++ z) with (pre ++ (l ++ [10]) ++ z) in E3, NB by (rewrite <- !app_assoc; reflexivity).
        exists (i + 1). split; [lia|]. destruct NB as [(line & x & y & N1 & N2 & N3)|(N1 & N2)].
        + left. exists line, x, y. split; [|auto]. rewrite N2Nat.inj_add. change (N.to_nat 1) with 1%nat. rewrite Nat.add_1_r. exact N1.
        + right. split; [|exact N2]. cbn [length]. lia. }
    destruct (app_split _ _ _ _ E) as [(z & E1 & E2)|(z & E1 & E2)].
    + destruct (rev_case z) as [->|(z' & c & ->)].
      * rewrite app_nil_r in E1. apply (NEXT []); [rewrite app_nil_r; auto|]. symmetry. exact E2.
      * rewrite app_assoc in E1. apply app_inj_tail in E1. destruct E1 as [-> <-]. exists 0. rewrite pos_at_no_lf.
        -- rewrite P. cbn [p_line p_char]. split; [lia|]. left. exists (a ++ z'), a, z'. split; [reflexivity|]. split; [reflexivity|lia].
        -- intros H. apply L. apply in_app_iff. auto.
    + exact (NEXT z E1 E2).
Qed.
Lemma near_pos lines p : buffer lines -> pos_in (buffer_text lines) p -> near_buffer lines (p_line p) (p_char p).
Proof.
  intros B (a & b & E & ->). destruct (near_from lines B [] 0 a b eq_refl E) as (i & E1 & NB). cbn [app] in *. rewrite E1. exact NB.
Qed.
Lemma span_covers lines d : buffer lines -> span_in (buffer_text lines) (g_span d) -> covers lines (map_vim_diagnostic d).
Proof.
  intros B (A1 & A2 & A3). split; [exact (near_pos _ _ B A1)|]. split; [exact (near_pos _ _ B A2)|]. cbn [map_vim_diagnostic v_lnum v_end_lnum v_col v_end_col].
  destruct A3 as [->|[H|(H & H2)]]; [right; split; lia|left; exact H|right; split; [exact H|lia]].
Qed.
Lemma verbatim_dec s : verbatim s \/ ~ verbatim s.
Proof.
  destruct (list_eq_dec N.eq_dec (sr_text (sv_lit s)) (delims (sv_quote s) ++ sv_text s ++ delims (sv_quote s))) as [E|E]; [|right; intros [H _]; contradiction].
  destruct (in_dec N.eq_dec 10 (sv_text s)) as [I0|I0]; [right; intros [_ H]; contradiction|left; split; assumption].
Qed.

(** ** C66 *)

(** The editor is given the diagnostics that the command line tool reports for
    the same text: where they are and what they say. *)
Theorem C66_same_diagnostics prof lines r : check_toml prof lines = Ok r ->
  exists m errs warns, reported prof Check (buffer_text lines) m errs warns /\
    Forall2 (fun d v => g_span d = mkspan (mkpos (v_lnum v) (v_col v)) (mkpos (v_end_lnum v) (v_end_col v)) /\ g_description d = v_message v) errs (v_errors r) /\
    Forall2 (fun d v => g_span d = mkspan (mkpos (v_lnum v) (v_col v)) (mkpos (v_end_lnum v) (v_end_col v)) /\ g_description d = v_message v) warns (v_warnings r) /\
    v_infos r = [].
Proof.
  unfold check_toml. cbv zeta. destruct (lex_and_parse (buffer_text lines)) as [[a es]|[]|] eqn:E; [|discriminate]. cbn [bind].
  destruct (map_doc (as_asts a)) as [[m es']|[]|] eqn:M; [|discriminate]. cbn [bind].
  destruct (check prof m) as [[deps ds]|[]|] eqn:C; [|discriminate]. cbn [bind]. intros H. injection H as <-.
  eexists m, _, _. split; [eapply rep_check; eassumption|]. cbn [v_errors v_warnings v_infos].
  assert (K : forall l, Forall2 (fun d v => g_span d = mkspan (mkpos (v_lnum v) (v_col v)) (mkpos (v_end_lnum v) (v_end_col v)) /\ g_description d = v_message v) l (map map_vim_diagnostic l)).
  { induction l as [|d l IH]; constructor; [|exact IH]. split; [|reflexivity]. destruct d as [sv [[p1 p2] [p3 p4]] ? ? ? ?]. reflexivity. }
  split; [apply K|]. split; [apply K|reflexivity].
Qed.
(** Each covers a part of the buffer, or ends or starts just past its last
    line.  Two kinds of errors may be off: about an illegal character in a
    comment, and in a requirement that is not written as it is. *)
Theorem C66_places prof lines r : buffer lines -> scalars (buffer_text lines) -> check_toml prof lines = Ok r ->
  Forall (covers lines) (v_warnings r) /\
  Forall (fun d => covers lines d \/
                   (exists e, comment_char_error (buffer_text lines) e /\ d = map_vim_diagnostic (toml_diag e)) \/
                   (exists m s e, manifest (buffer_text lines) m /\ any_reads (NTable m) s /\ ~ verbatim (sa_val s) /\ d = map_vim_diagnostic (semver_diag e)))
    (v_errors r).
Proof.
  intros B SC. unfold check_toml. cbv zeta. destruct (lex_and_parse (buffer_text lines)) as [[a es]|[]|] eqn:E; [|discriminate]. cbn [bind].
  destruct (map_doc (as_asts a)) as [[m es']|[]|] eqn:M; [|discriminate]. cbn [bind].
  destruct (check prof m) as [[deps ds]|[]|] eqn:C; [|discriminate]. cbn [bind]. intros H. injection H as <-. cbn [v_errors v_warnings].
  assert (MF : manifest (buffer_text lines) m) by (exists a, es, es'; split; assumption).
  pose proof (proj1 (Forall_forall _ _) (C60_manifest_places _ _ _ _ _ SC MF C)) as P. split.
  - apply Forall_map, Forall_map, Forall_forall. intros d H. pose proof (P _ (warnings_of_in _ _ H)) as D. apply span_covers; [exact B|].
    unfold warnings_of in H. apply filter_In in H. destruct d as [ls p sp k|ls p sp k|e]; [destruct H; discriminate|exact (proj1 D)|destruct H; discriminate].
  - apply Forall_map. rewrite map_app, <- app_assoc. apply Forall_app. split; [|apply Forall_app; split].
    + apply Forall_map. eapply Forall_impl; [|exact (C51_error_spans _ _ _ E)]. intros e [H|H]; [left|right; left; eauto].
      apply span_covers; [exact B|]. cbn [toml_diag g_span]. destruct H as ((x & y & z & E1 & SP & _) & _). rewrite SP, E1.
      split; [exists x, (y ++ z); auto|]. split; [exists (x ++ y), z; rewrite <- app_assoc; auto|apply pos_le_app].
    + apply Forall_map. eapply Forall_impl; [|exact (C53_error_places _ _ _ _ _ E M)]. intros e H. left. apply span_covers; [exact B|]. exact (proj1 H).
    + apply Forall_map, Forall_forall. intros d H. pose proof (P _ (errors_of_in _ _ H)) as D. destruct d as [ls p sp k|ls p sp k|e].
      * left. apply span_covers; [exact B|]. exact (proj1 D).
      * left. apply span_covers; [exact B|]. exact (proj1 D).
      * destruct D as (s & sp & R & _ & _ & V). destruct (verbatim_dec (sa_val s)) as [VB|VB]; [|right; right; exists m, s, e; auto].
        left. apply span_covers; [exact B|]. destruct (V VB) as (pre & x & y & z & post & E1 & E2 & E3 & _). cbn [ide_diag semver_diag g_span]. rewrite E3, E2, E1.
        split; [exists (pre ++ x), (y ++ z ++ post); rewrite <- !app_assoc; auto|].
        split; [exists (pre ++ x ++ y), (z ++ post); rewrite <- !app_assoc; auto|]. cbn [s_start s_end]. rewrite app_assoc. apply pos_le_app.
Qed.

(** ** Examples *)

(** A diagnostic may end past the last line: here the warning about the key [a]
    in a buffer of one line. *)
Theorem C66_past_end_refuted : exists r, check_toml Debug [bs "a = '''x"] = Ok r /\
  exists d, v_warnings r = [d] /\ v_end_lnum d = 1 /\ ~ in_buffer [bs "a = '''x"] (v_end_lnum d) (v_end_col d).
Proof.
  eexists. split; [vm_compute; reflexivity|]. eexists. split; [reflexivity|]. split; [reflexivity|].
  intros (line & x & y & H & _). vm_compute in H. discriminate.
Qed.
Example C66_example : exists r e w, check_toml Debug [bs "[dependencies]"; bs "a = '1.x.2'"; bs "b = { path = 'x', foo = 1 }"] = Ok r /\ v_errors r = [e] /\ v_warnings r = [w] /\
  e = mkvim 1 1 9 10 (bs "unexpected character `2` after wildcard minor version number") /\
  w = mkvim 2 2 18 25 (bs "unknown key `dependencies.b.foo` is ignored").
Proof. do 3 eexists. split; [vm_compute; reflexivity|]. split; [reflexivity|]. split; [reflexivity|]. split; vm_compute; reflexivity. Qed.

Print Assumptions C66_same_diagnostics.
Print Assumptions C66_places.
Print Assumptions C66_past_end_refuted.
