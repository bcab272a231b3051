(** Places of the diagnostics of a manifest (C60). *)
From Verif Require Import Base BaseProofs CommonModel CommonSpec TomlError LitModel LexModel LexSpec LexBase LexIllegal ParseModel ParseSpec ParsePlace ParseItems
  ParseMarks ParseOrder LexProps PropParse MapModel MapSpec MapWf MapPlace MapNice PropMap PropOrder IdeModel IdeSpec IdeProofs PropIde DisplayModel DiagModel CliSpec.
From Verif Require SemverModel SemverSpec PropSemver IndexProofs.

(** ** Elements of arrays *)
Lemma order_last input lo r e hi f : in_order input lo (r ++ [e]) hi -> In f (r ++ [e]) -> pos_le (s_end f) (s_end e).
Proof.
  intros O M. apply in_order_app in O. destruct O as (mid & A & B & SE & _). apply in_app_or in M. destruct M as [M|[->|[]]]; [|left; reflexivity].
  destruct (in_order_in _ _ _ M _ _ A) as (_ & _ & C). eapply pos_le_trans; [exact C|]. eapply pos_le_trans; [exact B|exact (proj2 (proj2 SE))].
Qed.
Lemma av_place input lo v hi : in_order input lo (av_marks v) hi -> span_in input (av_span v).
Proof.
  intros O. unfold av_span.
  assert (ST : exists f, In f (av_marks v) /\ ((span_in input f -> pos_in input (val_start (av_val v))) /\ (span_in input f -> pos_le (val_start (av_val v)) (s_end f)))).
  { unfold av_marks. destruct (av_val v) as [l s t o q|l s z|l s f|s b|l s d|p l e|r p l e|l s]; cbn [value_marks app val_start]; (eexists; split; [left; reflexivity|]; split;
      intros (A & B & C); cbn in *; auto). all: left; reflexivity. }
  assert (EN : exists r e, av_marks v = r ++ [e] /\ s_end e = av_end v).
  { unfold av_marks, av_end. destruct (av_comma v) as [c|]; cbn [comma_marks].
    - eexists _, _. split; reflexivity.
    - rewrite app_nil_r. destruct (value_end_mark (av_val v)) as (r & e & E & S0). exists r, e. auto. }
  destruct ST as (f & IF & S1 & S2). destruct EN as (r & e & E & SE). rewrite E in *.
  destruct (in_order_in _ _ _ IF _ _ O) as (_ & F & _).
  assert (IE : In e (r ++ [e])) by (apply in_or_app; right; left; reflexivity). destruct (in_order_in _ _ _ IE _ _ O) as (_ & F' & _).
  split; [exact (S1 F)|]. cbn [s_end s_start]. rewrite <- SE. split; [exact (proj1 (proj2 F'))|]. eapply pos_le_trans; [exact (S2 F)|]. eapply order_last; eassumption.
Qed.
Definition any_value (v : value) : Prop := True.
Definition av_in (input : list N) (x : avalue) : Prop := span_in input (av_span x).
Lemma value_elems input v : forall lo hi, in_order input lo (value_marks v) hi -> leaves any_value (av_in input) v.
Proof.
  induction v as [lp l e IH|cr lp l e IH|v SC] using value_ind2; intros lo hi O; cbn [leaves].
  - rewrite All_Forall. apply Forall_forall. intros x A.
    destruct (in_order_part input _ _ _ (ia_marks x) (within_trans _ _ _ (within_flat ia_marks l x A) (within_r _ _ [span_ascii_char lp] (within_l _ _ [end_mark e] (within_refl _)))) O)
      as (lo' & hi' & _ & O').
    unfold ia_marks in O'. apply in_order_app in O'. destruct O' as (mid & _ & O'). destruct O' as (_ & _ & O'). cbn [app] in O'. apply in_order_app in O'.
    destruct O' as (m' & OV & _). exact (proj1 (Forall_forall _ _) IH x A _ _ OV).
  - rewrite All_Forall. apply Forall_forall. intros x A.
    destruct (in_order_part input _ _ _ (av_marks x) (within_trans _ _ _ (within_flat av_marks l x A) (within_r _ _ [span_ascii_char lp] (within_l _ _ [end_mark e] (within_refl _)))) O)
      as (lo' & hi' & _ & O'). split; [exact (av_place _ _ _ _ O')|].
    unfold av_marks in O'. apply in_order_app in O'. destruct O' as (mid & OV & _). exact (proj1 (Forall_forall _ _) IH x A _ _ OV).
  - destruct v; try contradiction; exact I.
Qed.
Lemma assign_elems input lo x hi : in_order input lo (assign_marks x) hi -> tassign_leaves any_value (av_in input) x.
Proof.
  intros O. unfold assign_marks in O. apply in_order_app in O. destruct O as (mid & _ & _ & _ & OV). exact (value_elems _ _ _ _ OV).
Qed.
Lemma assigns_elems input lo l hi : in_order input lo (flat_map assign_marks l) hi -> Forall (tassign_leaves any_value (av_in input)) l.
Proof.
  intros O. apply Forall_forall. intros x A. destruct (in_order_part input _ _ _ (assign_marks x) (within_flat assign_marks l x A) O) as (lo' & hi' & _ & O').
  exact (assign_elems _ _ _ _ O').
Qed.
Lemma doc_elems input lo l hi : in_order input lo (doc_marks l) hi -> Forall (ast_leaves any_value (av_in input)) l.
Proof.
  intros O. apply Forall_forall. intros x A. destruct (in_order_part input _ _ _ (ast_marks x) (within_flat ast_marks l x A) O) as (lo' & hi' & _ & O').
  destruct x as [x|t|t|c]; cbn [ast_leaves ast_marks] in *.
  - exact (assign_elems _ _ _ _ O').
  - apply in_order_app in O'. destruct O' as (mid & _ & O'). exact (assigns_elems _ _ _ _ O').
  - apply in_order_app in O'. destruct O' as (mid & _ & O'). exact (assigns_elems _ _ _ _ O').
  - exact I.
Qed.

(** ** Requirements *)
Lemma tlen_utf8 s : blen (utf8 s) = tlen s.
Proof. induction s as [|c s IH]; [reflexivity|]. cbn [utf8 flat_map tlen]. rewrite blen_app, utf8_char_len. unfold utf8 in IH. rewrite IH. reflexivity. Qed.
Lemma no_lf_part (x y z : list N) : ~ In 10 (x ++ y ++ z) -> ~ In 10 x /\ ~ In 10 (x ++ y).
Proof. rewrite !in_app_iff. tauto. Qed.
Lemma verbatim_place input s sp e : scalars input -> literal_of input s -> string_shape (sv_quote s) (sv_off s) (sr_text (sv_lit s)) ->
  text_span s = Ok sp -> verbatim s -> SemverSpec.error_marks (s_start sp) (utf8 (sv_text s)) e -> marks_part input (sv_text s) e.
Proof.
  intros SC (P & TF) SH T (VB & NL) (x & y & z & E & VX & VY & VZ & EP & SAY). destruct P as (pa & pb & EI & _ & SP).
  unfold text_span in T. rewrite SP in T.
  assert (ND : ~ In 10 (delims (sv_quote s))) by (destruct (sv_quote s); cbn; lia).
  assert (TD : tlen (delims (sv_quote s)) = quote_len (sv_quote s)) by (destruct (sv_quote s); reflexivity).
  assert (ST : s_start sp = pos_at (pa ++ delims (sv_quote s))).
  { destruct SH as (trim & b & en & E1 & TR & _ & _ & _ & OFF).
    assert (trim = []) as ->.
    { destruct TR as [TR|[_ TR]]; [exact TR|]. exfalso. assert (X : In 10 (sr_text (sv_lit s))).
      { rewrite E1, !in_app_iff. right. left. destruct TR as [-> | ->]; cbn; tauto. }
      rewrite VB, !in_app_iff in X. tauto. }
    cbv iota in OFF. rewrite OFF in T. unfold apply_to in T.
    destruct (usub _ _) as [l|[]|] in T; [|discriminate]. cbn [bind] in T. destruct (usub _ _) as [l'|[]|] in T; [|discriminate]. cbn [bind] in T.
    injection T as <-. cbn [s_start]. rewrite pos_at_no_lf by exact ND. cbn [to_start_line to_start_char s_start]. rewrite N.add_0_r, TD. reflexivity. }
  destruct VX as (tx & SX & ->), VY as (ty & SY & ->), VZ as (tz & SZ & ->).
  assert (SS : Forall (fun c => is_scalar c = true) (sv_text s)).
  { revert TF. unfold text_from. apply Forall_impl. intros c [H|H]; [|exact H]. unfold scalars in SC. rewrite EI in SC. rewrite Forall_forall in SC. apply SC. rewrite !in_app_iff. auto. }
  assert (TX : sv_text s = tx ++ ty ++ tz).
  { destruct (IndexProofs.utf8_inj tx (sv_text s) SX SS (utf8 ty ++ utf8 tz)) as (r & E1 & E2); [symmetry; exact E|].
    rewrite E1 in SS. apply Forall_app in SS. destruct SS as [_ SS].
    destruct (IndexProofs.utf8_inj ty r SY SS (utf8 tz) E2) as (r2 & E3 & E4). rewrite E3 in SS. apply Forall_app in SS. destruct SS as [_ SS].
    destruct (IndexProofs.utf8_inj tz r2 SZ SS []) as (r3 & E5 & E6); [rewrite app_nil_r; exact E4|]. destruct r3 as [|c r3]; [rewrite app_nil_r in E5; congruence|].
    exfalso. pose proof (tlen_utf8 (c :: r3)) as L. rewrite <- E6 in L. cbn [tlen] in L. pose proof (len_pos c). rewrite blen_nil in L. lia. }
  rewrite TX in NL. destruct (no_lf_part _ _ _ NL) as [N1 N2].
  exists (pa ++ delims (sv_quote s)), tx, ty, tz, (delims (sv_quote s) ++ pb). split; [exact TX|]. split; [rewrite EI, VB, <- !app_assoc; reflexivity|].
  split; [|exact SAY]. rewrite EP, ST, !tlen_utf8, <- tlen_app. rewrite !(pos_at_no_lf (pa ++ delims (sv_quote s))) by assumption. reflexivity.
Qed.

Section Place.
Context (input : list N) (a : asts) (es : list terror) (m : mtable) (es' : list terror).
Hypothesis PARSE : lex_and_parse input = Ok (a, es).
Hypothesis MAP : map_doc (as_asts a) = Ok (m, es').

Lemma kind_end l s sp i q lo hi : in_order input lo (doc_marks l) hi -> In s (doc_spellings l) -> kind_span (snd s) = Ok sp -> fst s = q ++ [i] ->
  pos_le (lit_end i) (s_end sp).
Proof.
  intros O H K Q. destruct (proj1 (Forall_forall _ _) (doc_spellings_ok l) s H) as (W & q' & i' & k & Q' & KK & I0).
  rewrite Q in Q'. apply snoc_eq in Q' as [<- <-]. destruct (in_order_part input _ _ _ _ W O) as (lo' & hi' & _ & O').
  destruct (kind_span_marks _ _ _ KK K) as (x & e & F & L & ->). cbn [s_end].
  pose proof (kind_key_marks _ _ _ KK I0) as M. destruct L as (r & L). rewrite L in M, O'.
  apply in_order_app in O'. destruct O' as (mid & A & B & SE & _). apply in_app_or in M. destruct M as [M|[->|[]]]; [|left; reflexivity].
  destruct (in_order_in _ _ _ M _ _ A) as (_ & _ & C). cbn [ident_mark s_end] in C. eapply pos_le_trans; [exact C|]. eapply pos_le_trans; [exact B|exact (proj2 (proj2 SE))].
Qed.

Lemma definition_spelled p n r s : definition (NTable m) p n r s -> In (s, r_kind r) (doc_spellings (as_asts a)).
Proof.
  intros (rs & acc & x & T & N0 & TR). destruct (C35_references _ _ _ _ _ PARSE MAP _ _ _ T) as [[_ R] _].
  destruct (R _ _ N0) as (s' & T' & _ & I0). rewrite (traced_fun _ _ _ _ TR T'). exact I0.
Qed.
Lemma spelled_lines s k ls : In (s, k) (doc_spellings (as_asts a)) -> forall pre, (forall i, In i pre -> In i s) -> lines_ok pre [] ls -> lines_in input ls.
Proof.
  intros I0 pre P (INC & LS). split; [exact INC|]. apply Forall_forall. intros n N0. apply LS in N0. destruct N0 as (i & I1 & <-). rewrite app_nil_r in I1.
  exists (id_start i). split; [|reflexivity]. exact (proj1 (ident_in input _ _ _ _ _ (C59_document_order _ _ _ PARSE) I0 (P _ I1))).
Qed.
Lemma marks_place p n ls sp : marks (NTable m) p n ls sp -> span_in input sp /\ lines_in input ls.
Proof.
  intros (r & pre & i & ksp & D & L & K & ->). pose proof (definition_spelled _ _ _ _ D) as I0.
  pose proof (C59_document_order _ _ _ PARSE) as O. split.
  - destruct (kind_place input _ _ _ i pre _ _ O I0 K eq_refl) as ((_ & E & _) & _). pose proof (kind_end _ _ _ i pre _ _ O I0 K eq_refl) as LE.
    destruct (ident_in input _ _ i _ _ O I0) as (S1 & S2 & S3); [apply in_or_app; right; left; reflexivity|].
    split; [exact S1|]. split; [exact E|]. cbn [s_start s_end]. eapply pos_le_trans; [exact S3|exact LE].
  - eapply spelled_lines; [exact I0| |exact L]. intros j J. apply in_or_app. left. exact J.
Qed.
Lemma entry_repr p e r rs : p <> [] -> entry_at p (NTable m) = Some e -> e_reprs e = r :: rs ->
  exists s, In (s, r_kind r) (doc_spellings (as_asts a)) /\ s <> [].
Proof.
  intros NE E R. assert (T : exists acc, trail [] p (NTable m) = Some (e_reprs e :: acc, e_node e)).
  { clear R r rs MAP. generalize (@nil (list mrepr)). revert E. generalize (NTable m). clear PARSE. induction p as [|s p IH]; [congruence|]. intros nd E acc.
    destruct s as [k|i].
    - destruct nd as [t| | |]; [|destruct p; discriminate|destruct p; discriminate|destruct p; discriminate]. cbn [entry_at trail] in *. destruct p as [|s p].
      + rewrite E. exists acc. reflexivity.
      + destruct (tget t k) as [e0|]; [|discriminate]. apply IH; [discriminate|exact E].
    - destruct nd as [| ps|pa v ps|]; cbn [entry_at trail] in *; try (destruct p; discriminate); (destruct (nth_error ps (N.to_nat i)) as [e0|]; [|discriminate]);
        (destruct p as [|s p]; [destruct (ie_node e0) || idtac; cbn in E; try discriminate|apply IH; [discriminate|exact E]]). }
  destruct T as (acc & T). destruct (C35_references _ _ _ _ _ PARSE MAP _ _ _ T) as [[_ RF] _]. destruct (RF 0 r) as (s & TR & _ & I0); [rewrite R; reflexivity|].
  exists s. split; [exact I0|]. inversion TR. destruct s0; discriminate.
Qed.

Lemma manifest_of : manifest input m.
Proof. exists a, es, es'. split; assumption. Qed.
Lemma elems_in : nice any_value (av_in input) (NTable m).
Proof. apply (map_doc_nice _ _ _ _ _ MAP). exact (doc_elems _ _ _ _ (C59_document_order _ _ _ PARSE)). Qed.
Definition other_place (d : diag) : Prop :=
  match d with
  | DError ls _ sp _ => span_in input sp /\ lines_in input ls
  | DWarn ls _ sp k => span_in input sp /\ lines_in input ls /\ forall h, cargo_hint k = Some h -> span_in input (h_span h)
  | DSemver e => False
  end.
Lemma type_place p want d : type_problem (NTable m) p want d -> other_place d.
Proof. intros (x & n & ls & sp & tx & _ & _ & _ & M & _ & ->). exact (marks_place _ _ _ _ M). Qed.
Lemma unknown_place p d : unknown_problem (NTable m) p d -> other_place d.
Proof. intros (n & ls & sp & tx & M & _ & ->). destruct (marks_place _ _ _ _ M) as [A B]. split; [assumption|]. split; [assumption|]. intros h H0. discriminate. Qed.
Lemma old_place p old new d : old_problem (NTable m) p old new d -> other_place d.
Proof.
  intros (n & ls & sp & tx & M & _ & D). destruct (marks_place _ _ _ _ M) as [A B]. destruct D as [(_ & ->)|(e & r & rs & nsp & E & R & K & ->)].
  - split; [assumption|]. split; [assumption|]. intros h H0. discriminate.
  - split; [assumption|]. split; [assumption|]. intros h H0. injection H0 as <-. cbn [h_span].
    assert (NP : p ++ [at_key new] <> []) by (intros X; apply app_eq_nil in X; destruct X as [_ X]; discriminate X).
    destruct (entry_repr _ _ _ _ NP E R) as (s & I0 & NE).
    destruct (exists_last NE) as (q & i & ->). exact (proj1 (kind_place input _ _ _ i q _ _ (C59_document_order _ _ _ PARSE) I0 K eq_refl)).
Qed.
Lemma source_place p t d : source_problem (NTable m) p t d -> other_place d.
Proof.
  intros S1. destruct S1 as [w ls sp tx _ _ M _|w k wls wsp ls sp tx _ _ _ _ M' M _|k ls sp tx _ _ _ _ M _|k ls sp tx _ _ _ _ _ M _|k ls sp tx _ _ _ _ _ _ M _|
    k ls sp tx _ _ _ _ M _|n ls sp tx _ _ _ _ M _]; pose proof (marks_place _ _ _ _ M) as P; cbn [other_place]; try exact P; destruct P as [A B];
    (split; [exact A|]; split; [exact B|]; intros h H0); [|discriminate]. injection H0 as <-. exact (proj1 (marks_place _ _ _ _ M')).
Qed.
Lemma reads_shape p s : reads (NTable m) p s -> string_shape (sv_quote (sa_val s)) (sv_off (sa_val s)) (sr_text (sv_lit (sa_val s))).
Proof.
  intros R. pose proof (manifest_nice _ _ manifest_of) as N0. destruct R as [l sp x o q r rs E|t s E _ _ V].
  - apply entry_at_node in E. pose proof (nice_at _ _ _ _ _ E N0) as L. cbn in L. exact (proj1 (proj2 L)).
  - pose proof (nice_at _ _ _ _ _ E N0) as L. unfold str_field in V. destruct (tget t (bs "version")) as [[n rs]|] eqn:G; [|discriminate].
    pose proof (nice_get _ _ _ _ _ L G) as L0. destruct n as [| | |[]]; try discriminate. destruct rs; [discriminate|]. injection V as <-.
    cbn in L0. exact (proj1 (proj2 L0)).
Qed.
Lemma dep_problem_place prof p d : scalars input -> any_dep (NTable m) p -> dep_problem prof (NTable m) p d -> diag_place (NTable m) input d.
Proof.
  intros SC AD D. assert (G : other_place d -> diag_place (NTable m) input d) by (destruct d; [exact (fun x => x)|exact (fun x => x)|intros []]).
  destruct D as [v ls sp tx _ _ _ M _|x n ls sp tx _ _ M _|k want d _ T|d _ T|d T|k d _ T|pa v es0 i x r s ls tx E N0 _ _ D L _|es0 n ls sp tx _ M _|t d _ T|s e R Q].
  - exact (marks_place _ _ _ _ M).
  - exact (marks_place _ _ _ _ M).
  - exact (G (type_place _ _ _ T)).
  - exact (G (type_place _ _ _ T)).
  - exact (G (old_place _ _ _ _ T)).
  - exact (G (unknown_place _ _ T)).
  - cbn [diag_place]. split.
    + pose proof (nice_at _ _ _ _ _ E elems_in) as NI. apply nice_inline in NI. rewrite Forall_forall in NI. exact (proj1 (NI _ (nth_error_In _ _ N0))).
    + eapply spelled_lines; [exact (definition_spelled _ _ _ _ D)| |exact L]. auto.
  - exact (marks_place _ _ _ _ M).
  - exact (G (source_place _ _ _ T)).
  - cbn [diag_place]. destruct Q as (sp & TS & PR). exists s, sp. split; [exists p; auto|]. split; [exact TS|].
    pose proof (reads_literal _ _ _ _ manifest_of R) as LI.
    pose proof (PropSemver.C15_requirement_errors_say _ _ _ _ (literal_utf8 _ _ SC LI) PR) as EM. split; [exact EM|].
    intros VB. exact (verbatim_place _ _ _ _ SC LI (reads_shape _ _ R) TS VB EM).
Qed.
Lemma problem_place prof d : scalars input -> problem prof (NTable m) d -> diag_place (NTable m) input d.
Proof.
  intros SC D. assert (G : other_place d -> diag_place (NTable m) input d) by (destruct d; [exact (fun x => x)|exact (fun x => x)|intros []]).
  destruct D as [p d A D|kind target b s d _ _ D|target b d _ D|target b d _ D|d D|t d D|k d _ D|t k d _ D].
  - exact (dep_problem_place _ _ _ SC A D).
  - exact (G (type_place _ _ _ D)).
  - exact (G (old_place _ _ _ _ D)).
  - exact (G (old_place _ _ _ _ D)).
  - exact (G (type_place _ _ _ D)).
  - exact (G (type_place _ _ _ D)).
  - exact (G (unknown_place _ _ D)).
  - exact (G (unknown_place _ _ D)).
Qed.
End Place.
