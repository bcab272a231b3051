(** C70, continued: messages about conflicting keys, versions, manifests. *)
From Verif Require Import Base BaseProofs CommonModel CommonSpec CommonProofs TomlError LitModel LexModel ParseModel MapModel MapSpec IdeModel IdeSpec DisplayModel DiagModel MsgSpec MsgSpec2 PropMsg PropParse PropMap IdeProofs PropIde.
From Verif Require SemverModel SemverSpec PropSemver SemverErr.

(** ** Keys that conflict *)
Lemma map_error_says d e : map_err_ok d e -> key_message d (toml_diag e).
Proof.
  intros (place & pre1 & i1 & k1 & pre2 & i2 & k2 & x & B & P1 & P2 & (BX & PX & R) & H).
  destruct e; try contradiction; cbn [reason] in R; destruct H as ((L & SH & ->) & O);
    unfold toml_diag; cbn [err_span err_hint err_lines option_map toml_description toml_annotation toml_hint_text];
    eapply key_msg; try eassumption.
  - subst. apply kt_duplicate.
  - destruct R as (v & G & T). eapply kt_inline_table; eassumption.
  - destruct R as ((v & G & T) & A). eapply kt_inline_array; eassumption.
  - destruct R as (v & G & T). eapply kt_array_as_table; eassumption.
  - destruct R as ((t & T) & A). eapply kt_table_dotted; eassumption.
  - destruct R as (T & A). eapply kt_array_dotted; eassumption.
Qed.
(** Every conflict that is reported is one between two keys of the document,
    and the message is right about it. *)
Theorem C70_key_messages input a es m es' e : lex_and_parse input = Ok (a, es) -> map_doc (as_asts a) = Ok (m, es') -> In e es' ->
  key_message (doc_spellings (as_asts a)) (toml_diag e).
Proof. intros E M I0. apply map_error_says. exact (proj1 (Forall_forall _ _) (C53_messages _ _ _ _ _ E M) _ I0). Qed.
Example C70_key_example : exists a m e, lex_and_parse (bs "a = {}
[a.b]") = Ok (a, []) /\ map_doc (as_asts a) = Ok (m, [e]) /\ g_description (toml_diag e) = bs "cannot extend inline table `a`" /\ g_lines (toml_diag e) = [].
Proof. eexists _, _, _. split; [vm_compute; reflexivity|]. split; [vm_compute; reflexivity|]. split; [vm_compute; reflexivity|vm_compute; reflexivity]. Qed.

(** ** Versions and requirements *)
Lemma chars_of_utf8 cs : Forall (fun c => is_scalar c = true) cs -> chars_of (utf8 cs) = cs.
Proof.
  unfold chars_of. assert (G : forall n, Forall (fun c => is_scalar c = true) cs -> (length (utf8 cs) <= n)%nat -> chars_fuel n (utf8 cs) = cs).
  { induction cs as [|c r IH]; intros n F L; [destruct n; reflexivity|].
    pose proof (Forall_inv F) as F1. pose proof (Forall_inv_tail F) as F2. change (utf8 (c :: r)) with (utf8_char c ++ utf8 r) in L |- *.
    pose proof (utf8_char_len c) as LC. unfold blen in LC. rewrite app_length in L. 
    destruct n as [|n].
    - exfalso. assert (1 <= len_utf8 c) by (unfold len_utf8; repeat (destruct (_ <? _); try lia)). lia.
    - cbn [chars_fuel]. rewrite utf8_first_char by exact F1.
      assert (1 <= len_utf8 c) by (unfold len_utf8; repeat (destruct (_ <? _); try lia)).
      replace (N.to_nat (len_utf8 c)) with (length (utf8_char c)) by lia. rewrite skipn_app, skipn_all, Nat.sub_diag. cbn [skipn app]. f_equal. apply IH; [exact F2|lia]. }
  intros F. apply G; [exact F|lia].
Qed.
Import SemverModel SemverSpec.
Lemma num_name f : num_field_text f = number_name f.
Proof. destruct f; reflexivity. Qed.
Lemma ident_name f : ident_field_text f = exchanged_name f.
Proof. destruct f; reflexivity. Qed.
Lemma wl_code w : q [wl_byte w] = code [wl_byte w].
Proof. destruct w; reflexivity. Qed.
Lemma wl_wildcard w : wildcard (wl_byte w).
Proof. destruct w; unfold wildcard; cbn; auto. Qed.
Lemma version_error_says e a b c : valid_utf8 b -> error_says e a b c -> version_message a b c (semver_description e) (semver_annotation e).
Proof.
  intros (cs & F & EB) H. destruct e; cbn [error_says] in H; cbn [semver_description semver_annotation]; rewrite <- ?code_char, ?num_name, ?ident_name.
  - destruct H as (-> & H1 & H2 & H3 & H4). unfold trailing_text. rewrite EB, chars_of_utf8 by exact F. rewrite <- code_text, <- EB.
    eapply vm_trailing; try eassumption; [|reflexivity]. destruct f as [[]|]; cbn; auto.
  - destruct H as (H1 & H2 & H3). apply vm_missing; assumption.
  - destruct H as (H1 & H2 & H3). apply vm_zero; assumption.
  - destruct H as (H1 & H2 & H3). apply vm_char; assumption.
  - destruct H as (H1 & H2 & H3 & H4). apply vm_overflow; assumption.
  - destruct H as (H1 & H2 & H3). apply vm_dot; assumption.
  - destruct H as (H1 & H2 & H3). apply vm_missing_dot; assumption.
  - destruct H as (H1 & H2 & H3 & H4). apply vm_empty; assumption.
  - destruct H as (H1 & H2 & H3). apply vm_empty_segment; assumption.
  - destruct H as (H1 & -> & H3 & ds & r & H4 & H5 & H6 & H7). eapply vm_zero_segment; eassumption.
  - destruct H as (H1 & H2 & H3 & H4). apply vm_op; assumption.
  - destruct H as (H1 & H2 & H3 & H4). apply vm_comma; assumption.
  - destruct H as (H1 & H2). apply vm_trailing_comma; assumption.
  - destruct H as (H1 & H2). rewrite wl_code. apply vm_wildcard; [apply wl_wildcard|assumption|assumption].
  - destruct H as (H1 & H2 & H3). apply vm_excessive; assumption.
  - destruct H as (H1 & H2 & H3). apply vm_empty_req; assumption.
  - destruct H as (H1 & H2). destruct f.
    + destruct H2 as ((w & W & E) & N1 & N2). eapply vm_after_wildcard; eassumption.
    + destruct H2 as ((w & a' & W & E) & IF & N1). eapply (vm_after_wildcard_dot a b c _ w a' FMinor); try eassumption; discriminate.
    + destruct H2 as ((w & a' & W & E) & IF & N1). eapply (vm_after_wildcard_dot a b c _ w a' FPatch); try eassumption; discriminate.
Qed.
Lemma marked_says p s e : error_marks p s e -> version_says p s (semver_diag e).
Proof.
  intros (a & b & c & -> & V1 & V2 & V3 & SP & SA). unfold semver_diag. rewrite SP. eapply vs; try eassumption; [reflexivity|]. apply version_error_says; assumption.
Qed.
(** The message of every error in a version or a requirement is right about
    the text that it marks. *)
Theorem C70_version_messages prof p s e : valid_utf8 s -> parse_version prof s p = Err e \/ parse_requirement prof s p = Err e ->
  version_says p s (semver_diag e).
Proof.
  intros V0 [E|E]; apply marked_says; [eapply PropSemver.C15_version_errors_say|eapply PropSemver.C15_requirement_errors_say]; eassumption.
Qed.
Example C70_version_example : parse_requirement Debug (bs "1.02") (mkpos 3 5) = Err (LeadingZeroNum FMinor (mkpos 3 7)) /\
  semver_description (LeadingZeroNum FMinor (mkpos 3 7)) = bs "invalid leading zero in minor version number".
Proof. split; reflexivity. Qed.
(** The names of the pre-release and of the build metadata are exchanged. *)
Theorem C70_names_refuted : exists e, parse_version Debug (bs "1.0.0-") (mkpos 0 0) = Err e /\
  semver_description e = bs "emtpy build-metadata".
Proof. eexists. split; reflexivity. Qed.

(** ** Manifests *)
Lemma kind_datatype x : datatype_of x <> DtInvalid -> kind_name x = Some (datatype_text (datatype_of x)).
Proof. destruct x as [| | |[]]; intros H; try reflexivity. contradiction H. reflexivity. Qed.
Lemma datatype_inj a b : datatype_text a = datatype_text b -> a = b.
Proof. destruct a, b; intros H; reflexivity || discriminate H. Qed.
Lemma type_says root p want d : wanted root p (datatype_text want) -> type_problem root p want d -> manifest_says root (ide_diag d).
Proof.
  intros W (x & n & ls & sp & tx & N1 & N2 & N3 & M & SH & ->). cbn [ide_diag cargo_error_description cargo_error_annotation]. rewrite <- code_text.
  eapply ms_type; try eassumption; [apply kind_datatype; exact N3|intros H; apply N2, datatype_inj, H|exists n; exact M].
Qed.
Lemma old_says root p old new d : old_name root p old new -> code (bs old) = q (bs old) -> code (bs new) = q (bs new) -> old_problem root p old new d -> manifest_says root (ide_diag d).
Proof.
  intros O C1 C2 (n & ls & sp & tx & M & SH & H).
  assert (T : in_table p match tx with [] => [] | _ :: _ => q (fmt_str tx) ++ bs ": " end).
  { destruct SH as [(-> & ->)|SH]; [apply it_root; reflexivity|]. assert (tx <> []).
    { clear - SH. destruct SH as [k t K|p b k t B K|p b i B].
      - destruct K as [k (B & _)|k B]; [exact B|discriminate].
      - destruct b; discriminate.
      - destruct b; discriminate. }
    destruct tx; [contradiction|]. apply (it_table p (n0 :: tx)). exact SH. }
  destruct H as [(N & ->)|(e & r & rs & nsp & E1 & E2 & E3 & ->)]; cbn [ide_diag cargo_warning_description cargo_warning_annotation cargo_hint]; rewrite <- C1, <- C2.
  - eapply ms_old; try eassumption. exists n; exact M.
  - eapply ms_redundant; try eassumption. exists n; exact M.
Qed.
Lemma unknown_says root p k d : unknown_key root p k -> unknown_problem root (p ++ [SKey k]) d -> manifest_says root (ide_diag d).
Proof.
  intros U (n & ls & sp & tx & M & SH & ->). cbn [ide_diag cargo_warning_description cargo_warning_annotation cargo_hint]. rewrite <- code_text.
  eapply ms_unknown; try eassumption. exists n; exact M.
Qed.
Lemma typed_wanted root p k want : any_dep root p -> In (k, want) typed_keys -> wanted root (p ++ [at_key k]) (datatype_text want).
Proof.
  intros A H. assert (E : exists w, datatype_text want = bs w /\ 
    In (k, w) [("version", "string"); ("registry", "string"); ("path", "string"); ("git", "string"); ("branch", "string"); ("tag", "string");
               ("rev", "string"); ("package", "string"); ("workspace", "bool"); ("optional", "bool"); ("default-features", "bool"); ("features", "array")]%string).
  { cbn [typed_keys source_keys ref_keys map app] in H. repeat (destruct H as [H|H]; [injection H as <- <-; eexists; split; [reflexivity|cbn; tauto]|]). destruct H. }
  destruct E as (w & -> & I0). apply w_dep; assumption.
Qed.
Lemma source_says root p t d : any_dep root p -> node_at p root = Some (NTable t) -> source_problem root p t d -> manifest_says root (ide_diag d).
Proof.
  intros A N H. destruct H as [w ls sp tx B F M SH|w k wls wsp ls sp tx B F K S0 WM M SH|k ls sp tx B G R K M SH|k ls sp tx B G R NR K M SH|k ls sp tx B G NC C K S0 M SH|k ls sp tx B G K S0 M SH|n ls sp tx B G P V0 M SH];
    cbn [ide_diag cargo_error_description cargo_error_annotation cargo_warning_description cargo_warning_annotation cargo_hint]; rewrite <- ?code_text.
  - eapply ms_workspace_false; eassumption.
  - eapply ms_workspace_key; eassumption.
  - eapply (ms_git_registry root p t k "registry"); try eassumption. left; reflexivity.
  - eapply (ms_git_registry root p t k "path"); try eassumption. right; reflexivity.
  - assert (E : exists k', In k' ref_keys /\ k <> k' /\ str_field t k' <> None).
    { inversion C as [| | | |a b I0 S1 S2]; subst.
      assert (AB : In a ref_keys /\ In b ref_keys /\ a <> b).
      { clear - I0. destruct I0 as [X|[X|[X|[]]]]; injection X as <- <-; (split; [cbn; auto|split; [cbn; auto|discriminate]]). }
      destruct AB as (A1 & A2 & A3). destruct (string_dec k a) as [->|NE]; [exists b|exists a]; (split; [|split]); assumption. }
    destruct E as (k' & K' & NE & S1). refine (ms_refs root p t k k' ls sp tx _ _ _ _ _ _ _ _ _ _); eassumption.
  - assert (Q : q (bs k) = code (bs k)) by (destruct K as [<-|[<-|[<-|[]]]]; reflexivity). rewrite Q. eapply ms_no_git; eassumption.
  - eapply ms_missing; try eassumption. exists n; exact M.
Qed.
Lemma dep_says prof root p d : (forall s, any_reads root s -> valid_utf8 (utf8 (sv_text (sa_val s)))) ->
  (forall v, node_at p root = Some (NScalar v) -> leaf v) ->
  any_dep root p -> dep_problem prof root p d -> manifest_says root (ide_diag d).
Proof.
  intros U LF A H. destruct H as [v ls sp tx N N1 N2 M SH|x n ls sp tx N N1 M SH|k want d K T|d N T|d O|k d K U0|parent v es i x r s ls tx N E N1 N2 D L SH|es n ls sp tx N M SH|t d N S0|s e R Q].
  - cbn [ide_diag cargo_error_description cargo_error_annotation]. rewrite <- code_text.
    eapply (ms_dep root p (NScalar v)); try eassumption; [apply kind_datatype; exact N2| | |exists 0; exact M].
    + intros X. apply N1. apply datatype_inj. exact X.
    + intros X. assert (Y : datatype_of (NScalar v) = DtTable) by (apply datatype_inj; exact X). destruct v; try discriminate Y. exact (LF _ N).
  - cbn [ide_diag cargo_error_description cargo_error_annotation]. rewrite <- code_text.
    eapply (ms_dep root p x); try eassumption; [|discriminate|discriminate|exists n; exact M]. rewrite kind_datatype by congruence. rewrite N1. reflexivity.
  - eapply type_says; [|exact T]. apply typed_wanted; assumption.
  - eapply type_says; [|exact T]. apply w_old; assumption.
  - eapply old_says; [apply on_default; exact A|reflexivity|reflexivity|exact O].
  - eapply unknown_says; [apply uk_dep; eassumption|exact U0].
  - cbn [ide_diag cargo_error_description cargo_error_annotation]. rewrite <- code_text.
    eapply ms_feature; try eassumption; [apply kind_datatype; exact N2|]. intros X. apply N1, datatype_inj, X.
  - cbn [ide_diag cargo_error_description cargo_error_annotation]. rewrite <- code_text. eapply ms_feature_tables; eassumption.
  - eapply source_says; eassumption.
  - destruct Q as (sp & T & P). cbn [ide_diag]. eapply ms_version; [exists p; split; eassumption|exact T|]. eapply C70_version_messages; [|right; exact P].
    apply U. exists p. split; assumption.
Qed.
(** Every diagnostic of a manifest: what it says is so, and it names the place
    that it marks. *)
Theorem C70_manifest_messages prof input m deps ds d : scalars input -> manifest input m -> check prof m = Ok (deps, ds) -> In d ds ->
  manifest_says (NTable m) (ide_diag d).
Proof.
  intros SC M E I0. apply (C55_exact_diagnostics prof input m deps ds M E) in I0.
  destruct I0 as [p d A H|kind t b s d B SE T|t b d B O|t b d B O|d T|t d T|k d K U|t k d K U].
  - eapply (dep_says prof _ p); [| |exact A|exact H].
    + intros s (p0 & A0 & R). eapply literal_utf8; [exact SC|]. eapply reads_literal; eassumption.
    + intros v N. apply (lit_leaf input). pose proof (nice_at _ _ _ _ _ N (manifest_nice _ _ M)) as L. exact L.
  - eapply type_says; [|exact T]. eapply w_section; eassumption.
  - eapply old_says; [eapply on_dev; exact B|reflexivity|reflexivity|exact O].
  - eapply old_says; [eapply on_build; exact B|reflexivity|reflexivity|exact O].
  - eapply type_says; [|exact T]. apply w_targets.
  - eapply type_says; [|exact T]. apply w_target.
  - eapply (unknown_says _ []); [apply uk_manifest; exact K|exact U].
  - eapply (unknown_says _ [at_key "target"; SKey t]); [apply uk_target; exact K|exact U].
Qed.
Example C70_manifest_example : exists m deps d, manifest (bs "dependencies.a = 1") m /\ check Debug m = Ok (deps, [d]) /\
  g_description (ide_diag d) = bs "expected `dependencies.a` to be of type string or table, found int".
Proof.
  eexists _, _, _. split; [|split].
  - eexists _, _, _. split; [vm_compute; reflexivity|vm_compute; reflexivity].
  - vm_compute; reflexivity.
  - vm_compute; reflexivity.
Qed.
Print Assumptions C70_key_messages.
Print Assumptions C70_version_messages.
Print Assumptions C70_names_refuted.
Print Assumptions C70_manifest_messages.
