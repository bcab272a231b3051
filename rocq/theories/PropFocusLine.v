(** C84: a broken line in a section that is not about a key. *)
From Verif Require Import Base BaseProofs CommonModel TomlError MapModel MapSpec MapWf MapRel MapDecl MapExt MapNice PropParse PropMap IdeProofs PropIde MeanSpec MeanProofs PropPre MapFocus MeanList PropFocus LitModel LitSpec LexModel LexSpec LexBase LexMain LexTop LexPre ParseModel ParseSpec ParsePlace ParseItems ParseRoot ParseAssoc ParseHead ParseTop ParseCVal ParseCTop ParsePre OnLit OnParse ParseCGen OnLex LexLine PropLine AboutStmts.
From Verif Require CliModel PropCli.

(** The key of the header in whose section a document ends. *)
Fixpoint section_at (cur : option (list (list N))) (d : list stmt) : option (list (list N)) :=
  match d with
  | [] => cur
  | SAssign _ _ :: r => section_at cur r
  | ParseSpec.STable p :: r => section_at (Some p) r
  | ParseSpec.SArray p :: r => section_at (Some p) r
  end.

Lemma section_app d : forall c d', section_at c (d ++ d') = section_at (section_at c d) d'.
Proof. induction d as [|[p v|p|p] d IH]; intros c d'; [reflexivity|apply IH..]. Qed.
Lemma section_level p d : forall c l, section_at c d = Some p -> c = None \/ l = 1 -> level_after l d = 1.
Proof.
  induction d as [|[q v|q|q] d IH]; intros c l H K; cbn [section_at level_after] in *; [destruct K; congruence|exact (IH _ _ H K)|..]; exact (IH _ 1 H (or_intror eq_refl)).
Qed.
Lemma section_kept k d' d : forall c, stmts_about k (option_map (starts_with k) c) (d ++ d') = stmts_about k (option_map (starts_with k) c) d ++ stmts_about k (option_map (starts_with k) (section_at c d)) d'.
Proof.
  induction d as [|[p v|p|p] d IH]; intros c; [reflexivity|..]; cbn [app stmts_about section_at].
  - rewrite (IH c), app_assoc. destruct c; reflexivity.
  - specialize (IH (Some p)). cbn [option_map] in IH. rewrite IH, app_assoc. reflexivity.
  - specialize (IH (Some p)). cbn [option_map] in IH. rewrite IH, app_assoc. reflexivity.
Qed.
Lemma section_assigns l s c : map assign_of l = map Some s -> section_at c s = c.
Proof.
  revert s. induction l as [|a l IH]; intros [|x s] H; try discriminate; [reflexivity|]. cbn [map] in H. injection H as H1 H2. destruct (assign_top _ _ H1) as (v & ->). exact (IH _ H2).
Qed.
(** The last item, a header, is that of the section in which they end. *)
Lemma section_header k u h d : header_ast h = true -> flat (u ++ [h]) = map Some d -> exists p, section_at None d = Some p /\ names k h = starts_with k p.
Proof.
  intros HH E. rewrite flat_map_app in E. apply map_some_app in E. destruct E as (s1 & s2 & -> & _ & E). cbn [flat_map] in E. rewrite app_nil_r in E. rewrite section_app.
  destruct h as [a|t|t|c]; try discriminate.
  - cbn [ast_of] in E. destruct s2 as [|h ss]; [discriminate|]. cbn [map] in E. injection E as EH EA.
    destruct (th_key (tb_header t)) as [p|] eqn:TK; [|discriminate]. cbn [header_of] in EH. destruct (is_some (th_r_off (tb_header t))) eqn:IS; [|discriminate]. injection EH as <-.
    exists (key_path p). split; [exact (section_assigns _ _ _ EA)|]. apply names_key. cbn [top_key]. rewrite TK. reflexivity.
  - cbn [ast_of] in E. destruct s2 as [|h ss]; [discriminate|]. cbn [map] in E. injection E as EH EA.
    destruct (ah_key (ae_header t)) as [p|] eqn:TK; [|discriminate]. cbn [header_of] in EH. destruct (_ && _) eqn:IS in EH; [|discriminate]. injection EH as <-.
    exists (key_path p). split; [exact (section_assigns _ _ _ EA)|]. apply names_key. cbn [top_key]. rewrite TK. reflexivity.
Qed.
Lemma names_more k x x' : more_of x x' -> names k x' = names k x.
Proof. intros [a a' E|t t' l m E _ _|t t' l m E _ _|c]; unfold names; cbn [top_key]; rewrite ?E; reflexivity. Qed.
Lemma header_more x x' : more_of x x' -> header_ast x = true -> header_ast x' = true /\ exists more, ast_of x' = ast_of x ++ map assign_of more.
Proof.
  assert (AO : forall l l', map ta_assign l = map ta_assign l' -> map assign_of l = map assign_of l').
  { induction l as [|a l IH]; intros [|a' l'] H; try discriminate; [reflexivity|]. injection H as H1 H2. cbn [map]. rewrite (IH _ H2). f_equal. unfold assign_of. rewrite H1. reflexivity. }
  intros [a a' E|t t' l m E E2 E3|t t' l m E E2 E3|c] H; try discriminate; (split; [reflexivity|]); exists m; cbn [ast_of]; rewrite E, E2, map_app, (AO _ _ E3); reflexivity.
Qed.
Lemma late_rest new h l : header_ast h = true -> no_late (new ++ h :: l) -> no_assign (rev new).
Proof.
  intros H N. apply Forall_rev. revert N. induction new as [|x new IH]; intros N; constructor.
  - destruct x as [a|t|t|c]; try reflexivity. exfalso. cbn [app no_late] in N. unfold no_header in N. apply Forall_app in N. destruct N as [_ N]. pose proof (Forall_inv N) as N1. cbn in N1. congruence.
  - apply IH. exact (late_tail [x] _ N).
Qed.
Lemma map_some_split {A} (l : list A) a b : a ++ b = map Some l -> exists u w, l = u ++ w /\ a = map Some u /\ b = map Some w.
Proof. apply map_some_app. Qed.

(** The items about [k], when the text goes on below in a section that is not. *)
Lemma goes_about k l d1 d2 p : no_late (rev l) -> goes_on l d1 d2 -> section_at None d1 = Some p -> starts_with k p = false ->
  flat (about k l) = map Some (stmts_about k None (d1 ++ d2)).
Proof.
  intros NL (t & h & h' & h2 & rest & -> & HH & F1 & M1 & M2 & E) SA SW.
  destruct (section_header k _ _ _ HH F1) as (q & SA' & NK). rewrite SA in SA'. injection SA' as <-. rewrite SW in NK.
  assert (NK2 : names k h2 = false) by (rewrite (names_more _ _ _ M2), (names_more _ _ _ M1); exact NK).
  destruct (header_more _ _ M1 HH) as (HH' & _). destruct (header_more _ _ M2 HH') as (HH2 & more & E2).
  rewrite E2, <- app_assoc in E. apply app_inv_head in E. apply map_some_app in E. destruct E as (u & w & -> & EU & EW).
  rewrite rev_app_distr in NL. cbn [rev] in NL. rewrite rev_involutive, <- app_assoc in NL. cbn [app] in NL.
  pose proof (late_rest _ _ _ HH2 NL) as NA. rewrite rev_involutive in NA. apply late_tail in NL.
  assert (NT : no_late (h :: t)) by (destruct h2, h; try discriminate; exact NL).
  rewrite about_app. replace (about k (h2 :: rest)) with (about k rest) by (unfold about; cbn [filter]; rewrite NK2; reflexivity).
  assert (AT : flat (about k (rev t)) = map Some (stmts_about k None d1)).
  { rewrite <- (about_items k (rev t ++ [h]) d1).
    - rewrite about_app. unfold about at 3. cbn [filter]. rewrite NK, app_nil_r. reflexivity.
    - rewrite rev_app_distr, rev_involutive. exact NT.
    - exact F1. }
  rewrite flat_map_app, AT, (about_headers k _ NA _ (Some false) EW).
  pose proof (section_kept k (u ++ w) d1 None) as K. cbn [option_map] in K. rewrite K, SA. cbn [option_map]. rewrite SW, (about_body k false more u w EU). cbn [app]. rewrite map_app. reflexivity.
Qed.

(** A line without brackets, whatever stands on it, below a header that is not
    about [k]: the value of [k] is what the statements above and below say. *)
Theorem C84_broken_line k above d1 p line below d2 a es v :
  toml_doc above d1 -> complete_lines above -> section_at None d1 = Some p -> starts_with k p = false ->
  any_line line -> ~ In 91 line -> toml_doc below d2 -> nesting_ok 1 d2 ->
  lex_and_parse (above ++ (line ++ [10]) ++ below) = Ok (a, es) ->
  consistent (stmts_about k None (d1 ++ d2)) -> means (stmts_about k None (d1 ++ d2)) v ->
  exists m es', map_doc (as_asts a) = Ok (m, es') /\ forall q, sval_at (SKey k :: q) (CliModel.STable (CliModel.map_simple m)) = sval_at (SKey k :: q) v.
Proof.
  intros T1 CL SA SW AL NB T2 NE2 P CO ME. assert (G : goes_on (as_asts a) d1 d2).
  { destruct T1 as (ts1 & L1 & G1 & N1), AL as (NL & NT & LT & BR), T2 as (ts2 & (S2 & V2 & A2) & G2 & _). pose proof (lines_end _ _ L1 CL) as EL. destruct L1 as (S1 & V1 & A1).
    destruct (lex_line ts1 line ts2 V1 A1 EL NL NT V2 A2) as (tm & es1 & SM & SHM & AX & LX & ER1). destruct (line_last _ _ SM SHM NL NT) as (lt & brk & -> & LB & NLT).
    assert (SX : source (ts1 ++ (lt ++ [(XNewline, brk)]) ++ ts2) = above ++ (line ++ [10]) ++ below) by (rewrite source_app, (source_app (lt ++ _)), S1, SM, S2; reflexivity).
    rewrite S1, S2 in LX. pose proof SHM as SHL. apply Forall_app in SHL. destruct SHL as [SHL _].
    assert (C : cut (above ++ (line ++ [10]) ++ below) (ts1 ++ (lt ++ [(XNewline, brk)]) ++ ts2) es1).
    { split; [exact SX|]. split; [|split; [exact AX|exact LX]]. apply Forall_app. split; [|apply Forall_app; split; [exact SHM|]]; (eapply Forall_impl; [|eassumption]); intros x; apply valid_shape. }
    pose proof P as P'. rewrite (cut_parse _ _ _ C) in P'. step_in P'. destruct x as [a0 es0]. injection P' as -> <-.
    assert (BRC : braces lt <= 99).
    { pose proof (shape_braces _ SHM) as B1. rewrite braces_app, SM, count_occ_app, Nnat.Nat2N.inj_add in B1. change (N.of_nat (count_occ N.eq_dec [10] 123)) with 0 in B1. lia. }
    destruct (parse_items_line _ ts1 d1 lt brk ts2 d2 a es0 (eq_sym SX) V1 SHL LB V2 AX (doc_lines _ _ G1 EL) N1) as (_ & _ & GO); try assumption; [exact (text_pieces _ _ _ SHM SM LT)|].
    apply GO.
    - apply shape_bracket; [exact SHL|]. intros X. rewrite source_app in SM. assert (X2 : In 91 (line ++ [10])) by (rewrite <- SM; apply in_or_app; auto).
      apply in_app_or in X2. destruct X2 as [X2|[X2|[]]]; [exact (NB X2)|discriminate].
    - exact (section_level _ _ _ 0 SA (or_introl eq_refl)). }
  destruct (C35_mapping_total _ _ _ P) as (m & es' & M). exists m, es'. split; [exact M|].
  exact (C84_value _ _ _ _ _ k _ v P M (goes_about k _ _ _ p (doc_late _ _ _ P) G SA SW) CO ME).
Qed.

(** ** Examples *)

(** A section that is not about [a], with a line that is broken, between two
    that are. Below it is a table that was already there. *)
Definition focus_above : list N := bs "[a]" ++ [10] ++ bs "b = 1" ++ [10] ++ bs "[d]" ++ [10] ++ bs "x = 1" ++ [10].
Definition focus_line : list N := bs "a = {z @ = ""1".
Definition focus_below : list N := bs "c = 2" ++ [10] ++ bs "[a.e]" ++ [10] ++ bs "[d]" ++ [10].
Definition focus_d1 : list stmt := [ParseSpec.STable [bs "a"]; SAssign [bs "b"] (TvInt 1); ParseSpec.STable [bs "d"]; SAssign [bs "x"] (TvInt 1)].
Definition focus_d2 : list stmt := [SAssign [bs "c"] (TvInt 2); ParseSpec.STable [bs "a"; bs "e"]; ParseSpec.STable [bs "d"]].
Definition focus_about : list stmt := [ParseSpec.STable [bs "a"]; SAssign [bs "b"] (TvInt 1); ParseSpec.STable [bs "a"; bs "e"]].
Definition focus_value : CliModel.sval := CliModel.STable [(bs "a", CliModel.STable [(bs "b", CliModel.SInt 1); (bs "e", CliModel.STable [])])].
Lemma focus_means : consistent focus_about /\ means focus_about focus_value.
Proof.
  set (text := bs "[a]" ++ [10] ++ bs "b = 1" ++ [10] ++ bs "[a.e]" ++ [10]).
  assert (E : CliModel.ctoml PropCli.ascii Debug CliModel.Validate text = Ok ([(bs "a", CliModel.STable [(bs "b", CliModel.SInt 1); (bs "e", CliModel.STable [])])], [])) by (vm_compute; reflexivity).
  apply PropCli.C65_silent_exactly_on_valid_toml in E; [|PropCli.all_ascii]. destruct E as (d & T & C & M).
  assert (T2 : toml_doc text focus_about) by (apply line_doc; eexists; split; [vm_compute; reflexivity|vm_compute; reflexivity]).
  rewrite (C34_unambiguous _ _ _ T T2) in C, M. split; assumption.
Qed.
Example C84_example : exists a e es m f fs,
  (toml_doc focus_above focus_d1) /\
  (complete_lines focus_above) /\
  (section_at None focus_d1 = Some [bs "d"]) /\
  (AboutStmts.starts_with (bs "a") [bs "d"] = false) /\ (any_line focus_line) /\
  (~ In 91 focus_line) /\
  (toml_doc focus_below focus_d2) /\
  (nesting_ok 1 focus_d2) /\ (stmts_about (bs "a") None (focus_d1 ++ focus_d2) = focus_about) /\
  (consistent focus_about) /\
  (means focus_about focus_value) /\ (lex_and_parse (focus_above ++ (focus_line ++ [10]) ++ focus_below) = Ok (a, e :: es)) /\
  (map_doc (as_asts a) = Ok (m, f :: fs)).
Proof.
  do 6 eexists. split; [apply line_doc; eexists; split; [vm_compute; reflexivity|vm_compute; reflexivity]|]. split; [right; exists (bs "[a]" ++ [10] ++ bs "b = 1" ++ [10] ++ bs "[d]" ++ [10] ++ bs "x = 1"); reflexivity|].
  split; [reflexivity|]. split; [reflexivity|]. split.
  - split; [vm_compute; intuition discriminate|]. split; [|split; [apply lx_plain; vm_compute; intuition discriminate|vm_compute; lia]].
    intros (c & u & v & C & E). assert (T : forallb (fun k => negb (match skipn k focus_line with x :: y :: z :: _ => ((x =? 34) || (x =? 39)) && (x =? y) && (y =? z) | _ => false end)) (seq 0 (length focus_line)) = true) by (vm_compute; reflexivity).
    rewrite E in T. rewrite forallb_forall in T. specialize (T (length u)). rewrite skipn_app, skipn_all, Nat.sub_diag in T. cbn [skipn app] in T. rewrite !N.eqb_refl in T.
    destruct C as [-> | ->]; (apply Bool.diff_true_false; symmetry; apply T; apply in_seq; rewrite app_length; cbn; lia).
  - split; [vm_compute; intuition discriminate|]. split; [apply line_doc; eexists; split; [vm_compute; reflexivity|vm_compute; reflexivity]|]. split; [vm_compute; intuition discriminate|].
    split; [reflexivity|]. split; [apply focus_means|]. split; [apply focus_means|]. split; [vm_compute; reflexivity|]. vm_compute; reflexivity.
Qed.
Print Assumptions C84_key.
Print Assumptions C84_conflicts.
Print Assumptions C84_value.
Print Assumptions C84_document.
Print Assumptions C84_broken_line.
