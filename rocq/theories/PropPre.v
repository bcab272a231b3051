(** C76: what is below never changes what is above. *)
From Verif Require Import Base BaseProofs CommonModel TomlError LitModel LitSpec LexModel LexSpec LexBase LexMain LexTop LexPre ParseModel ParseSpec ParsePlace ParseItems ParseRoot ParseTop ParseCTop ParsePre.
From Verif Require Import MapModel MapSpec MapWf MapRel MapDecl MapExt MapPre MapNice CliModel MeanSpec PropMap IdeModel IdeSpec IdeProofs PropParse PropIde MeanProofs PropCli ManifestSpec ManifestProofs PropManifest.

(** ** Specification *)

(** Complete lines: nothing, or the last byte is a newline. *)
Definition complete_lines (text : list N) : Prop := text = [] \/ exists t, text = t ++ [10].
(** What stays of a value [x] when the document goes on: a table keeps its keys,
    in their order, and may get more; an array keeps its elements, and may get
    more; a scalar stays what it is. *)
Definition stays (x y : sval) : Prop :=
  match x, y with
  | CliModel.STable t, CliModel.STable t' => exists more, map fst t' = map fst t ++ more
  | CliModel.SArray l, CliModel.SArray l' => (length l <= length l')%nat
  | CliModel.STable _, _ | CliModel.SArray _, _ => False
  | _, _ => y = x
  end.

(** ** The lines *)
Lemma source_last a x : source (a ++ [x]) = source a ++ snd x.
Proof. unfold source. rewrite map_app, concat_app. cbn. rewrite app_nil_r. reflexivity. Qed.
Lemma last_newline x s t : LexSpec.valid x -> snd x = s ++ [10] \/ (snd x = [] /\ t = s ++ [10]) -> fst x = XNewline.
Proof.
  intros V H. destruct H as [H|[H _]].
  - destruct x as [[| |ty| | |q text off] s0]; cbn [snd fst] in *; try reflexivity; exfalso; subst s0.
    + apply valid_shape in V. destruct V as [V|V]; destruct s as [|? [|]]; discriminate.
    + apply valid_shape in V. destruct V as (c & P & V). destruct s as [|c' [|]]; try discriminate. injection V as V. subst c. unfold punct in P. cbn in P. repeat (destruct P as [P|P]; [discriminate|]). exact P.
    + apply valid_shape in V. destruct V as [_ V]. apply Forall_app in V as [_ V]. apply Forall_inv in V. apply V. cbn. auto 20.
    + apply valid_shape in V. destruct V as (t' & V & N). destruct s as [|c' s]; [discriminate|]. injection V as -> <-. apply N. apply in_or_app. right. left. reflexivity.
    + destruct V as (trim & (b & E & _) & _). assert (X : exists r, delims q = r ++ [delim q]) by (destruct q; [exists []|exists [34; 34]|exists []|exists [39; 39]]; reflexivity).
      destruct X as (r & X). rewrite X in E. rewrite !app_assoc in E. apply app_inj_tail in E. destruct E as [_ E]. destruct q; discriminate.
  - exfalso. destruct x as [[| |ty| | |q text off] s0]; cbn [snd fst] in *; subst s0.
    + destruct V; discriminate.
    + destruct V; discriminate.
    + destruct V as (c & _ & V). discriminate.
    + destruct V as [V _]. congruence.
    + destruct V as (t' & V & _). discriminate.
    + destruct V as (trim & (b & E & _) & _). destruct q; discriminate.
Qed.
Lemma lines_end ts text : lexical ts text -> complete_lines text -> ends_line ts.
Proof.
  intros (S1 & V & _) C. destruct ts as [|x a] using rev_ind; [left; reflexivity|]. clear IHa. right. apply Forall_app in V as [_ V]. apply Forall_inv in V.
  rewrite source_last in S1. assert (X : fst x = XNewline).
  { destruct C as [->|(t & ->)].
    - apply app_eq_nil in S1 as [_ S1]. exact (last_newline x [] [10] V (or_intror (conj S1 eq_refl))).
    - destruct (snd x) as [|c s _] eqn:SX using rev_ind.
      + apply (last_newline x [] [10] V). right. auto.
      + rewrite app_assoc in S1. apply app_inj_tail in S1. destruct S1 as [_ ->]. apply (last_newline x s [10] V). left. exact SX. }
  exists a, (snd x). destruct x as [k n]. cbn in X. subst k. reflexivity.
Qed.

(** ** The tree *)
Lemma doc_late input a es : lex_and_parse input = Ok (a, es) -> no_late (rev (as_asts a)).
Proof.
  unfold lex_and_parse. intros E. step_in E. destruct x as [tk es0]. step_in E. destruct x as [a0 es1]. injection E as <- <-.
  unfold parse in Heqr0. step_in Heqr0. step_in Heqr0. unfold parse_items in Heqr0. step_in Heqr0. injection Heqr0 as <- <-. cbn [as_asts].
  rewrite rev_involutive. apply no_late_comments. destruct (growing_loop _ _ _ _ _ Heqr3) as [H _]; [|exact H]. split; [exact I|left; constructor].
Qed.
Lemma late_tail new : forall l, no_late (new ++ l) -> no_late l.
Proof.
  induction new as [|x new IH]; intros l H; [exact H|]. destruct x; cbn [app no_late] in H; try exact (IH _ H).
  apply no_header_late. unfold no_header in *. apply Forall_app in H. exact (proj2 H).
Qed.
Lemma late_more x x' l : more_of x x' -> no_late (x' :: l) -> no_late (x :: l).
Proof. intros MO NL. destruct MO; exact NL. Qed.
Lemma decls_same_assigns q l l' : map ta_assign l = map ta_assign l' -> flat_map (assign_decls q) l = flat_map (assign_decls q) l'.
Proof.
  revert l'. induction l as [|a l IH]; intros [|a' l'] H; try discriminate; [reflexivity|]. injection H as H1 H2. cbn [flat_map]. rewrite (IH _ H2). f_equal. unfold assign_decls. rewrite H1. reflexivity.
Qed.
Lemma more_decls x x' : more_of x x' -> exists l more, assigns_in x' = l ++ more /\ forall d, ast_decls d (with_assigns x' l) = ast_decls d x.
Proof.
  intros [a a' E|t t' l more H1 H2 H3|t t' l more H1 H2 H3|c].
  - exists [], []. split; [reflexivity|]. intros d. cbn [with_assigns ast_decls]. unfold assign_decls. rewrite E. reflexivity.
  - exists l, more. split; [exact H2|]. intros d. cbn [with_assigns ast_decls tb_header tb_assigns]. rewrite H1. destruct (th_key (tb_header t)); [|reflexivity]. cbv zeta. rewrite (decls_same_assigns _ _ _ H3). reflexivity.
  - exists l, more. split; [exact H2|]. intros d. cbn [with_assigns ast_decls ae_header ae_assigns]. rewrite H1. destruct (ah_key (ae_header t)); [|reflexivity]. cbv zeta. rewrite (decls_same_assigns _ _ _ H3). reflexivity.
  - exists [], []. split; reflexivity.
Qed.
Lemma decls_snoc l x : doc_decls (l ++ [x]) = doc_decls l ++ ast_decls (doc_decls l) x.
Proof. unfold doc_decls. rewrite decls_app. reflexivity. Qed.
Lemma same_list l d : no_late l -> all_some (stmts l) = Some d -> Forall2 same (doc_decls (rev l)) (said_by d).
Proof.
  intros NL D. destruct (rev_split _ NL) as (u & v & EA & U & V0). unfold stmts in D. unfold doc_decls, said_by. rewrite EA in *.
  rewrite flat_map_app in D. apply all_some_app in D. destruct D as (s1 & s2 & E1 & E2 & ->). rewrite decls_app.
  destruct (same_roots u U _ E1 [] [] s2 (Forall2_nil _)) as (d2 & -> & S2). exact (same_headers v V0 _ E2 _ _ _ S2).
Qed.

(** The statements of complete lines are read as they stand, whatever follows:
    the map of the document grows from one that holds what they say. *)
Lemma above_map text d below a es m es' : toml_doc text d -> complete_lines text -> consistent d ->
  lex_and_parse (text ++ below) = Ok (a, es) -> map_doc (as_asts a) = Ok (m, es') ->
  exists dd m1, Forall2 same dd (said_by d) /\ rel_table dd m1 /\ MapRel.below dd /\ grows (NTable m1) (NTable m).
Proof.
  intros (ts & L & G & NE) CL CO P M. pose proof (lines_end _ _ L CL) as EL. pose proof (lexical_cut _ _ L) as (S1 & SH & SEP & _). destruct L as (_ & V & _).
  destruct (lex_prefix ts below V SH SEP EL) as (more & les & E1 & E2 & E3 & E4 & _). rewrite S1 in *.
  assert (C : cut (text ++ below) (ts ++ more) les) by (split; [exact E1|auto]). pose proof P as P'. rewrite (cut_parse _ _ _ C) in P'. step_in P'. destruct x as [a0 es0]. injection P' as -> <-.
  destruct (parse_items_prefix _ ts d more a es0 (eq_sym E1) E2 E3 V (doc_lines _ _ G EL) NE Heqr) as (l & l' & D & A & AL).
  pose proof (doc_late _ _ _ P) as NL. rewrite AL, rev_involutive in NL.
  destruct A as [l'|x x' l new MO].
  - exists [], []. cbn in D. injection D as <-. split; [constructor|]. split; [apply rel_table_nil|]. split; [apply below_nil|]. exact (map_asts_grows _ _ _ _ M).
  - apply late_tail in NL. apply (late_more _ _ _ MO) in NL. pose proof (same_list _ _ NL D) as SL. cbn [rev] in SL.
    destruct (more_decls _ _ MO) as (la & lm & A1 & A2).
    rewrite AL, rev_app_distr in M. cbn [rev] in M. rewrite <- app_assoc in M. cbn [app] in M.
    assert (DE : doc_decls (rev l ++ [with_assigns x' la]) = doc_decls (rev l ++ [x])) by (rewrite !decls_snoc, A2; reflexivity).
    destruct (map_doc_part _ _ _ _ _ _ _ A1 M) as (m1 & R & B & GR & _).
    + rewrite DE. intros u w BE EQ. destruct (clash (snd u) (snd w)) eqn:CL2; [|reflexivity]. exfalso.
      destruct (proj1 (same_consistent _ _ SL)) as (u' & w' & B1 & B2 & B3); [exists u, w; auto|]. rewrite (CO _ _ B1 B2) in B3. discriminate.
    + rewrite DE in *. exists (doc_decls (rev l ++ [x])), m1. auto.
Qed.

Lemma scalar_holding x t : holding_of x = Some (HScalar t) ->
  x = match t with TvStr s => SString s | TvInt z => SInt z | TvFloat f => SFloat f | TvBool b => SBool b | TvDate d => SDateTime d | TvTab _ | TvArr _ => x end.
Proof. destruct x; cbn; intros H; try discriminate; injection H as <-; reflexivity. Qed.

(** ** C76 *)

(** At every place of the value of complete lines, whatever bytes follow them,
    there is still what was there. *)
Theorem C76_values text d v below a es m es' : toml_doc text d -> complete_lines text -> consistent d -> means d v ->
  lex_and_parse (text ++ below) = Ok (a, es) -> map_doc (as_asts a) = Ok (m, es') ->
  forall p x, sval_at p v = Some x -> exists y, sval_at p (CliModel.STable (map_simple m)) = Some y /\ stays x y.
Proof.
  intros T CL CO ME P M p x X. destruct (above_map _ _ _ _ _ _ _ T CL CO P M) as (dd & m1 & SD & R & B & GR).
  assert (NI : nice (lit_ok (text ++ below)) any_elem (NTable m)) by (apply manifest_nice; exists a, es, es'; auto).
  assert (H : forall p x, sval_at p v = Some x -> exists h c n1 n, holding_of x = Some h /\ holding_is c h /\ declared dd p c /\ node_at p (NTable m1) = Some n1 /\ content_of n1 = c /\
    node_at p (NTable m) = Some n /\ keeps n1 n /\ sval_at p (CliModel.STable (map_simple m)) = Some (map_simple_val n)).
  { clear p x X. intros p x X. specialize (ME p). rewrite X in ME. destruct ME as (h & H1 & H2). destruct (holds_declared _ _ _ _ SD H2) as (c & HC & DC).
    pose proof (proj2 (root_content _ _ p c R B) DC) as RC. destruct (node_at p (NTable m1)) as [n1|] eqn:N1; [|discriminate]. injection RC as RC.
    destruct (GR _ _ N1) as (n & N2 & K). exists h, c, n1, n. rewrite N2. pose proof (simple_at _ _ p _ NI) as SA. rewrite N2 in SA. auto 10. }
  destruct (H p x X) as (h & c & n1 & n & H1 & H2 & H3 & H4 & H5 & H6 & H7 & H8). exists (map_simple_val n). split; [exact H8|].
  pose proof (nice_at _ _ _ _ _ H6 NI) as NN. destruct n1 as [t|l|pa w l|w], n as [t'|l'|pa' w' l'|w']; cbn [keeps] in H7; try contradiction; cbn [content_of] in H5; subst c; cbn [holding_is] in H2.
  - subst h. destruct H7 as ((more & K) & _). destruct x as [tx|lx| | | | | |]; cbn [holding_of] in H1; try discriminate; injection H1 as H1.
    change (map_simple_val (NTable t')) with (CliModel.STable (map_simple t')). rewrite (simple_table _ _ _ NN). cbn [stays]. rewrite simple_fst, H1. eauto.
  - subst h. destruct H7 as (more & K). destruct x as [tx|lx| | | | | |]; cbn [holding_of] in H1; try discriminate; injection H1 as H1.
    cbn [map_simple_val stays]. rewrite map_length. apply (f_equal (@length _)) in K. rewrite app_length, !map_length in K. lia.
  - subst h. destruct x as [tx|lx| | | | | |]; cbn [holding_of] in H1; try discriminate; injection H1 as H1. cbn [map_simple_val stays]. rewrite map_length.
    destruct (Nat.le_gt_cases (length lx) (length l')) as [LE|GT]; [exact LE|]. exfalso.
    assert (Y : sval_at (p ++ [SIdx (N.of_nat (length l'))]) v <> None).
    { clear - X GT. revert v X. induction p as [|s p IH]; intros v X; cbn [app sval_at] in *.
      - injection X as ->. cbn [sval_at]. rewrite Nat2N.id. destruct (nth_error lx (length l')) eqn:E; [discriminate|]. apply nth_error_None in E. lia.
      - destruct s as [k|i], v; try discriminate.
        + destruct (sget _ _); [|discriminate]. exact (IH _ X).
        + destruct (nth_error _ _); [|discriminate]. exact (IH _ X). }
    destruct (sval_at (p ++ [SIdx (N.of_nat (length l'))]) v) as [z|] eqn:Z; [|congruence]. destruct (H _ _ Z) as (_ & _ & _ & n & _ & _ & _ & _ & _ & Z1 & _).
    clear - H6 Z1. assert (NA : forall p q n, node_at (p ++ q) n = match node_at p n with Some x => node_at q x | None => None end).
    { clear. induction p as [|s p IH]; intros q n; [reflexivity|]. destruct s, n; cbn [app node_at]; try reflexivity.
      - destruct (tget t k); [apply IH|reflexivity].
      - destruct (nth_error es (N.to_nat i)); [apply IH|reflexivity].
      - destruct (nth_error es (N.to_nat i)); [apply IH|reflexivity]. }
    rewrite NA, H6 in Z1. cbn [node_at] in Z1. rewrite Nat2N.id in Z1. rewrite (proj2 (nth_error_None l' (length l')) (le_n _)) in Z1. discriminate.
  - subst w'. assert (SV : is_scalar_val w) by (inversion H3; assumption).
    assert (H9 : holding_of (map_simple_val (NScalar w)) = Some h).
    { apply (simple_holding _ _ _ _ NN); [intros v0 E; injection E as <-; exact SV|]. exact H2. }
    destruct H2 as (t & _ & ST & ->). pose proof (scalar_holding _ _ H1) as E1. pose proof (scalar_holding _ _ H9) as E2.
    destruct t; try contradiction; rewrite E2; rewrite E1; reflexivity.
Qed.

(** In terms of the command line tool: for any text that starts with complete
    lines that it accepts, it prints at least what it prints for them. *)
Theorem C76_output width prof mode text below t0 t out : scalars text -> complete_lines text ->
  ctoml width prof Validate text = Ok (t0, []) -> ctoml width prof mode (text ++ below) = Ok (t, out) ->
  forall p x, sval_at p (CliModel.STable t0) = Some x -> exists y, sval_at p (CliModel.STable t) = Some y /\ stays x y.
Proof.
  intros SC CL E0 E. apply C65_silent_exactly_on_valid_toml in E0; [|exact SC]. destruct E0 as (d & T & CO & ME).
  unfold ctoml in E. cbv zeta in E. step_in E. destruct x as [a es]. step_in E. destruct x as [m es']. step_in E. step_in E. step_in E. step_in E. injection E as <- _.
  exact (C76_values _ _ _ _ _ _ _ _ T CL CO ME Heqr Heqr0).
Qed.

(** A dependency given by a string, in a section by its present name, is found
    whatever follows. *)
Theorem C76_dependency prof text d v below m deps ds p dep s : toml_doc text d -> complete_lines text -> consistent d -> means d v ->
  manifest (text ++ below) m -> settled prof (text ++ below) (CliModel.STable (map_simple m)) -> check prof m = Ok (deps, ds) ->
  declares v p dep -> sval_at p v = Some (SString s) ->
  (exists b k name, p = b ++ [SKey k; SKey name] /\ In k (map bs sections)) -> In dep (map dep_data deps).
Proof.
  intros T CL CO ME M ST CH (ta & b & g & kind & key & t & name & w & G & SI & MG & SG & EP & D) S0 (b' & k' & name' & EP' & KS).
  assert (X : b = b' /\ bs key = k' /\ name = name').
  { rewrite EP in EP'. change [SKey (bs key); SKey name] with ([SKey (bs key)] ++ [SKey name]) in EP'. change [SKey k'; SKey name'] with ([SKey k'] ++ [SKey name']) in EP'.
    rewrite !app_assoc in EP'. apply app_inj_tail in EP' as [EP' E2]. apply app_inj_tail in EP' as [-> E1]. split; [reflexivity|]. split; congruence. }
  destruct X as (<- & EK & _). subst k' p. clear EP'.
  pose proof M as (a & es & es' & PA & MA). pose proof (C76_values _ _ _ _ _ _ _ _ T CL CO ME PA MA) as STAY.
  destruct (C74_dependencies _ _ _ _ _ M CH ST) as (placed & -> & _ & IN). set (new := CliModel.STable (map_simple m)) in *.
  apply in_map_iff. exists (b ++ [SKey (bs key); SKey name], dep). split; [reflexivity|]. apply IN. clear IN.
  destruct (STAY _ _ S0) as (y & Y & YS). cbn [stays] in YS. subst y.
  assert (W : w = SString s).
  { destruct (proj1 (group_at _ _ _ _) G) as [_ GA]. change [SKey (bs key); SKey name] with ([SKey (bs key)] ++ [SKey name]) in S0. rewrite !sval_at_app, GA, sval_at_app, <- member_at, MG in S0. cbn in S0. rewrite SG in S0. congruence. }
  subst w. change [SKey (bs key); SKey name] with ([SKey (bs key)] ++ [SKey name]) in Y. rewrite sval_at_app in Y. destruct (sval_at b new) as [g'|] eqn:GB; [|discriminate]. rewrite sval_at_app, <- member_at in Y.
  destruct (member g' key) as [[t'| | | | | | |]|] eqn:MG'; try discriminate. cbn [sval_at] in Y. destruct (sget t' name) as [w'|] eqn:SG'; [|discriminate]. injection Y as ->.
  exists ta, b, g', kind, key, t', name, (SString s). split; [|split; [|auto 6]].
  - destruct G as [|ts ta w MT STA].
    + cbn in GB. injection GB as <-. constructor.
    + change [SKey (bs "target"); SKey ta] with ([SKey (bs "target")] ++ [SKey ta]) in GB. rewrite sval_at_app, <- member_at in GB. destruct (member new "target") as [[ts'| | | | | | |]|] eqn:MT'; try discriminate.
      cbn [sval_at] in GB. destruct (sget ts' ta) as [w'|] eqn:E; [|discriminate]. injection GB as ->. econstructor; eassumption.
  - destruct SI; try constructor; exfalso; cbn in KS; repeat (destruct KS as [KS|KS]; [discriminate KS|]); exact KS.
Qed.

(** ** Statements *)
Lemma all_some_list {A} (l : list (option A)) r : all_some l = Some r -> l = map Some r.
Proof.
  revert r. induction l as [|[x|] l IH]; intros r H; cbn in H; try discriminate; [injection H as <-; reflexivity|].
  fold (all_some l) in H. destruct (all_some l) as [r'|]; [|discriminate]. injection H as <-. cbn [map]. rewrite (IH r' eq_refl). reflexivity.
Qed.
Lemma all_some_map_some {A} (r : list A) : all_some (map Some r) = Some r.
Proof. induction r as [|x r IH]; [reflexivity|]. cbn [map]. unfold all_some in *. cbn [fold_right]. rewrite IH. reflexivity. Qed.
Lemma more_stmts x x' : more_of x x' -> exists more, ast_of x' = ast_of x ++ more.
Proof.
  assert (AO : forall l l', map ta_assign l = map ta_assign l' -> map assign_of l = map assign_of l').
  { induction l as [|a l IH]; intros [|a' l'] H; try discriminate; [reflexivity|]. injection H as H1 H2. cbn [map]. rewrite (IH _ H2). f_equal. unfold assign_of. rewrite H1. reflexivity. }
  intros [a a' E|t t' l more H1 H2 H3|t t' l more H1 H2 H3|c].
  - exists []. cbn [ast_of]. unfold assign_of. rewrite E. reflexivity.
  - exists (map assign_of more). cbn [ast_of]. rewrite H1, H2, map_app, (AO _ _ H3). reflexivity.
  - exists (map assign_of more). cbn [ast_of]. rewrite H1, H2, map_app, (AO _ _ H3). reflexivity.
  - exists []. reflexivity.
Qed.
(** The tree of a document that starts with complete lines says first what
    they say, whatever follows. *)
Theorem C76_statements text d below a es : toml_doc text d -> complete_lines text -> lex_and_parse (text ++ below) = Ok (a, es) ->
  exists more, flat_map ast_of (as_asts a) = map Some d ++ more.
Proof.
  intros (ts & L & G & NE) CL P. pose proof (lines_end _ _ L CL) as EL. pose proof (lexical_cut _ _ L) as (S1 & SH & SEP & _). destruct L as (_ & V & _).
  destruct (lex_prefix ts below V SH SEP EL) as (more & les & E1 & E2 & E3 & E4 & _). rewrite S1 in *.
  assert (C : cut (text ++ below) (ts ++ more) les) by (split; [exact E1|auto]). rewrite (cut_parse _ _ _ C) in P. step_in P. destruct x as [a0 es0]. injection P as -> <-.
  destruct (parse_items_prefix _ ts d more a es0 (eq_sym E1) E2 E3 V (doc_lines _ _ G EL) NE Heqr) as (l & l' & D & A & AL).
  rewrite AL. change (flat_map ast_of (rev l')) with (stmts l'). rewrite <- (all_some_list _ _ D). destruct A as [l'|x x' l new MO]; [exists (stmts l'); reflexivity|].
  destruct (more_stmts _ _ MO) as (ms & E). unfold stmts. rewrite rev_app_distr. cbn [rev]. rewrite <- !app_assoc, !flat_map_app. cbn [flat_map]. rewrite E, !app_nil_r, <- !app_assoc. exists (ms ++ flat_map ast_of (rev new)). rewrite <- ?app_assoc. reflexivity.
Qed.
(** So a document that goes on says more, and nothing else before. *)
Theorem C76_says text d below d' : toml_doc text d -> complete_lines text -> toml_doc (text ++ below) d' -> exists more, d' = d ++ more.
Proof.
  intros T CL T'. destruct (C34_toml_documents _ _ T') as (a & P & D). destruct (C76_statements _ _ _ _ _ T CL P) as (more & E). unfold doc_of in D. apply all_some_list in D. rewrite E in D.
  symmetry in D. apply map_split in D. destruct D as (u & w & -> & EU & _). exists w. f_equal. clear - EU. revert d EU. induction u as [|x u IH]; intros [|y d] H; try discriminate; [reflexivity|]. injection H as -> H. f_equal. apply IH. exact H.
Qed.
(** Documents can be put one after the other. *)
Theorem C76_appended text d below d' : toml_doc text d -> complete_lines text -> toml_doc below d' -> nesting_ok 0 (d ++ d') -> toml_doc (text ++ below) (d ++ d').
Proof.
  intros (ts & L & G & _) CL (ts' & L' & G' & _) NE. pose proof (lines_end _ _ L CL) as EL. destruct L as (S1 & V & A), L' as (S1' & V' & A'). exists (ts ++ ts'). split; [|split; [|exact NE]].
  - split; [rewrite source_app, S1, S1'; reflexivity|]. split; [apply Forall_app; auto|]. apply seps_all, seps_app. rewrite app_nil_r. split; [apply seps_below; assumption|apply seps_all; exact A'].
  - pose proof (doc_lines _ _ G EL) as GL. clear - GL G'. induction GL as [|ts s c n ts2 d GL GC _ IH]; [exact G'|]. rewrite <- !app_assoc. cbn [app]. apply (gd_line ts s c n (ts2 ++ ts') (d ++ d')); assumption.
Qed.

(** ** Examples *)

(** Complete lines, and what follows: an assignment for their last table, an
    unclosed array, and another assignment to their first key. *)
Definition above_example : list N := bs "[dependencies]" ++ nl ++ bs "serde = '1'" ++ nl.
Definition below_example : list N := bs "rand = '0.8'" ++ nl ++ bs "serde = 2" ++ nl ++ bs "x = [1 'a".
Example C76_example : scalars above_example /\ complete_lines above_example /\
  ctoml ascii Debug Validate above_example = Ok ([(bs "dependencies", CliModel.STable [(bs "serde", SString (bs "1"))])], []) /\
  exists m1 ms, ctoml ascii Debug Validate (above_example ++ below_example) =
    Ok ([(bs "dependencies", CliModel.STable [(bs "serde", SString (bs "1")); (bs "rand", SString (bs "0.8")); (bs "x", CliModel.SArray [SInt 1; SString (bs "a")])])], m1 :: ms).
Proof.
  split; [all_ascii|]. split; [right; eexists (bs "[dependencies]" ++ nl ++ bs "serde = '1'"); vm_compute; reflexivity|]. split; [vm_compute; reflexivity|].
  do 2 eexists. vm_compute. reflexivity.
Qed.
(** A line that is not complete can become another one. *)
Example C76_incomplete_refuted : exists v v', ctoml ascii Debug Validate (bs "a = 1") = Ok (v, []) /\ ctoml ascii Debug Validate (bs "a = 1" ++ bs "2") = Ok (v', []) /\
  sget v (bs "a") = Some (SInt 1) /\ sget v' (bs "a") = Some (SInt 12).
Proof. do 2 eexists. split; [vm_compute; reflexivity|]. split; [vm_compute; reflexivity|]. split; reflexivity. Qed.

Print Assumptions C76_values.
Print Assumptions C76_output.
Print Assumptions C76_dependency.
Print Assumptions C76_statements.
Print Assumptions C76_says.
Print Assumptions C76_appended.
