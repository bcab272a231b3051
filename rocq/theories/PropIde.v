(** Theorems about checking a manifest (C39, C40, C54-C56).  Specification:
    IdeSpec.v.  [check prof m] checks the map [m] of a manifest; the profile
    says how the semver parser treats overflow (SemverModel.v). *)
From Verif Require Import Base BaseProofs CommonModel TomlError LitModel LexModel LexSpec LexStr LexIllegal ParseModel ParseSpec ParsePlace PropParse
  MapModel MapSpec MapWf MapRel MapExt MapNice PropMap IdeModel IdeSpec IdeProofs.
From Verif Require SemverModel SemverSpec PropSemver.

(** The map of a text, whatever errors are reported for it. *)
Definition manifest (input : list N) (m : mtable) : Prop :=
  exists a es es', lex_and_parse input = Ok (a, es) /\ map_doc (as_asts a) = Ok (m, es').
Definition scalars (input : list N) : Prop := Forall (fun c => is_scalar c = true) input.

(** ** Values of the map are values of the text *)
Lemma node_ok_leaves input n v : node_ok input n v -> leaves (lit_ok input) any_elem v.
Proof.
  induction v as [lp l e IH|cr lp l e IH|v SC] using value_ind2; cbn [node_ok leaves].
  - intros (_ & _ & H). rewrite All_Forall. induction IH as [|a l I0 IH IHl]; [constructor|]. cbn [fold_right] in H. destruct H as [(_ & _ & _ & V) H].
    constructor; [exact (I0 V)|exact (IHl H)].
  - intros (_ & _ & _ & H). rewrite All_Forall. induction IH as [|a l I0 IH IHl]; [constructor|]. cbn [fold_right] in H. destruct H as [(_ & _ & V) H].
    constructor; [split; [exact I|exact (I0 V)]|exact (IHl H)].
  - destruct v; try contradiction; intros H; exact H.
Qed.
Lemma ast_ok_leaves input ts n a : ast_ok input ts n a -> ast_leaves (lit_ok input) any_elem a.
Proof.
  assert (A : forall x, tassign_ok input n x -> tassign_leaves (lit_ok input) any_elem x) by (intros x (_ & _ & _ & V); exact (node_ok_leaves _ _ _ V)).
  destruct a as [a|t|t|c]; cbn.
  - apply A.
  - intros (_ & _ & F). revert F. apply Forall_impl. exact A.
  - intros (_ & _ & F). revert F. apply Forall_impl. exact A.
  - exact (fun _ => I).
Qed.
Lemma manifest_nice input m : manifest input m -> nice (lit_ok input) any_elem (NTable m).
Proof.
  intros (a & es & es' & E & M). apply (map_doc_nice _ _ _ _ _ M). destruct (C50_places _ _ _ E) as (ts & es0 & _ & F & _). revert F. apply Forall_impl. intros x. apply ast_ok_leaves.
Qed.
Lemma manifest_wf input m : manifest input m -> exists dc, wf_table dc root_chains m.
Proof.
  intros (a & es & es' & E & M). destruct (map_doc_ok _ (parsed_real _ _ _ E)) as (m0 & es0 & H & W & _). rewrite M in H. injection H as <- <-. eauto.
Qed.
Lemma lit_leaf input v : lit_ok input v -> leaf v.
Proof.
  destruct v; cbn; try tauto. intros ((a & b & _ & _ & ->) & SH & _).
  destruct (text_span_any _ _ _ a SH) as (trim & b0 & e & _ & _ & _ & E). eauto.
Qed.
Lemma nice_impl (P Q : value -> Prop) R : (forall v, P v -> Q v) -> forall n, nice P R n -> nice Q R n.
Proof.
  intros H. fix IH 1. intros n. destruct n as [t|es|pa v es|v]; cbn [nice].
  - intros [D F]. split; [exact D|]. clear D. induction t as [|[k e] t IHt]; [exact I|]. destruct F as [F1 F2]. split; [|exact (IHt F2)].
    destruct e as [n rs]. cbn in *. apply IH. exact F1.
  - intros F. induction es as [|[te pa ra] es IHe]; [exact I|]. destruct F as [[D F1] F2]. split; [|exact (IHe F2)]. split; [exact D|]. cbn in *. clear D F2 IHe.
    induction te as [|[k e] t IHt]; [exact I|]. destruct F1 as [F1 F2]. split; [|exact (IHt F2)].
    destruct e as [n rs]. cbn in *. apply IH. exact F1.
  - intros F. induction es as [|[n r] es IHe]; [exact I|]. destruct F as [F1 F2]. split; [|exact (IHe F2)]. cbn in *. split; [exact (proj1 F1)|]. apply IH. exact (proj2 F1).
  - apply H.
Qed.
Lemma manifest_does prof input m : manifest input m ->
  does (check prof m) (exists s, any_reads (NTable m) s /\ requirement prof s Panic) (holds (dep_at prof (NTable m))) (problem prof (NTable m)).
Proof.
  intros M. destruct (manifest_wf _ _ M) as (dc & W). apply (does_check prof dc m W). exact (nice_impl _ _ _ (lit_leaf input) _ (manifest_nice _ _ M)).
Qed.
Lemma nice_at P Q : forall p n x, node_at p n = Some x -> nice P Q n -> nice P Q x.
Proof.
  induction p as [|s p IH]; intros n x E N0; [injection E as <-; exact N0|].
  destruct s as [k|i]; destruct n as [t|es|pa v es|v]; cbn [node_at] in E; try discriminate.
  - destruct (tget t k) as [e|] eqn:G; [|discriminate]. apply (IH _ _ E). exact (nice_get _ _ _ _ _ N0 G).
  - destruct (nth_error es (N.to_nat i)) as [e|] eqn:G; [|discriminate]. apply (IH _ _ E). apply nice_top in N0. rewrite Forall_forall in N0. exact (N0 _ (nth_error_In _ _ G)).
  - destruct (nth_error es (N.to_nat i)) as [e|] eqn:G; [|discriminate]. apply (IH _ _ E). apply nice_inline in N0. rewrite Forall_forall in N0. exact (proj2 (N0 _ (nth_error_In _ _ G))).
Qed.
(** A requirement that is read is a string of the text. *)
Definition literal_of (input : list N) (s : strval) : Prop :=
  placed input (sv_lit s) (sv_span s) /\ text_from (sr_text (sv_lit s)) (sv_text s).
Lemma reads_literal input m p s : manifest input m -> reads (NTable m) p s -> literal_of input (sa_val s).
Proof.
  intros M R. pose proof (manifest_nice _ _ M) as N0. destruct R as [l sp x o q r rs E|t s E _ _ V].
  - apply entry_at_node in E. pose proof (nice_at _ _ _ _ _ E N0) as L. cbn in L. destruct L as (L1 & _ & L2). split; assumption.
  - pose proof (nice_at _ _ _ _ _ E N0) as L. unfold str_field in V. destruct (tget t (bs "version")) as [[n rs]|] eqn:G; [|discriminate].
    pose proof (nice_get _ _ _ _ _ L G) as L0. destruct n as [| | |[]]; try discriminate. destruct rs; [discriminate|]. injection V as <-.
    cbn in L0. destruct L0 as (L1 & _ & L2). split; assumption.
Qed.
Lemma literal_utf8 input s : scalars input -> literal_of input s -> valid_utf8 (utf8 (sv_text s)).
Proof.
  intros SC ((a & b & E & _) & T). exists (sv_text s). split; [|reflexivity]. revert T. unfold text_from. apply Forall_impl. intros c [H|H]; [|exact H].
  unfold scalars in SC. rewrite E in SC. rewrite Forall_forall in SC. apply SC. rewrite !in_app_iff. auto.
Qed.

(** ** C54 *)

(** Checking fails exactly if the semver parser does, on a requirement that
    is read. *)
Theorem C54_check_panics prof input m : manifest input m ->
  (check prof m = Panic <-> exists s, any_reads (NTable m) s /\ requirement prof s Panic).
Proof.
  intros M. destruct (manifest_does prof _ _ M) as [[E B]|(B & x & ds & E & _)]; [tauto|]. split; [congruence|]. intros H. contradiction.
Qed.
(** That is only in debug builds, and only if a requirement contains a number
    from 4294967296 to 4294967299. *)
Theorem C54_only_on_overflow prof input m : scalars input -> manifest input m -> check prof m = Panic ->
  prof = Debug /\ exists s, any_reads (NTable m) s /\ SemverSpec.contains_overflow (utf8 (sv_text (sa_val s))).
Proof.
  intros SC M E. apply (C54_check_panics prof _ _ M) in E. destruct E as (s & R & (sp & _ & E)).
  assert (V : valid_utf8 (utf8 (sv_text (sa_val s)))).
  { destruct R as (p & _ & R). exact (literal_utf8 _ _ SC (reads_literal _ _ _ _ M R)). }
  destruct (PropSemver.C15_semver_panics_only_on_overflow prof (s_start sp) _ V) as (_ & H & _). destruct (H E) as [P O]. split; [exact P|]. exists s. auto.
Qed.
Theorem C54_release_total input m : scalars input -> manifest input m -> exists deps ds, check Release m = Ok (deps, ds).
Proof.
  intros SC M. destruct (check Release m) as [[deps ds]|[]|] eqn:E; [eauto|]. destruct (C54_only_on_overflow _ _ _ SC M E) as [P _]. discriminate.
Qed.

(** ** C39 *)

(** The dependencies are those at the places for dependencies, one each. *)
Theorem C39_dependencies prof input m deps ds : manifest input m -> check prof m = Ok (deps, ds) ->
  exists placed, deps = map snd placed /\ NoDup (map fst placed) /\ forall p d, In (p, d) placed <-> dep_at prof (NTable m) p d.
Proof.
  intros M E. destruct (manifest_does prof _ _ M) as [[E0 _]|(_ & x & ds0 & E0 & H & _)]; [congruence|]. rewrite E in E0. injection E0 as <- <-. exact H.
Qed.
(** No dependency has two readings. *)
Theorem C39_one_reading prof root p d d' : dep_at prof root p d -> dep_at prof root p d' -> dp_spec d = dp_spec d' /\ dp_features d = dp_features d' /\ dp_entry d = dp_entry d'.
Proof.
  intros (k & t & n & e & _ & E & D) (k' & t' & n' & e' & _ & E' & D'). rewrite E in E'. injection E' as <-.
  destruct D as [l sp x o q r rs v V|t0 rs s S0]; inversion D' as [? ? ? ? ? ? ? ? V'|? ? ? S0']; subst; cbn.
  - rewrite (version_fun prof _ _ _ V V'). auto.
  - rewrite (spec_fun prof _ _ _ S0 S0'). auto.
Qed.
(** Nothing that is a string or a table is left out. *)
Lemma check_reads prof input m deps ds p s : manifest input m -> check prof m = Ok (deps, ds) -> any_dep (NTable m) p -> reads (NTable m) p s -> exists v, version_of prof s v.
Proof.
  intros M E A R. pose proof (manifest_nice _ _ M) as N0. assert (T : exists sp, text_span (sa_val s) = Ok sp).
  { destruct R as [l sp x o q r rs G|t s G _ _ V].
    - apply entry_at_node in G. exact (lit_leaf _ _ (nice_at _ _ _ _ _ G N0)).
    - pose proof (nice_at _ _ _ _ _ G N0) as L. unfold str_field in V. destruct (tget t (bs "version")) as [[n rs]|] eqn:TG; [|discriminate].
      pose proof (nice_get _ _ _ _ _ L TG) as L0. destruct n as [| | |[]]; try discriminate. destruct rs; [discriminate|]. injection V as <-. exact (lit_leaf _ _ L0). }
  destruct T as (sp & T). destruct (SemverModel.parse_requirement prof (utf8 (sv_text (sa_val s))) (s_start sp)) as [v|er|] eqn:P.
  - eexists. apply vo_ok with (v := v). exists sp. auto.
  - eexists. apply (vo_err _ _ er). exists sp. auto.
  - exfalso. assert (X : check prof m = Panic); [|congruence]. apply (C54_check_panics prof _ _ M). exists s. split; [exists p; auto|]. exists sp. auto.
Qed.
Lemma git_exists t : exists g, git_of t g.
Proof.
  destruct (str_field t "branch") as [b|] eqn:B, (str_field t "tag") as [g|] eqn:T, (str_field t "rev") as [r|] eqn:R.
  8: { exists GNone. apply go_none; assumption. }
  all: try (exists GConflicting; first
    [apply (go_conflict t "branch" "tag"); [cbn; tauto|congruence|congruence]
    |apply (go_conflict t "branch" "rev"); [cbn; tauto|congruence|congruence]
    |apply (go_conflict t "tag" "rev"); [cbn; tauto|congruence|congruence]]).
  - exists (GBranch b). apply go_branch; assumption.
  - exists (GTag g). apply go_tag; assumption.
  - exists (GRev r). apply go_rev; assumption.
Qed.
Lemma dep_read prof input m deps ds kind target name p e : manifest input m -> check prof m = Ok (deps, ds) ->
  dep_place (NTable m) kind target name p -> entry_at p (NTable m) = Some e -> datatype_of (e_node e) = DtString \/ datatype_of (e_node e) = DtTable ->
  exists d, dependency_of prof kind target name e d.
Proof.
  intros M E PL EN T. assert (A : any_dep (NTable m) p) by (exists kind, target, name; exact PL).
  destruct (manifest_wf _ _ M) as (dc & W). destruct e as [n rs]. cbn [e_node] in T.
    destruct n as [t|es|pa v es|v].
    - pose proof (entry_at_node _ _ _ EN) as NA. cbn [e_node] in NA.
      assert (V : bool_field t "workspace" = None -> ~ conflicting t -> exists v, opt_version prof (str_field t "version") v).
      { intros W0 C. destruct (str_field t "version") as [s|] eqn:SV; [|exists None; constructor].
        destruct (check_reads _ _ _ _ _ _ _ M E A (rd_table _ _ t s NA W0 C SV)) as (v & V). exists (Some v). constructor. exact V. }
      assert (S0 : exists s, spec_of prof t s).
      { destruct (bool_field t "workspace") as [w|] eqn:BW.
        - destruct (bv_val (ba_val w)) eqn:B; [exists (SWorkspace w); apply so_workspace|exists SInvalid; eapply so_no_workspace]; eassumption.
        - destruct (str_field t "git") as [g|] eqn:G.
          + assert (D : conflicting t \/ ~ conflicting t).
            { unfold conflicting. destruct (str_field t "registry"), (str_field t "path"); rewrite G; (try (left; split; [congruence|]; (try (left; congruence)); right; congruence)); right; intros [_ [H|H]]; congruence. }
            destruct D as [D|D]; [exists SConflicting; apply so_conflicting; assumption|].
            destruct (V eq_refl D) as (v & V1). destruct (git_exists t) as (gs & GS). exists (SGit g gs v). apply so_git; assumption.
          + assert (D : ~ conflicting t) by (intros [H _]; congruence). destruct (V eq_refl D) as (v & V1).
            destruct (str_field t "path") as [pa|] eqn:P; [eexists; eapply so_path; eassumption|].
            destruct (str_field t "version") as [s|] eqn:SV; [|eexists; apply so_missing; assumption].
            inversion V1 as [|s' v' V2]; subst. eexists. eapply so_registry; eassumption. }
      destruct S0 as (s & S0). eexists. apply do_table. exact S0.
    - destruct T; discriminate.
    - destruct T; discriminate.
    - pose proof (nice_at _ _ _ _ _ (entry_at_node _ _ _ EN) (manifest_nice _ _ M)) as L. destruct v as [l0 sp0 x0 o0 q0| | | | | | |]; try (destruct T as [T|T]; discriminate T); try destruct L.
      assert (R : exists r rs', rs = r :: rs').
      { destruct PL as (b & sec & _ & _ & ->). rewrite entry_at_last in EN. destruct (node_at sec (NTable m)) as [[t| | |]|] eqn:NS; try discriminate.
        pose proof (trail_node sec [] (NTable m)) as TN. rewrite NS in TN. destruct (trail [] sec (NTable m)) as [[acc n]|] eqn:TR; [|discriminate]. cbn in TN. injection TN as <-.
        assert (TR2 : trail [] (sec ++ [SKey name]) (NTable m) = Some (rs :: acc, NScalar (VString l0 sp0 x0 o0 q0))) by (rewrite trail_app, TR; cbn; rewrite EN; reflexivity).
        destruct M as (a & es & es' & M1 & M2). destruct (C35_references _ _ _ _ _ M1 M2 _ _ _ TR2) as [[NE _] _]. destruct rs; [congruence|eauto]. }
      destruct R as (r & rs' & ->). destruct (check_reads _ _ _ _ _ _ _ M E A (rd_string _ _ _ _ _ _ _ _ _ EN)) as (v & V). eexists. apply do_string. exact V.
Qed.
Theorem C39_nothing_left_out prof input m deps ds kind target name p e : manifest input m -> check prof m = Ok (deps, ds) ->
  dep_place (NTable m) kind target name p -> entry_at p (NTable m) = Some e -> datatype_of (e_node e) = DtString \/ datatype_of (e_node e) = DtTable ->
  exists d, In d deps /\ dp_kind d = kind /\ dp_target d = target /\ dp_name d = name /\ dp_entry d = e.
Proof.
  intros M E PL EN T. destruct (C39_dependencies _ _ _ _ _ M E) as (pl & -> & _ & IN).
  destruct (dep_read _ _ _ _ _ _ _ _ _ _ M E PL EN T) as (d & D). exists d. split.
  - apply in_map_iff. exists (p, d). split; [reflexivity|]. apply IN. exists kind, target, name, e. auto.
  - destruct D; cbn; auto.
Qed.

(** ** C55 *)

(** What is reported is exactly what is wrong with the manifest. *)
Theorem C55_exact_diagnostics prof input m deps ds : manifest input m -> check prof m = Ok (deps, ds) ->
  forall d, In d ds <-> problem prof (NTable m) d.
Proof.
  intros M E. destruct (manifest_does prof _ _ M) as [[E0 _]|(_ & x & ds0 & E0 & _ & H)]; [congruence|]. rewrite E in E0. injection E0 as <- <-. exact H.
Qed.

(** ** C40 *)

Definition is_key (s : step) : Prop := exists k, s = SKey k.
Lemma keys_table dc m : wf_table dc root_chains m -> nice leaf any_elem (NTable m) ->
  forall q, Forall is_key q -> forall t, node_at q (NTable m) = Some (NTable t) -> exists p, table_at dc m q p t.
Proof.
  intros W N0 q. induction q as [|s q IH] using rev_ind; intros K t E.
  - injection E as <-. exists []. apply top_table; assumption.
  - apply Forall_app in K. destruct K as [K1 K2]. apply Forall_inv in K2. destruct K2 as [k ->].
    assert (E2 : exists t0 e, node_at q (NTable m) = Some (NTable t0) /\ tget t0 k = Some e /\ e_node e = NTable t).
    { rewrite (trail_node _ []), trail_app in E. rewrite (trail_node q []). destruct (trail [] q (NTable m)) as [[acc x]|]; [|discriminate].
      cbn in E. destruct x as [t0|es|pa v es|v]; try discriminate. destruct (tget t0 k) as [e|] eqn:G; [|discriminate]. cbn in E. injection E as E.
      exists t0, e. auto. }
    destruct E2 as (t0 & e & E0 & G & EN). destruct (IH K1 _ E0) as (p & A). pose proof (table_keyed _ _ _ _ _ _ _ A G) as KE.
    eexists. exact (keyed_table _ _ _ _ _ _ _ KE EN).
Qed.
Lemma dep_place_keys root p : any_dep root p -> Forall is_key p /\ p <> [].
Proof.
  intros (kind & target & name & b & s & B & S0 & ->). split; [|destruct s; discriminate]. apply Forall_app. split; [|repeat constructor; eexists; reflexivity].
  assert (KB : Forall is_key b) by (destruct B; repeat constructor; eexists; reflexivity).
  destruct S0; apply Forall_app; (split; [exact KB|]); repeat constructor; eexists; reflexivity.
Qed.
(** What a message about a key of a dependency points at. *)
Lemma key_marked input m p t k e : manifest input m -> any_dep (NTable m) p -> node_at p (NTable m) = Some (NTable t) -> tget t (bs k) = Some e ->
  exists ls sp tx tx', marks (NTable m) (p ++ [at_key k]) 0 ls sp /\ shown p tx /\ shown (p ++ [at_key k]) tx'.
Proof.
  intros M A E G. destruct (manifest_wf _ _ M) as (dc & W). pose proof (nice_impl _ _ _ (lit_leaf input) _ (manifest_nice _ _ M)) as N0.
  destruct (dep_place_keys _ _ A) as [K NE]. destruct (keys_table _ _ W N0 _ K _ E) as (pa & TA). pose proof (table_keyed _ _ _ _ _ _ _ TA G) as KE.
  destruct (keyed_reprs _ _ _ _ _ _ KE) as (r & rs & R).
  assert (R0 : nth_error (e_reprs e) (N.to_nat 0) = Some r) by (rewrite R; reflexivity).
  destruct (keyed_marks _ _ _ _ _ _ _ _ KE R0) as (ls & sp & _ & _ & _ & MK).
  destruct (table_text _ _ _ _ _ TA) as (tx & _ & [[X _]|SH]); [contradiction|]. destruct (keyed_text _ _ _ _ _ _ KE) as (tx' & _ & SH').
  exists ls, sp, tx, tx'. split; [apply MK; auto|]. auto.
Qed.
Lemma str_field_some t k : str_field t k <> None -> exists e, tget t (bs k) = Some e.
Proof. unfold str_field. destruct (tget t (bs k)) as [e|]; [eauto|congruence]. Qed.
Lemma bool_field_some t k w : bool_field t k = Some w -> exists e, tget t (bs k) = Some e.
Proof. unfold bool_field. destruct (tget t (bs k)) as [e|]; [eauto|congruence]. Qed.
Lemma any_dep_entry m p t : any_dep (NTable m) p -> node_at p (NTable m) = Some (NTable t) -> exists rs, entry_at p (NTable m) = Some (mke (NTable t) rs).
Proof.
  intros (kind & target & name & b & s & _ & _ & ->) E. rewrite entry_at_last. rewrite (trail_node _ []), trail_app in E. rewrite (trail_node s []).
  destruct (trail [] s (NTable m)) as [[acc x]|]; [|discriminate]. cbn in E. destruct x as [t0|es|pa v es|v]; try discriminate. cbn.
  destruct (tget t0 name) as [[n rs]|]; [|discriminate]. cbn in E. injection E as ->. eauto.
Qed.
(** The dependency at a place that is a table. *)
Lemma spec_listed prof input m deps ds p t : manifest input m -> check prof m = Ok (deps, ds) -> any_dep (NTable m) p -> node_at p (NTable m) = Some (NTable t) ->
  exists d, In d deps /\ dep_at prof (NTable m) p d /\ spec_of prof t (dp_spec d).
Proof.
  intros M E A N0. destruct (any_dep_entry _ _ _ A N0) as (rs & EN). pose proof A as (kind & target & name & PL).
  destruct (C39_nothing_left_out _ _ _ _ _ _ _ _ _ _ M E PL EN (or_intror eq_refl)) as (d & I0 & D1 & D2 & D3 & D4).
  destruct (C39_dependencies _ _ _ _ _ M E) as (pl & -> & _ & IN). apply in_map_iff in I0. destruct I0 as ([p' d'] & X & I0). cbn in X. subst d'.
  pose proof I0 as I1. apply IN in I0. destruct I0 as (kind' & target' & name' & e' & PL' & EN' & DO).
  assert (D : dependency_of prof kind target name (mke (NTable t) rs) d).
  { inversion DO; subst; cbn in *; subst; try discriminate.
    match goal with H : mke _ _ = mke _ _ |- _ => injection H as <- <- end. apply do_table. assumption. }
  exists d. split; [apply in_map_iff; exists (p', d); auto|]. split; [exists kind, target, name, (mke (NTable t) rs); auto|].
  inversion D; subst. assumption.
Qed.
(** The key is reported with an error or a warning. *)
Definition error_at (root : node) (p : list step) (k : string) (kind : ekind) (ds : list diag) : Prop :=
  exists ls sp tx, marks root (p ++ [at_key k]) 0 ls sp /\ shown p tx /\ In (DError ls tx sp kind) ds.
Definition ignored_at (root : node) (p : list step) (k : string) (ds : list diag) : Prop :=
  exists ls sp tx wls wsp, marks root (p ++ [at_key "workspace"]) 0 wls wsp /\ marks root (p ++ [at_key k]) 0 ls sp /\ shown (p ++ [at_key k]) tx /\
    In (DWarn ls tx sp (WorkspaceDepIgnoredKey wsp)) ds.
(** The dependency at a place of the manifest, and its keys. *)
Definition at_table (m : mtable) (p : list step) (t : mtable) : Prop := any_dep (NTable m) p /\ node_at p (NTable m) = Some (NTable t).

(** A git source with a registry or a path is an error at both keys. *)
Theorem C40_git_registry prof input m deps ds p t : manifest input m -> check prof m = Ok (deps, ds) -> at_table m p t ->
  bool_field t "workspace" = None -> str_field t "git" <> None -> str_field t "registry" <> None ->
  (exists d, In d deps /\ dep_at prof (NTable m) p d /\ dp_spec d = SConflicting) /\
  error_at (NTable m) p "git" AmbigousDepSpecGitRegistry ds /\ error_at (NTable m) p "registry" AmbigousDepSpecGitRegistry ds.
Proof.
  intros M E [A N0] BW G R. assert (C : conflicting t) by (split; auto). split; [|split].
  - destruct (spec_listed _ _ _ _ _ _ _ M E A N0) as (d & I0 & DA & SO). exists d. split; [exact I0|]. split; [exact DA|]. exact (spec_fun prof _ _ _ SO (so_conflicting _ _ BW C)).
  - destruct (str_field_some _ _ G) as (e & TG). destruct (key_marked _ _ _ _ _ _ M A N0 TG) as (ls & sp & tx & _ & MK & SH & _). exists ls, sp, tx. split; [exact MK|]. split; [exact SH|].
    apply (C55_exact_diagnostics _ _ _ _ _ M E). apply (pr_dep _ _ p); [exact A|]. apply dp_source with (t := t); [exact N0|].
    eapply sp_git_registry; try eassumption. cbn; auto.
  - destruct (str_field_some _ _ R) as (e & TG). destruct (key_marked _ _ _ _ _ _ M A N0 TG) as (ls & sp & tx & _ & MK & SH & _). exists ls, sp, tx. split; [exact MK|]. split; [exact SH|].
    apply (C55_exact_diagnostics _ _ _ _ _ M E). apply (pr_dep _ _ p); [exact A|]. apply dp_source with (t := t); [exact N0|].
    eapply sp_git_registry; try eassumption. cbn; auto.
Qed.
Theorem C40_git_path prof input m deps ds p t : manifest input m -> check prof m = Ok (deps, ds) -> at_table m p t ->
  bool_field t "workspace" = None -> str_field t "git" <> None -> str_field t "path" <> None ->
  (exists d, In d deps /\ dep_at prof (NTable m) p d /\ dp_spec d = SConflicting) /\
  error_at (NTable m) p "git" AmbigousDepSpecGitRegistry ds /\
  (str_field t "registry" = None -> error_at (NTable m) p "path" AmbigousDepSpecGitRegistry ds).
Proof.
  intros M E [A N0] BW G R. destruct (str_field t "registry") as [r|] eqn:RE.
  - destruct (C40_git_registry prof _ _ _ _ _ _ M E (conj A N0) BW G) as (H1 & H2 & _); [congruence|]. split; [exact H1|]. split; [exact H2|]. discriminate.
  - assert (C : conflicting t) by (split; auto). split; [|split].
    + destruct (spec_listed _ _ _ _ _ _ _ M E A N0) as (d & I0 & DA & SO). exists d. split; [exact I0|]. split; [exact DA|]. exact (spec_fun prof _ _ _ SO (so_conflicting _ _ BW C)).
    + destruct (str_field_some _ _ G) as (e & TG). destruct (key_marked _ _ _ _ _ _ M A N0 TG) as (ls & sp & tx & _ & MK & SH & _). exists ls, sp, tx. split; [exact MK|]. split; [exact SH|].
      apply (C55_exact_diagnostics _ _ _ _ _ M E). apply (pr_dep _ _ p); [exact A|]. apply dp_source with (t := t); [exact N0|].
      eapply sp_git_path; try eassumption. cbn; auto.
    + intros _. destruct (str_field_some _ _ R) as (e & TG). destruct (key_marked _ _ _ _ _ _ M A N0 TG) as (ls & sp & tx & _ & MK & SH & _). exists ls, sp, tx. split; [exact MK|]. split; [exact SH|].
      apply (C55_exact_diagnostics _ _ _ _ _ M E). apply (pr_dep _ _ p); [exact A|]. apply dp_source with (t := t); [exact N0|].
      eapply sp_git_path; try eassumption. cbn; auto.
Qed.
(** So are two of branch, tag and revision of a git source, ... *)
Theorem C40_git_references prof input m deps ds p t a b : manifest input m -> check prof m = Ok (deps, ds) -> at_table m p t ->
  bool_field t "workspace" = None -> str_field t "git" <> None -> str_field t "registry" = None -> str_field t "path" = None ->
  In a ["branch"; "tag"; "rev"]%string -> In b ["branch"; "tag"; "rev"]%string -> a <> b -> str_field t a <> None -> str_field t b <> None ->
  (exists d g v, In d deps /\ dep_at prof (NTable m) p d /\ dp_spec d = SGit g GConflicting v) /\
  error_at (NTable m) p a AmbigousGitSpec ds /\ error_at (NTable m) p b AmbigousGitSpec ds.
Proof.
  intros M E [A N0] BW G R P IA IB NE FA FB. assert (C : ~ conflicting t) by (intros [_ [H|H]]; congruence).
  assert (GC : git_of t GConflicting).
  { cbn in IA, IB. destruct IA as [<-|[<-|[<-|[]]]], IB as [<-|[<-|[<-|[]]]]; try congruence.
    all: first [apply (go_conflict t "branch" "tag"); [cbn; tauto|assumption|assumption]
      |apply (go_conflict t "branch" "rev"); [cbn; tauto|assumption|assumption]
      |apply (go_conflict t "tag" "rev"); [cbn; tauto|assumption|assumption]]. }
  split; [|split].
  - destruct (spec_listed _ _ _ _ _ _ _ M E A N0) as (d & I0 & DA & SO). exists d.
    inversion SO as [| | |g s v _ SG _ GS _ EQ| | |]; try congruence. exists g, v. split; [exact I0|]. split; [exact DA|]. f_equal. exact (git_fun _ _ _ GS GC).
  - destruct (str_field_some _ _ FA) as (e & TG). destruct (key_marked _ _ _ _ _ _ M A N0 TG) as (ls & sp & tx & _ & MK & SH & _). exists ls, sp, tx. split; [exact MK|]. split; [exact SH|].
    apply (C55_exact_diagnostics _ _ _ _ _ M E). apply (pr_dep _ _ p); [exact A|]. apply dp_source with (t := t); [exact N0|].
    exact (sp_refs _ _ _ a ls sp tx BW G C GC IA FA MK SH).
  - destruct (str_field_some _ _ FB) as (e & TG). destruct (key_marked _ _ _ _ _ _ M A N0 TG) as (ls & sp & tx & _ & MK & SH & _). exists ls, sp, tx. split; [exact MK|]. split; [exact SH|].
    apply (C55_exact_diagnostics _ _ _ _ _ M E). apply (pr_dep _ _ p); [exact A|]. apply dp_source with (t := t); [exact N0|].
    exact (sp_refs _ _ _ b ls sp tx BW G C GC IB FB MK SH).
Qed.
(** ... and any of them without a git source. *)
Theorem C40_reference_without_git prof input m deps ds p t a : manifest input m -> check prof m = Ok (deps, ds) -> at_table m p t ->
  bool_field t "workspace" = None -> str_field t "git" = None -> In a ["branch"; "tag"; "rev"]%string -> str_field t a <> None ->
  error_at (NTable m) p a (DepIgnoredGitKey (bs a)) ds.
Proof.
  intros M E [A N0] BW G IA FA.
  destruct (str_field_some _ _ FA) as (e & TG). destruct (key_marked _ _ _ _ _ _ M A N0 TG) as (ls & sp & tx & _ & MK & SH & _). exists ls, sp, tx. split; [exact MK|]. split; [exact SH|].
  apply (C55_exact_diagnostics _ _ _ _ _ M E). apply (pr_dep _ _ p); [exact A|]. apply dp_source with (t := t); [exact N0|].
  exact (sp_no_git _ _ _ a ls sp tx BW G IA FA MK SH).
Qed.
(** A source beside that of the workspace is a warning at its key. *)
Theorem C40_workspace_key prof input m deps ds p t w a : manifest input m -> check prof m = Ok (deps, ds) -> at_table m p t ->
  bool_field t "workspace" = Some w -> bv_val (ba_val w) = true ->
  In a ["version"; "registry"; "path"; "git"; "branch"; "tag"; "rev"]%string -> str_field t a <> None ->
  (exists d, In d deps /\ dep_at prof (NTable m) p d /\ dp_spec d = SWorkspace w) /\ ignored_at (NTable m) p a ds.
Proof.
  intros M E [A N0] BW WT IA FA. split.
  - destruct (spec_listed _ _ _ _ _ _ _ M E A N0) as (d & I0 & DA & SO). exists d. split; [exact I0|]. split; [exact DA|]. exact (spec_fun prof _ _ _ SO (so_workspace _ _ _ BW WT)).
  - destruct (str_field_some _ _ FA) as (e & TG). destruct (key_marked _ _ _ _ _ _ M A N0 TG) as (ls & sp & _ & tx & MK & _ & SH).
    destruct (bool_field_some _ _ _ BW) as (ew & TW). destruct (key_marked _ _ _ _ _ _ M A N0 TW) as (wls & wsp & _ & _ & WMK & _).
    exists ls, sp, tx, wls, wsp. split; [exact WMK|]. split; [exact MK|]. split; [exact SH|].
    apply (C55_exact_diagnostics _ _ _ _ _ M E). apply (pr_dep _ _ p); [exact A|]. apply dp_source with (t := t); [exact N0|].
    exact (sp_workspace_key _ _ _ w a wls wsp ls sp tx BW WT IA FA WMK MK SH).
Qed.
Theorem C40_workspace_false prof input m deps ds p t w : manifest input m -> check prof m = Ok (deps, ds) -> at_table m p t ->
  bool_field t "workspace" = Some w -> bv_val (ba_val w) = false ->
  (exists d, In d deps /\ dep_at prof (NTable m) p d /\ dp_spec d = SInvalid) /\ error_at (NTable m) p "workspace" DepWorkspaceIsFalse ds.
Proof.
  intros M E [A N0] BW WT. split.
  - destruct (spec_listed _ _ _ _ _ _ _ M E A N0) as (d & I0 & DA & SO). exists d. split; [exact I0|]. split; [exact DA|]. exact (spec_fun prof _ _ _ SO (so_no_workspace _ _ _ BW WT)).
  - destruct (bool_field_some _ _ _ BW) as (ew & TW). destruct (key_marked _ _ _ _ _ _ M A N0 TW) as (ls & sp & tx & _ & MK & SH & _).
    exists ls, sp, tx. split; [exact MK|]. split; [exact SH|].
    apply (C55_exact_diagnostics _ _ _ _ _ M E). apply (pr_dep _ _ p); [exact A|]. apply dp_source with (t := t); [exact N0|].
    exact (sp_workspace_false _ _ _ w ls sp tx BW WT MK SH).
Qed.
(** Nothing else is reported so. *)
Lemma source_said prof root d : problem prof root d ->
  (exists p t, any_dep root p /\ node_at p root = Some (NTable t) /\ source_problem root p t d) \/
  ~ ((exists ls tx sp k, d = DError ls tx sp k /\ (k = AmbigousDepSpecGitRegistry \/ k = AmbigousGitSpec)) \/ (exists ls tx sp w, d = DWarn ls tx sp (WorkspaceDepIgnoredKey w))).
Proof.
  assert (T : forall p w, type_problem root p w d -> ~ ((exists ls tx sp k, d = DError ls tx sp k /\ (k = AmbigousDepSpecGitRegistry \/ k = AmbigousGitSpec)) \/ (exists ls tx sp w, d = DWarn ls tx sp (WorkspaceDepIgnoredKey w)))).
  { intros p w (x & n & ls & sp & tx & _ & _ & _ & _ & _ & ->) [(? & ? & ? & ? & H & [-> | ->])|(? & ? & ? & ? & H)]; discriminate. }
  assert (U : forall p, unknown_problem root p d -> ~ ((exists ls tx sp k, d = DError ls tx sp k /\ (k = AmbigousDepSpecGitRegistry \/ k = AmbigousGitSpec)) \/ (exists ls tx sp w, d = DWarn ls tx sp (WorkspaceDepIgnoredKey w)))).
  { intros p (n & ls & sp & tx & _ & _ & ->) [(? & ? & ? & ? & H & [-> | ->])|(? & ? & ? & ? & H)]; discriminate. }
  assert (O : forall p o n, old_problem root p o n d -> ~ ((exists ls tx sp k, d = DError ls tx sp k /\ (k = AmbigousDepSpecGitRegistry \/ k = AmbigousGitSpec)) \/ (exists ls tx sp w, d = DWarn ls tx sp (WorkspaceDepIgnoredKey w)))).
  { intros p o n (? & ls & sp & tx & _ & _ & [[_ ->]|(? & ? & ? & ? & _ & _ & _ & ->)]) [(? & ? & ? & ? & H & [-> | ->])|(? & ? & ? & ? & H)]; discriminate. }
  intros P. inversion P; subst; eauto.
  match goal with H : dep_problem _ _ _ _ |- _ => rename H into DP; inversion DP; subst; eauto end.
  all: try (right; intros [(? & ? & ? & ? & H' & [-> | ->])|(? & ? & ? & ? & H')]; discriminate).
  left. eauto.
Qed.
Theorem C40_no_other_conflicts prof input m deps ds : manifest input m -> check prof m = Ok (deps, ds) ->
  (forall ls tx sp, In (DError ls tx sp AmbigousDepSpecGitRegistry) ds -> exists p t, at_table m p t /\ bool_field t "workspace" = None /\ str_field t "git" <> None /\
     (str_field t "registry" <> None \/ str_field t "path" <> None)) /\
  (forall ls tx sp, In (DError ls tx sp AmbigousGitSpec) ds -> exists p t a b, at_table m p t /\ bool_field t "workspace" = None /\ str_field t "git" <> None /\
     In (a, b) [("branch", "tag"); ("branch", "rev"); ("tag", "rev")]%string /\ str_field t a <> None /\ str_field t b <> None) /\
  (forall ls tx sp wsp, In (DWarn ls tx sp (WorkspaceDepIgnoredKey wsp)) ds -> exists p t w a, at_table m p t /\ bool_field t "workspace" = Some w /\ bv_val (ba_val w) = true /\
     In a ["version"; "registry"; "path"; "git"; "branch"; "tag"; "rev"]%string /\ str_field t a <> None).
Proof.
  intros M E. split; [|split].
  - intros ls tx sp I0. apply (C55_exact_diagnostics _ _ _ _ _ M E) in I0. apply source_said in I0. destruct I0 as [(p & t & A & N0 & SP)|H]; [|exfalso; apply H; left; eauto 10].
    exists p, t. split; [split; assumption|]. inversion SP; subst; auto.
  - intros ls tx sp I0. apply (C55_exact_diagnostics _ _ _ _ _ M E) in I0. apply source_said in I0. destruct I0 as [(p & t & A & N0 & SP)|H]; [|exfalso; apply H; left; eauto 10].
    inversion SP; subst. match goal with H : git_of _ _ |- _ => inversion H as [| | | |a b IAB FA FB]; subst end. exists p, t, a, b. split; [split; assumption|]. auto 10.
  - intros ls tx sp wsp I0. apply (C55_exact_diagnostics _ _ _ _ _ M E) in I0. apply source_said in I0. destruct I0 as [(p & t & A & N0 & SP)|H]; [|exfalso; apply H; right; eauto 10].
    inversion SP; subst. eexists p, t, _, _. split; [split; assumption|]. eauto 10.
Qed.

(** ** A manifest *)
Definition check_example : list N := bs "[dependencies]" ++ [10] ++ bs "a = '1.2'" ++ [10] ++ bs "b = { git = 'u', path = 'p' }" ++ [10]
  ++ bs "c = { git = 'u', tag = 't', rev = 'r', version = '-' }" ++ [10]
  ++ bs "[target.'cfg(unix)'.dev-dependencies.d]" ++ [10] ++ bs "workspace = true" ++ [10] ++ bs "version = '1'" ++ [10] ++ bs "features = ['f', 1]" ++ [10]
  ++ bs "[dev_dependencies]" ++ [10] ++ bs "e = 1" ++ [10] ++ bs "[wat]".
Definition diag_kind (d : diag) : option (ekind + wkind) := match d with DError _ _ _ k => Some (inl k) | DWarn _ _ _ k => Some (inr k) | DSemver _ => None end.
Definition span_at (l a l' b : N) : span := mkspan (mkpos l a) (mkpos l' b).
Example check_example_checks : exists m deps ds, manifest check_example m /\ check Debug m = Ok (deps, ds) /\
  map (fun d => (dp_name d, dp_kind d, dp_target d)) deps =
    [(bs "a", Normal, None); (bs "b", Normal, None); (bs "c", Normal, None); (bs "d", Dev, Some (bs "cfg(unix)"))] /\
  map diag_kind ds = [Some (inl AmbigousDepSpecGitRegistry); Some (inl AmbigousDepSpecGitRegistry); Some (inl AmbigousGitSpec); Some (inl AmbigousGitSpec); None;
    Some (inl (WrongDatatype DtString DtInt)); Some (inr (WorkspaceDepIgnoredKey (span_at 5 0 5 16)));
    Some (inr (DeprecatedUnderscore (bs "dev_dependencies") (bs "dev-dependencies"))); Some (inl (DepWrongDatatype DtInt)); Some (inr IgnoredUnknownKey)].
Proof.
  eexists _, _, _. split; [|split; [|split]].
  - eexists _, _, _. split; [vm_compute; reflexivity|vm_compute; reflexivity].
  - vm_compute. reflexivity.
  - vm_compute. reflexivity.
  - vm_compute. reflexivity.
Qed.
(** Its dependencies meet what C40 asks of them. *)
Definition git_and_path (t : mtable) : bool := match str_field t "git", str_field t "path", bool_field t "workspace" with Some _, Some _, None => true | _, _, _ => false end.
Definition two_references (t : mtable) : bool := match str_field t "git", str_field t "tag", str_field t "rev", bool_field t "workspace" with Some _, Some _, Some _, None => true | _, _, _, _ => false end.
Definition of_workspace (t : mtable) : bool := match bool_field t "workspace", str_field t "version" with Some w, Some _ => bv_val (ba_val w) | _, _ => false end.
Example check_example_conflicts : exists m tb tc td, manifest check_example m /\
  node_at [at_key "dependencies"; at_key "b"] (NTable m) = Some (NTable tb) /\ git_and_path tb = true /\
  node_at [at_key "dependencies"; at_key "c"] (NTable m) = Some (NTable tc) /\ two_references tc = true /\
  node_at [at_key "target"; SKey (bs "cfg(unix)"); at_key "dev-dependencies"; at_key "d"] (NTable m) = Some (NTable td) /\ of_workspace td = true.
Proof.
  eexists _, _, _, _. split; [eexists _, _, _; split; [vm_compute; reflexivity|vm_compute; reflexivity]|].
  repeat (split; [vm_compute; reflexivity|]). vm_compute. reflexivity.
Qed.
Example check_example_places root : dep_place root Normal None (bs "b") [at_key "dependencies"; at_key "b"] /\
  dep_place root Dev (Some (bs "cfg(unix)")) (bs "d") [at_key "target"; SKey (bs "cfg(unix)"); at_key "dev-dependencies"; at_key "d"].
Proof.
  split.
  - exists [], [at_key "dependencies"]. split; [constructor|]. split; [exact (sec_normal root [])|reflexivity].
  - exists [at_key "target"; SKey (bs "cfg(unix)")], [at_key "target"; SKey (bs "cfg(unix)"); at_key "dev-dependencies"]. split; [constructor|]. split; [|reflexivity].
    exact (sec_dev root [at_key "target"; SKey (bs "cfg(unix)")]).
Qed.
(** A number that overflows. *)
Definition overflow_example : list N := bs "[build-dependencies]" ++ [10] ++ bs "a = { version = '4294967296' }".
Example overflow_example_panics : exists m x, manifest overflow_example m /\ check Debug m = Panic /\ check Release m = Ok x.
Proof.
  eexists _, _. split; [eexists _, _, _; split; [vm_compute; reflexivity|vm_compute; reflexivity]|]. split; [vm_compute; reflexivity|vm_compute; reflexivity].
Qed.

Print Assumptions C39_dependencies.
Print Assumptions C39_one_reading.
Print Assumptions C39_nothing_left_out.
Print Assumptions C40_git_registry.
Print Assumptions C40_git_path.
Print Assumptions C40_git_references.
Print Assumptions C40_reference_without_git.
Print Assumptions C40_workspace_key.
Print Assumptions C40_workspace_false.
Print Assumptions C40_no_other_conflicts.
Print Assumptions C54_check_panics.
Print Assumptions C54_only_on_overflow.
Print Assumptions C54_release_total.
Print Assumptions C55_exact_diagnostics.
