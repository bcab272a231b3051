(** Theorems about manifests in terms of the value of the document (C74, C75).
    Specification: ManifestSpec.v. *)
From Verif Require Import Base BaseProofs CommonModel TomlError LitModel LexModel LexSpec ParseModel ParseSpec ParsePlace PropParse
  MapModel MapSpec MapWf MapRel MapExt MapNice PropMap IdeModel IdeSpec IdeProofs PropIde CliModel MeanSpec MeanProofs CliSpec PropCli ManifestSpec ManifestProofs.
From Verif Require SemverModel SemverSpec PropSemver SemverReq.

(** In debug builds a requirement is what the grammar says; in release builds
    if no number in it is from 4294967296 to 4294967299 (C05). *)
Definition settled (prof : profile) (text : list N) (doc : sval) : Prop :=
  prof = Debug \/ (scalars text /\ forall p s, sval_at p doc = Some (SString s) -> ~ SemverSpec.contains_overflow (utf8 s)).

(** ** Dependencies *)
Section Data.
Context (prof : profile).
Definition clear (s : strassign) : Prop :=
  prof = Debug \/ (valid_utf8 (utf8 (str_data s)) /\ ~ SemverSpec.contains_overflow (utf8 (str_data s))).
Lemma clear_debug s p : clear s -> SemverModel.parse_requirement prof (utf8 (str_data s)) p = SemverModel.parse_requirement Debug (utf8 (str_data s)) p.
Proof. intros [-> |[V O0]]; [reflexivity|]. apply PropSemver.C07_parse_requirement_any_build; assumption. Qed.
Lemma requirement_yes s v : clear s -> requirement prof s (Ok v) -> SemverSpec.req_grammar (utf8 (str_data s)) (SemverModel.r_comparators v).
Proof.
  intros C (sp & _ & E). change (sv_text (sa_val s)) with (str_data s) in E. rewrite (clear_debug _ _ C) in E. apply PropSemver.C07_parse_requirement_grammar in E. destruct E as (cs & G & ->). exact G.
Qed.
Lemma requirement_no s e : clear s -> requirement prof s (Err e) -> ~ is_requirement (str_data s).
Proof.
  intros C (sp & _ & E) (cs & G). change (sv_text (sa_val s)) with (str_data s) in E. rewrite (SemverReq.parse_requirement_complete prof _ (s_start sp) _ G) in E. discriminate.
Qed.
Lemma version_gives s v : clear s -> version_of prof s v -> version_in (str_data s) (version_data v).
Proof.
  intros C H. destruct H as [v R|e R].
  - apply vi_yes. exact (requirement_yes _ _ C R).
  - apply vi_no. exact (requirement_no _ _ C R).
Qed.
Lemma versions_give o v : (forall s, o = Some s -> clear s) -> opt_version prof o v -> may_version (option_map str_data o) (option_map version_data v).
Proof. intros C H. destruct H as [|s v H]; constructor. apply version_gives; auto. Qed.
Section Table.
Context (P : value -> Prop) (Q : avalue -> Prop) (t : mtable).
Hypothesis NICE : nice P Q (NTable t).
Hypothesis SOLID : solid t.
Hypothesis CLEAR : forall s, str_field t "version" = Some s -> clear s.
Lemma source_gives s : spec_of prof t s -> source_of (simple t) (source_data s).
Proof.
  pose proof (text_field P Q t NICE SOLID) as T. pose proof (flag_field P Q t NICE SOLID) as F. intros H.
  destruct H as [w B W|w B W|B C|g s v B G C GO V|p v B G PA V|s v B G PA VE V|B G PA VE]; cbn [source_data option_map].
  - apply from_workspace. rewrite F, B. cbn. unfold flag_data. congruence.
  - apply from_nowhere. rewrite F, B. cbn. unfold flag_data. congruence.
  - apply (conflicting_data P Q t NICE SOLID) in C. apply from_several; [rewrite F, B; reflexivity|tauto|tauto].
  - rewrite <- (git_data P Q t NICE SOLID _ GO).
    assert (X : str_field t "path" = None /\ str_field t "registry" = None).
    { unfold conflicting in C. destruct (str_field t "path"), (str_field t "registry"); try (split; reflexivity); exfalso; apply C; (split; [congruence|]); try (left; congruence); right; congruence. }
    destruct X as [X1 X2]. apply from_git; [rewrite F, B|rewrite T, G|rewrite T, X1|rewrite T, X2|]; try reflexivity. rewrite T. apply versions_give; assumption.
  - rewrite <- T. apply from_path; [rewrite F, B|rewrite T, G|rewrite T, PA|]; try reflexivity. rewrite T. apply versions_give; assumption.
  - rewrite <- T. apply (from_registry _ (str_data s)); [rewrite F, B|rewrite T, G|rewrite T, PA|rewrite T, VE|]; try reflexivity. apply version_gives; auto.
  - rewrite <- T. apply from_unknown; [rewrite F, B|rewrite T, G|rewrite T, PA|rewrite T, VE]; reflexivity.
Qed.
End Table.
Lemma dependency_gives P Q kind target name e d : nice P Q (e_node e) -> (forall t, e_node e = NTable t -> solid t) ->
  (forall s, (exists l sp x o q r rs, e = mke (NScalar (VString l sp x o q)) (r :: rs) /\ s = mksa r (mksv l sp x o q)) \/ (exists t, e_node e = NTable t /\ str_field t "version" = Some s) -> clear s) ->
  dependency_of prof kind target name e d -> depends (kind_data kind) target name (map_simple_val (e_node e)) (dep_data d).
Proof.
  intros N0 SO C H. destruct H as [l sp x o q r rs v V|t rs s S0]; cbn [e_node] in *.
  - cbn. apply dep_string. apply (version_gives (mksa r (mksv l sp x o q))); [|exact V]. apply C. left. exists l, sp, x, o, q, r, rs. auto.
  - unfold dep_data. cbn [dp_kind dp_target dp_name dp_package dp_spec dp_features df_default df_list dp_optional].
    rewrite <- (text_field P Q t N0 (SO _ eq_refl)), <- (flag_field P Q t N0 (SO _ eq_refl)), <- (default_data P Q t N0 (SO _ eq_refl)), <- (features_data P Q t N0).
    apply dep_table. apply (source_gives P Q t N0 (SO _ eq_refl)); [|exact S0]. intros s' E. apply C. right. exists t. auto.
Qed.
End Data.

(** ** Places *)
Lemma sval_at_app p q v : sval_at (p ++ q) v = match sval_at p v with Some x => sval_at q x | None => None end.
Proof.
  revert v. induction p as [|s p IH]; intros v; [reflexivity|]. cbn. destruct s as [k|i]; destruct v; try reflexivity.
  - destruct (sget t k); [apply IH|reflexivity].
  - destruct (nth_error l (N.to_nat i)); [apply IH|reflexivity].
Qed.
Lemma member_at v k : member v k = sval_at [SKey (bs k)] v.
Proof. destruct v; cbn; try reflexivity. destruct (sget t (bs k)); reflexivity. Qed.
Lemma group_at doc target b g : group doc target b g <-> base target b /\ sval_at b doc = Some g.
Proof.
  split.
  - intros H. destruct H as [|ts t v M G]; [split; [constructor|reflexivity]|]. split; [constructor|]. destruct doc as [us| | | | | | |]; try discriminate. cbn [member] in M. cbn [sval_at]. rewrite M, G. reflexivity.
  - intros [B E]. destruct B as [|t]; [injection E as <-; constructor|]. cbn [sval_at at_key] in E. destruct doc as [ts| | | | | | |]; try discriminate.
    destruct (sget ts (bs "target")) as [x|] eqn:X; [|discriminate]. destruct x as [us| | | | | | |]; try discriminate. destruct (sget us t) as [y|] eqn:Y; [|discriminate]. injection E as <-.
    apply (grp_target _ us); assumption.
Qed.
Definition mkind_of (k : mkind) : depkind := match k with ForAll => Normal | ForTests => Dev | ForBuild => Build end.
Lemma kind_of_data k : mkind_of (kind_data k) = k. Proof. destruct k; reflexivity. Qed.
Lemma kind_data_of k : kind_data (mkind_of k) = k. Proof. destruct k; reflexivity. Qed.
Lemma entry_of_node s k root x : node_at (s ++ [SKey k]) root = Some x -> exists e, entry_at (s ++ [SKey k]) root = Some e /\ e_node e = x.
Proof.
  intros E. rewrite entry_at_last. rewrite (trail_node _ []), trail_app in E. rewrite (trail_node s []).
  destruct (trail [] s root) as [[acc y]|]; [|discriminate]. cbn in E. destruct y as [t0|es|pa v es|v]; try discriminate. cbn.
  destruct (tget t0 k) as [e|]; [|discriminate]. cbn in E. injection E as <-. eauto.
Qed.
Section Places.
Context (P : value -> Prop) (Q : avalue -> Prop) (root : node).
Hypothesis NICE : nice P Q root.
Notation doc := (map_simple_val root).
Lemma section_gives target b g kind s : group doc target b g -> section root b kind s -> exists key, section_in g (kind_data kind) key /\ s = b ++ [at_key key].
Proof.
  intros G. apply group_at in G. destruct G as [_ G].
  assert (A : forall k, node_at (b ++ [at_key k]) root = None -> member g k = None).
  { intros k H. rewrite member_at. pose proof (simple_at P Q (b ++ [at_key k]) root NICE) as X. rewrite sval_at_app, G, H in X. exact X. }
  intros H. destruct H as [| |N0| |N0]; cbn [kind_data]; eexists; (split; [|reflexivity]); constructor; apply A; exact N0.
Qed.
Lemma gives_section target b g kind key : group doc target b g -> section_in g kind key -> section root b (mkind_of kind) (b ++ [at_key key]).
Proof.
  intros G. apply group_at in G. destruct G as [_ G].
  assert (A : forall k, member g k = None -> node_at (b ++ [at_key k]) root = None).
  { intros k H. rewrite member_at in H. pose proof (simple_at P Q (b ++ [at_key k]) root NICE) as X. rewrite sval_at_app, G in X. unfold at_key in X |- *. rewrite H in X.
    destruct (node_at (b ++ [SKey (bs k)]) root); [discriminate|reflexivity]. }
  intros H. destruct H as [| |N0| |N0]; cbn [mkind_of]; try apply A in N0; constructor; exact N0.
Qed.
Lemma places kind target name p v :
  (exists e, dep_place root kind target name p /\ entry_at p root = Some e /\ map_simple_val (e_node e) = v) <->
  (exists b g key t, group doc target b g /\ section_in g (kind_data kind) key /\ member g key = Some (STable t) /\ sget t name = Some v /\ p = b ++ [SKey (bs key); SKey name]).
Proof.
  split.
  - intros (e & (b & s & B & S0 & ->) & EN & EV). pose proof (entry_at_node _ _ _ EN) as NA.
    pose proof (simple_at P Q (s ++ [SKey name]) root NICE) as X. rewrite NA in X. cbn [option_map] in X. rewrite EV in X.
    assert (G : exists g, sval_at b doc = Some g).
    { assert (exists k, s = b ++ [at_key k]) as (k & ->) by (destruct S0; eexists; reflexivity). rewrite <- app_assoc, sval_at_app in X. destruct (sval_at b doc); [eauto|discriminate]. }
    destruct G as (g & G). assert (GG : group doc target b g) by (apply group_at; auto).
    destruct (section_gives _ _ _ _ _ GG S0) as (key & SI & ->). rewrite <- app_assoc, sval_at_app, G, sval_at_app in X. unfold at_key in X. rewrite <- member_at in X.
    destruct (member g key) as [x|] eqn:MG; [|discriminate]. destruct x as [t| | | | | | |]; try discriminate. cbn in X. destruct (sget t name) as [y|] eqn:Y; [|discriminate]. injection X as ->.
    exists b, g, key, t. split; [exact GG|]. split; [exact SI|]. split; [exact MG|]. split; [exact Y|]. rewrite <- app_assoc. reflexivity.
  - intros (b & g & key & t & G & SI & MG & SG & ->). pose proof (gives_section _ _ _ _ _ G SI) as S0. rewrite kind_of_data in S0.
    apply group_at in G. destruct G as [B G]. change (b ++ [SKey (bs key); SKey name]) with (b ++ [at_key key] ++ [SKey name]). rewrite app_assoc.
    assert (X : sval_at ((b ++ [at_key key]) ++ [SKey name]) doc = Some v).
    { rewrite !sval_at_app, G. unfold at_key. rewrite <- member_at, MG. cbn. rewrite SG. reflexivity. }
    rewrite (simple_at P Q _ root NICE) in X. destruct (node_at _ root) as [x|] eqn:NX; [|discriminate]. cbn in X. injection X as X.
    destruct (entry_of_node _ _ _ _ NX) as (e & EN & <-). exists e. split; [|auto]. exists b, (b ++ [at_key key]). auto.
Qed.
End Places.

(** ** C74 *)
Lemma manifest_table input m q t : manifest input m -> Forall is_key q -> node_at q (NTable m) = Some (NTable t) -> exists dc p, wf_table dc root_chains m /\ table_at dc m q p t.
Proof.
  intros M K E. destruct (manifest_wf _ _ M) as (dc & W). pose proof (nice_impl _ _ _ (lit_leaf input) _ (manifest_nice _ _ M)) as N0.
  destruct (keys_table _ _ W N0 _ K _ E) as (p & A). eauto.
Qed.
Lemma manifest_solid input m q t : manifest input m -> Forall is_key q -> node_at q (NTable m) = Some (NTable t) -> solid t.
Proof.
  intros M K E k e G. destruct (manifest_table _ _ _ _ M K E) as (dc & p & W & A). destruct (keyed_reprs _ _ _ _ _ _ (table_keyed _ _ _ _ _ _ _ A G)) as (r & rs & ->). discriminate.
Qed.
Lemma text_value p m s l sp o q : forall P Q, nice P Q (NTable m) -> node_at p (NTable m) = Some (NScalar (VString l sp s o q)) -> sval_at p (STable (map_simple m)) = Some (SString s).
Proof. intros P Q N0 E. change (STable (map_simple m)) with (map_simple_val (NTable m)). rewrite (simple_at P Q _ _ N0), E. reflexivity. Qed.
Lemma settled_clear prof text m p l sp x o q r : manifest text m -> settled prof text (STable (map_simple m)) ->
  node_at p (NTable m) = Some (NScalar (VString l sp x o q)) -> clear prof (mksa r (mksv l sp x o q)).
Proof.
  intros M ST E. pose proof (manifest_nice _ _ M) as N0. destruct ST as [-> |[SC NO]]; [left; reflexivity|]. right. unfold str_data. cbn [sa_val sv_text]. split.
  - pose proof (nice_at _ _ _ _ _ E N0) as L. cbn in L. destruct L as (L1 & _ & L2). apply (literal_utf8 text (mksv l sp x o q)); [exact SC|split; assumption].
  - apply (NO p). exact (text_value _ _ _ _ _ _ _ _ _ N0 E).
Qed.
Lemma field_node q t k s m : node_at q (NTable m) = Some (NTable t) -> str_field t k = Some s ->
  exists l sp x o y r, node_at (q ++ [at_key k]) (NTable m) = Some (NScalar (VString l sp x o y)) /\ s = mksa r (mksv l sp x o y).
Proof.
  intros E F. unfold str_field in F. destruct (tget t (bs k)) as [[n rs]|] eqn:G; [|discriminate]. destruct n as [| | |v]; try discriminate. destruct v as [l sp x o y| | | | | | |]; try discriminate.
  destruct rs as [|r rs]; [discriminate|]. injection F as <-. exists l, sp, x, o, y, r. split; [|reflexivity].
  rewrite (trail_node _ []), trail_app. rewrite (trail_node q []) in E. destruct (trail [] q (NTable m)) as [[acc n]|]; [|discriminate]. cbn in E. injection E as ->.
  cbn [trail at_key]. rewrite G. reflexivity.
Qed.
Lemma place_gives prof text m kind target name p e d : manifest text m -> settled prof text (STable (map_simple m)) ->
  dep_place (NTable m) kind target name p -> entry_at p (NTable m) = Some e -> dependency_of prof kind target name e d ->
  depends (kind_data kind) target name (map_simple_val (e_node e)) (dep_data d).
Proof.
  intros M ST PL EN D. pose proof (manifest_nice _ _ M) as N0. pose proof (entry_at_node _ _ _ EN) as NA.
  assert (K : Forall is_key p) by (apply (dep_place_keys (NTable m)); exists kind, target, name; exact PL).
  apply (dependency_gives prof (lit_ok text) any_elem); [exact (nice_at _ _ _ _ _ NA N0)| | |exact D].
  - intros t ET. rewrite ET in NA. exact (manifest_solid _ _ _ _ M K NA).
  - intros s [(l & sp & x & o & q & r & rs & -> & ->)|(t & ET & F)].
    + exact (settled_clear _ _ _ _ _ _ _ _ _ _ M ST NA).
    + rewrite ET in NA. destruct (field_node _ _ _ _ _ NA F) as (l & sp & x & o & q & r & E & ->). exact (settled_clear _ _ _ _ _ _ _ _ _ _ M ST E).
Qed.
(** The dependencies that are read are, with all that is said about them, those
    that the value of the document declares, each once. *)
Theorem C74_dependencies prof text m deps ds : manifest text m -> check prof m = Ok (deps, ds) -> settled prof text (STable (map_simple m)) ->
  exists placed, map dep_data deps = map snd placed /\ NoDup (map fst placed) /\
    forall p d, In (p, d) placed <-> declares (STable (map_simple m)) p d.
Proof.
  intros M E ST. pose proof (manifest_nice _ _ M) as N0. destruct (C39_dependencies _ _ _ _ _ M E) as (pl & -> & ND & IN).
  exists (map (fun x => (fst x, dep_data (snd x))) pl). split; [rewrite !map_map; reflexivity|]. split; [rewrite map_map; exact ND|]. intros p d. split.
  - intros H. apply in_map_iff in H. destruct H as ([p' x] & H & I0). cbn in H. injection H as -> <-. apply IN in I0. destruct I0 as (kind & target & name & e & PL & EN & D).
    pose proof (place_gives _ _ _ _ _ _ _ _ _ M ST PL EN D) as DE.
    destruct (proj1 (places _ _ _ N0 kind target name p (map_simple_val (e_node e)))) as (b & g & key & t & G & SI & MG & SG & EP); [exists e; auto|].
    exists target, b, g, (kind_data kind), key, t, name, (map_simple_val (e_node e)). auto 10.
  - intros (target & b & g & kind & key & t & name & v & G & SI & MG & SG & EP & DE).
    destruct (proj2 (places _ _ _ N0 (mkind_of kind) target name p v)) as (e & PL & EN & EV); [exists b, g, key, t; rewrite kind_data_of; auto|].
    assert (T : datatype_of (e_node e) = DtString \/ datatype_of (e_node e) = DtTable).
    { subst v. destruct e as [[t0|es|pa v es|v] rs]; cbn [e_node] in DE |- *; [right; reflexivity|inversion DE|inversion DE|]. destruct v; try (inversion DE; fail). left. reflexivity. }
    destruct (dep_read _ _ _ _ _ _ _ _ _ _ M E PL EN T) as (x & D). pose proof (place_gives _ _ _ _ _ _ _ _ _ M ST PL EN D) as DE'. rewrite kind_data_of, EV in DE'.
    apply in_map_iff. exists (p, x). split; [|apply IN; exists (mkind_of kind), target, name, e; auto]. cbn. f_equal. exact (depends_fun _ _ _ _ _ _ DE' DE).
Qed.
(** For a valid document: what its value declares. *)
Theorem C74_documents prof text l v : toml_doc text l -> consistent l -> means l v -> settled prof text v ->
  exists a m, lex_and_parse text = Ok (a, []) /\ map_doc (as_asts a) = Ok (m, []) /\
    forall deps ds, check prof m = Ok (deps, ds) ->
      exists placed, map dep_data deps = map snd placed /\ NoDup (map fst placed) /\ forall p d, In (p, d) placed <-> declares v p d.
Proof.
  intros T C ME ST. destruct (C64_meaning _ _ T) as (a & m & es' & PA & MA & CI & U). apply (U C) in ME. subst v. apply CI in C. subst es'.
  exists a, m. split; [exact PA|]. split; [exact MA|]. intros deps ds E. apply (C74_dependencies prof text m deps ds); [exists a, [], []; auto|exact E|exact ST].
Qed.
(** What a place declares is one dependency. *)
Theorem C74_one_reading doc p d d' : declares doc p d -> declares doc p d' -> md_source d = md_source d' /\ md_features d = md_features d' /\ md_package d = md_package d'.
Proof.
  intros (ta & b & g & k & key & t & n & v & G & SI & MG & SG & -> & D) (ta' & b' & g' & k' & key' & t' & n' & v' & G' & SI' & MG' & SG' & EP & D').
  apply group_at in G, G'. destruct G as [B G], G' as [B' G'].
  assert (X : sval_at (b ++ [SKey (bs key); SKey n]) doc = Some v).
  { change [SKey (bs key); SKey n] with ([SKey (bs key)] ++ [SKey n]). rewrite !sval_at_app, G, sval_at_app, <- member_at, MG. cbn. rewrite SG. reflexivity. }
  assert (X' : sval_at (b' ++ [SKey (bs key'); SKey n']) doc = Some v').
  { change [SKey (bs key'); SKey n'] with ([SKey (bs key')] ++ [SKey n']). rewrite !sval_at_app, G', sval_at_app, <- member_at, MG'. cbn. rewrite SG'. reflexivity. }
  rewrite <- EP, X in X'. injection X' as <-. destruct D as [s x V|u s S0]; inversion D' as [s' x' V'|u' s' S0']; subst; cbn.
  - rewrite (version_in_fun _ _ _ V V'). auto.
  - rewrite (source_of_fun _ _ _ S0 S0'). auto.
Qed.
