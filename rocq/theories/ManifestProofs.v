(** The dependencies and the problems that the checker finds in a map, in
    terms of the value of the document (C74, C75). *)
From Verif Require Import Base BaseProofs CommonModel TomlError LitModel LexModel LexSpec ParseModel ParseSpec ParsePlace PropParse
  MapModel MapSpec MapWf MapRel MapExt MapNice PropMap IdeModel IdeSpec IdeProofs PropIde CliModel MeanSpec MeanProofs ManifestSpec.
From Verif Require SemverModel SemverSpec PropSemver SemverReq.

(** ** The data of what the checker returns *)
Definition str_data (s : strassign) : list N := sv_text (sa_val s).
Definition flag_data (b : boolassign) : bool := bv_val (ba_val b).
Definition version_data (v : depversion) : mversion := mkmv (str_data (dv_str v)) (option_map SemverModel.r_comparators (dv_req v)).
Definition ref_data (g : gitspec) : mref :=
  match g with GNone => RNone | GBranch s => RBranch (str_data s) | GTag s => RTag (str_data s) | GRev s => RRev (str_data s) | GConflicting => RSeveral end.
Definition source_data (s : depspec) : msource :=
  match s with
  | SWorkspace _ => FromWorkspace
  | IdeModel.SInvalid => FromNowhere
  | SConflicting => FromSeveral
  | SGit g r v => FromGit (str_data g) (ref_data r) (option_map version_data v)
  | SPath p v r => FromPath (str_data p) (option_map version_data v) (option_map str_data r)
  | SRegistry v r => FromRegistry (version_data v) (option_map str_data r)
  | SMissing r => FromUnknown (option_map str_data r)
  end.
Definition kind_data (k : depkind) : mkind := match k with Normal => ForAll | Dev => ForTests | Build => ForBuild end.
Definition dep_data (d : dependency) : mdep :=
  mkmd (kind_data (dp_kind d)) (dp_target d) (dp_name d) (option_map str_data (dp_package d)) (source_data (dp_spec d))
    (option_map flag_data (df_default (dp_features d))) (map sv_text (df_list (dp_features d))) (option_map flag_data (dp_optional d)).

(** ** Fields *)
Definition solid (t : mtable) : Prop := forall k e, tget t k = Some e -> e_reprs e <> [].
Notation simple t := (map_simple_val (NTable t)).
Section Fields.
Context (P : value -> Prop) (Q : avalue -> Prop) (t : mtable).
Hypothesis NICE : nice P Q (NTable t).
Hypothesis SOLID : solid t.
Lemma member_get k : member (simple t) k = option_map (fun e => map_simple_val (e_node e)) (tget t (bs k)).
Proof. change (simple t) with (STable (map_simple t)). cbn [member]. rewrite (simple_table _ _ _ NICE). apply simple_get. Qed.
Lemma text_field k : text_at (simple t) k = option_map str_data (str_field t k).
Proof.
  unfold text_at, str_field. rewrite member_get. destruct (tget t (bs k)) as [[n rs]|] eqn:G; [|reflexivity]. cbn [option_map e_node].
  pose proof (SOLID _ _ G) as S0. cbn in S0. destruct n as [t0|es|pa v es|v]; try reflexivity.
  destruct v; try reflexivity. destruct rs; [congruence|reflexivity].
Qed.
Lemma flag_field k : flag_at (simple t) k = option_map flag_data (bool_field t k).
Proof.
  unfold flag_at, bool_field. rewrite member_get. destruct (tget t (bs k)) as [[n rs]|] eqn:G; [|reflexivity]. cbn [option_map e_node].
  pose proof (SOLID _ _ G) as S0. cbn in S0. destruct n as [t0|es|pa v es|v]; try reflexivity.
  destruct v; try reflexivity. destruct rs; [congruence|reflexivity].
Qed.
Lemma default_data : renamed_flag (simple t) "default-features" "default_features" = option_map flag_data (default_field t).
Proof. unfold renamed_flag, default_field. rewrite !flag_field, member_get. destruct (tget t (bs "default-features")); reflexivity. Qed.
Lemma strings_data es : strings_in (map (fun e => map_simple_val (ie_node e)) es) = map sv_text (strings_of es).
Proof.
  induction es as [|[n r] es IH]; [reflexivity|]. cbn [map strings_in ie_node strings_of]. destruct n as [t0|es0|pa v es0|v]; cbn [map_simple_val]; try exact IH.
  destruct v; cbn [simple_scalar]; try exact IH. cbn [map]. rewrite IH. reflexivity.
Qed.
Lemma no_strings es : strings_in (map (fun e => simple (te_table e)) es) = [].
Proof. induction es as [|e es IH]; [reflexivity|]. exact IH. Qed.
Lemma features_data : texts_at (simple t) "features" = map sv_text (feature_list t).
Proof.
  unfold texts_at, feature_list. rewrite member_get. destruct (tget t (bs "features")) as [[n rs]|]; [|reflexivity]. cbn [option_map e_node].
  destruct n as [t0|es|pa v es|v]; [reflexivity| | |].
  - exact (no_strings es).
  - apply strings_data.
  - destruct v; reflexivity.
Qed.
Lemma conflicting_data : conflicting t <-> text_at (simple t) "git" <> None /\ (text_at (simple t) "path" <> None \/ text_at (simple t) "registry" <> None).
Proof.
  unfold conflicting. rewrite !text_field. assert (X : forall o : option strassign, option_map str_data o <> None <-> o <> None) by (destruct o; cbn; split; congruence).
  rewrite !X. tauto.
Qed.
Lemma git_data g : git_of t g -> reference (simple t) = ref_data g.
Proof.
  intros H. unfold reference. rewrite !text_field. destruct H as [A B C|s A B C|s A B C|s A B C|a b I0 A B].
  1-4: rewrite A, B, C; reflexivity.
  cbn in I0. destruct I0 as [E|[E|[E|[]]]]; injection E as <- <-.
  - destruct (str_field t "branch") as [x|]; [|congruence]. destruct (str_field t "tag") as [y|]; [|congruence]. reflexivity.
  - destruct (str_field t "branch") as [x|]; [|congruence]. destruct (str_field t "rev") as [y|]; [|congruence]. cbn. destruct (option_map str_data (str_field t "tag")); reflexivity.
  - destruct (str_field t "tag") as [x|]; [|congruence]. destruct (str_field t "rev") as [y|]; [|congruence]. cbn. destruct (option_map str_data (str_field t "branch")); reflexivity.
Qed.
End Fields.

(** ** Requirements *)
Lemma req_fun s cs cs' : SemverSpec.req_grammar s cs -> SemverSpec.req_grammar s cs' -> cs = cs'.
Proof.
  intros A B. pose proof (SemverReq.parse_requirement_complete Debug s pos_zero cs A) as X. rewrite (SemverReq.parse_requirement_complete Debug s pos_zero cs' B) in X.
  injection X. auto.
Qed.
Lemma version_in_fun s a b : version_in s a -> version_in s b -> a = b.
Proof.
  intros A B. destruct A as [cs A|A]; destruct B as [cs' B|B]; try reflexivity.
  - rewrite (req_fun _ _ _ A B). reflexivity.
  - destruct B. exists cs. exact A.
  - destruct A. exists cs'. exact B.
Qed.
Lemma may_version_fun s a b : may_version s a -> may_version s b -> a = b.
Proof. intros A B. destruct A as [|s v A]; inversion B as [|s' v' B']; subst; [reflexivity|]. f_equal. exact (version_in_fun _ _ _ A B'). Qed.
Lemma source_of_fun v a b : source_of v a -> source_of v b -> a = b.
Proof.
  intros A B. destruct A as [H1|H1|H1 H2 H3|u x H1 H2 H3 H4 H5|p x H1 H2 H3 H4|s x H1 H2 H3 H4 H5|H1 H2 H3 H4];
    destruct B as [G1|G1|G1 G2 G3|u' x' G1 G2 G3 G4 G5|p' x' G1 G2 G3 G4|s' x' G1 G2 G3 G4 G5|G1 G2 G3 G4]; try congruence;
    try (exfalso; destruct H3; congruence); try (exfalso; destruct G3; congruence).
  - rewrite (may_version_fun _ _ _ H5 G5). congruence.
  - rewrite (may_version_fun _ _ _ H4 G4). congruence.
  - assert (s' = s) by congruence. subst s'. rewrite (version_in_fun _ _ _ H5 G5). reflexivity.
Qed.
Lemma depends_fun k t n v a b : depends k t n v a -> depends k t n v b -> a = b.
Proof.
  intros A B. destruct A as [s x A|u s A]; inversion B as [s' x' B'|u' s' B']; subst.
  - rewrite (version_in_fun _ _ _ A B'). reflexivity.
  - rewrite (source_of_fun _ _ _ A B'). reflexivity.
Qed.
