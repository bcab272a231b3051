(** When the checker has nothing to report, in terms of the value of the
    document (C75). *)
From Verif Require Import Base BaseProofs CommonModel TomlError LitModel LexModel LexSpec ParseModel ParseSpec ParsePlace PropParse
  MapModel MapSpec MapWf MapRel MapExt MapNice PropMap IdeModel IdeSpec IdeProofs PropIde CliModel MeanSpec MeanProofs CliSpec PropCli ManifestSpec ManifestProofs PropManifest.
From Verif Require SemverModel SemverSpec PropSemver SemverReq.

Definition datatype_eq_dec : forall a b : datatype, {a = b} + {a <> b}. Proof. decide equality. Defined.
Section Fine.
Context (prof : profile) (text : list N) (m : mtable) (dc : list spelling).
Hypothesis MAN : manifest text m.
Hypothesis WF : wf_table dc root_chains m.
Hypothesis VALID : forall p x, node_at p (NTable m) = Some x -> datatype_of x <> DtInvalid.
Notation root := (NTable m).
Notation val e := (map_simple_val (e_node e)).

Lemma deep : nice (lit_ok text) any_elem root.
Proof. exact (manifest_nice _ _ MAN). Qed.
Lemma keyed_deep q p k e : keyed dc m q p k e -> nice (lit_ok text) any_elem (e_node e).
Proof. intros K. exact (nice_at _ _ _ _ _ (keyed_node _ _ _ _ _ _ K) deep). Qed.
Lemma table_deep q p t : table_at dc m q p t -> nice (lit_ok text) any_elem (NTable t).
Proof. intros A. exact (nice_at _ _ _ _ _ (table_node _ _ _ _ _ A) deep). Qed.
Lemma keyed_valid q p k e : keyed dc m q p k e -> datatype_of (e_node e) <> DtInvalid.
Proof. intros K. exact (VALID _ _ (keyed_node _ _ _ _ _ _ K)). Qed.
Lemma table_solid q p t : table_at dc m q p t -> solid t.
Proof. intros A k e G. destruct (keyed_reprs _ _ _ _ _ _ (table_keyed _ _ _ _ _ _ _ A G)) as (r & rs & ->). discriminate. Qed.

(** ** Types *)
Lemma type_text n : nice (lit_ok text) any_elem n -> datatype_of n = DtString <-> is_text (map_simple_val n).
Proof. intros N0. destruct n as [t|es|pa v es|v]; cbn; try (split; [discriminate|tauto]). destruct v; cbn in *; try tauto; split; (discriminate || tauto). Qed.
Lemma type_flag n : nice (lit_ok text) any_elem n -> datatype_of n = DtBool <-> is_flag (map_simple_val n).
Proof. intros N0. destruct n as [t|es|pa v es|v]; cbn; try (split; [discriminate|tauto]). destruct v; cbn in *; try tauto; split; (discriminate || tauto). Qed.
Lemma type_table n : nice (lit_ok text) any_elem n -> datatype_of n = DtTable <-> exists t, n = NTable t.
Proof.
  intros N0. destruct n as [t|es|pa v es|v]; cbn.
  - split; eauto.
  - split; [discriminate|]. intros (t & H). discriminate.
  - split; [discriminate|]. intros (t & H). discriminate.
  - destruct v; cbn in *; try tauto; (split; [discriminate|]; intros (t & H); discriminate).
Qed.
Lemma mk_type q p k e want : keyed dc m q p k e -> datatype_of (e_node e) <> want -> exists d, type_problem root (q ++ [SKey k]) want d.
Proof.
  intros K NE. destruct (keyed_reprs _ _ _ _ _ _ K) as (r & rs & R). assert (R0 : nth_error (e_reprs e) (N.to_nat 0) = Some r) by (rewrite R; reflexivity).
  destruct (keyed_marks _ _ _ _ _ _ _ _ K R0) as (ls & sp & _ & _ & _ & MK). destruct (keyed_text _ _ _ _ _ _ K) as (tx & _ & SH).
  eexists. exists (e_node e), 0, ls, sp, tx. split; [exact (keyed_node _ _ _ _ _ _ K)|]. split; [exact NE|]. split; [exact (keyed_valid _ _ _ _ K)|]. split; [apply MK; auto|]. split; [exact SH|reflexivity].
Qed.
Lemma type_wrong q p k e want d : keyed dc m q p k e -> type_problem root (q ++ [SKey k]) want d -> datatype_of (e_node e) <> want.
Proof. intros K (x & n & ls & sp & tx & E & NE & _). rewrite (keyed_node _ _ _ _ _ _ K) in E. injection E as <-. exact NE. Qed.
Lemma mk_unknown q p k e : keyed dc m q p k e -> exists d, unknown_problem root (q ++ [SKey k]) d.
Proof.
  intros K. destruct (keyed_reprs _ _ _ _ _ _ K) as (r & rs & R). assert (R0 : nth_error (e_reprs e) (N.to_nat 0) = Some r) by (rewrite R; reflexivity).
  destruct (keyed_marks _ _ _ _ _ _ _ _ K R0) as (ls & sp & _ & _ & _ & MK). destruct (keyed_text _ _ _ _ _ _ K) as (tx & _ & SH).
  eexists. exists 0, ls, sp, tx. split; [apply MK; auto|]. split; [exact SH|reflexivity].
Qed.
Lemma mk_old q p t old new e : table_at dc m q p t -> tget t (bs old) = Some e -> exists d, old_problem root q old new d.
Proof.
  intros A G. pose proof (table_keyed _ _ _ _ _ _ _ A G) as K. destruct (keyed_reprs _ _ _ _ _ _ K) as (r & rs & R). assert (R0 : nth_error (e_reprs e) (N.to_nat 0) = Some r) by (rewrite R; reflexivity).
  destruct (keyed_marks _ _ _ _ _ _ _ _ K R0) as (ls & sp & _ & _ & _ & MK). destruct (table_text _ _ _ _ _ A) as (tx & _ & SH).
  destruct (tget t (bs new)) as [en|] eqn:GN.
  - pose proof (table_keyed _ _ _ _ _ _ _ A GN) as KN. destruct (keyed_reprs _ _ _ _ _ _ KN) as (rn & rsn & EN).
    assert (RN : nth_error (e_reprs en) (N.to_nat 0) = Some rn) by (rewrite EN; reflexivity).
    destruct (keyed_marks _ _ _ _ _ _ _ _ KN RN) as (lsn & spn & _ & RS & _). unfold repr_span in RS.
    destruct (repr_ident (r_key rn)) as [i|[]|]; [|discriminate RS]. cbn [bind] in RS. destruct (kind_span (r_kind rn)) as [ks|[]|] eqn:KS; [|discriminate RS].
    eexists. exists 0, ls, sp, tx. split; [apply MK; auto|]. split; [exact SH|]. right. exists en, rn, rsn, ks. split; [exact (keyed_entry _ _ _ _ _ _ KN)|]. auto.
  - eexists. exists 0, ls, sp, tx. split; [apply MK; auto|]. split; [exact SH|]. left. split; [|reflexivity]. unfold at_key. rewrite (table_get_at _ _ _ _ _ _ A), GN. reflexivity.
Qed.

(** ** Features *)
Lemma mk_elem q p e pa v es i x : keyed dc m q p (bs "features") e -> e_node e = NInline pa v es -> nth_error es (N.to_nat i) = Some x ->
  datatype_of (ie_node x) <> DtString -> exists d, elem_problem m q d.
Proof.
  intros K EN X NE. pose proof K as (acc & c & t & A & G). destruct (keyed_inv _ _ _ _ _ _ _ _ _ A G) as ((T & PO & WN & _ & C) & _). rewrite EN in WN, T.
  apply wf_NInline in WN. destruct WN as [CP _].
  destruct (next c (e_reprs e) pa) as [[s kd]|] eqn:CN; [|congruence]. destruct (context_line_ok _ _ _ _ _ _ PO CN) as (ls & L1 & L2). pose proof (C _ _ _ CN) as TR.
  assert (DF : exists r, nth_error (e_reprs e) (N.to_nat pa) = Some r) by (inversion TR; eauto). destruct DF as (r & R). destruct (index_text _ _ _ _ _ _ i K) as (tx & _ & SH).
  pose proof (keyed_node _ _ _ _ _ _ K) as KN. rewrite EN in KN.
  eexists. exists pa, v, es, i, x, r, s, ls, tx. split; [exact KN|]. split; [exact X|]. split; [exact NE|]. split.
  - apply (VALID ((q ++ [SKey (bs "features")]) ++ [SIdx i])). rewrite (trail_node _ []), trail_app. rewrite T. cbn [trail]. rewrite X. reflexivity.
  - split; [exists (e_reprs e), acc, (NInline pa v es); auto|]. split; [exact L2|]. split; [exact SH|reflexivity].
Qed.
Lemma mk_tables q p e es : keyed dc m q p (bs "features") e -> e_node e = NTop es -> exists d, tables_problem m q d.
Proof.
  intros K EN. destruct (keyed_reprs _ _ _ _ _ _ K) as (r & rs & R). assert (R0 : nth_error (e_reprs e) (N.to_nat 0) = Some r) by (rewrite R; reflexivity).
  destruct (keyed_marks _ _ _ _ _ _ _ _ K R0) as (ls & sp & _ & _ & _ & MK). destruct (index_text _ _ _ _ _ _ 0 K) as (tx & _ & SH).
  pose proof (keyed_node _ _ _ _ _ _ K) as KN. rewrite EN in KN. eexists. exists es, 0, ls, sp, tx. split; [exact KN|]. split; [apply MK; auto|]. split; [exact SH|reflexivity].
Qed.
Lemma elems_text q p e pa v es : keyed dc m q p (bs "features") e -> e_node e = NInline pa v es ->
  (forall d, ~ elem_problem m q d) <-> is_texts (val e).
Proof.
  intros K EN. pose proof (keyed_deep _ _ _ _ K) as N0. rewrite EN in N0 |- *. apply nice_inline in N0. cbn [map_simple_val is_texts]. split.
  - intros H. apply Forall_forall. intros y IY. apply in_map_iff in IY. destruct IY as (x & <- & IX). pose proof (proj2 (proj1 (Forall_forall _ _) N0 _ IX)) as NX. apply type_text; [exact NX|].
    destruct (datatype_eq_dec (datatype_of (ie_node x)) DtString) as [Y|Y]; [exact Y|]. apply In_nth_error in IX. destruct IX as [i X]. rewrite <- (Nat2N.id i) in X.
    destruct (mk_elem _ _ _ _ _ _ _ _ K EN X Y) as (d & D). destruct (H _ D).
  - intros F d (pa' & v' & es' & i & x & r & s & ls & tx & E & X & NE & _). unfold at_key in E. rewrite (keyed_node _ _ _ _ _ _ K), EN in E. injection E as <- <- <-.
    apply NE. apply nth_error_In in X. apply type_text; [exact (proj2 (proj1 (Forall_forall _ _) N0 _ X))|]. apply (proj1 (Forall_forall _ _) F). apply in_map_iff. eauto.
Qed.
Lemma features_fine q p e : keyed dc m q p (bs "features") e ->
  (forall d, ~ (type_problem root (q ++ [SKey (bs "features")]) DtArray d \/ elem_problem m q d \/ tables_problem m q d)) <-> is_texts (val e).
Proof.
  intros K. pose proof (keyed_node _ _ _ _ _ _ K) as KN. split.
  - intros H. destruct (datatype_eq_dec (datatype_of (e_node e)) DtArray) as [Y|Y].
    2:{ destruct (mk_type _ _ _ _ _ K Y) as (d & D). destruct (H d). auto. }
    destruct (e_node e) as [t|es|pa v es|v] eqn:EN; [discriminate| | |].
    + destruct (mk_tables _ _ _ _ K EN) as (d & D). destruct (H d). auto.
    + rewrite <- EN. apply (elems_text _ _ _ _ _ _ K EN). intros d D. apply (H d). auto.
    + pose proof (keyed_deep _ _ _ _ K) as N0. rewrite EN in N0. destruct v; cbn in Y, N0; try discriminate; contradiction.
  - intros F d [H|[H|H]].
    + apply (type_wrong _ _ _ _ _ _ K) in H. apply H. destruct (e_node e) as [t|es|pa v es|v]; try reflexivity; [destruct F|]. destruct v; cbn in *; try contradiction; reflexivity.
    + destruct H as (pa & v & es & H). pose proof H as (i & x & r & s & ls & tx & E & H'). unfold at_key in E. rewrite KN in E. injection E as E.
      apply (proj2 (elems_text _ _ _ _ _ _ K E) F d). exists pa, v, es. exact H.
    + destruct H as (es & n & ls & sp & tx & E & MK & _). unfold at_key in E. rewrite KN in E. injection E as E. rewrite E in F.
      pose proof K as (acc & c & t & A & G). destruct (keyed_inv _ _ _ _ _ _ _ _ _ A G) as ((_ & _ & WN & _) & _). rewrite E in WN. apply wf_NTop in WN. destruct WN as [NE _].
      destruct es as [|x es]; [congruence|]. exact (Forall_inv F).
Qed.

(** ** Keys *)
Lemma text_typed k : In k (map bs text_keys) <-> exists name, k = bs name /\ In (name, DtString) typed_keys.
Proof.
  rewrite in_map_iff. split.
  - intros (n & <- & I0). exists n. split; [reflexivity|]. apply in_app_iff. left. apply in_map_iff. eauto.
  - intros (n & -> & I0). exists n. split; [reflexivity|]. apply in_app_iff in I0. destruct I0 as [I0|I0]; [|apply in_app_iff in I0; destruct I0 as [I0|I0]].
    + apply in_map_iff in I0. destruct I0 as (x & E & I0). injection E as <-. exact I0.
    + apply in_map_iff in I0. destruct I0 as (x & E & _). discriminate.
    + destruct I0 as [E|[]]. discriminate.
Qed.
Lemma flag_typed k : In k (map bs flag_keys) <-> exists name, k = bs name /\ In (name, DtBool) typed_keys.
Proof.
  rewrite in_map_iff. split.
  - intros (n & <- & I0). exists n. split; [reflexivity|]. apply in_app_iff. right. apply in_app_iff. left. apply in_map_iff. eauto.
  - intros (n & -> & I0). exists n. split; [reflexivity|]. apply in_app_iff in I0. destruct I0 as [I0|I0]; [|apply in_app_iff in I0; destruct I0 as [I0|I0]].
    + apply in_map_iff in I0. destruct I0 as (x & E & I0). discriminate.
    + apply in_map_iff in I0. destruct I0 as (x & E & I0). injection E as <-. exact I0.
    + destruct I0 as [E|[]]. discriminate.
Qed.
Lemma array_typed name : In (name, DtArray) typed_keys <-> name = "features"%string.
Proof.
  split; [|intros ->; cbn; tauto]. intros I0. apply in_app_iff in I0. destruct I0 as [I0|I0]; [|apply in_app_iff in I0; destruct I0 as [I0|I0]].
  - apply in_map_iff in I0. destruct I0 as (x & E & _). discriminate.
  - apply in_map_iff in I0. destruct I0 as (x & E & _). discriminate.
  - destruct I0 as [E|[]]. injection E as <-. reflexivity.
Qed.
Lemma typed_want name want : In (name, want) typed_keys -> want = DtString \/ want = DtBool \/ want = DtArray.
Proof.
  intros I0. apply in_app_iff in I0. destruct I0 as [I0|I0]; [|apply in_app_iff in I0; destruct I0 as [I0|I0]].
  - apply in_map_iff in I0. destruct I0 as (x & E & _). injection E as _ <-. auto.
  - apply in_map_iff in I0. destruct I0 as (x & E & _). injection E as _ <-. auto.
  - destruct I0 as [E|[]]. injection E as _ <-. auto.
Qed.
Lemma known_key k : In k (map bs dependency_keys) -> (exists name want, k = bs name /\ In (name, want) typed_keys) \/ k = bs "default_features".
Proof.
  intros H. apply in_map_iff in H. destruct H as (n & <- & H). apply in_app_iff in H. destruct H as [H|[<-|[]]]; [|auto]. left.
  apply in_map_iff in H. destruct H as ([n' w] & E & H). cbn in E. subst. eauto.
Qed.
Lemma field_fine q p t k e : table_at dc m q p t -> tget t k = Some e -> (forall d, ~ key_problem m q t k d) <-> fine_field k (val e).
Proof.
  intros A G. pose proof (table_keyed _ _ _ _ _ _ _ A G) as K. pose proof (keyed_deep _ _ _ _ K) as N0. split.
  - intros H. destruct (in_dec (list_eq_dec N.eq_dec) k (map bs dependency_keys)) as [I0|I0].
    2:{ destruct (mk_unknown _ _ _ _ K) as (d & D). destruct (H d). right. right. right. auto. }
    apply known_key in I0. destruct I0 as [(n & w & -> & TY)| ->].
    2:{ destruct (mk_old _ _ _ "default_features" "default-features" _ A G) as (d & D). destruct (H d). right. right. left. auto. }
    destruct (datatype_eq_dec (datatype_of (e_node e)) w) as [Y|Y].
    2:{ destruct (mk_type _ _ _ _ _ K Y) as (d & D). destruct (H d). left. eauto. }
    destruct (typed_want _ _ TY) as [-> |[-> | ->]].
    + left. split; [apply text_typed; eauto|]. apply type_text; assumption.
    + right. left. split; [apply flag_typed; eauto|]. apply type_flag; assumption.
    + right. right. apply array_typed in TY. subst n. split; [reflexivity|]. apply (features_fine _ _ _ K). intros d [D|D].
      * exact (type_wrong _ _ _ _ _ _ K D Y).
      * apply (H d). right. left. auto.
  - intros F d D. destruct D as [(n & w & TY & -> & D)|[(-> & D)|[(-> & D)|(NI & D)]]].
    + destruct F as [[F1 F2]|[[F1 F2]|[F1 F2]]].
      * apply text_typed in F1. destruct F1 as (n' & E & TY'). apply bs_inj in E. subst n'. rewrite (typed_fun _ _ _ TY TY') in D. apply (type_wrong _ _ _ _ _ _ K D). apply type_text; assumption.
      * apply flag_typed in F1. destruct F1 as (n' & E & TY'). apply bs_inj in E. subst n'. rewrite (typed_fun _ _ _ TY TY') in D. apply (type_wrong _ _ _ _ _ _ K D). apply type_flag; assumption.
      * apply bs_inj in F1. subst n. rewrite (typed_fun _ _ _ TY (proj2 (array_typed _) eq_refl)) in D. exact (proj2 (features_fine _ _ _ K) F2 d (or_introl D)).
    + destruct F as [[F1 F2]|[[F1 F2]|[F1 F2]]].
      * apply text_typed in F1. destruct F1 as (n' & E & TY'). apply bs_inj in E. subst n'. pose proof (typed_fun _ _ _ TY' (proj2 (array_typed _) eq_refl)). discriminate.
      * apply flag_typed in F1. destruct F1 as (n' & E & TY'). apply bs_inj in E. subst n'. pose proof (typed_fun _ _ _ TY' (proj2 (array_typed _) eq_refl)). discriminate.
      * exact (proj2 (features_fine _ _ _ K) F2 d (or_intror D)).
    + destruct F as [[F1 F2]|[[F1 F2]|[F1 F2]]].
      * apply text_typed in F1. destruct F1 as (n' & E & TY'). apply bs_inj in E. subst n'. exact (typed_old _ TY').
      * apply flag_typed in F1. destruct F1 as (n' & E & TY'). apply bs_inj in E. subst n'. exact (typed_old _ TY').
      * apply bs_inj in F1. discriminate.
    + apply NI. destruct F as [[F1 F2]|[[F1 F2]|[F1 F2]]].
      * apply text_typed in F1. destruct F1 as (n' & -> & TY'). exact (typed_in _ _ TY').
      * apply flag_typed in F1. destruct F1 as (n' & -> & TY'). exact (typed_in _ _ TY').
      * rewrite F1. apply (typed_in "features" DtArray). apply array_typed. reflexivity.
Qed.

(** ** Sources *)
Lemma no_text t k : nice (lit_ok text) any_elem (NTable t) -> solid t -> text_at (simple t) k = None <-> str_field t k = None.
Proof. intros N0 SO. rewrite (text_field _ _ _ N0 SO). destruct (str_field t k); cbn; split; congruence. Qed.
Lemma one_reference t : nice (lit_ok text) any_elem (NTable t) -> solid t -> reference (simple t) = RSeveral <-> git_of t GConflicting.
Proof.
  intros N0 SO. split.
  - intros H. destruct (git_exists t) as (g & G). pose proof (git_data _ _ _ N0 SO _ G) as R. rewrite H in R. destruct g; try discriminate. exact G.
  - intros G. exact (git_data _ _ _ N0 SO _ G).
Qed.
Lemma no_reference t : nice (lit_ok text) any_elem (NTable t) -> solid t -> reference (simple t) = RNone <-> forall k, In k ref_keys -> str_field t k = None.
Proof.
  intros N0 SO. split.
  - intros H. destruct (git_exists t) as (g & G). pose proof (git_data _ _ _ N0 SO _ G) as R. rewrite H in R. destruct G; try discriminate R.
    intros k [<-|[<-|[<-|[]]]]; assumption.
  - intros H. apply (git_data _ _ _ N0 SO GNone). apply go_none; apply H; cbn; tauto.
Qed.
Hypothesis CLEAR : forall q p t s, table_at dc m q p t -> str_field t "version" = Some s -> clear prof s.
Hypothesis CLEAR1 : forall q p k l sp x o y r rs, keyed dc m q p k (mke (NScalar (VString l sp x o y)) (r :: rs)) -> clear prof (mksa r (mksv l sp x o y)).
Definition no_panic : Prop := forall s, any_reads root s -> ~ requirement prof s Panic.
Lemma field_marked q p t k s : table_at dc m q p t -> p <> [] -> str_field t k = Some s ->
  exists ls sp tx tx', marks root (q ++ [at_key k]) 0 ls sp /\ shown q tx /\ shown (q ++ [at_key k]) tx'.
Proof.
  intros A NE F. destruct (str_field_some t k) as (e & G); [congruence|]. pose proof (table_keyed _ _ _ _ _ _ _ A G) as K.
  destruct (keyed_reprs _ _ _ _ _ _ K) as (r & rs & R). assert (R0 : nth_error (e_reprs e) (N.to_nat 0) = Some r) by (rewrite R; reflexivity).
  destruct (keyed_marks _ _ _ _ _ _ _ _ K R0) as (ls & sp & _ & _ & _ & MK). destruct (keyed_text _ _ _ _ _ _ K) as (tx' & _ & SH').
  destruct (table_fmt _ _ _ _ _ A NE) as (tx & _ & SH). exists ls, sp, tx, tx'. split; [apply MK; auto|auto].
Qed.
Lemma flag_marked q p t k w : table_at dc m q p t -> p <> [] -> bool_field t k = Some w ->
  exists ls sp tx, marks root (q ++ [at_key k]) 0 ls sp /\ shown q tx.
Proof.
  intros A NE F. destruct (bool_field_some t k w F) as (e & G). pose proof (table_keyed _ _ _ _ _ _ _ A G) as K.
  destruct (keyed_reprs _ _ _ _ _ _ K) as (r & rs & R). assert (R0 : nth_error (e_reprs e) (N.to_nat 0) = Some r) by (rewrite R; reflexivity).
  destruct (keyed_marks _ _ _ _ _ _ _ _ K R0) as (ls & sp & _ & _ & _ & MK). 
  destruct (table_fmt _ _ _ _ _ A NE) as (tx & _ & SH). exists ls, sp, tx. split; [apply MK; auto|auto].
Qed.
Lemma source_fine q0 p0 name e t : keyed dc m q0 p0 name e -> e_node e = NTable t -> any_dep root (q0 ++ [SKey name]) -> no_panic ->
  (forall d, ~ spec_says prof m (q0 ++ [SKey name]) t d) -> fine_source (simple t).
Proof.
  intros K0 EN AD NP H. pose proof (keyed_table _ _ _ _ _ _ _ K0 EN) as A. assert (NE : SegTable (e_reprs e) :: p0 <> []) by discriminate.
  pose proof (table_deep _ _ _ A) as N0. pose proof (table_solid _ _ _ A) as SO. pose proof (keyed_node _ _ _ _ _ _ K0) as KN. rewrite EN in KN. remember (q0 ++ [SKey name]) as q eqn:EQ.
  assert (X : forall d, ~ source_problem root q t d) by (intros d D; apply (H d); left; exact D).
  pose proof (fun k => text_field _ _ _ N0 SO k) as T. unfold fine_source. rewrite (flag_field _ _ _ N0 SO). destruct (bool_field t "workspace") as [w|] eqn:W; cbn [option_map].
  - destruct (flag_marked _ _ _ _ _ A NE W) as (wls & wsp & wtx & WM & WS). unfold flag_data. destruct (bv_val (ba_val w)) eqn:BV.
    + split; [reflexivity|]. intros k I0. apply (no_text _ _ N0 SO). destruct (str_field t k) as [s|] eqn:F; [|reflexivity]. exfalso.
      destruct (field_marked _ _ _ _ _ A NE F) as (ls & sp & tx & tx' & MK & _ & SH). refine (X _ (sp_workspace_key _ _ _ w k wls wsp ls sp tx' W BV I0 _ WM MK SH)). congruence.
    + exfalso. exact (X _ (sp_workspace_false _ _ _ w _ _ _ W BV WM WS)).
  - assert (VE : ~ conflicting t -> forall s, text_at (simple t) "version" = Some s -> is_requirement s).
    { intros C s E. rewrite T in E. destruct (str_field t "version") as [sa|] eqn:F; [|discriminate]. cbn in E. injection E as <-.
      assert (R : reads root q sa) by exact (rd_table _ _ t sa KN W C F). destruct (str_field_span _ _ _ _ _ _ _ A F) as (sp & SP).
      destruct (SemverModel.parse_requirement prof (utf8 (sv_text (sa_val sa))) (s_start sp)) as [v|er|] eqn:PR.
      - exists (SemverModel.r_comparators v). apply (requirement_yes prof); [exact (CLEAR _ _ _ _ A F)|]. exists sp. auto.
      - exfalso. apply (H (DSemver er)). right. split; [exact W|]. split; [exact C|]. exists sa, er. split; [exact F|]. split; [exists sp; auto|reflexivity].
      - exfalso. apply (NP sa); [exists q; auto|]. exists sp. auto. }
    rewrite (T "git"%string). destruct (str_field t "git") as [g|] eqn:G; cbn [option_map].
    + assert (R : str_field t "registry" = None).
      { destruct (str_field t "registry") as [s|] eqn:F; [|reflexivity]. exfalso. destruct (field_marked _ _ _ _ _ A NE G) as (ls & sp & tx & tx' & MK & SH & _).
        refine (X _ (sp_git_registry _ _ _ "git" ls sp tx W _ _ _ MK SH)); [congruence|congruence|cbn; auto]. }
      assert (PA : str_field t "path" = None).
      { destruct (str_field t "path") as [s|] eqn:F; [|reflexivity]. exfalso. destruct (field_marked _ _ _ _ _ A NE G) as (ls & sp & tx & tx' & MK & SH & _).
        refine (X _ (sp_git_path _ _ _ "git" ls sp tx W _ _ R _ MK SH)); [congruence|congruence|cbn; auto]. }
      assert (C : ~ conflicting t) by (intros [_ [H1|H1]]; congruence). split; [exact (VE C)|]. split; [apply no_text; assumption|]. split; [apply no_text; assumption|].
      intros RS. apply (one_reference _ N0 SO) in RS. assert (Y : exists k, In k ref_keys /\ str_field t k <> None).
      { inversion RS as [| | | |a b I0 SA SB]; subst. exists a. split; [|exact SA]. cbn in I0. destruct I0 as [E|[E|[E|[]]]]; injection E as <- <-; cbn; tauto. }
      destruct Y as (k & I0 & SK). destruct (str_field t k) as [s|] eqn:F; [|congruence]. destruct (field_marked _ _ _ _ _ A NE F) as (ls & sp & tx & tx' & MK & SH & _).
      refine (X _ (sp_refs _ _ _ k ls sp tx W _ C RS I0 _ MK SH)); congruence.
    + assert (C : ~ conflicting t) by (intros [H1 _]; congruence). split; [exact (VE C)|]. split.
      * apply (no_reference _ N0 SO). intros k I0. destruct (str_field t k) as [s|] eqn:F; [|reflexivity]. exfalso. destruct (field_marked _ _ _ _ _ A NE F) as (ls & sp & tx & tx' & MK & SH & _).
        refine (X _ (sp_no_git _ _ _ k ls sp tx W G I0 _ MK SH)). congruence.
      * rewrite !T. destruct (str_field t "path") as [pa|] eqn:PA; [left; discriminate|]. destruct (str_field t "version") as [ve|] eqn:V; [right; discriminate|]. exfalso.
        destruct (keyed_reprs _ _ _ _ _ _ K0) as (r & rs & R). assert (R0 : nth_error (e_reprs e) (N.to_nat 0) = Some r) by (rewrite R; reflexivity).
        destruct (keyed_marks _ _ _ _ _ _ _ _ K0 R0) as (ls & sp & _ & _ & _ & MK). destruct (keyed_text _ _ _ _ _ _ K0) as (tx & _ & SH). rewrite <- EQ in MK, SH.
        refine (X _ (sp_missing _ _ _ 0 ls sp tx W G PA V _ SH)). apply MK. auto.
Qed.
Lemma fine_source_quiet q p t : table_at dc m q p t -> fine_source (simple t) ->
  (forall d, ~ source_problem root q t d) /\ (bool_field t "workspace" = None -> ~ conflicting t /\ forall s, str_field t "version" = Some s -> is_requirement (str_data s)).
Proof.
  intros A H. pose proof (table_deep _ _ _ A) as N0. pose proof (table_solid _ _ _ A) as SO. pose proof (fun k => text_field _ _ _ N0 SO k) as T.
  unfold fine_source in H. rewrite (flag_field _ _ _ N0 SO) in H. destruct (bool_field t "workspace") as [w|] eqn:W; cbn [option_map] in H.
  - destruct H as [B H]. unfold flag_data in B. split; [|discriminate]. intros d D. destruct D as [w' ls sp tx W' B' _ _|w' k wls wsp ls sp tx W' B' I0 SK _ _ _| | | | |]; try congruence.
    apply SK. apply (no_text _ _ N0 SO). apply H. exact I0.
  - destruct H as [V H]. rewrite (T "git"%string) in H. destruct (str_field t "git") as [g|] eqn:G; cbn [option_map] in H.
    + destruct H as (H1 & H2 & H3). apply (no_text _ _ N0 SO) in H1, H2. split.
      * intros d D. destruct D as [| | | |k ls sp tx _ _ _ GC _ _ _ _| |]; try congruence. apply H3. apply (one_reference _ N0 SO). exact GC.
      * intros _. split; [intros [_ [X|X]]; congruence|]. intros s E. apply V. rewrite T, E. reflexivity.
    + destruct H as [H1 H2]. pose proof (proj1 (no_reference _ N0 SO) H1) as H1'. split.
      * intros d D. destruct D as [| | | | |k ls sp tx _ _ I0 SK _ _|n ls sp tx _ _ PA VE _ _]; try congruence.
        -- apply SK. apply H1'. exact I0.
        -- rewrite !T, PA, VE in H2. destruct H2 as [H2|H2]; apply H2; reflexivity.
      * intros _. split; [intros [X _]; congruence|]. intros s E. apply V. rewrite T, E. reflexivity.
Qed.

(** ** Dependencies *)
Lemma entries_all q p t (F : list N -> sval -> Prop) : table_at dc m q p t ->
  Forall (fun kv => F (fst kv) (snd kv)) (map_simple t) <-> forall k e, tget t k = Some e -> F k (val e).
Proof.
  intros A. rewrite (simple_table _ _ _ (table_deep _ _ _ A)), Forall_forall. unfold simple_entries. split.
  - intros H k e G. apply (H (k, val e)). apply (table_get _ _ _ _ _ _ _ A) in G. apply in_map_iff. exists (k, e). auto.
  - intros H [k v] I0. apply in_map_iff in I0. destruct I0 as ([k' e] & E & I0). cbn in E. injection E as -> <-. cbn. apply H.
    apply (table_get _ _ _ _ _ _ _ A). exact I0.
Qed.
Lemma requirement_ok s : (exists sp, text_span (sa_val s) = Ok sp) -> is_requirement (str_data s) -> exists v, requirement prof s (Ok v).
Proof. intros (sp & SP) (cs & G). eexists. exists sp. split; [exact SP|]. exact (SemverReq.parse_requirement_complete prof _ (s_start sp) _ G). Qed.
Lemma no_requirement s er : is_requirement (str_data s) -> ~ requirement prof s (Err er).
Proof. intros (cs & G) (sp & _ & E). change (sv_text (sa_val s)) with (str_data s) in E. rewrite (SemverReq.parse_requirement_complete prof _ (s_start sp) _ G) in E. discriminate. Qed.
Lemma dep_fine q p k e : keyed dc m q p k e -> any_dep root (q ++ [SKey k]) -> no_panic ->
  (forall d, ~ dep_problem prof root (q ++ [SKey k]) d) -> fine_dependency (val e).
Proof.
  intros K AD NP H. pose proof (keyed_deep _ _ _ _ K) as N0. pose proof (keyed_valid _ _ _ _ K) as VA. pose proof (keyed_node _ _ _ _ _ _ K) as KN.
  destruct (keyed_reprs _ _ _ _ _ _ K) as (r & rs & R). assert (R0 : nth_error (e_reprs e) (N.to_nat 0) = Some r) by (rewrite R; reflexivity).
  destruct (keyed_marks _ _ _ _ _ _ _ _ K R0) as (ls & sp & _ & _ & _ & MK). destruct (keyed_text _ _ _ _ _ _ K) as (tx & _ & SH).
  assert (M0 : marks root (q ++ [SKey k]) 0 ls sp) by (apply MK; auto).
  assert (AR : datatype_of (e_node e) <> DtArray) by (intros E; exact (H _ (dp_array _ _ _ _ 0 ls sp tx KN E M0 SH))).
  destruct (e_node e) as [t|es|pa v es|v] eqn:EN.
  - pose proof (keyed_table _ _ _ _ _ _ _ K EN) as A. cbn [map_simple_val]. change (STable (from_iter _)) with (simple t). split.
    + refine (proj2 (entries_all _ _ _ fine_field A) _). intros k' e' G. apply (field_fine _ _ _ _ _ A G). intros d D. apply (H d). apply (table_problem _ _ _ _ _ _ _ _ _ K EN).
      left. exists k', e'. split; [apply (table_get _ _ _ _ _ _ _ A); exact G|exact D].
    + apply (source_fine _ _ _ _ _ K EN AD NP). intros d D. apply (H d). apply (table_problem _ _ _ _ _ _ _ _ _ K EN). right. exact D.
  - destruct (AR eq_refl).
  - destruct (AR eq_refl).
  - assert (NT : forall t, e_node e <> NTable t) by (rewrite EN; discriminate).
    destruct (datatype_eq_dec (datatype_of (NScalar v)) DtString) as [Y|Y]; [|destruct (H _ (dp_scalar _ _ _ v ls sp tx KN Y VA M0 SH))].
    destruct v as [l vs x o y| | | | | | |]; try discriminate Y. cbn [map_simple_val simple_scalar fine_dependency].
    destruct e as [n rs']. cbn in EN, R. subst n rs'. pose proof (CLEAR1 _ _ _ _ _ _ _ _ _ _ K) as C.
    assert (RD : reads root (q ++ [SKey k]) (mksa r (mksv l vs x o y))) by exact (rd_string _ _ _ _ _ _ _ _ _ (keyed_entry _ _ _ _ _ _ K)).
    pose proof (keyed_leaf _ _ _ _ _ _ K) as (tsp & SP).
    destruct (SemverModel.parse_requirement prof (utf8 x) (s_start tsp)) as [v|er|] eqn:PR.
    + exists (SemverModel.r_comparators v). apply (requirement_yes prof (mksa r (mksv l vs x o y))); [exact C|]. exists tsp. auto.
    + destruct (H _ (dp_version _ _ _ _ er RD (ex_intro _ tsp (conj SP PR)))).
    + destruct (NP (mksa r (mksv l vs x o y))); [exists (q ++ [SKey k]); auto|]. exists tsp. auto.
Qed.
Lemma fine_dep q p k e : keyed dc m q p k e -> fine_dependency (val e) ->
  (forall d, ~ dep_problem prof root (q ++ [SKey k]) d) /\ forall s, reads root (q ++ [SKey k]) s -> exists v, requirement prof s (Ok v).
Proof.
  intros K F. pose proof (keyed_deep _ _ _ _ K) as N0. destruct (e_node e) as [t|es|pa v es|v] eqn:EN; [| destruct F | destruct F |].
  - pose proof (keyed_table _ _ _ _ _ _ _ K EN) as A. cbn [map_simple_val] in F. change (STable (from_iter _)) with (simple t) in F. destruct F as [F1 F2].
    pose proof (proj1 (entries_all _ _ _ fine_field A) F1) as F1'. destruct (fine_source_quiet _ _ _ A F2) as [S1 S2]. split.
    + intros d D. apply (table_problem _ _ _ _ _ _ _ _ _ K EN) in D. destruct D as [(k' & e' & I0 & D)|[D|(W & C & s & er & E & R & _)]].
      * apply (table_get _ _ _ _ _ _ _ A) in I0. exact (proj2 (field_fine _ _ _ _ _ A I0) (F1' _ _ I0) d D).
      * exact (S1 d D).
      * exact (no_requirement _ _ (proj2 (S2 W) _ E) R).
    + intros s R. apply (reads_table _ _ _ _ _ _ _ _ K EN) in R. destruct R as (W & C & E). apply requirement_ok; [exact (str_field_span _ _ _ _ _ _ _ A E)|exact (proj2 (S2 W) _ E)].
  - assert (NT : forall t, e_node e <> NTable t) by (rewrite EN; discriminate).
    destruct v as [l vs x o y| | | | | | |]; try (destruct F; fail). cbn [map_simple_val simple_scalar fine_dependency] in F.
    pose proof (keyed_leaf _ _ _ _ _ _ K) as L. rewrite EN in L.
    assert (RS : forall s, reads root (q ++ [SKey k]) s -> exists r, s = mksa r (mksv l vs x o y)).
    { intros s R. apply (reads_string _ _ _ _ _ _ _ K NT) in R. destruct e as [n rs]. cbn in EN. subst n. destruct rs as [|r rs]; [discriminate|]. cbn in R. injection R as <-. eauto. }
    split.
    + intros d D. apply (plain_problem _ _ _ _ _ _ _ _ K NT) in D. destruct D as [(v & ls & sp & tx & E & NS & _)|[(n & ls & sp & tx & E & _)|(s & er & R & RQ & _)]].
      * rewrite EN in E. injection E as <-. apply NS. reflexivity.
      * rewrite EN in E. discriminate.
      * destruct (RS _ R) as (r & ->). exact (no_requirement (mksa r (mksv l vs x o y)) _ F RQ).
    + intros s R. destruct (RS _ R) as (r & ->). apply requirement_ok; [exact L|exact F].
Qed.

(** ** Manifests *)
Lemma leafy : nice leaf any_elem root.
Proof. exact (nice_impl _ _ _ (lit_leaf text) _ deep). Qed.
Lemma top_at : table_at dc m [] [] m.
Proof. apply top_table; [exact WF|exact leafy]. Qed.
Lemma trail_prefix p q : trail [] (p ++ q) root <> None -> trail [] p root <> None.
Proof. rewrite trail_app. destruct (trail [] p root); congruence. Qed.
Lemma trail_key b k : Forall is_key b -> trail [] (b ++ [SKey k]) root <> None -> exists pb t e, table_at dc m b pb t /\ tget t k = Some e.
Proof.
  intros KB H. destruct (trail [] b root) as [[acc x]|] eqn:T; [|rewrite trail_app, T in H; congruence]. assert (NA : node_at b root = Some x) by (rewrite (trail_node _ []), T; reflexivity).
  rewrite trail_app, T in H. destruct x as [t|es|pa v es|v]; cbn [trail] in H; try congruence. destruct (keys_table _ _ WF leafy _ KB _ NA) as (pb & A).
  destruct (tget t k) as [e|] eqn:G; [eauto|congruence].
Qed.
Lemma dep_trail p d : dep_problem prof root p d -> trail [] p root <> None.
Proof.
  intros H. destruct H as [v ls sp tx H1 H2 H3 H4 H5|x n ls sp tx H1 H2 H3 H4|k' w d H1 H2|d H1 H2|d H1|k' d H1 H2|pa v es i x r s ls tx H1 H2 H3 H4 H5 H6 H7|es n ls sp tx H1 H2 H3|t d H1 H2|s er H1 H2].
  - exact (node_trail _ _ _ H1).
  - exact (node_trail _ _ _ H1).
  - exact (trail_prefix _ _ (type_trail _ _ _ _ H2)).
  - exact (trail_prefix _ _ (type_trail _ _ _ _ H2)).
  - exact (trail_prefix _ _ (old_trail _ _ _ _ _ H1)).
  - exact (trail_prefix _ _ (unknown_trail _ _ _ H2)).
  - exact (trail_prefix _ _ (node_trail _ _ _ H1)).
  - exact (trail_prefix _ _ (node_trail _ _ _ H1)).
  - exact (node_trail _ _ _ H1).
  - destruct H1 as [l sp x o q r rs E|t s E _ _ _]; [apply entry_at_node in E|]; exact (node_trail _ _ _ E).
Qed.
Lemma reads_trail p s : reads root p s -> trail [] p root <> None.
Proof. intros H. destruct H as [l sp x o q r rs E|t s E _ _ _]; [apply entry_at_node in E|]; exact (node_trail _ _ _ E). Qed.
Lemma base_keys target b : base target b -> Forall is_key b.
Proof. intros B. destruct B; repeat constructor; eexists; reflexivity. Qed.
Lemma section_key b kind s : section root b kind s -> exists key, In key section_keys /\ s = b ++ [at_key key].
Proof. intros H. destruct H; eexists; (split; [|reflexivity]); cbn; tauto. Qed.
Lemma new_section b key : In key sections -> exists kind, section root b kind (b ++ [at_key key]).
Proof. intros [<-|[<-|[<-|[]]]]; eexists; constructor. Qed.
Lemma sections_keys k : In k (map bs section_keys) -> In k (map bs sections) \/ k = bs "dev_dependencies" \/ k = bs "build_dependencies".
Proof. intros H. apply in_map_iff in H. destruct H as (x & <- & H). cbn in H. destruct H as [<-|[<-|[<-|[<-|[<-|[]]]]]]; cbn [map sections In]; tauto. Qed.

Lemma section_fine target b p key e : base target b -> In key sections -> keyed dc m b p (bs key) e -> no_panic ->
  (forall d, ~ problem prof root d) -> fine_section (val e).
Proof.
  intros B I0 K NP H. destruct (new_section b key I0) as (kind & S0).
  destruct (datatype_eq_dec (datatype_of (e_node e)) DtTable) as [Y|Y].
  2:{ destruct (mk_type _ _ _ _ _ K Y) as (d & D). destruct (H d). exact (pr_section _ _ kind target b _ _ B S0 D). }
  apply (type_table _ (keyed_deep _ _ _ _ K)) in Y. destruct Y as (t & EN). rewrite EN. pose proof (keyed_table _ _ _ _ _ _ _ K EN) as A.
  cbn [map_simple_val]. change (STable (from_iter _)) with (simple t). cbn [fine_section map_simple_val].
  refine (proj2 (entries_all _ _ _ (fun _ v => fine_dependency v) A) _). intros name e' G. pose proof (table_keyed _ _ _ _ _ _ _ A G) as K'.
  assert (AD : any_dep root ((b ++ [SKey (bs key)]) ++ [SKey name])) by (exists kind, target, name, b, (b ++ [at_key key]); auto).
  apply (dep_fine _ _ _ _ K' AD NP). intros d D. exact (H d (pr_dep _ _ _ _ AD D)).
Qed.
(** A key of a table with sections, if nothing is reported. *)
Lemma old_section target b p t k e : base target b -> table_at dc m b p t -> tget t k = Some e -> (forall d, ~ problem prof root d) ->
  k <> bs "dev_dependencies" /\ k <> bs "build_dependencies".
Proof.
  intros B A G H. split; intros ->.
  - destruct (mk_old _ _ _ "dev_dependencies" "dev-dependencies" _ A G) as (d & D). destruct (H d). exact (pr_dev _ _ target b d B D).
  - destruct (mk_old _ _ _ "build_dependencies" "build-dependencies" _ A G) as (d & D). destruct (H d). exact (pr_build _ _ target b d B D).
Qed.
Lemma quiet_fine : no_panic -> (forall d, ~ problem prof root d) -> fine_manifest (map_simple m).
Proof.
  intros NP H. pose proof top_at as A.
  refine (proj2 (entries_all _ _ _ (fun k v => (In k (map bs sections) /\ fine_section v) \/
    (k = bs "target" /\ match v with STable ts => Forall (fun tv => fine_target (snd tv)) ts | _ => False end) \/ In k (map bs other_keys)) A) _).
  intros k e G. pose proof (table_keyed _ _ _ _ _ _ _ A G) as K. destruct (old_section _ _ _ _ _ _ base_all A G H) as [O1 O2].
  destruct (in_dec (list_eq_dec N.eq_dec) k (map bs (section_keys ++ manifest_keys))) as [I0|I0].
  2:{ destruct (mk_unknown _ _ _ _ K) as (d & D). destruct (H d). exact (pr_unknown _ _ k d I0 D). }
  rewrite map_app in I0. apply in_app_iff in I0. destruct I0 as [I0|I0].
  - apply sections_keys in I0. destruct I0 as [I0|[I0|I0]]; [|contradiction|contradiction]. left. split; [exact I0|].
    apply in_map_iff in I0. destruct I0 as (key & <- & I0). exact (section_fine _ _ _ _ _ base_all I0 K NP H).
  - change manifest_keys with (other_keys ++ ["target"%string]) in I0. rewrite map_app in I0. apply in_app_iff in I0. destruct I0 as [I0|[<-|[]]]; [auto|]. right. left. split; [reflexivity|].
    destruct (datatype_eq_dec (datatype_of (e_node e)) DtTable) as [Y|Y].
    2:{ destruct (mk_type _ _ _ _ _ K Y) as (d & D). destruct (H d). exact (pr_targets _ _ _ D). }
    apply (type_table _ (keyed_deep _ _ _ _ K)) in Y. destruct Y as (ts & EN). rewrite EN. pose proof (keyed_table _ _ _ _ _ _ _ K EN) as AT.
    cbn [map_simple_val]. change (STable (from_iter _)) with (STable (map_simple ts)). cbn iota.
    refine (proj2 (entries_all _ _ _ (fun _ v => fine_target v) AT) _). intros t e' G'. pose proof (table_keyed _ _ _ _ _ _ _ AT G') as K'.
    destruct (datatype_eq_dec (datatype_of (e_node e')) DtTable) as [Y|Y].
    2:{ destruct (mk_type _ _ _ _ _ K' Y) as (d & D). destruct (H d). exact (pr_target _ _ t _ D). }
    apply (type_table _ (keyed_deep _ _ _ _ K')) in Y. destruct Y as (tb & EN'). rewrite EN'. pose proof (keyed_table _ _ _ _ _ _ _ K' EN') as AB.
    cbn [map_simple_val]. change (STable (from_iter _)) with (STable (map_simple tb)). cbn [fine_target].
    refine (proj2 (entries_all _ _ _ (fun k v => In k (map bs sections) /\ fine_section v) AB) _). intros k2 e2 G2. pose proof (table_keyed _ _ _ _ _ _ _ AB G2) as K2.
    destruct (old_section (Some t) _ _ _ _ _ (base_target t) AB G2 H) as [P1 P2].
    destruct (in_dec (list_eq_dec N.eq_dec) k2 (map bs section_keys)) as [I2|I2].
    2:{ destruct (mk_unknown _ _ _ _ K2) as (d & D). destruct (H d). exact (pr_unknown_target _ _ t k2 d I2 D). }
    apply sections_keys in I2. destruct I2 as [I2|[I2|I2]]; [|contradiction|contradiction]. split; [exact I2|].
    apply in_map_iff in I2. destruct I2 as (key & <- & I2). exact (section_fine (Some t) _ _ _ _ (base_target t) I2 K2 NP H).
Qed.

Hypothesis FINE : fine_manifest (map_simple m).
Lemma fine_top k e : tget m k = Some e -> (In k (map bs sections) /\ fine_section (val e)) \/
    (k = bs "target" /\ match val e with STable ts => Forall (fun tv => fine_target (snd tv)) ts | _ => False end) \/ In k (map bs other_keys).
Proof.
  exact (proj1 (entries_all _ _ _ (fun k v => (In k (map bs sections) /\ fine_section v) \/
    (k = bs "target" /\ match v with STable ts => Forall (fun tv => fine_target (snd tv)) ts | _ => False end) \/ In k (map bs other_keys)) top_at) FINE k e).
Qed.
Lemma fine_targets p t ts : table_at dc m [at_key "target"] p ts -> tget ts t <> None -> forall e, tget ts t = Some e -> fine_target (val e).
Proof.
  intros A _ e G. destruct (trail_key [] (bs "target")) as (pb & t0 & e0 & A0 & G0); [constructor|apply (node_trail m _ (NTable ts)); exact (table_node _ _ _ _ _ A)|].
  assert (t0 = m) by (pose proof (table_node _ _ _ _ _ A0) as X; cbn in X; congruence). subst t0.
  pose proof (table_node _ _ _ _ _ A) as X. cbn [node_at at_key] in X. rewrite G0 in X. injection X as X.
  destruct (fine_top _ _ G0) as [[I0 _]|[[_ F]|I0]].
  - exfalso. apply in_map_iff in I0. destruct I0 as (x & E & I0). apply bs_inj in E. subst x. cbn in I0. repeat (destruct I0 as [I0|I0]; [discriminate|]). exact I0.
  - rewrite X in F. cbn [map_simple_val] in F. change (STable (from_iter _)) with (STable (map_simple ts)) in F. cbn iota in F.
    exact (proj1 (entries_all _ _ _ (fun _ v => fine_target v) A) F t e G).
  - exfalso. apply in_map_iff in I0. destruct I0 as (x & E & I0). apply bs_inj in E. subst x. cbn in I0. repeat (destruct I0 as [I0|I0]; [discriminate|]). exact I0.
Qed.
Lemma fine_key target b p t k e : base target b -> table_at dc m b p t -> tget t k = Some e -> In k (map bs section_keys) \/ target <> None -> In k (map bs sections) /\ fine_section (val e).
Proof.
  intros B A G I0. destruct B as [|tn].
  - destruct I0 as [I0|I0]; [|congruence]. assert (t = m) by (pose proof (table_node _ _ _ _ _ A) as X; cbn in X; congruence). subst t. destruct (fine_top _ _ G) as [H|[[-> _]|H]]; [exact H| |]; exfalso.
    + apply in_map_iff in I0. destruct I0 as (x & E & I0). apply bs_inj in E. subst x. cbn in I0. repeat (destruct I0 as [I0|I0]; [discriminate|]). exact I0.
    + apply in_map_iff in I0, H. destruct I0 as (x & E & I0). destruct H as (y & E' & H). rewrite <- E in E'. apply bs_inj in E'. subst y.
      cbn in I0, H. repeat (destruct I0 as [<-|I0]; [repeat (destruct H as [H|H]; [discriminate|]); exact H|]). exact I0.
  - destruct (trail_key [at_key "target"] tn) as (pb & ts & e0 & A0 & G0); [repeat constructor; eexists; reflexivity|apply (node_trail m _ (NTable t)); exact (table_node _ _ _ _ _ A)|].
    pose proof (fine_targets _ tn _ A0 ltac:(congruence) _ G0) as F. pose proof (keyed_node _ _ _ _ _ _ (table_keyed _ _ _ _ _ _ _ A0 G0)) as X.
    pose proof (table_node _ _ _ _ _ A) as Y. cbn [app] in X. rewrite Y in X. injection X as X. rewrite <- X in F.
    cbn [map_simple_val] in F. change (STable (from_iter _)) with (STable (map_simple t)) in F. cbn [fine_target] in F.
    exact (proj1 (entries_all _ _ _ (fun k v => In k (map bs sections) /\ fine_section v) A) F k e G).
Qed.
Lemma fine_place p : any_dep root p -> trail [] p root <> None -> exists q pa k e, p = q ++ [SKey k] /\ keyed dc m q pa k e /\ fine_dependency (val e).
Proof.
  intros (kind & target & name & b & s & B & S0 & ->) T. destruct (section_key _ _ _ S0) as (key & I0 & ->).
  assert (KB : Forall is_key (b ++ [at_key key])) by (apply Forall_app; split; [exact (base_keys _ _ B)|repeat constructor; eexists; reflexivity]).
  destruct (trail_key _ _ KB T) as (ps & t & e & A & G). destruct (trail_key b (bs key) (base_keys _ _ B) (trail_prefix _ _ T)) as (pb & t0 & e0 & A0 & G0).
  destruct (fine_key _ _ _ _ _ _ B A0 G0) as [_ F]; [left; apply in_map; exact I0|].
  pose proof (keyed_node _ _ _ _ _ _ (table_keyed _ _ _ _ _ _ _ A0 G0)) as X. pose proof (table_node _ _ _ _ _ A) as Y. unfold at_key in Y. rewrite Y in X. injection X as X.
  rewrite <- X in F. cbn [map_simple_val] in F. change (STable (from_iter _)) with (STable (map_simple t)) in F. cbn [fine_section] in F.
  exists (b ++ [at_key key]), ps, name, e. split; [reflexivity|]. split; [exact (table_keyed _ _ _ _ _ _ _ A G)|].
  exact (proj1 (entries_all _ _ _ (fun _ v => fine_dependency v) A) F name e G).
Qed.
Lemma fine_quiet : (forall d, ~ problem prof root d) /\ no_panic.
Proof.
  assert (OLD : forall target b old, base target b -> In old ["dev_dependencies"; "build_dependencies"]%string -> trail [] (b ++ [at_key old]) root <> None -> False).
  { intros target b old B I0 T. destruct (trail_key b (bs old) (base_keys _ _ B) T) as (pb & t & e & A & G).
    destruct (fine_key _ _ _ _ _ _ B A G) as [F _]; [left; apply in_map; destruct I0 as [<-|[<-|[]]]; cbn; tauto|].
    apply in_map_iff in F. destruct F as (x & E & F). apply bs_inj in E. subst x. destruct I0 as [<-|[<-|[]]]; cbn in F; repeat (destruct F as [F|F]; [discriminate|]); exact F. }
  split.
  - intros d H. destruct H as [p d AD D|kind target b s d B S0 D|target b d B D|target b d B D|d D|t d D|k d NI D|t k d NI D].
    + destruct (fine_place _ AD (dep_trail _ _ D)) as (q & pa & k & e & -> & K & F). exact (proj1 (fine_dep _ _ _ _ K F) d D).
    + destruct (section_key _ _ _ S0) as (key & I0 & ->). destruct (trail_key b (bs key) (base_keys _ _ B) (type_trail _ _ _ _ D)) as (pb & t & e & A & G).
      pose proof (table_keyed _ _ _ _ _ _ _ A G) as K. destruct (fine_key _ _ _ _ _ _ B A G) as [_ F]; [left; apply in_map; exact I0|].
      apply (type_wrong _ _ _ _ _ _ K D). destruct (e_node e) as [t'|es|pa v es|v]; try (destruct F; fail); [reflexivity|]. destruct v; destruct F.
    + exact (OLD target b "dev_dependencies"%string B (or_introl eq_refl) (old_trail _ _ _ _ _ D)).
    + exact (OLD target b "build_dependencies"%string B (or_intror (or_introl eq_refl)) (old_trail _ _ _ _ _ D)).
    + destruct (trail_key [] (bs "target") (Forall_nil _) (type_trail _ _ _ _ D)) as (pb & t & e & A & G). pose proof (table_keyed _ _ _ _ _ _ _ A G) as K.
      apply (type_wrong _ _ _ _ _ _ K D). assert (t = m) by (pose proof (table_node _ _ _ _ _ A) as X; cbn in X; congruence). subst t.
      destruct (fine_top _ _ G) as [[I0 F]|[[_ F]|I0]].
      * exfalso. apply in_map_iff in I0. destruct I0 as (x & E & I0). apply bs_inj in E. subst x. cbn in I0. repeat (destruct I0 as [I0|I0]; [discriminate|]). exact I0.
      * destruct (e_node e) as [t'|es|pa v es|v]; try (destruct F; fail); [reflexivity|]. destruct v; destruct F.
      * exfalso. apply in_map_iff in I0. destruct I0 as (x & E & I0). apply bs_inj in E. subst x. cbn in I0. repeat (destruct I0 as [I0|I0]; [discriminate|]). exact I0.
    + assert (KT : Forall is_key [at_key "target"]) by (repeat constructor; eexists; reflexivity).
      destruct (trail_key [at_key "target"] t KT (type_trail _ _ _ _ D)) as (pb & ts & e & A & G). pose proof (table_keyed _ _ _ _ _ _ _ A G) as K.
      apply (type_wrong _ _ _ _ _ _ K D). pose proof (fine_targets _ t _ A ltac:(congruence) _ G) as F.
      destruct (e_node e) as [t'|es|pa v es|v]; try (destruct F; fail); [reflexivity|]. destruct v; destruct F.
    + destruct (trail_key [] k (Forall_nil _) (unknown_trail _ _ _ D)) as (pb & t & e & A & G). assert (t = m) by (pose proof (table_node _ _ _ _ _ A) as X; cbn in X; congruence). subst t.
      apply NI. rewrite map_app. apply in_app_iff. change manifest_keys with (other_keys ++ ["target"%string]). rewrite map_app, in_app_iff. destruct (fine_top _ _ G) as [[I0 _]|[[-> _]|I0]].
      * left. apply in_map_iff in I0. destruct I0 as (x & <- & I0). apply in_map. cbn in I0 |- *. tauto.
      * right. right. left. reflexivity.
      * right. left. exact I0.
    + assert (KT : Forall is_key [at_key "target"; SKey t]) by (repeat constructor; eexists; reflexivity).
      destruct (trail_key [at_key "target"; SKey t] k KT (unknown_trail _ _ _ D)) as (pb & tb & e & A & G).
      apply NI. destruct (fine_key (Some t) _ _ _ _ _ (base_target t) A G) as [I0 _]; [right; discriminate|].
      apply in_map_iff in I0. destruct I0 as (x & <- & I0). apply in_map. cbn in I0 |- *. tauto.
  - intros s (p & AD & R) P0. destruct (fine_place _ AD (reads_trail _ _ R)) as (q & pa & k & e & -> & K & F).
    destruct (proj2 (fine_dep _ _ _ _ K F) s R) as (v & RQ). pose proof (requirement_fun _ _ _ _ P0 RQ). discriminate.
Qed.
End Fine.
