(** Like the last part of MeanProofs.v, for any part of the items of a
    document: the map of these items is what they say. *)
From Verif Require Import Base BaseProofs CommonModel TomlError LitModel LexModel LexSpec ParseModel ParseSpec ParsePlace ParseRoot PropParse MapModel MapSpec MapWf MapRel MapDecl MapExt MapNice
  PropMap IdeProofs PropIde CliModel MeanSpec MeanProofs PropPre.

Section Items.
Context (P : value -> Prop) (Q : avalue -> Prop) (l : list ast) (d : list stmt) (m : mtable).
Hypothesis SAME : Forall2 same (doc_decls l) (said_by d).

Lemma consistent_items es : map_doc l = Ok (m, es) -> (es = [] <-> consistent d).
Proof.
  intros M. rewrite (proj1 (map_doc_content _ _ _ M)). split.
  - intros V x y B E. destruct (conflict (snd x) (snd y)) eqn:F; [|reflexivity]. exfalso.
    destruct (proj2 (same_consistent _ _ SAME)) as (u & w & U1 & U2 & U3); [exists x, y; auto|]. rewrite (V _ _ U1 U2) in U3. discriminate.
  - intros C x y B E. destruct (clash (snd x) (snd y)) eqn:F; [|reflexivity]. exfalso.
    destruct (proj1 (same_consistent _ _ SAME)) as (u & w & U1 & U2 & U3); [exists x, y; auto|]. rewrite (C _ _ U1 U2) in U3. discriminate.
Qed.

Hypothesis MAP : map_doc l = Ok (m, []).
Hypothesis NICE : nice P Q (NTable m).

Lemma items_hold p h : holds_at (said_by d) p h <-> exists x, sval_at p (STable (map_simple m)) = Some x /\ holding_of x = Some h.
Proof.
  change (STable (map_simple m)) with (map_simple_val (NTable m)). rewrite (simple_at _ _ _ _ NICE). pose proof (proj2 (map_doc_content _ _ _ MAP) eq_refl p) as C.
  assert (SV : forall n, node_at p (NTable m) = Some n -> nice P Q n /\ forall v, n = NScalar v -> is_scalar_val v).
  { intros n E. split; [exact (nice_at _ _ _ _ _ E NICE)|]. intros v ->. specialize (C (CScalar v)). rewrite E in C. pose proof (proj1 C eq_refl) as D. inversion D. assumption. }
  split.
  - intros H. destruct (holds_declared _ _ _ _ SAME H) as (c & HC & DC). apply C in DC. destruct (node_at p (NTable m)) as [n|] eqn:E; [|discriminate]. injection DC as DC.
    destruct (SV _ eq_refl) as [N0 S0]. exists (map_simple_val n). split; [reflexivity|]. apply (simple_holding _ _ _ _ N0 S0). rewrite DC. exact HC.
  - intros (x & E & H). destruct (node_at p (NTable m)) as [n|] eqn:E0; [|discriminate]. injection E as <-. destruct (SV _ eq_refl) as [N0 S0].
    apply (simple_holding _ _ _ _ N0 S0) in H. destruct (declared_holds _ _ _ _ SAME (proj1 (C _) eq_refl)) as (h' & H1 & H2).
    assert (h' = h) as <-; [|exact H2]. destruct (content_of n); cbn [holding_is] in *; [congruence|congruence|]. destruct H as (t & T1 & _ & ->), H1 as (t' & T2 & _ & ->). congruence.
Qed.
Lemma items_mean : means d (STable (map_simple m)).
Proof.
  intros p. destruct (sval_at p (STable (map_simple m))) as [x|] eqn:E.
  - assert (NI : holding_of x <> None).
    { pose proof E as E'. change (STable (map_simple m)) with (map_simple_val (NTable m)) in E'. rewrite (simple_at _ _ _ _ NICE) in E'.
      destruct (node_at p (NTable m)) as [n|] eqn:E0; [|discriminate]. injection E' as <-. pose proof (proj2 (map_doc_content _ _ _ MAP) eq_refl p (content_of n)) as C. rewrite E0 in C.
      destruct (declared_holds _ _ _ _ SAME (proj1 C eq_refl)) as (h & H1 & H2). apply items_hold in H2. destruct H2 as (x & X1 & X2). rewrite E in X1. congruence. }
    destruct (holding_of x) as [h|] eqn:H; [|congruence]. exists h. split; [reflexivity|]. apply items_hold. eauto.
  - intros h H. apply items_hold in H. destruct H as (x & X & _). congruence.
Qed.
Lemma items_means v : means d v -> v = STable (map_simple m).
Proof.
  intros M. symmetry. apply same_values.
  - exact (simple_distinct _ _ _ NICE).
  - intros p. pose proof (items_mean p) as M1. specialize (M p). destruct (sval_at p (STable (map_simple m))) as [x|] eqn:E.
    + destruct M1 as (h & H1 & H2). destruct (sval_at p v) as [x'|]; [|destruct (M _ H2)]. destruct M as (h' & H3 & H4). apply items_hold in H4. destruct H4 as (x0 & X1 & X2).
      cbn [option_map]. congruence.
    + destruct (sval_at p v) as [x'|]; [|reflexivity]. destruct M as (h' & _ & H4). destruct (M1 _ H4).
  - intros p x E. pose proof (items_mean p) as M1. rewrite E in M1. destruct M1 as (h & H1 & _). congruence.
Qed.
End Items.

(** A part of the items of a document, in order. *)
Lemma no_header_filter f l : no_header l -> no_header (filter f l).
Proof.
  unfold no_header. intros H. rewrite Forall_forall in *. intros x X. apply filter_In in X. apply H. exact (proj1 X).
Qed.
Lemma no_late_filter f l : no_late l -> no_late (filter f l).
Proof.
  induction l as [|x l IH]; intros H; [exact I|]. cbn [filter]. destruct x as [a|t|t|c]; cbn [no_late] in H.
  - destruct (f _); [exact (no_header_filter f l H)|]. exact (no_header_late _ (no_header_filter f l H)).
  - destruct (f _); exact (IH H).
  - destruct (f _); exact (IH H).
  - destruct (f _); exact (IH H).
Qed.
Lemma filter_rev_ast f (l : list ast) : filter f (rev l) = rev (filter f l).
Proof.
  induction l as [|x l IH]; [reflexivity|]. cbn [rev filter]. rewrite filter_app, IH. cbn [filter]. destruct (f x); [reflexivity|apply app_nil_r].
Qed.
Lemma part_same input a es f d : lex_and_parse input = Ok (a, es) -> all_some (flat_map ast_of (filter f (as_asts a))) = Some d -> Forall2 same (doc_decls (filter f (as_asts a))) (said_by d).
Proof.
  intros E D. pose proof (no_late_filter f _ (doc_late _ _ _ E)) as NL. rewrite <- (rev_involutive (filter f (as_asts a))), <- filter_rev_ast. apply same_list; [exact NL|].
  unfold stmts. rewrite filter_rev_ast, rev_involutive. exact D.
Qed.
Lemma part_nice input a es f m es' : lex_and_parse input = Ok (a, es) -> map_doc (filter f (as_asts a)) = Ok (m, es') -> nice (lit_ok input) any_elem (NTable m).
Proof.
  intros E M. apply (map_doc_nice _ _ _ _ _ M). destruct (C50_places _ _ _ E) as (ts & es0 & _ & F & _).
  rewrite Forall_forall in *. intros x X. apply filter_In in X. exact (ast_ok_leaves _ _ _ _ (F _ (proj1 X))).
Qed.
