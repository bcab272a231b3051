(** Mapping only adds. *)
From Verif Require Import Base BaseProofs CommonModel TomlError LitModel LexModel ParseModel MapModel MapSpec MapWf MapRel.

Lemma keeps_refl n : keeps n n.
Proof.
  destruct n as [t|es|pa v es|v]; cbn; try reflexivity.
  - split; [exists []; rewrite app_nil_r; reflexivity|]. intros k e H. exists e, []. rewrite app_nil_r. auto.
  - exists []. rewrite app_nil_r. reflexivity.
Qed.
Lemma keeps_trans a b c : keeps a b -> keeps b c -> keeps a c.
Proof.
  destruct a, b; cbn; try contradiction; destruct c; cbn; try contradiction; try congruence.
  - intros [(m1 & E1) H1] [(m2 & E2) H2]. split; [exists (m1 ++ m2); rewrite E2, E1, app_assoc; reflexivity|].
    intros k e T. destruct (H1 _ _ T) as (e1 & r1 & T1 & R1). destruct (H2 _ _ T1) as (e2 & r2 & T2 & R2).
    exists e2, (r1 ++ r2). rewrite R2, R1, app_assoc. auto.
  - intros (m1 & E1) (m2 & E2). exists (m1 ++ m2). rewrite E2, E1, app_assoc. reflexivity.
Qed.
Lemma grows_refl n : grows n n. Proof. intros p x H. exists x. split; [exact H|apply keeps_refl]. Qed.
Lemma grows_trans a b c : grows a b -> grows b c -> grows a c.
Proof.
  intros H1 H2 p x H. destruct (H1 _ _ H) as (y & Y & K1). destruct (H2 _ _ Y) as (z & Z & K2). exists z. split; [exact Z|]. exact (keeps_trans _ _ _ K1 K2).
Qed.

Lemma grows_set m k e e' more : tget m k = Some e -> grows (e_node e) (e_node e') -> e_reprs e' = e_reprs e ++ more -> grows (NTable m) (NTable (tset m k e')).
Proof.
  intros T G R [|[k'|i] p] x H; cbn [node_at] in *.
  - injection H as <-. eexists. split; [reflexivity|]. cbn. split; [exists []; rewrite fst_tset, app_nil_r; reflexivity|].
    intros k' e1 T1. rewrite tget_tset, T. destruct (bytes_eqb k k') eqn:E.
    + apply bytes_eqb_eq in E. subst k'. exists e', more. rewrite T in T1. injection T1 as <-. auto.
    + exists e1, []. rewrite app_nil_r. auto.
  - rewrite tget_tset, T. destruct (bytes_eqb k k') eqn:E.
    + apply bytes_eqb_eq in E. subst k'. rewrite T in H. exact (G _ _ H).
    + destruct (tget m k') as [e1|]; [|discriminate]. exact (grows_refl _ _ _ H).
  - discriminate.
Qed.
Lemma grows_push m k e : tget m k = None -> grows (NTable m) (NTable (tpush m k e)).
Proof.
  intros T [|[k'|i] p] x H; cbn [node_at] in *.
  - injection H as <-. eexists. split; [reflexivity|]. cbn. split; [exists [k]; apply fst_tpush|].
    intros k' e1 T1. rewrite (tget_tpush _ _ _ _ T). destruct (bytes_eqb k k') eqn:E.
    + apply bytes_eqb_eq in E. subst k'. congruence.
    + exists e1, []. rewrite app_nil_r. auto.
  - rewrite (tget_tpush _ _ _ _ T). destruct (bytes_eqb k k') eqn:E.
    + apply bytes_eqb_eq in E. subst k'. rewrite T in H. discriminate.
    + destruct (tget m k') as [e1|]; [|discriminate]. exact (grows_refl _ _ _ H).
  - discriminate.
Qed.
Lemma grows_elem es l t : grows (NTable (te_table l)) (NTable t) -> grows (NTop (es ++ [l])) (NTop (es ++ [mkte t (te_parent l) (te_repr l)])).
Proof.
  intros G [|[k'|i] p] x H; cbn [node_at] in *.
  - injection H as <-. eexists. split; [reflexivity|]. cbn. exists []. rewrite app_nil_r, !map_app. reflexivity.
  - discriminate.
  - destruct (Nat.lt_ge_cases (N.to_nat i) (length es)) as [LT|GE].
    + rewrite nth_error_app1 in * by exact LT. destruct (nth_error es (N.to_nat i)); [|discriminate]. exact (grows_refl _ _ _ H).
    + rewrite nth_error_app2 in * by exact GE. destruct (N.to_nat i - length es)%nat as [|[|j]]; [|discriminate..]. exact (G _ _ H).
Qed.
Lemma grows_append es l : grows (NTop es) (NTop (es ++ [l])).
Proof.
  intros [|[k'|i] p] x H; cbn [node_at] in *.
  - injection H as <-. eexists. split; [reflexivity|]. cbn. rewrite map_app. eexists. reflexivity.
  - discriminate.
  - destruct (nth_error es (N.to_nat i)) eqn:E; [|discriminate]. rewrite nth_error_app1 by (apply nth_error_Some; congruence). rewrite E. exact (grows_refl _ _ _ H).
Qed.

Definition assigns_grow (f : path -> N -> mtable -> run (mtable * list terror)) : Prop :=
  forall p parent m m' es, f p parent m = Ok (m', es) -> grows (NTable m) (NTable m').
Definition iv_grow (v : insert_value) : Prop := match v with IValue _ => True | IAssigns f | IEntry _ f => assigns_grow f end.

Ltac step_in E :=
  match type of E with bind ?g _ = _ => let x := fresh "x" in destruct g as [x|[]|] eqn:?; [cbn [bind] in E|discriminate E] end.

Lemma insert_node_grows p m k v r m' es : insert_node p m k v r = Ok (m', es) -> iv_grow v -> grows (NTable m) (NTable m').
Proof.
  intros E G. unfold insert_node in E. cbv zeta in E. destruct (tget m (id_text k)) as [e|] eqn:T.
  2:{ step_in E. destruct x as [n es0]. injection E as <- <-. apply grows_push. exact T. }
  assert (D1 : (let? o := first_of (e_reprs e) in let? err := duplicate_key_error p o r in Ok (m, [err])) = Ok (m', es) -> m' = m).
  { intros H. step_in H. step_in H. injection H as <- <-. reflexivity. }
  destruct v as [f|f|a f].
  - rewrite (D1 E). apply grows_refl.
  - destruct (e_node e) as [t| | |] eqn:EN; try (rewrite (D1 E); apply grows_refl).
    step_in E. destruct x as [err|]; [injection E as <- <-; apply grows_refl|]. cbn [insert_repr] in E. step_in E. destruct x as [t' es0]. injection E as <- <-.
    eapply grows_set; [exact T| |reflexivity]. cbn [e_node]. rewrite EN. eapply G. eassumption.
  - destruct (e_node e) as [|l| |] eqn:EN; try (rewrite (D1 E); apply grows_refl).
    + cbn [insert_repr] in E. step_in E. destruct x as [t' es0]. injection E as <- <-. eapply grows_set; [exact T| |reflexivity]. cbn [e_node]. rewrite EN. apply grows_append.
    + step_in E. injection E as <- <-. apply grows_refl.
Qed.
Lemma extend_grows p e r x : get_table_to_extend p e r = Ok x ->
  match x with
  | ExtErr e' _ => e_node e' = e_node e /\ exists more, e_reprs e' = e_reprs e ++ more
  | ExtOk e' _ _ t => e_node e' = e_node e /\ (exists more, e_reprs e' = e_reprs e ++ more) /\
      (e_node e = NTable t \/ exists es l, e_node e = NTop (es ++ [l]) /\ t = te_table l)
  end.
Proof.
  intros E. unfold get_table_to_extend in E. cbv zeta in E.
  assert (SAME : exists more, e_reprs e = e_reprs e ++ more) by (exists []; rewrite app_nil_r; reflexivity).
  destruct (e_node e) as [t|l|pa v l|v] eqn:EN.
  - cbn [insert_repr] in E. step_in E. destruct x0 as [err|]; injection E as <-; cbn [e_node e_reprs]; eauto 6.
  - destruct (is_assignment (r_kind r)).
    + step_in E. injection E as <-. auto.
    + cbn [insert_repr] in E. step_in E. step_in E. step_in E. match goal with H : last_of l = Ok _ |- _ => destruct (last_of_some _ _ H) as (l' & ->) end.
      destruct x2 as [err|]; injection E as <-; cbn [e_node e_reprs]; eauto 8.
  - step_in E. injection E as <-. auto.
  - step_in E. step_in E. injection E as <-. auto.
Qed.
Lemma insert_dotted_grows idents v kind : iv_grow v -> forall rest i p parent m m' es,
  insert_dotted idents v kind rest i p parent m = Ok (m', es) -> grows (NTable m) (NTable m').
Proof.
  intros G. induction rest as [|o [|o2 rest] IH]; intros i p parent m m' es E; [discriminate| |].
  - exact (insert_node_grows _ _ _ _ _ _ _ E G).
  - rewrite insert_dotted_eq in E. cbv zeta in E. destruct (tget m (id_text (di_ident o))) as [e|] eqn:T.
    2:{ step_in E. destruct x as [n es0]. injection E as <- <-. apply grows_push. exact T. }
    step_in E. pose proof (extend_grows _ _ _ _ Heqr) as X. destruct x as [e' np next t|e' err].
    + step_in E. destruct x as [t' es0]. injection E as <- <-. destruct X as (X1 & (more & X2) & X3).
      eapply grows_set; [exact T| |cbn [e_reprs]; exact X2]. cbn [e_node]. rewrite X1. specialize (IH _ _ _ _ _ _ Heqr0).
      destruct X3 as [->|(es & l & -> & ->)]; cbn [put_table].
      * exact IH.
      * rewrite set_last_app. apply grows_elem. exact IH.
    + injection E as <- <-. destruct X as (X1 & more & X2). eapply grows_set; [exact T| |exact X2]. rewrite X1. apply grows_refl.
Qed.
Lemma insert_at_path_grows p parent m k v kind m' es : insert_node_at_path p parent m k v kind = Ok (m', es) -> iv_grow v -> grows (NTable m) (NTable m').
Proof. intros E G. destruct k; [exact (insert_node_grows _ _ _ _ _ _ _ E G)|exact (insert_dotted_grows _ _ _ G _ _ _ _ _ _ _ E)]. Qed.
Lemma insert_assigns_grows l : assigns_grow (insert_assigns l).
Proof.
  induction l as [|a l IH]; intros p parent m m' es E; [injection E as <- <-; apply grows_refl|]. cbn [insert_assigns] in E.
  step_in E. destruct x as [m1 es1]. step_in E. destruct x as [m2 es2]. injection E as <- <-.
  apply (grows_trans _ (NTable m1)); [exact (insert_at_path_grows _ _ _ _ _ _ _ _ Heqr I)|exact (IH _ _ _ _ _ Heqr0)].
Qed.
Lemma map_ast_grows m a m' es : map_ast m a = Ok (m', es) -> grows (NTable m) (NTable m').
Proof.
  intros E. destruct a as [a|t|t|c]; cbn [map_ast] in E.
  - exact (insert_at_path_grows _ _ _ _ _ _ _ _ E I).
  - destruct (th_key (tb_header t)); [|injection E as <- <-; apply grows_refl]. exact (insert_at_path_grows _ _ _ _ _ _ _ _ E (insert_assigns_grows _)).
  - destruct (ah_key (ae_header t)); [|injection E as <- <-; apply grows_refl]. exact (insert_at_path_grows _ _ _ _ _ _ _ _ E (insert_assigns_grows _)).
  - injection E as <- <-. apply grows_refl.
Qed.
Lemma map_asts_grows l : forall m m' es, map_asts m l = Ok (m', es) -> grows (NTable m) (NTable m').
Proof.
  induction l as [|a l IH]; intros m m' es E; [injection E as <- <-; apply grows_refl|]. cbn [map_asts] in E.
  step_in E. destruct x as [m1 es1]. step_in E. destruct x as [m2 es2]. injection E as <- <-.
  exact (grows_trans _ _ _ (map_ast_grows _ _ _ _ Heqr) (IH _ _ _ Heqr0)).
Qed.
Lemma map_asts_app l1 l2 : forall m m' es, map_asts m (l1 ++ l2) = Ok (m', es) ->
  exists m1 es1 es2, map_asts m l1 = Ok (m1, es1) /\ map_asts m1 l2 = Ok (m', es2) /\ es = es1 ++ es2.
Proof.
  induction l1 as [|a l IH]; intros m m' es E; cbn [app map_asts] in *.
  - exists m, [], es. auto.
  - step_in E. destruct x as [m1 es1]. step_in E. destruct x as [m2 es2]. injection E as <- <-.
    destruct (IH _ _ _ Heqr0) as (m3 & e3 & e4 & H1 & H2 & ->). exists m3, (es1 ++ e3), e4. cbn [bind]. rewrite H1. cbn [bind]. rewrite app_assoc. auto.
Qed.
Theorem map_doc_grows l more m' es' : map_doc (l ++ more) = Ok (m', es') ->
  exists m es es2, map_doc l = Ok (m, es) /\ es' = es ++ es2 /\ grows (NTable m) (NTable m').
Proof.
  intros E. destruct (map_asts_app _ _ _ _ _ E) as (m & es & es2 & H1 & H2 & ->). exists m, es, es2. split; [exact H1|]. split; [reflexivity|].
  exact (map_asts_grows _ _ _ _ H2).
Qed.
