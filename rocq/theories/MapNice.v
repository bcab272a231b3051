(** Keys of tables are distinct, and scalars and elements of arrays are those
    of the document, also when errors were reported. *)
From Verif Require Import Base BaseProofs CommonModel TomlError LitModel LexModel ParseModel MapModel MapSpec MapWf MapRel MapExt.

Section Nice.
  Variable P : value -> Prop.
  Variable Q : avalue -> Prop.
  Fixpoint nice (n : node) : Prop :=
    match n with
    | NTable t => NoDup (map fst t) /\ All (fun x => nice (e_node (snd x))) t
    | NTop es => All (fun e => NoDup (map fst (te_table e)) /\ All (fun x => nice (e_node (snd x))) (te_table e)) es
    | NInline _ _ es => All (fun e => Q (ie_repr e) /\ nice (ie_node e)) es
    | NScalar v => P v
    end.
  Fixpoint leaves (v : value) : Prop :=
    match v with
    | VTable _ l _ => All (fun a => leaves (as_val (ia_assign a))) l
    | VArray _ _ l _ => All (fun a => Q a /\ leaves (av_val a)) l
    | v => P v
    end.
  Notation nice_t t := (nice (NTable t)).
  Lemma nice_table t : nice_t t <-> NoDup (map fst t) /\ Forall (fun x => nice (e_node (snd x))) t.
  Proof. cbn [nice]. rewrite All_Forall. reflexivity. Qed.
  Lemma nice_top es : nice (NTop es) <-> Forall (fun e => nice_t (te_table e)) es.
  Proof. cbn [nice]. rewrite All_Forall. reflexivity. Qed.
  Lemma nice_inline p v es : nice (NInline p v es) <-> Forall (fun e => Q (ie_repr e) /\ nice (ie_node e)) es.
  Proof. cbn [nice]. rewrite All_Forall. reflexivity. Qed.

  Lemma nice_get t k e : nice_t t -> tget t k = Some e -> nice (e_node e).
  Proof.
    intros H T. apply nice_table in H. destruct H as [_ H]. induction t as [|[k' e'] t IH]; [discriminate|]. cbn in T.
    destruct (bytes_eqb k' k); [injection T as <-; exact (Forall_inv H)|exact (IH (Forall_inv_tail H) T)].
  Qed.
  Lemma nice_set t k e : nice_t t -> nice (e_node e) -> nice_t (tset t k e).
  Proof.
    intros H N0. apply nice_table. apply nice_table in H. destruct H as [D H]. rewrite fst_tset. split; [exact D|]. clear D.
    induction t as [|[k' e'] t IH]; [constructor|]. cbn. destruct (bytes_eqb k' k); constructor; try exact (Forall_inv_tail H); [exact N0|exact (Forall_inv H)|].
    exact (IH (Forall_inv_tail H)).
  Qed.
  Lemma nice_push t k e : nice_t t -> tget t k = None -> nice (e_node e) -> nice_t (tpush t k e).
  Proof.
    intros H T N0. apply nice_table. apply nice_table in H. destruct H as [D H]. rewrite fst_tpush. split.
    - apply NoDup_rev in D. rewrite <- (rev_involutive (map fst t ++ [k])). apply NoDup_rev. rewrite rev_app_distr. cbn. constructor; [|exact D].
      rewrite <- in_rev. intros I0. apply tget_in in I0. congruence.
    - unfold tpush. apply Forall_app. split; [exact H|]. constructor; [exact N0|constructor].
  Qed.
  Lemma nice_nil : nice_t []. Proof. split; [constructor|exact I]. Qed.

  Definition assigns_nice (f : path -> N -> mtable -> run (mtable * list terror)) : Prop :=
    forall p parent m m' es, f p parent m = Ok (m', es) -> nice_t m -> nice_t m'.
  Definition iv_nice (v : insert_value) : Prop :=
    match v with IValue f => forall p parent n es, f p parent = Ok (n, es) -> nice n | IAssigns f | IEntry _ f => assigns_nice f end.

  Lemma map_insert_nice p parent v n es : map_insert_value p parent v = Ok (n, es) -> iv_nice v -> nice n.
  Proof.
    intros E G. destruct v as [f|f|a f]; cbn [map_insert_value] in E.
    - exact (G _ _ _ _ E).
    - step_in E. destruct x as [m es0]. injection E as <- <-. exact (G _ _ _ _ _ Heqr nice_nil).
    - step_in E. destruct x as [m es0]. injection E as <- <-. apply nice_top. constructor; [|constructor]. exact (G _ _ _ _ _ Heqr nice_nil).
  Qed.
  Lemma insert_node_nice p m k v r m' es : insert_node p m k v r = Ok (m', es) -> iv_nice v -> nice_t m -> nice_t m'.
  Proof.
    intros E G M. unfold insert_node in E. cbv zeta in E. destruct (tget m (id_text k)) as [e|] eqn:T.
    2:{ step_in E. destruct x as [n es0]. injection E as <- <-. apply nice_push; [exact M|exact T|]. exact (map_insert_nice _ _ _ _ _ Heqr0 G). }
    assert (D1 : (let? o := first_of (e_reprs e) in let? err := duplicate_key_error p o r in Ok (m, [err])) = Ok (m', es) -> m' = m).
    { intros H. step_in H. step_in H. injection H as <- <-. reflexivity. }
    pose proof (nice_get _ _ _ M T) as NE.
    destruct v as [f|f|a f].
    - rewrite (D1 E). exact M.
    - destruct (e_node e) as [t| | |] eqn:EN; try (rewrite (D1 E); exact M).
      step_in E. destruct x as [err|]; [injection E as <- <-; exact M|]. cbn [insert_repr] in E. step_in E. destruct x as [t' es0]. injection E as <- <-.
      apply nice_set; [exact M|]. cbn [e_node]. eapply G; eassumption.
    - destruct (e_node e) as [|l| |] eqn:EN; try (rewrite (D1 E); exact M).
      + cbn [insert_repr] in E. step_in E. destruct x as [t' es0]. injection E as <- <-. apply nice_set; [exact M|]. cbn [e_node].
        apply nice_top. apply nice_top in NE. apply Forall_app. split; [exact NE|]. constructor; [|constructor]. exact (G _ _ _ _ _ Heqr0 nice_nil).
      + step_in E. injection E as <- <-. exact M.
  Qed.
  Lemma new_chain_nice idents v kind : iv_nice v -> forall rest i p parent e es, new_chain idents v kind rest i p parent = Ok (e, es) -> nice (e_node e).
  Proof.
    intros G. induction rest as [|o [|o2 rest] IH]; intros i p parent e es E; [discriminate| |]; cbn [new_chain] in E.
    - step_in E. destruct x as [n es0]. injection E as <- <-. exact (map_insert_nice _ _ _ _ _ Heqr G).
    - step_in E. destruct x as [e0 es0]. injection E as <- <-. cbn [e_node].
      apply nice_push; [exact nice_nil|reflexivity|]. exact (IH _ _ _ _ _ Heqr).
  Qed.
  Lemma insert_dotted_nice idents v kind : iv_nice v -> forall rest i p parent m m' es,
    insert_dotted idents v kind rest i p parent m = Ok (m', es) -> nice_t m -> nice_t m'.
  Proof.
    intros G. induction rest as [|o [|o2 rest] IH]; intros i p parent m m' es E M; [discriminate| |].
    - exact (insert_node_nice _ _ _ _ _ _ _ E G M).
    - rewrite insert_dotted_eq in E. cbv zeta in E. destruct (tget m (id_text (di_ident o))) as [e|] eqn:T.
      2:{ step_in E. destruct x as [n es0]. injection E as <- <-. apply nice_push; [exact M|exact T|]. exact (new_chain_nice _ _ _ G _ _ _ _ _ _ Heqr). }
      pose proof (nice_get _ _ _ M T) as NE.
      step_in E. pose proof (extend_grows _ _ _ _ Heqr) as X. destruct x as [e' np next t|e' err].
      + step_in E. destruct x as [t' es0]. injection E as <- <-. destruct X as (X1 & (more & X2) & X3).
        apply nice_set; [exact M|]. cbn [e_node]. rewrite X1. specialize (IH _ _ _ _ _ _ Heqr0).
        destruct X3 as [EN|(es & l & EN & ->)]; rewrite EN in NE |- *; cbn [put_table].
        * exact (IH NE).
        * rewrite set_last_app. apply nice_top in NE. apply Forall_app in NE as [N1 N2]. apply nice_top. apply Forall_app. split; [exact N1|].
          constructor; [|constructor]. exact (IH (Forall_inv N2)).
      + injection E as <- <-. destruct X as (X1 & more & X2). apply nice_set; [exact M|]. rewrite X1. exact NE.
  Qed.
  Lemma insert_at_path_nice p parent m k v kind m' es : insert_node_at_path p parent m k v kind = Ok (m', es) -> iv_nice v -> nice_t m -> nice_t m'.
  Proof. intros E G. destruct k; [exact (insert_node_nice _ _ _ _ _ _ _ E G)|exact (insert_dotted_nice _ _ _ G _ _ _ _ _ _ _ E)]. Qed.
  Lemma map_value_nice : forall v p parent n es, map_value v p parent = Ok (n, es) -> leaves v -> nice n.
  Proof.
    fix IH 1. intros [l sp t o q|l sp z|l sp x|sp b|l sp d|p0 l e0|cr p0 l e0|l sp] p parent n es E L.
    1-5,8: injection E as <- <-; exact L.
    - cbn [map_value] in E. step_in E. destruct x as [m es0]. injection E as <- <-. cbn [leaves] in L.
      assert (H : nice_t []) by exact nice_nil. revert L H m es0 Heqr. generalize (@nil (list N * mentry)). clear -IH.
      induction l as [|a l IHl]; intros m0 L H m es0 E; [injection E as <- <-; exact H|].
      destruct L as [L1 L2]. step_in E. destruct x as [m1 es1]. step_in E. destruct x as [m2 es2]. injection E as <- <-.
      apply (IHl m1 L2) with (es0 := es2); [|exact Heqr0]. apply (insert_at_path_nice _ _ _ _ _ _ _ _ Heqr); [|exact H].
      cbn. intros p1 pa n es H1. exact (IH _ _ _ _ _ H1 L1).
    - cbn [map_value] in E. step_in E. destruct x as [ns es0]. injection E as <- <-. cbn [leaves] in L. apply nice_inline.
      revert L ns es0 Heqr. generalize 0. clear -IH. induction l as [|a l IHl]; intros i L ns es0 E; [injection E as <- <-; constructor|].
      destruct L as [L1 L2]. step_in E. destruct x as [n1 es1]. step_in E. destruct x as [ns2 es2]. injection E as <- <-.
      constructor; [split; [exact (proj1 L1)|exact (IH _ _ _ _ _ Heqr (proj2 L1))]|exact (IHl _ L2 _ _ Heqr0)].
  Qed.
  Definition tassign_leaves (a : tassign) : Prop := leaves (as_val (ta_assign a)).
  Lemma insert_assigns_nice l : Forall tassign_leaves l -> assigns_nice (insert_assigns l).
  Proof.
    induction l as [|a l IH]; intros F p parent m m' es E M; [injection E as <- <-; exact M|]. cbn [insert_assigns] in E.
    step_in E. destruct x as [m1 es1]. step_in E. destruct x as [m2 es2]. injection E as <- <-.
    apply (IH (Forall_inv_tail F) _ _ _ _ _ Heqr0). apply (insert_at_path_nice _ _ _ _ _ _ _ _ Heqr); [|exact M].
    intros p1 pa n es H1. exact (map_value_nice _ _ _ _ _ H1 (Forall_inv F)).
  Qed.
  Definition ast_leaves (a : ast) : Prop :=
    match a with
    | AAssign a => tassign_leaves a
    | ATable t => Forall tassign_leaves (tb_assigns t)
    | AArray t => Forall tassign_leaves (ae_assigns t)
    | AComment _ => True
    end.
  Lemma map_ast_nice m a m' es : map_ast m a = Ok (m', es) -> ast_leaves a -> nice_t m -> nice_t m'.
  Proof.
    intros E L M. destruct a as [a|t|t|c]; cbn [map_ast ast_leaves] in E, L.
    - apply (insert_at_path_nice _ _ _ _ _ _ _ _ E); [|exact M]. intros p1 pa n es0 H1. exact (map_value_nice _ _ _ _ _ H1 L).
    - destruct (th_key (tb_header t)); [|injection E as <- <-; exact M]. apply (insert_at_path_nice _ _ _ _ _ _ _ _ E); [|exact M]. exact (insert_assigns_nice _ L).
    - destruct (ah_key (ae_header t)); [|injection E as <- <-; exact M]. apply (insert_at_path_nice _ _ _ _ _ _ _ _ E); [|exact M]. exact (insert_assigns_nice _ L).
    - injection E as <- <-. exact M.
  Qed.
  Theorem map_doc_nice l m es : map_doc l = Ok (m, es) -> Forall ast_leaves l -> nice_t m.
  Proof.
    unfold map_doc. intros E F. assert (H : nice_t []) by exact nice_nil. revert F H es E. generalize (@nil (list N * mentry)).
    induction l as [|a l IH]; intros m0 F H es E; [injection E as <- <-; exact H|]. cbn [map_asts] in E.
    step_in E. destruct x as [m1 es1]. step_in E. destruct x as [m2 es2]. injection E as <- <-.
    exact (IH _ (Forall_inv_tail F) (map_ast_nice _ _ _ _ Heqr (Forall_inv F) H) _ Heqr0).
  Qed.
End Nice.
(** Nothing said about the elements. *)
Definition any_elem (a : avalue) : Prop := True.
