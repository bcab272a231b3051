(** The findings of the mapping are at the names that are being inserted. *)
From Verif Require Import Base BaseProofs CommonModel TomlError LitModel LexModel ParseModel ParseMarks MapModel MapWf MapDecl MapExt LowLit.

Section Low.
  Context (L : N).
  Definition mlow (e : terror) : Prop := lowspan L (err_span e).
  Definition idlow (i : ident) : Prop := L <= p_line (id_start i).
  Definition relow (r : mrepr) : Prop := forall i, repr_ident (r_key r) = Ok i -> idlow i.
  Definition ivlow (v : insert_value) : Prop :=
    match v with
    | IValue f => forall p parent n es, f p parent = Ok (n, es) -> Forall mlow es
    | IAssigns f | IEntry _ f => forall p parent m m' es, f p parent m = Ok (m', es) -> Forall mlow es
    end.
  Definition keylow (k : key) : Prop := Forall (lowspan L) (key_marks k).

  Lemma dup_low p orig r e : duplicate_key_error p orig r = Ok e -> relow r -> mlow e.
  Proof. unfold duplicate_key_error. intros E R. step_in E. step_in E. step_in E. step_in E. injection E as <-. exact (R _ Heqr1). Qed.
  Lemma super_low p r : relow r -> forall rs e, super_reprs p r rs = Ok (Some e) -> mlow e.
  Proof.
    intros R. induction rs as [|x rs IH]; intros e E; [discriminate|]. cbn [super_reprs] in E. cbv zeta in E.
    assert (F : (let? err := duplicate_key_error p x r in Ok (Some err)) = Ok (Some e) -> mlow e) by (intros X; step_in X; injection X as <-; eapply dup_low; eassumption).
    destruct (r_kind x); try (exact (F E)); step_in E; (destruct x0; [exact (F E)|exact (IH _ E)]).
  Qed.
  Lemma extend_low mk p en r e : (forall a b c d, err_span (mk a b c d) = d) -> extend_error mk p en r = Ok e -> relow r -> mlow e.
  Proof. unfold extend_error. intros MK E R. step_in E. step_in E. step_in E. step_in E. step_in E. injection E as <-. unfold mlow. rewrite MK. exact (R _ Heqr2). Qed.
  Lemma check_low prev next all r b : relow r -> last_of all = Ok r -> forall rs e, check_reprs prev next all rs b = Ok (Some e) -> mlow e.
  Proof.
    intros R LA. induction rs as [|x rs IH]; intros e E; [discriminate|]. cbn [check_reprs] in E. cbv zeta in E. rewrite LA in E.
    assert (F : forall mk, (forall a b c d, err_span (mk a b c d) = d) -> (let? orig := first_of all in let? dupe := Ok r in let? ls := context_lines prev (r_parent orig) (r_parent dupe) in
      let? t := fmt_path next in let? sp := kind_span (r_kind orig) in let? i := repr_ident (r_key dupe) in Ok (Some (mk ls t sp (lit_span i)))) = Ok (Some e) -> mlow e).
    { intros mk MK X. step_in X. cbn [bind] in X. step_in X. step_in X. step_in X. step_in X. injection X as <-. unfold mlow. rewrite MK. apply R. assumption. }
    destruct (r_kind x).
    - destruct b; [apply (F ECannotExtendTableWithDottedKey); [reflexivity|exact E]|exact (IH _ E)].
    - exact (IH _ E).
    - step_in E. destruct x0; [apply (F ECannotExtendInlineTable); [reflexivity|exact E]|exact (IH _ E)].
    - step_in E. destruct x0; [apply (F ECannotExtendInlineTable); [reflexivity|exact E]|exact (IH _ E)].
  Qed.
  Lemma get_table_low p e r e' err : get_table_to_extend p e r = Ok (ExtErr e' err) -> relow r -> mlow err.
  Proof.
    unfold get_table_to_extend, insert_repr. cbv zeta. intros E R. destruct (e_node e) as [t|es|ip iv ies|v].
    - step_in E. destruct x as [x|]; [|discriminate]. injection E as _ <-. eapply (check_low _ _ _ r); [exact R|apply last_of_app|eassumption].
    - destruct (is_assignment _).
      + step_in E. injection E as _ <-. eapply extend_low; [|eassumption|exact R]. reflexivity.
      + step_in E. step_in E. step_in E. destruct x1 as [x1|]; [|discriminate]. injection E as _ <-. eapply (check_low _ _ _ r); [exact R|apply last_of_app|eassumption].
    - step_in E. injection E as _ <-. eapply extend_low; [|eassumption|exact R]. reflexivity.
    - step_in E. step_in E. injection E as _ <-. eapply dup_low; eassumption.
  Qed.

  Lemma insert_value_low p parent v n es : map_insert_value p parent v = Ok (n, es) -> ivlow v -> Forall mlow es.
  Proof.
    destruct v as [f|f|a f]; cbn [map_insert_value ivlow]; intros E H.
    - exact (H _ _ _ _ E).
    - step_in E. destruct x as [m es0]. injection E as _ <-. exact (H _ _ _ _ _ Heqr).
    - step_in E. destruct x as [m es0]. injection E as _ <-. exact (H _ _ _ _ _ Heqr).
  Qed.
  Lemma insert_node_low p m k v r m' es : insert_node p m k v r = Ok (m', es) -> relow r -> ivlow v -> Forall mlow es.
  Proof.
    unfold insert_node, insert_repr. cbv zeta. intros E R H. destruct (tget m (id_text k)) as [e|].
    2:{ step_in E. destruct x as [n es0]. injection E as _ <-. eapply insert_value_low; eassumption. }
    assert (D : (let? o := first_of (e_reprs e) in let? err := duplicate_key_error p o r in Ok (m, [err])) = Ok (m', es) -> Forall mlow es).
    { intros X. step_in X. step_in X. injection X as _ <-. constructor; [eapply dup_low; eassumption|constructor]. }
    destruct v as [f|f|a f]; [exact (D E)| |]; destruct (e_node e) as [tt0|tes|ip iv ies|sv]; try (exact (D E)).
    - step_in E. destruct x as [err|].
      + injection E as _ <-. constructor; [eapply super_low; eassumption|constructor].
      + step_in E. destruct x as [t' es0]. injection E as _ <-. exact (H _ _ _ _ _ Heqr1).
    - step_in E. destruct x as [t' es0]. injection E as _ <-. exact (H _ _ _ _ _ Heqr0).
    - step_in E. injection E as _ <-. constructor; [|constructor]. eapply extend_low; [|eassumption|exact R]. reflexivity.
  Qed.
  Lemma new_chain_low idents v kind : ivlow v -> forall rest i p parent e es, new_chain idents v kind rest i p parent = Ok (e, es) -> Forall mlow es.
  Proof.
    intros H. induction rest as [|o [|o2 rest] IH]; intros i p parent e es E; [discriminate| |].
    - cbn [new_chain] in E. step_in E. destruct x as [n es0]. injection E as _ <-. eapply insert_value_low; eassumption.
    - remember (o2 :: rest) as r2. cbn [new_chain] in E. subst r2. step_in E. destruct x as [e0 es0]. injection E as _ <-. exact (IH _ _ _ _ _ Heqr).
  Qed.
  Lemma dotted_low idents i parent kind : keylow (KDotted idents) -> relow (mkrepr parent (MDotted i idents) kind).
  Proof.
    intros K j E. cbn [r_key repr_ident] in E. step_in E. injection E as <-. unfold keylow in K. cbn [key_marks] in K. rewrite Forall_forall in K.
    assert (I : In x idents). { unfold lookup in Heqr. destruct (nth_error idents (N.to_nat i)) eqn:NE; [|discriminate]. injection Heqr as ->. eapply nth_error_In. exact NE. }
    apply (K (ident_mark (di_ident x))). apply in_flat_map. exists x. split; [exact I|left; reflexivity].
  Qed.
  Lemma insert_dotted_low idents v kind : keylow (KDotted idents) -> ivlow v -> forall rest i p parent m m' es,
    insert_dotted idents v kind rest i p parent m = Ok (m', es) -> Forall mlow es.
  Proof.
    intros K H. induction rest as [|o [|o2 rest] IH]; intros i p parent m m' es E; [discriminate| |].
    - eapply insert_node_low; [exact E|apply dotted_low; exact K|exact H].
    - rewrite insert_dotted_eq in E. cbv zeta in E. destruct (tget m _) as [e|].
      2:{ step_in E. destruct x as [e es0]. injection E as _ <-. eapply new_chain_low; eassumption. }
      step_in E. destruct x as [e' np next t|e' err].
      + step_in E. destruct x as [t' es0]. injection E as _ <-. exact (IH _ _ _ _ _ _ Heqr0).
      + injection E as _ <-. constructor; [|constructor]. eapply get_table_low; [exact Heqr|apply dotted_low; exact K].
  Qed.
  Lemma at_path_low p parent m k v kind m' es : insert_node_at_path p parent m k v kind = Ok (m', es) -> keylow k -> ivlow v -> Forall mlow es.
  Proof.
    intros E K H. destruct k as [i|l]; cbn [insert_node_at_path] in E.
    - eapply insert_node_low; [exact E| |exact H]. intros j X. cbn in X. injection X as <-. exact (Forall_inv K).
    - eapply insert_dotted_low; eassumption.
  Qed.
  Lemma map_value_low v : Forall (lowspan L) (value_marks v) -> ivlow (IValue (map_value v)).
  Proof.
    cbn [ivlow]. induction v as [lp l e IH|cr lp l e IH|v SC] using value_ind2; intros M p parent n es E.
    - cbn [map_value] in E. step_in E. destruct x as [m es0]. injection E as _ <-. cbn [value_marks] in M. apply Forall_app in M as [_ M]. apply Forall_app in M as [M _].
      revert Heqr. generalize (@nil (bytes * mentry)). revert m es0 IH M. induction l as [|a l IHl]; intros m es0 IH M m0 E.
      { injection E as _ <-. constructor. }
      cbn [flat_map] in M. apply Forall_app in M as [M1 M2]. apply Forall_app in M1 as [K1 M1]. apply Forall_app in M1 as [_ M1]. apply Forall_app in M1 as [M1 _].
      step_in E. destruct x as [m1 es1]. step_in E. destruct x as [m2 es2]. injection E as _ <-. apply Forall_app. split.
      + eapply at_path_low; [exact Heqr|exact K1|]. exact (Forall_inv IH M1).
      + eapply IHl; [exact (Forall_inv_tail IH)|exact M2|exact Heqr0].
    - cbn [map_value] in E. step_in E. destruct x as [ns es0]. injection E as _ <-. cbn [value_marks] in M. apply Forall_app in M as [_ M]. apply Forall_app in M as [M _].
      revert Heqr. generalize 0. revert ns es0 IH M. induction l as [|a l IHl]; intros ns es0 IH M i E.
      { injection E as _ <-. constructor. }
      cbn [flat_map] in M. apply Forall_app in M as [M1 M2]. apply Forall_app in M1 as [M1 _].
      step_in E. destruct x as [n1 es1]. step_in E. destruct x as [n2 es2]. injection E as _ <-. apply Forall_app. split.
      + exact (Forall_inv IH M1 _ _ _ _ Heqr).
      + eapply IHl; [exact (Forall_inv_tail IH)|exact M2|exact Heqr0].
    - destruct v; try contradiction SC; injection E as _ <-; constructor.
  Qed.
  Definition talow (a : tassign) : Prop := keylow (as_key (ta_assign a)) /\ Forall (lowspan L) (value_marks (as_val (ta_assign a))).
  Definition astlow (a : ast) : Prop :=
    match a with
    | AAssign a => talow a
    | ATable t => (forall k, th_key (tb_header t) = Some k -> keylow k) /\ Forall talow (tb_assigns t)
    | AArray t => (forall k, ah_key (ae_header t) = Some k -> keylow k) /\ Forall talow (ae_assigns t)
    | AComment _ => True
    end.
  Lemma assigns_low l : Forall talow l -> forall p parent m m' es, insert_assigns l p parent m = Ok (m', es) -> Forall mlow es.
  Proof.
    induction 1 as [|a l [K M] F IH]; intros p parent m m' es E; cbn [insert_assigns] in E.
    - injection E as _ <-. constructor.
    - step_in E. destruct x as [m1 es1]. step_in E. destruct x as [m2 es2]. injection E as _ <-. apply Forall_app. split; [|exact (IH _ _ _ _ _ Heqr0)].
      eapply at_path_low; [exact Heqr|exact K|apply map_value_low; exact M].
  Qed.
  Lemma map_ast_low m a m' es : map_ast m a = Ok (m', es) -> astlow a -> Forall mlow es.
  Proof.
    destruct a as [a|t|t|c]; cbn [map_ast astlow]; intros E H.
    - destruct H as [K M]. eapply at_path_low; [exact E|exact K|apply map_value_low; exact M].
    - destruct H as [K F]. destruct (th_key (tb_header t)) as [k|]; [|injection E as _ <-; constructor]. eapply at_path_low; [exact E|apply K; reflexivity|]. exact (assigns_low _ F).
    - destruct H as [K F]. destruct (ah_key (ae_header t)) as [k|]; [|injection E as _ <-; constructor]. eapply at_path_low; [exact E|apply K; reflexivity|]. exact (assigns_low _ F).
    - injection E as _ <-. constructor.
  Qed.
  Lemma map_asts_low l : Forall astlow l -> forall m m' es, map_asts m l = Ok (m', es) -> Forall mlow es.
  Proof.
    induction 1 as [|a l A F IH]; intros m m' es E; cbn [map_asts] in E.
    - injection E as _ <-. constructor.
    - step_in E. destruct x as [m1 es1]. step_in E. destruct x as [m2 es2]. injection E as _ <-. apply Forall_app. split; [exact (map_ast_low _ _ _ _ Heqr A)|exact (IH _ _ _ Heqr0)].
  Qed.
End Low.
