(** The map of a document whose last table goes on: the map of the table with
    its first assignments only grows into it. *)
From Verif Require Import Base BaseProofs CommonModel TomlError LitModel LexModel ParseModel ParseSpec MapModel MapSpec MapWf MapRel MapDecl MapExt.

(** ** Fewer assignments, a smaller map *)
Section Errors.
(** [Q]: what may be said of the errors of the assignments that are left out. *)
Context (Q : terror -> Prop).
Definition tells (es1 es2 : list terror) : Prop := Forall (fun e => In e es1 \/ Q e) es2.
Lemma tells_refl es : tells es es.
Proof. apply Forall_forall. auto. Qed.
Lemma tells_app a b a' b' : tells a a' -> tells b b' -> tells (a ++ b) (a' ++ b').
Proof. intros H K. apply Forall_app. split; eapply Forall_impl; try eassumption; intros e [I|I]; rewrite ?in_app_iff; auto. Qed.
Definition assigns_le (f1 f2 : path -> N -> mtable -> run (mtable * list terror)) : Prop :=
  forall p parent m m2 es2, f2 p parent m = Ok (m2, es2) -> exists m1 es1, f1 p parent m = Ok (m1, es1) /\ grows (NTable m1) (NTable m2) /\ tells es1 es2.
Definition iv_le (v1 v2 : insert_value) : Prop :=
  match v1, v2 with
  | IAssigns f1, IAssigns f2 => assigns_le f1 f2
  | IEntry a f1, IEntry b f2 => a = b /\ assigns_le f1 f2
  | _, _ => False
  end.

Lemma insert_assigns_le l more : (forall p parent m m' es, insert_assigns more p parent m = Ok (m', es) -> Forall Q es) -> assigns_le (insert_assigns l) (insert_assigns (l ++ more)).
Proof.
  intros HQ. induction l as [|a l IH]; intros p parent m m2 es2 E; cbn [app] in E.
  - exists m, []. split; [reflexivity|]. split; [exact (insert_assigns_grows _ _ _ _ _ _ E)|]. eapply Forall_impl; [|exact (HQ _ _ _ _ _ E)]. auto.
  - cbn [insert_assigns] in *. step_in E. destruct x as [m0 es0]. step_in E. destruct x as [m3 es3]. injection E as <- <-.
    destruct (IH _ _ _ _ _ Heqr0) as (m1 & es1 & H & G & T). cbn [bind]. rewrite H. cbn [bind]. eexists _, _. split; [reflexivity|]. split; [exact G|]. apply tells_app; [apply tells_refl|exact T].
Qed.

Lemma grows_top es t1 t2 pa a : grows (NTable t1) (NTable t2) -> grows (NTop (es ++ [mkte t1 pa a])) (NTop (es ++ [mkte t2 pa a])).
Proof. intros G. exact (grows_elem es (mkte t1 pa a) t2 G). Qed.
Lemma same_table_set m k e1 e2 : tget m k <> None -> grows (e_node e1) (e_node e2) -> e_reprs e2 = e_reprs e1 -> grows (NTable (tset m k e1)) (NTable (tset m k e2)).
Proof.
  intros T G R.
  assert (E : tset (tset m k e1) k e2 = tset m k e2).
  { clear. induction m as [|[k' e'] m IH]; [reflexivity|]. cbn [tset]. destruct (bytes_eqb k' k) eqn:B; cbn [tset]; rewrite B; [reflexivity|]. rewrite IH. reflexivity. }
  rewrite <- E. apply grows_set with (e := e1) (more := []); [|exact G|rewrite app_nil_r; exact R].
  rewrite tget_tset. rewrite (proj2 (bytes_eqb_eq k k) eq_refl). destruct (tget m k); [reflexivity|congruence].
Qed.
Lemma same_table_push m k e1 e2 : tget m k = None -> grows (e_node e1) (e_node e2) -> e_reprs e2 = e_reprs e1 -> grows (NTable (tpush m k e1)) (NTable (tpush m k e2)).
Proof.
  intros T G R.
  assert (E : tset (tpush m k e1) k e2 = tpush m k e2).
  { clear - T. unfold tpush. induction m as [|[k' e'] m IH]; cbn [tset app].
    - rewrite (proj2 (bytes_eqb_eq k k) eq_refl). reflexivity.
    - cbn [tget] in T. destruct (bytes_eqb k' k) eqn:B; [discriminate|]. rewrite (IH T). reflexivity. }
  rewrite <- E. apply grows_set with (e := e1) (more := []); [|exact G|rewrite app_nil_r; exact R].
  rewrite tget_tpush by exact T. rewrite (proj2 (bytes_eqb_eq k k) eq_refl). reflexivity.
Qed.

Lemma map_insert_le v1 v2 p parent n2 es2 : iv_le v1 v2 -> map_insert_value p parent v2 = Ok (n2, es2) ->
  exists n1 es1, map_insert_value p parent v1 = Ok (n1, es1) /\ grows n1 n2 /\ tells es1 es2.
Proof.
  destruct v1 as [f1|f1|a f1], v2 as [f2|f2|b f2]; cbn [iv_le map_insert_value]; try contradiction.
  - intros L E. step_in E. destruct x as [m2 es]. injection E as <- <-. destruct (L _ _ _ _ _ Heqr) as (m1 & es1 & -> & G & T). cbn [bind]. eauto.
  - intros [-> L] E. step_in E. destruct x as [m2 es]. injection E as <- <-. destruct (L _ _ _ _ _ Heqr) as (m1 & es1 & -> & G & TL). cbn [bind]. eexists _, _. split; [reflexivity|].
    split; [exact (grows_top [] _ _ _ _ G)|exact TL].
Qed.
Lemma insert_node_le p m k v1 v2 r m2 es2 : iv_le v1 v2 -> insert_node p m k v2 r = Ok (m2, es2) ->
  exists m1 es1, insert_node p m k v1 r = Ok (m1, es1) /\ grows (NTable m1) (NTable m2) /\ tells es1 es2.
Proof.
  intros L E. unfold insert_node in *. cbv zeta in *. destruct (tget m (id_text k)) as [e|] eqn:T.
  2:{ step_in E. destruct x as [n es0]. injection E as <- <-. destruct (map_insert_le _ _ _ _ _ _ L Heqr0) as (n1 & es1 & -> & G & TL). cbn [bind]. eexists _, _. split; [reflexivity|].
      split; [apply same_table_push; [exact T|exact G|reflexivity]|exact TL]. }
  destruct v1 as [f1|f1|a f1], v2 as [f2|f2|b f2]; cbn [iv_le] in L; try contradiction.
  - destruct (e_node e) as [t| | |] eqn:EN; try (eexists _, _; split; [exact E|]; split; [apply grows_refl|apply tells_refl]).
    step_in E. cbn [bind]. destruct x as [err|]; [eexists _, _; split; [exact E|]; split; [apply grows_refl|apply tells_refl]|]. cbn [insert_repr] in *. step_in E. destruct x as [t' es0]. injection E as <- <-.
    destruct (L _ _ _ _ _ Heqr1) as (t1 & es1 & -> & G & TL). cbn [bind]. eexists _, _. split; [reflexivity|]. split; [apply same_table_set; [congruence|exact G|reflexivity]|exact TL].
  - destruct L as [-> L]. destruct (e_node e) as [|l| |] eqn:EN; try (eexists _, _; split; [exact E|]; split; [apply grows_refl|apply tells_refl]).
    cbn [insert_repr] in *. step_in E. destruct x as [t' es0]. injection E as <- <-.
    destruct (L _ _ _ _ _ Heqr0) as (t1 & es1 & -> & G & TL). cbn [bind]. eexists _, _. split; [reflexivity|]. split; [apply same_table_set; [congruence|apply grows_top; exact G|reflexivity]|exact TL].
Qed.
Lemma new_chain_le idents v1 v2 kind : iv_le v1 v2 -> forall rest i p parent e2 es2, new_chain idents v2 kind rest i p parent = Ok (e2, es2) ->
  exists e1 es1, new_chain idents v1 kind rest i p parent = Ok (e1, es1) /\ grows (e_node e1) (e_node e2) /\ e_reprs e2 = e_reprs e1 /\ tells es1 es2.
Proof.
  intros L. induction rest as [|o [|o2 rest] IH]; intros i p parent e2 es2 E; [discriminate| |].
  - cbn [new_chain] in *. step_in E. destruct x as [n es]. injection E as <- <-. destruct (map_insert_le _ _ _ _ _ _ L Heqr) as (n1 & es1 & -> & G & TL). cbn [bind]. eexists _, _. split; [reflexivity|]. auto.
  - remember (o2 :: rest) as r2. cbn [new_chain] in *. subst r2. step_in E. destruct x as [e es]. injection E as <- <-.
    destruct (IH _ _ _ _ _ Heqr) as (e1 & es1 & -> & G & R & TL). cbn [bind]. eexists _, _. split; [reflexivity|]. cbn [e_node e_reprs]. split; [|split; [reflexivity|exact TL]].
    apply same_table_push; [reflexivity|exact G|exact R].
Qed.
Lemma insert_dotted_le idents v1 v2 kind : iv_le v1 v2 -> forall rest i p parent m m2 es2,
  insert_dotted idents v2 kind rest i p parent m = Ok (m2, es2) ->
  exists m1 es1, insert_dotted idents v1 kind rest i p parent m = Ok (m1, es1) /\ grows (NTable m1) (NTable m2) /\ tells es1 es2.
Proof.
  intros L. induction rest as [|o [|o2 rest] IH]; intros i p parent m m2 es2 E; [discriminate| |].
  - exact (insert_node_le _ _ _ _ _ _ _ _ L E).
  - rewrite insert_dotted_eq in E. rewrite insert_dotted_eq. cbv zeta in *. destruct (tget m (id_text (di_ident o))) as [e|] eqn:T.
    2:{ step_in E. destruct x as [n es0]. injection E as <- <-. destruct (new_chain_le _ _ _ _ L _ _ _ _ _ _ Heqr) as (e1 & es1 & -> & G & R & TL). cbn [bind]. eexists _, _. split; [reflexivity|].
        split; [apply same_table_push; assumption|exact TL]. }
    step_in E. cbn [bind]. pose proof (extend_grows _ _ _ _ Heqr) as X. destruct x as [e' np next t|e' err].
    + step_in E. destruct x as [t' es0]. injection E as <- <-. destruct (IH _ _ _ _ _ _ Heqr0) as (t1 & es1 & -> & G & TL). cbn [bind]. eexists _, _. split; [reflexivity|].
      split; [|exact TL]. apply same_table_set; [congruence| |reflexivity]. cbn [e_node]. destruct X as (X1 & _ & X3). rewrite X1. destruct X3 as [->|(es & l & -> & ->)]; cbn [put_table].
      * exact G.
      * rewrite !set_last_app. apply grows_top. exact G.
    + eexists _, _. split; [exact E|]. split; [apply grows_refl|apply tells_refl].
Qed.
Lemma insert_at_path_le p parent m k v1 v2 kind m2 es2 : iv_le v1 v2 -> insert_node_at_path p parent m k v2 kind = Ok (m2, es2) ->
  exists m1 es1, insert_node_at_path p parent m k v1 kind = Ok (m1, es1) /\ grows (NTable m1) (NTable m2) /\ tells es1 es2.
Proof. intros L E. destruct k; [exact (insert_node_le _ _ _ _ _ _ _ _ L E)|exact (insert_dotted_le _ _ _ _ L _ _ _ _ _ _ _ E)]. Qed.

End Errors.

(** ** Part of a table *)
Definition with_assigns (a : ast) (l : list tassign) : ast :=
  match a with
  | ATable t => ATable (mktb (tb_comments t) (tb_header t) l)
  | AArray t => AArray (mkae (ae_comments t) (ae_header t) l)
  | _ => a
  end.
Definition map_part (m : mtable) (a : ast) (l : list tassign) : run (mtable * list terror) :=
  match a with
  | ATable t =>
      match th_key (tb_header t) with
      | None => Ok (m, [])
      | Some k => insert_node_at_path [] root_parent m k (IAssigns (insert_assigns l)) (MTable t)
      end
  | AArray t =>
      match ah_key (ae_header t) with
      | None => Ok (m, [])
      | Some k => insert_node_at_path [] root_parent m k (IEntry t (insert_assigns l)) (MArrayEntry t)
      end
  | _ => map_ast m a
  end.
Lemma map_part_rel d m a l m' es : map_part m a l = Ok (m', es) -> rel_table d m -> let a := with_assigns a l in
  below (ast_decls d a) /\ (es = [] <-> fits d (ast_decls d a)) /\ (es = [] -> rel_table (d ++ ast_decls d a) m').
Proof.
  intros E RT. cbv zeta. assert (SKIP : Ok (E := Empty_set) (m, @nil terror) = Ok (m', es) -> below [] /\ (es = [] <-> fits d []) /\ (es = [] -> rel_table (d ++ []) m')).
  { intros H. injection H as <- <-. rewrite app_nil_r. split; [apply below_nil|]. split; [|auto]. split; [intros _; apply fits_nil|reflexivity]. }
  destruct a as [a|t|t|c]; cbn [map_part with_assigns] in *; [exact (map_ast_rel _ _ _ _ _ E RT)| | |exact (map_ast_rel _ _ _ _ _ E RT)]; cbn [ast_decls tb_header tb_assigns ae_header ae_assigns].
  - destruct (th_key (tb_header t)) as [k|]; [|exact (SKIP E)].
    assert (NE : key_texts k <> []) by (intros H; destruct k as [i|[|o r]]; [discriminate H|discriminate E|discriminate H]).
    pose proof (below_assigns l) as BA.
    pose proof (insert_at_path_ok _ _ _ _ _ _ _ _ _ _ _ E (iv_assigns t _ _ BA (insert_assigns_rel _)) RT) as V.
    destruct (key_texts k) as [|k1 ks]; [congruence|]. cbv zeta.
    pose proof (header_decls ByTable (fun _ => ([], RHeader) :: flat_map (assign_decls []) l) d eq_refl ks k1 []) as HD.
    rewrite pre_nil in HD. cbn [subp fold_left] in HD. rewrite <- HD in V. cbn [pre map fst snd] in V. rewrite app_nil_r in V.
    set (q := through d [] (removelast (k1 :: ks)) ++ [SKey (last (k1 :: ks) [])]) in *.
    assert (FM : flat_map (assign_decls q) l = pre q (flat_map (assign_decls []) l)).
    { clear. induction l as [|a l IH]; [reflexivity|]. cbn [flat_map]. rewrite pre_app, <- IH, (assign_decls_pre q a []), (assign_decls_pre [] a []), pre_nil. reflexivity. }
    rewrite FM. split; [|exact V].
    assert (B := below_loc ByTable (fun _ => ([], RHeader) :: flat_map (assign_decls []) l) d (k1 :: ks)). rewrite <- HD in B.
    cbn [pre map fst snd] in B. rewrite app_nil_r in B. exact B.
  - destruct (ah_key (ae_header t)) as [k|]; [|exact (SKIP E)].
    assert (NE : key_texts k <> []) by (intros H; destruct k as [i|[|o r]]; [discriminate H|discriminate E|discriminate H]).
    pose proof (below_assigns l) as BA.
    pose proof (insert_at_path_ok _ _ _ _ _ _ _ _ _ _ _ E (iv_entry t _ _ BA (insert_assigns_rel _)) RT) as V.
    destruct (key_texts k) as [|k1 ks]; [congruence|]. cbv zeta.
    pose proof (header_decls ByArray (fun d => ([], RArray) :: ([SIdx (narr d)], RElem) :: pre1 (SIdx (narr d)) (flat_map (assign_decls []) l)) d eq_refl ks k1 []) as HD.
    rewrite pre_nil in HD. change (subp [] d) with d in HD. cbv beta in HD. rewrite <- HD in V.
    assert (B := below_loc ByArray (fun d => ([], RArray) :: ([SIdx (narr d)], RElem) :: pre1 (SIdx (narr d)) (flat_map (assign_decls []) l)) d (k1 :: ks)). rewrite <- HD in B.
    set (q := through d [] (removelast (k1 :: ks)) ++ [SKey (last (k1 :: ks) [])]) in *. rewrite <- arrays_at_subp in V, B. set (e := q ++ [SIdx (arrays_at d q)]) in *.
    assert (FM : flat_map (assign_decls e) l = pre e (flat_map (assign_decls []) l)).
    { clear. induction l as [|a l IH]; [reflexivity|]. cbn [flat_map]. rewrite pre_app, <- IH, (assign_decls_pre e a []), (assign_decls_pre [] a []), pre_nil. reflexivity. }
    assert (PE : pre q (([], RArray) :: ([SIdx (arrays_at d q)], RElem) :: pre1 (SIdx (arrays_at d q)) (flat_map (assign_decls []) l)) =
      (q, RArray) :: (e, RElem) :: flat_map (assign_decls e) l).
    { rewrite FM. unfold e. rewrite <- pre_pre, pre_one. cbn [pre map fst snd]. rewrite app_nil_r. reflexivity. }
    rewrite PE in V, B. split; [exact B|exact V].
Qed.
Definition assigns_in (a : ast) : list tassign := match a with ATable t => tb_assigns t | AArray t => ae_assigns t | _ => [] end.
Lemma map_part_le Q m a l more m2 es2 : (forall p parent m m' es, insert_assigns more p parent m = Ok (m', es) -> Forall Q es) -> assigns_in a = l ++ more -> map_ast m a = Ok (m2, es2) ->
  exists m1 es1, map_part m a l = Ok (m1, es1) /\ grows (NTable m1) (NTable m2) /\ tells Q es1 es2.
Proof.
  intros HQ A E. destruct a as [a|t|t|c]; cbn [map_ast map_part assigns_in] in *; try (eexists _, _; split; [exact E|]; split; [apply grows_refl|apply tells_refl]).
  - destruct (th_key (tb_header t)) as [k|]; [|eexists _, _; split; [exact E|]; split; [apply grows_refl|apply tells_refl]]. rewrite A in E. eapply insert_at_path_le; [|exact E]. apply insert_assigns_le; exact HQ.
  - destruct (ah_key (ae_header t)) as [k|]; [|eexists _, _; split; [exact E|]; split; [apply grows_refl|apply tells_refl]]. rewrite A in E. eapply insert_at_path_le; [|exact E]. split; [reflexivity|apply insert_assigns_le; exact HQ].
Qed.

(** A document: if what the first items and part of the next declare is
    consistent, the map grows from one with these declarations. *)
Theorem map_doc_part r a l more new m es : assigns_in a = l ++ more -> map_doc (r ++ a :: new) = Ok (m, es) -> let d := doc_decls (r ++ [with_assigns a l]) in valid d ->
  exists m1, rel_table d m1 /\ below d /\ grows (NTable m1) (NTable m) /\
    forall Q, (forall p parent m m' es, insert_assigns more p parent m = Ok (m', es) -> Forall Q es) -> (forall m m' es, map_asts m new = Ok (m', es) -> Forall Q es) -> Forall Q es.
Proof.
  intros A E d VD. destruct (map_asts_app _ _ _ _ _ E) as (m0 & es0 & es1 & H1 & H2 & ->). cbn [map_asts] in H2. step_in H2. destruct x as [m2 es2]. step_in H2. destruct x as [m3 es3]. injection H2 as <- <-.
  destruct (map_part_le (fun _ => True) _ _ _ _ _ _ ltac:(intros; apply Forall_forall; auto) A Heqr0) as (m1 & e1 & P & G & _).
  assert (DD : d = decls_from [] r ++ ast_decls (decls_from [] r) (with_assigns a l)).
  { unfold d, doc_decls. clear. generalize (@nil decl). induction r as [|x r IH]; intros d0; [reflexivity|]. cbn [app decls_from]. apply IH. }
  rewrite DD in *. apply valid_fits in VD. destruct VD as [V1 V2]. destruct (map_doc_rel _ _ _ H1) as [W1 W2]. destruct (W2 (proj2 W1 V1)) as [RT B].
  destruct (map_part_rel _ _ _ _ _ _ P RT) as (B1 & F1 & R1). exists m1. split; [apply R1, F1; exact V2|]. split; [apply below_app; assumption|].
  split; [exact (grows_trans _ _ _ G (map_asts_grows _ _ _ _ Heqr1))|].
  intros Q Q1 Q2. destruct (map_part_le Q _ _ _ _ _ _ Q1 A Heqr0) as (m1' & e1' & P' & _ & TL). rewrite P in P'. injection P' as <- <-.
  rewrite (proj2 W1 V1), (proj2 F1 V2) in *. cbn [app]. apply Forall_app. split; [|exact (Q2 _ _ _ Heqr1)].
  eapply Forall_impl; [|exact TL]. intros e [[]|H]. exact H.
Qed.
