(** Theorems about the map of a document (C35-C38, C53).  Specification:
    MapSpec.v.  [map_doc] maps the statements of a syntax tree; the errors it
    reports come after those of lexer and parser. *)
From Verif Require Import Base BaseProofs CommonModel TomlError LitModel LexModel LexSpec ParseModel ParseSpec ParsePlace PropParse MapModel MapSpec MapWf MapRel MapDecl MapExt.

(** The whole way: the map, and the errors of the mapping. *)
Definition map_text (input : list N) : run (mtable * list terror) :=
  let? (a, _) := lex_and_parse input in map_doc (as_asts a).

(** ** Statements of a tree *)
Lemma key_ok_real input k : key_ok input k -> key_real k.
Proof. destruct k as [i|l]; cbn; intros H; [discriminate|]. destruct H as [H _]. unfold key_real. cbn. destruct l; [congruence|discriminate]. Qed.
Lemma node_ok_real input n v : node_ok input n v -> value_real v.
Proof.
  induction v as [lp l e IH|cr lp l e IH|v SC] using value_ind2; cbn [node_ok value_real].
  - intros (_ & _ & H). rewrite All_Forall. induction IH as [|a l I0 IH IHl]; [constructor|]. cbn [fold_right] in H. destruct H as [(K & _ & _ & V) H].
    constructor; [split; [exact (key_ok_real _ _ K)|exact (I0 V)]|exact (IHl H)].
  - intros (_ & _ & _ & H). rewrite All_Forall. induction IH as [|a l I0 IH IHl]; [constructor|]. cbn [fold_right] in H. destruct H as [(_ & _ & V) H].
    constructor; [exact (I0 V)|exact (IHl H)].
  - destruct v; try contradiction; intros _; exact I.
Qed.
Lemma tassign_ok_real input n a : tassign_ok input n a -> tassign_real a.
Proof. intros (_ & K & _ & V). split; [exact (key_ok_real _ _ K)|exact (node_ok_real _ _ _ V)]. Qed.
Lemma ast_ok_real input ts n a : ast_ok input ts n a -> ast_real a.
Proof.
  assert (HK : forall k, hkey_ok input k -> hkey_real k) by (intros [k|] H; [exact (key_ok_real _ _ H)|exact I]).
  destruct a as [a|t|t|c]; cbn.
  - apply tassign_ok_real.
  - intros (_ & (_ & K & _) & F). split; [exact (HK _ K)|]. revert F. apply Forall_impl. intros a. apply tassign_ok_real.
  - intros (_ & (_ & _ & K & _) & F). split; [exact (HK _ K)|]. revert F. apply Forall_impl. intros a. apply tassign_ok_real.
  - exact (fun _ => I).
Qed.
Lemma parsed_real input a es : lex_and_parse input = Ok (a, es) -> Forall ast_real (as_asts a).
Proof.
  intros E. destruct (C50_places _ _ _ E) as (ts & es0 & _ & F & _). revert F. apply Forall_impl. intros x. apply ast_ok_real.
Qed.

(** ** C35 *)

(** The map of a document that parses always exists: no reference is followed
    in vain. *)
Theorem C35_mapping_total input a es : lex_and_parse input = Ok (a, es) -> exists m es', map_doc (as_asts a) = Ok (m, es').
Proof. intros E. destruct (map_doc_ok _ (parsed_real _ _ _ E)) as (m & es' & H & _). eauto. Qed.

Lemma chain_traced d : forall p q acc c n, wf_node d c n -> (forall i s k, c i = Some (s, k) -> traced acc i s /\ map id_text s = keys_of q) ->
  (match acc with [] => True | rs :: _ => rs <> [] /\ forall i r, nth_error rs (N.to_nat i) = Some r ->
      exists s, traced acc i s /\ map id_text s = keys_of q /\ In (s, r_kind r) d end) ->
  forall acc' x, trail acc p n = Some (acc', x) -> refs_ok d (q ++ p) acc' x.
Proof.
  induction p as [|s p IH]; intros q acc c n W C A acc' x T.
  - cbn in T. injection T as <- <-. rewrite app_nil_r. split; [exact A|]. destruct n as [t|es|pa v es|v]; try exact I.
    + apply wf_NTop in W. destruct W as [_ W]. rewrite Forall_forall in W. intros e E. destruct (W _ E) as [(k & K1 & K2) _]. exists k. split; [exact K1|]. apply (C _ _ _ K2).
    + apply wf_NInline in W. destruct W as [W _]. destruct (c pa) as [[s k]|] eqn:CP; [|congruence]. exists s. apply (C _ _ _ CP).
  - destruct s as [k|i]; destruct n as [t|es|pa v es|v]; cbn [trail] in T; try discriminate.
    + apply wf_NTable in W. destruct (tget t k) as [e|] eqn:TG; [|discriminate]. destruct (tget_wf _ _ _ _ _ W TG) as (W1 & W2 & _ & W3).
      replace (q ++ SKey k :: p) with ((q ++ [SKey k]) ++ p) by (rewrite <- app_assoc; reflexivity).
      assert (KO : keys_of (q ++ [SKey k]) = keys_of q ++ [k]) by (unfold keys_of; rewrite flat_map_app; reflexivity).
      apply (IH _ _ _ _ W3) with (3 := T).
      * intros i s k0 N0. unfold next in N0. destruct (nth_error (e_reprs e) (N.to_nat i)) as [r|] eqn:NE; [|discriminate].
        destruct (c (r_parent r)) as [[s0 k1]|] eqn:CP; [|discriminate]. destruct (repr_ident (r_key r)) as [j|[]|] eqn:RI; [|discriminate]. injection N0 as <- <-.
        destruct (C _ _ _ CP) as [T1 T2]. split; [econstructor; eassumption|]. rewrite map_app, T2, KO. cbn. f_equal. f_equal.
        rewrite Forall_forall in W2. destruct (W2 r (nth_error_In _ _ NE)) as (s1 & k2 & j1 & sp & _ & RI1 & TX & _). rewrite RI in RI1. injection RI1 as <-. exact TX.
      * split; [exact W1|]. intros i r NE. rewrite Forall_forall in W2. destruct (W2 r (nth_error_In _ _ NE)) as (s1 & k2 & j1 & sp & CP & RI & TX & IN & _).
        destruct (C _ _ _ CP) as [T1 T2]. exists (s1 ++ [j1]). split; [econstructor; eassumption|]. split; [|exact IN]. rewrite map_app, T2, KO. cbn. rewrite TX. reflexivity.
    + destruct (nth_error es (N.to_nat i)) as [e|] eqn:NE; [|discriminate]. apply wf_NTop in W. destruct W as [_ W]. rewrite Forall_forall in W.
      destruct (W _ (nth_error_In _ _ NE)) as [_ WT]. replace (q ++ SIdx i :: p) with ((q ++ [SIdx i]) ++ p) by (rewrite <- app_assoc; reflexivity).
      assert (KO : keys_of (q ++ [SIdx i]) = keys_of q) by (unfold keys_of; rewrite flat_map_app; cbn; apply app_nil_r).
      apply (IH _ _ c _ (proj2 (wf_NTable _ _ _) WT)) with (3 := T); rewrite KO; assumption.
    + destruct (nth_error es (N.to_nat i)) as [e|] eqn:NE; [|discriminate]. apply wf_NInline in W. destruct W as [_ W]. rewrite Forall_forall in W.
      pose proof (W _ (nth_error_In _ _ NE)) as WT. cbn beta in WT. replace (q ++ SIdx i :: p) with ((q ++ [SIdx i]) ++ p) by (rewrite <- app_assoc; reflexivity).
      assert (KO : keys_of (q ++ [SIdx i]) = keys_of q) by (unfold keys_of; rewrite flat_map_app; cbn; apply app_nil_r).
      apply (IH _ _ c _ WT) with (3 := T); rewrite KO; assumption.
Qed.
(** Every reference in the map leads to a key of the document. *)
Theorem C35_references input a es m es' : lex_and_parse input = Ok (a, es) -> map_doc (as_asts a) = Ok (m, es') ->
  forall p acc x, trail [] p (NTable m) = Some (acc, x) -> refs_ok (doc_spellings (as_asts a)) p acc x.
Proof.
  intros E M p acc x T. destruct (map_doc_ok _ (parsed_real _ _ _ E)) as (m0 & es0 & H & W & _). rewrite M in H. injection H as <- <-.
  apply (chain_traced _ p [] [] root_chains (NTable m)) with (4 := T).
  - apply wf_NTable. exact W.
  - intros i s k H. injection H as <- <-. split; constructor.
  - exact I.
Qed.

(** ** C36 *)

(** A map without errors holds exactly what the statements declare: at each
    place a table with its keys in order, an array of that length, or that
    value, and nothing anywhere else. *)
Theorem C36_contents input a es m : lex_and_parse input = Ok (a, es) -> map_doc (as_asts a) = Ok (m, []) ->
  forall p c, option_map content_of (node_at p (NTable m)) = Some c <-> declared (doc_decls (as_asts a)) p c.
Proof. intros _ M. exact (proj2 (map_doc_content _ _ _ M) eq_refl). Qed.

(** ** C37 *)

(** An error is reported exactly if some place is declared twice in ways that
    conflict. *)
Theorem C37_conflicts input a es m es' : lex_and_parse input = Ok (a, es) -> map_doc (as_asts a) = Ok (m, es') ->
  (es' <> [] <-> exists x y, before (doc_decls (as_asts a)) x y /\ fst x = fst y /\ clash (snd x) (snd y) = true).
Proof.
  intros _ M. destruct (map_doc_content _ _ _ M) as [V _]. unfold valid in V. split.
  - intros NE. set (d := doc_decls (as_asts a)) in *.
    set (bad := fun xy : decl * decl => if list_eq_dec step_eq_dec (fst (fst xy)) (fst (snd xy)) then clash (snd (fst xy)) (snd (snd xy)) else false).
    assert (PAIRS : exists l : list (decl * decl), forall x y, In (x, y) l <-> before d x y).
    { clear. induction d as [|z d (l & IH)].
      - exists []. intros x y. split; [intros []|]. intros (u & v & w & E). destruct u; discriminate.
      - exists (map (fun y => (z, y)) d ++ l). intros x y. rewrite in_app_iff, in_map_iff, IH.
        change (z :: d) with ([z] ++ d). rewrite before_in_app. split.
        + intros [(y' & E & I0)|H]; [injection E as <- <-; right; right; split; [left; reflexivity|exact I0]|right; left; exact H].
        + intros [(u & v & w & E)|[H|[[<-|[]] H]]]; [destruct u as [|? [|? ?]]; cbn in E; injection E as E; destruct v; discriminate|right; exact H|left; eauto]. }
    destruct PAIRS as (l & HL). destruct (existsb bad l) eqn:EX.
    + apply existsb_exists in EX. destruct EX as ([x y] & I0 & B). apply HL in I0. unfold bad in B. cbn in B.
      destruct (list_eq_dec step_eq_dec (fst x) (fst y)) as [E|]; [|discriminate]. exists x, y. auto.
    + exfalso. apply NE, V. intros x y B E. apply HL in B. destruct (clash (snd x) (snd y)) eqn:C; [|reflexivity].
      assert (existsb bad l = true); [|congruence]. apply existsb_exists. exists (x, y). split; [exact B|]. unfold bad. cbn.
      destruct (list_eq_dec step_eq_dec (fst x) (fst y)); [exact C|congruence].
  - intros (x & y & B & E & C) NE. rewrite (proj1 V NE x y B E) in C. discriminate.
Qed.
(** The first definition of a value wins, whatever follows. *)
Theorem C37_first_wins l more m es m' es' p v : map_doc l = Ok (m, es) -> map_doc (l ++ more) = Ok (m', es') ->
  node_at p (NTable m) = Some (NScalar v) -> node_at p (NTable m') = Some (NScalar v).
Proof.
  intros M M' N0. destruct (map_doc_grows _ _ _ _ M') as (m0 & es0 & es2 & H & _ & G). rewrite M in H. injection H as <- <-.
  destruct (G _ _ N0) as (y & Y & K). destruct y; cbn in K; try contradiction. subst. exact Y.
Qed.
(** The rule of TOML that a dotted key does not extend a table that a header
    made is not enforced for the outer tables of an array header. *)
Theorem C37_array_header_refuted : exists a m,
  lex_and_parse (bs "[[a.b.c]]" ++ [10] ++ bs "[a]" ++ [10] ++ bs "b.d = 1") = Ok (a, []) /\ map_doc (as_asts a) = Ok (m, []).
Proof. eexists _, _. split; [vm_compute; reflexivity|vm_compute; reflexivity]. Qed.

(** ** C38 *)

(** Mapping a longer document keeps everything the shorter one maps to, and
    its errors. *)
Theorem C38_only_adds l more m' es' : map_doc (l ++ more) = Ok (m', es') ->
  exists m es more_es, map_doc l = Ok (m, es) /\ es' = es ++ more_es /\ grows (NTable m) (NTable m').
Proof. apply map_doc_grows. Qed.

(** ** C53 *)

(** Every error names a place that two keys of the document spell, and points
    at both. *)
Theorem C53_messages input a es m es' : lex_and_parse input = Ok (a, es) -> map_doc (as_asts a) = Ok (m, es') ->
  Forall (map_err_ok (doc_spellings (as_asts a))) es'.
Proof.
  intros E M. destruct (map_doc_ok _ (parsed_real _ _ _ E)) as (m0 & es0 & H & _ & F). rewrite M in H. injection H as <- <-. exact F.
Qed.

(** ** A document *)
Definition map_example : list N := bs "top = 'x'" ++ [10] ++ bs "[package]" ++ [10] ++ bs "name.inner = [1, {v = true}]" ++ [10]
  ++ bs "[[bin]]" ++ [10] ++ bs "[bin.a]" ++ [10] ++ bs "[[bin]]" ++ [10] ++ bs "[package]" ++ [10] ++ bs "[package.name]".
Definition key (s : string) : step := SKey (bs s).
Example map_example_maps : exists a m e1 e2, lex_and_parse map_example = Ok (a, []) /\ map_doc (as_asts a) = Ok (m, [e1; e2]) /\
  option_map content_of (node_at [] (NTable m)) = Some (CTable [bs "top"; bs "package"; bs "bin"]) /\
  option_map content_of (node_at [key "package"; key "name"; key "inner"] (NTable m)) = Some (CArray 2) /\
  option_map content_of (node_at [key "package"; key "name"; key "inner"; SIdx 1] (NTable m)) = Some (CTable [bs "v"]) /\
  option_map content_of (node_at [key "bin"] (NTable m)) = Some (CArray 2) /\
  option_map content_of (node_at [key "bin"; SIdx 0; key "a"] (NTable m)) = Some (CTable []) /\
  e1 = EDuplicateKey [] (bs "package") (mkspan (mkpos 1 1) (mkpos 1 8)) (mkspan (mkpos 6 1) (mkpos 6 8)) /\
  e2 = EDuplicateKey [1; 7] (bs "package.name") (mkspan (mkpos 2 0) (mkpos 2 4)) (mkspan (mkpos 7 9) (mkpos 7 13)).
Proof. eexists _, _, _, _. repeat (split; [vm_compute; reflexivity|]). vm_compute. reflexivity. Qed.
Example map_example_valid : exists a m, lex_and_parse (bs "[a]" ++ [10] ++ bs "b.c = {d = 1}" ++ [10] ++ bs "[[e.f]]" ++ [10] ++ bs "[e]") = Ok (a, []) /\
  map_doc (as_asts a) = Ok (m, []) /\ node_at [key "a"; key "b"; key "c"; key "d"] (NTable m) <> None.
Proof. eexists _, _. split; [vm_compute; reflexivity|]. split; [vm_compute; reflexivity|]. vm_compute. discriminate. Qed.

Print Assumptions C35_mapping_total.
Print Assumptions C35_references.
Print Assumptions C36_contents.
Print Assumptions C37_conflicts.
Print Assumptions C37_first_wins.
Print Assumptions C37_array_header_refuted.
Print Assumptions C38_only_adds.
Print Assumptions C53_messages.
