(** C84: what a document says about one top-level key depends on nothing else. *)
From Verif Require Import Base BaseProofs CommonModel TomlError LitModel LitSpec LexModel LexSpec ParseModel ParseSpec ParsePlace ParseRoot MapModel MapSpec MapWf MapRel MapDecl MapExt MapNice
  PropParse PropMap IdeProofs PropIde CliModel MeanSpec MeanProofs PropPre MapFocus MeanList AboutStmts.

(** [about k l]: the items of the tree whose header, or whose key if they
    stand before the first header, starts with [k] (MapFocus.v).
    [stmts_about k None d]: the statements of [d] about [k] (AboutStmts.v). *)

Lemma key_value text a es k m es' mk esk : lex_and_parse text = Ok (a, es) -> map_doc (as_asts a) = Ok (m, es') -> map_doc (about k (as_asts a)) = Ok (mk, esk) -> tget mk k = tget m k ->
  forall p, sval_at (SKey k :: p) (CliModel.STable (map_simple m)) = sval_at (SKey k :: p) (CliModel.STable (map_simple mk)).
Proof.
  intros P M A G p. change (CliModel.STable (map_simple m)) with (map_simple_val (NTable m)). change (CliModel.STable (map_simple mk)) with (map_simple_val (NTable mk)).
  rewrite (simple_at (lit_ok text) any_elem), (simple_at (lit_ok text) any_elem).
  - cbn [node_at]. rewrite G. reflexivity.
  - exact (part_nice _ _ _ _ _ _ P A).
  - apply manifest_nice. exists a, es, es'. auto.
Qed.

(** Whatever the text: the value of a key and the conflicts reported about it
    are those of the items that name it, without all others. *)
Theorem C84_key text a es m es' k : lex_and_parse text = Ok (a, es) -> map_doc (as_asts a) = Ok (m, es') ->
  exists mk esk, map_doc (about k (as_asts a)) = Ok (mk, esk) /\ subseq esk es' /\
    (forall p, sval_at (SKey k :: p) (CliModel.STable (map_simple m)) = sval_at (SKey k :: p) (CliModel.STable (map_simple mk))) /\
    (forall k' p, k' <> k -> sval_at (SKey k' :: p) (CliModel.STable (map_simple mk)) = None).
Proof.
  intros P M. destruct (map_asts_focus k _ _ _ _ [] M eq_refl) as (mk & esk & A & G & OT & SS). exists mk, esk. split; [exact A|]. split; [exact SS|]. split; [exact (key_value _ _ _ _ _ _ _ _ P M A G)|].
  intros k' p N. change (CliModel.STable (map_simple mk)) with (map_simple_val (NTable mk)). rewrite (simple_at (lit_ok text) any_elem) by exact (part_nice _ _ _ _ _ _ P A).
  cbn [node_at]. rewrite (OT _ N). reflexivity.
Qed.
(** Every conflict is one among the items that name one key. *)
Theorem C84_conflicts text a es m es' e : lex_and_parse text = Ok (a, es) -> map_doc (as_asts a) = Ok (m, es') -> In e es' ->
  exists k mk esk, map_doc (about k (as_asts a)) = Ok (mk, esk) /\ In e esk.
Proof.
  intros P M X. destruct (map_asts_errors _ _ _ _ _ M X) as (k & H). exists k. destruct (map_asts_focus k _ _ _ _ [] M eq_refl) as (mk & esk & A & _ & _ & _).
  exists mk, esk. split; [exact A|]. exact (H [] mk esk eq_refl A).
Qed.

(** Whatever else stands in the text and is wrong with it: if the items that
    name a key are whole and do not conflict, the value of the key is what they
    say. *)
Theorem C84_value text a es m es' k d v : lex_and_parse text = Ok (a, es) -> map_doc (as_asts a) = Ok (m, es') ->
  flat_map ast_of (about k (as_asts a)) = map Some d -> consistent d -> means d v ->
  forall p, sval_at (SKey k :: p) (CliModel.STable (map_simple m)) = sval_at (SKey k :: p) v.
Proof.
  intros P M F C ME. destruct (map_asts_focus k _ _ _ _ [] M eq_refl) as (mk & esk & A & G & _ & _).
  assert (D : all_some (flat_map ast_of (filter (names k) (as_asts a))) = Some d).
  { fold (about k (as_asts a)). rewrite F. clear. induction d as [|x d IH]; [reflexivity|]. cbn. fold (all_some (map Some d)). rewrite IH. reflexivity. }
  pose proof (part_same _ _ _ (names k) _ P D) as SD. pose proof (proj2 (consistent_items _ _ _ SD _ A) C) as EN. subst esk.
  rewrite (items_means _ _ _ _ _ SD A (part_nice _ _ _ _ _ _ P A) v ME). exact (key_value _ _ _ _ _ _ _ _ P M A G).
Qed.

Lemma doc_about text a es k d : lex_and_parse text = Ok (a, es) -> flat_map ast_of (as_asts a) = map Some d -> flat_map ast_of (about k (as_asts a)) = map Some (stmts_about k None d).
Proof. intros P F. apply about_items; [exact (doc_late _ _ _ P)|exact F]. Qed.

(** In a TOML document, whatever conflicts there are elsewhere. *)
Theorem C84_document text d k v : toml_doc text d -> consistent (stmts_about k None d) -> means (stmts_about k None d) v ->
  exists a m es', lex_and_parse text = Ok (a, []) /\ map_doc (as_asts a) = Ok (m, es') /\
    forall p, sval_at (SKey k :: p) (CliModel.STable (map_simple m)) = sval_at (SKey k :: p) v.
Proof.
  intros T C ME. destruct (C34_toml_documents _ _ T) as (a & P & D). destruct (C35_mapping_total _ _ _ P) as (m & es' & M). exists a, m, es'. split; [exact P|]. split; [exact M|].
  apply (C84_value _ _ _ _ _ k (stmts_about k None d) v P M); [|exact C|exact ME]. apply (doc_about _ _ _ _ _ P). unfold doc_of in D. exact (all_some_list _ _ D).
Qed.
