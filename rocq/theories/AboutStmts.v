(** The statements that concern one top-level key (specification for C84), and
    that they are those of the items that name it. *)
From Verif Require Import Base BaseProofs CommonModel TomlError LitModel LexModel LexSpec ParseModel ParseSpec ParseRoot MapModel MapSpec MeanProofs MapFocus.

(** ** Specification *)
Definition starts_with (k : list N) (p : list (list N)) : bool := match p with x :: _ => if list_eq_dec N.eq_dec x k then true else false | [] => false end.
(** Headers whose key starts with [k], with all statements of their section;
    and the assignments before the first header whose key starts with [k].
    [cur]: whether the current section is kept, [None] before the first header. *)
Fixpoint stmts_about (k : list N) (cur : option bool) (l : list stmt) : list stmt :=
  match l with
  | [] => []
  | SAssign p v :: r => (if match cur with Some b => b | None => starts_with k p end then [SAssign p v] else []) ++ stmts_about k cur r
  | STable p :: r => (if starts_with k p then [STable p] else []) ++ stmts_about k (Some (starts_with k p)) r
  | SArray p :: r => (if starts_with k p then [SArray p] else []) ++ stmts_about k (Some (starts_with k p)) r
  end.

(** ** Proofs *)
Notation flat := (flat_map ast_of).
Lemma names_key k x p : top_key x = top_of p -> names k x = starts_with k (key_path p).
Proof. intros H. unfold names. rewrite H, <- texts_path. unfold top_of, key_texts. destruct (map id_text (key_idents p)); reflexivity. Qed.
Lemma map_some_app {A} (l : list A) a b : a ++ b = map Some l -> exists u w, l = u ++ w /\ a = map Some u /\ b = map Some w.
Proof.
  revert a. induction l as [|x l IH]; intros a H.
  - apply app_eq_nil in H as [-> ->]. exists [], []. auto.
  - destruct a as [|y a]; cbn in H.
    + exists [], (x :: l). auto.
    + injection H as -> H. destruct (IH _ H) as (u & w & -> & -> & ->). exists (x :: u), w. auto.
Qed.
Lemma assign_top a s : assign_of a = Some s -> exists v, s = SAssign (key_path (as_key (ta_assign a))) v.
Proof. unfold assign_of. destruct (val_of _); [|discriminate]. cbn. intros H. injection H as <-. eauto. Qed.
Lemma about_app k a b : about k (a ++ b) = about k a ++ about k b.
Proof. apply filter_app. Qed.
Lemma about_roots k u : no_header u -> forall s rest, flat u = map Some s ->
  exists s', flat (about k u) = map Some s' /\ stmts_about k None (s ++ rest) = s' ++ stmts_about k None rest.
Proof.
  induction 1 as [|x u X U IH]; intros s rest E.
  - destruct s; [|discriminate]. exists []. split; reflexivity.
  - cbn [flat_map] in E. apply map_some_app in E. destruct E as (s1 & s2 & -> & E1 & E2). destruct (IH _ rest E2) as (s' & F & G).
    destruct x as [a|t|t|c]; try discriminate.
    + cbn [ast_of] in E1. destruct s1 as [|s [|]]; try discriminate. injection E1 as E1. destruct (assign_top _ _ E1) as (v & ->).
      cbn [about filter]. rewrite (names_key k (AAssign a) (as_key (ta_assign a)) eq_refl). cbn [app stmts_about]. rewrite G.
      fold (about k u). destruct (starts_with k _).
      * exists (SAssign (key_path (as_key (ta_assign a))) v :: s'). cbn [flat_map ast_of app map]. rewrite F, E1. split; reflexivity.
      * exists s'. split; [exact F|reflexivity].
    + destruct s1; [|discriminate]. exists s'. split; [exact F|exact G].
Qed.
Lemma about_body k b l s rest : map assign_of l = map Some s -> stmts_about k (Some b) (s ++ rest) = (if b then s else []) ++ stmts_about k (Some b) rest.
Proof.
  revert s. induction l as [|a l IH]; intros [|x s] H; try discriminate.
  - destruct b; reflexivity.
  - cbn [map] in H. injection H as H1 H2. destruct (assign_top _ _ H1) as (v & ->). cbn [app stmts_about]. rewrite (IH _ H2). destruct b; reflexivity.
Qed.
Lemma about_headers k v : no_assign v -> forall s cur, flat v = map Some s -> flat (about k v) = map Some (stmts_about k cur s).
Proof.
  induction 1 as [|x v X V IH]; intros s cur E.
  - destruct s; [|discriminate]. reflexivity.
  - cbn [flat_map] in E. apply map_some_app in E. destruct E as (s1 & s2 & -> & E1 & E2).
    assert (H : forall (p : key) (h : stmt) (l : list tassign) ss, top_key x = top_of p -> (forall c r, stmts_about k c (h :: r) = (if starts_with k (key_path p) then [h] else []) ++ stmts_about k (Some (starts_with k (key_path p))) r) ->
       ast_of x = Some h :: map assign_of l -> s1 = h :: ss -> map assign_of l = map Some ss -> flat (about k (x :: v)) = map Some (stmts_about k cur (s1 ++ s2))).
    { intros p h l ss T HH AO -> AS. cbn [about filter]. rewrite (names_key k x p T). cbn [app]. rewrite HH, (about_body _ _ _ _ _ AS). fold (about k v).
      destruct (starts_with k (key_path p)).
      - cbn [flat_map]. rewrite AO, AS, (IH _ (Some true) E2). cbn [app map]. rewrite map_app. reflexivity.
      - exact (IH _ (Some false) E2). }
    destruct x as [a|t|t|c]; try discriminate.
    + cbn [ast_of] in E1. destruct s1 as [|h ss]; [discriminate|]. cbn [map] in E1. injection E1 as EH EA.
      destruct (th_key (tb_header t)) as [p|] eqn:TK; [|discriminate]. cbn [header_of] in EH. destruct (is_some (th_r_off (tb_header t))) eqn:IS; [|discriminate]. injection EH as <-.
      eapply (H p (STable (key_path p))); [cbn [top_key]; rewrite TK; reflexivity|reflexivity|cbn [ast_of]; rewrite TK, IS; reflexivity|reflexivity|exact EA].
    + cbn [ast_of] in E1. destruct s1 as [|h ss]; [discriminate|]. cbn [map] in E1. injection E1 as EH EA.
      destruct (ah_key (ae_header t)) as [p|] eqn:TK; [|discriminate]. cbn [header_of] in EH. destruct (_ && _) eqn:IS in EH; [|discriminate]. injection EH as <-.
      eapply (H p (SArray (key_path p))); [cbn [top_key]; rewrite TK; reflexivity|reflexivity|cbn [ast_of]; rewrite TK, IS; reflexivity|reflexivity|exact EA].
    + destruct s1; [|discriminate]. cbn [app about filter names top_key]. exact (IH _ cur E2).
Qed.
(** All items. *)
Lemma about_items k l s : no_late (rev l) -> flat l = map Some s -> flat (about k l) = map Some (stmts_about k None s).
Proof.
  intros NL E. destruct (rev_split _ NL) as (u & v & EA & U & V). rewrite rev_involutive in EA. subst l. rewrite flat_map_app in E. apply map_some_app in E. destruct E as (s1 & s2 & -> & E1 & E2).
  destruct (about_roots k u U s1 s2 E1) as (s' & F & G). rewrite about_app, flat_map_app, F, G, map_app, (about_headers k v V s2 None E2). reflexivity.
Qed.
