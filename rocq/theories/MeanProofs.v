(** The map of a document is what the document says (C64). *)
From Verif Require Import Base BaseProofs CommonModel TomlError LitModel LexModel LexSpec ParseModel ParseSpec ParsePlace PropParse MapModel MapSpec MapWf MapRel MapDecl MapExt MapNice
  PropMap IdeProofs PropIde CliModel MeanSpec.

(** ** Declarations of the tree and of the statements *)
Definition part_of (r : role) : option part :=
  match r with
  | RSuper h => Some (PSuper h)
  | RHeader => Some PHeader
  | RArray => Some PArray
  | RElem => Some PElem
  | RValue v => option_map PValue (val_of v)
  end.
Definition same (x : decl) (y : said) : Prop := fst x = fst y /\ part_of (snd x) = Some (snd y).

Lemma all_some_app {A} (l1 l2 : list (option A)) r : all_some (l1 ++ l2) = Some r -> exists r1 r2, all_some l1 = Some r1 /\ all_some l2 = Some r2 /\ r = r1 ++ r2.
Proof.
  revert r. induction l1 as [|o l1 IH]; intros r E; [exists [], r; auto|]. cbn [app all_some fold_right] in E. change (fold_right _ _ (l1 ++ l2)) with (all_some (l1 ++ l2)) in E.
  destruct o as [x|]; [|discriminate]. destruct (all_some (l1 ++ l2)) as [r0|] eqn:E0; [|discriminate]. injection E as <-.
  destruct (IH _ eq_refl) as (r1 & r2 & E1 & E2 & ->). exists (x :: r1), r2. cbn [all_some fold_right]. change (fold_right _ _ l1) with (all_some l1). rewrite E1. auto.
Qed.
Lemma all_some_map {A B} (f : A -> option B) l : forall r, all_some (map f l) = Some r -> Forall2 (fun x y => f x = Some y) l r.
Proof.
  induction l as [|x l IH]; intros r E; [injection E as <-; constructor|]. cbn [map all_some fold_right] in E. change (fold_right _ _ (map f l)) with (all_some (map f l)) in E.
  destruct (f x) as [y|] eqn:F; [|discriminate]. destruct (all_some (map f l)) as [r0|]; [|discriminate]. injection E as <-. constructor; [exact F|]. apply IH. reflexivity.
Qed.
Lemma texts_path k : key_texts k = key_path k.
Proof. destruct k as [i|l]; [reflexivity|]. unfold key_texts. cbn. rewrite map_map. reflexivity. Qed.

Lemma same_key f g : (forall q, Forall2 same (f q) (g q)) -> forall ks p, Forall2 same (key_decls p ks f) (said_key p ks g).
Proof.
  intros H. induction ks as [|k ks IH]; intros p; [constructor|]. destruct ks as [|k' ks]; [apply H|]. cbn [key_decls said_key]. constructor; [split; reflexivity|]. apply IH.
Qed.
Lemma same_value v : forall t, val_of v = Some t -> forall p, Forall2 same (value_decls v p) (said_value t p).
Proof.
  induction v as [lp l e IH|cr lp l e IH|v SC] using value_ind2; intros t E p.
  - cbn [val_of] in E. destruct (closed e) eqn:C; [|discriminate].
    destruct (all_some _) as [r|] eqn:A in E; [|discriminate]. injection E as <-. cbn [value_decls said_value]. constructor.
    { split; [reflexivity|]. cbn [snd part_of val_of]. rewrite A, C. reflexivity. }
    apply all_some_map in A. induction A as [|x y l r X A IHA]; [constructor|]. cbn [flat_map]. apply Forall2_app; [|exact (IHA (Forall_inv_tail IH))].
    destruct (val_of (as_val (ia_assign x))) as [t|] eqn:V0; [|discriminate]. injection X as <-. cbn [fst snd]. rewrite texts_path. apply same_key.
    exact (Forall_inv IH t V0).
  - cbn [val_of] in E. destruct (closed e) eqn:C; [|discriminate].
    destruct (all_some _) as [r|] eqn:A in E; [|discriminate]. injection E as <-. cbn [value_decls said_value]. constructor.
    { split; [reflexivity|]. cbn [snd part_of val_of]. rewrite A, C. reflexivity. }
    apply all_some_map in A. generalize 0. induction A as [|x y l r X A IHA]; intros i; [constructor|]. apply Forall2_app; [|exact (IHA (Forall_inv_tail IH) (i + 1))].
    exact (Forall_inv IH _ X _).
  - destruct v; try contradiction; try discriminate; injection E as <-; (constructor; [split; reflexivity|constructor]).
Qed.
Lemma same_assign a k t p : assign_of a = Some (SAssign k t) -> Forall2 same (assign_decls p a) (said_key p k (said_value t)).
Proof.
  unfold assign_of. destruct (val_of _) as [t'|] eqn:E0; [|discriminate]. intros E. injection E as <- <-. unfold assign_decls. rewrite texts_path. apply same_key.
  exact (same_value _ _ E0).
Qed.
Lemma assign_of_inv a s : assign_of a = Some s -> exists k t, s = SAssign k t.
Proof. unfold assign_of. destruct (val_of _); [|discriminate]. intros E. injection E as <-. eauto. Qed.
Lemma same_tables d d' : Forall2 same d d' -> forall p, arrays_at d p = tables_at d' p.
Proof.
  intros H p. unfold arrays_at, tables_at. f_equal. induction H as [|x y d d' (E1 & E2) H IH]; [reflexivity|]. cbn [filter]. rewrite <- E1.
  assert (E3 : is_array (snd x) = adds_table (snd y)).
  { destruct (snd x); cbn in E2; try (injection E2 as <-; reflexivity). destruct (val_of v); [|discriminate]. injection E2 as <-. reflexivity. }
  rewrite E3. destruct (adds_table (snd y) && _); cbn [length]; [f_equal|]; exact IH.
Qed.
Lemma same_through d d' : Forall2 same d d' -> forall ks p, through d p ks = go_through d' p ks.
Proof. intros H. induction ks as [|k ks IH]; intros p; [reflexivity|]. cbn [through go_through]. unfold enter, latest. rewrite !(same_tables _ _ H). apply IH. Qed.
Lemma same_supers d d' h : Forall2 same d d' -> forall ks p, Forall2 same (supers d h p ks) (outer_keys d' h p ks).
Proof.
  intros H. induction ks as [|k ks IH]; intros p; [constructor|]. cbn [supers outer_keys]. cbv zeta. unfold enter, latest. rewrite !(same_tables _ _ H). apply Forall2_app; [|apply IH].
  destruct (tables_at d' (p ++ [SKey k]) =? 0); [constructor; [split; reflexivity|constructor]|constructor].
Qed.
Lemma same_assigns cur l : forall ss, Forall2 (fun a s => assign_of a = Some s) l ss -> forall d d' rest, Forall2 same d d' ->
  exists d2, said_from d' cur (ss ++ rest) = said_from (d' ++ d2) cur rest /\ Forall2 same (flat_map (assign_decls cur) l) d2.
Proof.
  induction l as [|a l IH]; intros ss F d d' rest H; inversion F as [|x s l' ss' X F' E1 E2]; subst.
  - exists []. rewrite app_nil_r. split; [reflexivity|constructor].
  - destruct (assign_of_inv _ _ X) as (k & t & ->). cbn [app said_from flat_map].
    pose proof (same_assign _ _ _ cur X) as SA.
    destruct (IH _ F' (d ++ assign_decls cur a) (d' ++ said_key cur k (said_value t)) rest (Forall2_app H SA)) as (d2 & E & S2).
    exists (said_key cur k (said_value t) ++ d2). rewrite app_assoc. split; [exact E|]. apply Forall2_app; assumption.
Qed.

(** Assignments outside of tables come first. *)
Definition header_ast (x : ast) : bool := match x with ATable _ | AArray _ => true | _ => false end.
Definition no_header (l : list ast) : Prop := Forall (fun x => header_ast x = false) l.
(** A reversed list: below an assignment there is no header. *)
Fixpoint no_late (l : list ast) : Prop :=
  match l with
  | [] => True
  | AAssign _ :: r => no_header r
  | _ :: r => no_late r
  end.
Definition growing (l : list ast) : Prop := no_late l /\ (no_header l \/ exists h r, l = h :: r /\ header_ast h = true).
Lemma no_header_late l : no_header l -> no_late l.
Proof. induction 1 as [|x l E H IH]; [exact I|]. destruct x; try discriminate; [exact H|exact IH]. Qed.
Lemma no_late_comments cs l : no_late l -> no_late (rev (map AComment cs) ++ l).
Proof. intros H. induction cs as [|c cs IH] using rev_ind; [exact H|]. rewrite map_app, rev_app_distr. exact IH. Qed.
Lemma no_header_comments cs l : no_header l -> no_header (rev (map AComment cs) ++ l).
Proof. intros H. induction cs as [|c cs IH] using rev_ind; [exact H|]. rewrite map_app, rev_app_distr. constructor; [reflexivity|exact IH]. Qed.
Lemma growing_push a l : growing l -> growing (push_assign a l).
Proof.
  intros (A & [B|(h & r & -> & B)]).
  - assert (push_assign a l = AAssign a :: l) as -> by (destruct l as [|x l]; [reflexivity|]; apply Forall_inv in B; destruct x; try discriminate; reflexivity).
    split; [exact B|]. left. constructor; [reflexivity|exact B].
  - destruct h; try discriminate; (split; [exact A|]; right; eexists _, _; split; reflexivity).
Qed.
Lemma growing_free s free l s' l' n : place_free s free l = Ok (s', l', n) -> growing l -> growing l'.
Proof.
  intros E (A & B). destruct B as [B|(h & r & -> & B)].
  - assert (l' = rev (map AComment free) ++ l) as ->.
    { destruct l as [|x l]; [injection E as _ <- _; reflexivity|]. apply Forall_inv in B. destruct x; try discriminate; injection E as _ <- _; reflexivity. }
    split; [apply no_late_comments; exact A|left; apply no_header_comments; exact B].
  - destruct h; try discriminate; cbn [place_free] in E; step_in E; destruct x as [s0 c]; injection E as _ <- _; (split; [exact A|right; eexists _, _; split; reflexivity]).
Qed.
Lemma growing_comment c r r' : root_comment c r = Ok r' -> growing (rt_asts r) -> growing (rt_asts r').
Proof.
  unfold root_comment. intros E (A & B). destruct (rt_newline r); [|injection E as <-; split; assumption].
  destruct (store_comment _ _) as [id s]. step_in E. injection E as <-. cbn [rt_asts]. destruct (rt_asts r) as [|h l]; [discriminate|].
  destruct h as [a|t|t|c0]; [| | |discriminate]; step_in Heqr0; try (destruct x0 as [c0 a0]); injection Heqr0 as <-.
  - destruct B as [B|(h & r0 & E & B)]; [|injection E as <- <-; discriminate]. split; [exact (Forall_inv_tail B)|left; constructor; [reflexivity|exact (Forall_inv_tail B)]].
  - split; [exact A|right; eexists _, _; split; reflexivity].
  - split; [exact A|right; eexists _, _; split; reflexivity].
Qed.
Lemma growing_header eof t r r' : root_header eof t r = Ok r' -> growing (rt_asts r) -> growing (rt_asts r').
Proof.
  unfold root_header. intros E (A & B). cbv zeta in E. step_in E. destruct x as [[[[la k] ra] rt] st]. destruct (rt_newline r && _); [injection E as <-; split; assumption|].
  step_in E. step_in E. destruct x0 as [s c]. step_in E. injection E as <-. cbn [rt_asts].
  assert (H0 : header_ast x0 = true) by (destruct la; [step_in Heqr3|step_in Heqr3]; injection Heqr3 as <-; reflexivity).
  split; [|right; exists x0; eexists; split; [reflexivity|exact H0]]. destruct x0; try discriminate; cbn [no_late]; apply no_late_comments; exact A.
Qed.
Lemma growing_assign input eof n t r r' : root_assign input eof n t r = Ok r' -> growing (rt_asts r) -> growing (rt_asts r').
Proof.
  unfold root_assign. intros E G. cbv zeta in E. step_in E. destruct x as [k st]. destruct k as [k|k|e].
  2,3: injection E as <-; exact G.
  destruct (i_ty _) in E; try (injection E as <-; exact G). destruct (_ && _) in E; [injection E as <-; exact G|].
  step_in E. step_in E. destruct x0 as [[s l] level]. step_in E. destruct x0 as [s0 cs]. step_in E. destruct x0 as [v st0].
  pose proof (growing_free _ _ _ _ _ _ Heqr2 G) as G'. destruct v as [v|e]; [|injection E as <-; exact G']. step_in E. injection E as <-. cbn [rt_asts]. apply growing_push. exact G'.
Qed.
Lemma growing_loop input eof fuel : forall r r', root_loop input eof fuel r = Ok r' -> growing (rt_asts r) -> growing (rt_asts r').
Proof.
  induction fuel as [|fuel IH]; intros r r' E G; [discriminate|]. cbn [root_loop] in E. cbv zeta in E.
  assert (AS : forall t, (let? r := root_assign input eof max_depth t r in root_loop input eof fuel r) = Ok r' -> growing (rt_asts r')).
  { intros t X. step_in X. apply (IH _ _ X). eapply growing_assign; eassumption. }
  destruct (i_ty (ppeek eof (rt_st r))); try (exact (AS _ E)).
  - step_in E. apply (IH _ _ E). eapply growing_comment; [eassumption|exact G].
  - step_in E. apply (IH _ _ E). eapply growing_header; eassumption.
  - apply (IH _ _ E). exact G.
  - injection E as <-. exact G.
Qed.
Definition assign_ast (x : ast) : bool := match x with AAssign _ => true | _ => false end.
Definition no_assign (l : list ast) : Prop := Forall (fun x => assign_ast x = false) l.
Lemma rev_split l : no_late l -> exists u v, rev l = u ++ v /\ no_header u /\ no_assign v.
Proof.
  induction l as [|x l IH]; intros H; [exists [], []; repeat split; constructor|]. destruct x as [a|t|t|c]; cbn [no_late rev] in *.
  - exists (rev l ++ [AAssign a]), []. rewrite app_nil_r. split; [reflexivity|]. split; [|constructor]. apply Forall_app. split; [apply Forall_rev; exact H|constructor; [reflexivity|constructor]].
  - destruct (IH H) as (u & v & -> & U & V0). exists u, (v ++ [ATable t]). rewrite app_assoc. split; [reflexivity|]. split; [exact U|].
    apply Forall_app. split; [exact V0|constructor; [reflexivity|constructor]].
  - destruct (IH H) as (u & v & -> & U & V0). exists u, (v ++ [AArray t]). rewrite app_assoc. split; [reflexivity|]. split; [exact U|].
    apply Forall_app. split; [exact V0|constructor; [reflexivity|constructor]].
  - destruct (IH H) as (u & v & -> & U & V0). exists u, (v ++ [AComment c]). rewrite app_assoc. split; [reflexivity|]. split; [exact U|].
    apply Forall_app. split; [exact V0|constructor; [reflexivity|constructor]].
Qed.
Lemma doc_split input a es : lex_and_parse input = Ok (a, es) -> exists u v, as_asts a = u ++ v /\ no_header u /\ no_assign v.
Proof.
  unfold lex_and_parse. intros E. step_in E. destruct x as [tk es0]. step_in E. destruct x as [a0 es1]. injection E as <- <-.
  unfold parse in Heqr0. step_in Heqr0. step_in Heqr0. unfold parse_items in Heqr0. step_in Heqr0. injection Heqr0 as <- <-. cbn [as_asts].
  apply rev_split. apply no_late_comments. destruct (growing_loop _ _ _ _ _ Heqr3) as [H _]; [|exact H]. split; [exact I|left; constructor].
Qed.

Lemma decls_app l1 : forall d l2, decls_from d (l1 ++ l2) = decls_from (decls_from d l1) l2.
Proof. induction l1 as [|x l1 IH]; intros d l2; [reflexivity|]. cbn [app decls_from]. apply IH. Qed.
Lemma same_roots u : no_header u -> forall ss, all_some (flat_map ast_of u) = Some ss -> forall d d' rest, Forall2 same d d' ->
  exists d2, said_from d' [] (ss ++ rest) = said_from d2 [] rest /\ Forall2 same (decls_from d u) d2.
Proof.
  induction 1 as [|x u X U IH]; intros ss E d d' rest H.
  - injection E as <-. exists d'. split; [reflexivity|exact H].
  - cbn [flat_map] in E. apply all_some_app in E. destruct E as (s1 & s2 & E1 & E2 & ->). destruct x as [a|t|t|c]; try discriminate.
    + cbn [ast_of] in E1. cbn [all_some fold_right] in E1. destruct (assign_of a) as [s|] eqn:AO; [|discriminate]. injection E1 as <-.
      destruct (assign_of_inv _ _ AO) as (k & t & ->). cbn [app said_from decls_from ast_decls].
      apply (IH _ E2). apply Forall2_app; [exact H|]. exact (same_assign _ _ _ _ AO).
    + injection E1 as <-. cbn [app decls_from ast_decls]. rewrite app_nil_r. exact (IH _ E2 _ _ _ H).
Qed.
Lemma same_headers v : no_assign v -> forall ss, all_some (flat_map ast_of v) = Some ss -> forall d d' cur, Forall2 same d d' ->
  Forall2 same (decls_from d v) (said_from d' cur ss).
Proof.
  induction 1 as [|x v X V0 IH]; intros ss E d d' cur H.
  - injection E as <-. exact H.
  - cbn [flat_map] in E. apply all_some_app in E. destruct E as (s1 & s2 & E1 & E2 & ->). destruct x as [a|t|t|c]; try discriminate.
    + cbn [ast_of] in E1. change (?o :: ?l) with ([o] ++ l) in E1. apply all_some_app in E1. destruct E1 as (h & sa & EH & EA & ->).
      destruct (th_key (tb_header t)) as [k|] eqn:TK; [|discriminate]. cbn [header_of] in EH. destruct (is_some _); [|discriminate]. injection EH as <-.
      apply all_some_map in EA. cbn [app said_from decls_from ast_decls]. rewrite TK, <- texts_path. cbv zeta. rewrite <- (same_through _ _ H).
      set (p := through d [] (removelast (key_texts k)) ++ [SKey (last (key_texts k) [])]).
      assert (H1 : Forall2 same (d ++ supers d ByTable [] (removelast (key_texts k)) ++ [(p, RHeader)])
                     (d' ++ outer_keys d' ByTable [] (removelast (key_texts k)) ++ [(p, PHeader)])).
      { apply Forall2_app; [exact H|]. apply Forall2_app; [apply same_supers; exact H|]. constructor; [split; reflexivity|constructor]. }
      destruct (same_assigns p _ _ EA _ _ s2 H1) as (d2 & E3 & S3). rewrite E3. apply (IH _ E2).
      replace (d ++ supers d ByTable [] (removelast (key_texts k)) ++ (p, RHeader) :: flat_map (assign_decls p) (tb_assigns t))
        with ((d ++ supers d ByTable [] (removelast (key_texts k)) ++ [(p, RHeader)]) ++ flat_map (assign_decls p) (tb_assigns t)) by (rewrite <- !app_assoc; reflexivity).
      apply Forall2_app; assumption.
    + cbn [ast_of] in E1. change (?o :: ?l) with ([o] ++ l) in E1. apply all_some_app in E1. destruct E1 as (h & sa & EH & EA & ->).
      destruct (ah_key (ae_header t)) as [k|] eqn:TK; [|discriminate]. cbn [header_of] in EH. destruct (_ && _) in EH; [|discriminate]. injection EH as <-.
      apply all_some_map in EA. cbn [app said_from decls_from ast_decls]. rewrite TK, <- texts_path. cbv zeta. rewrite <- (same_through _ _ H).
      set (p := through d [] (removelast (key_texts k)) ++ [SKey (last (key_texts k) [])]). rewrite <- (same_tables _ _ H). set (e := p ++ [SIdx (arrays_at d p)]).
      assert (H1 : Forall2 same (d ++ supers d ByArray [] (removelast (key_texts k)) ++ [(p, RArray); (e, RElem)])
                     (d' ++ outer_keys d' ByArray [] (removelast (key_texts k)) ++ [(p, PArray); (e, PElem)])).
      { apply Forall2_app; [exact H|]. apply Forall2_app; [apply same_supers; exact H|]. constructor; [split; reflexivity|]. constructor; [split; reflexivity|constructor]. }
      destruct (same_assigns e _ _ EA _ _ s2 H1) as (d2 & E3 & S3). rewrite E3. apply (IH _ E2).
      replace (d ++ supers d ByArray [] (removelast (key_texts k)) ++ (p, RArray) :: (e, RElem) :: flat_map (assign_decls e) (ae_assigns t))
        with ((d ++ supers d ByArray [] (removelast (key_texts k)) ++ [(p, RArray); (e, RElem)]) ++ flat_map (assign_decls e) (ae_assigns t)) by (rewrite <- !app_assoc; reflexivity).
      apply Forall2_app; assumption.
    + injection E1 as <-. cbn [app decls_from ast_decls]. rewrite app_nil_r. exact (IH _ E2 _ _ _ H).
Qed.
Lemma same_doc input a es d : lex_and_parse input = Ok (a, es) -> doc_of a = Some d -> Forall2 same (doc_decls (as_asts a)) (said_by d).
Proof.
  intros E D. destruct (doc_split _ _ _ E) as (u & v & EA & U & V0). unfold doc_of in D. unfold doc_decls, said_by. rewrite EA in *.
  rewrite flat_map_app in D. apply all_some_app in D. destruct D as (s1 & s2 & E1 & E2 & ->). rewrite decls_app.
  destruct (same_roots u U _ E1 [] [] s2 (Forall2_nil _)) as (d2 & -> & S2). exact (same_headers v V0 _ E2 _ _ _ S2).
Qed.

(** ** Contents *)
Lemma same_in d d' p r : Forall2 same d d' -> In (p, r) d -> exists r', In (p, r') d' /\ part_of r = Some r'.
Proof.
  induction 1 as [|[q x] [q' y] d d' (E1 & E2) H IH]; [intros []|]. cbn [fst snd] in *. subst q'. intros [E|E].
  - injection E as <- <-. exists y. split; [left; reflexivity|exact E2].
  - destruct (IH E) as (r' & A & B). exists r'. split; [right; exact A|exact B].
Qed.
Lemma same_in' d d' p r' : Forall2 same d d' -> In (p, r') d' -> exists r, In (p, r) d /\ part_of r = Some r'.
Proof.
  induction 1 as [|[q x] [q' y] d d' (E1 & E2) H IH]; [intros []|]. cbn [fst snd] in *. subst q'. intros [E|E].
  - injection E as <- <-. exists x. split; [left; reflexivity|exact E2].
  - destruct (IH E) as (r & A & B). exists r. split; [right; exact A|exact B].
Qed.
Lemma same_below d d' p : Forall2 same d d' -> forall l, keys_below p d l <-> said_below p d' l.
Proof.
  induction 1 as [|[q x] [q' y] d d' (E1 & E2) H IH]; intros l.
  - split; intros X; inversion X; constructor.
  - cbn [fst snd] in *. subst q'. split; intros X.
    + inversion X as [|k r d0 l0 X0|q0 r d0 l0 NK X0]; subst; [apply sb_key|apply sb_skip; [assumption|]]; apply IH; assumption.
    + inversion X as [|k r d0 l0 X0|q0 r d0 l0 NK X0]; subst; [apply kb_key|apply kb_skip; [assumption|]]; apply IH; assumption.
Qed.
(** What a content of the map is as a holding. *)
Definition holding_is (c : content) (h : holding) : Prop :=
  match c with
  | CTable ks => h = HTable ks
  | CArray n => h = HArray n
  | CScalar v => exists t, val_of v = Some t /\ scalar_tval t /\ h = HScalar t
  end.
Lemma val_tab v t : val_of v = Some t -> match v, t with
  | VTable _ _ _, TvTab _ => True
  | VArray _ _ l _, TvArr l' => length l = length l'
  | VTable _ _ _, _ | VArray _ _ _ _, _ => False
  | _, _ => scalar_tval t
  end.
Proof.
  destruct v; cbn [val_of]; try discriminate; try (intros E; injection E as <-; exact I).
  - destruct (closed _); [|discriminate]. destruct (all_some _); [|discriminate]. intros E. injection E as <-. exact I.
  - destruct (closed _); [|discriminate]. destruct (all_some _) as [r|] eqn:A; [|discriminate]. intros E. injection E as <-. apply all_some_map in A. clear - A. induction A as [|x y l r E A IH]; [reflexivity|]. cbn [length]. rewrite IH. reflexivity.
Qed.
Lemma declared_holds d d' p c : Forall2 same d d' -> declared d p c -> exists h, holding_is c h /\ holds_at d' p h.
Proof.
  intros H [l ks W K F|I0|c0 lp l e I0|v I0 SV].
  - exists (HTable ks). split; [reflexivity|]. apply ha_table with l; [|apply (same_below _ _ _ H); exact K|exact F].
    destruct W as [W|(r & I0 & W)]; [left; exact W|]. right. destruct (same_in _ _ _ _ H I0) as (r' & I1 & E). exists r'. split; [exact I1|].
    destruct r as [h| | | |v]; try contradiction; try (injection E as <-; exact I). destruct v; try contradiction. cbn [part_of] in E. destruct (val_of _) as [t|] eqn:V0; [|discriminate].
    injection E as <-. apply val_tab in V0. destruct t; try contradiction. exact I.
  - rewrite (same_tables _ _ H). exists (HArray (tables_at d' p)). split; [reflexivity|]. apply ha_tables. destruct (same_in _ _ _ _ H I0) as (r' & I1 & E). injection E as <-. exact I1.
  - destruct (same_in _ _ _ _ H I0) as (r' & I1 & E). cbn [part_of] in E. destruct (val_of _) as [t|] eqn:V0; [|discriminate]. injection E as <-. apply val_tab in V0.
    destruct t as [| | | | |l'|]; try contradiction. exists (HArray (N.of_nat (length l))). split; [reflexivity|]. rewrite V0. apply ha_array. exact I1.
  - destruct (same_in _ _ _ _ H I0) as (r' & I1 & E). cbn [part_of] in E. destruct (val_of v) as [t|] eqn:V0; [|discriminate]. injection E as <-.
    assert (ST : scalar_tval t) by (pose proof (val_tab _ _ V0) as X; destruct v; try contradiction; exact X).
    exists (HScalar t). split; [exists t; auto|]. apply ha_scalar; assumption.
Qed.
Lemma holds_declared d d' p h : Forall2 same d d' -> holds_at d' p h -> exists c, holding_is c h /\ declared d p c.
Proof.
  intros H [l ks W K F|I0|l I0|t I0 SV].
  - exists (CTable ks). split; [reflexivity|]. apply dc_table with l; [|apply (same_below _ _ _ H); exact K|exact F].
    destruct W as [W|(r' & I0 & W)]; [left; exact W|]. right. destruct (same_in' _ _ _ _ H I0) as (r & I1 & E). exists r. split; [exact I1|].
    destruct r as [hv| | | |v]; try exact I; [injection E as <-; contradiction|]. cbn [part_of] in E. destruct (val_of v) as [t|] eqn:V0; [|discriminate].
    injection E as <-. apply val_tab in V0. destruct t; try contradiction. destruct v; try contradiction; exact I.
  - exists (CArray (tables_at d' p)). split; [reflexivity|]. rewrite <- (same_tables _ _ H). apply dc_tables. destruct (same_in' _ _ _ _ H I0) as (r & I1 & E).
    destruct r as [hv| | | |v]; try discriminate; [exact I1|]. cbn [part_of] in E. destruct (val_of v); discriminate.
  - destruct (same_in' _ _ _ _ H I0) as (r & I1 & E). destruct r as [hv| | | |v]; try discriminate. cbn [part_of] in E. destruct (val_of v) as [t|] eqn:V0; [|discriminate].
    injection E as ->. apply val_tab in V0. destruct v; try contradiction. exists (CArray (N.of_nat (length l))). split; [reflexivity|]. rewrite <- V0. eapply dc_array. exact I1.
  - destruct (same_in' _ _ _ _ H I0) as (r & I1 & E). destruct r as [hv| | | |v]; try discriminate. cbn [part_of] in E. destruct (val_of v) as [t0|] eqn:V0; [|discriminate].
    injection E as ->. exists (CScalar v). split; [exists t; auto|]. apply dc_scalar; [exact I1|]. apply val_tab in V0. destruct v; try exact I; destruct t; contradiction.
Qed.
Lemma same_before d d' x' y' : Forall2 same d d' -> before d' x' y' -> exists x y, before d x y /\ same x x' /\ same y y'.
Proof.
  intros H (u & v & w & ->). apply Forall2_app_inv_r in H. destruct H as (u0 & r0 & _ & H & ->). inversion H as [|x x0 r1 r2 SX H' E1 E2]; subst.
  apply Forall2_app_inv_r in H'. destruct H' as (v0 & r9 & _ & H' & ->). inversion H' as [|y y0 r3 r4 SY _ E1 E2]; subst.
  exists x, y. split; [exists u0, v0, r3; reflexivity|]. split; assumption.
Qed.
Lemma same_before' d d' x y : Forall2 same d d' -> before d x y -> exists x' y', before d' x' y' /\ same x x' /\ same y y'.
Proof.
  intros H (u & v & w & ->). apply Forall2_app_inv_l in H. destruct H as (u0 & r0 & _ & H & ->). inversion H as [|x0 x' r1 r2 SX H' E1 E2]; subst.
  apply Forall2_app_inv_l in H'. destruct H' as (v0 & r9 & _ & H' & ->). inversion H' as [|y0 y' r3 r4 SY _ E1 E2]; subst.
  exists x', y'. split; [exists u0, v0, r4; reflexivity|]. split; assumption.
Qed.
Lemma same_clash a b a' b' : part_of a = Some a' -> part_of b = Some b' -> clash a b = conflict a' b'.
Proof.
  destruct a as [h| | | |v], b as [h'| | | |v']; cbn [part_of]; try (destruct (val_of v); [|discriminate]); try (destruct (val_of v'); [|discriminate]); cbn [option_map];
    intros E1 E2; injection E1 as <-; injection E2 as <-; reflexivity.
Qed.
Lemma same_consistent d d' : Forall2 same d d' ->
  ((exists x y, before d x y /\ fst x = fst y /\ clash (snd x) (snd y) = true) <-> (exists x y, before d' x y /\ fst x = fst y /\ conflict (snd x) (snd y) = true)).
Proof.
  intros H. split; intros (x & y & B & E & C).
  - destruct (same_before' _ _ _ _ H B) as (x' & y' & B' & (E1 & P1) & (E2 & P2)). exists x', y'. split; [exact B'|]. split; [congruence|]. rewrite <- (same_clash _ _ _ _ P1 P2). exact C.
  - destruct (same_before _ _ _ _ H B) as (x' & y' & B' & (E1 & P1) & (E2 & P2)). exists x', y'. split; [exact B'|]. split; [congruence|]. rewrite (same_clash _ _ _ _ P1 P2). exact C.
Qed.

(** ** The printed value *)
Lemma sinsert_new t k v : ~ In k (map fst t) -> sinsert t k v = t ++ [(k, v)].
Proof.
  induction t as [|[k' v'] t IH]; intros H; [reflexivity|]. cbn [sinsert app]. destruct (bytes_eqb k' k) eqn:E.
  - exfalso. apply H. left. apply MapWf.bytes_eqb_eq. exact E.
  - rewrite IH; [reflexivity|]. intros X. apply H. right. exact X.
Qed.
Lemma from_iter_id l : NoDup (map fst l) -> from_iter l = l.
Proof.
  unfold from_iter. assert (G : forall l t, NoDup (map fst (t ++ l)) -> fold_left (fun t kv => sinsert t (fst kv) (snd kv)) l t = t ++ l).
  { clear. induction l as [|[k v] l IH]; intros t H; [rewrite app_nil_r; reflexivity|]. cbn [fold_left fst snd]. rewrite sinsert_new.
    - rewrite IH; rewrite <- app_assoc; [reflexivity|exact H].
    - rewrite map_app in H. cbn [map fst] in H. apply NoDup_remove_2 in H. intros X. apply H. apply in_or_app. left. exact X. }
  intros H. apply (G l []). exact H.
Qed.
Definition simple_entries (t : mtable) : list (list N * sval) := map (fun ke => (fst ke, map_simple_val (e_node (snd ke)))) t.
Lemma simple_fst t : map fst (simple_entries t) = map fst t.
Proof. unfold simple_entries. rewrite map_map. apply map_ext. reflexivity. Qed.
Lemma simple_get t k : sget (simple_entries t) k = option_map (fun e => map_simple_val (e_node e)) (tget t k).
Proof.
  induction t as [|[k' e] t IH]; [reflexivity|]. cbn [simple_entries map sget tget fst snd]. destruct (list_eq_dec N.eq_dec k' k) as [->|NE].
  - rewrite (proj2 (MapWf.bytes_eqb_eq k k) eq_refl). reflexivity.
  - destruct (bytes_eqb k' k) eqn:E; [apply MapWf.bytes_eqb_eq in E; contradiction|]. exact IH.
Qed.
Section Nice.
Context (P : value -> Prop) (Q : avalue -> Prop).
Lemma simple_table t : nice P Q (NTable t) -> map_simple t = simple_entries t.
Proof. intros H. apply nice_table in H. unfold map_simple. apply from_iter_id. fold (simple_entries t). rewrite simple_fst. exact (proj1 H). Qed.
Lemma simple_at : forall p n, nice P Q n -> sval_at p (map_simple_val n) = option_map map_simple_val (node_at p n).
Proof.
  induction p as [|s p IH]; intros n H; [reflexivity|]. destruct s as [k|i]; destruct n as [t|es|pa v es|v]; cbn [sval_at node_at]; try reflexivity.
  - change (map_simple_val (NTable t)) with (STable (map_simple t)). cbv iota beta. rewrite (simple_table _ H), simple_get. destruct (tget t k) as [e|] eqn:G; [|reflexivity]. cbn [option_map].
    apply IH. exact (nice_get _ _ _ _ _ H G).
  - destruct v; reflexivity.
  - cbn [map_simple_val]. rewrite nth_error_map. destruct (nth_error es (N.to_nat i)) as [e|] eqn:G; [|reflexivity]. cbn [option_map].
    change (STable (from_iter _)) with (map_simple_val (NTable (te_table e))). apply IH. apply nice_top in H. rewrite Forall_forall in H. exact (H _ (nth_error_In _ _ G)).
  - cbn [map_simple_val]. rewrite nth_error_map. destruct (nth_error es (N.to_nat i)) as [e|] eqn:G; [|reflexivity]. cbn [option_map].
    apply IH. apply nice_inline in H. rewrite Forall_forall in H. exact (proj2 (H _ (nth_error_In _ _ G))).
  - destruct v; reflexivity.
Qed.
Lemma simple_holding n h : nice P Q n -> (forall v, n = NScalar v -> is_scalar_val v) ->
  (holding_is (content_of n) h <-> holding_of (map_simple_val n) = Some h).
Proof.
  intros H SV. destruct n as [t|es|pa v es|v].
  - change (map_simple_val (NTable t)) with (STable (map_simple t)). rewrite (simple_table _ H). cbn [content_of holding_is holding_of]. rewrite simple_fst. split; congruence.
  - cbn [content_of holding_is holding_of map_simple_val]. rewrite map_length. split; congruence.
  - cbn [content_of holding_is holding_of map_simple_val]. rewrite map_length. split; congruence.
  - specialize (SV v eq_refl). cbn [content_of holding_is]. destruct v as [l s t o q|l s z|l s f|s b|l s d|p l e|r p l e|l s]; try contradiction; cbn [val_of map_simple_val simple_scalar holding_of].
    6: split; [intros (t & E & _); discriminate|discriminate].
    all: split; [intros (t' & E & _ & ->); injection E as <-; reflexivity|intros E; injection E as <-; eexists; split; [reflexivity|]; split; [exact I|reflexivity]].
Qed.
End Nice.

(** Two values with the same things at every place are the same. *)
Fixpoint distinct_keys (v : sval) : Prop :=
  match v with
  | STable t => NoDup (map fst t) /\ All (fun x => distinct_keys (snd x)) t
  | SArray l => All distinct_keys l
  | _ => True
  end.
Lemma same_values v : forall v', distinct_keys v -> (forall p, option_map holding_of (sval_at p v) = option_map holding_of (sval_at p v')) ->
  (forall p x, sval_at p v = Some x -> holding_of x <> None) -> v = v'.
Proof.
  revert v. fix IH 1. intros v v' D A NI. pose proof (A []) as A0. cbn [sval_at option_map] in A0. injection A0 as A0.
  destruct v as [t|l|s|z|f|b|d|s]; try (destruct v'; cbn [holding_of] in A0; try discriminate; injection A0 as <-; reflexivity).
  - destruct v' as [t'| | | | | | |]; cbn [holding_of] in A0; try discriminate. injection A0 as A0. f_equal. destruct D as [ND D].
    assert (A1 : forall k, match sget t k, sget t' k with
       | Some x, Some x' => forall p, option_map holding_of (sval_at p x) = option_map holding_of (sval_at p x') | None, None => True | _, _ => False end).
    { intros k. destruct (sget t k) as [x|] eqn:G; destruct (sget t' k) as [x'|] eqn:G'; try exact I.
      - intros p. specialize (A (SKey k :: p)). cbn [sval_at] in A. rewrite G, G' in A. exact A.
      - specialize (A [SKey k]). cbn [sval_at] in A. rewrite G, G' in A. discriminate.
      - specialize (A [SKey k]). cbn [sval_at] in A. rewrite G, G' in A. discriminate. }
    assert (N1 : forall k x p y, sget t k = Some x -> sval_at p x = Some y -> holding_of y <> None).
    { intros k x p y G Y. apply (NI (SKey k :: p)). cbn [sval_at]. rewrite G. exact Y. }
    clear A NI. revert t' A0 ND A1 N1. revert D. induction t as [|[k v] t IHt]; intros D t' A0 ND A1 N1.
    + destruct t'; [reflexivity|discriminate].
    + destruct t' as [|[k' v'] t']; [discriminate|]. cbn [map fst] in A0. injection A0 as <- A0. destruct D as [D1 D2]. cbn [map fst] in ND.
      apply NoDup_cons_iff in ND. destruct ND as [NK ND]. f_equal.
      * f_equal. apply IH; [exact D1| |].
        -- intros p. specialize (A1 k). cbn [sget] in A1. destruct (list_eq_dec N.eq_dec k k); [|contradiction]. apply A1.
        -- intros p x. apply (N1 k). cbn [sget]. destruct (list_eq_dec N.eq_dec k k); [reflexivity|contradiction].
      * apply IHt; [exact D2|exact A0|exact ND| |].
        -- intros k0. specialize (A1 k0). cbn [sget] in A1. destruct (list_eq_dec N.eq_dec k k0) as [<-|NE]; [|exact A1].
           assert (X : forall (u : list (list N * sval)), ~ In k (map fst u) -> sget u k = None).
           { clear. induction u as [|[k0 v0] u IH]; intros H; [reflexivity|]. cbn [sget]. destruct (list_eq_dec N.eq_dec k0 k) as [->|]; [exfalso; apply H; left; reflexivity|].
             apply IH. intros X. apply H. right. exact X. }
           rewrite !X; [exact I| |]; [rewrite <- A0|]; exact NK.
        -- intros k0 x p y G. apply (N1 k0). cbn [sget]. destruct (list_eq_dec N.eq_dec k k0) as [<-|NE]; [|exact G].
           exfalso. apply NK. clear - G. induction t as [|[k0 v0] t IH]; [discriminate|]. cbn [sget] in G. destruct (list_eq_dec N.eq_dec k0 k) as [->|]; [left; reflexivity|right; exact (IH G)].
  - destruct v' as [|l'| | | | | |]; cbn [holding_of] in A0; try discriminate. injection A0 as A0. apply Nat2N.inj in A0. f_equal. cbn [distinct_keys] in D.
    assert (A1 : forall i, match nth_error l i, nth_error l' i with
       | Some x, Some x' => forall p, option_map holding_of (sval_at p x) = option_map holding_of (sval_at p x') | _, _ => True end).
    { intros i. destruct (nth_error l i) as [x|] eqn:G; [|exact I]. destruct (nth_error l' i) as [x'|] eqn:G'; [|exact I].
      intros p. specialize (A (SIdx (N.of_nat i) :: p)). cbn [sval_at] in A. rewrite Nat2N.id, G, G' in A. exact A. }
    assert (N1 : forall i x p y, nth_error l i = Some x -> sval_at p x = Some y -> holding_of y <> None).
    { intros i x p y G Y. apply (NI (SIdx (N.of_nat i) :: p)). cbn [sval_at]. rewrite Nat2N.id, G. exact Y. }
    clear A NI. revert l' A0 A1 N1. revert D. induction l as [|v l IHl]; intros D l' A0 A1 N1.
    + destruct l'; [reflexivity|discriminate].
    + destruct l' as [|v' l']; [discriminate|]. cbn [length] in A0. injection A0 as A0. destruct D as [D1 D2]. f_equal.
      * apply IH; [exact D1| |]; [exact (A1 O)|]. intros p x. apply (N1 O). reflexivity.
      * apply IHl; [exact D2|exact A0| |]; [intros i; exact (A1 (S i))|]. intros i x p y G. exact (N1 (S i) x p y G).
  - exfalso. apply (NI [] (SInvalid s) eq_refl). reflexivity.
Qed.
Lemma simple_distinct P Q n : nice P Q n -> distinct_keys (map_simple_val n).
Proof.
  revert n. fix IH 1. intros n H. destruct n as [t|es|pa v es|v].
  - change (map_simple_val (NTable t)) with (STable (map_simple t)). rewrite (simple_table _ _ _ H). apply nice_table in H. destruct H as [ND H]. split; [rewrite simple_fst; exact ND|].
    clear ND. induction t as [|[k [n rs]] t IHt]; [exact I|]. split; [|exact (IHt (Forall_inv_tail H))]. cbn. apply IH. exact (Forall_inv H).
  - cbn [map_simple_val distinct_keys]. apply nice_top in H. induction es as [|[t pa ra] es IHe]; [exact I|]. split; [|exact (IHe (Forall_inv_tail H))].
    apply Forall_inv in H. cbn [te_table] in H. change (STable (from_iter _)) with (STable (map_simple t)). rewrite (simple_table _ _ _ H). apply nice_table in H. destruct H as [ND H].
    split; [rewrite simple_fst; exact ND|].
    clear ND IHe. induction t as [|[k [n rs]] t IHt]; [exact I|]. split; [|exact (IHt (Forall_inv_tail H))]. cbn. apply IH. exact (Forall_inv H).
  - cbn [map_simple_val distinct_keys]. apply nice_inline in H. induction es as [|[n r] es IHe]; [exact I|]. split; [|exact (IHe (Forall_inv_tail H))]. cbn. apply IH. exact (proj2 (Forall_inv H)).
  - destruct v; exact I.
Qed.

(** ** A document and its map *)
Section Doc.
Context (input : list N) (a : asts) (es : list terror) (d : list stmt) (m : mtable).
Hypothesis PARSE : lex_and_parse input = Ok (a, es).
Hypothesis SAYS : doc_of a = Some d.

Lemma consistent_iff es' : map_doc (as_asts a) = Ok (m, es') -> (es' = [] <-> consistent d).
Proof.
  intros M. pose proof (C37_conflicts _ _ _ _ _ PARSE M) as C. rewrite (same_consistent _ _ (same_doc _ _ _ _ PARSE SAYS)) in C. split.
  - intros -> x y B E. destruct (conflict (snd x) (snd y)) eqn:F; [|reflexivity]. exfalso. apply (proj2 C); [exists x, y; auto|reflexivity].
  - intros H. destruct es' as [|e es']; [reflexivity|]. exfalso. destruct (proj1 C) as (x & y & B & E & F); [discriminate|]. rewrite (H _ _ B E) in F. discriminate.
Qed.
Hypothesis MAP : map_doc (as_asts a) = Ok (m, []).
Lemma map_niceness : nice (lit_ok input) any_elem (NTable m).
Proof. apply manifest_nice. exists a, es, []. split; assumption. Qed.
Lemma holds_iff p h : holds_at (said_by d) p h <-> exists x, sval_at p (STable (map_simple m)) = Some x /\ holding_of x = Some h.
Proof.
  change (STable (map_simple m)) with (map_simple_val (NTable m)). rewrite (simple_at _ _ _ _ map_niceness). pose proof (C36_contents _ _ _ _ PARSE MAP p) as C.
  pose proof (same_doc _ _ _ _ PARSE SAYS) as SD.
  assert (SV : forall n, node_at p (NTable m) = Some n -> nice (lit_ok input) any_elem n /\ forall v, n = NScalar v -> is_scalar_val v).
  { intros n E. split; [exact (nice_at _ _ _ _ _ E map_niceness)|]. intros v ->. specialize (C (CScalar v)). rewrite E in C. pose proof (proj1 C eq_refl) as D. inversion D. assumption. }
  split.
  - intros H. destruct (holds_declared _ _ _ _ SD H) as (c & HC & DC). apply C in DC. destruct (node_at p (NTable m)) as [n|] eqn:E; [|discriminate]. injection DC as DC.
    destruct (SV _ eq_refl) as [N0 S0]. exists (map_simple_val n). split; [reflexivity|]. apply (simple_holding _ _ _ _ N0 S0). rewrite DC. exact HC.
  - intros (x & E & H). destruct (node_at p (NTable m)) as [n|] eqn:E0; [|discriminate]. injection E as <-. destruct (SV _ eq_refl) as [N0 S0].
    apply (simple_holding _ _ _ _ N0 S0) in H. destruct (declared_holds _ _ _ _ SD (proj1 (C _) eq_refl)) as (h' & H1 & H2).
    assert (h' = h) as <-; [|exact H2]. destruct (content_of n); cbn [holding_is] in *; [congruence|congruence|]. destruct H as (t & T1 & _ & ->), H1 as (t' & T2 & _ & ->). congruence.
Qed.
Lemma map_means : means d (STable (map_simple m)).
Proof.
  intros p. destruct (sval_at p (STable (map_simple m))) as [x|] eqn:E.
  - assert (NI : holding_of x <> None).
    { pose proof E as E'. change (STable (map_simple m)) with (map_simple_val (NTable m)) in E'. rewrite (simple_at _ _ _ _ map_niceness) in E'.
      destruct (node_at p (NTable m)) as [n|] eqn:E0; [|discriminate]. injection E' as <-. pose proof (C36_contents _ _ _ _ PARSE MAP p (content_of n)) as C. rewrite E0 in C.
      destruct (declared_holds _ _ _ _ (same_doc _ _ _ _ PARSE SAYS) (proj1 C eq_refl)) as (h & H1 & H2). apply holds_iff in H2. destruct H2 as (x & X1 & X2). rewrite E in X1. congruence. }
    destruct (holding_of x) as [h|] eqn:H; [|congruence]. exists h. split; [reflexivity|]. apply holds_iff. eauto.
  - intros h H. apply holds_iff in H. destruct H as (x & X & _). congruence.
Qed.
Lemma means_map v : means d v -> v = STable (map_simple m).
Proof.
  intros M. symmetry. apply same_values.
  - exact (simple_distinct _ _ _ map_niceness).
  - intros p. pose proof (map_means p) as M1. specialize (M p). destruct (sval_at p (STable (map_simple m))) as [x|] eqn:E.
    + destruct M1 as (h & H1 & H2). destruct (sval_at p v) as [x'|]; [|destruct (M _ H2)]. destruct M as (h' & H3 & H4). apply holds_iff in H4. destruct H4 as (x0 & X1 & X2).
      cbn [option_map]. congruence.
    + destruct (sval_at p v) as [x'|]; [|reflexivity]. destruct M as (h' & _ & H4). destruct (M1 _ H4).
  - intros p x E. pose proof (map_means p) as M1. rewrite E in M1. destruct M1 as (h & H1 & _). congruence.
Qed.
End Doc.
